(** The order of the units behind a scheduling. *)
From Coq Require Import List Arith Bool Lia Permutation.
From Verif Require Import Model.Base Model.Graph Spec.GraphSpec Proofs.InterpBasics Proofs.Tarjan Proofs.GraphProofs Proofs.DfsOrder.
Import ListNotations.

Lemma Forall2_split_r : forall {A B} (R : A -> B -> Prop) l B1 s C, Forall2 R l (B1 ++ s :: C) ->
  exists b1 k c, l = b1 ++ k :: c /\ Forall2 R b1 B1 /\ R k s /\ Forall2 R c C.
Proof.
  intros A B R l B1 s C H. apply Forall2_app_inv_r in H. destruct H as (b1 & r & H1 & H2 & ->).
  inversion H2; subst. exists b1, x, l. auto.
Qed.
Lemma Forall2_split_l : forall {A B} (R : A -> B -> Prop) l b1 s c, Forall2 R (b1 ++ s :: c) l ->
  exists B1 k C, l = B1 ++ k :: C /\ Forall2 R b1 B1 /\ R s k /\ Forall2 R c C.
Proof.
  intros A B R l b1 s c H. apply Forall2_app_inv_l in H. destruct H as (B1 & r & H1 & H2 & ->).
  inversion H2; subst. exists B1, y, l'. auto.
Qed.

Lemma split_unique : forall {A} (b a : list A) s c c', NoDup (b ++ s :: c) -> b ++ s :: c = a ++ s :: c' -> a = b.
Proof.
  induction b as [|x b IH]; intros [|y a] s c c' N E; simpl in *; auto; inversion N as [|? ? X Y]; injection E; intros E1 E2; subst.
  - exfalso. apply X. apply in_app_iff. simpl. auto.
  - exfalso. apply X. apply in_app_iff. simpl. auto.
  - f_equal. eauto.
Qed.

Section Units.
  Context {Obj Unit : Type}.
  Variable unit_eqb : Unit -> Unit -> bool.
  Hypothesis eqb_spec : forall a b, unit_eqb a b = true <-> a = b.
  Variables provides requires : Obj -> list Unit.
  Variables (ext : list Unit) (objs : list Obj).

  Definition mentions (l : list Obj) : list Unit := ext ++ flat_map (fun o => provides o ++ requires o) l.

  (** [uentered s A]: the exploration enters [s] when it is done with the units [A]. *)
  Inductive uentered : Unit -> list Unit -> Prop :=
  | ue_root : forall s A, (forall o1 o2, objs = o1 ++ o2 -> ~ In s (mentions o1) -> incl (mentions o1) A) -> uentered s A
  | ue_child : forall p D o l1 s l2 A, uentered p D -> In o objs -> In p (provides o) -> requires o = l1 ++ s :: l2 ->
      incl D A -> incl l1 A -> uentered s A.

  (** ** Interning, again *)
  Lemma intern_set : forall u atoms k atoms', intern Unit unit_eqb u atoms = (k, atoms') ->
    (exists m, atoms' = atoms ++ m) /\ forall w, In w atoms' <-> In w atoms \/ w = u.
  Proof.
    intros u atoms k atoms' H. unfold intern in H. destruct (index_of Unit unit_eqb u atoms) eqn:E; inversion H; subst.
    - split; [exists []; rewrite app_nil_r; auto|]. intros w. split; auto. intros [J| ->]; auto.
      apply (index_of_some unit_eqb eqb_spec) in E. unfold uid_of in E. eapply nth_error_In; eauto.
    - split; [eauto|]. intros w. rewrite in_app_iff. simpl. intuition.
  Qed.
  Lemma interns_set : forall us atoms ks atoms', interns Unit unit_eqb us atoms = (ks, atoms') ->
    (exists m, atoms' = atoms ++ m) /\ forall w, In w atoms' <-> In w atoms \/ In w us.
  Proof.
    induction us as [|u us IH]; intros atoms ks atoms' H; simpl in H.
    - inversion H; subst. split; [exists []; rewrite app_nil_r; auto|]. simpl. tauto.
    - destruct (intern Unit unit_eqb u atoms) as [k at1] eqn:E1. destruct (interns Unit unit_eqb us at1) as [ks' at2] eqn:E2.
      inversion H; subst. apply intern_set in E1. destruct E1 as ((m1 & ->) & S1). apply IH in E2. destruct E2 as ((m2 & ->) & S2).
      split; [exists (m1 ++ m2); rewrite app_assoc; auto|]. intros w. rewrite S2, S1. simpl. intuition.
  Qed.

  Notation inserts := (fold_left (fun g o => insert Obj Unit unit_eqb provides requires o g)).
  Lemma inserts_set : forall l g,
    (exists m, g_atomics _ _ (inserts l g) = g_atomics _ _ g ++ m) /\
    forall w, In w (g_atomics _ _ (inserts l g)) <-> In w (g_atomics _ _ g) \/ In w (flat_map (fun o => provides o ++ requires o) l).
  Proof.
    induction l as [|o l IH]; intros g; simpl.
    - split; [exists []; rewrite app_nil_r; auto|tauto].
    - destruct (IH (insert Obj Unit unit_eqb provides requires o g)) as ((m & E) & S). rewrite E.
      unfold insert in *. destruct (interns Unit unit_eqb (provides o) (g_atomics Obj Unit g)) as [ps at1] eqn:E1.
      destruct (interns Unit unit_eqb (requires o) at1) as [rs at2] eqn:E2. simpl in *.
      apply interns_set in E1. destruct E1 as ((m1 & ->) & S1). apply interns_set in E2. destruct E2 as ((m2 & ->) & S2).
      split; [exists (m1 ++ m2 ++ m); rewrite !app_assoc; auto|].
      intros w. rewrite <- E, S, S2, S1. rewrite !in_app_iff. tauto.
  Qed.
  Lemma exts_set : forall l g w,
    In w (g_atomics _ _ (fold_left (fun g u => already_provided Obj Unit unit_eqb u g) l g)) <-> In w (g_atomics _ _ g) \/ In w l.
  Proof.
    induction l as [|u l IH]; intros g w; simpl; [tauto|]. rewrite IH. unfold already_provided.
    destruct (intern Unit unit_eqb u (g_atomics Obj Unit g)) as [k at1] eqn:E. apply intern_set in E. destruct E as (_ & S).
    simpl. rewrite S. intuition.
  Qed.
  Lemma must_more : forall must g g', must_provide_all Obj Unit unit_eqb must g = inl g' ->
    exists m, g_atomics _ _ g' = g_atomics _ _ g ++ m.
  Proof.
    induction must as [|u must IH]; intros g g' H; simpl in H.
    - inversion H; subst. exists []. rewrite app_nil_r. auto.
    - unfold must_provide in H. destruct (intern Unit unit_eqb u (g_atomics Obj Unit g)) as [k at1] eqn:E.
      apply intern_set in E. destruct E as ((m & ->) & _). destruct (existsb _ _); [|discriminate].
      apply IH in H. destruct H as (m' & ->). simpl. exists (m ++ m'). rewrite app_assoc. auto.
  Qed.

  (** The uids respect the order of the mentions. *)
  Lemma uid_order : forall must g, must_provide_all Obj Unit unit_eqb must
      (inserts objs (fold_left (fun g u => already_provided Obj Unit unit_eqb u g) ext (graph_empty Obj Unit))) = inl g ->
    forall o1 o2 w s i j, objs = o1 ++ o2 -> In w (mentions o1) -> ~ In s (mentions o1) ->
      uid_of (g_atomics _ _ g) i w -> uid_of (g_atomics _ _ g) j s -> NoDup (g_atomics _ _ g) -> i < j.
  Proof.
    intros must g H o1 o2 w s i j E W S Ui Uj ND. apply must_more in H. destruct H as (m & A).
    rewrite E, fold_left_app in A. set (g0 := fold_left _ ext _) in A.
    destruct (inserts_set o2 (inserts o1 g0)) as ((m2 & A2) & _). rewrite A2 in A.
    destruct (inserts_set o1 g0) as (_ & S1).
    assert (Mn : forall u, In u (g_atomics _ _ (inserts o1 g0)) <-> In u (mentions o1)).
    { intros u. rewrite S1. unfold g0. rewrite exts_set. simpl. unfold mentions. rewrite in_app_iff. tauto. }
    rewrite <- app_assoc in A. set (at1 := g_atomics _ _ (inserts o1 g0)) in *.
    unfold uid_of in *. rewrite A in *.
    assert (Li : i < length at1).
    { apply Mn in W. apply In_nth_error in W. destruct W as (k & Wk).
      assert (k < length at1) by eauto using nth_error_some_lt.
      assert (i = k); [|lia]. rewrite NoDup_nth_error in ND. apply ND; [eauto using nth_error_some_lt|].
      rewrite Ui. rewrite nth_error_app1 by auto. auto. }
    destruct (Nat.lt_ge_cases j (length at1)) as [L|L]; [|lia].
    exfalso. apply S. apply Mn. rewrite nth_error_app1 in Uj by auto. eapply nth_error_In; eauto.
  Qed.

  (** ** The order *)
  Lemma concat_single : forall (scc : list (list nat)), (forall c, In c scc -> exists u, c = [u]) ->
    forall us1 p us2, concat scc = us1 ++ p :: us2 -> exists pre post, scc = pre ++ [p] :: post /\ concat pre = us1.
  Proof.
    clear. induction scc as [|c scc IH]; intros H us1 p us2 E; simpl in E.
    - destruct us1; discriminate.
    - destruct (H c (or_introl eq_refl)) as (u & ->). simpl in E. destruct us1 as [|a us1]; simpl in E; inversion E; subst.
      + exists [], scc. auto.
      + destruct (IH (fun c J => H c (or_intror J)) us1 p us2 H2) as (pre & post & -> & <-).
        exists ([a] :: pre), post. auto.
  Qed.

  Theorem unit_order : forall must out, schedule Obj Unit unit_eqb provides requires ext objs must = inl out ->
    exists us, NoDup us /\ incl (mentions objs) us /\
      (forall B s C, us = B ++ s :: C -> exists A B', B = A ++ B' /\ uentered s A) /\
      (forall B s C o, us = B ++ s :: C -> In o objs -> In s (provides o) -> incl (requires o) B) /\
      (forall B s C o o' u, us = B ++ s :: C -> In o objs -> provides o = [s] -> In o' objs -> In u (provides o') -> In u B ->
         forall k k', nth_error out k = Some o -> nth_error out k' = Some o' -> k' < k).
  Proof.
    intros must out H. unfold schedule in H.
    assert (G0 : Gok provides requires [] [] (graph_empty Obj Unit)) by (constructor; simpl; constructor).
    pose proof (insert_gok unit_eqb eqb_spec provides requires objs _ _ _ (ext_gok unit_eqb eqb_spec provides requires ext _ _ G0)) as G. simpl in G.
    set (g0 := fold_left _ objs _) in *.
    destruct (must_provide_all Obj Unit unit_eqb must g0) as [g|e] eqn:Em; [|discriminate].
    pose proof (uid_order must g Em) as UO.
    pose proof (must_ok unit_eqb eqb_spec provides requires must ext objs g0 G) as M. rewrite Em in M. destruct M as [G1 Cm].
    clear G. unfold scheduling in H. rewrite (k_elems _ _ _ _ _ G1) in H.
    destruct (add_objects _ _ _ _ _) as [[provider cs]|e] eqn:A; [|discriminate].
    pose proof (tables_built provides requires ext objs g G1 provider cs A) as B.
    pose proof (edge_target provides requires ext objs g provider cs B) as Tg.
    destruct (sccs_ok cs Tg) as (scc & S & Perm & Comps). rewrite S in H.
    destruct (take_objects Obj provider scc (map Some objs) []) as [[unused out1]|e] eqn:T; [|discriminate].
    inversion H; subst out. clear H.
    pose proof (scheduled_pos provides requires ext objs g G1 provider cs B scc unused out1 S T) as ((PermO & MapO) & _ & Ord1).
    assert (U0 : unused_at objs [] (map Some objs)).
    { intros k. rewrite nth_error_map. simpl. destruct (nth_error objs k); auto. }
    destruct (take_ok objs _ _ _ _ _ _ _ (prov_lt provides requires ext objs g provider cs B) U0 T) as (Single & os & Eos & Mos & _).
    simpl in Eos. subst os.
    pose proof (k_nodup _ _ _ _ _ G1) as ND. set (atoms := g_atomics Obj Unit g) in *.
    pose proof B as (Lc & Bp & Bc & Bi & SA). fold atoms in Lc, Bp, Bc.
    set (nus := concat scc) in *.
    assert (NDn : NoDup nus). { eapply Permutation_NoDup; [apply Permutation_sym; exact Perm|apply seq_NoDup]. }
    (* edges go backwards *)
    assert (Back : forall B1 p C r, nus = B1 ++ p :: C -> edge cs p r -> In r B1).
    { intros B1 p C r E Er. destruct (concat_single scc Single _ _ _ E) as (pre & post & Es & Ep).
      destruct (Comps pre [p] post Es) as (_ & _ & Cl).
      destruct (Cl p r (or_introl eq_refl) Er) as [[->|[]]|J]; [|rewrite Ep in J; auto].
      exfalso. eapply (edge_irrefl provides requires ext objs g); eauto. }
    assert (BackR : forall u w, reach cs u w -> forall B1 C, nus = B1 ++ u :: C -> w = u \/ In w B1).
    { induction 1 as [u|u v w E R IH]; intros B1 C Eq; auto. right.
      pose proof (Back _ _ _ _ Eq E) as J. apply in_split in J. destruct J as (b1 & b2 & ->).
      rewrite <- app_assoc in Eq. simpl in Eq. rewrite in_app_iff. simpl. destruct (IH _ _ Eq); auto. }
    assert (InN : forall v, v < length cs -> In v nus).
    { intros v L. eapply Permutation_in; [apply Permutation_sym; exact Perm|]. apply in_seq. lia. }
    assert (Nc : forall u w, reach cs u w -> reach cs w u -> u = w).
    { intros u w R1 R2. destruct (Nat.eq_dec u w) as [|N]; auto. exfalso.
      assert (Lu : u < length cs). { inversion R1; subst; [congruence|]. destruct H as (l & H & _). eauto using nth_error_some_lt. }
      pose proof (InN u Lu) as J. apply in_split in J. destruct J as (b1 & b2 & E).
      destruct (BackR _ _ R1 _ _ E) as [->|J]; [congruence|]. apply in_split in J. destruct J as (c1 & c2 & ->).
      rewrite <- app_assoc in E. simpl in E. destruct (BackR _ _ R2 _ _ E) as [->|J]; [congruence|].
      rewrite E in NDn.
      assert (X : forall l1 l2 : list nat, NoDup (l1 ++ w :: c2 ++ u :: l2) -> ~ In u l1).
      { clear. intros l1 l2 N I. apply in_split in I. destruct I as (x & y & ->). rewrite <- app_assoc in N. simpl in N.
        apply NoDup_remove_2 in N. apply N. rewrite !in_app_iff. simpl. rewrite in_app_iff. simpl. tauto. }
      eapply X; eauto. }
    pose proof (sccs_explained cs Nc (edge_irrefl provides requires ext objs g provider cs B) scc S) as Ex. fold nus in Ex.
    (* from uids to units *)
    assert (Us : exists us, Forall2 (uid_of atoms) nus us).
    { assert (F : Forall (fun k => k < length atoms) nus).
      { apply Forall_forall. intros k J. eapply Permutation_in in J; [|exact Perm]. apply in_seq in J. rewrite Lc in J. lia. }
      clear - F. induction F as [|k l L F (us & IH)]; [exists []; constructor|].
      destruct (nth_error atoms k) as [u|] eqn:E; [|apply nth_error_None in E; lia]. exists (u :: us). constructor; auto. }
    destruct Us as (us & Fu). exists us.
    assert (All : forall o u, In o objs -> In u (provides o) \/ In u (requires o) -> exists k, uid_of atoms k u).
    { intros o u J K. apply In_nth_error in J. destruct J as (i & J).
      destruct (obj_pair provides requires ext objs g G1 i o J) as (ps & rs & _ & F1 & F2).
      destruct K as [K|K]; [destruct (uids_exist _ _ _ _ F1 K) as (k & _ & E)|destruct (uids_exist _ _ _ _ F2 K) as (k & _ & E)]; eauto. }
    assert (Cmp : forall k u, uid_of atoms k u -> In u us).
    { intros k u E. apply (uids_in atoms nus us k u ND Fu E). apply InN. rewrite Lc. eapply uid_lt; eauto. }
    assert (MenU : forall u, In u (mentions objs) -> exists k, uid_of atoms k u).
    { intros u J. unfold mentions in J. apply in_app_iff in J. destruct J as [J|J].
      - apply in_rev in J. destruct (uids_exist _ _ _ _ (k_ext _ _ _ _ _ G1) J) as (k & _ & E). eauto.
      - apply in_flat_map in J. destruct J as (o & J & K). apply in_app_iff in K. eauto. }
    (* the tables list the requirements in order *)
    assert (Exact : forall p l, nth_error cs p = Some l -> l <> [] -> exists k o u, nth_error objs k = Some o /\ uid_of atoms p u /\
        In u (provides o) /\ Forall2 (uid_of atoms) l (requires o)).
    { intros p l Np Nl. pose proof A as A'. apply add_objects_ok in A'; [|rewrite !repeat_length; auto].
      destruct A' as (_ & _ & _ & _ & E & F).
      assert (Nil : cstr (repeat [] (length atoms)) p = []).
      { unfold cstr. destruct (nth_error (repeat [] (length atoms)) p) eqn:Er; auto. apply nth_repeat_inv in Er. auto. }
      assert (Cp : cstr cs p = l) by (unfold cstr; rewrite Np; auto).
      destruct (in_dec Nat.eq_dec p (concat (map fst (combine (g_provide _ _ g) (g_require _ _ g))))) as [J|J].
      - apply in_concat in J. destruct J as (ps & J & K). apply in_map_iff in J.
        destruct J as ((ps', rs) & <- & J). simpl in K. apply In_nth_error in J. destruct J as (k & J).
        destruct (E _ _ _ _ J K) as (_ & _ & Q). rewrite Nil in Q. simpl in Q. rewrite Cp in Q. subst rs.
        destruct (pair_nth provides requires ext objs g G1 _ _ _ J) as (o & No & F1 & F2).
        destruct (uids_exist' _ _ _ _ F1 K) as (u & Ju & Eu). exists k, o, u. auto.
      - destruct (F p J) as [_ Q]. rewrite Nil in Q. congruence. }
    split; [apply (uids_nodup atoms nus us ND Fu); auto|].
    split; [intros u J; destruct (MenU u J) as (k & E); eauto|].
    split; [|split].
    - assert (Lift : forall s A1, entered cs s A1 -> forall u Au, uid_of atoms s u -> Forall2 (uid_of atoms) A1 Au -> uentered u Au).
      { intros s A1 En. induction En as [s A1 Hr|p D l1 s l2 A1 En IH Ng ID Il]; intros u Au Eu FA.
        - apply ue_root. intros o1 o2 Eo Nu w Jw.
          assert (Jw' : In w (mentions objs)).
          { unfold mentions in *. rewrite Eo, flat_map_app. apply in_app_iff in Jw. rewrite !in_app_iff. tauto. }
          destruct (MenU w Jw') as (i & Ei).
          apply (uids_in atoms A1 Au i w ND FA Ei). apply Hr. eapply UO; eauto.
        - destruct (Exact p (l1 ++ s :: l2) Ng) as (k & o & up & No & Eup & Jup & Fr); [destruct l1; discriminate|].
          apply Forall2_split_l in Fr. destruct Fr as (L1 & u' & L2 & Er & F1 & Es & F2).
          assert (u' = u) by (eapply uid_fun; eauto). subst u'.
          assert (ED : exists Du, Forall2 (uid_of atoms) D Du).
          { clear - ID FA. induction D as [|d D IHD]; [exists []; constructor|].
            destruct IHD as (Du & IHD); [intros a J; apply ID; simpl; auto|].
            destruct (uids_exist' atoms A1 Au d FA (ID d (or_introl eq_refl))) as (ud & _ & Ed). exists (ud :: Du). constructor; auto. }
          destruct ED as (Du & FD).
          eapply (ue_child up Du o L1 u L2); eauto using nth_error_In.
          + intros w Jw. destruct (uids_exist _ _ _ _ FD Jw) as (i & Ji & Ei). apply (uids_in atoms A1 Au i w ND FA Ei). auto.
          + intros w Jw. destruct (uids_exist _ _ _ _ F1 Jw) as (i & Ji & Ei). apply (uids_in atoms A1 Au i w ND FA Ei). auto. }
      intros B1 s C E. rewrite E in Fu. apply Forall2_split_r in Fu. destruct Fu as (b1 & k & c & En & F1 & Ek & F2).
      destruct (Ex b1 k c En) as (a & b' & -> & Ent). apply Forall2_app_inv_l in F1. destruct F1 as (Au & Bu & FA & FB & ->).
      exists Au, Bu. split; auto. eapply Lift; eauto.
    - intros B1 s C o E Jo Js w Jw. rewrite E in Fu. apply Forall2_split_r in Fu. destruct Fu as (b1 & k & c & En & F1 & Ek & F2).
      apply In_nth_error in Jo. destruct Jo as (i & Ni).
      destruct (All o w (nth_error_In _ _ Ni) (or_intror Jw)) as (r & Er).
      apply (uids_in atoms b1 B1 r w ND F1 Er). eapply Back; [exact En|].
      apply edge_iff. apply Bc. exists i, o, s, w. auto.
    - intros B1 s C o o' u E Jo Po Jo' Ju JB k k' Nk Nk'.
      rewrite E in Fu. apply Forall2_split_r in Fu. destruct Fu as (b1 & ks & c & En & F1 & Ek & F2).
      destruct (All o' u Jo' (or_introl Ju)) as (ku & Eku). 
      assert (Jb : In ku b1) by (apply (uids_in atoms b1 B1 ku u ND F1 Eku); auto).
      (* positions *)
      set (ord1 := take_pos provider nus []) in *. set (ord := ord1 ++ _) in *.
      assert (NDo : NoDup ord). { eapply Permutation_NoDup; [apply Permutation_sym; exact PermO|apply seq_NoDup]. }
      assert (Pos : forall k o, nth_error (out1 ++ flatten_opt Obj unused) k = Some o -> exists i, nth_error ord k = Some i /\ nth_error objs i = Some o).
      { intros n x N. assert (X : nth_error (map Some (out1 ++ flatten_opt Obj unused)) n = Some (Some x)) by (rewrite nth_error_map, N; auto).
        rewrite <- MapO, nth_error_map in X. destruct (nth_error ord n) as [i|]; [|discriminate]. inversion X. eauto. }
      destruct (Pos _ _ Nk) as (i & Ni & Oi). destruct (Pos _ _ Nk') as (i' & Ni' & Oi').
      assert (Pi : prov provider ks = Some i). { apply Bp. exists o, s. rewrite Po. simpl. auto. }
      assert (Pi' : prov provider ku = Some i') by (apply Bp; eauto).
      assert (Jks : In ks nus) by (rewrite En; apply in_app_iff; simpl; auto).
      assert (J1 : In i ord1) by (apply take_pos_in; split; [intros []|eauto]).
      apply in_split in J1. destruct J1 as (l1 & l2 & E1).
      assert (Kk : k = length l1).
      { rewrite NoDup_nth_error in NDo. apply NDo; [eauto using nth_error_some_lt|]. rewrite Ni. unfold ord. rewrite E1.
        rewrite <- app_assoc. rewrite nth_error_app2 by lia. rewrite Nat.sub_diag. auto. }
      destruct (take_pos_split provider nus [] l1 i l2 E1) as (us1 & u0 & us2 & E0 & P0 & Before).
      assert (u0 = ks).
      { apply Bp in P0. destruct P0 as (o2 & w & No2 & Ew & Jw). rewrite Oi in No2. inversion No2; subst o2.
        rewrite Po in Jw. destruct Jw as [<-|[]]. exact (uid_inj atoms _ _ _ ND Ew Ek). }
      subst u0.
      assert (us1 = b1) by (eapply split_unique; [rewrite <- En; exact NDn|rewrite <- En; exact E0]).
      subst us1. destruct (Before ku i' Jb Pi') as [J|[]].
      apply In_nth_error in J. destruct J as (n & Nn).
      assert (n < length l1) by eauto using nth_error_some_lt.
      assert (n = k'); [|lia].
      rewrite NoDup_nth_error in NDo. apply NDo.
      + unfold ord. rewrite E1, !app_length. simpl. lia.
      + rewrite Ni'. unfold ord. rewrite E1, <- app_assoc. rewrite nth_error_app1 by lia. auto.
  Qed.
End Units.
