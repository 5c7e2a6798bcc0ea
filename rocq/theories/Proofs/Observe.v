(** An assertion holds when the output that observes it is true. *)
From Coq Require Import String List ZArith Bool Arith Lia.
From Verif Require Import Model.Base Model.Scalar Model.Value Model.Register Model.Ast Model.Errors Model.Interp Model.Options Model.Surface Model.Translate
  Model.Pipeline Model.Extern
  Spec.StepSpec Spec.SurfaceSem Spec.ProgramSem Spec.SettledSem Spec.SafetySpec Spec.ExternSem Spec.ExternSettled Spec.SourceCausal Spec.ConstSpec Spec.Static Spec.Observe
  Proofs.AstInd Proofs.OutBasics Proofs.InterpBasics Proofs.ProgramProofs Proofs.PipelineProofs Proofs.Settled Proofs.Exact Proofs.Asserts Proofs.StaticProgram Proofs.ExternExact.
Import ListNotations.

(** ** Expressions that do not mention a variable *)
Section Off.
  Variable mode : ovf.
  Variable glob : ident -> option scalar.
  Variables L L' : list ident.
  Variables rho rho' : nat -> ident -> option nillable.
  Variable F : ident -> list val -> val -> Prop.
  Variable N : ident -> val -> Prop.
  Variable P : ident -> Prop.
  Hypothesis LL : forall x, P x -> (In x L <-> In x L').
  Hypothesis RR : forall x, P x -> forall k, rho k x = rho' k x.

  Definition off (e : sexpr) : Prop := forall x, In x (names e) -> P x.
  Definition offs (l : list sexpr) : Prop := forall e, In e l -> off e.
  Definition offp {O} (l : list (O * sexpr)) : Prop := forall p, In p l -> off (snd p).

  Lemma off_list : forall l, (forall x, In x (flat_map names l) -> P x) -> offs l.
  Proof. intros l A e J x K. apply A, in_flat_map. eauto. Qed.
  Lemma off_pairs : forall O (l : list (O * sexpr)), (forall x, In x (flat_map (fun p => names (snd p)) l) -> P x) -> offp l.
  Proof. intros O l A e J x K. apply A, in_flat_map. eauto. Qed.
  Lemma off_three : forall a b c, off (XIf a b c) -> off a /\ off b /\ off c.
  Proof. intros a b c H. repeat split; intros x J; apply H; cbn; rewrite !in_app_iff; auto. Qed.
  Lemma off_bin : forall e l, off (XBin e l) -> off e /\ offp l.
  Proof. intros e l H. split; [|apply off_pairs]; intros x J; apply H; cbn; rewrite in_app_iff; auto. Qed.
  Lemma off_cmp : forall e l, off (XCmp e l) -> off e /\ offp l.
  Proof. intros e l H. split; [|apply off_pairs]; intros x J; apply H; cbn; rewrite in_app_iff; auto. Qed.
  Lemma off_clock : forall e l, off (XClock e l) -> off e /\ offp l.
  Proof. intros e l H. split; [|apply off_pairs]; intros x J; apply H; cbn; rewrite in_app_iff; auto. Qed.
  Lemma off_chain : forall e l k e', off (XThen e l) -> nth_error (e :: l) k = Some e' -> off e'.
  Proof.
    intros e l k e' H J x X. apply nth_error_In in J. apply H. cbn. rewrite in_app_iff. destruct J as [<-|J]; auto. right. apply in_flat_map. eauto.
  Qed.

  Lemma sem_off : forall e t v, sem mode glob L rho F N e t v -> off e -> sem mode glob L' rho' F N e t v.
  Proof.
    apply (sem_mut mode glob L rho F N
      (fun e t v => off e -> sem mode glob L' rho' F N e t v)
      (fun l t vs => offs l -> sems mode glob L' rho' F N l t vs)
      (fun w l t v => offp l -> bins mode glob L' rho' F N w l t v)
      (fun w l t v => offp l -> clocks mode glob L' rho' F N w l t v)); intros.
    - constructor.
    - constructor.
    - constructor.
    - assert (P x) by (match goal with O : off _ |- _ => apply O; cbn; auto end). apply sem_var; auto; [apply LL; auto|]. rewrite <- RR; auto.
    - assert (P x) by (match goal with O : off _ |- _ => apply O; cbn; auto end). apply sem_past; auto. apply LL; auto.
    - assert (P x) by (match goal with O : off _ |- _ => apply O; cbn; auto end). apply sem_global; auto. rewrite <- LL; auto.
    - apply sem_paren. apply H0. apply off_list. auto.
    - apply sem_call_past; auto.
    - eapply sem_call; eauto.
    - eapply sem_neg; eauto.
    - eapply sem_not; eauto.
    - apply sem_pre. auto.
    - match goal with H : off _ |- _ => apply off_three in H; destruct H as (C1 & C2 & C3) end. eapply sem_if; eauto.
    - match goal with H : off _ |- _ => apply (off_three c a b) in H; destruct H as (C1 & C2 & C3) end. eapply sem_merge; eauto.
    - match goal with H : off _ |- _ => apply off_bin in H; destruct H end. eapply sem_bin; eauto.
    - match goal with H : off _ |- _ => apply off_clock in H; destruct H end. eapply sem_clock; eauto.
    - match goal with H : off _ |- _ => apply off_cmp in H; destruct H end. eapply sem_cmp1; eauto.
    - match goal with H : off _ |- _ => apply off_cmp in H; destruct H as [C1 C2] end. eapply sem_cmp2; eauto. apply H2. apply (C2 (op, b)). left. auto.
    - eapply sem_fby; eauto. apply H1. eapply off_chain; eauto.
    - eapply sem_then; eauto. apply H1. eapply off_chain; eauto.
    - constructor.
    - constructor; [apply H0; match goal with H : offs _ |- _ => apply H; left; auto end|]. apply H2. intros e0 J. match goal with H : offs _ |- _ => apply H; right; auto end.
    - constructor.
    - econstructor; eauto; [apply H0; match goal with H : offp _ |- _ => apply (H (op, e)); left; auto end|]. apply H3. intros p J. match goal with H : offp _ |- _ => apply H; right; auto end.
    - constructor.
    - econstructor; eauto; [apply H0; match goal with H : offp _ |- _ => apply (H (pos, e)); left; auto end|]. apply H3. intros p J. match goal with H : offp _ |- _ => apply H; right; auto end.
  Qed.

  Lemma settled_off : forall e t, off e -> settled mode glob L rho F N e t -> settled mode glob L' rho' F N e t.
  Proof.
    set (Q := fun e => forall t, off e -> settled mode glob L rho F N e t -> settled mode glob L' rho' F N e t).
    assert (A : forall l, Forall Q l -> forall t, offs l -> all_settled mode glob L rho F N l t -> all_settled mode glob L' rho' F N l t).
    { induction 1; intros t C B; cbn in *; auto. destruct B. split; [apply H; auto; apply C; left; auto|]. apply IHForall; auto. intros e J. apply C. right. auto. }
    assert (B : forall O (l : list (O * sexpr)), Forall (fun p => Q (snd p)) l -> forall t, offp l -> pairs_settled mode glob L rho F N l t ->
      pairs_settled mode glob L' rho' F N l t).
    { induction 1 as [|[op e] l H _ IH]; intros t C B; cbn in *; auto. destruct B. split; [apply H; auto; apply (C (op, e)); left; auto|].
      apply IH; auto. intros p J. apply C. right. auto. }
    assert (K : forall e l, Q e -> Forall Q l -> forall k e', nth_error (e :: l) k = Some e' -> Q e').
    { intros e l He Hl k e' Hk. apply nth_error_In in Hk. destruct Hk as [<-|Hk]; auto. rewrite Forall_forall in Hl. auto. }
    intros e. change (Q e). induction e using sexpr_ind'; intros t C.
    - exact (fun _ => Logic.I).
    - exact (fun _ => Logic.I).
    - rewrite !st_paren. apply A; auto. apply off_list. auto.
    - rewrite !st_call. intros X T. apply A; auto. apply off_list. auto.
    - apply IHe. exact C.
    - apply IHe. exact C.
    - apply (IHe (t - 1)%Z). exact C.
    - apply off_three in C. destruct C as (C1 & C2 & C3). cbn. intros (B1 & B2 & B3). auto.
    - apply (off_three e1 e2 e3) in C. destruct C as (C1 & C2 & C3). cbn. intros (B1 & B2 & B3). auto.
    - rewrite !st_bin. apply off_bin in C. destruct C. intros [B1 B2]. split; auto.
    - rewrite !st_cmp. apply off_cmp in C. destruct C. intros [B1 B2]. split; auto.
    - rewrite !st_clock. apply off_clock in C. destruct C. intros [B1 B2]. split; auto.
    - rewrite !st_fby. intros X k e' J G. destruct (X k e' J G) as (B1 & v & B2).
      assert (C' := off_chain _ _ _ _ C J). split; [eapply K; eauto|]. exists v. apply sem_off; auto.
    - rewrite !st_then. intros X k e' J G. destruct (X k e' J G) as (B1 & v & B2).
      assert (C' := off_chain _ _ _ _ C J). split; [eapply K; eauto|]. exists v. apply sem_off; auto.
  Qed.

  Lemma matches_off : forall T t v, (forall x, In x (pattern_vars t) -> P x) -> smatches (rho T) t v -> smatches (rho' T) t v.
  Proof.
    intros T. fix IH 4. intros t v H0 M0. revert H0. destruct M0 as [x n E|b w|t0 b w M|l b vs Len M]; intros H.
    - constructor. rewrite <- RR; auto. apply H. cbn. auto.
    - constructor.
    - constructor. apply IH; auto. intros x J. apply H. cbn. rewrite app_nil_r. auto.
    - constructor; auto. assert (H' : forall x, In x (flat_map pattern_vars l) -> P x) by exact H. clear H Len. revert l vs M H'. fix IL 3. intros l vs M0. destruct M0 as [|t0 w l0 vs0 M0 M1]; intros H'; constructor.
      + apply IH; auto. intros x J. apply H'. cbn. apply in_app_iff. auto.
      + apply IL; auto. intros x J. apply H'. cbn. apply in_app_iff. auto.
  Qed.

  Lemma stmt_off : forall T s, off (right_side s) -> (forall x, In x (assigns s) -> P x) ->
    sstmt_holds mode glob L rho F N T s /\ stmt_settled mode glob L rho F N T s ->
    sstmt_holds mode glob L' rho' F N T s /\ stmt_settled mode glob L' rho' F N T s.
  Proof.
    intros T [t e|e] O A [H S]; cbn in *; (split; [|apply settled_off; auto]).
    - destruct H as (v & H1 & H2). exists v. split; [apply sem_off; auto|]. apply matches_off; auto.
    - apply sem_off; auto.
  Qed.
  Lemma row_off : forall T l v, (forall x, In x l -> P x) -> row (rho T) l v -> row (rho' T) l v.
  Proof.
    intros T l v H (ns & X & E). exists ns. split; auto. clear E. revert H. induction X; intros H1; constructor.
    - rewrite <- RR; auto. apply H1. left. auto.
    - apply IHX. intros y0 J. apply H1. right. auto.
  Qed.
End Off.

(** ** Rows *)
Lemma tuple_inj : forall a b, length a = length b -> tuple a = tuple b -> a = b.
Proof.
  assert (V : forall a b, map VS a = map VS b -> a = b) by (induction a; intros [|y b] E; inversion E; auto; f_equal; auto).
  intros [|x [|y a]] [|x' [|y' b]] Len E; try discriminate Len; auto; cbn in E; inversion E; subst; auto. f_equal. f_equal. auto.
Qed.
Lemma row_tuple : forall env l r, length r = length l -> row env l (tuple r) <-> Forall2 (fun x n => env x = Some n) l r.
Proof.
  intros env l r Len. split.
  - intros (ns & X & E). assert (N : length l = length ns) by (clear - X; induction X; cbn; auto). apply tuple_inj in E; [|lia]. subst. auto.
  - intros X. exists r. auto.
Qed.
Lemma absent_tuple : forall (l : list ident) z r, l <> [] -> length r = length l ->
  (absent_row l = tuple r <-> absent_row (l ++ [z]) = tuple (r ++ [Nil])).
Proof.
  intros l z r Ne Len.
  assert (A : forall m, m <> [] -> absent_row m = tuple (map (fun _ : ident => Nil) m)).
  { intros [|x [|y m]] Nm; [tauto|reflexivity|]. unfold tuple, absent_row. rewrite map_map. reflexivity. }
  rewrite !A; auto; [|destruct l; discriminate]. rewrite map_app. cbn [map].
  split; intros E.
  - apply tuple_inj in E; [subst; auto|]. rewrite map_length. auto.
  - apply tuple_inj in E; [|rewrite !app_length, map_length; cbn; lia]. apply app_inj_tail in E. destruct E as [-> _]. auto.
Qed.

Definition here (p : val * list nillable) : bool := negb (first_is_nil (fst p)).
Lemma weave_rows : forall (w : val) (g : val -> list nillable -> val) ins rows pouts,
  length rows = length ins -> length pouts = length (filter (fun v => negb (first_is_nil v)) ins) ->
  (weave w ins pouts = map (fun p => g (fst p) (snd p)) (combine ins rows) <->
   pouts = map (fun p => g (fst p) (snd p)) (filter here (combine ins rows)) /\
   Forall (fun p => first_is_nil (fst p) = true -> w = g (fst p) (snd p)) (combine ins rows)).
Proof.
  intros w g. induction ins as [|v ins IH]; intros [|r rows] pouts Lr Lp; cbn in *; try discriminate Lr.
  - destruct pouts; [|discriminate Lp]. split; auto.
  - unfold here at 1. cbn. destruct (first_is_nil v) eqn:E; cbn in *.
    + rewrite (Forall_cons_iff _ (v, r)). cbn. rewrite E. specialize (IH rows pouts ltac:(lia) Lp). split.
      * intros H. inversion H. subst. apply IH in H2. tauto.
      * intros (A & B & C). f_equal; auto. apply IH. auto.
    + destruct pouts as [|o pouts]; [discriminate Lp|]. rewrite (Forall_cons_iff _ (v, r)). cbn. rewrite E. specialize (IH rows pouts ltac:(lia) ltac:(cbn in Lp; lia)). split.
      * intros H. inversion H. apply IH in H2. destruct H2 as [-> B]. split; auto. split; auto. discriminate.
      * intros (A & _ & C). inversion A. f_equal. subst pouts. apply IH. auto.
Qed.

(** ** One node *)
Lemma observed_settles : forall mode glob F N sn sn' ins rows, observed sn sn' ->
  Forall (fun r => length r = length (declared (s_outputs sn))) rows ->
  (node_settles mode glob F N sn ins (map tuple rows) <->
   node_settles mode glob F N sn' ins (map (fun r => tuple (r ++ [Defined (SBool true)])) rows)).
Proof.
  intros mode glob F N sn0 sn0' ins rows [f g i o o' v z e before after Eo Fz Off] Wr. cbn [s_outputs] in Wr.
  set (sn := mkSNode f i o v _). set (sn' := mkSNode g i o' v _).
  assert (LL : forall x, x <> z -> (In x (node_vars sn) <-> In x (node_vars sn'))).
  { intros x Ne. unfold node_vars, sn, sn'. cbn [s_inputs s_outputs s_locals]. rewrite Eo, !in_app_iff. cbn [In]. split; [tauto|]. intros [H|[[H|[H|[]]]|H]]; auto. congruence. }
  assert (Fi : forall x, In x (declared i) -> x <> z) by (intros x J ->; apply Fz; rewrite !in_app_iff; auto).
  assert (Fo : forall x, In x (declared o) -> x <> z) by (intros x J ->; apply Fz; rewrite !in_app_iff; auto).
  assert (W : forall T r, nth_error rows T = Some r -> length r = length (declared o)).
  { intros T r J. rewrite Forall_forall in Wr. apply Wr. eapply nth_error_In; eauto. }
  split; intros (Len & rho & M); rewrite map_length in Len; (split; [rewrite map_length; exact Len|]).
  - exists (fun T x => if String.eqb x z then Some (Defined (SBool true)) else rho T x). set (rho' := fun T x => _).
    assert (RR : forall x, x <> z -> forall k, rho k x = rho' k x) by (intros x Ne k; unfold rho'; apply String.eqb_neq in Ne; rewrite Ne; auto).
    intros T w y Hw Hy. rewrite nth_error_map in Hy. destruct (nth_error rows T) as [r|] eqn:Hr; inversion Hy; subst y; clear Hy.
    destruct (M T w (tuple r) Hw) as (A & B & C); [rewrite nth_error_map, Hr; auto|]. change (s_inputs sn) with i in *; change (s_inputs sn') with i in *; change (s_outputs sn) with o in *; change (s_outputs sn') with o' in *; change (s_defs sn) with (before ++ XAssert e :: after) in *; change (s_defs sn') with (before ++ XDef (TVar z) e :: after) in *. split; [|split].
    + destruct A as [A|A]; [auto|right]. eapply (row_off rho rho' (fun x => x <> z)); eauto.
    + intros s J. assert (S : In s (before ++ XAssert e :: after) \/ s = XDef (TVar z) e) by (clear - J; rewrite in_app_iff in *; cbn in *; intuition auto).
      destruct S as [S| ->].
      * destruct (Off s S) as [O1 O2]. apply (stmt_off mode glob (node_vars sn) (node_vars sn') rho rho' F N (fun x => x <> z)); auto; intros x J1 ->; tauto.
      * assert (I : In (XAssert e) (before ++ XAssert e :: after)) by (rewrite in_app_iff; cbn; auto). destruct (Off _ I) as [O1 _].
        destruct (stmt_off mode glob (node_vars sn) (node_vars sn') rho rho' F N (fun x => x <> z) LL RR T (XAssert e)) as [S1 S2]; auto; try (intros x J1 ->; tauto); try (intros x []).
        split; [|exact S2]. exists (VS (Defined (SBool true))). split; [exact S1|]. constructor. unfold rho'. rewrite String.eqb_refl. auto.
    + rewrite Eo. apply row_tuple; [rewrite !app_length, (W _ _ Hr); auto|]. apply Forall2_app.
      * apply row_tuple; [eauto|]. eapply (row_off rho rho' (fun x => x <> z)); eauto.
      * constructor; auto. unfold rho'. rewrite String.eqb_refl. auto.
  - exists rho. intros T w y Hw Hy. rewrite nth_error_map in Hy. destruct (nth_error rows T) as [r|] eqn:Hr; inversion Hy; subst y; clear Hy.
    destruct (M T w (tuple (r ++ [Defined (SBool true)])) Hw) as (A & B & C); [rewrite nth_error_map, Hr; auto|]. change (s_inputs sn) with i in *; change (s_inputs sn') with i in *; change (s_outputs sn) with o in *; change (s_outputs sn') with o' in *; change (s_defs sn) with (before ++ XAssert e :: after) in *; change (s_defs sn') with (before ++ XDef (TVar z) e :: after) in *.
    rewrite Eo in C. apply row_tuple in C; [|rewrite !app_length, (W _ _ Hr); auto].
    assert (Cz : Forall2 (fun x n => rho T x = Some n) (declared o) r /\ rho T z = Some (Defined (SBool true))).
    { apply Forall2_app_inv_l in C. destruct C as (r1 & r2 & C1 & C2 & E). inversion C2; subst. inversion H3; subst. apply app_inj_tail in E. destruct E as [-> ->]. auto. }
    destruct Cz as [C1 C2]. split; [exact A|]. split; [|apply row_tuple; eauto].
    assert (LL' : forall x, x <> z -> (In x (node_vars sn') <-> In x (node_vars sn))) by (intros x Ne; symmetry; auto).
    intros s J. destruct (Off s J) as [O1 O2].
    assert (S : s = XAssert e \/ In s (before ++ XDef (TVar z) e :: after)) by (clear - J; rewrite in_app_iff in *; cbn in *; intuition auto).
    apply (stmt_off mode glob (node_vars sn') (node_vars sn) rho rho F N (fun x => x <> z)); auto; try (intros x J1 ->; tauto).
    destruct S as [->|S]; [|auto].
    destruct (B (XDef (TVar z) e)) as [(u & S1 & S2) S3]; [rewrite in_app_iff; cbn; auto|].
    split; [|exact S3]. inversion S2 as [x0 n0 Q| | |]; subst. assert (n0 = Defined (SBool true)) as -> by congruence. exact S1.
Qed.

(** ** Programs *)
Lemma only_decl : forall p l a b, result (pipeline p) = Some l -> In a p -> In b p -> introduces (snd a) = introduces (snd b) -> a = b.
Proof.
  intros p l a b H Ia Ib E. assert (W : well_formed p) by (apply accepted_well_formed; eauto). destruct W as (_ & ND & _). clear H.
  induction p as [|c p IH]; [destruct Ia|]. cbn in ND. inversion ND; subst.
  destruct Ia as [->|Ia], Ib as [->|Ib]; auto; exfalso; apply H1; apply in_map_iff; eauto.
Qed.

Section Program.
  Variable mode : ovf.
  Variable glob : ident -> option scalar.
  Variable ext : ident -> behaviour.
  Variable p : sprog.
  Variable l : list decl.
  Hypothesis Hp : result (pipeline p) = Some l.

  (** A node has the meaning of its equations. *)
  Lemma node_means : forall a sn ins outs, In (a, XNode sn) p ->
    (xmeans_strictly mode glob ext p (s_name sn) ins outs <->
     exists n pouts, node_settles mode glob (fun g args v => exists os, xsettles mode glob ext p n g args (os ++ [v])) (silence p) sn
         (filter (fun v => negb (first_is_nil v)) ins) pouts /\
       outs = weave (absent_row (declared (s_outputs sn))) ins pouts).
  Proof.
    intros a sn ins outs I. split.
    - intros ([|n] & H); (destruct H as [(a0 & i & o & po & J & _)|H]; [exfalso; assert (X := only_decl p l _ _ Hp I J eq_refl); discriminate X|]); [destruct H|].
      destruct H as (a0 & sn0 & po & J & E & M & W). assert (X : (a, XNode sn) = (a0, XNode sn0)) by (apply (only_decl p l _ _ Hp I J); cbn; congruence). inversion X; subst. eauto.
    - intros (n & po & M & W). exists (S n). right. exists a, sn, po. auto.
  Qed.

  Lemma observed_means : forall a b sn sn', In (a, XNode sn) p -> In (b, XNode sn') p -> observed sn sn' ->
    forall ins rows, length rows = length ins -> Forall (fun r => length r = length (declared (s_outputs sn))) rows ->
    declared (s_outputs sn) <> [] \/ Forall (fun v => first_is_nil v = false) ins ->
    (xmeans_strictly mode glob ext p (s_name sn) ins (map tuple rows) <->
     xmeans_strictly mode glob ext p (s_name sn') ins (map (fun p => and_true (fst p) (snd p)) (combine ins rows))).
  Proof.
    intros a b sn sn' Ia Ib O ins rows Len Wr Ne.
    assert (E1 : map tuple rows = map (fun p => (fun _ r => tuple r) (fst p) (snd p)) (combine ins rows)).
    { clear - Len. revert rows Len. induction ins; intros [|r rows] Len; try discriminate Len; cbn; auto. f_equal. apply IHins. auto. }
    rewrite E1. rewrite (node_means a sn), (node_means b sn'); auto.
    assert (Wc : forall q, In q (combine ins rows) -> length (snd q) = length (declared (s_outputs sn))).
    { intros [v r] J. apply in_combine_r in J. rewrite Forall_forall in Wr. apply (Wr r J). }
    assert (Wn : forall q, In q (combine ins rows) -> first_is_nil (fst q) = true -> declared (s_outputs sn) <> []).
    { intros [v r] J E. destruct Ne as [Ne|Ne]; auto. apply in_combine_l in J. rewrite Forall_forall in Ne. cbn in E. rewrite (Ne v J) in E. discriminate E. }
    assert (Zo : exists z, declared (s_outputs sn') = declared (s_outputs sn) ++ [z]) by (destruct O; cbn; eauto). destruct Zo as (z & Zo).
    set (H := filter here (combine ins rows)).
    assert (E2 : map (fun p => and_true (fst p) (snd p)) H = map (fun r => tuple (r ++ [Defined (SBool true)])) (map snd H)).
    { rewrite map_map. apply map_ext_in. intros q J. apply filter_In in J. destruct J as [_ J]. unfold here in J. unfold and_true. destruct (first_is_nil (fst q)); [discriminate J|auto]. }
    assert (E3 : map (fun p => tuple (snd p)) H = map tuple (map snd H)) by (rewrite map_map; auto).
    assert (LH : length H = length (filter (fun v => negb (first_is_nil v)) ins)).
    { unfold H. clear - Len. revert rows Len. induction ins as [|v ins IH]; intros [|r rows] Len; try discriminate Len; cbn; auto.
      unfold here at 1. cbn. destruct (first_is_nil v); cbn; auto. }
    assert (WH : Forall (fun r => length r = length (declared (s_outputs sn))) (map snd H)).
    { apply Forall_forall. intros r J. apply in_map_iff in J. destruct J as (q & <- & J). apply filter_In in J. apply Wc. tauto. }
    assert (OS := fun F N => observed_settles mode glob F N sn sn' (filter (fun v => negb (first_is_nil v)) ins) (map snd H) O WH).
    split; intros (n & po & M & W); exists n.
    - exists (map (fun p => and_true (fst p) (snd p)) H). assert (Lp : length po = length (filter (fun v => negb (first_is_nil v)) ins)) by apply M.
      symmetry in W. apply (weave_rows _ (fun _ r => tuple r)) in W; auto. destruct W as [Ep Fa]. fold H in Ep. subst po. split.
      + rewrite E2. apply OS. rewrite <- E3. exact M.
      + symmetry. apply (weave_rows _ and_true); auto; [rewrite map_length; auto|]. split; auto.
        rewrite Forall_forall in *. intros q J E. rewrite Zo. unfold and_true. rewrite E. apply absent_tuple; auto. eapply Wn; eauto.
    - exists (map (fun p => tuple (snd p)) H). assert (Lp : length po = length (filter (fun v => negb (first_is_nil v)) ins)) by apply M.
      symmetry in W. apply (weave_rows _ and_true) in W; auto. destruct W as [Ep Fa]. fold H in Ep. subst po. split.
      + rewrite E3. apply OS. rewrite <- E2. exact M.
      + symmetry. apply (weave_rows _ (fun _ r => tuple r)); auto; [rewrite map_length; auto|]. split; auto.
        rewrite Forall_forall in *. intros q J E. specialize (Fa q J E). rewrite Zo in Fa. unfold and_true in Fa. rewrite E in Fa. apply absent_tuple in Fa; auto. eapply Wn; eauto.
  Qed.
End Program.

Theorem observed_runs : forall mode glob ext p l, result (pipeline p) = Some l -> default_mode p ->
  (forall x t, constant p x t -> glob x <> None) -> ordinary ext ->
  forall a b sn sn', In (a, XNode sn) p -> In (b, XNode sn') p -> observed sn sn' ->
  forall ins rows, length rows = length ins -> Forall (fun r => length r = length (declared (s_outputs sn))) rows ->
  declared (s_outputs sn) <> [] \/ Forall (fun v => first_is_nil v = false) ins ->
  (xoutputs mode glob ext (items_of l) (s_name sn) ins = Ok (map tuple rows) <->
   xoutputs mode glob ext (items_of l) (s_name sn') ins = Ok (map (fun p => and_true (fst p) (snd p)) (combine ins rows))).
Proof.
  intros mode glob ext p l Hp D K X a b sn sn' Ia Ib O ins rows Len Wr Ne.
  rewrite !(extern_exact mode glob ext p l Hp D K X). eapply observed_means; eauto.
Qed.

(** ** When the assertion fails *)
Lemma rows_of : forall (P : val -> Prop) (l : list ident) n, (forall o, P o -> exists r, length r = n /\ o = tuple r) ->
  forall ins pouts, length pouts = length (filter (fun v => negb (first_is_nil v)) ins) -> Forall P pouts ->
  length l = n -> l <> [] \/ Forall (fun v => first_is_nil v = false) ins ->
  exists rows, length rows = length ins /\ Forall (fun r => length r = n) rows /\ weave (absent_row l) ins pouts = map tuple rows.
Proof.
  intros P l n HP. induction ins as [|v ins IH]; intros pouts Len Fp Ln Ne; [exists []; cbn; auto|]. cbn in *.
  assert (Ne' : l <> [] \/ Forall (fun v => first_is_nil v = false) ins) by (destruct Ne as [Ne|Ne]; auto; inversion Ne; auto).
  destruct (first_is_nil v) eqn:E; cbn in *.
  - destruct (IH pouts Len Fp Ln Ne') as (rows & L1 & L2 & L3).
    assert (Nl : l <> []) by (destruct Ne as [Ne|Ne]; auto; inversion Ne; congruence).
    exists (map (fun _ => Nil) l :: rows). cbn. rewrite L3. split; auto. split; [constructor; auto; rewrite map_length; auto|]. f_equal.
    destruct l as [|x [|y l]]; [tauto|reflexivity|]. unfold tuple, absent_row. rewrite map_map. reflexivity.
  - destruct pouts as [|o pouts]; [discriminate Len|]. inversion Fp; subst. destruct (HP o H1) as (r & Lr & ->). injection Len as Len.
    destruct (IH pouts Len H2 eq_refl Ne') as (rows & L1 & L2 & L3). exists (r :: rows). cbn. rewrite L3. auto.
Qed.

Lemma output_rows : forall mode glob ext p l, result (pipeline p) = Some l -> default_mode p ->
  (forall x t, constant p x t -> glob x <> None) -> ordinary ext ->
  forall a sn ins outs, In (a, XNode sn) p -> xoutputs mode glob ext (items_of l) (s_name sn) ins = Ok outs ->
  declared (s_outputs sn) <> [] \/ Forall (fun v => first_is_nil v = false) ins ->
  exists rows, length rows = length ins /\ Forall (fun r => length r = length (declared (s_outputs sn))) rows /\ outs = map tuple rows.
Proof.
  intros mode glob ext p l Hp D K X a sn ins outs I O Ne. apply (extern_exact mode glob ext p l Hp D K X) in O.
  apply (node_means mode glob ext p l Hp a) in O; auto. destruct O as (n & po & (Len & rho & M) & ->).
  eapply (rows_of (fun o => exists T, row (rho T) (declared (s_outputs sn)) o)); eauto.
  - intros o (T & ns & Fa & ->). exists ns. split; auto. clear - Fa. induction Fa; cbn; auto.
  - apply Forall_forall. intros o J. apply In_nth_error in J. destruct J as (T & J).
    destruct (nth_error (filter (fun v => negb (first_is_nil v)) ins) T) as [v|] eqn:E.
    + exists T. apply (M T v o E J).
    + exfalso. apply nth_error_None in E. assert (T < length po) by (apply nth_error_Some; congruence). lia.
Qed.

Lemma combine_map : forall (A B C : Type) (f : B -> C) (l : list A) m, combine l (map f m) = map (fun p => (fst p, f (snd p))) (combine l m).
Proof. induction l; intros [|y m]; cbn; auto. f_equal. auto. Qed.
Lemma map_snd_combine : forall (A B C : Type) (f : B -> C) (l : list A) m, length m = length l -> map f m = map (fun p => f (snd p)) (combine l m).
Proof. induction l; intros [|y m] E; try discriminate E; cbn; auto. f_equal. apply IHl. auto. Qed.

Theorem observed_fails : forall mode glob ext p l, result (pipeline p) = Some l -> default_mode p ->
  (forall x t, constant p x t -> glob x <> None) -> ordinary ext ->
  forall a b sn sn', In (a, XNode sn) p -> In (b, XNode sn') p -> observed sn sn' ->
  forall ins rows, length rows = length ins -> Forall (fun r => length r = S (length (declared (s_outputs sn)))) rows ->
  declared (s_outputs sn) <> [] \/ Forall (fun v => first_is_nil v = false) ins ->
  xoutputs mode glob ext (items_of l) (s_name sn') ins = Ok (map tuple rows) ->
  ((exists err, xoutputs mode glob ext (items_of l) (s_name sn) ins = Panic err) <->
   exists v r, In (v, r) (combine ins rows) /\ first_is_nil v = false /\ last r Nil <> Defined (SBool true)).
Proof.
  intros mode glob ext p l Hp D K X a b sn sn' Ia Ib O ins rows Len Wr Ne R.
  assert (Iff := fun rw L W => observed_runs mode glob ext p l Hp D K X a b sn sn' Ia Ib O ins rw L W Ne).
  split.
  - intros (err & Er).
    assert (Dec : Exists (fun q => first_is_nil (fst q) = false /\ last (snd q) Nil <> Defined (SBool true)) (combine ins rows) \/
                  Forall (fun q => ~ (first_is_nil (fst q) = false /\ last (snd q) Nil <> Defined (SBool true))) (combine ins rows)).
    { generalize (combine ins rows). induction l0 as [|[v r] m IH]; [right; constructor|]. destruct IH as [IH|IH]; [left; right; auto|].
      assert (Q : (first_is_nil v = false /\ last r Nil <> Defined (SBool true)) \/ ~ (first_is_nil v = false /\ last r Nil <> Defined (SBool true))).
      { destruct (first_is_nil v); [right; intros [Q _]; discriminate Q|]. destruct (last r Nil) as [[]|]; try (left; split; [auto|discriminate]).
        destruct b0; [right; intros [_ Q]; apply Q; auto|left; split; [auto|discriminate]]. }
      destruct Q as [Q|Q]; [left; left; auto|right; constructor; auto]. }
    destruct Dec as [Dec|Dec]; [apply Exists_exists in Dec; destruct Dec as ([v r] & J & Q); exists v, r; tauto|]. exfalso.
    (* The absent rows end with nil. *)
    assert (Ab : Forall (fun q => first_is_nil (fst q) = true -> last (snd q) Nil = Nil) (combine ins rows)).
    { assert (R' := R). apply (extern_exact mode glob ext p l Hp D K X) in R'. apply (node_means mode glob ext p l Hp b) in R'; auto.
      destruct R' as (n & po & (Lp & _) & W). rewrite (map_snd_combine _ _ _ tuple ins rows Len) in W. symmetry in W.
      apply (weave_rows _ (fun _ r => tuple r)) in W; auto. destruct W as [_ W]. rewrite Forall_forall in *. intros q J E. specialize (W q J E). cbn beta in W.
      assert (Lq : length (snd q) = S (length (declared (s_outputs sn)))) by (destruct q as [v r]; apply in_combine_r in J; apply Wr; auto).
      assert (Zo : exists z, declared (s_outputs sn') = declared (s_outputs sn) ++ [z]) by (destruct O; cbn; eauto). destruct Zo as (z & Zo). rewrite Zo in W.
      assert (No : declared (s_outputs sn) <> []).
      { destruct Ne as [Ne|Ne]; auto. exfalso. destruct q as [v r]. apply in_combine_l in J. try rewrite Forall_forall in Ne. cbn in E. rewrite (Ne v J) in E. discriminate E. }
      assert (A : absent_row (declared (s_outputs sn) ++ [z]) = tuple (map (fun _ => Nil) (declared (s_outputs sn)) ++ [Nil])).
      { apply absent_tuple; auto; [rewrite map_length; auto|]. destruct (declared (s_outputs sn)) as [|x [|y m]]; [tauto|reflexivity|]. unfold tuple, absent_row. rewrite map_map. reflexivity. }
      rewrite A in W. apply tuple_inj in W; [|rewrite app_length, map_length, Lq; cbn; lia]. rewrite <- W. apply last_last. }
    assert (Q : xoutputs mode glob ext (items_of l) (s_name sn) ins = Ok (map tuple (map (@removelast _) rows))).
    { apply Iff; [rewrite map_length; auto| |].
      - rewrite Forall_forall in *. intros r J. apply in_map_iff in J. destruct J as (r0 & <- & J). specialize (Wr r0 J).
        rewrite (app_removelast_last Nil (l := r0)) in Wr by (intros ->; discriminate Wr). rewrite app_length in Wr. cbn in Wr. lia.
      - rewrite R. f_equal. rewrite combine_map, map_map. cbn [fst snd]. rewrite (map_snd_combine _ _ _ tuple ins rows Len). apply map_ext_in. intros [v r] J.
        rewrite Forall_forall in *. assert (Lr : length r = S (length (declared (s_outputs sn)))) by (apply in_combine_r in J; apply Wr; auto).
        cbn [fst snd]. unfold and_true. rewrite (app_removelast_last Nil (l := r)) at 1 by (intros ->; discriminate Lr). f_equal. f_equal. f_equal.
        specialize (Dec _ J). specialize (Ab _ J). cbn in Dec, Ab. destruct (first_is_nil v); auto.
        destruct (last r Nil) as [[| |[]|]|] eqn:El; auto; exfalso; apply Dec; split; auto; discriminate. }
    rewrite Q in Er. discriminate Er.
  - intros (v & r & J & Pv & Nt).
    assert (Cs : (exists err, xoutputs mode glob ext (items_of l) (s_name sn) ins = Panic err) \/ exists outs, xoutputs mode glob ext (items_of l) (s_name sn) ins = Ok outs)
      by (clear; destruct (xoutputs mode glob ext (items_of l) (s_name sn) ins); eauto).
    destruct Cs as [Cs|(outs & E)]; [exact Cs|]. exfalso.
    destruct (output_rows mode glob ext p l Hp D K X a sn ins outs Ia E Ne) as (rw & L1 & L2 & ->).
    apply (Iff rw L1 L2) in E. rewrite E in R. injection R as R. rewrite (map_snd_combine _ _ _ tuple ins rows Len) in R.
    assert (C : rows = map (fun q => snd q ++ [if first_is_nil (fst q) then Nil else Defined (SBool true)]) (combine ins rw)).
    { clear - R L1 L2 Len Wr. revert rows rw R L1 L2 Len Wr. induction ins as [|v ins IH]; intros [|r rows] [|r' rw] R L1 L2 Len Wr; try discriminate; cbn in *; auto.
      inversion R. inversion L2; subst. inversion Wr; subst. f_equal; [|apply IH; auto]. symmetry. apply tuple_inj; auto. rewrite app_length. cbn. lia. }
    rewrite C in J. rewrite combine_map in J. apply in_map_iff in J. destruct J as ([v' [v'' r'']] & Q & J). cbn in Q. inversion Q; subst v' r. clear Q.
    assert (v = v'') as <-.
    { clear - J. revert rw J. induction ins as [|w ins IH]; intros [|r rw] J; cbn in J; try tauto. destruct J as [J|J]; [inversion J; auto|eauto]. }
    rewrite Pv in Nt. apply Nt. apply last_last.
Qed.
