(** Consequences of the correctness of the scheduler for nodes and programs. *)
From Coq Require Import String List ZArith Bool Arith Lia Permutation.
From Verif Require Import Model.Base Model.Scalar Model.Value Model.Ast Model.Graph Model.Causality
  Spec.GraphSpec Spec.CausalitySpec Proofs.AstInd Proofs.InterpBasics Proofs.Tarjan Proofs.GraphProofs.
Import ListNotations.

Section Generic.
  Context {Obj Unit : Type}.
  Variable unit_eqb : Unit -> Unit -> bool.
  Hypothesis eqb_spec : forall a b, unit_eqb a b = true <-> a = b.
  Variables provides requires : Obj -> list Unit.
  Notation schedule' := (schedule Obj Unit unit_eqb provides requires).

  Lemma schedule_order : forall ext objs must out,
    schedule' ext objs must = inl out ->
    exists ord, reordering objs ord out /\ respects_dependencies provides requires objs ord.
  Proof.
    intros ext objs must out H.
    pose proof (schedule_full unit_eqb eqb_spec provides requires ext objs must) as F. rewrite H in F.
    destruct F as (_ & _ & ord1 & A & B & _). eauto.
  Qed.

  Lemma schedule_iff : forall ext objs must,
    (exists out, schedule' ext objs must = inl out) <->
    (single_assignment provides objs ext /\ complete provides objs must /\ acyclic provides requires objs).
  Proof.
    intros ext objs must.
    pose proof (schedule_full unit_eqb eqb_spec provides requires ext objs must) as F.
    destruct (schedule' ext objs must) as [out|e] eqn:E.
    - destruct F as (A & B & ord1 & C & D & _). split; eauto. intros _. split; auto. split; auto.
      eapply respects_acyclic; eauto.
    - split; [intros (out & H); discriminate|]. intros (A & B & C). exfalso.
      destruct e; auto. destruct F as (i & F). eapply C. apply dp_one. eauto.
  Qed.

  Lemma schedule_reasons : forall ext objs must,
    match schedule' ext objs must with
    | inl out => True
    | inr GraphUnitDeclTwice => ~ single_assignment provides objs ext
    | inr GraphUnitUndeclared => ~ complete provides objs must
    | inr GraphUnitDependsOnItself => exists i, depends_on provides requires objs i i
    | inr GraphCycle => ~ acyclic provides requires objs
    | inr GraphAbort => False
    end.
  Proof.
    intros ext objs must.
    pose proof (schedule_full unit_eqb eqb_spec provides requires ext objs must) as F.
    destruct (schedule' ext objs must) as [out|[]]; auto.
  Qed.

  Lemma schedule_perm : forall ext objs must out,
    schedule' ext objs must = inl out ->
    Permutation out objs /\
    exists first, out = first ++ filter (fun o => match provides o with [] => true | _ => false end) objs /\
      forall o, In o first -> provides o <> [].
  Proof.
    intros ext objs must out H.
    pose proof (schedule_full unit_eqb eqb_spec provides requires ext objs must) as F. rewrite H in F.
    destruct F as (_ & _ & ord1 & [P E] & _ & N). 
    assert (M : forall l l' : list Obj, map Some l = map Some l' -> l = l').
    { induction l as [|a l IH]; intros [|b l'] X; simpl in X; try discriminate; auto. inversion X. f_equal; auto. }
    assert (Sq : forall l : list Obj, map (nth_error l) (seq 0 (length l)) = map Some l).
    { induction l as [|a l IH]; auto. simpl. f_equal. rewrite <- seq_shift, map_map. simpl. auto. }
    split.
    - assert (PS : Permutation (map Some out) (map Some objs)).
      { rewrite <- E, <- Sq. apply Permutation_map. auto. }
      apply Permutation_sym, Permutation_map_inv in PS.
      destruct PS as (l & El & Pl). apply M in El. subst. auto.
    - rewrite map_app in E.
      assert (Fi : forall n l, n = length l -> forall d (g : nat -> bool),
         (forall k, k < n -> g (d + k) = provides_nothing provides l k) ->
         map (fun k => nth_error l (k - d)) (filter g (seq d n)) =
         map Some (filter (fun o => match provides o with [] => true | _ => false end) l)).
      { induction n as [|n IH]; intros l L d g Hg; destruct l as [|a l]; simpl in L; try discriminate; auto.
        simpl. pose proof (Hg 0 ltac:(lia)) as H0. rewrite Nat.add_0_r in H0. unfold provides_nothing in H0. simpl in H0.
        assert (IH' : map (fun k => nth_error (a :: l) (k - d)) (filter g (seq (S d) n)) =
          map Some (filter (fun o => match provides o with [] => true | _ => false end) l)).
        { rewrite <- (IH l ltac:(lia) (S d) g).
          - apply map_ext_in. intros k J. apply filter_In in J. destruct J as [J _]. apply in_seq in J.
            replace (k - d) with (S (k - S d)) by lia. auto.
          - intros k Lk. replace (S d + k) with (d + S k) by lia. rewrite (Hg (S k)) by lia. reflexivity. }
        rewrite H0. destruct (provides a); simpl; auto. rewrite Nat.sub_diag. simpl. f_equal. auto. }
      assert (T : map (nth_error objs) (filter (provides_nothing provides objs) (seq 0 (length objs))) =
                  map Some (filter (fun o => match provides o with [] => true | _ => false end) objs)).
      { rewrite <- (Fi (length objs) objs eq_refl 0 (provides_nothing provides objs)).
        - apply map_ext. intros k. rewrite Nat.sub_0_r. auto.
        - intros k _. auto. }
      rewrite T in E.
      assert (Sp : forall l, (forall i, In i l -> provides_nothing provides objs i = false) ->
        exists first, map (nth_error objs) l = map Some first /\ forall o, In o first -> provides o <> []).
      { induction l as [|i l IH]; intros H'.
        - exists []. split; [reflexivity|]. intros o [].
        - destruct (IH (fun j J => H' j (or_intror J))) as (first & A & B).
          specialize (H' i (or_introl eq_refl)). unfold provides_nothing in H'.
          destruct (nth_error objs i) as [o|] eqn:Eo; [|discriminate].
          exists (o :: first). simpl. rewrite Eo, A. split; auto. intros o' [<-|J]; auto.
          destruct (provides o); congruence. }
      destruct (Sp ord1 N) as (first & A & B). exists first. split; auto.
      apply M. rewrite map_app, <- E, A. auto.
  Qed.

  (** Reading the order off the returned list. *)
  Lemma schedule_before : forall ext objs must out,
    schedule' ext objs must = inl out ->
    forall k o u, nth_error out k = Some o -> In u (requires o) ->
      forall k' o', nth_error out k' = Some o' -> In u (provides o') -> k' < k.
  Proof.
    intros ext objs must out H k o u E R k' o' E' P'.
    destruct (schedule_order _ _ _ _ H) as (ord & [P M] & Rd).
    assert (G : forall k o, nth_error out k = Some o -> exists i, nth_error ord k = Some i /\ nth_error objs i = Some o).
    { intros j b X. assert (Y : nth_error (map (nth_error objs) ord) j = Some (Some b)).
      { rewrite M, nth_error_map, X. auto. }
      rewrite nth_error_map in Y. destruct (nth_error ord j) as [i|]; [|discriminate]. inversion Y. eauto. }
    destruct (G _ _ E) as (i & A & B). destruct (G _ _ E') as (j & A' & B').
    destruct (Nat.lt_ge_cases k' k) as [|Le]; auto. exfalso.
    apply (Rd k k' i j A A' Le). exists o, o', u. auto.
  Qed.
End Generic.

Lemma reference_eqb_spec : forall a b, reference_eqb a b = true <-> a = b.
Proof.
  intros [x|x|x|x|x] [y|y|y|y|y]; simpl; try (split; intros; discriminate);
  rewrite ?String.eqb_eq, ?Nat.eqb_eq; split; intros H; try (inversion H; auto); subst; auto.
Qed.

Lemma reads_requires : forall x e, reads_now x e -> In (RLocal x) (expr_requires e).
Proof.
  induction 1; simpl; rewrite ?in_app_iff; auto. apply in_flat_map. eauto.
Qed.
Lemma fetches_requires : forall x e, fetches x e -> In (RInitReg x) (expr_requires e).
Proof.
  induction 1; simpl; rewrite ?in_app_iff; auto. apply in_flat_map. eauto.
Qed.

Lemma stmt_reads_requires : forall s x, stmt_reads s x -> In (RLocal x) (stmt_requires s).
Proof.
  intros s x (e & V & R). apply reads_requires in R. destruct s; simpl in *; inversion V; subst; simpl; auto.
Qed.
Lemma stmt_fetches_requires : forall s x, stmt_fetches s x -> In (RInitReg x) (stmt_requires s).
Proof.
  intros s x (e & V & R). apply fetches_requires in R. destruct s; simpl in *; inversion V; subst; simpl; auto.
Qed.

Lemma node_causality_inv : forall nd nd', node_causality nd = inl nd' ->
  schedule stmt reference reference_eqb stmt_provides stmt_requires
          (map (fun x => RLocal (v_name x)) (n_inputs nd)) (n_stmts nd)
          (map (fun x => RLocal (v_name x)) (n_locals nd ++ n_outputs nd)) = inl (n_stmts nd') /\
  nd' = mkNode (n_name nd) (n_inputs nd) (n_outputs nd) (n_locals nd) (n_blocks nd) (n_stmts nd') (n_regs nd) (n_flips nd).
Proof.
  intros nd nd' H. unfold node_causality in H. destruct (schedule _ _ _ _ _ _ _ _) eqn:E; [|discriminate].
  inversion H; subst; simpl. auto.
Qed.

Lemma target_count_vars : forall x t,
  target_count x t = count_occ string_dec (target_vars t) x.
Proof.
  intros x. induction t using vartuple_ind'; simpl.
  - destruct (String.eqb_spec x x0) as [->|N]; destruct (string_dec x0 x0); try congruence.
    destruct (string_dec x0 x); congruence.
  - induction H as [|t l Ht H IH]; simpl; auto. rewrite count_occ_app, Ht, IH. auto.
Qed.

Definition ref_dec : forall a b : reference, {a = b} + {a <> b}.
Proof. decide equality; auto using string_dec, Nat.eq_dec. Qed.

Lemma count_map_local : forall x l,
  count_occ ref_dec (map RLocal l) (RLocal x) = count_occ string_dec l x.
Proof.
  induction l as [|y l IH]; simpl; auto.
  destruct (ref_dec (RLocal y) (RLocal x)), (string_dec y x); congruence.
Qed.

Lemma definitions_count : forall x l,
  definitions x l = count_occ ref_dec (flat_map stmt_provides l) (RLocal x).
Proof.
  induction l as [|s l IH]; simpl; auto. rewrite count_occ_app, <- IH. f_equal.
  destruct s; simpl; auto.
  - rewrite count_map_local, target_count_vars. auto.
  - destruct (ref_dec _ _); congruence.
Qed.

Lemma node_order : forall nd nd', node_causality nd = inl nd' ->
  forall k s, nth_error (n_stmts nd') k = Some s ->
  (forall x, stmt_reads s x -> forall k' s', nth_error (n_stmts nd') k' = Some s' -> stmt_count x s' <> 0 -> k' < k) /\
  (forall r, stmt_fetches s r -> forall k' v c, nth_error (n_stmts nd') k' = Some (SInit r v c) -> k' < k).
Proof.
  intros nd nd' H k s E. apply node_causality_inv in H. destruct H as [H _]. split.
  - intros x R k' s' E' C. eapply (schedule_before _ reference_eqb_spec); eauto using stmt_reads_requires.
    destruct s'; simpl in *; try congruence. rewrite target_count_vars in C. apply in_map.
    apply (count_occ_In string_dec). lia.
  - intros r R k' v c E'. eapply (schedule_before _ reference_eqb_spec); eauto using stmt_fetches_requires.
    simpl. auto.
Qed.

Lemma node_definitions : forall nd nd', node_causality nd = inl nd' ->
  (forall x, In x (n_inputs nd) -> definitions (v_name x) (n_stmts nd) = 0) /\
  (forall x, In x (n_outputs nd ++ n_locals nd) -> definitions (v_name x) (n_stmts nd) = 1).
Proof.
  intros nd nd' H. apply node_causality_inv in H. destruct H as [H _].
  assert (X : exists out, schedule stmt reference reference_eqb stmt_provides stmt_requires
          (map (fun x => RLocal (v_name x)) (n_inputs nd)) (n_stmts nd)
          (map (fun x => RLocal (v_name x)) (n_locals nd ++ n_outputs nd)) = inl out) by eauto.
  apply (schedule_iff _ reference_eqb_spec) in X. destruct X as ([ND Dj] & Co & _).
  split; intros x J; rewrite definitions_count.
  - apply count_occ_not_In. apply Dj. apply in_map_iff. eauto.
  - assert (L1 : count_occ ref_dec (flat_map stmt_provides (n_stmts nd)) (RLocal (v_name x)) <= 1).
    { apply NoDup_count_occ. auto. }
    assert (L2 : 0 < count_occ ref_dec (flat_map stmt_provides (n_stmts nd)) (RLocal (v_name x))).
    { apply count_occ_In. apply Co. apply in_map_iff. exists x. split; auto. apply in_app_iff. apply in_app_iff in J. tauto. }
    lia.
Qed.

Lemma node_rejects : forall nd e, node_causality nd = inr e ->
  (exists x, In x (n_inputs nd) /\ definitions (v_name x) (n_stmts nd) <> 0) \/
  (exists x, In x (n_outputs nd ++ n_locals nd) /\ definitions (v_name x) (n_stmts nd) = 0) \/
  (exists u, 1 < count_occ ref_dec (flat_map stmt_provides (n_stmts nd)) u) \/
  ~ acyclic stmt_provides stmt_requires (n_stmts nd).
Proof.
  intros nd e H. unfold node_causality in H.
  pose proof (schedule_full reference_eqb reference_eqb_spec stmt_provides stmt_requires
          (map (fun x => RLocal (v_name x)) (n_inputs nd)) (n_stmts nd)
          (map (fun x => RLocal (v_name x)) (n_locals nd ++ n_outputs nd))) as F.
  destruct (schedule _ _ _ _ _ _ _ _) as [|e']; [discriminate|]. 
  destruct e'.
  - (* twice *)
    destruct (existsb (fun x => negb (definitions (v_name x) (n_stmts nd) =? 0)) (n_inputs nd)) eqn:X.
    { apply existsb_exists in X. destruct X as (x & J & N). left. exists x. split; auto.
      apply negb_true_iff, Nat.eqb_neq in N. auto. }
    right. right. left.
    destruct (existsb (fun u => 1 <? count_occ ref_dec (flat_map stmt_provides (n_stmts nd)) u) (flat_map stmt_provides (n_stmts nd))) eqn:Y.
    { apply existsb_exists in Y. destruct Y as (u & _ & L). apply Nat.ltb_lt in L. eauto. }
    exfalso. apply F. split.
    + apply (NoDup_count_occ ref_dec). intros u.
      destruct (in_dec ref_dec u (flat_map stmt_provides (n_stmts nd))) as [J|J].
      * destruct (Nat.le_gt_cases (count_occ ref_dec (flat_map stmt_provides (n_stmts nd)) u) 1); auto.
        exfalso. rewrite <- not_true_iff_false in Y. apply Y. apply existsb_exists. exists u. split; auto.
        apply Nat.ltb_lt. auto.
      * apply (count_occ_not_In ref_dec) in J. lia.
    + intros u J K. apply in_map_iff in J. destruct J as (x & <- & J).
      rewrite <- not_true_iff_false in X. apply X. apply existsb_exists. exists x. split; auto.
      apply negb_true_iff, Nat.eqb_neq. rewrite definitions_count. apply (count_occ_In ref_dec) in K. lia.
  - destruct F as (i & F). right. right. right. intros A. eapply A. apply dp_one. eauto.
  - right. left. 
    destruct (existsb (fun x => definitions (v_name x) (n_stmts nd) =? 0) (n_outputs nd ++ n_locals nd)) eqn:X.
    { apply existsb_exists in X. destruct X as (x & J & N). exists x. split; auto. apply Nat.eqb_eq. auto. }
    exfalso. apply F. intros u J. apply in_map_iff in J. destruct J as (x & <- & J).
    destruct (in_dec ref_dec (RLocal (v_name x)) (flat_map stmt_provides (n_stmts nd))) as [K|K]; auto.
    exfalso. rewrite <- not_true_iff_false in X. apply X. apply existsb_exists. exists x. split.
    + apply in_app_iff. apply in_app_iff in J. tauto.
    + apply Nat.eqb_eq. rewrite definitions_count. apply count_occ_not_In. auto.
  - auto.
  - destruct F.
Qed.

Lemma node_stmts_perm : forall nd nd', node_causality nd = inl nd' ->
  Permutation (n_stmts nd') (n_stmts nd) /\
  nd' = mkNode (n_name nd) (n_inputs nd) (n_outputs nd) (n_locals nd) (n_blocks nd) (n_stmts nd') (n_regs nd) (n_flips nd).
Proof.
  intros nd nd' H. apply node_causality_inv in H. destruct H as [H E]. split; auto.
  eapply schedule_perm; eauto. apply reference_eqb_spec.
Qed.

(** Declarations: a node comes after every node it calls. *)
Lemma prog_order : forall l l', prog_causality l = inl l' ->
  forall k g nd, nth_error l' k = Some (DNode g nd) ->
  forall f, In f (n_blocks nd) ->
  forall k' d, nth_error l' k' = Some d -> decl_provides d = [RFun f] -> k' < k.
Proof.
  intros l l' H k g nd E f J k' d E' D. unfold prog_causality in H.
  destruct (decls_causality l) as [l1|]; [|discriminate].
  refine (schedule_before _ reference_eqb_spec _ _ _ _ _ _ H k _ (RFun f) E _ k' d E' _).
  - simpl. apply in_app_iff. left. apply in_map. auto.
  - rewrite D. simpl. auto.
Qed.

Lemma prog_unique : forall l l', prog_causality l = inl l' ->
  NoDup (flat_map decl_provides l').
Proof.
  intros l l' H. unfold prog_causality in H.
  destruct (decls_causality l) as [l1|]; [|discriminate].
  assert (X : exists out, schedule decl reference reference_eqb decl_provides decl_requires [] l1 [] = inl out) by eauto.
  apply (schedule_iff _ reference_eqb_spec) in X. destruct X as ([ND _] & _).
  apply (schedule_perm _ reference_eqb_spec) in H. destruct H as [P _].
  eapply Permutation_NoDup; [|exact ND]. apply Permutation_sym. apply Permutation_flat_map. auto.
Qed.

(** ** The conditions on nodes, in terms of what statements read *)
Local Hint Constructors reads_now fetches : core.
Lemma requires_reads : forall x e, In (RLocal x) (expr_requires e) -> reads_now x e.
Proof.
  intros x. induction e using expr_ind'; simpl; intros J; rewrite ?in_app_iff in J;
    try solve [destruct J as [J|[]]; discriminate | decompose [or] J; auto | destruct J].
  - match goal with J : In _ (match ?n with _ => _ end) |- _ => destruct n end; simpl in J; [|destruct J]. destruct J as [J|[]]. inversion J. constructor.
  - apply in_flat_map in J. destruct J as (e & K & J). rewrite Forall_forall in H. eapply rn_tuple; eauto.
Qed.
Lemma requires_fetches : forall r e, In (RInitReg r) (expr_requires e) -> fetches r e.
Proof.
  intros r. induction e using expr_ind'; simpl; intros J; rewrite ?in_app_iff in J;
    try solve [destruct J as [J|[]]; discriminate | decompose [or] J; auto | destruct J].
  - match goal with J : In _ (match ?n with _ => _ end) |- _ => destruct n end; simpl in J; [|destruct J]. destruct J as [J|[]]. inversion J.
  - apply in_flat_map in J. destruct J as (e & K & J). rewrite Forall_forall in H. eapply fe_tuple; eauto.
  - destruct J as [J|[]]. inversion J. constructor.
Qed.

Lemma stmt_requires_reads : forall s x, In (RLocal x) (stmt_requires s) -> stmt_reads s x.
Proof.
  intros [t e|e|id [v|] c|id e] x J; simpl in J; unfold stmt_reads; simpl; 
    try solve [eexists; split; eauto using requires_reads]; try solve [destruct J].
  destruct J as [J|J]; [discriminate|]. eexists; split; eauto using requires_reads.
Qed.
Lemma stmt_requires_fetches : forall s r, In (RInitReg r) (stmt_requires s) -> stmt_fetches s r.
Proof.
  intros [t e|e|id [v|] c|id e] x J; simpl in J; unfold stmt_fetches; simpl; 
    try solve [eexists; split; eauto using requires_fetches]; try solve [destruct J].
  destruct J as [J|J]; [discriminate|]. eexists; split; eauto using requires_fetches.
Qed.

Lemma provides_local : forall s x, In (RLocal x) (stmt_provides s) <-> stmt_count x s <> 0.
Proof.
  intros [t e|e|id v c|id e] x; simpl; try (split; [intros []|congruence]; fail).
  - rewrite target_count_vars. split; intros H.
    + apply in_map_iff in H. destruct H as (y & E & J). inversion E; subst.
      apply (count_occ_In string_dec) in J. lia.
    + apply in_map. apply (count_occ_In string_dec). lia.
  - split; [intros [E|[]]; discriminate|congruence].
Qed.
Lemma provides_init : forall s r, In (RInitReg r) (stmt_provides s) <-> stmt_inits r s <> 0.
Proof.
  intros [t e|e|id v c|id e] x; simpl; try (split; [intros []|congruence]; fail).
  - split; [|congruence]. intros J. apply in_map_iff in J. destruct J as (y & E & _). discriminate.
  - destruct (Nat.eqb_spec id x) as [->|N]; split; auto; try congruence.
    intros [E|[]]. congruence.
Qed.
Lemma provides_other : forall s u, In u (stmt_provides s) -> (exists x, u = RLocal x) \/ exists r, u = RInitReg r.
Proof.
  intros [t e|e|id v c|id e] u J; simpl in J; try (destruct J; fail).
  - apply in_map_iff in J. destruct J as (y & <- & _). eauto.
  - destruct J as [<-|[]]. eauto.
Qed.

Lemma initialisations_count : forall r l,
  initialisations r l = count_occ ref_dec (flat_map stmt_provides l) (RInitReg r).
Proof.
  induction l as [|s l IH]; simpl; auto. rewrite count_occ_app, <- IH. f_equal.
  destruct s; simpl; auto.
  - symmetry. apply count_occ_not_In. intros J. apply in_map_iff in J. destruct J as (y & E & _). discriminate.
  - destruct (ref_dec _ _), (Nat.eqb_spec id r); congruence.
Qed.

Lemma depends_awaits : forall l i j, depends_on stmt_provides stmt_requires l i j <-> awaits l i j.
Proof.
  intros l i j. split.
  - intros (si & sj & u & A & B & R & P). exists si, sj. split; auto. split; auto.
    destruct (provides_other _ _ P) as [(x & ->)|(r & ->)].
    + left. exists x. split; auto using stmt_requires_reads. apply provides_local. auto.
    + right. exists r. split; auto using stmt_requires_fetches. apply provides_init. auto.
  - intros (si & sj & A & B & [(x & R & P)|(r & R & P)]); exists si, sj.
    + exists (RLocal x). repeat split; auto using stmt_reads_requires. apply provides_local. auto.
    + exists (RInitReg r). repeat split; auto using stmt_fetches_requires. apply provides_init. auto.
Qed.

Lemma acyclic_awaits : forall l,
  acyclic stmt_provides stmt_requires l <-> forall i, ~ awaits_plus l i i.
Proof.
  intros l. unfold acyclic.
  assert (X : forall i j, depends_plus stmt_provides stmt_requires l i j <-> awaits_plus l i j).
  { intros i j. split; induction 1.
    - apply ap_one. apply depends_awaits. auto.
    - eapply ap_more; eauto. apply depends_awaits. auto.
    - apply dp_one. apply depends_awaits. auto.
    - eapply dp_more; eauto. apply depends_awaits. auto. }
  split; intros H i C; apply (H i); apply X; auto.
Qed.

Lemma node_orderable : forall nd, (exists nd', node_causality nd = inl nd') <-> orderable nd.
Proof.
  intros nd.
  assert (I : (exists nd', node_causality nd = inl nd') <->
    exists out, schedule stmt reference reference_eqb stmt_provides stmt_requires
          (map (fun x => RLocal (v_name x)) (n_inputs nd)) (n_stmts nd)
          (map (fun x => RLocal (v_name x)) (n_locals nd ++ n_outputs nd)) = inl out).
  { split; intros (o & H).
    - apply node_causality_inv in H. destruct H. eauto.
    - unfold node_causality. rewrite H. eauto. }
  rewrite I, (schedule_iff _ reference_eqb_spec), acyclic_awaits.
  unfold orderable, single_assignment, complete. split.
  - intros ((ND & Dj) & Co & Ac). split; [|split; [|split; [|split; auto]]].
    + intros x J. rewrite definitions_count. apply count_occ_not_In. apply Dj. apply in_map_iff. eauto.
    + intros x J. rewrite definitions_count. apply not_eq_sym, Nat.lt_neq. apply count_occ_In. apply Co.
      apply in_map_iff. exists x. split; auto. apply in_app_iff. apply in_app_iff in J. tauto.
    + intros x. rewrite definitions_count. apply NoDup_count_occ. auto.
    + intros r. rewrite initialisations_count. apply NoDup_count_occ. auto.
  - intros (A & B & C & D & Ac). split; [split|split; auto].
    + apply (NoDup_count_occ ref_dec). intros u.
      destruct (in_dec ref_dec u (flat_map stmt_provides (n_stmts nd))) as [J|J].
      * pose proof J as J'. apply in_flat_map in J'. destruct J' as (s & _ & J').
        destruct (provides_other _ _ J') as [(x & ->)|(r & ->)].
        -- rewrite <- definitions_count. auto.
        -- rewrite <- initialisations_count. auto.
      * apply (count_occ_not_In ref_dec) in J. lia.
    + intros u J K. apply in_map_iff in J. destruct J as (x & <- & J). specialize (A _ J).
      rewrite definitions_count in A. apply (count_occ_In ref_dec) in K. lia.
    + intros u J. apply in_map_iff in J. destruct J as (x & <- & J).
      apply (count_occ_In ref_dec). rewrite <- definitions_count. 
      assert (definitions (v_name x) (n_stmts nd) <> 0); [|lia].
      apply B. apply in_app_iff. apply in_app_iff in J. tauto.
Qed.

Lemma node_refused : forall nd e, node_causality nd = inr e ->
  (exists x, In x (n_inputs nd) /\ definitions (v_name x) (n_stmts nd) <> 0) \/
  (exists x, In x (n_outputs nd ++ n_locals nd) /\ definitions (v_name x) (n_stmts nd) = 0) \/
  (exists x, 1 < definitions x (n_stmts nd)) \/
  (exists r, 1 < initialisations r (n_stmts nd)) \/
  ~ (forall i, ~ awaits_plus (n_stmts nd) i i).
Proof.
  intros nd e H. destruct (node_rejects _ _ H) as [A|[A|[(u & L)|A]]]; auto.
  - assert (J : In u (flat_map stmt_provides (n_stmts nd))) by (apply (count_occ_In ref_dec); lia).
    apply in_flat_map in J. destruct J as (s & _ & J). right. right.
    destruct (provides_other _ _ J) as [(x & ->)|(r & ->)].
    + left. exists x. rewrite definitions_count. auto.
    + right. left. exists r. rewrite initialisations_count. auto.
  - right. right. right. right. rewrite <- acyclic_awaits. auto.
Qed.
