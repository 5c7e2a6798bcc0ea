(** A slice of a node gives the outputs of the node. *)
From Coq Require Import String List ZArith Bool Arith Lia.
From Verif Require Import Model.Base Model.Scalar Model.Value Model.Register Model.Ast Model.Errors Model.Interp Model.Options Model.Surface Model.Translate
  Model.Pipeline Model.Extern
  Spec.StepSpec Spec.SurfaceSem Spec.ProgramSem Spec.SettledSem Spec.SafetySpec Spec.ExternSem Spec.ExternSettled Spec.SourceCausal Spec.ConstSpec Spec.Observe Spec.Slice
  Proofs.OutBasics Proofs.ExternExact Proofs.Observe.
Import ListNotations.

Lemma stmt_keeps : forall mode glob L L' rho F N T s, (forall x, In x (names (right_side s)) -> (In x L <-> In x L')) ->
  sstmt_holds mode glob L rho F N T s /\ stmt_settled mode glob L rho F N T s ->
  sstmt_holds mode glob L' rho F N T s /\ stmt_settled mode glob L' rho F N T s.
Proof.
  intros mode glob L L' rho F N T s H [A B].
  assert (O : off (fun x => In x (names (right_side s))) (right_side s)) by (intros x J; exact J).
  assert (R : forall x, In x (names (right_side s)) -> forall k, rho k x = rho k x) by auto.
  destruct s as [t e|e]; cbn in *; (split; [|apply (settled_off mode glob L L' rho rho F N (fun x => In x (names e))); auto]).
  - destruct A as (v & A1 & A2). exists v. split; auto. apply (sem_off mode glob L L' rho rho F N (fun x => In x (names e))); auto.
  - apply (sem_off mode glob L L' rho rho F N (fun x => In x (names e))); auto.
Qed.

Lemma among_row : forall env o o' r, incl o' o -> Forall2 (fun x n => env x = Some n) o r ->
  Forall2 (fun x n => env x = Some n) o' (among o o' r).
Proof.
  intros env o o' r I H. unfold among. induction o' as [|x o' IH]; cbn; constructor; [|apply IH; intros y J; apply I; right; auto].
  assert (J : In x o) by (apply I; left; auto). clear I IH. induction H as [|y n o r E H IH]; [destruct J|]. cbn.
  destruct (String.eqb_spec y x) as [->|Ne]; auto. destruct J; [congruence|auto].
Qed.
Lemma among_absent : forall o o' r, r = map (fun _ => Nil) o -> among o o' r = map (fun _ => Nil) o'.
Proof.
  intros o o' r ->. unfold among. apply map_ext. intros x. induction o as [|y o IH]; cbn; auto. destruct (String.eqb y x); auto.
Qed.
Lemma absent_nils : forall m : list ident, m <> [] -> absent_row m = tuple (map (fun _ => Nil) m).
Proof. intros [|x [|y m]] Nm; [tauto|reflexivity|]. unfold tuple, absent_row. rewrite map_map. reflexivity. Qed.

Lemma slice_settles : forall mode glob F N sn sn' ins rows, slice sn sn' ->
  Forall (fun r => length r = length (declared (s_outputs sn))) rows ->
  node_settles mode glob F N sn ins (map tuple rows) ->
  node_settles mode glob F N sn' ins (map (fun r => tuple (among (declared (s_outputs sn)) (declared (s_outputs sn')) r)) rows).
Proof.
  intros mode glob F N sn sn' ins rows (Si & So & Sd & Sn) Wr (Len & rho & M). split; [rewrite map_length in *; exact Len|].
  exists rho. intros T v y Hv Hy. rewrite nth_error_map in Hy. destruct (nth_error rows T) as [r|] eqn:Hr; inversion Hy; subst y; clear Hy.
  destruct (M T v (tuple r) Hv) as (A & B & C); [rewrite nth_error_map, Hr; auto|]. rewrite Si. split; [exact A|]. split.
  - intros s J. eapply stmt_keeps; [|apply B; auto]. intros x X. eapply Sn; eauto.
  - exists (among (declared (s_outputs sn)) (declared (s_outputs sn')) r). split; auto. apply among_row; auto.
    apply row_tuple; auto. rewrite Forall_forall in Wr. apply Wr. eapply nth_error_In; eauto.
Qed.

Theorem slice_runs : forall mode glob ext p l, result (pipeline p) = Some l -> default_mode p ->
  (forall x t, constant p x t -> glob x <> None) -> ordinary ext ->
  forall a b sn sn', In (a, XNode sn) p -> In (b, XNode sn') p -> slice sn sn' ->
  forall ins rows, length rows = length ins -> Forall (fun r => length r = length (declared (s_outputs sn))) rows ->
  declared (s_outputs sn') <> [] \/ Forall (fun v => first_is_nil v = false) ins ->
  xoutputs mode glob ext (items_of l) (s_name sn) ins = Ok (map tuple rows) ->
  xoutputs mode glob ext (items_of l) (s_name sn') ins =
    Ok (map (fun r => tuple (among (declared (s_outputs sn)) (declared (s_outputs sn')) r)) rows).
Proof.
  intros mode glob ext p l Hp D K X a b sn sn' Ia Ib S ins rows Len Wr Ne R.
  apply (extern_exact mode glob ext p l Hp D K X) in R. apply (extern_exact mode glob ext p l Hp D K X).
  apply (node_means mode glob ext p l Hp a) in R; auto. apply (node_means mode glob ext p l Hp b); auto.
  destruct R as (n & po & M & W). exists n.
  set (H := filter here (combine ins rows)).
  assert (Lp : length po = length (filter (fun v => negb (first_is_nil v)) ins)) by apply M.
  rewrite (map_snd_combine _ _ _ tuple ins rows Len) in W. symmetry in W. apply (weave_rows _ (fun _ r => tuple r)) in W; auto. destruct W as [Ep Fa].
  fold H in Ep. subst po. rewrite <- map_map in M.
  assert (WH : Forall (fun r => length r = length (declared (s_outputs sn))) (map snd H)).
  { apply Forall_forall. intros r J. apply in_map_iff in J. destruct J as ([v r'] & <- & J). apply filter_In in J. destruct J as [J _]. apply in_combine_r in J.
    rewrite Forall_forall in Wr. auto. }
  exists (map (fun r => tuple (among (declared (s_outputs sn)) (declared (s_outputs sn')) r)) (map snd H)). split; [eapply slice_settles; eauto|].
  set (g := fun r => tuple (among (declared (s_outputs sn)) (declared (s_outputs sn')) r)).
  rewrite (map_snd_combine _ _ _ g ins rows Len). symmetry. apply (weave_rows _ (fun _ r => g r)); auto.
  - rewrite map_length, map_length. rewrite map_length in Lp. exact Lp.
  - split; [rewrite map_map; auto|]. rewrite Forall_forall in *. intros [v r] J E. specialize (Fa _ J E). cbn [snd] in *.
    destruct Ne as [Ne|Ne]; [|exfalso; apply in_combine_l in J; try rewrite Forall_forall in Ne; cbn in E; rewrite (Ne v J) in E; discriminate E].
    assert (No : declared (s_outputs sn) <> []).
    { destruct S as (_ & So & _). intros Z. rewrite Z in So. destruct (declared (s_outputs sn')) as [|x m]; [tauto|]. destruct (So x (or_introl eq_refl)). }
    rewrite (absent_nils _ No) in Fa. apply tuple_inj in Fa; [|rewrite map_length; symmetry; apply in_combine_r in J; apply Wr; auto].
    unfold g. rewrite among_absent; auto. apply absent_nils. auto.
Qed.

(** Two nodes that only differ by the order of their outputs and equations, and
    by their local declarations. *)
Theorem slices_alike : forall mode glob ext p l, result (pipeline p) = Some l -> default_mode p ->
  (forall x t, constant p x t -> glob x <> None) -> ordinary ext ->
  forall a b sn sn', In (a, XNode sn) p -> In (b, XNode sn') p -> slice sn sn' -> slice sn' sn ->
  forall ins, declared (s_outputs sn) <> [] \/ Forall (fun v => first_is_nil v = false) ins ->
  ((exists err, xoutputs mode glob ext (items_of l) (s_name sn) ins = Panic err) <->
   (exists err, xoutputs mode glob ext (items_of l) (s_name sn') ins = Panic err)).
Proof.
  intros mode glob ext p l Hp D K X.
  assert (Half : forall a b sn sn', In (a, XNode sn) p -> In (b, XNode sn') p -> slice sn sn' ->
    forall ins, declared (s_outputs sn) <> [] \/ Forall (fun v => first_is_nil v = false) ins ->
    declared (s_outputs sn') <> [] \/ Forall (fun v => first_is_nil v = false) ins ->
    (exists err, xoutputs mode glob ext (items_of l) (s_name sn') ins = Panic err) -> exists err, xoutputs mode glob ext (items_of l) (s_name sn) ins = Panic err).
  { intros a b sn sn' Ia Ib S ins N1 N2 (err & E).
    destruct (xoutputs mode glob ext (items_of l) (s_name sn) ins) as [outs|err'] eqn:R; [|eauto]. exfalso.
    destruct (output_rows mode glob ext p l Hp D K X a sn ins outs Ia R N1) as (rows & L1 & L2 & ->).
    rewrite (slice_runs mode glob ext p l Hp D K X a b sn sn' Ia Ib S ins rows L1 L2 N2 R) in E. discriminate E. }
  intros a b sn sn' Ia Ib S S' ins N1.
  assert (N2 : declared (s_outputs sn') <> [] \/ Forall (fun v => first_is_nil v = false) ins).
  { destruct N1 as [N1|N1]; auto. left. intros Z. destruct S' as (_ & So & _). rewrite Z in So. destruct (declared (s_outputs sn)) as [|x m]; [tauto|]. destruct (So x (or_introl eq_refl)). }
  split; [apply (Half b a sn' sn)|apply (Half a b sn sn')]; auto.
Qed.
