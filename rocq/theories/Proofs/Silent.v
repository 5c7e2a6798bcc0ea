(** Only attributes cause warnings. *)
From Coq Require Import String List ZArith Bool Arith Lia.
From Verif Require Import Model.Base Model.Scalar Model.Value Model.Ast Model.Errors Model.Interp Model.Options Model.Surface Model.Translate
  Model.Graph Model.Causality Model.Typecheck Model.Clockcheck Model.Positivity Model.Pipeline
  Proofs.AstInd Proofs.OutBasics Proofs.Unify Proofs.NodeWf.
Import ListNotations.

Definition warned {A} (x : out A) : list error := match x with Out _ _ ws => ws | Abort => [] end.
Definition silent {A} (x : out A) : Prop := warned x = [].

Lemma silent_bind : forall {A B} (x : out A) (f : A -> out B), silent x -> (forall a, silent (f a)) -> silent (obind x f).
Proof.
  intros A B [[a|] es ws|] f Hx Hf; cbn in *; auto. specialize (Hf a). unfold silent in *. destruct (f a); cbn in *; auto. subst. auto.
Qed.
Lemma silent_attempt : forall {A} (x : out A), silent x -> silent (attempt x).
Proof. intros A [r es ws|] H; auto. Qed.
Lemma silent_if : forall {A} (b : bool) (x y : out A), silent x -> silent y -> silent (if b then x else y).
Proof. intros A [] x y; auto. Qed.
Lemma silent_each : forall {A} (f : A -> out unit) l, (forall a, silent (f a)) -> silent (each f l).
Proof. intros A f l H. induction l; cbn [each]; [reflexivity|]. apply silent_bind; auto. Qed.
Lemma silent_omap : forall {A B} (f : A -> out B) l, (forall a, In a l -> silent (f a)) -> silent (omap f l).
Proof.
  intros A B f l. induction l as [|a l IH]; intros H; cbn [omap]; [reflexivity|]. apply silent_bind; [apply H; simpl; auto|]. intros b.
  apply silent_bind; [apply IH; intros; apply H; simpl; auto|]. reflexivity.
Qed.

Ltac quiet :=
  match goal with
  | |- silent Abort => reflexivity
  | |- silent (fail _) => reflexivity
  | |- silent (done _) => reflexivity
  | |- silent (need _) => reflexivity
  | |- silent (scope_close ?b) => destruct b; reflexivity
  | |- silent (attempt _) => apply silent_attempt
  | |- silent (obind _ _) => apply silent_bind; [|intros]
  | |- silent (if _ then _ else _) => apply silent_if
  | |- silent (let '(_, _) := ?p in _) => destruct p
  | |- silent (match ?p with _ => _ end) => destruct p eqn:?
  end.
Ltac quietly := repeat (first [assumption | solve [auto] | quiet]).

Lemma silent_tr : forall u locals e d s, silent (tr u locals e d s).
Proof.
  intros u locals. induction e using sexpr_ind'; intros d s; cbn [tr].
  - unfold tr_lit. destruct l; cbv beta; try (destruct (in_i64 _)); quietly.
  - quietly.
  - quietly. clear -H. revert d s. induction H; intros d s; cbn [tr_elems]; quietly.
  - quietly. clear -H. revert d s. induction H; intros d s; cbn [tr_elems]; quietly.
  - quietly.
  - quietly.
  - quietly.
  - quietly.
  - quietly.
  - quietly. match goal with |- silent (tr_left _ _ ?a _ ?b ?c) => generalize a b c end.
    clear -H. induction H as [|[op e] l He _ IH]; intros; cbn [tr_left]; quietly.
  - quietly; repeat match goal with F : Forall _ (_ :: _) |- _ => inversion F; subst; clear F end; cbn [snd] in *; auto.
  - quietly. match goal with |- silent (tr_left _ _ ?a _ ?b ?c) => generalize a b c end.
    clear -H. induction H as [|[op e] l He _ IH]; intros; cbn [tr_left]; quietly.
  - assert (R : forall bump compose l i d s, Forall (fun e => forall d s, silent (tr u locals e d s)) l -> silent (tr_right (tr u locals) bump compose i l d s)).
    { clear. intros bump compose l. induction l as [|e l IH]; intros i d s F; cbn [tr_right]; inversion F; subst; quietly. }
    quietly.
  - assert (R : forall bump compose l i d s, Forall (fun e => forall d s, silent (tr u locals e d s)) l -> silent (tr_right (tr u locals) bump compose i l d s)).
    { clear. intros bump compose l. induction l as [|e l IH]; intros i d s F; cbn [tr_right]; inversion F; subst; quietly. }
    quietly.
Qed.
Lemma silent_tr_stmts : forall u locals l s, silent (tr_stmts u locals l s).
Proof.
  intros u locals. induction l as [|i l IH]; intros s; cbn [tr_stmts]; quietly.
  destruct i; cbn [tr_stmt]; quietly; apply silent_tr.
Qed.
Lemma silent_skip : forall {A} (o : setopt A), silent (skip o).
Proof. intros A [a|]; reflexivity. Qed.
Lemma silent_tr_decl : forall o d, silent (tr_decl o d).
Proof.
  intros o d. destruct d; cbn [tr_decl].
  - unfold for_const. repeat first [apply silent_skip | apply silent_tr | quiet].
  - unfold for_node, tr_node. cbv zeta. repeat first [apply silent_tr_stmts | quiet].
  - unfold for_ext_const. repeat first [apply silent_skip | quiet].
  - unfold for_ext_node. repeat first [apply silent_skip | quiet].
Qed.

Lemma silent_causality : forall l, silent (causality l).
Proof. intros. unfold causality. quietly. Qed.

Lemma silent_require : forall u l r, silent (require_identical u l r).
Proof. intros. unfold require_identical. quietly. Qed.
Lemma silent_identical : forall a u b, silent (identical u a b).
Proof.
  induction a as [b0|ts IH] using ty_ind'; intros u b.
  - destruct b; cbn [identical]; [apply silent_require|reflexivity].
  - destruct b as [|us]; [reflexivity|]. rewrite identical_mult. apply silent_if; [|reflexivity].
    apply silent_bind; [|reflexivity].
    revert u us. induction IH as [|t ts Ht _ IHl]; intros u us; cbn [identicals]; [reflexivity|].
    destruct us as [|v us]; [reflexivity|]. quietly.
Qed.
Lemma silent_primitive : forall x, silent x -> silent (primitive x).
Proof. intros. unfold primitive, is_primitive. quietly. Qed.
Lemma silent_is_bool : forall b, silent (is_bool b).
Proof. intros []; reflexivity. Qed.
Lemma silent_bin : forall op l r, silent (bin_accepts op l r).
Proof. intros. unfold bin_accepts. quietly. Qed.
Lemma silent_un : forall op l, silent (un_accepts op l).
Proof. intros. unfold un_accepts. quietly. Qed.
Lemma silent_cmp : forall op l r, silent (cmp_accepts op l r).
Proof. intros. unfold cmp_accepts. quietly. Qed.
Lemma silent_from_generics : forall l, silent (from_generics l).
Proof. induction l; cbn [from_generics]; quietly. Qed.
Lemma silent_instances : forall m, silent (instances m).
Proof. induction m as [|[x [b|]] m IH]; cbn [instances]; quietly. Qed.
Ltac quiet_ty := first [assumption | solve [auto] | apply silent_is_bool | apply silent_bin | apply silent_un | apply silent_cmp | apply silent_from_generics
  | apply silent_instances | apply silent_identical | apply silent_primitive | quiet].
Lemma silent_tc : forall ctx e s, silent (tc ctx e s).
Proof.
  intros ctx. induction e using expr_ind'; intros s; cbn [tc]; unfold is_primitive; repeat quiet_ty.
  revert s. induction H; intros s; repeat quiet_ty.
Qed.
Lemma silent_tc_target : forall ctx t, silent (tc_target ctx t).
Proof.
  intros ctx. induction t using vartuple_ind'; cbn [tc_target]; repeat quiet_ty. apply silent_omap. apply Forall_forall. auto.
Qed.
Lemma silent_tc_stmt : forall ctx i s, silent (tc_stmt ctx i s).
Proof. intros ctx [] s; cbn [tc_stmt]; repeat first [apply silent_tc | apply silent_tc_target | quiet_ty]. Qed.
Lemma silent_tc_stmts : forall ctx l s, silent (tc_stmts ctx l s).
Proof. intros ctx. induction l; intros s; cbn [tc_stmts]; repeat first [apply silent_tc_stmt | quiet_ty]. Qed.
Lemma silent_is_const : forall e, silent (is_const e).
Proof. induction e using expr_ind'; cbn [is_const]; repeat quiet_ty. Qed.
Lemma silent_tc_vars : forall l vars, silent (tc_vars l vars).
Proof. induction l as [|v l IH]; intros vars; cbn [tc_vars]; repeat quiet_ty. unfold tc_clock. repeat quiet_ty. Qed.
Lemma silent_tc_generics : forall d i o, silent (tc_generics d i o).
Proof.
  intros. unfold tc_generics.
  assert (D : forall v, silent (tc_declared d v)) by (intros v; unfold tc_declared; repeat quiet_ty).
  repeat first [apply silent_each; intros | quiet_ty].
Qed.
Lemma silent_tc_executable : forall x i o, silent (tc_executable x i o).
Proof. intros. unfold tc_executable. repeat quiet_ty. Qed.
Lemma silent_tc_blocks : forall fs l, silent (tc_blocks fs l).
Proof. intros fs. induction l; cbn [tc_blocks]; repeat quiet_ty. Qed.
Lemma silent_tc_decls : forall l g fs, silent (tc_decls g fs l).
Proof.
  induction l as [|d l IH]; intros g fs; cbn [tc_decls]; unfold tc_const, tc_node, tc_ext_node;
  repeat first [apply silent_is_const | apply silent_tc | apply silent_tc_vars | apply silent_tc_generics | apply silent_tc_executable
    | apply silent_tc_blocks | apply silent_tc_stmts | quiet_ty].
Qed.
Lemma silent_typecheck : forall l, silent (typecheck l).
Proof. intros. unfold typecheck. repeat first [apply silent_tc_decls | quiet_ty]. Qed.

Lemma silent_refine : forall a b, silent (refine a b).
Proof. intros [] []; cbn [refine]; quietly. Qed.
Lemma silent_clk_identical : forall a b, silent (clk_identical a b).
Proof. intros [] []; cbn [clk_identical]; quietly. Qed.
Lemma silent_is_implicit : forall a, silent (is_implicit a).
Proof. intros []; reflexivity. Qed.
Lemma silent_as_clock : forall e b, silent (as_clock e b).
Proof. intros [] []; reflexivity. Qed.
Ltac quiet_clk := first [assumption | solve [auto] | apply silent_refine | apply silent_clk_identical | apply silent_is_implicit | apply silent_as_clock
  | quiet].
Lemma silent_kc : forall local e s, silent (kc local e s).
Proof.
  intros local. induction e using expr_ind'; intros s.
  4: {
    rewrite kc_tuple. destruct l as [|e0 l]; [reflexivity|]. inversion H; subst.
    apply silent_bind; auto. intros [g s1]. apply silent_bind; [|reflexivity]. clear - H. revert s1.
    induction H as [|e l' He _ IH]; intros s1; cbn [kcs]; repeat quiet_clk. }
  all: cbn [kc]; repeat quiet_clk.
Qed.
Lemma silent_kc_target : forall local t, silent (kc_target local t).
Proof.
  intros local. induction t using vartuple_ind'; cbn [kc_target]; [repeat quiet_clk|].
  destruct l as [|t0 l]; [reflexivity|]. inversion H; subst. apply silent_bind; auto. intros g.
  apply silent_bind; [|reflexivity]. apply silent_bind; auto. intros k. apply silent_bind; [apply silent_clk_identical|]. intros _.
  match goal with F : Forall _ l |- _ => clear - F; induction F as [|t l' He _ IH]; [reflexivity|] end.
  apply silent_bind; auto. intros k. apply silent_bind; [apply silent_clk_identical|]. auto.
Qed.
Lemma silent_kc_stmts : forall local l s, silent (kc_stmts local l s).
Proof.
  intros local. induction l as [|i l IH]; intros s; cbn [kc_stmts]; repeat quiet_clk.
  destruct i; cbn [kc_stmt]; repeat first [apply silent_kc | apply silent_kc_target | quiet_clk].
Qed.
Lemma silent_clockcheck : forall l, silent (clockcheck l).
Proof.
  intros l. apply silent_omap. intros d _. destruct d; cbn [kc_decl]; unfold kc_node, sig_implicit;
  repeat first [apply silent_kc_stmts | apply silent_each; intros | apply silent_omap; intros | apply silent_is_implicit | quiet_clk].
  match goal with |- silent (fill_clock _ ?i) => destruct i; cbn [fill_clock]; repeat quiet_clk end.
Qed.

Lemma silent_pos : forall e cur m, silent (Positivity.pos e cur m).
Proof.
  induction e using expr_ind'; intros cur m; cbn [Positivity.pos]; quietly.
  revert m. induction H; intros m; quietly.
Qed.
Lemma silent_positivity : forall l, silent (positivity l).
Proof.
  intros l. apply silent_omap. intros d _. destruct d; cbn [pos_decl]; unfold pos_node; quietly.
  generalize (@nil (ident * nat)). induction (n_stmts nd) as [|i is IH]; intros m; cbn [pos_stmts]; quietly.
  destruct i; cbn [pos_stmt]; quietly; apply silent_pos.
Qed.

(** The warnings of a program are those of the attributes of its declarations. *)
Lemma warned_bind : forall {A B} (x : out A) (f : A -> out B) b, (forall a, silent (f a)) -> result (obind x f) = Some b ->
  warned (obind x f) = warned x.
Proof.
  intros A B [[a|] es ws|] f b H R; cbn in *; auto. specialize (H a). unfold silent in H. destruct (f a); cbn in *; [|discriminate].
  subst. apply app_nil_r.
Qed.
Lemma warned_app : forall {A B} (x : out A) (f : A -> out B) a b, result x = Some a -> result (f a) = Some b ->
  warned (obind x f) = warned x ++ warned (f a).
Proof. intros A B [[a0|] es ws|] f a b H R; cbn in *; try discriminate. inversion H; subst. destruct (f a); [reflexivity|discriminate]. Qed.

Lemma warned_omap : forall {A B} (f : A -> out B) l l', result (omap f l) = Some l' ->
  warned (omap f l) = flat_map (fun a => warned (f a)) l.
Proof.
  intros A B f l. induction l as [|a l IH]; intros l' H; auto. cbn [omap] in H. cbn [omap flat_map].
  apply obind_some in H. destruct H as (b & E & H). rewrite (warned_app _ _ _ _ E H). f_equal.
  apply obind_some in H. destruct H as (bs & E' & H). rewrite (warned_app _ _ _ _ E' H). rewrite (IH _ E'). apply app_nil_r.
Qed.

Theorem program_warnings : forall p l es ws, pipeline p = Out (Some l) es ws ->
  ws = flat_map (fun a => warned (with_attrs no_opts (fst a))) p.
Proof.
  intros p l es ws H. assert (W : warned (pipeline p) = ws) by (rewrite H; auto).
  assert (R : result (pipeline p) = Some l) by (rewrite H; auto). rewrite <- W. unfold pipeline in *.
  assert (S : forall x, silent (analyse x)).
  { intros x. unfold analyse. apply silent_bind; [apply silent_causality|]. intros. apply silent_bind; [apply silent_typecheck|]. intros.
    apply silent_bind; [apply silent_clockcheck|]. intros. apply silent_positivity. }
  etransitivity; [exact (warned_bind _ _ _ S R)|]. apply obind_some in R. destruct R as (d & R & _). unfold tr_prog in *. rewrite (warned_omap _ _ _ R).
  apply omap_some in R. clear - R. induction R as [|a d p l R F IH]; auto. cbn [flat_map]. rewrite IH. f_equal.
  unfold tr_attrdecl in *. apply (warned_bind _ _ _ (fun o => silent_tr_decl o (snd a)) R).
Qed.
