(** Failures record errors, and successes record none but for the clocks of
    [->] and [fby]. *)
From Coq Require Import String List ZArith Bool Arith Lia.
From Verif Require Import Model.Base Model.Scalar Model.Value Model.Ast Model.Errors Model.Interp Model.Options Model.Surface Model.Translate
  Model.Graph Model.Causality Model.Typecheck Model.Clockcheck Model.Positivity Model.Pipeline
  Proofs.AstInd Proofs.OutBasics Proofs.Unify Proofs.TypeInfer Proofs.NodeWf.
Import ListNotations.

Section Fair.
  Variable E : error -> Prop.

  (** [bad a]: [a] stands for a failure. *)
  Definition fair {A} (bad : A -> bool) (x : out A) : Prop :=
    match x with
    | Abort => True
    | Out None es _ => es <> []
    | Out (Some a) es _ => if bad a then es <> [] else Forall E es
    end.
  Definition good {A} (_ : A) : bool := false.
  Definition unset {A} (o : option A) : bool := match o with Some _ => false | None => true end.
  (** Only failures. *)
  Definition dead {A} (bad : A -> bool) (x : out A) : Prop :=
    match x with Out (Some a) _ _ => bad a = true | _ => True end.

  Lemma app_not_nil : forall {A} (a b : list A), a <> [] \/ b <> [] -> a ++ b <> [].
  Proof. intros A [|x a] b H; cbn; [tauto|discriminate]. Qed.

  Lemma fair_obind : forall {A B} (bad : A -> bool) (bad' : B -> bool) x f, fair bad x ->
    (forall a, bad a = false -> result x = Some a -> fair bad' (f a)) -> (forall a, bad a = true -> dead bad' (f a)) -> fair bad' (obind x f).
  Proof.
    intros A B bad bad' [[a|] es ws|] f Fx Ff Fd; cbn in *; auto.
    specialize (Ff a). specialize (Fd a). destruct (bad a).
    - specialize (Fd eq_refl). destruct (f a) as [[b|] es' ws'|]; cbn in *; auto; [rewrite Fd|]; apply app_not_nil; auto.
    - specialize (Ff eq_refl eq_refl). destruct (f a) as [[b|] es' ws'|]; cbn in *; auto; [|apply app_not_nil; auto].
      destruct (bad' b); [apply app_not_nil; auto|apply Forall_app; auto].
  Qed.
  Lemma fair_bind : forall {A B} (bad' : B -> bool) (x : out A) f, fair good x ->
    (forall a, result x = Some a -> fair bad' (f a)) -> fair bad' (obind x f).
  Proof. intros. eapply fair_obind; [eassumption|auto|discriminate]. Qed.
  Lemma fair_try : forall {A B} (bad' : B -> bool) (x : out A) f, fair good x ->
    (forall a, fair bad' (f (Some a))) -> dead bad' (f None) -> fair bad' (obind (attempt x) f).
  Proof.
    intros. apply (fair_obind unset).
    - destruct x as [[a|] es ws|]; cbn in *; auto.
    - intros [a|] Ha; [auto|discriminate].
    - intros [a|] Ha; [discriminate|auto].
  Qed.
  Lemma fair_done : forall {A} (a : A), fair good (done a).
  Proof. intros. cbn. constructor. Qed.
  Lemma fair_fail : forall {A} bad e, fair bad (fail (A := A) e).
  Proof. intros. cbn. discriminate. Qed.
  Lemma dead_bind : forall {A B} (bad' : B -> bool) (x : out A) f, (forall a, dead bad' (f a)) -> dead bad' (obind x f).
  Proof. intros A B bad' [[a|] es ws|] f H; cbn in *; auto. specialize (H a). destruct (f a) as [[b|] ? ?|]; auto. Qed.
  Lemma dead_need : forall {A B} (bad : B -> bool) (f : A -> out B), dead bad (obind (need None) f).
  Proof. intros. cbn. auto. Qed.
  Lemma fair_need : forall {A} (a : A), fair good (need (Some a)).
  Proof. intros. cbn. constructor. Qed.
  Lemma fair_abort : forall {A} bad, fair bad (Abort (A := A)).
  Proof. cbn. auto. Qed.

  Lemma fair_if : forall {A} bad (b : bool) (x y : out A), fair bad x -> fair bad y -> fair bad (if b then x else y).
  Proof. intros A bad [] x y; auto. Qed.

  Lemma fair_warn : forall e, fair good (warn e).
  Proof. intros. cbn. constructor. Qed.

  Lemma fair_each : forall {A} (f : A -> out unit) l, (forall a, fair good (f a)) -> fair good (each f l).
  Proof. intros A f l H. induction l; cbn [each]; [apply fair_done|]. apply fair_bind; auto. Qed.
  Lemma fair_omap : forall {A B} (f : A -> out B) l, Forall (fun a => fair good (f a)) l -> fair good (omap f l).
  Proof.
    intros A B f l H. induction H; cbn [omap]; [apply fair_done|]. apply fair_bind; auto. intros b _.
    apply fair_bind; auto. intros. apply fair_done.
  Qed.

  Ltac fair_step :=
    match goal with
    | |- fair _ Abort => apply fair_abort
    | |- fair _ (fail _) => apply fair_fail
    | |- fair _ (done _) => apply fair_done
    | |- fair _ (warn _) => apply fair_warn
    | |- fair _ (need (Some _)) => apply fair_need
    | |- dead _ (obind (need None) _) => apply dead_need
    | |- dead _ (need None) => exact I
    | |- fair _ (obind (attempt _) _) => apply fair_try; [|intros|]
    | |- dead _ (obind _ _) => apply dead_bind; intros
    | |- fair _ (obind _ _) => apply fair_bind; [|intros]
    | |- fair _ (if _ then _ else _) => apply fair_if
    | |- fair _ (let '(_, _) := ?p in _) => destruct p
    | |- dead _ (let '(_, _) := ?p in _) => destruct p
    | |- fair _ (match ?p with _ => _ end) => destruct p eqn:?
    | |- dead _ (match ?p with _ => _ end) => destruct p eqn:?
    end.
  Ltac fair_auto := repeat (first [assumption | fair_step]).

  (** ** Options *)
  Lemma fair_skip : forall {A} (o : setopt A), fair good (skip o).
  Proof. intros. unfold skip. fair_auto. Qed.
  Lemma fair_duplicate : forall {A} (o : setopt A), fair good (duplicate o).
  Proof. intros. unfold duplicate. fair_auto. Qed.
  Lemma fair_conflicting : forall {A} (o : setopt A), fair good (conflicting o).
  Proof. intros. unfold conflicting. fair_auto. Qed.
  Lemma fair_generics : forall l a, fair good (check_generics a l).
  Proof. induction l; intros; cbn [check_generics]; fair_auto. auto. Qed.
  Lemma fair_with_attr : forall d a, fair good (with_attr d a).
  Proof.
    intros [tr ex pu ma te al do ti ge un] a. unfold with_attr.
    Ltac go := first [apply fair_duplicate | apply fair_conflicting | apply fair_generics | fair_step].
    repeat go.
  Qed.
  Lemma fair_with_attrs : forall l d, fair good (with_attrs d l).
  Proof. induction l; intros; cbn [with_attrs]; fair_auto; auto using fair_with_attr. Qed.

  (** ** Translation *)
  Lemma fair_tr : forall u locals e d s, fair good (tr u locals e d s).
  Proof.
    intros u locals. induction e using sexpr_ind'; intros d s; cbn [tr].
    - unfold tr_lit. destruct l; cbv beta; try (destruct (in_i64 _)); fair_auto.
    - fair_auto.
    - fair_auto. clear -H. revert d s. induction H; intros d s; cbn [tr_elems]; fair_auto; auto.
    - fair_auto. clear -H. revert d s. induction H; intros d s; cbn [tr_elems]; fair_auto; auto.
    - fair_auto. auto.
    - fair_auto. auto.
    - fair_auto; auto.
    - fair_auto; auto.
    - fair_auto; auto.
    - fair_auto; auto. clear -H. revert e0 d t. induction H as [|[op e] l He _ IH]; intros e0 d t; cbn [tr_left]; fair_auto; auto.
    - fair_auto; auto; repeat match goal with F : Forall _ (_ :: _) |- _ => inversion F; subst; clear F end; cbn [snd] in *; auto.
    - fair_auto; auto. clear -H. revert e0 d t. induction H as [|[op e] l He _ IH]; intros e0 d t; cbn [tr_left]; fair_auto; auto.
    - assert (R : forall bump compose l i d s, Forall (fun e => forall d s, fair good (tr u locals e d s)) l -> fair good (tr_right (tr u locals) bump compose i l d s)).
      { clear. intros bump compose l. induction l as [|e l IH]; intros i d s F; cbn [tr_right]; inversion F; subst; fair_auto; auto. }
      fair_auto; auto.
    - assert (R : forall bump compose l i d s, Forall (fun e => forall d s, fair good (tr u locals e d s)) l -> fair good (tr_right (tr u locals) bump compose i l d s)).
      { clear. intros bump compose l. induction l as [|e l IH]; intros i d s F; cbn [tr_right]; inversion F; subst; fair_auto; auto. }
      fair_auto; auto.
  Qed.
  Lemma fair_tr_stmts : forall u locals l s, fair good (tr_stmts u locals l s).
  Proof.
    intros u locals. induction l as [|i l IH]; intros s; cbn [tr_stmts]; fair_auto; auto.
    destruct i; cbn [tr_stmt]; fair_auto; apply fair_tr.
  Qed.
  Lemma fair_tr_attrdecl : forall a, fair good (tr_attrdecl a).
  Proof.
    intros [l d]. unfold tr_attrdecl. apply fair_bind; [apply fair_with_attrs|]. intros o _.
    destruct d; cbn [snd tr_decl].
    - unfold for_const. repeat first [apply fair_skip | apply fair_tr | fair_step].
    - unfold for_node, tr_node. cbv zeta. repeat first [apply fair_tr_stmts | fair_step].
    - unfold for_ext_const. repeat first [apply fair_skip | fair_step].
    - unfold for_ext_node. repeat first [apply fair_skip | fair_step].
  Qed.
  Lemma fair_tr_prog : forall p, fair good (tr_prog p).
  Proof. intros. apply fair_omap. apply Forall_forall. intros. apply fair_tr_attrdecl. Qed.

  Lemma fair_causality : forall l, fair good (causality l).
  Proof. intros. unfold causality. fair_auto. Qed.

  (** ** Types *)
  Lemma fair_require : forall u l r, fair good (require_identical u l r).
  Proof. intros. unfold require_identical. fair_auto. Qed.

  Lemma fair_identical : forall a u b, fair good (identical u a b).
  Proof.
    induction a as [b0|ts IH] using ty_ind'; intros u b.
    - destruct b; cbn [identical]; [apply fair_require|apply fair_fail].
    - destruct b as [|us]; [apply fair_fail|]. rewrite identical_mult. apply fair_if; [|apply fair_fail].
      assert (G : fair unset (identicals u ts us)).
      { revert u us. induction IH as [|t ts Ht _ IHl]; intros u us; cbn [identicals].
        - cbn. constructor.
        - destruct us as [|v us]; [cbn; constructor|]. apply fair_try; auto.
          apply dead_bind. intros. reflexivity. }
      apply (fair_obind unset); auto.
      + intros [a|] H; [intros; apply fair_need|discriminate].
      + intros [a|] H; [discriminate|exact I].
  Qed.

  Lemma fair_primitive : forall x, fair good x -> fair good (primitive x).
  Proof. intros. unfold primitive, is_primitive. fair_auto. Qed.
  Lemma fair_is_bool : forall b, fair good (is_bool b).
  Proof. intros []; cbn; auto; discriminate. Qed.
  Lemma fair_bin : forall op l r, fair good (bin_accepts op l r).
  Proof. intros. unfold bin_accepts. fair_auto. Qed.
  Lemma fair_un : forall op l, fair good (un_accepts op l).
  Proof. intros. unfold un_accepts. fair_auto. Qed.
  Lemma fair_cmp : forall op l r, fair good (cmp_accepts op l r).
  Proof. intros. unfold cmp_accepts. fair_auto. Qed.
  Lemma fair_from_generics : forall l, fair good (from_generics l).
  Proof. induction l; cbn [from_generics]; fair_auto. Qed.
  Lemma fair_instances : forall m, fair good (instances m).
  Proof. induction m as [|[x [b|]] m IH]; cbn [instances]; fair_auto. Qed.

  Ltac ty_step := first [assumption | apply fair_is_bool | apply fair_bin | apply fair_un | apply fair_cmp | apply fair_from_generics
    | apply fair_instances | apply fair_identical | apply fair_primitive | fair_step].

  Lemma fair_tc : forall ctx e s, fair good (tc ctx e s).
  Proof.
    intros ctx. induction e using expr_ind'; intros s; cbn [tc]; unfold is_primitive; repeat (first [solve [auto] | ty_step]).
    revert s. induction H; intros s; repeat ty_step; auto.
  Qed.

  Lemma fair_tc_target : forall ctx t, fair good (tc_target ctx t).
  Proof.
    intros ctx. induction t using vartuple_ind'; cbn [tc_target]; repeat ty_step. apply fair_omap; auto.
  Qed.
  Lemma fair_tc_stmt : forall ctx i s, fair good (tc_stmt ctx i s).
  Proof. intros ctx [] s; cbn [tc_stmt]; repeat first [apply fair_tc | apply fair_tc_target | ty_step]. Qed.
  Lemma fair_tc_stmts : forall ctx l s, fair unset (tc_stmts ctx l s).
  Proof.
    intros ctx. induction l; intros s; cbn [tc_stmts]; [cbn; constructor|].
    apply fair_try; auto using fair_tc_stmt. apply dead_bind. intros. reflexivity.
  Qed.
  Lemma fair_needed : forall {A B} (x : out (option A)) (f : A -> out B), fair unset x -> (forall a, fair good (f a)) ->
    fair good (obind x (fun r => obind (need r) f)).
  Proof.
    intros. apply (fair_obind unset); auto.
    - intros [a|] ? _; [|discriminate]. apply fair_bind; [apply fair_need|auto].
    - intros [a|] ?; [discriminate|]. exact I.
  Qed.

  Lemma fair_is_const : forall e, fair good (is_const e).
  Proof. induction e using expr_ind'; cbn [is_const]; repeat ty_step. all: destruct a; cbn; constructor. Qed.

  Definition refused {A} (p : bool * A) : bool := negb (fst p).

  Lemma fair_tc_vars : forall l vars, fair refused (tc_vars l vars).
  Proof.
    induction l as [|v l IH]; intros vars; cbn [tc_vars]; [cbn; constructor|].
    apply (fair_obind negb).
    - destruct (lookup (v_name v) vars); cbn; auto. discriminate.
    - intros [] F _; [|discriminate]. apply fair_try.
      + unfold tc_clock. destruct (v_clk v); repeat ty_step.
      + intros a. apply (fair_obind refused); auto.
        * intros [[] vs] R _; [|discriminate]. cbn. constructor.
        * intros [[] vs] R; [discriminate|]. reflexivity.
      + apply dead_bind. intros [ok vs]. reflexivity.
    - intros [] F; [discriminate|]. apply dead_bind. intros. apply dead_bind. intros [ok vs]. reflexivity.
  Qed.

  Lemma fair_close : forall {A B} (x : out (bool * A)) (f : A -> out B), fair refused x -> (forall a, fair good (f a)) ->
    fair good (obind x (fun '(ok, a) => obind (scope_close ok) (fun _ => f a))).
  Proof.
    intros. apply (fair_obind refused); auto.
    - intros [[] a] ? _; [|discriminate]. cbn [scope_close]. apply fair_bind; [apply fair_done|auto].
    - intros [[] a] ?; [discriminate|]. exact I.
  Qed.

  Lemma fair_tc_generics : forall d i o, fair good (tc_generics d i o).
  Proof.
    intros. unfold tc_generics.
    assert (D : forall v, fair good (tc_declared d v)) by (intros v; unfold tc_declared; repeat ty_step).
    apply fair_bind; [apply fair_each; auto|]. intros. apply fair_bind; [apply fair_each; auto|]. intros. apply fair_each. intros. repeat ty_step.
  Qed.
  Lemma fair_tc_executable : forall x i o, fair good (tc_executable x i o).
  Proof. intros. unfold tc_executable. repeat ty_step. Qed.
  Lemma fair_tc_blocks : forall fs l, fair good (tc_blocks fs l).
  Proof. intros fs. induction l; cbn [tc_blocks]; repeat ty_step. Qed.

  Lemma fair_tc_node : forall g fs o nd, fair good (tc_node g fs o nd).
  Proof.
    intros. unfold tc_node. apply fair_bind; [apply fair_tc_executable|]. intros. apply fair_bind; [apply fair_tc_generics|]. intros.
    apply fair_close; [apply fair_tc_vars|]. intros vars. apply fair_bind; [apply fair_tc_blocks|]. intros.
    apply fair_needed; [apply fair_tc_stmts|]. intros. apply fair_done.
  Qed.
  Lemma fair_tc_ext : forall o i o', fair good (tc_ext_node o i o').
  Proof.
    intros. unfold tc_ext_node. apply fair_bind; [apply fair_tc_executable|]. intros. apply fair_bind; [apply fair_tc_generics|]. intros.
    apply (fair_obind refused); [apply fair_tc_vars| |].
    - intros [[] vs] ? _; [|discriminate]. apply fair_done.
    - intros [[] vs] ?; [discriminate|]. exact I.
  Qed.
  Lemma fair_tc_const : forall g t e, fair good (tc_const g t e).
  Proof. intros. unfold tc_const. repeat first [apply fair_is_const | apply fair_tc | ty_step]. Qed.

  Lemma fair_tc_decls : forall l g fs, fair refused (tc_decls g fs l).
  Proof.
    induction l as [|d l IH]; intros g fs; cbn [tc_decls]; [cbn; constructor|].
    apply fair_try.
    - destruct d; repeat first [apply fair_tc_const | apply fair_tc_node | apply fair_tc_ext | ty_step].
    - intros d'. apply fair_bind; [destruct d; repeat ty_step|]. intros [g' fs'] _.
      apply (fair_obind refused); auto.
      + intros [[] ds] R _; [|discriminate]. cbn. constructor.
      + intros [[] ds] R; [discriminate|]. reflexivity.
    - apply dead_bind. intros [g' fs']. apply dead_bind. intros [ok ds]. reflexivity.
  Qed.
  Lemma fair_typecheck : forall l, fair good (typecheck l).
  Proof. intros. unfold typecheck. apply fair_close; [apply fair_tc_decls|]. intros. apply fair_done. Qed.

  (** ** Clocks *)
  Lemma fair_refine : forall a b, fair good (refine a b).
  Proof. intros [] []; cbn [refine]; repeat ty_step. Qed.
  Lemma fair_clk_identical : forall a b, fair good (clk_identical a b).
  Proof. intros [] []; cbn [clk_identical]; repeat ty_step. Qed.
  Lemma fair_is_implicit : forall a, fair good (is_implicit a).
  Proof. intros []; cbn [is_implicit]; repeat ty_step. Qed.
  Lemma fair_as_clock : forall e b, fair good (as_clock e b).
  Proof. intros [] []; cbn [as_clock]; repeat ty_step. Qed.
  Lemma fair_ignored : forall a, E EClkTooSlow -> fair good (attempt (is_implicit a)).
  Proof. intros [] H; cbn; repeat constructor; auto. Qed.

  (** No [->] or [fby] of the default mode. *)
  Fixpoint later_free (e : expr) : bool :=
    match e with
    | ELit _ | EGlobal _ | EVar _ _ => true
    | ETuple l => forallb later_free l
    | EPre e | EParen e | EUn _ e | ESub _ _ e => later_free e
    | EBin _ a b | ECmp _ a b | EFlip _ a b | EClock _ a b => later_free a && later_free b
    | EIf c a b | EMerge c a b => later_free c && later_free a && later_free b
    | ELater _ _ _ => false
    | EFetch _ i e => later_free e && match i with Some i => later_free i | None => true end
    end.

  Ltac clk_step := first [assumption | apply fair_refine | apply fair_clk_identical | apply fair_is_implicit | apply fair_as_clock
    | apply fair_ignored | fair_step].

  Definition tolerated e := E EClkTooSlow \/ later_free e = true.
  Ltac tol := match goal with H : tolerated _ |- _ => destruct H as [H|H]; [left; exact H|right; cbn in H; rewrite ?andb_true_iff in H; first [tauto | discriminate]] end.

  Lemma fair_kc : forall local e s, tolerated e -> fair good (kc local e s).
  Proof.
    intros local. induction e using expr_ind'; intros s T.
    4: {
      rewrite kc_tuple. destruct l as [|e0 l]; [apply fair_done|].
      assert (T' : Forall tolerated (e0 :: l)).
      { apply Forall_forall. intros e I. destruct T as [T|T]; [left; auto|right]. exact (proj1 (forallb_forall _ _) T e I). }
      apply fair_bind. { inversion H; inversion T'; auto. }
      intros [g s1] _. apply fair_bind; [|intros; apply fair_done]. clear T. revert s1.
      induction H as [|e l' He _ IH]; intros s1; inversion T'; subst; cbn [kcs]; repeat clk_step; auto. }
    all: cbn [kc]; repeat (first [match goal with H : forall s, tolerated _ -> fair _ _ |- fair _ (kc _ _ _) => apply H; tol end
      | match goal with H : OptForall _ (Some _) |- fair _ (kc _ _ _) => apply H; tol end
      | match goal with H : tolerated (ELater _ _ _) |- fair _ (attempt (is_implicit _)) => apply fair_ignored; destruct H as [H|H]; [exact H|discriminate] end
      | match goal with |- fair _ (obind (attempt (is_implicit _)) _) => apply fair_bind; [|intros] end
      | clk_step]).
  Qed.

  Lemma fair_kc_target : forall local t, fair good (kc_target local t).
  Proof.
    intros local. induction t using vartuple_ind'; [cbn [kc_target]; repeat clk_step|].
    assert (G : forall g, fair good ((fix go (l : list vartuple) : out unit :=
      match l with [] => done tt | t :: l => k <~ kc_target local t;; _ <~ clk_identical g k;; go l end) l)).
    { intros g. induction H; repeat clk_step; auto. }
    destruct l as [|t0 l]; [apply fair_done|]. cbn [kc_target]. inversion H; subst. apply fair_bind; auto. intros g _.
    apply fair_bind; [exact (G g)|]. intros. apply fair_done.
  Qed.

  Definition stmt_tolerated (i : stmt) : Prop := match i with SLet _ e | SAssert e => tolerated e | _ => True end.
  Lemma fair_kc_stmt : forall local i s, stmt_tolerated i -> fair good (kc_stmt local i s).
  Proof. intros local [] s T; cbn [kc_stmt]; repeat first [apply fair_kc_target | apply fair_kc; exact T | clk_step]. Qed.
  Lemma fair_kc_stmts : forall local l s, (forall i s, In i l -> fair good (kc_stmt local i s)) -> fair unset (kc_stmts local l s).
  Proof.
    intros local. induction l; intros s T; cbn [kc_stmts]; [cbn; constructor|].
    apply fair_try; [apply T; cbn; auto|intros; apply IHl; intros; apply T; cbn; auto|]. apply dead_bind. intros. reflexivity.
  Qed.
  Definition node_clocks (nd : node) : list (ident * clock) :=
    rev (map (fun v => (v_name v, v_clk v)) (n_inputs nd ++ n_outputs nd ++ n_locals nd)).
  Definition decl_tolerated (d : decl) : Prop :=
    match d with DNode _ nd => forall i s, In i (n_stmts nd) -> fair good (kc_stmt (node_clocks nd) i s) | _ => True end.
  Lemma fair_kc_decl : forall d, decl_tolerated d -> fair good (kc_decl d).
  Proof.
    assert (S : forall v, fair good (sig_implicit v)) by (intros; apply fair_is_implicit).
    intros [] T; cbn [kc_decl]; try apply fair_done.
    - apply fair_bind; [|intros; apply fair_done]. unfold kc_node. apply fair_bind; [apply fair_each; auto|]. intros.
      apply fair_needed; [apply fair_kc_stmts; exact T|]. intros. apply fair_bind; [|intros; apply fair_done].
      apply fair_omap. apply Forall_forall. intros [] _; cbn [fill_clock]; repeat clk_step.
    - apply fair_bind; [apply fair_each; auto|]. intros. apply fair_done.
  Qed.
  Lemma fair_clockcheck : forall l, Forall decl_tolerated l -> fair good (clockcheck l).
  Proof. intros. apply fair_omap. eapply Forall_impl; [|eassumption]. apply fair_kc_decl. Qed.

  (** ** Depths *)
  Lemma fair_pos : forall e cur m, fair good (Positivity.pos e cur m).
  Proof.
    induction e using expr_ind'; intros cur m; cbn [Positivity.pos]; repeat (first [solve [auto] | fair_step]).
    revert m. induction H; intros m; fair_auto; auto.
  Qed.
  Lemma fair_positivity : forall l, fair good (positivity l).
  Proof.
    intros. apply fair_omap. apply Forall_forall. intros [|o nd| |] _; cbn [pos_decl]; fair_auto.
    unfold pos_node. apply fair_bind; [|intros; apply fair_done]. generalize (@nil (ident * nat)) as m. induction (n_stmts nd) as [|i l' IH]; intros m; cbn [pos_stmts]; fair_auto; auto.
    destruct i; cbn [pos_stmt]; fair_auto; apply fair_pos.
  Qed.

  Lemma fair_pipeline : forall p, (forall l l1 l2, result (tr_prog p) = Some l -> result (causality l) = Some l1 ->
      result (typecheck l1) = Some l2 -> Forall decl_tolerated l2) ->
    fair good (pipeline p).
  Proof.
    intros p T. unfold pipeline, analyse. apply fair_bind; [apply fair_tr_prog|]. intros l L. apply fair_bind; [apply fair_causality|]. intros l1 L1.
    apply fair_bind; [apply fair_typecheck|]. intros l2 L2. apply fair_bind; [apply fair_clockcheck; eauto|]. intros. apply fair_positivity.
  Qed.
End Fair.
