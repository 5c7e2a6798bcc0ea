(** Proofs about traced executions. *)
From Coq Require Import String List ZArith Bool Arith Lia.
From Coq Require Import Floats.SpecFloat.
From Verif Require Import Model.Base Model.Scalar Model.Value Model.History Model.Register Model.Ast Model.Interp Model.Options
  Model.Causality Model.Names Model.Codegen Model.Trace
  Spec.StepSpec Spec.ProgramSem Spec.TraceSpec Proofs.AstInd Proofs.InterpBasics Proofs.TraceText.
Import ListNotations.

Lemma snd_tbind : forall {A B} (x : tres A) (f : A -> tres B), snd (tbind x f) = (a <- snd x;; snd (f a)).
Proof. intros A B (o, [a|p]) f; simpl; auto. destruct (f a); auto. Qed.

(** ** Results *)
Section Erase.
  (** A relation between the results with and without traces. *)
  Variable R : forall A, res A -> res A -> Prop.
  Hypothesis R_refl : forall A (x : res A), R A x x.
  Hypothesis R_bind : forall A B (x y : res A) (f g : A -> res B), R A x y -> (forall a, x = Ok a -> y = Ok a -> R B (f a) (g a)) -> R B (bind x f) (bind y g).
  Arguments R {A}.

  Lemma r_bind : forall A B (x : tres A) (y : res A) (f : A -> tres B) (g : A -> res B),
    R (snd x) y -> (forall a, R (snd (f a)) (g a)) -> R (snd (tbind x f)) (bind y g).
  Proof. intros. rewrite snd_tbind. auto. Qed.
  Lemma r_lift : forall A B (y : res A) (f : A -> tres B) (g : A -> res B),
    (forall a, y = Ok a -> R (snd (f a)) (g a)) -> R (snd (tbind (lift y) f)) (bind y g).
  Proof. intros. rewrite snd_tbind. simpl. auto. Qed.

  Variable mode : ovf.
  Variable glob : ident -> option scalar.

  Section Eval.
    Variable clk : nat.
    Variable hists : list (ident * hist).
    Variable tcall : nat -> inst -> val -> tres (val * inst).
    Variable call : nat -> inst -> val -> res (val * inst).
    Variable nilout : nat -> res val.
    Hypothesis calls : forall id i v, R (snd (tcall id i v)) (call id i v).

    Ltac go := repeat match goal with
      | |- R (snd (tbind (lift ?y) _)) (bind ?y _) => apply r_lift; intros ? ?
      | |- R (snd (tbind _ _)) (bind _ _) => apply r_bind; [|intros ?]
      | a : (_ * _)%type |- _ => destruct a
      | |- R (snd (let '(_, _) := ?x in _)) (let '(_, _) := ?x in _) => destruct x
      | |- R (snd (if ?x then _ else _)) (if ?x then _ else _) => destruct x
      end.

    Lemma teval_erase : forall regs st e s,
      R (snd (teval mode glob clk hists tcall nilout regs st e s)) (eval mode glob clk hists call nilout regs st e s).
    Proof.
      intros regs st. induction e using expr_ind'; intros s; cbn [teval eval]; try solve [go; auto; apply R_refl].
      - destruct d; go; apply R_refl.
      - go; [|apply R_refl]. revert s. induction H as [|e l H F IH]; intros s; go; auto; apply R_refl.
    Qed.

    Lemma texec_erase : forall i ss, R (snd (texec mode glob clk hists tcall nilout i ss)) (exec mode glob clk hists call nilout i ss).
    Proof.
      intros i (st, regs, es). destruct i; cbn [texec exec]; go; try apply teval_erase; try apply R_refl.
      destruct value; [|apply R_refl]. go; try apply teval_erase; apply R_refl.
    Qed.

    Lemma texecs_erase : forall l ss, R (snd (texecs mode glob clk hists tcall nilout l ss)) (execs mode glob clk hists call nilout l ss).
    Proof. induction l as [|i l IH]; intros ss; cbn [texecs execs]; go; [apply R_refl|apply texec_erase|apply IH]. Qed.
  End Eval.

  Variable fshow : spec_float -> string.

  (** The traces of a node do not get in the way. *)
  Definition harmless (o : option trace_opt) (nd : node) : Prop :=
    (forall clk inputs st, bind_inputs (n_inputs nd) inputs = Ok st -> forall A (x : res A),
      R (bind (snd (trace fshow o true "      " (n_name nd) clk st (n_inputs nd) (n_inputs nd))) (fun _ => x)) x) /\
    (forall mode glob clk hists call nilout inputs st regs es st' regs' es', bind_inputs (n_inputs nd) inputs = Ok st ->
      execs mode glob clk hists call nilout (n_stmts nd) (mkSs st regs es) = Ok (mkSs st' regs' es') -> forall A (x : res A),
      R (bind (snd (trace fshow o false "      " (n_name nd) clk st' (n_outputs nd) (n_inputs nd ++ n_locals nd ++ n_outputs nd))) (fun _ => x)) x).

  Hypothesis R_trans : forall A (x y z : res A), R x y -> R y z -> R x z.

  Lemma tnode_erase : forall tcall call nilout o nd i v, harmless o nd ->
    (forall id i v, R (snd (tcall id i v)) (call id i v)) ->
    R (snd (tnode_step fshow mode glob tcall nilout o nd i v)) (node_step mode glob call nilout nd i v).
  Proof.
    intros tcall call nilout o nd (clk, hists, regs, flips, subs) v (H1 & H2) C. unfold tnode_step, node_step.
    destruct (first_is_nil v); [apply R_refl|]. apply r_lift. intros st E.
    eapply R_trans; [|apply (H1 clk v st E)]. rewrite snd_tbind. apply R_bind; [apply R_refl|]. intros u _ _. clear u.
    rewrite snd_tbind. apply R_bind; [apply texecs_erase; auto|]. intros (st', regs', (flips', subs')) E1 E2.
    eapply R_trans; [|apply (H2 _ _ _ _ _ _ _ _ _ _ _ _ _ E E2)]. rewrite snd_tbind. apply R_bind; [apply R_refl|]. intros u _ _.
    apply r_lift. intros h _. apply r_lift. intros out _. apply R_refl.
  Qed.

  Lemma tstep_erase : forall p f i v, (forall o nd, In (o, nd) p -> harmless o nd) ->
    R (snd (tstep fshow mode glob p f i v)) (step mode glob (untraced p) f i v).
  Proof.
    induction p as [|(o, nd) p IH]; intros f i v H; [apply R_refl|]. cbn [tstep step untraced map snd].
    destruct (String.eqb f (n_name nd)).
    - apply tnode_erase; [apply H; simpl; auto|]. intros id j w. destruct (nth_error (n_blocks nd) id); [|apply R_refl].
      apply IH. intros; apply H; simpl; auto.
    - apply IH. intros; apply H; simpl; auto.
  Qed.

  Lemma trun_erase : forall p f ins i, (forall o nd, In (o, nd) p -> harmless o nd) ->
    R (snd (trun fshow mode glob p f i ins)) (run mode glob (untraced p) f i ins).
  Proof.
    intros p f ins i H. revert i. induction ins as [|v ins IH]; intros i; cbn [trun run]; [apply R_refl|].
    apply r_bind; [apply tstep_erase; auto|]. intros (o, j). apply r_bind; [apply IH|]. intros (os, k). apply R_refl.
  Qed.

  Lemma tmain_erase : forall p f n i, (forall o nd, In (o, nd) p -> harmless o nd) ->
    R (snd (tmain_for fshow mode glob p f n i)) (main_for mode glob (untraced p) f n i).
  Proof.
    intros p f n i H. revert i. induction n as [|n IH]; intros i; cbn [tmain_for main_for]; [apply R_refl|].
    unfold main_body. 
    assert (E : forall A B C (x : res A) (g : A -> res B) (h : B -> res C), bind (bind x g) h = bind x (fun a => bind (g a) h)) by (intros A B C [a|e] g h; auto).
    rewrite E. apply r_bind; [apply tstep_erase; auto|]. intros (o, j). rewrite E. apply r_lift. intros u _. cbn [bind]. apply IH.
  Qed.
End Erase.

(** With any trace, a value that is computed is the same. *)
Lemma tres_ok : forall fshow mode glob p f i ins r,
  snd (trun fshow mode glob p f i ins) = Ok r -> run mode glob (untraced p) f i ins = Ok r.
Proof.
  intros fshow mode glob p f i ins r. revert r. 
  apply (trun_erase (fun A x y => forall a, x = Ok a -> y = Ok a)); auto.
  - intros A B x y g h H1 H2 b E. destruct x as [a|]; [|discriminate]. rewrite (H1 a eq_refl). simpl. apply H2; auto.
  - intros o nd _. split.
    + intros clk inputs st _ A x a E. destruct (snd _) in E; [auto|discriminate].
    + intros mode' glob' clk hists call nilout inputs st regs es st' regs' es' _ _ A x a E. destruct (snd _) in E; [auto|discriminate].
Qed.

(** ** Formats that are accepted *)
Lemma lookup_bound : forall {A} x (b : list (ident * A)), In x (map fst b) <-> lookup x b <> None.
Proof.
  induction b as [|(y, v) b IH]; simpl; [tauto|]. destruct (String.eqb_spec x y).
  - subst. split; [discriminate|auto].
  - rewrite <- IH. split; [intros [?|?]; [congruence|auto]|auto].
Qed.

Lemma bind_prefix : forall t v st st', bind_target t v st = Ok st' ->
  exists b, st' = b ++ st /\ (forall x, In x (map fst b) <-> In x (target_vars t)).
Proof.
  induction t using vartuple_ind'; intros v st st' E.
  - simpl in E. destruct v; [|discriminate]. inv_ok. exists [(x, n)]. simpl. split; auto; tauto.
  - assert (G : forall vs st st', (fix go (l : list vartuple) (vs : list val) (st : store) : res store :=
             match l, vs with
             | [], [] => Ok st
             | t :: l, v :: vs => st <- bind_target t v st;; go l vs st
             | _, _ => Panic PType
             end) l vs st = Ok st' ->
             exists b, st' = b ++ st /\ (forall x, In x (map fst b) <-> In x (flat_map target_vars l))).
    { clear v st st' E. induction H as [|t l Ht H IH]; intros vs st st' E; destruct vs as [|v vs]; try discriminate.
      - inv_ok. exists []. simpl. split; auto; tauto.
      - inv_ok. destruct (Ht _ _ _ E0) as (b1 & -> & I1). destruct (IH _ _ _ E) as (b2 & -> & I2).
        exists (b2 ++ b1). rewrite app_assoc. split; auto. intros x. simpl. rewrite map_app, !in_app_iff, I1, I2. tauto. }
    destruct l as [|t [|t' l]].
    + simpl in E. inv_ok. exists []. simpl. split; auto; tauto.
    + inversion H; subst. cbn [bind_target] in E. destruct (H2 _ _ _ E) as (b & -> & I). exists b. split; auto.
      intros x; simpl; rewrite app_nil_r; auto.
    + cbn [bind_target] in E. destruct v as [|vs]; [discriminate|]. destruct (G _ _ _ E) as (b & -> & I).
      exists b. split; auto.
Qed.

Lemma inputs_bound : forall l v st, bind_inputs l v = Ok st -> forall x, In x (map v_name l) <-> lookup x st <> None.
Proof.
  intros l v st E x. rewrite <- lookup_bound. destruct l as [|a l]; [inversion E; subst; simpl; tauto|]. unfold bind_inputs in E.
  destruct (bind_prefix _ _ _ _ E) as (b & -> & I). rewrite app_nil_r, I.
  change (target_vars (VTMult (map (fun x => VTSingle (v_name x)) (a :: l)))) with (flat_map target_vars (map (fun x => VTSingle (v_name x)) (a :: l))).
  assert (T : forall l, flat_map target_vars (map (fun x => VTSingle (v_name x)) l) = map v_name l) by (clear; induction l; simpl; congruence).
  rewrite T. tauto.
Qed.

(** What a statement does to the variables. *)
Lemma exec_store : forall mode glob clk hists call nilout i st regs es st' regs' es',
  exec mode glob clk hists call nilout i (mkSs st regs es) = Ok (mkSs st' regs' es') ->
  (forall x, lookup x st <> None -> lookup x st' <> None) /\
  (forall t e, i = SLet t e -> forall x, In x (target_vars t) -> lookup x st' <> None) /\
  (forall x, (forall t e, i = SLet t e -> ~ In x (target_vars t)) -> lookup x st' = lookup x st).
Proof.
  intros mode glob clk hists call nilout i st regs es st' regs' es' E.
  assert (K : (exists t e v, i = SLet t e /\ bind_target t v st = Ok st') \/ (st' = st /\ forall t e, i <> SLet t e)).
  { destruct i; cbn [exec] in E.
    - left. inv_ok. eauto.
    - right. inv_ok. split; auto. discriminate.
    - right. split; [|discriminate]. inv_ok. destruct value; inv_ok; auto. destruct (same_shapeb _ _); inv_ok; auto.
    - right. split; [|discriminate]. inv_ok. destruct (same_shapeb _ _); inv_ok; auto. }
  destruct K as [(t & e & v & -> & B)|(-> & N)].
  - destruct (bind_prefix _ _ _ _ B) as (b & -> & I). split; [|split].
    + intros x. rewrite lookup_app2. destruct (lookup x b); [discriminate|auto].
    + intros t' e' Q x J. inversion Q; subst. rewrite lookup_app2. apply I in J. apply lookup_bound in J. destruct (lookup x b); [discriminate|congruence].
    + intros x J. rewrite lookup_app2. destruct (lookup x b) eqn:L; auto. exfalso. apply (J t e eq_refl). apply I. apply lookup_bound. congruence.
  - split; [auto|]. split; [|auto]. intros t e Q. destruct (N _ _ Q).
Qed.

Lemma execs_store : forall mode glob clk hists call nilout l st regs es st' regs' es',
  execs mode glob clk hists call nilout l (mkSs st regs es) = Ok (mkSs st' regs' es') ->
  (forall x, lookup x st <> None -> lookup x st' <> None) /\
  (forall t e, In (SLet t e) l -> forall x, In x (target_vars t) -> lookup x st' <> None) /\
  (forall x, (forall t e, In (SLet t e) l -> ~ In x (target_vars t)) -> lookup x st' = lookup x st).
Proof.
  induction l as [|i l IH]; intros st regs es st' regs' es' E; cbn [execs] in E; inv_ok.
  - split; auto; split; auto; intros t e [].
  - destruct r as (st1, regs1, es1). destruct (exec_store _ _ _ _ _ _ _ _ _ _ _ _ _ E0) as (A & B & C).
    destruct (IH _ _ _ _ _ _ E) as (A' & B' & C'). split; [auto|]. split.
    + intros t e [->|I] x J; [apply A'; eapply B; eauto|eapply B'; eauto].
    + intros x J. rewrite C', C; auto; intros t e I; [subst; apply (J t e); simpl; auto|apply (J t e); simpl; auto].
Qed.

Lemma trace_prints : forall fshow file ifmt ofmt (before : bool) prefix name clk st shown_ known,
  (forall x, In x known -> lookup (v_name x) st <> None) ->
  acceptable (special ++ map v_name known) (if before then format_string "<-" ifmt shown_ else format_string "->" ofmt shown_) ->
  exists s, trace fshow (Some (file, (ifmt, ofmt))) before prefix name clk st shown_ known = ([(file, s)], Ok tt).
Proof.
  intros fshow file ifmt ofmt before prefix name clk st shown_ known K A. unfold trace.
  destruct (trace_env_total fshow prefix name clk st known K) as (env & E). rewrite E. cbn [lift tbind].
  destruct (acceptable_shown _ _ (fun x => lookup x env) A) as (t & T).
  - intros x I. rewrite (trace_env_ok _ _ _ _ _ _ _ E). apply scope_known; auto.
    intros y J. apply in_map_iff in J. destruct J as (v & <- & J). auto.
  - apply format_iff in T. unfold print. rewrite T. exists t. reflexivity.
Qed.

Lemma printable_harmless : forall fshow o nd, printable o nd -> harmless (fun A => @eq (res A)) fshow o nd.
Proof.
  intros fshow o nd P. destruct o as [(file, (ifmt, ofmt))|]; [|split; reflexivity]. destruct P as (P1 & P2 & P3). split.
  - intros clk inputs st E A x.
    destruct (trace_prints fshow file ifmt ofmt true "      " (n_name nd) clk st (n_inputs nd) (n_inputs nd)) as (s & T); [|auto|apply (f_equal (fun r => bind (snd r) (fun _ => x)) T)].
    intros y J. apply (inputs_bound _ _ _ E). apply in_map. auto.
  - intros mode glob clk hists call nilout inputs st regs es st' regs' es' E X A x.
    destruct (execs_store _ _ _ _ _ _ _ _ _ _ _ _ _ X) as (Keep & Set_ & _).
    destruct (trace_prints fshow file ifmt ofmt false "      " (n_name nd) clk st' (n_outputs nd) (n_inputs nd ++ n_locals nd ++ n_outputs nd)) as (s & T); [|auto|apply (f_equal (fun r => bind (snd r) (fun _ => x)) T)].
    intros y J. apply in_app_iff in J. destruct J as [J|J].
    + apply Keep. apply (inputs_bound _ _ _ E). apply in_map. auto.
    + destruct (P3 _ J) as (t & e & I & T). eapply Set_; eauto.
Qed.

Theorem transparent : forall fshow mode glob p, (forall o nd, In (o, nd) p -> printable o nd) ->
  (forall f i v, snd (tstep fshow mode glob p f i v) = step mode glob (untraced p) f i v) /\
  (forall f i ins, snd (trun fshow mode glob p f i ins) = run mode glob (untraced p) f i ins) /\
  (forall f i n, snd (tmain_for fshow mode glob p f n i) = main_for mode glob (untraced p) f n i).
Proof.
  intros fshow mode glob p P.
  assert (H : forall o nd, In (o, nd) p -> harmless (fun A => @eq (res A)) fshow o nd) by (intros; apply printable_harmless; auto).
  assert (B : forall A B (x y : res A) (f g : A -> res B), x = y -> (forall a, x = Ok a -> y = Ok a -> f a = g a) -> bind x f = bind y g).
  { intros A B x y f g -> E. destruct y; simpl; auto. }
  repeat split; intros; [apply (tstep_erase (fun A => @eq (res A)))|apply (trun_erase (fun A => @eq (res A)))|apply (tmain_erase (fun A => @eq (res A)))]; auto; intros; congruence.
Qed.

(** ** Which lines *)
Section Lines.
  Variable Q : line -> Prop.
  Definition only {A} (x : tres A) : Prop := forall l, In l (fst x) -> Q l.

  Lemma only_bind : forall {A B} (x : tres A) (f : A -> tres B), only x -> (forall a, snd x = Ok a -> only (f a)) -> only (tbind x f).
  Proof.
    intros A B (o, [a|p]) f X F l I; simpl in *; [|apply X; auto].
    destruct (f a) as [o' r] eqn:E. simpl in I. apply in_app_iff in I. destruct I as [I|I]; [apply X; auto|].
    apply (F a eq_refl). rewrite E. auto.
  Qed.
  Lemma only_lift : forall {A} (r : res A), only (lift r).
  Proof. intros A r l []. Qed.

  Ltac go := repeat match goal with
    | |- only (tbind _ _) => apply only_bind; [|intros ? ?]
    | |- only (lift _) => apply only_lift
    | |- only (tret _) => apply (only_lift (Ok _))
    | a : (_ * _)%type |- _ => destruct a
    | |- only (let '(_, _) := ?x in _) => destruct x
    | |- only (if ?x then _ else _) => destruct x
    end.

  Variables (mode : ovf) (glob : ident -> option scalar).
  Section Eval.
    Variables (clk : nat) (hists : list (ident * hist)) (tcall : nat -> inst -> val -> tres (val * inst)) (nilout : nat -> res val).
    Hypothesis calls : forall id i v, only (tcall id i v).
    Lemma teval_only : forall regs st e s, only (teval mode glob clk hists tcall nilout regs st e s).
    Proof.
      intros regs st. induction e using expr_ind'; intros s; cbn [teval]; go; auto.
      - destruct d; go.
      - revert s. induction H as [|e l H F IH]; intros s; go; auto.
    Qed.
    Lemma texecs_only : forall l ss, only (texecs mode glob clk hists tcall nilout l ss).
    Proof.
      induction l as [|i l IH]; intros ss; cbn [texecs]; go; auto. destruct ss as (st, regs, es).
      destruct i; cbn [texec]; go; try apply teval_only. destruct value; go. apply teval_only.
    Qed.
  End Eval.

  Variable fshow : spec_float -> string.
  Lemma trace_only : forall o before prefix name clk st shown_ known,
    (forall file fmts, o = Some (file, fmts) -> forall s, Q (file, s)) -> only (trace fshow o before prefix name clk st shown_ known).
  Proof.
    intros o before prefix name clk st shown_ known H. destruct o as [(file, (i, o))|]; [|apply (only_lift (Ok tt))].
    unfold trace. go. unfold print. destruct (format _ _ _); intros l []; [|contradiction]. subst. eapply H; eauto.
  Qed.
  Lemma tstep_only : forall p, (forall file fmts nd, In (Some (file, fmts), nd) p -> forall s, Q (file, s)) ->
    forall f i v, only (tstep fshow mode glob p f i v).
  Proof.
    induction p as [|(o, nd) p IH]; intros H f i v; cbn [tstep]; [apply only_lift|].
    assert (IH' : forall f i v, only (tstep fshow mode glob p f i v)) by (apply IH; intros; eapply H; simpl; eauto).
    destruct (String.eqb f (n_name nd)); [|apply IH'].
    unfold tnode_step. destruct (first_is_nil v); [apply (only_lift (Ok _))|]. destruct i as [clk hists regs flips subs].
    apply only_bind; [apply only_lift|]. intros st _.
    apply only_bind; [apply trace_only; intros file fmts ->; eapply H; simpl; eauto|]. intros u _.
    apply only_bind. { apply texecs_only. intros id j w. destruct (nth_error (n_blocks nd) id); [apply IH'|apply only_lift]. }
    intros (st', regs', (flips', subs')) _.
    apply only_bind; [apply trace_only; intros file fmts ->; eapply H; simpl; eauto|]. intros u' _. go.
  Qed.
End Lines.

Theorem traced_lines : forall fshow mode glob p f i v file s, In (file, s) (fst (tstep fshow mode glob p f i v)) ->
  exists fmts nd, In (Some (file, fmts), nd) p.
Proof.
  intros fshow mode glob p f i v file s I.
  apply (tstep_only (fun l => exists fmts nd, In (Some (fst l, fmts), nd) p) mode glob fshow p) in I; auto. intros; simpl; eauto.
Qed.

(** ** The lines of a node *)
Lemma tbind_ok : forall {A B} (x : tres A) (f : A -> tres B) out b, tbind x f = (out, Ok b) ->
  exists o1 a o2, x = (o1, Ok a) /\ f a = (o2, Ok b) /\ out = o1 ++ o2.
Proof.
  intros A B (o, [a|p]) f out b H; simpl in H; [|discriminate]. destruct (f a) as [o' r] eqn:E. inversion H; subst. eauto 6.
Qed.
Lemma lift_ok : forall {A} (r : res A) o a, lift r = (o, Ok a) -> o = [] /\ r = Ok a.
Proof. intros A r o a H. inversion H. auto. Qed.

Lemma trace_shown : forall fshow file ifmt ofmt before prefix name clk st shown_ known o u,
  trace fshow (Some (file, (ifmt, ofmt))) before prefix name clk st shown_ known = (o, Ok u) ->
  exists s, o = [(file, s)] /\
    shown (scope fshow prefix name clk (fun x => lookup x st) (map v_name known))
      (if before : bool then format_string "<-" ifmt shown_ else format_string "->" ofmt shown_) s.
Proof.
  intros fshow file ifmt ofmt before prefix name clk st shown_ known o u H. unfold trace in H.
  apply tbind_ok in H. destruct H as (o1 & env & o2 & E & P & ->). apply lift_ok in E. destruct E as [-> E].
  unfold print in P. destruct (format env None _) eqn:F; [|discriminate]. inversion P; subst. exists s. split; auto.
  apply format_iff in F. eapply shown_ext; [|exact F]. intros x. apply (trace_env_ok _ _ _ _ _ _ _ E).
Qed.

Lemma matches_inputs : forall l v st, bind_inputs l v = Ok st -> NoDup (map v_name l) ->
  l = [] \/ row (fun x => lookup x st) (map v_name l) v.
Proof.
  intros l v st E N. destruct l as [|a l]; [auto|]. right. unfold bind_inputs in E. cbn [map] in E.
  assert (G : forall l vs st0 st, NoDup (map v_name l) ->
    (fix go (l : list vartuple) (vs : list val) (st : store) : res store :=
             match l, vs with
             | [], [] => Ok st
             | t :: l, v :: vs => st <- bind_target t v st;; go l vs st
             | _, _ => Panic PType
             end) (map (fun x => VTSingle (v_name x)) l) vs st0 = Ok st ->
    (exists ns, Forall2 (fun x n => lookup x st = Some n) (map v_name l) ns /\ vs = map VS ns) /\
    (forall x, ~ In x (map v_name l) -> lookup x st = lookup x st0)).
  { clear. induction l as [|a l IH]; intros vs st0 st N E; destruct vs as [|v vs]; try discriminate; simpl in E.
    - inv_ok. split; auto. exists []. split; constructor.
    - destruct v as [n|]; [|discriminate]. cbn [bind] in E. inversion N; subst. destruct (IH _ _ _ H2 E) as ((ns & F & ->) & K). split.
      + exists (n :: ns). split; auto. cbn [map]. constructor; auto. rewrite K; auto. simpl. rewrite String.eqb_refl. auto.
      + intros x J. simpl in J. rewrite K by tauto. simpl. destruct (String.eqb_spec x (v_name a)); auto. subst. exfalso. auto. }
  destruct l as [|b l].
  - cbn [bind_target map] in E. destruct v as [n|]; [|discriminate]. inv_ok. exists [n]. split; [|auto].
    repeat constructor. simpl. rewrite String.eqb_refl. auto.
  - cbn [bind_target map] in E. destruct v as [|vs]; [discriminate|].
    destruct (G (a :: b :: l) vs [] st N E) as ((ns & F & ->) & _). exists ns. split; auto.
    destruct ns as [|n1 [|n2 ns]]; [inversion F|inversion F; subst; match goal with H : Forall2 _ _ [] |- _ => inversion H end|auto].
Qed.

Lemma row_outputs : forall l st o, read_outputs l st = Ok o -> row (fun x => lookup x st) (map v_name l) o.
Proof.
  intros l st o E. unfold read_outputs in E. inv_ok.
  assert (G : exists ns, Forall2 (fun x n => lookup x st = Some n) (map v_name l) ns /\ r = map VS ns).
  { revert r E0. induction l as [|x l IH]; intros r E; cbn [mapM] in E; inv_ok.
    - exists []. split; constructor.
    - destruct (IH _ E1) as (ns & A & ->). unfold var_value in E0. inv_ok. eexists (_ :: ns). split; [constructor; eauto|reflexivity]. }
  destruct G as (ns & A & ->). exists ns. auto.
Qed.

Section NodeLines.
  Variables (fshow : spec_float -> string) (mode : ovf) (glob : ident -> option scalar).

  Lemma tnode_lines : forall call nilout o nd i v out r i',
    NoDup (map v_name (n_inputs nd)) -> first_is_nil v = false ->
    tnode_step fshow mode glob call nilout (Some o) nd i v = (out, Ok (r, i')) ->
    step_lines fshow "      " o nd (i_clock i) v r (fst (tnode_step fshow mode glob call nilout None nd i v)) out /\
    i_clock i' = S (i_clock i).
  Proof.
    intros call nilout (file, (ifmt, ofmt)) nd (clk, hists, regs, flips, subs) v out r i' N V H. unfold tnode_step in *. rewrite V in *.
    apply tbind_ok in H. destruct H as (o1 & st & o2 & E1 & H & ->). apply lift_ok in E1. destruct E1 as [-> E1]. rewrite E1.
    apply tbind_ok in H. destruct H as (o3 & u & o4 & T1 & H & ->).
    apply tbind_ok in H. destruct H as (body & (st', regs', (flips', subs')) & o6 & X & H & ->).
    apply tbind_ok in H. destruct H as (o7 & u' & o8 & T2 & H & ->).
    apply tbind_ok in H. destruct H as (o9 & h & o10 & E2 & H & ->). apply lift_ok in E2. destruct E2 as [-> E2].
    apply tbind_ok in H. destruct H as (o11 & out & o12 & E3 & H & ->). apply lift_ok in E3. destruct E3 as [-> E3].
    inversion H; subst. split; [|reflexivity].
    apply trace_shown in T1. destruct T1 as (first & -> & T1). apply trace_shown in T2. destruct T2 as (last & -> & T2).
    cbn [trace tbind tret lift]. rewrite X. cbn [tbind lift tret]. rewrite E2. cbn [tbind lift tret]. rewrite E3. cbn [tbind lift tret fst app i_clock]. rewrite !app_nil_r.
    exists first, last, (fun x => lookup x st), (fun x => lookup x st'). split; auto.
    split; [apply matches_inputs; auto|]. split; auto. split; [|split; [apply row_outputs; auto|auto]].
    intros x I Na.
    assert (X' : execs mode glob clk hists (fun id i v => snd (call id i v)) nilout (n_stmts nd) (mkSs st regs (mkEs flips subs)) = Ok (mkSs st' regs' (mkEs flips' subs'))).
    { rewrite <- (texecs_erase (fun A => @eq (res A))) with (tcall := call); auto; [rewrite X; auto|].
      intros A B x0 y f g -> Q. destruct y; simpl; auto. }
    apply execs_store in X'. destruct X' as (_ & _ & K). apply K. intros t e J T. apply Na. exists t, e. auto.
  Qed.

  Lemma untraced_mute : forall f p, untraced (mute f p) = untraced p.
  Proof. induction p as [|(o, nd) p IH]; simpl; auto. destruct (String.eqb f (n_name nd)); simpl; congruence. Qed.

  Lemma tstep_lines : forall p f o nd i v out r i',
    traced p f = Some (Some o, nd) -> NoDup (map v_name (n_inputs nd)) -> first_is_nil v = false ->
    tstep fshow mode glob p f i v = (out, Ok (r, i')) ->
    step_lines fshow "      " o nd (i_clock i) v r (fst (tstep fshow mode glob (mute f p) f i v)) out /\ i_clock i' = S (i_clock i).
  Proof.
    induction p as [|(o', nd') p IH]; intros f o nd i v out r i' F N V H; [discriminate|]. cbn [traced] in F. cbn [tstep mute] in *.
    destruct (String.eqb f (n_name nd')) eqn:Ef.
    - inversion F; subst. cbn [tstep]. rewrite Ef. apply tnode_lines; auto.
    - cbn [tstep]. rewrite Ef. eauto.
  Qed.

  Lemma tstep_absent : forall p f o nd i v, traced p f = Some (o, nd) -> first_is_nil v = true ->
    tstep fshow mode glob p f i v = ([], Ok (vars_nil (n_outputs nd), i)).
  Proof.
    induction p as [|(o', nd') p IH]; intros f o nd i v F V; [discriminate|]. cbn [traced] in F. cbn [tstep].
    destruct (String.eqb f (n_name nd')); [|eauto]. inversion F; subst. unfold tnode_step. rewrite V. auto.
  Qed.

  Theorem run_lines : forall p f o nd ins i out outs i',
    traced p f = Some (Some o, nd) -> NoDup (map v_name (n_inputs nd)) ->
    trun fshow mode glob p f i ins = (out, Ok (outs, i')) ->
    exists ls, out = concat ls /\ length ls = length ins /\
      forall T v r l, nth_error ins T = Some v -> nth_error outs T = Some r -> nth_error ls T = Some l ->
        if first_is_nil v then l = []
        else exists body, step_lines fshow "      " o nd (i_clock i + actives (firstn T ins)) v r body l.
  Proof.
    intros p f o nd ins. induction ins as [|v ins IH]; intros i out outs i' F N H; cbn [trun] in H.
    - inversion H; subst. exists []. repeat split; auto. intros [|T] v r l E; discriminate.
    - apply tbind_ok in H. destruct H as (o1 & (r, i1) & o2 & E1 & H & ->).
      apply tbind_ok in H. destruct H as (o3 & (rs, i2) & o4 & E2 & H & ->). inversion H; subst. rewrite app_nil_r.
      destruct (IH _ _ _ _ F N E2) as (ls & -> & L & K). exists (o1 :: ls). split; auto. split; [simpl; congruence|].
      intros T w r' l Ev Er El. destruct T as [|T]; simpl in Ev, Er, El.
      + inversion Ev; inversion Er; inversion El; subst. destruct (first_is_nil w) eqn:V.
        * rewrite (tstep_absent _ _ _ _ _ _ F V) in E1. inversion E1. auto.
        * destruct (tstep_lines _ _ _ _ _ _ _ _ _ F N V E1) as [S _]. cbn [firstn actives filter length]. rewrite Nat.add_0_r. eauto.
      + pose proof (K T w r' l Ev Er El) as Z. destruct (first_is_nil w); auto. destruct Z as (body & Z). exists body.
        cbn [firstn]. unfold actives in *. cbn [filter]. destruct (first_is_nil v) eqn:V; cbn [negb].
        * rewrite (tstep_absent _ _ _ _ _ _ F V) in E1. inversion E1; subst. auto.
        * destruct (tstep_lines _ _ _ _ _ _ _ _ _ F N V E1) as [_ C]. cbn [length]. rewrite Nat.add_succ_r. rewrite C in Z. auto.
  Qed.

  (** The first line is printed even if the step fails. *)
  Theorem first_line : forall p f o nd i v,
    traced p f = Some (Some o, nd) -> printable (Some o) nd -> first_is_nil v = false ->
    fst (tstep fshow mode glob p f i v) = [] /\ (exists e, snd (tstep fshow mode glob p f i v) = Panic e /\ bind_inputs (n_inputs nd) v = Panic e) \/
    exists first rest start, fst (tstep fshow mode glob p f i v) = (fst o, first) :: rest /\
      bind_inputs (n_inputs nd) v = Ok start /\
      shown (scope fshow "      " (n_name nd) (i_clock i) (fun x => lookup x start) (map v_name (n_inputs nd))) (format_string "<-" (fst (snd o)) (n_inputs nd)) first.
  Proof.
    induction p as [|(o', nd') p IH]; intros f o nd i v F P V; [discriminate|]. cbn [traced] in F. cbn [tstep].
    destruct (String.eqb f (n_name nd')) eqn:Ef; [|auto]. inversion F; subst. destruct o as (file, (ifmt, ofmt)). destruct i as [clk hists regs flips subs].
    unfold tnode_step. rewrite V. destruct (bind_inputs (n_inputs nd) v) as [st|e] eqn:B; [|left; simpl; eauto]. right.
    cbn [lift tbind].
    destruct P as (P1 & _). destruct (trace_prints fshow file ifmt ofmt true "      " (n_name nd) clk st (n_inputs nd) (n_inputs nd)) as (s & T); auto.
    { intros y J. apply (inputs_bound _ _ _ B). apply in_map. auto. }
    destruct (trace_shown _ _ _ _ _ _ _ _ _ _ _ _ _ T) as (s' & E & Sh). inversion E; subst s'.
    cbv zeta. match goal with |- context [trace fshow ?a true ?b ?c ?d ?e ?g ?h] => change (trace fshow a true b c d e g h) with (trace fshow (Some (file, (ifmt, ofmt))) true "      " (n_name nd) clk st (n_inputs nd) (n_inputs nd)) end.
    rewrite T. cbn [tbind]. match goal with |- context [tbind ?x ?f] => destruct (tbind x f) as [o r] end. cbn [fst app].
    exists s, o, st. auto.
  Qed.
End NodeLines.
