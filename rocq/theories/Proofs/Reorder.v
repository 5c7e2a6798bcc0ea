(** Statements can be reordered as long as everything is written before it is read. *)
From Coq Require Import String List ZArith Bool Arith Lia Permutation.
From Verif Require Import Model.Base Model.Scalar Model.Value Model.History Model.Register Model.Ast Model.Interp
  Model.Graph Model.Causality Spec.RuntimeSpec Spec.StepSpec Spec.CausalitySpec Spec.OrderSpec
  Proofs.AstInd Proofs.RuntimeProofs Proofs.InterpBasics Proofs.StepProofs Proofs.CausalityProofs.
Import ListNotations.

(** Pieces of the state of a step. *)
Inductive cell : Type := CVar (x : ident) | CCur (r : nat) | CNext (r : nat) | CShape (r : nat) | CSub (i : nat) | CFlip (i : nat).

Definition same (s t : sstate) (c : cell) : Prop :=
  match c with
  | CVar x => lookup x (ss_store s) = lookup x (ss_store t)
  | CCur r => option_map (fun r => (r_inner r, r_on_clock r)) (nth_error (ss_regs s) r) =
              option_map (fun r => (r_inner r, r_on_clock r)) (nth_error (ss_regs t) r)
  | CNext r => option_map r_next (nth_error (ss_regs s) r) = option_map r_next (nth_error (ss_regs t) r)
  | CShape r => option_map (fun r => all_nil (r_inner r)) (nth_error (ss_regs s) r) =
                option_map (fun r => all_nil (r_inner r)) (nth_error (ss_regs t) r)
  | CSub i => nth_error (es_subs (ss_es s)) i = nth_error (es_subs (ss_es t)) i
  | CFlip i => nth_error (es_flips (ss_es s)) i = nth_error (es_flips (ss_es t)) i
  end.

Lemma same_sym : forall s t c, same s t c -> same t s c.
Proof. intros s t [] H; simpl in *; auto. Qed.
Lemma same_trans : forall s t u c, same s t c -> same t u c -> same s u c.
Proof. intros s t u [] H K; simpl in *; congruence. Qed.

Fixpoint now_vars (e : expr) : list ident :=
  match e with
  | ELit _ | EGlobal _ | EFetch _ _ _ => []
  | EVar x 0 => [x]
  | EVar x _ => []
  | ETuple l => flat_map now_vars l
  | EPre e | EParen e | EUn _ e | ESub _ _ e => now_vars e
  | EBin _ a b | ECmp _ a b | EClock _ a b | ELater _ a b | EFlip _ a b => now_vars a ++ now_vars b
  | EIf a b c | EMerge a b c => now_vars a ++ now_vars b ++ now_vars c
  end.
Fixpoint now_regs (e : expr) : list nat :=
  match e with
  | ELit _ | EVar _ _ | EGlobal _ => []
  | EFetch id _ _ => [id]
  | ETuple l => flat_map now_regs l
  | EPre e | EParen e | EUn _ e | ESub _ _ e => now_regs e
  | EBin _ a b | ECmp _ a b | EClock _ a b | ELater _ a b | EFlip _ a b => now_regs a ++ now_regs b
  | EIf a b c | EMerge a b c => now_regs a ++ now_regs b ++ now_regs c
  end.

Lemma now_vars_reads : forall x e, In x (now_vars e) -> reads_now x e.
Proof.
  intros x. induction e using expr_ind'; simpl; intros I; try tauto; repeat (rewrite in_app_iff in I);
    try (destruct I as [I|I]; [|try destruct I as [I|I]]); eauto using reads_now.
  - destruct d; simpl in I; [|tauto]. destruct I as [<-|[]]. constructor.
  - apply in_flat_map in I. destruct I as (e & I & J). rewrite Forall_forall in H. econstructor; eauto.
Qed.
Lemma now_regs_fetches : forall x e, In x (now_regs e) -> fetches x e.
Proof.
  intros x. induction e using expr_ind'; simpl; intros I; try tauto; repeat (rewrite in_app_iff in I);
    try (destruct I as [I|I]; [|try destruct I as [I|I]]); eauto using fetches.
  - apply in_flat_map in I. destruct I as (e & I & J). rewrite Forall_forall in H. econstructor; eauto.
  - subst. constructor.
  - tauto.
Qed.

Definition e_uses (e : expr) : list cell :=
  map CVar (now_vars e) ++ map CCur (now_regs e) ++ map CSub (calls_of e) ++ map CFlip (flips_of e).
Definition e_writes (e : expr) : list cell := map CSub (calls_of e) ++ map CFlip (flips_of e).
Definition uses (s : stmt) : list cell :=
  flat_map e_uses (computed s) ++
  match s with SInit r _ _ => [CCur r] | SUpdate r _ => [CNext r; CShape r] | _ => [] end.
Definition writes (s : stmt) : list cell :=
  flat_map e_writes (computed s) ++
  match s with SLet t _ => map CVar (target_vars t) | SInit r _ _ => [CCur r] | SUpdate r _ => [CNext r] | _ => [] end.

Section Exec.
  Variable mode : ovf.
  Variable glob : ident -> option scalar.
  Variable clk : nat.
  Variable hists : list (ident * hist).
  Variable call : nat -> inst -> val -> res (val * inst).
  Variable nilout : nat -> res val.
  Notation eval' := (eval mode glob clk hists call nilout).
  Notation evals' := (evals mode glob clk hists call nilout).
  Notation exec' := (exec mode glob clk hists call nilout).
  Notation execs' := (execs mode glob clk hists call nilout).

  Definition reg_same (regs regs' : list register) (r : nat) : Prop :=
    option_map reg_get (nth_error regs r) = option_map reg_get (nth_error regs' r).

  (** Evaluation depends on the variables and registers mentioned. *)
  Lemma eval_env : forall e regs regs' st st',
    (forall x, In x (now_vars e) -> lookup x st = lookup x st') ->
    (forall r, In r (now_regs e) -> reg_same regs regs' r) ->
    forall s, eval' regs st e s = eval' regs' st' e s.
  Proof.
    induction e using expr_ind'; intros regs regs' st st' V R s; cbn [now_vars now_regs] in *;
      try (assert (V1 : forall x, In x (now_vars e1) -> lookup x st = lookup x st') by (intros; apply V; rewrite !in_app_iff; auto);
           assert (V2 : forall x, In x (now_vars e2) -> lookup x st = lookup x st') by (intros; apply V; rewrite !in_app_iff; auto);
           assert (R1 : forall x, In x (now_regs e1) -> reg_same regs regs' x) by (intros; apply R; rewrite !in_app_iff; auto);
           assert (R2 : forall x, In x (now_regs e2) -> reg_same regs regs' x) by (intros; apply R; rewrite !in_app_iff; auto));
      try (assert (V3 : forall x, In x (now_vars e3) -> lookup x st = lookup x st') by (intros; apply V; rewrite !in_app_iff; auto);
           assert (R3 : forall x, In x (now_regs e3) -> reg_same regs regs' x) by (intros; apply R; rewrite !in_app_iff; auto)).
    - reflexivity.
    - destruct d; simpl; auto. rewrite V; simpl; auto.
    - reflexivity.
    - rewrite !eval_tuple.
      assert (G : forall s, evals' regs st l s = evals' regs' st' l s).
      { clear s. induction H as [|e l He H IH]; intros s; simpl; auto.
        rewrite (He regs regs' st st') by (intros; first [apply V|apply R]; simpl; rewrite in_app_iff; auto).
        destruct (eval' regs' st' e s) as [[v s']|]; auto. cbn [bind]. rewrite IH; auto; intros; first [apply V|apply R]; simpl; rewrite in_app_iff; auto. }
      rewrite G. auto.
    - simpl. auto.
    - simpl. auto.
    - simpl. rewrite (IHe1 regs regs' st st') by auto. destruct (eval' regs' st' e1 s) as [[v s']|]; auto. cbn [bind].
      rewrite (IHe2 regs regs' st st') by auto. auto.
    - simpl. rewrite (IHe regs regs' st st') by auto. auto.
    - simpl. rewrite (IHe1 regs regs' st st') by auto. destruct (eval' regs' st' e1 s) as [[v s']|]; auto. cbn [bind].
      rewrite (IHe2 regs regs' st st') by auto. auto.
    - simpl. rewrite (IHe2 regs regs' st st') by auto. destruct (eval' regs' st' e2 s) as [[v s']|]; auto. cbn [bind].
      rewrite (IHe1 regs regs' st st') by auto. auto.
    - simpl. rewrite (IHe2 regs regs' st st') by auto. destruct (eval' regs' st' e2 s) as [[v s']|]; auto. cbn [bind].
      rewrite (IHe1 regs regs' st st') by auto. auto.
    - simpl. specialize (R id (or_introl eq_refl)). red in R.
      destruct (nth_error regs id), (nth_error regs' id); simpl in *; try congruence.
    - simpl. rewrite (IHe1 regs regs' st st') by auto. destruct (eval' regs' st' e1 s) as [[v s']|]; auto. cbn [bind].
      rewrite (IHe2 regs regs' st st') by auto. auto.
    - simpl. rewrite (IHe2 regs regs' st st') by auto. destruct (eval' regs' st' e2 s) as [[v s']|]; auto. cbn [bind].
      rewrite (IHe3 regs regs' st st') by auto. destruct (eval' regs' st' e3 s') as [[v' s'']|]; auto. cbn [bind].
      rewrite (IHe1 regs regs' st st') by auto. auto.
    - simpl. rewrite (IHe1 regs regs' st st') by auto. destruct (eval' regs' st' e1 s) as [[v s']|]; auto. cbn [bind].
      rewrite (IHe2 regs regs' st st') by auto. destruct (eval' regs' st' e2 s') as [[v' s'']|]; auto. cbn [bind].
      rewrite (IHe3 regs regs' st st') by auto. destruct (eval' regs' st' e3 s'') as [[v'' s''']|]; auto. cbn [bind].
      rewrite (IHe1 regs regs' st st') by auto. auto.
    - simpl. rewrite (IHe regs regs' st st') by auto. auto.
  Qed.

  (** Evaluating an expression in two states that agree on what it uses. *)
  Lemma eval_same : forall e regs st es regs' st' es' v es1,
    eval' regs st e es = Ok (v, es1) ->
    (forall c, In c (e_uses e) -> same (mkSs st regs es) (mkSs st' regs' es') c) ->
    exists es1', eval' regs' st' e es' = Ok (v, es1') /\
      (forall st0 regs0 st1 regs1 c, In c (e_writes e) -> same (mkSs st0 regs0 es1) (mkSs st1 regs1 es1') c).
  Proof.
    intros e regs st es regs' st' es' v es1 E U.
    rewrite (eval_env e regs regs' st st') in E.
    - destruct (eval_local _ _ _ _ _ _ _ _ e (calls_of e) (flips_of e) _ _ _ es' (incl_refl _) (incl_refl _) E) as (t' & Et & At1 & At2).
      + split; intros id I; [apply (U (CSub id))|apply (U (CFlip id))]; unfold e_uses; rewrite !in_app_iff, !in_map_iff; eauto 8.
      + exists t'. split; auto. intros st0 regs0 st1 regs1 c I. unfold e_writes in I. rewrite in_app_iff, !in_map_iff in I.
        destruct I as [(id & <- & I)|(id & <- & I)]; simpl; auto.
    - intros x I. apply (U (CVar x)). unfold e_uses. rewrite !in_app_iff, !in_map_iff; eauto 8.
    - intros r I. assert (X : same (mkSs st regs es) (mkSs st' regs' es') (CCur r)) by (apply U; unfold e_uses; rewrite !in_app_iff, !in_map_iff; eauto 8).
      simpl in X. red. unfold reg_get. destruct (nth_error regs r), (nth_error regs' r); simpl in *; try congruence.
      inversion X. congruence.
  Qed.

  Lemma eval_frames : forall e regs st es v es1, eval' regs st e es = Ok (v, es1) ->
    forall st0 regs0 c, ~ In c (e_writes e) -> same (mkSs st0 regs0 es) (mkSs st0 regs0 es1) c.
  Proof.
    intros e regs st es v es1 E st0 regs0 c N. apply eval_frame in E. destruct E as (A & B & _).
    unfold e_writes in N. rewrite in_app_iff, !in_map_iff in N.
    destruct c; simpl; auto; symmetry; [apply A|apply B]; intros I; apply N; eauto.
  Qed.

  Lemma bind_target_prefix : forall t v st st', bind_target t v st = Ok st' ->
    exists b, st' = b ++ st /\ (forall x, In x (map fst b) <-> In x (target_vars t)) /\ forall st2, bind_target t v st2 = Ok (b ++ st2).
  Proof.
    induction t using vartuple_ind'; intros v st st' E.
    - simpl in E. destruct v; [|discriminate]. inv_ok. exists [(x, n)]. simpl. repeat split; auto; tauto.
    - assert (G : forall vs st st', (fix go (l : list vartuple) (vs : list val) (st : store) : res store :=
               match l, vs with
               | [], [] => Ok st
               | t :: l, v :: vs => st <- bind_target t v st;; go l vs st
               | _, _ => Panic PType
               end) l vs st = Ok st' ->
               exists b, st' = b ++ st /\ (forall x, In x (map fst b) <-> In x (flat_map target_vars l)) /\
                 forall st2, (fix go (l : list vartuple) (vs : list val) (st : store) : res store :=
               match l, vs with
               | [], [] => Ok st
               | t :: l, v :: vs => st <- bind_target t v st;; go l vs st
               | _, _ => Panic PType
               end) l vs st2 = Ok (b ++ st2)).
      { clear v st st' E. induction H as [|t l Ht H IH]; intros vs st st' E; destruct vs as [|v vs]; try discriminate.
        - inv_ok. exists []. simpl. repeat split; auto.
        - inv_ok. destruct (Ht _ _ _ E0) as (b1 & -> & I1 & F1). destruct (IH _ _ _ E) as (b2 & -> & I2 & F2).
          exists (b2 ++ b1). rewrite app_assoc. split; auto. split.
          + intros x. simpl. rewrite map_app, !in_app_iff, I1, I2. tauto.
          + intros st2. rewrite F1. cbn [bind]. rewrite F2, app_assoc. auto. }
      destruct l as [|t [|t' l]].
      + simpl in E. inv_ok. exists []. simpl. repeat split; auto.
      + inversion H; subst. cbn [bind_target] in E. destruct (H2 _ _ _ E) as (b & -> & I & F). exists b. split; auto.
        split; [intros x; simpl; rewrite app_nil_r; auto|]. intros. cbn [bind_target]. auto.
      + cbn [bind_target] in E. destruct v as [|vs]; [discriminate|]. destruct (G _ _ _ E) as (b & -> & I & F).
        exists b. repeat split; auto; apply I.
  Qed.

  Lemma lookup_app : forall {A} x (b st : list (ident * A)), lookup x (b ++ st) = match lookup x b with Some v => Some v | None => lookup x st end.
  Proof. induction b as [|(y, v) b IH]; intros st; simpl; auto. destruct (String.eqb x y); auto. Qed.
  Lemma lookup_in : forall {A} x (b : list (ident * A)), In x (map fst b) <-> lookup x b <> None.
  Proof.
    induction b as [|(y, v) b IH]; simpl; [tauto|]. destruct (String.eqb_spec x y).
    - subst. split; [discriminate|auto].
    - rewrite <- IH. split; [intros [E|I]; [congruence|auto]|auto].
  Qed.

  Ltac mem := unfold uses, writes, e_uses, e_writes in *; cbn [computed flat_map app] in *; rewrite ?app_nil_r in *; rewrite ?in_app_iff in *; simpl in *; tauto.

  Lemma with_clock_fields : forall r n r', reg_with_clock r n = Ok r' -> r_inner r' = r_inner r /\ r_next r' = r_next r.
  Proof. intros r n r' H. unfold reg_with_clock in H. inv_ok. auto. Qed.

  Lemma cell_dec : forall a b : cell, {a = b} + {a <> b}.
  Proof. repeat decide equality. Defined.

  Lemma set_reg_same : forall st es regs id r r' c, nth_error regs id = Some r ->
    (c = CCur id -> r_inner r = r_inner r' /\ r_on_clock r = r_on_clock r') ->
    (c = CNext id -> r_next r = r_next r') ->
    (c = CShape id -> all_nil (r_inner r) = all_nil (r_inner r')) ->
    same (mkSs st regs es) (mkSs st (set_nth id r' regs) es) c.
  Proof.
    intros st es regs id r r' c E A B C. destruct c; simpl; auto;
      (destruct (Nat.eq_dec id r0) as [<-|N]; [rewrite nth_error_set_nth_eq by (eapply nth_error_some_lt; eauto); rewrite E; simpl; f_equal; auto|
        rewrite nth_error_set_nth_neq by auto; auto]).
    destruct (A eq_refl). congruence.
  Qed.

  Lemma exec_frames : forall s ss ss', exec' s ss = Ok ss' -> forall c, ~ In c (writes s) -> same ss ss' c.
  Proof.
    intros [t e|e|id v [k|]|id e] [st regs es] ss' E c N; cbn [exec of_option bind] in E; try discriminate; inv_ok.
    - destruct (bind_target_prefix _ _ _ _ E1) as (b & -> & I & _).
      eapply same_trans; [eapply (eval_frames _ _ _ _ _ _ E0 st regs); mem|].
      destruct c; simpl; auto. rewrite lookup_app. destruct (lookup x b) eqn:L; auto. exfalso. apply N.
      unfold writes. apply in_app_iff. right. apply in_map. apply I. apply lookup_in. congruence.
    - eapply (eval_frames _ _ _ _ _ _ E0 st regs); mem.
    - eapply same_trans; [eapply (eval_frames _ _ _ _ _ _ E1 st regs); intros J; apply N; destruct v; mem|].
      destruct (with_clock_fields _ _ _ E3) as [W1 W2]. destruct v as [ev|]; inv_ok.
      + destruct (same_shapeb v (r_inner r1)) eqn:S; inv_ok. apply same_shapeb_nil in S.
        eapply same_trans; [eapply (eval_frames _ _ _ _ _ _ E4 st regs); intros J; apply N; mem|].
        eapply set_reg_same; eauto; unfold reg_try_initialize; destruct (first_is_nil (r_inner r1)); simpl; try congruence;
          intros ->; exfalso; apply N; mem.
      + eapply set_reg_same; eauto; try congruence. intros ->; exfalso; apply N; mem.
    - destruct (same_shapeb v (r_inner r)) eqn:S; inv_ok.
      eapply same_trans; [eapply (eval_frames _ _ _ _ _ _ E1 st regs); intros J; apply N; mem|].
      eapply set_reg_same; eauto; unfold reg_schedule; destruct (first_is_nil v); simpl; auto.
      intros ->; exfalso; apply N; mem.
  Qed.

  Lemma frames_join : forall e regs st es v es1 regs' st' es' v' es1' c, eval' regs st e es = Ok (v, es1) -> eval' regs' st' e es' = Ok (v', es1') ->
    (forall st0 regs0 st1 regs1 c, In c (e_writes e) -> same (mkSs st0 regs0 es1) (mkSs st1 regs1 es1') c) ->
    forall st0 regs0 st1 regs1,
    same (mkSs st0 regs0 es) (mkSs st1 regs1 es') c -> same (mkSs st0 regs0 es1) (mkSs st1 regs1 es1') c.
  Proof.
    intros e regs st es v es1 regs' st' es' v' es1' c E E' W st0 regs0 st1 regs1 S.
    destruct (in_dec cell_dec c (e_writes e)) as [I|I]; [apply W; auto|].
    eapply same_trans; [apply same_sym; eapply eval_frames; [exact E|exact I]|].
    eapply same_trans; [exact S|eapply eval_frames; [exact E'|exact I]].
  Qed.

  Lemma nth_some_map : forall {A B} (f : A -> B) (l l' : list A) i a, option_map f (nth_error l i) = option_map f (nth_error l' i) ->
    nth_error l i = Some a -> exists b, nth_error l' i = Some b /\ f b = f a.
  Proof. intros A B f l l' i a H E. rewrite E in H. destruct (nth_error l' i) as [b|]; inversion H. eauto. Qed.

  Lemma exec_local : forall s ss ss' tt, exec' s ss = Ok ss' -> (forall c, In c (uses s) -> same ss tt c) ->
    exists tt', exec' s tt = Ok tt' /\ forall c, In c (writes s) -> same ss' tt' c.
  Proof.
    intros [t e|e|id v [k|]|id e] [st regs es] ss' [st2 regs2 es2] E U; cbn [exec of_option bind] in E; try discriminate; inv_ok.
    - destruct (eval_same _ _ _ _ regs2 st2 es2 _ _ E0) as (es1' & Ev & W); [intros c I; apply U; mem|].
      destruct (bind_target_prefix _ _ _ _ E1) as (b & -> & I & F).
      cbn [exec]. rewrite Ev. cbn [bind]. rewrite F. cbn [bind]. eexists; split; [reflexivity|].
      intros c J. unfold writes in J. cbn [computed flat_map] in J. rewrite app_nil_r, in_app_iff in J. destruct J as [J|J]; [apply W; auto|].
      apply in_map_iff in J. destruct J as (x & <- & J). simpl. rewrite !lookup_app. apply I in J. apply lookup_in in J.
      destruct (lookup x b); congruence.
    - destruct (eval_same _ _ _ _ regs2 st2 es2 _ _ E0) as (es1' & Ev & W); [intros c I; apply U; mem|].
      cbn [exec]. rewrite Ev. cbn [bind]. match goal with H : val_truth _ = Ok _ |- _ => rewrite H end. cbn [bind].
      eexists; split; [reflexivity|]. intros c J. apply W. mem.
    - destruct (with_clock_fields _ _ _ E3) as [W1 W2].
      assert (Sc : same (mkSs st regs es) (mkSs st2 regs2 es2) (CCur id)) by (apply U; mem).
      simpl in Sc. destruct (nth_some_map _ _ _ _ _ Sc E0) as (r2 & Er2 & Rr).
      assert (Ec : exists r2', reg_with_clock r2 r0 = Ok r2' /\ r_inner r2' = r_inner r1 /\ r_on_clock r2' = r_on_clock r1).
      { unfold reg_with_clock in *. inv_ok. match goal with H : nil_is _ _ = Ok _ |- _ => rewrite H end. cbn [bind]. eexists; split; [reflexivity|]. simpl. inversion Rr. auto. }
      destruct Ec as (r2' & Ec & Ri & Ro).
      destruct (eval_same _ _ _ _ regs2 st2 es2 _ _ E1) as (es1' & Ev & W); [intros c I; apply U; destruct v; mem|].
      cbn [exec of_option bind]. rewrite Er2. cbn [of_option bind]. rewrite Ev. cbn [bind]. rewrite E2. cbn [bind]. rewrite Ec. cbn [bind].
      assert (Reg : forall r, same (mkSs st regs es) (mkSs st2 regs2 es2) (CCur r) -> forall st0 es0 st1 es1, same (mkSs st0 (set_nth id r1 regs) es0) (mkSs st1 (set_nth id r2' regs2) es1) (CCur r)).
      { intros j S st0 es0 st1 es1. simpl in *. destruct (Nat.eq_dec id j) as [<-|Ne].
        - rewrite !nth_error_set_nth_eq by (eapply nth_error_some_lt; eauto). simpl. congruence.
        - rewrite !nth_error_set_nth_neq by auto. auto. }
      destruct v as [ev|]; inv_ok.
      + destruct (same_shapeb v (r_inner r1)) eqn:S; inv_ok.
        destruct (eval_same _ _ _ _ (set_nth id r2' regs2) st2 es1' _ _ E4) as (es2' & Ev2 & W').
        { intros c I. assert (Ui : same (mkSs st regs es) (mkSs st2 regs2 es2) c) by (apply U; mem).
          pose proof (frames_join _ _ _ _ _ _ _ _ _ _ _ _ E1 Ev W _ _ _ _ Ui) as J. destruct c; auto.
          - unfold e_uses in I. rewrite !in_app_iff, !in_map_iff in I. exfalso. decompose [or] I; match goal with H : exists _, _ |- _ => destruct H as (? & ? & _) end; discriminate.
          - unfold e_uses in I. rewrite !in_app_iff, !in_map_iff in I. exfalso. decompose [or] I; match goal with H : exists _, _ |- _ => destruct H as (? & ? & _) end; discriminate. }
        rewrite Ev2. cbn [bind]. rewrite Ri, S. eexists; split; [reflexivity|].
        intros c I.
        assert (Cs : In c (e_writes k) \/ In c (e_writes ev) \/ c = CCur id).
        { unfold writes in I. cbn [computed flat_map app] in I. rewrite !in_app_iff in I. simpl in I. destruct I as [[I|[I|[]]]|[I|[]]]; auto. }
        destruct Cs as [I'|[I'| ->]].
        * eapply (frames_join _ _ _ _ _ _ _ _ _ _ _ _ E4 Ev2 W'). apply W. auto.
        * apply W'. auto.
        * simpl. rewrite !nth_error_set_nth_eq by (eapply nth_error_some_lt; eauto). simpl.
          unfold reg_try_initialize. rewrite Ri. destruct (first_is_nil (r_inner r1)); simpl; congruence.
      + eexists; split; [reflexivity|]. intros c I.
        assert (Cs : In c (e_writes k) \/ c = CCur id).
        { unfold writes in I. cbn [computed flat_map app] in I. rewrite !in_app_iff in I. simpl in I. destruct I as [[I|[]]|[I|[]]]; auto. }
        destruct Cs as [I'| ->]; [apply W; auto|]. apply (Reg id Sc).
    - destruct (same_shapeb v (r_inner r)) eqn:S; inv_ok.
      destruct (eval_same _ _ _ _ regs2 st2 es2 _ _ E1) as (es1' & Ev & W); [intros c I; apply U; mem|].
      assert (S1 : same (mkSs st regs es) (mkSs st2 regs2 es2) (CNext id)) by (apply U; mem).
      assert (S2 : same (mkSs st regs es) (mkSs st2 regs2 es2) (CShape id)) by (apply U; mem).
      simpl in S1, S2. destruct (nth_some_map _ _ _ _ _ S1 E0) as (r2 & Er2 & Rn).
      rewrite E0, Er2 in S2. simpl in S2.
      cbn [exec]. rewrite Er2. cbn [of_option bind]. rewrite Ev. cbn [bind].
      assert (S' : same_shapeb v (r_inner r2) = true) by (apply same_shapeb_nil; apply same_shapeb_nil in S; congruence).
      rewrite S'. eexists; split; [reflexivity|]. intros c I.
      assert (Cs : In c (e_writes e) \/ c = CNext id) by (unfold writes in I; cbn [computed flat_map app] in I; rewrite app_nil_r, in_app_iff in I; simpl in I; intuition congruence).
      destruct Cs as [I'| ->]; [apply W; auto|]. simpl. rewrite !nth_error_set_nth_eq by (eapply nth_error_some_lt; eauto). simpl.
      unfold reg_schedule. destruct (first_is_nil v); simpl; congruence.
  Qed.

  (** ** Reordering *)
  Definition equiv (s t : sstate) : Prop := forall c, same s t c.
  Definition apart (a b : stmt) : Prop := forall c, In c (uses a) -> ~ In c (writes b).
  Definition disjoint (a b : stmt) : Prop := forall c, In c (writes a) -> ~ In c (writes b).

  Lemma exec_equiv : forall s ss ss' tt, exec' s ss = Ok ss' -> equiv ss tt -> exists tt', exec' s tt = Ok tt' /\ equiv ss' tt'.
  Proof.
    intros s ss ss' tt E Q. destruct (exec_local _ _ _ tt E) as (tt' & E' & W); [intros; apply Q|].
    exists tt'. split; auto. intros c. destruct (in_dec cell_dec c (writes s)) as [I|I]; auto.
    eapply same_trans; [apply same_sym; eapply exec_frames; eauto|]. eapply same_trans; [apply Q|eapply exec_frames; eauto].
  Qed.

  Lemma execs_equiv : forall l ss ss' tt, execs' l ss = Ok ss' -> equiv ss tt -> exists tt', execs' l tt = Ok tt' /\ equiv ss' tt'.
  Proof.
    induction l as [|s l IH]; intros ss ss' tt E Q; simpl in *; inv_ok; eauto.
    destruct (exec_equiv _ _ _ _ E0 Q) as (t1 & E1 & Q1). rewrite E1. cbn [bind]. eauto.
  Qed.

  Lemma exec_commute : forall a b ss s1 s2, exec' a ss = Ok s1 -> exec' b s1 = Ok s2 ->
    apart a b -> apart b a -> disjoint a b ->
    exists t1 t2, exec' b ss = Ok t1 /\ exec' a t1 = Ok t2 /\ equiv s2 t2.
  Proof.
    intros a b ss s1 s2 Ea Eb Ab Ba D.
    destruct (exec_local _ _ _ ss Eb) as (t1 & Eb' & Wb).
    { intros c I. apply same_sym. eapply exec_frames; eauto. }
    destruct (exec_local _ _ _ t1 Ea) as (t2 & Ea' & Wa).
    { intros c I. eapply exec_frames; eauto. }
    exists t1, t2. split; auto. split; auto. intros c.
    destruct (in_dec cell_dec c (writes a)) as [I|I].
    - eapply same_trans; [apply same_sym; eapply exec_frames; [exact Eb|apply D; auto]|]. auto.
    - eapply same_trans; [|eapply exec_frames; [exact Ea'|auto]].
      destruct (in_dec cell_dec c (writes b)) as [J|J]; auto.
      eapply same_trans; [apply same_sym; eapply exec_frames; [exact Eb|auto]|].
      eapply same_trans; [apply same_sym; eapply exec_frames; [exact Ea|auto]|].
      eapply exec_frames; [exact Eb'|auto].
  Qed.

  Lemma execs_app : forall l l' ss, execs' (l ++ l') ss = (s <- execs' l ss;; execs' l' s).
  Proof. induction l as [|s l IH]; intros l' ss; simpl; auto. destruct (exec' s ss); simpl; auto. Qed.

  Lemma execs_move : forall p s ss ss', execs' (s :: p) ss = Ok ss' ->
    (forall u, In u p -> apart s u /\ apart u s /\ disjoint s u) ->
    exists tt', execs' (p ++ [s]) ss = Ok tt' /\ equiv ss' tt'.
  Proof.
    induction p as [|u p IH]; intros s ss ss' E H.
    - exists ss'. split; auto. intros c. destruct c; simpl; auto.
    - simpl in E. inv_ok. destruct (H u) as (A & B & C); [simpl; auto|].
      destruct (exec_commute _ _ _ _ _ E0 E1 A B C) as (t1 & t2 & X & Y & Q).
      destruct (execs_equiv _ _ _ _ E Q) as (t3 & Z & Q').
      destruct (IH s t1 t3) as (t4 & W & Q''); [simpl; rewrite Y; auto|intros; apply H; simpl; auto|].
      exists t4. simpl. rewrite X. cbn [bind]. split; auto. intros c. eapply same_trans; eauto.
  Qed.

  Theorem execs_perm : forall l l', Permutation l l' ->
    ForallOrdPairs (fun a b => apart a b /\ disjoint a b) l -> ForallOrdPairs apart l' ->
    forall ss ss', execs' l ss = Ok ss' -> exists tt', execs' l' ss = Ok tt' /\ equiv ss' tt'.
  Proof.
    induction l as [|s l IH]; intros l' P O O' ss ss' E.
    - apply Permutation_nil in P. subst. exists ss'. split; auto. intros c. destruct c; simpl; auto.
    - destruct (in_split s l') as (p & q & ->); [eapply Permutation_in; [exact P|simpl; auto]|].
      apply Permutation_cons_app_inv in P. inversion O as [|x y Hs Hl]; subst. rewrite Forall_forall in Hs.
      assert (Op : ForallOrdPairs apart (p ++ q) /\ forall u, In u p -> apart u s).
      { clear - O'. induction p as [|u p IH]; simpl in *.
        - inversion O'; subst. split; auto. intros u [].
        - inversion O' as [|x y Hu Hp]; subst. destruct (IH Hp) as [A B]. rewrite Forall_forall in Hu. split.
          + constructor; auto. apply Forall_forall. intros w I. apply Hu. rewrite in_app_iff in *. simpl. tauto.
          + intros w [<-|I]; auto. apply Hu. rewrite in_app_iff. simpl. auto. }
      destruct Op as [Op Ps].
      simpl in E. inv_ok. destruct (IH _ P Hl Op _ _ E) as (t1 & E1 & Q1).
      rewrite execs_app in E1. apply bind_ok in E1. destruct E1 as (s1 & Ep & E1).
      destruct (execs_move p s ss s1) as (t2 & E3 & Q2).
      + simpl. rewrite E0. auto.
      + intros u I. assert (Iu : In u l) by (eapply Permutation_in; [apply Permutation_sym; exact P|apply in_app_iff; auto]).
        destruct (Hs u Iu). auto.
      + destruct (execs_equiv _ _ _ _ E1 Q2) as (t3 & E4 & Q3). exists t3. split.
        * replace (p ++ s :: q) with ((p ++ [s]) ++ q) by (rewrite <- app_assoc; auto). rewrite execs_app, E3. auto.
        * intros c. eapply same_trans; eauto.
  Qed.
End Exec.

(** ** From the order conditions to independence *)
Lemma fop_nth : forall {A} (R : A -> A -> Prop) l,
  (forall i j a b, i < j -> nth_error l i = Some a -> nth_error l j = Some b -> R a b) -> ForallOrdPairs R l.
Proof.
  induction l as [|a l IH]; intros H; constructor.
  - apply Forall_forall. intros b I. apply In_nth_error in I. destruct I as (j & E). apply (H 0 (S j)); auto. lia.
  - apply IH. intros i j x y L X Y. apply (H (S i) (S j)); auto. lia.
Qed.

Lemma sum_nth : forall {A} (f : A -> nat) l, fold_right (fun s n => f s + n) 0 l <= 1 ->
  forall i j a b, i < j -> nth_error l i = Some a -> nth_error l j = Some b -> f a <> 0 -> f b <> 0 -> False.
Proof.
  induction l as [|x l IH]; intros H i j a b L X Y Fa Fb; [destruct i; discriminate|].
  simpl in H. destruct j; [lia|]. simpl in Y. destruct i as [|i]; simpl in X.
  - inversion X; subst. assert (fold_right (fun s n => f s + n) 0 l <> 0); [|lia].
    clear - Y Fb. revert j Y. induction l as [|y l IH]; intros [|j] Y; simpl in *; try discriminate.
    + inversion Y; subst. lia.
    + specialize (IH _ Y). lia.
  - apply (IH ltac:(lia) i j a b); auto. lia.
Qed.

Lemma count_sum : forall {A} (p : A -> bool) l, length (filter p l) = fold_right (fun s n => (if p s then 1 else 0) + n) 0 l.
Proof. induction l as [|a l IH]; simpl; auto. destruct (p a); simpl; auto. Qed.

Lemma sum_perm : forall {A} (f : A -> nat) l l', Permutation l l' ->
  fold_right (fun s n => f s + n) 0 l = fold_right (fun s n => f s + n) 0 l'.
Proof. induction 1; simpl; lia. Qed.

Lemma separate_perm : forall l l', Permutation l l' -> separate l -> separate l'.
Proof.
  intros l l' P (A & B & C & D & E). unfold separate, definitions, init_count, update_count in *. repeat split.
  - intros x. rewrite <- (sum_perm (stmt_count x) _ _ P). apply A.
  - intros r. rewrite count_sum, <- (sum_perm _ _ _ P), <- count_sum. apply B.
  - intros r. rewrite count_sum, <- (sum_perm _ _ _ P), <- count_sum. apply C.
  - eapply Permutation_NoDup; [|exact D]. apply Permutation_flat_map, Permutation_flat_map. auto.
  - eapply Permutation_NoDup; [|exact E]. apply Permutation_flat_map, Permutation_flat_map. auto.
Qed.

Lemma nodup_nth : forall {A B} (f : A -> list B) l, NoDup (flat_map f l) ->
  forall i j a b x, i < j -> nth_error l i = Some a -> nth_error l j = Some b -> In x (f a) -> In x (f b) -> False.
Proof.
  induction l as [|y l IH]; intros N i j a b x L X Y Ia Ib; [destruct i; discriminate|].
  simpl in N. destruct j; [lia|]. simpl in Y. destruct i as [|i]; simpl in X.
  - inversion X; subst. assert (J : In x (flat_map f l)) by (apply in_flat_map; exists b; split; auto; eapply nth_error_In; eauto).
    clear - N Ia J. induction (f a) as [|z m IH]; [destruct Ia|]. simpl in N. inversion N; subst. destruct Ia as [->|Ia]; auto.
    apply H1. apply in_app_iff. auto.
  - apply (IH) with (i := i) (j := j) (a := a) (b := b) (x := x); auto; [|lia].
    clear - N. induction (f y); simpl in N; auto. inversion N; auto.
Qed.

Lemma flat_flat : forall {A B C} (f : B -> list C) (g : A -> list B) l, flat_map f (flat_map g l) = flat_map (fun a => flat_map f (g a)) l.
Proof. induction l as [|a l IH]; simpl; auto. rewrite flat_map_app, IH. auto. Qed.

Lemma in_e_uses : forall c e, In c (e_uses e) ->
  match c with
  | CVar x => reads_now x e | CCur r => fetches r e | CSub i => In i (calls_of e) | CFlip i => In i (flips_of e) | _ => False
  end.
Proof.
  intros c e I. unfold e_uses in I. rewrite !in_app_iff, !in_map_iff in I.
  destruct I as [(x & <- & I)|[(x & <- & I)|[(x & <- & I)|(x & <- & I)]]]; auto using now_vars_reads, now_regs_fetches.
Qed.

Lemma in_e_writes : forall c e, In c (e_writes e) ->
  match c with CSub i => In i (calls_of e) | CFlip i => In i (flips_of e) | _ => False end.
Proof.
  intros c e I. unfold e_writes in I. rewrite !in_app_iff, !in_map_iff in I.
  destruct I as [(x & <- & I)|(x & <- & I)]; auto.
Qed.

Lemma in_writes : forall c s, In c (writes s) ->
  match c with
  | CVar x => stmt_count x s <> 0
  | CCur r => exists v k, s = SInit r v k
  | CNext r => exists e, s = SUpdate r e
  | CShape _ => False
  | CSub i => In i (flat_map calls_of (computed s))
  | CFlip i => In i (flat_map flips_of (computed s))
  end.
Proof.
  intros c s I. unfold writes in I. apply in_app_iff in I. destruct I as [I|I].
  - apply in_flat_map in I. destruct I as (e & I & J). apply in_e_writes in J. destruct c; try tauto; apply in_flat_map; eauto.
  - destruct s; simpl in I; try tauto.
    + apply in_map_iff in I. destruct I as (x & <- & I). simpl. rewrite target_count_vars. apply (count_occ_In string_dec) in I. lia.
    + destruct I as [<-|[]]. eauto.
    + destruct I as [<-|[]]. eauto.
Qed.

Lemma in_uses : forall c s, In c (uses s) ->
  match c with
  | CVar x => exists e, In e (computed s) /\ reads_now x e
  | CCur r => (exists e, In e (computed s) /\ fetches r e) \/ exists v k, s = SInit r v k
  | CNext r => exists e, s = SUpdate r e
  | CShape _ => True
  | CSub i => In i (flat_map calls_of (computed s))
  | CFlip i => In i (flat_map flips_of (computed s))
  end.
Proof.
  intros c s I. unfold uses in I. apply in_app_iff in I. destruct I as [I|I].
  - apply in_flat_map in I. destruct I as (e & I & J). apply in_e_uses in J. destruct c; eauto; try tauto; apply in_flat_map; eauto.
  - destruct s; simpl in I; try tauto.
    + destruct I as [<-|[]]. eauto.
    + destruct I as [<-|[<-|[]]]; eauto.
Qed.

Lemma ordered_pairs : forall l, well_ordered l -> separate l -> ForallOrdPairs (fun a b => apart a b /\ disjoint a b) l.
Proof.
  intros l W (S1 & S2 & S3 & S4 & S5). rewrite flat_flat in S4, S5. apply fop_nth. intros i j a b L Ea Eb.
  assert (Ini : forall r v k v' k', a = SInit r v k -> b = SInit r v' k' -> False).
  { intros r v k v' k' -> ->. specialize (S2 r). unfold init_count in S2. rewrite count_sum in S2.
    eapply (sum_nth _ _ S2 i j _ _ L Ea Eb); rewrite Nat.eqb_refl; auto. }
  assert (Upd : forall r v v', a = SUpdate r v -> b = SUpdate r v' -> False).
  { intros r v v' -> ->. specialize (S3 r). unfold update_count in S3. rewrite count_sum in S3.
    eapply (sum_nth _ _ S3 i j _ _ L Ea Eb); rewrite Nat.eqb_refl; auto. }
  split; intros c I J; apply in_writes in J.
  - apply in_uses in I. destruct c; try tauto.
    + destruct I as (e & I & R). destruct (W _ _ _ Ea I) as [A _]. specialize (A _ R _ _ Eb J). lia.
    + destruct J as (v & k & ->). destruct I as [(e & I & R)|(v' & k' & ->)]; [|eauto].
      destruct (W _ _ _ Ea I) as [_ A]. specialize (A _ R _ _ _ Eb). lia.
    + destruct I as (e & ->), J as (e' & ->). eauto.
    + eapply (nodup_nth _ _ S4 i j); eauto.
    + eapply (nodup_nth _ _ S5 i j); eauto.
  - apply in_writes in I. destruct c; try tauto.
    + eapply (sum_nth _ _ (S1 x) i j); eauto.
    + destruct I as (v & k & ->), J as (v' & k' & ->). eauto.
    + destruct I as (e & ->), J as (e' & ->). eauto.
    + eapply (nodup_nth _ _ S4 i j); eauto.
    + eapply (nodup_nth _ _ S5 i j); eauto.
Qed.

Lemma fop_impl : forall {A} (R S : A -> A -> Prop) l, (forall a b, R a b -> S a b) -> ForallOrdPairs R l -> ForallOrdPairs S l.
Proof. intros A R S l H. induction 1; constructor; auto. apply (Forall_impl _ (H a)). auto. Qed.

(** ** Nodes *)
Lemma equiv_ext : forall s t, equiv s t ->
  ss_regs s = ss_regs t /\ ss_es s = ss_es t /\ forall x, lookup x (ss_store s) = lookup x (ss_store t).
Proof.
  intros [st regs [fl su]] [st' regs' [fl' su']] Q.
  assert (G : forall {A} (l l' : list A), (forall i, nth_error l i = nth_error l' i) -> l = l').
  { clear. induction l as [|a l IH]; intros [|b l'] H; auto.
    - specialize (H 0); discriminate.
    - specialize (H 0); discriminate.
    - f_equal; [specialize (H 0); simpl in H; congruence|]. apply IH. intros i. apply (H (S i)). }
  simpl. split; [|split].
  - apply G. intros i. pose proof (Q (CCur i)) as A. pose proof (Q (CNext i)) as B. simpl in A, B.
    destruct (nth_error regs i) as [[]|], (nth_error regs' i) as [[]|]; simpl in *; congruence.
  - f_equal; apply G; intros i; [apply (Q (CFlip i))|apply (Q (CSub i))].
  - intros x. apply (Q (CVar x)).
Qed.

Lemma update_vars_ext : forall st st', (forall x, lookup x st = lookup x st') -> forall l hs, update_vars st hs l = update_vars st' hs l.
Proof.
  intros st st' H. induction l as [|x l IH]; intros hs; simpl; auto. unfold update_var. rewrite H.
  destruct (v_depth x =? 0); [simpl; auto|]. destruct (lookup (v_name x) st'); simpl; auto.
Qed.

Lemma read_outputs_ext : forall st st', (forall x, lookup x st = lookup x st') -> forall l, read_outputs l st = read_outputs l st'.
Proof.
  intros st st' H l. unfold read_outputs. f_equal. induction l as [|x l IH]; simpl; auto.
  unfold var_value at 1 3. rewrite H. destruct (lookup (v_name x) st'); simpl; auto. rewrite IH. auto.
Qed.

Lemma node_step_perm : forall mode glob call nilout a b, permuted_node a b ->
  forall i v r, node_step mode glob call nilout a i v = Ok r -> node_step mode glob call nilout b i v = Ok r.
Proof.
  intros mode glob call nilout a b (E1 & E2 & E3 & E4 & E5 & E6 & E7 & P & S & W & W') i v r H.
  unfold node_step, all_vars in *. rewrite <- E2, <- E3, <- E4. destruct (first_is_nil v); auto.
  destruct i as [clk hists regs flips subs]. apply bind_ok in H. destruct H as (st & Eb & H). rewrite Eb. cbn [bind].
  apply bind_ok in H. destruct H as (ss & Ee & H).
  destruct (execs_perm mode glob clk hists call nilout _ _ P (ordered_pairs _ W S)
              (fop_impl _ _ _ (fun _ _ => @proj1 _ _) (ordered_pairs _ W' (separate_perm _ _ P S))) _ _ Ee) as (tt & Et & Q).
  rewrite Et. cbn [bind]. apply equiv_ext in Q. destruct ss as [st1 regs1 es1], tt as [st2 regs2 es2]. simpl in Q. destruct Q as (<- & <- & Q).
  rewrite <- (update_vars_ext _ _ Q), <- (read_outputs_ext _ _ Q). auto.
Qed.

Lemma permuted_sym : forall a b, permuted_node a b -> permuted_node b a.
Proof.
  intros a b (E1 & E2 & E3 & E4 & E5 & E6 & E7 & P & S & W & W').
  do 7 (split; [symmetry; assumption|]). split; [apply Permutation_sym; auto|].
  split; [apply (separate_perm _ _ P S)|]. split; auto.
Qed.

(** ** Programs *)
Section CallMono.
  Variable mode : ovf.
  Variable glob : ident -> option scalar.
  Variable clk : nat.
  Variable hists : list (ident * hist).
  Variables call call' : nat -> inst -> val -> res (val * inst).
  Variables nilout nilout' : nat -> res val.
  Hypothesis Hc : forall id i v r, call id i v = Ok r -> call' id i v = Ok r.
  Hypothesis Hn : forall id r, nilout id = Ok r -> nilout' id = Ok r.

  Lemma eval_call_mono : forall regs st e s r, eval mode glob clk hists call nilout regs st e s = Ok r ->
    eval mode glob clk hists call' nilout' regs st e s = Ok r.
  Proof.
    intros regs st. induction e using expr_ind'; intros s r E; auto.
    - rewrite eval_tuple in *. apply bind_ok in E. destruct E as ((vs, s') & E & F).
      assert (G : evals mode glob clk hists call' nilout' regs st l s = Ok (vs, s')).
      { clear F r. revert s vs s' E. induction H as [|e l He H IH]; intros s vs s' E; simpl in *; auto. inv_ok.
        rewrite (He _ _ E0). cbn [bind]. erewrite IH by eauto. auto. }
      rewrite G. auto.
    - simpl in *. auto.
    - simpl in *. auto.
    - simpl in *. inv_ok. rewrite (IHe1 _ _ E0). cbn [bind]. rewrite (IHe2 _ _ E1). cbn [bind]. rewrite E2. auto.
    - simpl in *. inv_ok. rewrite (IHe _ _ E0). cbn [bind]. rewrite E1. auto.
    - simpl in *. inv_ok. rewrite (IHe1 _ _ E0). cbn [bind]. rewrite (IHe2 _ _ E1). cbn [bind]. rewrite E2. auto.
    - simpl in *. inv_ok. rewrite (IHe2 _ _ E0). cbn [bind]. rewrite (IHe1 _ _ E1). cbn [bind]. rewrite E2. auto.
    - simpl in *. inv_ok. rewrite (IHe2 _ _ E0). cbn [bind]. destruct (d <? clk); auto.
    - simpl in *. inv_ok. rewrite (IHe1 _ _ E0). cbn [bind]. rewrite (IHe2 _ _ E1). cbn [bind].
      match goal with H : nth_error _ _ = Some _ |- _ => rewrite H end. cbn [of_option bind].
      match goal with H : flip_instant _ _ _ = _ |- _ => rewrite H end. auto.
    - simpl in *. inv_ok. rewrite (IHe2 _ _ E0). cbn [bind]. rewrite (IHe3 _ _ E1). cbn [bind]. rewrite (IHe1 _ _ E2). cbn [bind]. rewrite E3. auto.
    - simpl in *. inv_ok. rewrite (IHe1 _ _ E0). cbn [bind]. rewrite (IHe2 _ _ E1). cbn [bind]. rewrite (IHe3 _ _ E2). cbn [bind].
      rewrite (IHe1 _ _ E3). cbn [bind]. rewrite E4. auto.
    - simpl in *. destruct (d <=? clk); inv_ok; [|rewrite (Hn _ _ E0); auto]. rewrite (IHe _ _ E0). cbn [bind].
      match goal with H : nth_error _ _ = Some _ |- _ => rewrite H end. cbn [of_option bind].
      match goal with H : call _ _ _ = Ok _ |- _ => rewrite (Hc _ _ _ _ H) end. auto.
  Qed.

  Lemma execs_call_mono : forall l ss r, execs mode glob clk hists call nilout l ss = Ok r ->
    execs mode glob clk hists call' nilout' l ss = Ok r.
  Proof.
    induction l as [|s l IH]; intros ss r E; simpl in *; auto. apply bind_ok in E. destruct E as (s1 & E & F).
    assert (G : exec mode glob clk hists call' nilout' s ss = Ok s1); [|rewrite G; apply IH; auto].
    destruct ss as [st regs es]. destruct s as [t e|e|id v [k|]|id e]; cbn [exec of_option bind] in *; try discriminate; inv_ok;
      repeat (match goal with
       | H : eval _ _ _ _ call _ _ _ ?e ?s = Ok _ |- context [eval _ _ _ _ call' _ _ _ ?e ?s] => rewrite (eval_call_mono _ _ _ _ _ H)
       | H : ?x = Ok _ |- context [?x] => rewrite H
       | H : ?x = Some _ |- context [?x] => rewrite H
       end; cbn [bind of_option]); auto.
    destruct v as [e'|]; inv_ok; auto. rewrite (eval_call_mono _ _ _ _ _ E4). auto.
  Qed.
End CallMono.

Lemma node_step_mono : forall mode glob call call' nilout nilout' nd,
  (forall id i v r, call id i v = Ok r -> call' id i v = Ok r) -> (forall id r, nilout id = Ok r -> nilout' id = Ok r) ->
  forall i v r, node_step mode glob call nilout nd i v = Ok r -> node_step mode glob call' nilout' nd i v = Ok r.
Proof.
  intros mode glob call call' nilout nilout' nd H Hn i v r E. unfold node_step in *. destruct (first_is_nil v); auto.
  destruct i. apply bind_ok in E. destruct E as (st & Eb & E). rewrite Eb. cbn [bind].
  apply bind_ok in E. destruct E as (ss & Ee & E). rewrite (execs_call_mono _ _ _ _ _ _ _ _ H Hn _ _ _ Ee). auto.
Qed.

Lemma find_node_perm : forall P P', Forall2 permuted_node P P' -> forall f, nil_outputs P f = nil_outputs P' f.
Proof.
  unfold nil_outputs. induction 1 as [|a b P P' R F IH]; intros f; simpl; auto.
  destruct R as (E1 & _ & E3 & _). rewrite E1. destruct (String.eqb f (n_name b)); auto. simpl. rewrite E3. auto.
Qed.

Theorem step_perm : forall mode glob P P', Forall2 permuted_node P P' ->
  forall f i v r, step mode glob P f i v = Ok r -> step mode glob P' f i v = Ok r.
Proof.
  intros mode glob. induction 1 as [|a b P P' R F IH]; intros f i v r E; simpl in *; auto.
  pose proof R as (E1 & _ & _ & _ & E5 & _). rewrite <- E1. destruct (String.eqb f (n_name a)); [|auto].
  apply (node_step_perm _ _ _ _ _ _ R). rewrite <- E5.
  eapply node_step_mono; [| |exact E].
  - intros id i' v' r' X. cbv beta in *. destruct (nth_error (n_blocks a) id); auto.
  - intros id r'. cbv beta. destruct (nth_error (n_blocks a) id); cbn [of_option bind]; auto. intros X. rewrite <- X. symmetry. apply (find_node_perm _ _ F).
Qed.

Lemma run_perm : forall mode glob P P', Forall2 permuted_node P P' ->
  forall f ins i r, run mode glob P f i ins = Ok r -> run mode glob P' f i ins = Ok r.
Proof.
  intros mode glob P P' F f. induction ins as [|v ins IH]; intros i r E; simpl in *; auto. inv_ok.
  rewrite (step_perm _ _ _ _ F _ _ _ _ E0). cbn [bind]. rewrite (IH _ _ E1). auto.
Qed.

Lemma init_perm : forall P P', Forall2 permuted_node P P' -> forall f, init_inst P f = init_inst P' f.
Proof.
  induction 1 as [|a b P P' R F IH]; intros f; simpl; auto.
  destruct R as (E1 & E2 & E3 & E4 & E5 & E6 & E7 & _). unfold init_hists, all_vars. rewrite E1, E2, E3, E4, E5, E6, E7.
  destruct (String.eqb f (n_name b)); auto.
  assert (G : mapM (init_inst P) (n_blocks b) = mapM (init_inst P') (n_blocks b)).
  { clear E5. induction (n_blocks b) as [|g l IHl]; simpl; auto. rewrite IH, IHl. auto. }
  rewrite G. auto.
Qed.

Theorem run_perm_iff : forall mode glob P P', Forall2 permuted_node P P' ->
  forall f ins i r, run mode glob P f i ins = Ok r <-> run mode glob P' f i ins = Ok r.
Proof.
  intros mode glob P P' F f ins i r. split; apply run_perm; auto.
  clear - F. induction F; constructor; auto using permuted_sym.
Qed.
