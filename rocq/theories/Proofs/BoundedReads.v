(** Reads of variables, of past values and of constants always succeed in
    accepted programs, whatever the inputs and the modes of the nodes. *)
From Coq Require Import String List ZArith Bool Arith Lia Permutation.
From Verif Require Import Model.Base Model.Scalar Model.Value Model.History Model.Register Model.Ast Model.Errors Model.Interp Model.Options Model.Surface Model.Translate
  Model.Graph Model.Causality Model.Typecheck Model.Clockcheck Model.Positivity Model.Pipeline Model.Names
  Spec.RuntimeSpec Spec.StepSpec Spec.CausalitySpec Spec.CoreSem Spec.OrderSpec Spec.TypeSpec Spec.TranslateSpec Spec.DepthSpec Spec.ProgramSem Spec.SafetySpec Spec.ClockSpec
  Proofs.AstInd Proofs.OutBasics Proofs.InterpBasics Proofs.RuntimeProofs Proofs.CoreProofs Proofs.CoreNode Proofs.CausalityProofs Proofs.TranslateStruct Proofs.NodeWf Proofs.PipelineProofs
  Proofs.TypeEval Proofs.TypeExec Proofs.TypeProg Proofs.TypeInfer Proofs.Depths Proofs.TypeNode Proofs.TypePipeline Proofs.DepthPipeline Proofs.Names Proofs.UniversalOrder.
Import ListNotations.

(** No read fails. *)
Definition fine {A} (r : res A) (Q : A -> Prop) : Prop :=
  match r with Ok a => Q a | Panic e => e <> PPast /\ e <> PUnbound end.

Lemma fine_bind : forall {A B} (x : res A) (f : A -> res B) P Q,
  fine x P -> (forall a, P a -> fine (f a) Q) -> fine (bind x f) Q.
Proof. intros A B [a|p] f P Q H K; simpl in *; auto. Qed.
Lemma fine_weaken : forall {A} (x : res A) (P Q : A -> Prop), fine x P -> (forall a, P a -> Q a) -> fine x Q.
Proof. intros A [a|p] P Q; simpl; auto. Qed.
Lemma fine_option : forall {A} (o : option A) (Q : A -> Prop), (forall a, o = Some a -> Q a) -> fine (of_option PType o) Q.
Proof. intros A [a|] Q H; cbn; auto. split; discriminate. Qed.

Ltac fine_cases := repeat (cbn; match goal with |- context [match ?x with _ => _ end] => destruct x end); cbn; auto; split; discriminate.

Lemma scalar_bin_fine : forall m op a b, fine (scalar_bin m op a b) (fun _ => True).
Proof.
  intros m op a b. assert (Z : forall z, fine (i64_result m z) (fun _ => True)).
  { intros z. unfold i64_result. destruct (in_i64 z); [cbn; auto|]. destruct m; cbn; auto. split; discriminate. }
  destruct a, b; try (cbn; split; discriminate); destruct op; cbn [scalar_bin]; auto; try (cbn; auto; fail); try (cbn; split; discriminate).
  - unfold i64_div. destruct (_ =? _)%Z; [cbn; split; discriminate|]. destruct (_ && _); cbn; auto. split; discriminate.
  - unfold i64_rem. destruct (_ =? _)%Z; [cbn; split; discriminate|]. destruct (_ && _); cbn; auto. split; discriminate.
Qed.
Lemma scalar_un_fine : forall m op a, fine (scalar_un m op a) (fun _ => True).
Proof.
  intros m op a. destruct op, a; cbn; auto; try (split; discriminate).
  unfold i64_result. destruct (in_i64 _); [cbn; auto|]. destruct m; cbn; auto. split; discriminate.
Qed.
Lemma as_scalar_fine : forall v, fine (as_scalar v) (fun _ => True).
Proof. intros [|]; cbn; auto. split; discriminate. Qed.
Lemma as_bool_fine : forall v, fine (as_bool v) (fun _ => True).
Proof. intros [[]|]; cbn; auto; split; discriminate. Qed.
Lemma val_bin_fine : forall m op a b, fine (val_bin m op a b) (fun _ => True).
Proof.
  intros. unfold val_bin. eapply fine_bind; [apply as_scalar_fine|intros x _]. eapply fine_bind; [apply as_scalar_fine|intros y _].
  eapply (fine_bind _ _ (fun _ => True)); [|cbn; auto]. destruct x, y; cbn [nil_bin]; try (cbn; auto; fail).
  eapply fine_bind; [apply scalar_bin_fine|cbn; auto].
Qed.
Lemma val_un_fine : forall m op a, fine (val_un m op a) (fun _ => True).
Proof.
  intros. unfold val_un. eapply fine_bind; [apply as_scalar_fine|intros x _].
  eapply (fine_bind _ _ (fun _ => True)); [|cbn; auto]. destruct x; cbn [nil_un]; try (cbn; auto; fail).
  eapply fine_bind; [apply scalar_un_fine|cbn; auto].
Qed.
Lemma scalar_eq_fine : forall a b, fine (scalar_eq a b) (fun _ => True).
Proof. intros [] []; cbn; auto; split; discriminate. Qed.
Lemma scalar_cmp_fine : forall a b, fine (scalar_cmp a b) (fun _ => True).
Proof. intros [] []; cbn; auto; split; discriminate. Qed.
Lemma val_cmp_fine : forall op a b, fine (val_cmp op a b) (fun _ => True).
Proof.
  intros. unfold val_cmp. eapply fine_bind; [apply as_scalar_fine|intros x _]. eapply fine_bind; [apply as_scalar_fine|intros y _].
  eapply (fine_bind _ _ (fun _ => True)); [|cbn; auto].
  destruct op; cbn [do_cmp]; unfold cmp_eq, cmp_ord; (eapply (fine_bind _ _ (fun _ => True)); [|cbn; auto]);
    destruct x, y; cbn [nil_cmp nil_eq]; try (cbn; auto; fail); auto using scalar_cmp_fine;
    (eapply fine_bind; [apply scalar_eq_fine|cbn; auto]).
Qed.
Lemma val_when_fine : forall p a b, fine (val_when p a b) (fun _ => True).
Proof.
  intros. unfold val_when. eapply fine_bind; [apply as_scalar_fine|intros x _]. eapply fine_bind; [apply as_bool_fine|cbn; auto].
Qed.
Lemma val_ifx_fine : forall a b c, fine (val_ifx a b c) (fun _ => True).
Proof.
  intros. unfold val_ifx. eapply fine_bind; [apply as_scalar_fine|intros x _]. eapply fine_bind; [apply as_bool_fine|cbn; auto].
Qed.
Lemma val_merge_fine : forall a b c, fine (val_merge a b c) (fun _ => True).
Proof.
  intros. unfold val_merge. eapply fine_bind; [apply as_scalar_fine|intros x _]. eapply fine_bind; [apply as_bool_fine|cbn; auto].
Qed.
Lemma val_truth_fine : forall a, fine (val_truth a) (fun _ => True).
Proof.
  intros. unfold val_truth. eapply fine_bind; [apply as_scalar_fine|intros x _]. eapply fine_bind; [apply as_bool_fine|].
  intros [[|]|] _; cbn; auto; split; discriminate.
Qed.
Lemma with_clock_fine : forall r n, fine (reg_with_clock r n) (fun _ => True).
Proof.
  intros r [s|]; unfold reg_with_clock; cbn [nil_is]; [|cbn; auto]. eapply fine_bind; [apply scalar_eq_fine|cbn; auto].
Qed.

Section Fine.
  Variable mode : ovf.
  Variable glob : ident -> option scalar.
  Variable clk : nat.
  Variable hists : list (ident * hist).
  Variable call : nat -> inst -> val -> res (val * inst).
  Variable nilout : nat -> res val.
  Variable good : nat -> inst -> Prop.
  Hypothesis Hcall : forall id i v, good id i -> fine (call id i v) (fun '(_, i') => good id i').
  Hypothesis Hnil : forall id, fine (nilout id) (fun _ => True).

  Definition goods (s : estate) : Prop := forall id i, nth_error (es_subs s) id = Some i -> good id i.

  Lemma goods_set : forall id i fl s, goods s -> good id i -> goods (mkEs fl (set_nth id i (es_subs s))).
  Proof.
    intros id i fl s G H id' j E. cbn in E. destruct (Nat.eq_dec id' id) as [->|N].
    - destruct (Nat.lt_ge_cases id (length (es_subs s))) as [L|L].
      + rewrite nth_error_set_nth_eq in E by auto. inversion E; subst; auto.
      + assert (X : nth_error (set_nth id i (es_subs s)) id = None) by (apply nth_error_None; rewrite set_nth_length; auto). congruence.
    - rewrite nth_error_set_nth_neq in E by auto. apply G; auto.
  Qed.

  Section Eval.
    Variable regs : list register.
    Variable st : store.
    Definition known_globals (e : expr) : Prop := forall x, In x (expr_globals e) -> glob x <> None.

    Ltac ev H := eapply fine_bind; [apply H; try assumption; red; assumption|intros [? ?] ?].
    Lemma eval_fine : forall e s, Forall (readable hists st) (vars_of e) -> known_globals e -> goods s ->
      fine (eval mode glob clk hists call nilout regs st e s) (fun '(_, s') => goods s').
    Proof.
      intros e. induction e using expr_ind'; intros s R K G;
        unfold known_globals in K; cbn [vars_of expr_globals] in R, K; rewrite ?Forall_app in R;
        repeat match goal with H : _ /\ _ |- _ => destruct H end;
        repeat match type of K with forall x, In x (?a ++ ?b) -> _ =>
          assert (forall x, In x a -> glob x <> None) by (intros; apply K; rewrite in_app_iff; auto);
          assert (K' : forall x, In x b -> glob x <> None) by (intros; apply K; rewrite in_app_iff; auto); clear K; rename K' into K end;
        try rewrite eval_tuple; cbn [eval]; try (cbn; exact G).
      - inversion R as [|? ? Rx _]; subst. destruct d as [|d]; cbn in Rx.
        + destruct Rx as (n & ->). cbn. auto.
        + destruct Rx as (h & -> & L). cbn [of_option bind]. rewrite ago_hlist.
          destruct (nth_error (hlist h) d) eqn:E; [cbn; auto|]. apply nth_error_None in E. lia.
      - specialize (K x (or_introl eq_refl)). destruct (glob x); cbn; auto.
      - eapply (fine_bind _ _ (fun '(_, s') => goods s')); [|intros [? ?] ?; cbn; auto].
        revert s R K G. induction H as [|e l He _ IH]; intros s R K G; cbn [evals]; [cbn; auto|].
        cbn [flat_map] in R, K. rewrite Forall_app in R. destruct R as [R1 R2].
        eapply fine_bind; [eapply He; eauto; red; intros; apply K; rewrite in_app_iff; auto|]. intros [v s1] G1.
        eapply fine_bind; [eapply IH; eauto; intros; apply K; rewrite in_app_iff; auto|]. intros [vs s2] G2. cbn. auto.
      - eauto.
      - eauto.
      - ev IHe1. ev IHe2. eapply fine_bind; [apply val_bin_fine|cbn; auto].
      - ev IHe. eapply fine_bind; [apply val_un_fine|cbn; auto].
      - ev IHe1. ev IHe2. eapply fine_bind; [apply val_cmp_fine|cbn; auto].
      - ev IHe2. ev IHe1. eapply fine_bind; [apply val_when_fine|cbn; auto].
      - ev IHe2. destruct (d <? clk); [cbn; auto|]. eauto.
      - eapply fine_bind; [apply fine_option; intros; exact I|cbn; auto].
      - ev IHe1. ev IHe2. eapply fine_bind; [apply fine_option; intros; exact I|]. intros f _.
        destruct (flip_instant f v v0). cbn. auto.
      - ev IHe2. ev IHe3. ev IHe1. eapply fine_bind; [apply val_ifx_fine|cbn; auto].
      - ev IHe1. ev IHe2. ev IHe3. ev IHe1. eapply fine_bind; [apply val_merge_fine|cbn; auto].
      - destruct (d <=? clk).
        + ev IHe. eapply (fine_bind _ _ (fun i => good id i)); [apply fine_option; intros i E; eauto|]. intros i Gi.
          eapply fine_bind; [apply Hcall; exact Gi|]. intros [w j] Gj. cbn. apply goods_set; auto.
        + eapply fine_bind; [apply Hnil|cbn; auto].
    Qed.
  End Eval.

  (** Statements. *)
  Definition bound_in (bound : list ident) (st : store) : Prop := forall x, In x bound -> exists n, lookup x st = Some n.
  Definition binds_all (t : vartuple) : Prop := forall v st bound, bound_in bound st ->
    fine (bind_target t v st) (bound_in (target_vars t ++ bound)).

  Lemma bound_more : forall a b st, (forall x, In x a -> In x b) -> bound_in b st -> bound_in a st.
  Proof. intros a b st I B x J. auto. Qed.

  Lemma bind_fine : forall t, binds_all t.
  Proof.
    intros t. induction t using vartuple_ind'; intros v st bound B.
    - cbn. destruct v; cbn; [|split; discriminate]. intros y J. cbn. destruct (String.eqb_spec y x); eauto. destruct J as [J|J]; [congruence|eauto].
    - assert (Go : forall l, Forall binds_all l -> forall vs st bound, bound_in bound st ->
        fine ((fix go (l : list vartuple) (vs : list val) (st : store) : res store :=
               match l, vs with
               | [], [] => Ok st
               | t :: l, v :: vs => st <- bind_target t v st;; go l vs st
               | _, _ => Panic PType
               end) l vs st) (bound_in (flat_map target_vars l ++ bound))).
      { clear. induction 1 as [|t l Ht _ IH]; intros [|v vs] st bound B; try (cbn; split; discriminate); [exact B|].
        eapply fine_bind; [apply Ht; exact B|]. intros st' B'. eapply fine_weaken; [apply IH; exact B'|].
        intros st2. apply bound_more. cbn. intros x. rewrite !in_app_iff. tauto. }
      destruct l as [|t [|t' l]]; cbn [bind_target target_vars].
      + exact B.
      + inversion H as [|? ? Ht _]; subst. eapply fine_weaken; [apply Ht; exact B|]. intros st2. apply bound_more.
        cbn. rewrite app_nil_r. auto.
      + destruct v; [cbn; split; discriminate|]. apply (Go _ H _ _ _ B).
  Qed.

  Definition reads_ok (bound : list ident) (s : stmt) : Prop := forall x d, In (x, d) (flat_map vars_of (computed s)) ->
    match d with
    | 0 => In x bound
    | S d => exists h, lookup x hists = Some h /\ d < length (hlist h)
    end.
  Definition stmt_known (s : stmt) : Prop := forall e, In e (computed s) -> known_globals e.

  Lemma reads_readable : forall bound st s e, bound_in bound st -> reads_ok bound s -> In e (computed s) -> Forall (readable hists st) (vars_of e).
  Proof.
    intros bound st s e B R I. apply Forall_forall. intros [x d] J. red. cbn.
    assert (J' : In (x, d) (flat_map vars_of (computed s))) by (apply in_flat_map; eauto).
    specialize (R _ _ J'). destruct d; auto.
  Qed.

  Lemma exec_fine : forall s bound ss, reads_ok bound s -> stmt_known s -> bound_in bound (ss_store ss) -> goods (ss_es ss) ->
    fine (exec mode glob clk hists call nilout s ss) (fun ss' => bound_in (targets s ++ bound) (ss_store ss') /\ goods (ss_es ss')).
  Proof.
    intros s bound [st regs es] R K B G. cbn [ss_store ss_es] in *.
    pose proof (fun e => reads_readable bound st s e B R) as Rd.
    destruct s as [t e|e|id v c|id e]; cbn [exec].
    - eapply fine_bind; [apply eval_fine; eauto; [apply Rd|apply K]; cbn; auto|]. intros [w es'] G'.
      eapply fine_bind; [apply bind_fine; exact B|]. intros st' B'. cbn. auto.
    - eapply fine_bind; [apply eval_fine; eauto; [apply Rd|apply K]; cbn; auto|]. intros [w es'] G'.
      eapply fine_bind; [apply val_truth_fine|]. intros _ _. cbn. auto.
    - eapply (fine_bind _ _ (fun c' => c = Some c')); [apply fine_option; auto|]. intros c' ->.
      eapply fine_bind; [apply fine_option; intros; exact I|]. intros r _.
      eapply fine_bind; [apply eval_fine; eauto; [apply Rd|apply K]; cbn; auto|]. intros [w es'] G'.
      eapply fine_bind; [apply as_scalar_fine|]. intros n _. eapply fine_bind; [apply with_clock_fine|]. intros r' _.
      destruct v as [e|]; [|cbn; auto].
      eapply fine_bind; [apply eval_fine; eauto; [apply Rd|apply K]; cbn; auto|]. intros [u es2] G2.
      destruct (same_shapeb _ _); cbn; auto. split; discriminate.
    - eapply fine_bind; [apply fine_option; intros; exact I|]. intros r _.
      eapply fine_bind; [apply eval_fine; eauto; [apply Rd|apply K]; cbn; auto|]. intros [w es'] G'.
      destruct (same_shapeb _ _); cbn; auto. split; discriminate.
  Qed.

  Fixpoint reads_in_order (bound : list ident) (l : list stmt) : Prop :=
    match l with [] => True | s :: l => reads_ok bound s /\ reads_in_order (targets s ++ bound) l end.

  Lemma execs_fine : forall l bound ss, reads_in_order bound l -> Forall stmt_known l -> bound_in bound (ss_store ss) -> goods (ss_es ss) ->
    fine (execs mode glob clk hists call nilout l ss)
      (fun ss' => bound_in (flat_map targets l ++ bound) (ss_store ss') /\ goods (ss_es ss')).
  Proof.
    induction l as [|s l IH]; intros bound ss O K B G; cbn [execs flat_map].
    - cbn. auto.
    - destruct O as [O1 O2]. inversion K; subst. eapply fine_bind; [eapply exec_fine; eauto|]. intros ss' [B' G'].
      eapply fine_weaken; [eapply IH; eauto|]. intros ss2 [B2 G2]. split; auto. eapply bound_more; [|exact B2].
      intros x. rewrite !in_app_iff. tauto.
  Qed.
End Fine.

(** ** Nodes and programs *)
Record reading_node (glob : ident -> option scalar) (nd : node) : Prop := mkRn {
  rn_now : now_ordered (map v_name (n_inputs nd)) (n_stmts nd);
  rn_past : forall s x d, In s (n_stmts nd) -> In (x, S d) (flat_map vars_of (computed s)) ->
    exists v, In v (all_vars nd) /\ v_name v = x /\ S d <= v_depth v;
  rn_names : NoDup (map v_name (all_vars nd));
  rn_defs : forall v, In v (n_outputs nd ++ n_locals nd) -> In (v_name v) (flat_map targets (n_stmts nd));
  rn_globals : Forall (stmt_known glob) (n_stmts nd)
}.

Definition sized_hists (nd : node) (hists : list (ident * hist)) : Prop :=
  forall v d, In v (all_vars nd) -> v_depth v = S d -> exists h, lookup (v_name v) hists = Some h /\ length (hlist h) = S d.

Fixpoint sized (p : prog) (f : ident) (i : inst) : Prop :=
  match p with
  | [] => True
  | nd :: p =>
      if String.eqb f (n_name nd) then
        sized_hists nd (i_hists i) /\
        forall id g sub, nth_error (n_blocks nd) id = Some g -> nth_error (i_subs i) id = Some sub -> sized p g sub
      else sized p f i
  end.

Section Steps.
  Variable mode : ovf.
  Variable glob : ident -> option scalar.

  Lemma step_fine : forall p, Forall (reading_node glob) p -> forall f i v, sized p f i ->
    fine (step mode glob p f i v) (fun '(_, i') => sized p f i').
  Proof.
    induction p as [|nd p IH]; intros F f i v I; cbn [step]; [cbn; split; discriminate|].
    inversion F as [|? ? [W1 W2 W3 W4 W5] F']; subst. specialize (IH F'). cbn [sized] in I |- *. destruct (String.eqb f (n_name nd)) eqn:E; [|auto].
    destruct I as [Hs Sb]. unfold node_step. destruct (first_is_nil v); [cbn; auto|].
    destruct i as [clk hists regs flips subs]. cbn [i_hists i_subs] in *.
    assert (Bi : fine (bind_inputs (n_inputs nd) v) (bound_in (map v_name (n_inputs nd)))).
    { unfold bind_inputs. destruct (n_inputs nd) as [|a l] eqn:Ei; [cbn; intros x []|]. rewrite <- Ei.
      eapply fine_weaken; [apply (bind_fine _ v [] []); intros x []|]. intros st. apply bound_more. intros x J.
      rewrite app_nil_r. cbn. clear -J. induction (n_inputs nd); cbn in *; auto. destruct J; auto. }
    eapply fine_bind; [exact Bi|]. clear Bi. intros st B.
    assert (Or : reads_in_order hists (map v_name (n_inputs nd)) (n_stmts nd)).
    { revert W1 W2. clear -Hs. generalize (map v_name (n_inputs nd)). induction (n_stmts nd) as [|s l IHl]; intros bound O Pa; cbn; auto.
      destruct O as [O1 O2]. split; [|apply IHl; auto; intros s0 x d J K; apply (Pa s0 x d); cbn; auto].
      intros x [|d] J; [apply O1; auto|]. destruct (Pa s x d) as (w & Jw & E & Le); [cbn; auto|auto|].
      destruct (v_depth w) as [|dw] eqn:Ed; [lia|]. destruct (Hs _ _ Jw Ed) as (h & L & Lh). exists h. subst. split; auto. lia. }
    eapply fine_bind.
    { eapply (execs_fine mode glob clk hists _ _ (fun id i => forall g, nth_error (n_blocks nd) id = Some g -> sized p g i)); [| |exact Or|exact W5|exact B|].
      - intros id i w Gi. cbn beta. destruct (nth_error (n_blocks nd) id) as [g|] eqn:Eg; [|cbn; split; discriminate].
        eapply fine_weaken; [apply IH; auto|]. intros [o i'] S' g' Eg'. congruence.
      - intros id. eapply fine_bind; [apply fine_option; intros; exact I|]. intros g _. unfold nil_outputs.
        eapply fine_bind; [apply fine_option; intros; exact I|]. intros [a b] _. cbn. auto.
      - intros id sub Es g Eg. cbn in Es. eauto. }
    intros [st' regs' [flips' subs']] [B' G']. cbn [ss_store ss_es] in *.
    assert (All : forall x, In x (all_vars nd) -> exists n, lookup (v_name x) st' = Some n).
    { intros x J. apply B'. apply in_app_iff. unfold all_vars in J. apply in_app_or in J. destruct J as [J|J]; [right; apply in_map; auto|left; auto]. }
    destruct (update_vars_safe st' (all_vars nd) hists All) as (hists' & -> & Gr). cbn [bind].
    assert (Ro : forall l, (forall x, In x l -> In x (all_vars nd)) -> exists vs, mapM (var_value st') l = Ok vs).
    { clear -All. induction l as [|x l IHl]; intros Sub; [exists []; cbn; auto|].
      destruct IHl as (ns & E); [intros; apply Sub; cbn; auto|]. destruct (All x) as (n & L); [apply Sub; cbn; auto|].
      exists (VS n :: ns). cbn [mapM]. unfold var_value at 1. rewrite L. cbn [of_option bind]. rewrite E. auto. }
    destruct (Ro (n_outputs nd)) as (vs & Eo); [intros x J; unfold all_vars; rewrite !in_app_iff; auto|].
    unfold read_outputs. rewrite Eo. cbn [bind fine i_hists i_subs]. split.
    - intros w d J Ed. destruct (Hs _ _ J Ed) as (h & L & Lh). specialize (Gr (v_name w)). rewrite L in Gr.
      destruct (lookup (v_name w) hists') as [h'|]; [|tauto]. exists h'. split; auto. destruct Gr. congruence.
    - intros id g sub Eg Es. eapply G'; eauto.
  Qed.

  Lemma run_fine : forall p, Forall (reading_node glob) p -> forall f ins i, sized p f i ->
    fine (run mode glob p f i ins) (fun '(_, i') => sized p f i').
  Proof.
    intros p F f. induction ins as [|v ins IH]; intros i I; cbn [run]; [cbn; auto|].
    eapply fine_bind; [apply step_fine; auto|]. intros [o i'] S'. eapply fine_bind; [apply IH; exact S'|]. intros [os i2] S2. cbn. auto.
  Qed.

  Lemma mapM_in : forall {A B} (f : A -> res B) l l', mapM f l = Ok l' -> Forall2 (fun a b => f a = Ok b) l l'.
  Proof.
    induction l as [|a l IH]; intros l' H; cbn in H; [inversion H; constructor|].
    destruct (f a) eqn:E; cbn in H; [|discriminate]. destruct (mapM f l) eqn:E'; cbn in H; [|discriminate]. inversion H; subst. constructor; auto.
  Qed.

  Lemma init_sized : forall p, Forall (reading_node glob) p -> forall f i, init_inst p f = Ok i -> sized p f i.
  Proof.
    induction p as [|nd p IH]; intros F f i H; cbn [init_inst sized] in *; auto. inversion F as [|? ? [_ _ W3 _ _] F']; subst. specialize (IH F').
    destruct (String.eqb f (n_name nd)); auto. destruct (mapM _ (n_regs nd)) as [regs|] eqn:Er; cbn [bind] in H; [|discriminate].
    destruct (mapM (init_inst p) (n_blocks nd)) as [subs|] eqn:Es; cbn [bind] in H; [|discriminate]. inversion H; subst. cbn [i_hists i_subs]. split.
    - unfold sized_hists, init_hists. revert W3. generalize (all_vars nd). clear. induction l as [|w l IHl]; intros N v d J Ed; [destruct J|].
      inversion N; subst. cbn [flat_map]. destruct J as [->|J].
      + rewrite Ed. cbn. rewrite String.eqb_refl. eexists. split; eauto. rewrite hlist_empty, repeat_length. auto.
      + destruct (IHl H2 v d J Ed) as (h & L & Lh). exists h. split; auto. destruct (v_depth w); auto. cbn.
        destruct (String.eqb_spec (v_name v) (v_name w)) as [E'|]; auto. exfalso. apply H1. rewrite <- E'. apply in_map; auto.
    - intros id g sub Eg Esub. apply mapM_in in Es. destruct (forall2_nth_l _ _ _ Es _ _ Eg) as (j & Ej & Hj). 
      rewrite Ej in Esub. inversion Esub; subst. eauto.
  Qed.
End Steps.

(** ** Accepted nodes *)
Lemma forge_occurs : forall k x d, occurs (EVar x d) (forge_as_expr k) -> d = 0 /\ (k = KOn x \/ k = KOff x).
Proof.
  intros k x d H. destruct k; cbn in H; inversion H as [|? c I O]; subst; auto; cbn in I; try (destruct I; fail).
  destruct I as [<-|[]]. inversion O as [|? c I' O']; subst; auto. destruct I'.
Qed.

Section Declared.
  Variable local : list (ident * clock).
  Hypothesis Hl : forall y p z, lookup y local = Some (CExplicit p z) -> lookup z local <> None.

  Lemma join_cases : forall a b k, join a b = k -> k = a \/ k = b.
  Proof. intros [| |x|x] b k <-; cbn; auto. Qed.

  Lemma kof_declared : forall e, kok local e -> forall x, kof local e = KOn x \/ kof local e = KOff x -> lookup x local <> None.
  Proof.
    intros e. induction e using expr_ind'; intros K y D; cbn [kof kok] in *; try (destruct D; discriminate); eauto;
      repeat match goal with H : _ /\ _ |- _ => destruct H end; eauto.
    - unfold kvar in D. destruct (lookup x local) as [[[|] z| |]|] eqn:L; cbn in D; destruct D as [D|D]; inversion D; subst; eauto.
    - destruct l as [|e l]; [destruct D; discriminate|]. inversion H as [|? ? He _]; subst. cbn in H0. destruct H0. eauto.
    - destruct D as [D|D]; apply join_cases in D; destruct D as [D|D]; symmetry in D; eauto.
    - destruct D as [D|D]; apply join_cases in D; destruct D as [D|D]; symmetry in D; eauto.
    - match goal with H : exists _ _, _ |- _ => destruct H as (z & d & ->) end.
      match goal with H : kok local (EVar _ _) |- _ => cbn in H end.
      match type of D with context [if ?p then _ else _] => destruct p end; destruct D as [D|D]; inversion D; subst; auto.
    - destruct D as [D|D]; apply join_cases in D; destruct D as [D|D]; symmetry in D; eauto;
        apply join_cases in D; destruct D as [D|D]; symmetry in D; eauto.
  Qed.
End Declared.

Lemma lookup_rev_names : forall l x, lookup x (rev (map (fun v => (v_name v, v_clk v)) l)) <> None <-> In x (map v_name l).
Proof.
  intros l x. split.
  - intros H. destruct (lookup x (rev (map (fun v => (v_name v, v_clk v)) l))) eqn:L; [|congruence]. apply lookup_rev_vars in L.
    destruct L as (v & I & <- & _). apply in_map. auto.
  - intros I. apply in_map_iff in I. destruct I as (v & <- & I).
    assert (J : In (v_name v, v_clk v) (rev (map (fun v => (v_name v, v_clk v)) l))) by (rewrite <- in_rev; apply (in_map (fun v => (v_name v, v_clk v))); auto).
    revert J. generalize (rev (map (fun v => (v_name v, v_clk v)) l)). clear. induction l as [|[y c] l IH]; intros J; [destruct J|].
    cbn. destruct (String.eqb_spec (v_name v) y); [discriminate|]. apply IH. destruct J as [J|J]; auto. inversion J; congruence.
Qed.

Section NodeReading.
  Variable glob : ident -> option scalar.
  Variables (o : node_opts) (sn : snode) (nd0 nd1 nd2 nd3 nd : node) (gl : list (ident * base)) (fn : list (ident * fsig)) (gens : list (option (list base))).
  Hypothesis H0 : result (tr_node o sn) = Some nd0.
  Hypothesis H1 : node_causality nd0 = inl nd1.
  Hypothesis H2 : result (tc_node gl fn o nd1) = Some (nd2, gens).
  Hypothesis H3 : result (kc_node nd2) = Some nd3.
  Hypothesis H4 : result (pos_node nd3) = Some nd.
  Hypothesis Pl : o_universal o = true -> plain_clocks sn.
  Hypothesis Hg : forall x, lookup x gl <> None -> glob x <> None.

  Lemma node_reading : reading_node glob nd.
  Proof.
    assert (Cn : compiled_node o sn nd) by (unfold compiled_node; eauto 15).
    pose proof (compiled_ordered _ _ _ Cn Pl) as Wo.
    destruct (node_refs _ _ _ _ _ _ _ _ _ _ H0 H1 H2 H3 H4) as (_ & Nn & _ & Gl).
    destruct (compiled_passed_full _ _ _ Cn) as (nd0' & stmts & Pa & Tr & _). assert (nd0' = nd0) by congruence. subst nd0'. clear Tr.
    pose proof (pa_translated _ _ _ _ _ Pa) as T. pose proof (pa_perm _ _ _ _ _ Pa) as Pm.
    pose proof (pa_clocked _ _ _ _ _ Pa) as Ck. pose proof (pa_kc _ _ _ _ _ Pa) as Kc.
    assert (Nm : map v_name (all_vars nd) = map v_name (all_vars nd0)).
    { unfold all_vars. rewrite !map_app, (pa_inputs _ _ _ _ _ Pa), (pa_outputs _ _ _ _ _ Pa), (pa_locals _ _ _ _ _ Pa). auto. }
    destruct (node_definitions _ _ H1) as [_ Do].
    destruct (node_stmts_perm _ _ H1) as [_ E1].
    assert (Hc : forall v p z, In v (all_vars nd0) -> v_clk v = CExplicit p z -> In z (map v_name (all_vars nd0))).
    { intros v p z I C. rewrite E1 in H2. unfold tc_node in H2. cbn [n_inputs n_outputs n_locals n_stmts n_name n_blocks n_regs n_flips] in H2.
      apply obind_some in H2. destruct H2 as (u1 & X1 & Y2).
      apply obind_some in Y2. destruct Y2 as (u2 & X2 & Y2).
      apply obind_some in Y2. destruct Y2 as ((ok, vars) & X3 & Y2).
      apply obind_some in Y2. destruct Y2 as (u3 & X4 & Y2). destruct ok; [|discriminate].
      apply tc_vars_ok in X3. destruct X3 as (_ & _ & _ & X). destruct (X v p z I C) as [Z|[]]. exact Z. }
    set (local := rev (map (fun v => (v_name v, v_clk v)) (all_vars nd0))) in *.
    assert (Hl : forall y p z, lookup y local = Some (CExplicit p z) -> lookup z local <> None).
    { intros y p z L. apply lookup_rev_vars in L. destruct L as (v & I & _ & C). apply lookup_rev_names. eauto. }
    assert (Src : forall e, In e (flat_map stmt_exprs (filter sourced (n_stmts nd0))) -> kok local e).
    { intros e I. apply in_flat_map in I. destruct I as (s & I & J). apply filter_In in I. destruct I as [I So].
      apply (Permutation_in _ (Permutation_sym Pm)) in I. rewrite Forall_forall in Kc.
      destruct (kc_stmt_expr _ _ _ (Kc _ I) So J) as (x1 & x2 & x3 & X). eapply kc_kok; eauto. }
    (* every variable in a computed expression is declared; with a positive depth it is in the source *)
    assert (Vars : forall s e x d, In s (n_stmts nd) -> In e (computed s) -> occurs (EVar x d) e ->
      In x (map v_name (all_vars nd0)) /\ (d <> 0 -> uses (flat_map stmt_exprs (filter sourced (n_stmts nd0))) x d)).
    { intros s e x d I J Oc.
      assert (Srd : forall e0, In e0 (flat_map stmt_exprs (filter sourced (n_stmts nd0))) -> occurs (EVar x d) e0 ->
        In x (map v_name (all_vars nd0)) /\ (d <> 0 -> uses (flat_map stmt_exprs (filter sourced (n_stmts nd0))) x d)).
      { intros e0 I0 O0. split; [|intros _; exists e0; auto]. apply lookup_rev_names. apply (kok_occurs _ _ _ O0 (Src _ I0)). }
      destruct (forall2_in_r _ _ _ Ck _ I) as (s0 & I0 & Cs). pose proof (Permutation_in _ Pm I0) as I1.
      destruct s as [t e'|e'|id v c|id n].
      - assert (s0 = SLet t e') by (inversion Cs; auto). subst s0. destruct J as [<-|[]]. apply (Srd e'); auto.
        apply in_flat_map. exists (SLet t e'). cbn. rewrite filter_In. auto.
      - assert (s0 = SAssert e') by (inversion Cs; auto). subst s0. destruct J as [<-|[]]. apply (Srd e'); auto.
        apply in_flat_map. exists (SAssert e'). cbn. rewrite filter_In. auto.
      - assert (exists c0, s0 = SInit id v c0) as (c0 & ->) by (inversion Cs; subst; eauto).
        cbn in J. apply in_app_iff in J. destruct J as [J|J].
        + destruct c as [c|]; [|destruct J]. destruct J as [<-|[]].
          destruct (pa_tied _ _ _ _ _ Pa id v c I) as (st & e0 & I2 & S2 & J2 & (i' & n & ks & kk & ks' & On & Kn & ->)).
          destruct (kc_kok _ _ _ _ _ Kn) as [-> Kn']. destruct (forge_occurs _ _ _ Oc) as [-> D].
          split; [|congruence]. apply lookup_rev_names. eapply kof_declared; eauto.
        + destruct v as [v|]; [|destruct J]. destruct J as [<-|[]].
          destruct (td_init_occurs _ _ _ T _ _ _ I1) as (n & e0 & Ie & Oe). apply (Srd e0 Ie).
          eapply occurs_trans; [exact Oc|]. eapply occurs_trans; [|exact Oe]. eapply occ_child; [|constructor]. cbn; auto.
      - assert (s0 = SUpdate id n) by (inversion Cs; auto). subst s0. destruct J as [<-|[]].
        destruct (td_update_occurs _ _ _ T _ _ I1) as (i & e0 & Ie & Oe). apply (Srd e0 Ie).
        eapply occurs_trans; [exact Oc|]. eapply occurs_trans; [|exact Oe]. eapply occ_child; [|constructor]. cbn. apply in_app_iff. cbn; auto. }
    assert (Tg : flat_map targets (n_stmts nd) = flat_map targets stmts).
    { clear -Ck. induction Ck as [|s s' l l' C F IH]; cbn; auto. rewrite IH. inversion C; subst; auto. }
    assert (Def : forall x, In x (map v_name (n_outputs nd0 ++ n_locals nd0)) -> In x (flat_map targets (n_stmts nd))).
    { intros x I. apply in_map_iff in I. destruct I as (v & <- & I). rewrite Tg. apply Do in I. rewrite definitions_count in I.
      assert (J : In (RLocal (v_name v)) (flat_map stmt_provides (n_stmts nd0))) by (apply (count_occ_In ref_dec); lia).
      apply flat_targets in J. eapply Permutation_in; [apply Permutation_sym, (Permutation_flat_map stmt_targets Pm)|exact J]. }
    split.
    - rewrite (pa_inputs _ _ _ _ _ Pa). apply now_ordered_nth. intros k s x E I.
      apply in_flat_map in I. destruct I as (e & I & J). pose proof (nth_error_In _ _ E) as Is.
      destruct (Vars _ _ _ _ Is I (vars_occur _ _ _ J)) as [Iv _]. unfold all_vars in Iv. rewrite map_app, in_app_iff in Iv.
      destruct Iv as [Iv|Iv]; [auto|]. right. apply Def in Iv. apply in_flat_map in Iv. destruct Iv as (s2 & I2 & Tx).
      apply In_nth_error in I2. destruct I2 as (k' & E2). exists k', s2. repeat split; auto.
      apply (proj1 (Wo k s e E I) x (vars_read _ _ J) k' s2 E2).
      destruct s2 as [tg e2|e2|? ? ?|? ?]; cbn [targets] in Tx; try (destruct Tx; fail).
      change (target_count x tg <> 0). rewrite target_count_vars. apply (count_occ_In string_dec) in Tx. lia.
    - intros s x d I J. apply in_flat_map in J. destruct J as (e & J & K). apply vars_occur in K.
      destruct (Vars _ _ _ _ I J K) as [Iv U]. specialize (U ltac:(discriminate)).
      destruct (pos_node_all _ _ H4) as (m & Hm & End).
      assert (Es : n_stmts nd3 = n_stmts nd) by (rewrite End; auto). rewrite Es in Hm.
      apply pos_stmts_deepest in Hm.
      assert (U' : uses (flat_map stmt_exprs (filter sourced (n_stmts nd))) x (S d)).
      { destruct U as (e0 & I0 & O0). exists e0. split; auto. rewrite (clocked_sourced _ _ Ck).
        eapply Permutation_in; [|exact I0]. apply Permutation_flat_map, perm_sourced, Permutation_sym. exact Pm. }
      destruct (dd_new _ _ _ Hm _ _ U') as (n' & L & Le).
      rewrite <- Nm in Iv. apply in_map_iff in Iv. destruct Iv as (v & Nv & Iv). exists v. split; auto. split; auto.
      assert (Ea : all_vars nd = map (set_depth m) (all_vars nd3)) by (rewrite End; unfold all_vars; cbn; rewrite !map_app; auto).
      rewrite Ea in Iv. apply in_map_iff in Iv. destruct Iv as (w & <- & _). cbn in *. rewrite Nv, L. auto.
    - exact Nn.
    - intros v I. apply Def. rewrite map_app, <- (pa_outputs _ _ _ _ _ Pa), <- (pa_locals _ _ _ _ _ Pa), <- map_app. apply in_map. auto.
    - apply Forall_forall. intros s I e J x Ix. apply Hg, Gl. apply in_flat_map. exists s. split; auto.
      destruct s as [t e'|e'|id v c|id n]; cbn in J |- *; try (destruct J as [<-|[]]; auto; fail).
      rewrite in_app_iff in J |- *. destruct J as [J|J]; [left; destruct c as [c|]|right; destruct v as [v|]]; cbn in J; try tauto; destruct J as [J|[]]; subst e; auto.
  Qed.
End NodeReading.

(** ** Accepted programs *)
Lemma program_reading : forall glob p l, result (pipeline p) = Some l ->
  (forall x t, constant p x t -> glob x <> None) ->
  (forall a sn, In (a, XNode sn) p -> In "universal_pre"%string (map a_action a) -> plain_clocks sn) ->
  Forall (reading_node glob) (nodes_of l).
Proof.
  intros glob p l H Hc Hp. apply Forall_forall. intros nd I. apply nodes_of_in in I. destruct I as (o & I).
  destruct (pipeline_typecheck _ _ H) as (l0 & l1 & l1' & l2 & l3 & F0 & F1 & Pm & Cz & F2 & F3 & F4).
  apply tc_decls_checked in F2.
  assert (Or : forall d1, In d1 l1' -> exists d0 a x, In (a, x) p /\ result (tr_attrdecl (a, x)) = Some d0 /\ decl_causality d0 = inl d1).
  { intros d1 I'. apply (Permutation_in _ Pm) in I'. destruct (forall2_in_r _ _ _ F1 _ I') as (d0 & I0 & X0).
    destruct (forall2_in_r _ _ _ F0 _ I0) as ((a, x) & Ia & Ea). eauto 8. }
  destruct (forall2_in_r _ _ _ F4 _ I) as (d3 & I3 & X3). destruct (forall2_in_r _ _ _ F3 _ I3) as (d2 & I2 & X2).
  destruct (forall2_in_r _ _ _ F2 _ I2) as (d1 & I1 & gl & fn & Ck & Kg & _).
  assert (Gl : forall x, lookup x gl <> None -> glob x <> None).
  { intros x L. destruct (Kg x L) as [L'|L']; [cbn in L'; congruence|]. apply in_flat_map in L'. destruct L' as (d & Id & Jd).
    destruct (Or _ Id) as (d0 & a & y & Ia & Ea & Ca). unfold tr_attrdecl in Ea. cbn [fst snd] in Ea.
    apply obind_some in Ea. destruct Ea as (op & W & Ea).
    destruct y as [z t e|sn|z t|z ins outs]; cbn [tr_decl] in Ea; inv_out.
    - match goal with E : context [t_stmts ?q] |- _ => destruct (t_stmts q), (t_blocks q) end; inv_out. cbn [decl_causality] in Ca. inversion Ca; subst d. cbn in Jd. destruct Jd as [Jd|[]].
      inversion Jd; subst. apply (Hc x t). exists a. left. eauto.
    - cbn [decl_causality] in Ca. match goal with E : context [node_causality ?q] |- _ => destruct (node_causality q); [|discriminate] end. inversion Ca; subst d. cbn in Jd. destruct Jd as [Jd|[]]. discriminate.
    - cbn [decl_causality] in Ca. inversion Ca; subst d. cbn in Jd. destruct Jd as [Jd|[]]. inversion Jd; subst. apply (Hc x t). exists a. auto.
    - cbn [decl_causality] in Ca. inversion Ca; subst d. cbn in Jd. destruct Jd as [Jd|[]]. discriminate. }
  destruct d3 as [|o3 nd3| |]; cbn [pos_decl] in X3; inv_out.
  destruct d2 as [|o2 nd2| |]; cbn [kc_decl] in X2; inv_out.
  destruct d1 as [|o1 nd1| |]; cbn [checked] in Ck.
  { destruct Ck as (? & _ & Ck). discriminate. }
  2: discriminate.
  2: { destruct Ck as (? & _ & Ck). discriminate. }
  destruct Ck as (nd2' & gens & Ck & Q). inversion Q; subst; clear Q.
  destruct (Or _ I1) as (d0 & a & x & Ia & Ea & Ca).
  destruct d0 as [|o0 nd0| |]; cbn [decl_causality] in Ca; try discriminate.
  destruct (node_causality nd0) as [nd1'|] eqn:Ec; [|discriminate]. inversion Ca; subst o0 nd1'; clear Ca.
  unfold tr_attrdecl in Ea. cbn [fst snd] in Ea. apply obind_some in Ea. destruct Ea as (op & W & Ea).
  destruct x as [? ? e|sn| |]; cbn [tr_decl] in Ea; inv_out; [destruct (t_stmts t0), (t_blocks t0); inv_out|].
  eapply node_reading; eauto. intros U. apply (Hp a sn Ia).
  match goal with F : result (for_node op) = Some _ |- _ => rewrite (node_opts_universal _ _ _ W F) in U end.
  apply existsb_exists in U. destruct U as (at_ & Iu & Eu). apply String.eqb_eq in Eu. rewrite <- Eu. apply in_map. auto.
Qed.

Theorem program_no_bad_read : forall mode glob p l, result (pipeline p) = Some l ->
  (forall x t, constant p x t -> glob x <> None) ->
  (forall a sn, In (a, XNode sn) p -> In "universal_pre"%string (map a_action a) -> plain_clocks sn) ->
  forall f i ins, init_inst (nodes_of l) f = Ok i ->
  run mode glob (nodes_of l) f i ins <> Panic PPast /\ run mode glob (nodes_of l) f i ins <> Panic PUnbound.
Proof.
  intros mode glob p l H Hc Hp f i ins Ei. pose proof (program_reading _ _ _ H Hc Hp) as F.
  pose proof (run_fine mode glob _ F f ins i (init_sized glob _ F _ _ Ei)) as R.
  destruct (run mode glob (nodes_of l) f i ins) as [[os j]|e]; cbn in R; [split; discriminate|]. destruct R. split; congruence.
Qed.

Theorem program_ordered : forall p l, result (pipeline p) = Some l ->
  (forall a sn, In (a, XNode sn) p -> In "universal_pre"%string (map a_action a) -> plain_clocks sn) ->
  forall nd, In nd (nodes_of l) -> well_ordered (n_stmts nd).
Proof.
  intros p l H Hp nd I. destruct (pipeline_nodes _ _ H _ I) as (o & a & sn & d & Ia & W & Fo & C).
  eapply compiled_ordered; [exact C|]. intros U. apply (Hp _ _ Ia). rewrite (node_opts_universal _ _ _ W Fo) in U.
  apply existsb_exists in U. destruct U as (x & Iu & Eu). apply String.eqb_eq in Eu. rewrite <- Eu. apply in_map. auto.
Qed.

Theorem plain_program_errors : forall mode glob p l, result (pipeline p) = Some l -> closed p -> constants_ok p glob ->
  (forall a sn, In (a, XNode sn) p -> In "universal_pre"%string (map a_action a) -> plain_clocks sn) ->
  (forall nd, In nd (nodes_of l) -> Forall (fun t => match t with Some t => no_single t | None => True end) (n_regs nd)) ->
  forall sn, In sn (source_nodes p) ->
  exists i, init_inst (nodes_of l) (s_name sn) = Ok i /\
    forall theta ins, Forall (of_type theta (declared_type (s_inputs sn))) ins ->
    outcome theta (declared_type (s_outputs sn)) (run mode glob (nodes_of l) (s_name sn) i ins).
Proof.
  intros mode glob p l H Cl Co Hp Hr. apply ordered_program_errors; auto. intros nd I. split; auto. eapply program_ordered; eauto.
Qed.
