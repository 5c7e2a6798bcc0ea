(** Basic facts about the interpreter: inversion of the monad, frame
    properties, implicit clock. *)
From Coq Require Import String List ZArith Bool Arith Lia.
From Verif Require Import Model.Base Model.Scalar Model.Value Model.History Model.Register Model.Ast Model.Interp
  Spec.StepSpec Proofs.AstInd Proofs.RuntimeProofs.
Import ListNotations.

Lemma bind_ok : forall {A B} (x : res A) (f : A -> res B) r,
  bind x f = Ok r -> exists a, x = Ok a /\ f a = Ok r.
Proof. intros A B [a|p] f r H; simpl in H; [eauto|discriminate]. Qed.

Lemma of_option_ok : forall {A} p (o : option A) a, of_option p o = Ok a -> o = Some a.
Proof. intros A p [b|] a H; inversion H; auto. Qed.

(** Decompose every successful bind in the context. *)
Ltac inv_ok :=
  repeat match goal with
  | H : bind ?x _ = Ok _ |- _ =>
      let a := fresh "r" in let E := fresh "E" in
      apply bind_ok in H; destruct H as (a & E & H)
  | H : Ok _ = Ok _ |- _ => inversion H; subst; clear H
  | H : Panic _ = Ok _ |- _ => discriminate H
  | H : of_option _ _ = Ok _ |- _ => apply of_option_ok in H
  | H : (let '(_, _) := ?p in _) = Ok _ |- _ => first [is_var p; destruct p | destruct p eqn:?]
  | p : (_ * _)%type |- _ => destruct p
  end.

Lemma eval_tuple : forall mode glob clk hists call nilout regs st l s,
  eval mode glob clk hists call nilout regs st (ETuple l) s =
  ('(vs, s) <- evals mode glob clk hists call nilout regs st l s;; Ok (tuple_val vs, s)).
Proof.
  intros. cbn [eval].
  match goal with |- bind (?f l s) _ = _ =>
    assert (E : forall l s, f l s = evals mode glob clk hists call nilout regs st l s) end.
  { clear. induction l as [|e l IH]; intros s; simpl; auto. }
  rewrite E. auto.
Qed.

Lemma nth_error_set_nth_eq : forall {A} (l : list A) n a,
  n < length l -> nth_error (set_nth n a l) n = Some a.
Proof. induction l; intros [|n] b H; simpl in *; try lia; auto. apply IHl. lia. Qed.

Lemma nth_error_set_nth_neq : forall {A} (l : list A) n m a,
  n <> m -> nth_error (set_nth n a l) m = nth_error l m.
Proof.
  induction l as [|b l IH]; intros [|n] [|m] a H; simpl; auto; try congruence.
Qed.

Lemma set_nth_length : forall {A} (l : list A) n a, length (set_nth n a l) = length l.
Proof. induction l; intros [|n] b; simpl; auto. Qed.

Lemma nth_error_some_lt : forall {A} (l : list A) n a, nth_error l n = Some a -> n < length l.
Proof. intros A l n a H. apply nth_error_Some. rewrite H. discriminate. Qed.

Lemma framed_refl : forall cs fs s, framed cs fs s s.
Proof. repeat split; auto. Qed.

Lemma framed_trans : forall cs fs cs' fs' s s' s'',
  framed cs fs s s' -> framed cs' fs' s' s'' -> framed (cs ++ cs') (fs ++ fs') s s''.
Proof.
  intros cs fs cs' fs' s s' s'' (A & B & C & D) (A' & B' & C' & D').
  split; [|split; [|split]]; try congruence; intros id H.
  - rewrite A', A; auto; intros I; apply H, in_or_app; auto.
  - rewrite B', B; auto; intros I; apply H, in_or_app; auto.
Qed.

Lemma framed_weaken : forall cs fs cs' fs' s s',
  framed cs fs s s' -> incl cs cs' -> incl fs fs' -> framed cs' fs' s s'.
Proof.
  intros cs fs cs' fs' s s' (A & B & C & D) I J. repeat split; auto.
Qed.

Section Frame.
  Variable mode : ovf.
  Variable glob : ident -> option scalar.
  Variable clk : nat.
  Variable hists : list (ident * hist).
  Variable call : nat -> inst -> val -> res (val * inst).
  Variable nilout : nat -> res val.
  Variable regs : list register.
  Variable st : store.
  Notation eval' := (eval mode glob clk hists call nilout regs st).
  Notation evals' := (evals mode glob clk hists call nilout regs st).

  Lemma eval_frame : forall e s v s',
    eval' e s = Ok (v, s') -> framed (calls_of e) (flips_of e) s s'.
  Proof.
    induction e using expr_ind'; intros s v s' E.
    - simpl in E. inv_ok. apply framed_refl.
    - destruct d; simpl in E; inv_ok; apply framed_refl.
    - simpl in E. inv_ok. apply framed_refl.
    - rewrite eval_tuple in E. inv_ok.
      revert s l0 s' E0. induction H as [|e l He H IH]; intros s vs s' E; simpl in E; inv_ok.
      + apply framed_refl.
      + cbn [calls_of flips_of flat_map]. eapply framed_trans; eauto.
    - simpl in E. eauto.
    - simpl in E. eauto.
    - simpl in E. inv_ok. cbn [calls_of flips_of]. eapply framed_trans; eauto.
    - simpl in E. inv_ok. eauto.
    - simpl in E. inv_ok. cbn [calls_of flips_of]. eapply framed_trans; eauto.
    - simpl in E. inv_ok. cbn [calls_of flips_of].
      eapply framed_weaken; [eapply framed_trans; [eapply IHe2|eapply IHe1]; eauto| |];
        intros x Hx; apply in_app_or in Hx; apply in_or_app; tauto.
    - simpl in E. inv_ok. cbn [calls_of flips_of]. destruct (d <? clk).
      + inv_ok. eapply framed_weaken; [eapply IHe2; eauto| |]; intros x Hx; apply in_or_app; auto.
      + eapply framed_weaken; [eapply framed_trans; [eapply IHe2|eapply IHe1]; eauto| |];
        intros x Hx; apply in_app_or in Hx; apply in_or_app; tauto.
    - simpl in E. inv_ok. apply framed_refl.
    - simpl in E. inv_ok. 
      pose proof (framed_trans _ _ _ _ _ _ _ (IHe1 _ _ _ E0) (IHe2 _ _ _ E1)) as (A & B & C & D).
      split; [|split; [|split]]; simpl; auto.
      + intros id0 Hn. rewrite nth_error_set_nth_neq by (intros ->; apply Hn; simpl; auto).
        apply B. intros I; apply Hn; simpl; auto.
      + rewrite set_nth_length. auto.
    - simpl in E. inv_ok. cbn [calls_of flips_of].
      eapply framed_weaken;
        [eapply framed_trans; [eapply IHe2; eauto|eapply framed_trans; [eapply IHe3|eapply IHe1]; eauto]| |];
        intros x Hx; rewrite !in_app_iff in *; tauto.
    - simpl in E. inv_ok. cbn [calls_of flips_of].
      eapply framed_weaken;
        [eapply framed_trans; [eapply IHe1; eauto|
          eapply framed_trans; [eapply IHe2; eauto|eapply framed_trans; [eapply IHe3|eapply IHe1]; eauto]]| |];
        intros x Hx; rewrite !in_app_iff in *; tauto.
    - simpl in E. destruct (d <=? clk); inv_ok.
      + pose proof (IHe _ _ _ E0) as (A & B & C & D).
        split; [|split; [|split]]; simpl; auto.
        * intros id0 Hn. rewrite nth_error_set_nth_neq by (intros ->; apply Hn; simpl; auto).
          apply A. intros I; apply Hn; simpl; auto.
        * rewrite set_nth_length. auto.
      + apply framed_refl.
  Qed.
End Frame.

(** ** Implicit clock *)
Lemma step_absent : forall mode glob p f nd p' i v,
  find_node p f = Some (nd, p') -> first_is_nil v = true ->
  step mode glob p f i v = Ok (vars_nil (n_outputs nd), i).
Proof.
  induction p as [|n p IH]; intros f nd p' i v F N; simpl in F; [discriminate|].
  simpl. destruct (String.eqb f (n_name n)).
  - inversion F; subst. unfold node_step. rewrite N. auto.
  - eapply IH; eauto.
Qed.

Lemma vars_nil_not_defined : forall l, all_nil (vars_nil l) = vars_nil l.
Proof.
  intros [|a [|b l]]; simpl; auto. do 3 f_equal. rewrite map_map. auto.
Qed.

(** The node reached by [step] for name [f], with its callable nodes. *)
Lemma step_find : forall mode glob p f i v,
  step mode glob p f i v =
  match find_node p f with
  | None => Panic PType
  | Some (nd, p') =>
      node_step mode glob
        (fun id i v => match nth_error (n_blocks nd) id with
                       | Some g => step mode glob p' g i v
                       | None => Panic PType
                       end)
        (fun id => g <- of_option PType (nth_error (n_blocks nd) id);; nil_outputs p' g)
        nd i v
  end.
Proof.
  induction p as [|n p IH]; intros; simpl; auto.
  destruct (String.eqb f (n_name n)); auto.
Qed.

Lemma init_find : forall p f,
  init_inst p f =
  match find_node p f with
  | None => Panic PType
  | Some (nd, p') =>
      regs <- mapM (fun t => t <- of_option PType t;; Ok (reg_default (ty_shape t))) (n_regs nd);;
      subs <- mapM (init_inst p') (n_blocks nd);;
      Ok (Inst 0 (init_hists nd) regs (repeat flip_default (n_flips nd)) subs)
  end.
Proof.
  induction p as [|n p IH]; intros; simpl; auto.
  destruct (String.eqb f (n_name n)); auto.
Qed.

(** ** Absent instants *)
Lemma run_stutter : forall mode glob p f nd p', find_node p f = Some (nd, p') ->
  forall ins i,
  run mode glob p f i ins =
  ('(os, i') <- run mode glob p f i (filter (fun v => negb (first_is_nil v)) ins);;
   Ok (weave (vars_nil (n_outputs nd)) ins os, i')).
Proof.
  intros mode glob p f nd p' F. induction ins as [|v ins IH]; intros i; [reflexivity|].
  cbn [run filter]. destruct (first_is_nil v) eqn:N; cbn [negb].
  - rewrite (step_absent _ _ _ _ _ _ _ _ F N). cbn [bind]. rewrite IH.
    destruct (run _ _ _ _ _ (filter _ ins)) as [[os i']|]; cbn [bind]; auto.
    cbn [weave]. rewrite N. auto.
  - cbn [run]. destruct (step _ _ _ _ _ v) as [[o i']|]; cbn [bind]; auto.
    rewrite IH. destruct (run _ _ _ _ _ (filter _ ins)) as [[os i'']|]; cbn [bind]; auto.
    cbn [weave]. rewrite N. auto.
Qed.

Lemma run_app : forall mode glob p f ins1 ins2 i,
  run mode glob p f i (ins1 ++ ins2) =
  ('(os1, i1) <- run mode glob p f i ins1;;
   '(os2, i2) <- run mode glob p f i1 ins2;;
   Ok (os1 ++ os2, i2)).
Proof.
  induction ins1 as [|v ins1 IH]; intros ins2 i; cbn [app run bind].
  - destruct (run _ _ _ _ _ ins2) as [[? ?]|]; auto.
  - destruct (step _ _ _ _ _ v) as [[o i']|]; cbn [bind]; auto.
    rewrite IH. destruct (run _ _ _ _ _ ins1) as [[? ?]|]; cbn [bind]; auto.
    destruct (run _ _ _ _ _ ins2) as [[? ?]|]; cbn [bind]; auto.
Qed.

(** ** Main loop *)
Lemma main_for_run : forall mode glob p f n i i',
  main_for mode glob p f n i = Ok i' <->
  exists os, run mode glob p f i (repeat (VS (Defined SUnit)) n) = Ok (os, i') /\
             forall o, In o os -> exists q, trusted o = Ok q.
Proof.
  induction n as [|n IH]; intros i i'; cbn [main_for repeat run].
  - split.
    + intros H; inversion H; subst. exists []. split; auto. intros o [].
    + intros (os & H & _). inversion H; auto.
  - unfold main_body. destruct (step _ _ _ _ _ _) as [[o i1]|]; cbn [bind].
    + destruct (trusted o) as [q|] eqn:T; cbn [bind].
      * rewrite IH. split.
        -- intros (os & H & A). exists (o :: os). rewrite H. cbn [bind]. split; auto.
           intros o' [<-|I]; eauto.
        -- intros (os & H & A). inv_ok. exists l. split; auto. intros o' I. apply A; right; auto.
      * split; [discriminate|]. intros (os & H & A). inv_ok.
        destruct (A o (or_introl eq_refl)) as (q & Q). congruence.
    + split; [discriminate|]. intros (os & H & A). discriminate.
Qed.

Lemma main_forever_never_ok : forall mode glob p f fuel i i',
  main_forever mode glob p f fuel i <> Some (Ok i').
Proof.
  induction fuel; intros i i' H; simpl in H; [discriminate|].
  destruct (main_body _ _ _ _ i); [eapply IHfuel; eauto|discriminate].
Qed.

Lemma main_forever_progress : forall mode glob p f fuel i,
  main_forever mode glob p f fuel i =
  match main_for mode glob p f fuel i with Ok _ => None | Panic e => Some (Panic e) end.
Proof.
  induction fuel; intros i; simpl; auto.
  destruct (main_body _ _ _ _ i); cbn [bind]; auto.
Qed.

(** Tuple structure as a value. *)
Lemma same_shapeb_nil : forall v w, same_shapeb v w = true <-> all_nil v = all_nil w.
Proof.
  induction v using val_ind'; intros [m|l']; simpl; try (split; intros; (reflexivity || discriminate)).
  - assert (G : (fix go l l' := match l, l' with
         | [], [] => true
         | a :: l, b :: l' => same_shapeb a b && go l l'
         | _, _ => false end) l l' = true <-> map all_nil l = map all_nil l').
    { revert l'. induction H as [|v l Hv H IH]; intros [|w l']; simpl; try (split; intros; (reflexivity || discriminate)).
      rewrite andb_true_iff, Hv, IH. split; [intros [-> ->]; auto|]. inversion 1; auto. }
    rewrite G. split; [congruence|]. inversion 1; auto.
Qed.
