(** Simulation: the step functions compute the stream meaning of their
    expressions. *)
From Coq Require Import String List ZArith Bool Arith Lia Permutation.
From Verif Require Import Model.Base Model.Scalar Model.Value Model.History Model.Register Model.Ast Model.Interp
  Model.Graph Model.Causality Spec.StepSpec Spec.CausalitySpec Spec.CoreSem
  Proofs.AstInd Proofs.RuntimeProofs Proofs.InterpBasics.
Import ListNotations.

(** Iterating one step function. *)
Fixpoint iter (f : inst -> val -> res (val * inst)) (i : inst) (args : list val) : res (list val * inst) :=
  match args with
  | [] => Ok ([], i)
  | a :: args => '(o, i) <- f i a;; '(os, i) <- iter f i args;; Ok (o :: os, i)
  end.

Lemma iter_snoc : forall f args i os i' a o i'',
  iter f i args = Ok (os, i') -> f i' a = Ok (o, i'') -> iter f i (args ++ [a]) = Ok (os ++ [o], i'').
Proof.
  induction args as [|b args IH]; intros i os i' a o i'' H F; simpl in H.
  - inv_ok. simpl. rewrite F. reflexivity.
  - inv_ok. simpl. rewrite E. simpl. erewrite IH; eauto. reflexivity.
Qed.

Lemma run_iter : forall mode glob p f ins i, run mode glob p f i ins = iter (step mode glob p f) i ins.
Proof. induction ins as [|v ins IH]; intros i; simpl; auto. destruct (step _ _ _ _ _ _) as [[o i']|]; simpl; auto. rewrite IH. auto. Qed.

(** Merge switches are re-evaluated: they must not contain calls or flips. *)
Fixpoint pure_switches (e : expr) : Prop :=
  match e with
  | ELit _ | EVar _ _ | EGlobal _ | EFetch _ _ _ => True
  | ETuple l => (fix go l := match l with [] => True | e :: l => pure_switches e /\ go l end) l
  | EPre e | EParen e | EUn _ e | ESub _ _ e => pure_switches e
  | EBin _ a b | ECmp _ a b | EClock _ a b | ELater _ a b | EFlip _ a b => pure_switches a /\ pure_switches b
  | EIf a b c => pure_switches a /\ pure_switches b /\ pure_switches c
  | EMerge a b c => (calls_of a = [] /\ flips_of a = []) /\ pure_switches a /\ pure_switches b /\ pure_switches c
  end.

Section Sim.
  Variable mode : ovf.
  Variable glob : ident -> option scalar.
  Variable call : nat -> inst -> val -> res (val * inst).
  Variable nilout : nat -> res val.
  Variable sub0 : nat -> inst.
  Variable rho : nat -> ident -> option nillable.
  Variable kappa : nat -> nat -> option val.

  Definition calls_op (id : nat) (args : list val) (v : val) : Prop :=
    exists os i', iter (call id) (sub0 id) args = Ok (os ++ [v], i').
  Definition nilouts_op (id : nat) (v : val) : Prop := nilout id = Ok v.

  Notation csem' := (csem mode glob rho kappa calls_op nilouts_op).
  Notation csems' := (csems mode glob rho kappa calls_op nilouts_op).

  (** State of the call sites and flips of [e] at the beginning of instant [T],
      when [e] has been evaluated at all instants from [lo]. *)
  Fixpoint inv (e : expr) (lo T : nat) (s : estate) {struct e} : Prop :=
    match e with
    | ELit _ | EVar _ _ | EGlobal _ | EFetch _ _ _ => True
    | ETuple l => (fix go l := match l with [] => True | e :: l => inv e lo T s /\ go l end) l
    | EPre e | EParen e | EUn _ e => inv e lo T s
    | EBin _ a b | ECmp _ a b | EClock _ a b => inv a lo T s /\ inv b lo T s
    | ELater d a b => (T <= d -> inv a lo T s) /\ inv b lo T s
    | EFlip id a b => inv a lo T s /\ inv b lo T s /\
        exists f, nth_error (es_flips s) id = Some f /\
          if f then forall k, lo <= k -> k < T -> exists w, csem' lo a k w /\ first_is_nil w = true
          else exists k w, lo <= k /\ k < T /\ csem' lo a k w /\ first_is_nil w = false
    | EIf a b c | EMerge a b c => inv a lo T s /\ inv b lo T s /\ inv c lo T s
    | ESub d id a => inv a (Nat.max lo d) T s /\
        exists args os sub, length args = T - Nat.max lo d /\
          (forall j w, nth_error args j = Some w -> csem' (Nat.max lo d) a (Nat.max lo d + j) w) /\
          iter (call id) (sub0 id) args = Ok (os, sub) /\
          nth_error (es_subs s) id = Some sub
    end.

  Definition invs (l : list expr) (lo T : nat) (s : estate) : Prop := forall e, In e l -> inv e lo T s.

  Lemma inv_tuple : forall l lo T s, inv (ETuple l) lo T s <-> invs l lo T s.
  Proof.
    intros l lo T s. unfold invs. simpl. induction l as [|e l IH].
    - split; auto. intros _ e [].
    - rewrite IH. split.
      + intros [A B] e' [<-|J]; auto.
      + intros H. split; [apply H; left; auto|]. intros e' J. apply H. right. auto.
  Qed.

  Lemma inv_wait : forall e lo T s, T < lo -> inv e lo T s -> inv e lo (S T) s.
  Proof.
    induction e using expr_ind'; intros lo T s L I; try (simpl in *; auto; fail).
    - rewrite inv_tuple in *. intros e J. rewrite Forall_forall in H. apply H; auto.
    - simpl in *. destruct I; split; auto.
    - simpl in *. destruct I; split; auto.
    - simpl in *. destruct I; split; auto.
    - simpl in *. destruct I as [I J]; split; auto. intros. apply IHe1; auto. apply I. lia.
    - simpl in *. destruct I as (I & J & f & E & K). split; auto. split; auto. exists f. split; auto. destruct f.
      + intros k L1 L2. lia.
      + destruct K as (k & w & L1 & L2 & _). lia.
    - simpl in *. destruct I as (I & J & K). auto.
    - simpl in *. destruct I as (I & J & K). auto.
    - cbn [inv] in *. destruct I as (I & args & os & sub & A & B). split; [apply IHe; auto; lia|].
      exists args, os, sub. split; auto. lia.
  Qed.

  Ltac fr IH A B := eapply IH; [| |eassumption]; intros; [apply A|apply B]; simpl; rewrite ?in_app_iff; auto.

  Lemma inv_ext : forall e lo T s s',
    (forall id, In id (calls_of e) -> nth_error (es_subs s') id = nth_error (es_subs s) id) ->
    (forall id, In id (flips_of e) -> nth_error (es_flips s') id = nth_error (es_flips s) id) ->
    inv e lo T s -> inv e lo T s'.
  Proof.
    induction e using expr_ind'; intros lo T s s' A B I; try (simpl in *; auto; fail).
    - rewrite inv_tuple in *. intros e J. rewrite Forall_forall in H. simpl in A, B. apply (H e J lo T s s'); [| |apply I; auto].
      + intros id K. apply A. apply in_flat_map. eauto.
      + intros id K. apply B. apply in_flat_map. eauto.
    - simpl in *. fr IHe A B.
    - simpl in *. fr IHe A B.
    - simpl in *. destruct I; split; [fr IHe1 A B|fr IHe2 A B].
    - simpl in *. fr IHe A B.
    - simpl in *. destruct I; split; [fr IHe1 A B|fr IHe2 A B].
    - simpl in *. destruct I; split; [fr IHe1 A B|fr IHe2 A B].
    - simpl in *. destruct I as [I J]; split; [|fr IHe2 A B]. intros L. specialize (I L). fr IHe1 A B.
    - simpl in *. destruct I as (I & J & f & E & K). split; [fr IHe1 A B|split; [fr IHe2 A B|]].
      exists f. split; auto. rewrite B; auto.
    - simpl in *. destruct I as (I & J & K). split; [fr IHe1 A B|split; [fr IHe2 A B|fr IHe3 A B]].
    - simpl in *. destruct I as (I & J & K). split; [fr IHe1 A B|split; [fr IHe2 A B|fr IHe3 A B]].
    - cbn [inv] in *. simpl in A, B. destruct I as (I & args & os & sub & C). split; [fr IHe A B|].
      exists args, os, sub. rewrite A; auto.
  Qed.

  Definition disjoint (l l' : list nat) : Prop := forall x, In x l -> In x l' -> False.

  Lemma inv_frame : forall e lo T cs fs s s',
    framed cs fs s s' -> disjoint (calls_of e) cs -> disjoint (flips_of e) fs ->
    inv e lo T s -> inv e lo T s'.
  Proof.
    intros e lo T cs fs s s' (A & B & _) D1 D2 I. eapply inv_ext; [| |exact I].
    - intros id J. apply A. intros K. eapply D1; eauto.
    - intros id J. apply B. intros K. eapply D2; eauto.
  Qed.

  Lemma nodup_app_disjoint : forall (l l' : list nat), NoDup (l ++ l') -> NoDup l /\ NoDup l' /\ disjoint l l'.
  Proof.
    induction l as [|a l IH]; simpl; intros l' H.
    - split; [constructor|]. split; auto. intros x [].
    - inversion H; subst. destruct (IH _ H3) as (A & B & C). split; [|split; auto].
      + constructor; auto. intros J. apply H2. apply in_app_iff. auto.
      + intros x [<-|J] K; [|eapply C; eauto]. apply H2. apply in_app_iff. auto.
  Qed.

  Lemma disjoint_sym : forall l l', disjoint l l' -> disjoint l' l.
  Proof. intros l l' D x A B. eapply D; eauto. Qed.

  Lemma disjoint_app : forall l l1 l2, disjoint l (l1 ++ l2) -> disjoint l l1 /\ disjoint l l2.
  Proof. intros l l1 l2 D. split; intros x A B; apply (D x); auto; apply in_app_iff; auto. Qed.

  Section Instant.
    Variable T : nat.
    Variable hists : list (ident * hist).
    Hypothesis hist_ok : forall x h d n, lookup x hists = Some h -> ago h (S d) = Ok n ->
      if T <=? d then n = Nil else rho (T - S d) x = Some n.

    Section Expr.
      Variable regs : list register.
      Variable st : store.
      Hypothesis env_ok : forall x n, lookup x st = Some n -> rho T x = Some n.
      Notation eval' := (eval mode glob T hists call nilout regs st).
      Notation evals' := (evals mode glob T hists call nilout regs st).

      Definition reg_ok (e : expr) : Prop :=
        forall id r, fetches id e -> nth_error regs id = Some r -> kappa T id = Some (reg_get r).

      Lemma eval_sound : forall e lo s v s',
        eval' e s = Ok (v, s') -> lo <= T -> inv e lo T s -> reg_ok e -> pure_switches e ->
        NoDup (calls_of e) -> NoDup (flips_of e) ->
        csem' lo e T v /\ inv e lo (S T) s'.
      Proof.
        (* two expressions evaluated in sequence *)
        assert (two : forall a b lo s va s1 vb s2,
          (forall lo s v s', eval' a s = Ok (v, s') -> lo <= T -> inv a lo T s -> reg_ok a -> pure_switches a ->
             NoDup (calls_of a) -> NoDup (flips_of a) -> csem' lo a T v /\ inv a lo (S T) s') ->
          (forall lo s v s', eval' b s = Ok (v, s') -> lo <= T -> inv b lo T s -> reg_ok b -> pure_switches b ->
             NoDup (calls_of b) -> NoDup (flips_of b) -> csem' lo b T v /\ inv b lo (S T) s') ->
          eval' a s = Ok (va, s1) -> eval' b s1 = Ok (vb, s2) -> lo <= T ->
          inv a lo T s -> inv b lo T s -> reg_ok a -> reg_ok b -> pure_switches a -> pure_switches b ->
          NoDup (calls_of a ++ calls_of b) -> NoDup (flips_of a ++ flips_of b) ->
          csem' lo a T va /\ csem' lo b T vb /\ inv a lo (S T) s2 /\ inv b lo (S T) s2 /\
          framed (calls_of a ++ calls_of b) (flips_of a ++ flips_of b) s s2).
        { intros a b lo s va s1 vb s2 Ha Hb Ea Eb L Ia Ib Ra Rb Pa Pb Nc Nf.
          destruct (nodup_app_disjoint _ _ Nc) as (Nca & Ncb & Dc).
          destruct (nodup_app_disjoint _ _ Nf) as (Nfa & Nfb & Df).
          destruct (Ha _ _ _ _ Ea L Ia Ra Pa Nca Nfa) as [Sa Ia'].
          pose proof (eval_frame _ _ _ _ _ _ _ _ _ _ _ _ Ea) as Fa.
          pose proof (eval_frame _ _ _ _ _ _ _ _ _ _ _ _ Eb) as Fb.
          assert (Ib1 : inv b lo T s1) by (eapply inv_frame; eauto using disjoint_sym).
          destruct (Hb _ _ _ _ Eb L Ib1 Rb Pb Ncb Nfb) as [Sb Ib'].
          split; [auto|split; [auto|split; [|split; [auto|]]]].
          - eapply inv_frame; [exact Fb|auto|auto|auto].
          - eapply framed_trans; eauto. }
        induction e using expr_ind'; intros lo s v s' E L I R P Nc Nf.
        - simpl in E. inv_ok. split; [constructor|exact Logic.I].
        - destruct d as [|d]; simpl in E; inv_ok; (split; [|exact Logic.I]).
          + apply env_ok in E0. apply cs_var with (d := 0); [lia|]. rewrite Nat.sub_0_r. auto.
          + pose proof (hist_ok _ _ _ _ E0 E1) as Hh. destruct (Nat.leb_spec T d).
            * subst. apply cs_past. lia.
            * apply cs_var; [lia|auto].
        - simpl in E. inv_ok. split; [constructor; auto|exact Logic.I].
        - rewrite eval_tuple in E. inv_ok. rewrite inv_tuple in I.
          assert (G : csems' lo l T l0 /\ invs l lo (S T) s').
          { clear two. revert s l0 s' E0 I R P Nc Nf. induction H as [|e l He H IH]; intros s vs s' E I R P Nc Nf; simpl in E; inv_ok.
            - split; [constructor|]. intros e [].
            - cbn [calls_of flips_of flat_map] in Nc, Nf. cbn [pure_switches] in P. destruct P as [Pe Pl].
              destruct (nodup_app_disjoint _ _ Nc) as (Nca & Ncb & Dc).
              destruct (nodup_app_disjoint _ _ Nf) as (Nfa & Nfb & Df).
              destruct (He lo _ _ _ E0 L (I e (or_introl eq_refl))) as [Se Ie]; auto.
              { intros id r Fe. apply R. econstructor; eauto. left; auto. }
              pose proof (eval_frame _ _ _ _ _ _ _ _ _ _ _ _ E0) as Fe.
              destruct (IH _ _ _ E1) as [Sl Il]; auto.
              { intros e' J. eapply inv_frame; [exact Fe| | |apply I; right; auto].
                - intros x A B. apply (Dc x); auto. apply in_flat_map. eauto.
                - intros x A B. apply (Df x); auto. apply in_flat_map. eauto. }
              { intros id r Fl. inversion Fl; subst. apply R. econstructor; eauto. right; auto. }
              split; [constructor; auto|]. intros e' [<-|J]; [|apply Il; auto].
              assert (Fl : framed (calls_of (ETuple l)) (flips_of (ETuple l)) e0 s').
              { assert (Et : eval' (ETuple l) e0 = Ok (tuple_val l0, s')) by (rewrite eval_tuple, E1; reflexivity).
                eapply eval_frame; eauto. }
              eapply inv_frame; [exact Fl|auto|auto|auto]. }
          destruct G. split; [constructor; auto|]. apply inv_tuple. auto.
        - simpl in E. destruct (IHe lo _ _ _ E) as [A B]; auto.
          { intros id r F. apply R. constructor; auto. }
          split; [constructor; auto|auto].
        - simpl in E. destruct (IHe lo _ _ _ E) as [A B]; auto.
          { intros id r F. apply R. constructor; auto. }
          split; [constructor; auto|auto].
        - simpl in E. inv_ok. destruct I as [I1 I2]. destruct P as [P1 P2].
          edestruct (two e1 e2) as (A & B & C & D & _); eauto.
          { intros id r F. apply R. solve [constructor; auto]. }
          { intros id r F. apply R. solve [constructor; auto]. }
          split; [econstructor; eauto|split; auto].
        - simpl in E. inv_ok. destruct (IHe lo _ _ _ E0) as [A B]; auto.
          { intros id r F. apply R. constructor; auto. }
          split; [econstructor; eauto|auto].
        - simpl in E. inv_ok. destruct I as [I1 I2]. destruct P as [P1 P2].
          edestruct (two e1 e2) as (A & B & C & D & _); eauto.
          { intros id r F. apply R. solve [constructor; auto]. }
          { intros id r F. apply R. solve [constructor; auto]. }
          split; [econstructor; eauto|split; auto].
        - simpl in E. inv_ok. destruct I as [I1 I2]. destruct P as [P1 P2].
          edestruct (two e2 e1) as (A & B & C & D & _); eauto.
          { intros id r F. apply R. solve [constructor; auto]. }
          { intros id r F. apply R. solve [constructor; auto]. }
          { eapply Permutation_NoDup; [apply Permutation_app_comm|exact Nc]. }
          { eapply Permutation_NoDup; [apply Permutation_app_comm|exact Nf]. }
          split; [econstructor; eauto|split; auto].
        - simpl in E. inv_ok. destruct I as [I1 I2]. destruct P as [P1 P2].
          destruct (Nat.ltb_spec d T).
          + inv_ok. simpl in Nc, Nf.
            destruct (nodup_app_disjoint _ _ Nc) as (Nca & Ncb & Dc).
            destruct (nodup_app_disjoint _ _ Nf) as (Nfa & Nfb & Df).
            destruct (IHe2 lo _ _ _ E0) as [A B]; auto.
            { intros id r F. apply R. solve [constructor; auto]. }
            split; [apply cs_after; auto|]. split; auto. intros; lia.
          + edestruct (two e2 e1) as (A & B & C & D & _); eauto.
            { intros id r F. apply R. solve [constructor; auto]. }
            { intros id r F. apply R. solve [constructor; auto]. }
            { eapply Permutation_NoDup; [apply Permutation_app_comm|exact Nc]. }
            { eapply Permutation_NoDup; [apply Permutation_app_comm|exact Nf]. }
            split; [apply cs_before; auto|]. split; auto.
        - simpl in E. inv_ok. split; [|exact Logic.I]. constructor. apply R with (id := id); [constructor|auto].
        - simpl in E. inv_ok. simpl in I. destruct I as (I1 & I2 & f & If & K). destruct P as [P1 P2].
          simpl in Nc, Nf. apply NoDup_cons_iff in Nf. destruct Nf as [Nid Nf].
          edestruct (two e1 e2) as (A & B & C & D & (F1 & F2 & F3 & F4)); eauto.
          { intros id' r' F. apply R. solve [constructor; auto]. }
          { intros id' r' F. apply R. solve [constructor; auto]. }
          assert (Ef : nth_error (es_flips e0) id = Some r).
          { auto. }
          assert (r = f) by (rewrite F2 in Ef; congruence). subst r.
          assert (Ld : id < length (es_flips e0)) by (eapply nth_error_some_lt; eauto).
          assert (Inv1 : forall f', inv e1 lo (S T) (mkEs (set_nth id f' (es_flips e0)) (es_subs e0)) /\ inv e2 lo (S T) (mkEs (set_nth id f' (es_flips e0)) (es_subs e0))).
          { intros f'. split; (eapply inv_ext; [| |eassumption]); intros id' J; simpl; auto;
            apply nth_error_set_nth_neq; intros ->; apply Nid; apply in_app_iff; auto. }
          unfold flip_instant in *. destruct (first_is_nil v0) eqn:Fn.
          + inversion Heqp; subst. split; [eapply cs_flip_absent; eauto|].
            simpl. split; [apply Inv1|]. split; [apply Inv1|]. exists b. 
            split; [apply nth_error_set_nth_eq; auto|]. destruct b.
            * intros k L1 L2. destruct (Nat.eq_dec k T) as [->|]; [eauto|]. apply K; auto. lia.
            * destruct K as (k & w & L1 & L2 & W). exists k, w. split; [exact L1|]. split; [lia|exact W].
          + destruct (tas f) as [b' f'] eqn:Tas. unfold tas in Tas. inversion Tas; subst b' f'. inversion Heqp; subst. split.
            * destruct f.
              -- eapply cs_flip_first; eauto.
              -- destruct K as (k & w & L1 & L2 & W1 & W2). eapply cs_flip_later with (k := k); eauto.
            * simpl. split; [apply Inv1|]. split; [apply Inv1|]. exists false.
              split; [apply nth_error_set_nth_eq; auto|]. exists T, v0. auto.
        - simpl in E. inv_ok. simpl in I, P, Nc, Nf. destruct I as (I1 & I2 & I3). destruct P as (P1 & P2 & P3).
          (* order: e2 e3 e1 *)
          destruct (nodup_app_disjoint _ _ Nc) as (Nc1 & Nc23 & Dc1). 
          destruct (nodup_app_disjoint _ _ Nf) as (Nf1 & Nf23 & Df1).
          edestruct (two e2 e3) as (A & B & C & D & Fr); eauto.
          { intros id' r' F. apply R. solve [constructor; auto]. }
          { intros id' r' F. apply R. solve [constructor; auto]. }
          assert (I1' : inv e1 lo T e0) by (eapply inv_frame; [exact Fr|auto|auto|auto]).
          destruct (IHe1 lo _ _ _ E2 L I1') as [G H]; auto.
          { intros id' r' F. apply R. solve [constructor; auto]. }
          pose proof (eval_frame _ _ _ _ _ _ _ _ _ _ _ _ E2) as Fe.
          apply disjoint_app in Dc1. apply disjoint_app in Df1. destruct Dc1, Df1.
          split; [econstructor; eauto|]. split; [auto|split].
          + eapply inv_frame; [exact Fe| | |auto]; apply disjoint_sym; auto.
          + eapply inv_frame; [exact Fe| | |auto]; apply disjoint_sym; auto.
        - simpl in E. inv_ok. simpl in I, P, Nc, Nf. destruct I as (I1 & I2 & I3). destruct P as ((Pc & Pf) & P1 & P2 & P3).
          assert (X1 : forall T s s', inv e1 lo T s -> inv e1 lo T s').
          { intros T' t t' J. eapply inv_ext; [| |exact J]; rewrite ?Pc, ?Pf; intros id []. }
          rewrite Pc in Nc. rewrite Pf in Nf. simpl in Nc, Nf.
          pose proof (eval_frame _ _ _ _ _ _ _ _ _ _ _ _ E0) as F0. rewrite Pc, Pf in F0.
          pose proof (eval_frame _ _ _ _ _ _ _ _ _ _ _ _ E3) as F3. rewrite Pc, Pf in F3.
          assert (X2 : forall ex t t', framed [] [] t t' -> forall T, inv ex lo T t -> inv ex lo T t').
          { intros ex t t' F T' J. eapply inv_frame; [exact F| | |exact J]; intros x _ []. }
          edestruct (two e2 e3) as (A & B & C & D & Fr); eauto.
          { intros id' r' F. apply R. solve [constructor; auto]. }
          { intros id' r' F. apply R. solve [constructor; auto]. }
          destruct (IHe1 lo _ _ _ E3 L (X1 _ _ _ I1)) as [G H]; auto.
          { intros id' r' F. apply R. solve [constructor; auto]. }
          { rewrite Pc. constructor. }
          { rewrite Pf. constructor. }
          split; [econstructor; eauto|]. split; [auto|split; eauto].
        - simpl in E. destruct I as (I & args & os & sub & La & Sa & It & Es). simpl in P, Nc, Nf.
          apply NoDup_cons_iff in Nc. destruct Nc as [Nid Nc].
          destruct (Nat.leb_spec d T).
          + inv_ok. destruct (IHe (Nat.max lo d) _ _ _ E0) as [A B]; auto; [lia| |].
            { intros id' r' F. apply R. solve [constructor; auto]. }
            pose proof (eval_frame _ _ _ _ _ _ _ _ _ _ _ _ E0) as (F1 & F2 & F3 & F4).
            assert (r = sub) by (rewrite F1 in E1; congruence). subst r.
            assert (Sn : forall j w, nth_error (args ++ [v0]) j = Some w -> csem' (Nat.max lo d) e (Nat.max lo d + j) w).
            { intros j w J. destruct (Nat.lt_ge_cases j (length args)) as [Lt|Ge].
              - rewrite nth_error_app1 in J by auto. auto.
              - rewrite nth_error_app2 in J by auto. destruct (j - length args) as [|q] eqn:Q; simpl in J; [|destruct q; discriminate].
                inversion J; subst. replace (Nat.max lo d + j) with T by lia. auto. }
            split.
            * eapply cs_sub with (args := args ++ [v0]); auto.
              -- rewrite app_length. cbn [length]. lia.
              -- exists os, i. eapply iter_snoc; eauto.
            * cbn [inv]. split.
              -- eapply inv_ext; [| |exact B]; simpl; auto. intros id' J. apply nth_error_set_nth_neq.
                 intros ->. auto.
              -- exists (args ++ [v0]), (os ++ [v]), i. rewrite app_length. cbn [length]. split; [lia|]. split; [auto|]. split; [eapply iter_snoc; eauto|].
                 apply nth_error_set_nth_eq. eapply nth_error_some_lt; eauto.
          + inv_ok. split; [apply cs_sub_wait; auto|]. cbn [inv]. split; [apply inv_wait; auto; lia|].
            exists args, os, sub. split; [lia|auto].
      Qed.
    End Expr.

    (** *** Statements *)
    Definition stmt_exprs (s : stmt) : list expr :=
      match s with
      | SLet _ e | SAssert e | SUpdate _ e => [e]
      | SInit _ v c =>
          (match c with Some c => [c] | None => [] end) ++ (match v with Some e => [e] | None => [] end)
      end.
    Definition stmt_inits (s : stmt) : list nat := match s with SInit id _ _ => [id] | _ => [] end.
    Definition stmt_updates (s : stmt) : list nat := match s with SUpdate id _ => [id] | _ => [] end.
    Definition stmt_targets (s : stmt) : list ident := match s with SLet t _ => target_vars t | _ => [] end.

    (** Every register is initialised before it is read. *)
    Fixpoint inits_before (D : list nat) (l : list stmt) : Prop :=
      match l with
      | [] => True
      | s :: l =>
          (forall e id, In e (stmt_exprs s) -> fetches id e -> In id D) /\ inits_before (stmt_inits s ++ D) l
      end.

    (** Combined effect of initialisation and update on a register. *)
    Definition reg_apply (r : register) (effI : option (nillable * option val)) (effU : option val) : res register :=
      r1 <- match effI with
            | None => Ok r
            | Some (n, vi) =>
                r1 <- reg_with_clock r n;;
                match vi with
                | Some v => if same_shapeb v (r_inner r1) then Ok (reg_try_initialize r1 v) else Panic PType
                | None => Ok r1
                end
            end;;
      match effU with
      | None => Ok r1
      | Some w => if same_shapeb w (r_inner r1) then Ok (reg_schedule r1 w) else Panic PType
      end.

    Lemma reg_get_schedule : forall r w, reg_get (reg_schedule r w) = reg_get r.
    Proof. intros r w. unfold reg_schedule, reg_get. destruct (first_is_nil w); auto. Qed.

    Lemma reg_apply_sched_first : forall r w effI rf, same_shapeb w (r_inner r) = true ->
      reg_apply (reg_schedule r w) effI None = Ok rf -> reg_apply r effI (Some w) = Ok rf.
    Proof.
      intros [a b c] w [[n vi]|] rf Sh; unfold reg_apply, reg_schedule, reg_with_clock, reg_try_initialize; simpl in *;
      (destruct (first_is_nil w) eqn:F; simpl; [|]); rewrite ?Sh; simpl; auto;
      (destruct (nil_is n _); simpl; [|discriminate]); (destruct vi as [v|]; simpl; [destruct (same_shapeb v a) eqn:Sv; simpl; [|discriminate]|]);
      rewrite ?Sh; auto;
      (destruct (first_is_nil a); simpl; rewrite ?F, ?Sh; auto);
      (replace (same_shapeb w v) with true; [auto|]);
      symmetry; apply same_shapeb_nil; apply same_shapeb_nil in Sh, Sv; congruence.
    Qed.

    Lemma matches_mono : forall (env env' : ident -> option nillable),
      (forall x n, env x = Some n -> env' x = Some n) ->
      forall t v, matches env t v -> matches env' t v.
    Proof.
      intros env env' H. induction t using vartuple_ind'; intros v M; inversion M; subst.
      - constructor. auto.
      - constructor.
      - inversion H0; subst. constructor. auto.
      - constructor; auto. clear M.
        match goal with L : 2 <= _ |- _ => clear L end.
        match goal with F2 : Forall2 _ _ ?vs |- _ => revert vs F2 end.
        induction H0; intros vs F; inversion F; subst; constructor; auto.
    Qed.

    Lemma bind_target_go : forall l vs st st',
      Forall (fun t => forall v st st', bind_target t v st = Ok st' -> NoDup (target_vars t) ->
        (forall x, ~ In x (target_vars t) -> lookup x st' = lookup x st) /\
        matches (fun x => lookup x st') t v) l ->
      (fix go (l : list vartuple) (vs : list val) (st : store) : res store :=
               match l, vs with
               | [], [] => Ok st
               | t :: l, v :: vs => st <- bind_target t v st;; go l vs st
               | _, _ => Panic PType
               end) l vs st = Ok st' ->
      NoDup (flat_map target_vars l) ->
      (forall x, ~ In x (flat_map target_vars l) -> lookup x st' = lookup x st) /\
      Forall2 (matches (fun x => lookup x st')) l vs /\
      (forall x n, lookup x st = Some n -> In x (flat_map target_vars l) \/ lookup x st' = Some n).
    Proof.
      induction l as [|t l IH]; intros vs st0 st' F E N; destruct vs as [|v vs]; try discriminate.
      - inv_ok. split; auto.
      - inv_ok. inversion F; subst. simpl in N.
        assert (Nt : NoDup (target_vars t) /\ NoDup (flat_map target_vars l) /\ (forall x, In x (target_vars t) -> ~ In x (flat_map target_vars l))).
        { clear -N. induction (target_vars t) as [|a l' IH]; simpl in *.
          - repeat split; auto. constructor.
          - inversion N; subst. destruct (IH H2) as (A & B & C). split; [constructor; auto; intros J; apply H1; apply in_app_iff; auto|].
            split; auto. intros x [<-|J]; auto. intros K. apply H1. apply in_app_iff. auto. }
        destruct Nt as (N1 & N2 & N3).
        destruct (H1 _ _ _ E0 N1) as [A B]. destruct (IH _ _ _ H2 E N2) as (C & D & G).
        split; [|split].
        + intros x J. simpl in J. rewrite in_app_iff in J. rewrite C, A; auto.
        + constructor; auto. 
          clear -B C N3 N1.
          assert (M : forall t', (forall x, In x (target_vars t') -> In x (target_vars t)) ->
             forall v, matches (fun x => lookup x r) t' v -> matches (fun x => lookup x st') t' v).
          { induction t' using vartuple_ind'; intros I v' M; inversion M; subst.
            - constructor. rewrite C; auto. apply N3. apply I. simpl. auto.
            - constructor.
            - inversion H; subst. constructor. apply H3; auto. intros x' J. apply I. simpl. rewrite app_nil_r. auto.
            - constructor; auto. clear M. simpl in I.
              match goal with L : 2 <= _ |- _ => clear L end.
              match goal with F2 : Forall2 _ _ ?vs |- _ => revert vs F2 end.
              induction H; intros vs0 F; inversion F; subst; constructor; auto.
              + apply H; auto. intros x' J. apply I. apply in_app_iff. auto.
              + apply IHForall; auto. intros x' J. apply I. apply in_app_iff. auto. }
          auto.
        + intros x n L. simpl. rewrite in_app_iff.
          destruct (in_dec string_dec x (target_vars t)) as [J|J]; [auto|].
          destruct (in_dec string_dec x (flat_map target_vars l)) as [J'|J']; [auto|]. right. rewrite C, A; auto.
    Qed.

    Lemma bind_target_spec : forall t v st st', bind_target t v st = Ok st' -> NoDup (target_vars t) ->
        (forall x, ~ In x (target_vars t) -> lookup x st' = lookup x st) /\
        matches (fun x => lookup x st') t v.
    Proof.
      induction t using vartuple_ind'; intros v st0 st' E N.
      - simpl in E. destruct v; [|discriminate]. inv_ok. split.
        + intros y J. simpl. destruct (String.eqb_spec y x); auto. subst. exfalso. apply J. simpl. auto.
        + constructor. simpl. rewrite String.eqb_refl. auto.
      - destruct l as [|t [|t' l]].
        + simpl in E. inv_ok. split; auto. constructor.
        + inversion H; subst. cbn [bind_target] in E. simpl in N. rewrite app_nil_r in N. destruct (H2 _ _ _ E N) as [A B]. split.
          * intros x J. apply A. intros K. apply J. simpl. rewrite app_nil_r. auto.
          * constructor. auto.
        + cbn [bind_target] in E. destruct v as [n|vs]; [discriminate|].
          destruct (bind_target_go (t :: t' :: l) vs st0 st' H E N) as (A & B & _). split; auto.
          constructor; auto. simpl. lia.
    Qed.

    Notation exec' := (exec mode glob T hists call nilout).
    Notation execs' := (execs mode glob T hists call nilout).

    Lemma exec_store : forall s ss ss', exec' s ss = Ok ss' -> NoDup (stmt_targets s) ->
      forall x, ~ In x (stmt_targets s) -> lookup x (ss_store ss') = lookup x (ss_store ss).
    Proof.
      intros [t e|e|id v c|id e] [st regs es] ss' E N x J; simpl in *; inv_ok; auto.
      - eapply bind_target_spec; eauto.
      - destruct v; inv_ok; auto. destruct (same_shapeb _ _); inv_ok; auto.
      - destruct (same_shapeb _ _); inv_ok; auto.
    Qed.

    Lemma nodup_str_app : forall (l l' : list ident), NoDup (l ++ l') -> NoDup l /\ NoDup l' /\ (forall x, In x l -> ~ In x l').
    Proof.
      induction l as [|a l IH]; simpl; intros l' N.
      - split; [constructor|]. split; auto.
      - inversion N; subst. destruct (IH _ H2) as (A & B & C).
        split; [constructor; auto; intros J; apply H1; apply in_app_iff; auto|].
        split; auto. intros x [<-|J]; auto. intros K. apply H1. apply in_app_iff. auto.
    Qed.

    Lemma execs_store : forall l ss ss', execs' l ss = Ok ss' -> NoDup (flat_map stmt_targets l) ->
      forall x, ~ In x (flat_map stmt_targets l) -> lookup x (ss_store ss') = lookup x (ss_store ss).
    Proof.
      induction l as [|s l IH]; intros ss ss' E N x J; simpl in E; inv_ok; auto.
      simpl in N, J. rewrite in_app_iff in J. destruct (nodup_str_app _ _ N) as (A & B & C).
      rewrite (IH _ _ E B x), (exec_store _ _ _ E0 A x); auto.
    Qed.

    Lemma exec_reg_get : forall s ss ss', exec' s ss = Ok ss' ->
      forall id, ~ In id (stmt_inits s) ->
      option_map reg_get (nth_error (ss_regs ss') id) = option_map reg_get (nth_error (ss_regs ss) id).
    Proof.
      intros [t e|e|i v c|i e] [st regs es] ss' E id J; simpl in *; inv_ok; auto.
      - assert (i <> id) by (intros ->; apply J; auto).
        destruct v; inv_ok; [destruct (same_shapeb _ _); inv_ok|]; simpl; rewrite nth_error_set_nth_neq; auto.
      - destruct (same_shapeb _ _); inv_ok; simpl. destruct (Nat.eq_dec i id) as [->|Ne].
        + rewrite nth_error_set_nth_eq by (eapply nth_error_some_lt; eauto). rewrite E0. simpl. rewrite reg_get_schedule. auto.
        + rewrite nth_error_set_nth_neq; auto.
    Qed.

    Lemma execs_reg_get : forall l ss ss', execs' l ss = Ok ss' ->
      forall id, ~ In id (flat_map stmt_inits l) ->
      option_map reg_get (nth_error (ss_regs ss') id) = option_map reg_get (nth_error (ss_regs ss) id).
    Proof.
      induction l as [|s l IH]; intros ss ss' E id J; simpl in E; inv_ok; auto.
      simpl in J. rewrite in_app_iff in J. rewrite (IH _ _ E) by auto. eapply exec_reg_get; eauto.
    Qed.

    (** Effect of one statement on register [id]. *)
    Definition effects (l : list stmt) (id : nat) (effI : option (nillable * option val)) (effU : option val) : Prop :=
      (~ In id (flat_map stmt_inits l) -> effI = None) /\
      (~ In id (flat_map stmt_updates l) -> effU = None) /\
      (forall init c, In (SInit id init c) l -> exists c' n vi, c = Some c' /\ effI = Some (n, vi) /\
         csem' 0 c' T (VS n) /\
         match init with Some e => exists v, vi = Some v /\ csem' 0 e T v | None => vi = None end) /\
      (forall e, In (SUpdate id e) l -> exists w, effU = Some w /\ csem' 0 e T w).

    Definition invss (l : list stmt) (k : nat) (s : estate) : Prop := invs (flat_map stmt_exprs l) 0 k s.

    Lemma invs_frame : forall l lo k cs fs s s',
      framed cs fs s s' -> disjoint (flat_map calls_of l) cs -> disjoint (flat_map flips_of l) fs ->
      invs l lo k s -> invs l lo k s'.
    Proof.
      intros l lo k cs fs s s' F D1 D2 I e J. eapply inv_frame; [exact F| | |apply I; auto].
      - intros x A B. apply (D1 x); auto. apply in_flat_map. eauto.
      - intros x A B. apply (D2 x); auto. apply in_flat_map. eauto.
    Qed.

    (** One statement. *)
    Lemma exec_sound : forall s ss ss',
      exec' s ss = Ok ss' ->
      (forall x n, lookup x (ss_store ss) = Some n -> rho T x = Some n) ->
      (forall x n, lookup x (ss_store ss') = Some n -> rho T x = Some n) ->
      (forall e, In e (stmt_exprs s) -> forall id r, fetches id e -> ~ In id (stmt_inits s) /\
         (nth_error (ss_regs ss) id = Some r -> kappa T id = Some (reg_get r))) ->
      invs (stmt_exprs s) 0 T (ss_es ss) ->
      Forall pure_switches (stmt_exprs s) ->
      NoDup (flat_map calls_of (stmt_exprs s)) -> NoDup (flat_map flips_of (stmt_exprs s)) ->
      NoDup (stmt_targets s) ->
      stmt_holds mode glob rho kappa calls_op nilouts_op T s /\
      invs (stmt_exprs s) 0 (S T) (ss_es ss') /\
      framed (flat_map calls_of (stmt_exprs s)) (flat_map flips_of (stmt_exprs s)) (ss_es ss) (ss_es ss') /\
      (forall id r0, nth_error (ss_regs ss) id = Some r0 -> exists rf effI effU,
         nth_error (ss_regs ss') id = Some rf /\ reg_apply r0 effI effU = Ok rf /\ effects [s] id effI effU).
    Proof.
      assert (same : forall s regs, stmt_inits s = [] -> stmt_updates s = [] ->
        (forall id v c, s <> SInit id v c) -> (forall id v, s <> SUpdate id v) ->
        forall id r0, nth_error regs id = Some r0 -> exists rf effI effU,
         nth_error regs id = Some rf /\ reg_apply r0 effI effU = Ok rf /\ effects [s] id effI effU).
      { intros s regs A B C D id r0 E. exists r0, None, None. split; auto. split; auto.
        repeat split; auto; simpl.
        - intros init c [->|[]]. exfalso. eapply C; eauto.
        - intros e [->|[]]. exfalso. eapply D; eauto. }
      assert (one : forall e (l : list nat) (f : expr -> list nat), flat_map f [e] = f e).
      { intros. simpl. apply app_nil_r. }
      intros [t e|e|id v c|id e] [st regs es] ss' E M M' R I P Nc Nf Nt; simpl in E.
      - inv_ok. cbn [stmt_exprs ss_store ss_regs ss_es] in *. rewrite one in Nc, Nf by exact [].
        inversion P; subst.
        assert (Rk : reg_ok regs e).
        { intros id r9 Fe. apply (R e); simpl; auto. }
        destruct (eval_sound regs st M e 0 _ _ _ E0) as [S1 I1]; auto; [lia|apply I; simpl; auto|].
        split; [|split; [|split]].
        + destruct (bind_target_spec _ _ _ _ E1 Nt) as [_ Mt]. exists v. split; auto.
          eapply matches_mono; [|exact Mt]. auto.
        + intros e' [<-|[]]. auto.
        + rewrite !one by exact []. eapply eval_frame; eauto.
        + apply same; simpl; auto; intros; discriminate.
      - inv_ok. cbn [stmt_exprs ss_store ss_regs ss_es] in *. rewrite one in Nc, Nf by exact [].
        inversion P; subst.
        assert (Rk : reg_ok regs e).
        { intros id r' Fe. apply (R e); simpl; auto. }
        destruct (eval_sound regs st M e 0 _ _ _ E0) as [S1 I1]; auto; [lia|apply I; simpl; auto|].
        split; [|split; [|split]].
        + simpl. unfold val_truth in E1. destruct v as [n|]; simpl in E1; [|discriminate].
          destruct n as [[ | |[|]| ]|]; simpl in E1; try discriminate. auto.
        + intros e' [<-|[]]. auto.
        + rewrite !one by exact []. eapply eval_frame; eauto.
        + apply same; simpl; auto; intros; discriminate.
      - inv_ok. cbn [stmt_exprs ss_store ss_regs ss_es stmt_inits] in *.
        rename r into c'. rename E0 into Ec. rewrite Ec in *. cbn [app] in *.
        assert (Rk : reg_ok regs c').
        { intros id' r' Fe. apply (R c'); simpl; auto. }
        inversion P as [|? ? Pc Pv]; subst.
        assert (Nc' : NoDup (calls_of c') /\ NoDup (flat_map calls_of (match v with Some e => [e] | None => [] end)) /\ disjoint (calls_of c') (flat_map calls_of (match v with Some e => [e] | None => [] end))).
        { apply nodup_app_disjoint. auto. }
        assert (Nf' : NoDup (flips_of c') /\ NoDup (flat_map flips_of (match v with Some e => [e] | None => [] end)) /\ disjoint (flips_of c') (flat_map flips_of (match v with Some e => [e] | None => [] end))).
        { apply nodup_app_disjoint. auto. }
        destruct Nc' as (Nc1 & Nc2 & Dc), Nf' as (Nf1 & Nf2 & Df).
        destruct (eval_sound regs st M c' 0 _ _ _ E2) as [S1 I1]; auto; [lia|apply I; simpl; auto|].
        pose proof (eval_frame _ _ _ _ _ _ _ _ _ _ _ _ E2) as F1.
        assert (v0 = VS r1) by (destruct v0; simpl in E3; inversion E3; auto). subst v0.
        assert (Lid : id < length regs) by (eapply nth_error_some_lt; eauto).
        destruct v as [ev|].
        + inv_ok. destruct (same_shapeb v _) eqn:Sh; inv_ok. rename E0 into Ev.
          cbn [flat_map] in Nc2, Nf2, Dc, Df. rewrite app_nil_r in Nc2, Nf2, Dc, Df.
          inversion Pv; subst.
          assert (Rv : reg_ok (set_nth id r2 regs) ev).
          { intros id' r' Fe Er. destruct (R ev (or_intror (or_introl eq_refl)) id' r' Fe) as [Nn Rr].
            apply Rr. rewrite nth_error_set_nth_neq in Er; auto. intros ->. apply Nn. simpl. auto. }
          assert (Iv : inv ev 0 T e).
          { eapply inv_frame; [exact F1|apply disjoint_sym; auto|apply disjoint_sym; auto|apply I; simpl; auto]. }
          destruct (eval_sound _ st M ev 0 _ _ _ Ev) as [S2 I2]; auto; [lia|].
          pose proof (eval_frame _ _ _ _ _ _ _ _ _ _ _ _ Ev) as F2.
          split; [exact Logic.I|split; [|split]]; cbn [ss_es ss_regs].
          * intros e' [<-|[<-|[]]]; auto. eapply inv_frame; [exact F2|auto|auto|auto].
          * cbn [flat_map]. rewrite !app_nil_r. eapply framed_trans; eauto.
          * intros id' r' Er'. destruct (Nat.eq_dec id id') as [<-|Ne].
            -- rewrite nth_error_set_nth_eq by auto. exists (reg_try_initialize r2 v), (Some (r1, Some v)), None.
               split; auto. rewrite E1 in Er'. inversion Er'; subst.
               split; [unfold reg_apply; rewrite E4; cbn [bind]; rewrite Sh; reflexivity|].
               repeat split; simpl; auto.
               ++ intros J. exfalso. apply J. auto.
               ++ intros init c0 [Eq|[]]. inversion Eq; subst. exists c', r1, (Some v). repeat split; auto. exists v. auto.
               ++ intros e' [Eq|[]]. discriminate.
            -- rewrite nth_error_set_nth_neq by auto. exists r', None, None. split; auto. split; auto.
               repeat split; simpl; auto.
               ++ intros init c0 [Eq|[]]. inversion Eq; congruence.
               ++ intros e' [Eq|[]]. discriminate.
        + inv_ok. split; [exact Logic.I|split; [|split]]; cbn [ss_es ss_regs].
          * intros e' [<-|[]]; auto.
          * cbn [flat_map]. rewrite !app_nil_r. auto.
          * intros id' r' Er'. destruct (Nat.eq_dec id id') as [<-|Ne].
            -- rewrite nth_error_set_nth_eq by auto. exists r2, (Some (r1, None)), None.
               split; auto. rewrite E1 in Er'. inversion Er'; subst.
               split; [unfold reg_apply; rewrite E4; reflexivity|].
               repeat split; simpl; auto.
               ++ intros J. exfalso. apply J. auto.
               ++ intros init c0 [Eq|[]]. inversion Eq; subst. exists c', r1, None. repeat split; auto.
               ++ intros e' [Eq|[]]. discriminate.
            -- rewrite nth_error_set_nth_neq by auto. exists r', None, None. split; auto. split; auto.
               repeat split; simpl; auto.
               ++ intros init c0 [Eq|[]]. inversion Eq; congruence.
               ++ intros e' [Eq|[]]. discriminate.
      - inv_ok. destruct (same_shapeb v _) eqn:Sh; inv_ok. cbn [stmt_exprs ss_store ss_regs ss_es] in *. rewrite one in Nc, Nf by exact [].
        inversion P; subst.
        assert (Rk : reg_ok regs e).
        { intros id' r' Fe. apply (R e); simpl; auto. }
        destruct (eval_sound regs st M e 0 _ _ _ E1) as [S1 I1]; auto; [lia|apply I; simpl; auto|].
        split; [exact Logic.I|split; [|split]].
        + intros e' [<-|[]]. auto.
        + rewrite !one by exact []. eapply eval_frame; eauto.
        + intros id' r' Er'. destruct (Nat.eq_dec id id') as [<-|Ne].
          * rewrite nth_error_set_nth_eq by (eapply nth_error_some_lt; eauto).
            exists (reg_schedule r v), None, (Some v). split; auto. rewrite E0 in Er'. inversion Er'; subst.
            split; [unfold reg_apply; cbn [bind]; rewrite Sh; reflexivity|]. repeat split; simpl; auto.
            -- intros J. exfalso. apply J. auto.
            -- intros init c0 [Eq|[]]. discriminate.
            -- intros e' [Eq|[]]. inversion Eq; subst. eauto.
          * rewrite nth_error_set_nth_neq by auto. exists r', None, None. split; auto. split; auto.
            repeat split; simpl; auto.
            -- intros init c0 [Eq|[]]. discriminate.
            -- intros e' [Eq|[]]. inversion Eq; congruence.
    Qed.
  End Instant.
End Sim.
