(** The generated code of a default-mode node succeeds whenever the operands it
    evaluates have values. *)
From Coq Require Import String List ZArith Bool Arith Lia Permutation.
From Verif Require Import Model.Base Model.Scalar Model.Value Model.History Model.Register Model.Ast Model.Interp
  Model.Graph Model.Causality Spec.StepSpec Spec.CausalitySpec Spec.CoreSem
  Proofs.AstInd Proofs.RuntimeProofs Proofs.InterpBasics Proofs.CoreProofs Proofs.CoreNode Proofs.TranslateSem Proofs.Unique.
Import ListNotations.

Definition bad {A} (r : res A) : Prop := r = Panic PPast \/ r = Panic PUnbound.
Lemma bad_bind : forall {A B} (x : res A) (f : A -> res B), bad x -> bad (bind x f).
Proof. intros A B x f [->| ->]; [left|right]; reflexivity. Qed.
Definition okay {A} (r : res A) : Prop := (exists a, r = Ok a) \/ bad r.
Definition no_fetch (e : expr) : Prop := forall id, ~ fetches id e.

Lemma iter_snoc_inv : forall f args i a os i2, iter f i (args ++ [a]) = Ok (os, i2) ->
  exists os' i' o, iter f i args = Ok (os', i') /\ f i' a = Ok (o, i2) /\ os = os' ++ [o].
Proof.
  induction args as [|b args IH]; intros i a os i2 H; cbn in H; inv_ok.
  - exists [], i, v. cbn. auto.
  - destruct (IH _ _ _ _ E0) as (os' & i' & o & A & B & ->). exists (v :: os'), i', o. cbn. rewrite E. cbn. rewrite A. auto.
Qed.
Lemma ago_panic : forall h d p, ago h d = Panic p -> p = PPast.
Proof. induction h; intros [|[|d]] p H; cbn in H; try congruence. eapply IHh. exact H. Qed.

Section Complete.
  Variable mode : ovf.
  Variable glob : ident -> option scalar.
  Variable call : nat -> inst -> val -> res (val * inst).
  Variable nilout : nat -> res val.
  Variable sub0 : nat -> inst.
  Variable rho : nat -> ident -> option nillable.
  Notation nok := (fun _ _ : nat => @None val).
  Notation cs := (csem mode glob rho nok (calls_op call sub0) (nilouts_op nilout)).
  Notation inv' := (inv mode glob call nilout sub0 rho nok).

  (** Whatever is evaluated with [e] at instant [T] has a value. *)
  Fixpoint whole (lo : nat) (e : expr) (T : nat) : Prop :=
    match e with
    | ELit _ | EVar _ _ | EGlobal _ | EFetch _ _ _ => True
    | ETuple l => (fix go l := match l with [] => True | e :: l => whole lo e T /\ go l end) l
    | EPre e | EParen e | EUn _ e => whole lo e T
    | EBin _ a b | ECmp _ a b | EClock _ a b => whole lo a T /\ whole lo b T
    | ELater d a b => (exists v, cs lo b T v) /\ whole lo b T /\ (T <= d -> whole lo a T)
    | EFlip _ a b => (exists v, cs lo a T v) /\ (exists v, cs lo b T v) /\ whole lo a T /\ whole lo b T
    | EIf a b c | EMerge a b c => whole lo a T /\ whole lo b T /\ whole lo c T
    | ESub d _ a => d <= T -> whole (Nat.max lo d) a T
    end.

  Lemma csem_fun : forall lo e T v v', cs lo e T v -> cs lo e T v' -> v = v'.
  Proof.
    intros lo e T v v' A B. eapply (csem_det mode glob rho rho); [| |exact A|exact B| |].
    - intros id args w w' (os & i & X) (os' & i' & Y). rewrite X in Y. inversion Y as [[Z W]]. apply app_inj_tail in Z. tauto.
    - unfold nilouts_op. intros. congruence.
    - intros x t _ _ a b X Y. congruence.
    - intros x _ a b X Y. congruence.
  Qed.

  Section Instant.
    Variable T : nat.
    Variable hists : list (ident * hist).
    Hypothesis hist_ok : forall x h d n, lookup x hists = Some h -> ago h (S d) = Ok n ->
      if T <=? d then n = Nil else rho (T - S d) x = Some n.

    Section Expr.
      Variable regs : list register.
      Variable st : store.
      Hypothesis env_ok : forall x n, lookup x st = Some n -> rho T x = Some n.
      Notation eval' := (eval mode glob T hists call nilout regs st).
      Notation evals' := (evals mode glob T hists call nilout regs st).

      Lemma no_reg : forall e, no_fetch e -> reg_ok nok T regs e.
      Proof. intros e N id r F. exfalso. eapply N; eauto. Qed.

      Definition ready (e : expr) : Prop := no_fetch e /\ pure_switches e /\ NoDup (calls_of e) /\ NoDup (flips_of e).
      Lemma sound : forall e lo s v s', ready e -> lo <= T -> inv' e lo T s -> eval' e s = Ok (v, s') ->
        cs lo e T v /\ inv' e lo (S T) s' /\ framed (calls_of e) (flips_of e) s s'.
      Proof.
        intros e lo s v s' (N & P & C & F) L I E. destruct (eval_sound mode glob call nilout sub0 rho nok T hists hist_ok regs st env_ok e lo s v s' E L I (no_reg e N) P C F).
        split; auto. split; auto. eapply eval_frame; eauto.
      Qed.

      Definition goes (e : expr) (lo : nat) : Prop := forall s, inv' e lo T s -> okay (eval' e s).

      (** Two expressions in sequence. *)
      Lemma two : forall {A} a b lo s (f : val -> val -> estate -> res A), ready a -> ready b -> lo <= T ->
        disjoint (calls_of a) (calls_of b) -> disjoint (flips_of a) (flips_of b) ->
        goes a lo -> goes b lo -> inv' a lo T s -> inv' b lo T s ->
        (forall va vb s2, cs lo a T va -> cs lo b T vb -> framed (calls_of a ++ calls_of b) (flips_of a ++ flips_of b) s s2 -> okay (f va vb s2)) ->
        okay ('(x, s) <- eval' a s;; '(y, s) <- eval' b s;; f x y s).
      Proof.
        intros A a b lo s f Ra Rb L Dc Df Ga Gb Ia Ib K.
        destruct (Ga _ Ia) as [([va s1] & Ea)|B]; [|right; apply bad_bind; auto]. rewrite Ea. cbn [bind].
        destruct (sound _ _ _ _ _ Ra L Ia Ea) as (Sa & _ & Fa).
        assert (Ib' : inv' b lo T s1) by (eapply inv_frame; [exact Fa|apply disjoint_sym; auto|apply disjoint_sym; auto|auto]).
        destruct (Gb _ Ib') as [([vb s2] & Eb)|B]; [|right; apply bad_bind; auto]. rewrite Eb. cbn [bind].
        destruct (sound _ _ _ _ _ Rb L Ib' Eb) as (Sb & _ & Fb). apply K; auto. eapply framed_trans; eauto.
      Qed.
      Lemma sub_ready : forall a b, no_fetch a -> no_fetch b -> pure_switches a -> pure_switches b -> NoDup (calls_of a ++ calls_of b) -> NoDup (flips_of a ++ flips_of b) ->
        ready a /\ ready b /\ disjoint (calls_of a) (calls_of b) /\ disjoint (flips_of a) (flips_of b).
      Proof.
        intros a b Na Nb Pa Pb C F. destruct (nodup_app_disjoint _ _ C) as (C1 & C2 & C3). destruct (nodup_app_disjoint _ _ F) as (F1 & F2 & F3).
        unfold ready. auto 10.
      Qed.

      Lemma ok_ok : forall {A} (a : A), okay (Ok a).
      Proof. intros. left. eauto. Qed.
      Local Ltac nf := intros ? ?; match goal with N : no_fetch _ |- _ => eapply N; solve [constructor; eauto] end.

      Lemma eval_complete : forall e lo, ready e -> lo <= T -> (exists v, cs lo e T v) -> whole lo e T -> goes e lo.
      Proof.
        induction e using expr_ind'; intros lo (N & P & C & F) L (v & V) W s I.
        - apply ok_ok.
        - rewrite csem_var in V. destruct d as [|d]; cbn [eval].
          + destruct (lookup x st) as [n|] eqn:E; cbn; [apply ok_ok|right; right; auto].
          + destruct (lookup x hists) as [h|] eqn:E; cbn [of_option bind]; [|right; left; auto].
            destruct (ago h (S d)) as [n|pn] eqn:A; cbn [bind]; [apply ok_ok|]. right. left. apply ago_panic in A. subst. auto.
        - rewrite csem_global in V. destruct V as (g & V & _). cbn. rewrite V. apply ok_ok.
        - rewrite eval_tuple. rewrite csem_tuple in V. destruct V as (vs & V & _). rewrite inv_tuple in I.
          assert (G : okay (evals' l s)).
          { cbn [calls_of flips_of] in C, F. cbn [pure_switches] in P. cbn [whole] in W.
            assert (N' : forall e, In e l -> no_fetch e) by (intros e J id K; apply (N id); econstructor; eauto). clear N.
            revert vs V s I N' P C F W. induction H as [|e l He H IH]; intros vs V s I N' P C F W; cbn [evals]; [apply ok_ok|].
            cbn [flat_map] in C, F. destruct P as [Pe Pl], W as [We Wl]. rewrite csems_cons in V. destruct V as (a & vs' & -> & Va & Vl).
            destruct (nodup_app_disjoint _ _ C) as (C1 & C2 & C3). destruct (nodup_app_disjoint _ _ F) as (F1 & F2 & F3).
            assert (Re : ready e) by (repeat split; auto; apply N'; cbn; auto).
            assert (Ie : inv' e lo T s) by (apply I; cbn; auto).
            destruct (He lo Re L (ex_intro _ _ Va) We s Ie) as [([w s1] & E)|B]; [|right; apply bad_bind; auto]. rewrite E. cbn [bind].
            destruct (sound _ _ _ _ _ Re L Ie E) as (_ & _ & Fr).
            destruct (IH vs' Vl s1) as [([ws s2] & E2)|B]; auto.
            { intros e' J. eapply inv_frame; [exact Fr| | |apply I; cbn; auto]; intros x X Y; [apply (C3 x)|apply (F3 x)]; auto; apply in_flat_map; eauto. }
            { intros e' J. apply N'. cbn. auto. }
            - rewrite E2. cbn. apply ok_ok.
            - right. apply bad_bind. auto. }
          destruct G as [([ws s2] & E)|B]; [rewrite E; cbn; apply ok_ok|right; apply bad_bind; auto].
        - rewrite csem_pre in V. cbn [eval]. apply (IHe lo); auto; [|eauto]. repeat split; auto. nf.
        - rewrite csem_paren in V. cbn [eval]. apply (IHe lo); auto; [|eauto]. repeat split; auto. nf.
        - rewrite csem_bin in V. destruct V as (va & vb & Va & Vb & Q). cbn [eval]. destruct P as [Pa Pb], I as [Ia Ib], W as [Wa Wb].
          destruct (sub_ready e1 e2) as (R1 & R2 & D1 & D2); auto; try nf.
          eapply two; eauto. intros xa xb s2 X Y _. rewrite (csem_fun _ _ _ _ _ X Va), (csem_fun _ _ _ _ _ Y Vb), Q. apply ok_ok.
        - rewrite csem_un in V. destruct V as (va & Va & Q). cbn [eval]. assert (Re : ready e) by (repeat split; auto; nf).
          destruct (IHe lo Re L (ex_intro _ _ Va) W s I) as [([w s1] & E)|B]; [|right; apply bad_bind; auto]. rewrite E. cbn [bind].
          destruct (sound _ _ _ _ _ Re L I E) as (X & _). rewrite (csem_fun _ _ _ _ _ X Va), Q. apply ok_ok.
        - rewrite csem_cmp in V. destruct V as (va & vb & Va & Vb & Q). cbn [eval]. destruct P as [Pa Pb], I as [Ia Ib], W as [Wa Wb].
          destruct (sub_ready e1 e2) as (R1 & R2 & D1 & D2); auto; try nf.
          eapply two; eauto. intros xa xb s2 X Y _. rewrite (csem_fun _ _ _ _ _ X Va), (csem_fun _ _ _ _ _ Y Vb), Q. apply ok_ok.
        - rewrite csem_clock in V. destruct V as (va & vb & Va & Vb & Q). cbn [eval]. destruct P as [Pa Pb], I as [Ia Ib], W as [Wa Wb].
          destruct (sub_ready e1 e2) as (R1 & R2 & D1 & D2); auto; try nf.
          eapply two; eauto using disjoint_sym. intros xb xa s2 Y X _. rewrite (csem_fun _ _ _ _ _ X Va), (csem_fun _ _ _ _ _ Y Vb), Q. apply ok_ok.
        - rewrite csem_later in V. cbn [eval]. destruct P as [Pa Pb], I as [Ia Ib], W as [(vb & Vb) [Wb Wa]].
          destruct (sub_ready e1 e2) as (R1 & R2 & D1 & D2); auto; try nf.
          destruct (IHe2 lo R2 L (ex_intro _ _ Vb) Wb s Ib) as [([w s1] & E)|B]; [|right; apply bad_bind; auto]. rewrite E. cbn [bind].
          destruct (Nat.ltb_spec d T); [apply ok_ok|]. destruct V as [(_ & V)|(Q & _)]; [|lia].
          destruct (sound _ _ _ _ _ R2 L Ib E) as (_ & _ & Fr). apply (IHe1 lo); eauto.
          eapply inv_frame; [exact Fr|auto|auto|auto].
        - exfalso. apply (N id). constructor.
        - cbn [eval]. destruct P as [Pa Pb], I as (Ia & Ib & f & Ef & _), W as ((va & Va) & (vb & Vb) & Wa & Wb). cbn [calls_of flips_of] in C, F.
          apply NoDup_cons_iff in F. destruct F as [Fi F].
          destruct (sub_ready e1 e2) as (R1 & R2 & D1 & D2); auto; try nf.
          eapply two; eauto. intros xa xb s2 _ _ (_ & Fr & _). rewrite Fr, Ef by auto. cbn. destruct (flip_instant f xa xb). apply ok_ok.
        - rewrite csem_if in V. destruct V as (vc & va & vb & Vc & Va & Vb & Q). cbn [eval]. destruct P as (Pc & Pa & Pb), I as (Ic & Ia & Ib), W as (Wc & Wa & Wb).
          cbn [calls_of flips_of] in C, F. destruct (nodup_app_disjoint _ _ C) as (C1 & C2 & C3). destruct (nodup_app_disjoint _ _ F) as (F1 & F2 & F3).
          destruct (sub_ready e2 e3) as (R2 & R3 & D1 & D2); auto; try nf.
          assert (R1 : ready e1) by (repeat split; auto; nf).
          eapply two; eauto. intros xa xb s2 X Y Fr.
          assert (Ic' : inv' e1 lo T s2) by (eapply inv_frame; [exact Fr|auto|auto|auto]).
          destruct (IHe1 lo R1 L (ex_intro _ _ Vc) Wc s2 Ic') as [([w s3] & E)|B]; [|right; apply bad_bind; auto]. rewrite E. cbn [bind].
          destruct (sound _ _ _ _ _ R1 L Ic' E) as (Z & _). rewrite (csem_fun _ _ _ _ _ X Va), (csem_fun _ _ _ _ _ Y Vb), (csem_fun _ _ _ _ _ Z Vc), Q. apply ok_ok.
        - rewrite csem_merge in V. destruct V as (vc & va & vb & Vc & Va & Vb & Q). cbn [eval]. destruct P as ((Ec & Efl) & Pc & Pa & Pb), I as (Ic & Ia & Ib), W as (Wc & Wa & Wb).
          cbn [calls_of flips_of] in C, F. rewrite Ec in C. rewrite Efl in F. cbn [app] in C, F.
          destruct (sub_ready e2 e3) as (R2 & R3 & D1 & D2); auto; try nf.
          assert (R1 : ready e1) by (repeat split; auto; [nf|rewrite Ec; constructor|rewrite Efl; constructor]).
          assert (An : forall s s', inv' e1 lo T s -> inv' e1 lo T s') by (intros t t' J; eapply inv_ext; [| |exact J]; rewrite ?Ec, ?Efl; intros ? []).
          destruct (IHe1 lo R1 L (ex_intro _ _ Vc) Wc s Ic) as [([w0 s0] & E0)|B]; [|right; apply bad_bind; auto]. rewrite E0. cbn [bind].
          destruct (sound _ _ _ _ _ R1 L Ic E0) as (_ & _ & Fr0). rewrite Ec, Efl in Fr0.
          assert (Keep : forall e, inv' e lo T s -> inv' e lo T s0) by (intros e J; eapply inv_frame; [exact Fr0| | |exact J]; intros ? _ []).
          eapply two; eauto. intros xa xb s2 X Y _.
          assert (Ic' : inv' e1 lo T s2) by (eapply An; exact Ic).
          destruct (IHe1 lo R1 L (ex_intro _ _ Vc) Wc s2 Ic') as [([w s3] & E)|B]; [|right; apply bad_bind; auto]. rewrite E. cbn [bind].
          destruct (sound _ _ _ _ _ R1 L Ic' E) as (Z & _). rewrite (csem_fun _ _ _ _ _ X Va), (csem_fun _ _ _ _ _ Y Vb), (csem_fun _ _ _ _ _ Z Vc), Q. apply ok_ok.
        - rewrite csem_sub in V. cbn [eval]. cbn [whole] in W. cbn [pure_switches] in P. cbn [calls_of flips_of] in C, F. apply NoDup_cons_iff in C. destruct C as [Ci C].
          destruct I as (I & args & os & sub & La & Sa & It & Es).
          destruct V as [(Q & V)|(Q & args' & La' & Sa' & os' & i2 & It')].
          + replace (d <=? T) with false by (symmetry; apply Nat.leb_gt; auto). red in V. rewrite V. apply ok_ok.
          + replace (d <=? T) with true by (symmetry; apply Nat.leb_le; auto).
            assert (Re : ready e) by (repeat split; auto; nf).
            assert (Lm : Nat.max lo d <= T) by lia.
            destruct (exists_last (l := args')) as (args0 & a0 & ->); [intros ->; cbn [length] in La'; lia|]. rewrite app_length in La'. cbn [length] in La'.
            assert (Va : cs (Nat.max lo d) e T a0).
            { replace T with (Nat.max lo d + length args0) by lia. apply Sa'. rewrite nth_error_app2, Nat.sub_diag by lia. reflexivity. }
            destruct (IHe _ Re Lm (ex_intro _ _ Va) (W Q) s I) as [([w s1] & E)|B]; [|right; apply bad_bind; auto]. rewrite E. cbn [bind].
            destruct (sound _ _ _ _ _ Re Lm I E) as (Z & _ & (Fr & _)). rewrite Fr, Es by auto. cbn [of_option bind].
            rewrite (csem_fun _ _ _ _ _ Z Va). assert (args0 = args).
            { clear - La La' Sa Sa'. assert (X : forall j, nth_error args0 j = nth_error args j).
              { intros j. destruct (nth_error args0 j) as [x|] eqn:A, (nth_error args j) as [y|] eqn:B; auto.
                - f_equal. eapply csem_fun; [apply Sa'|apply Sa; exact B]. rewrite nth_error_app1; auto. apply nth_error_Some. congruence.
                - apply nth_error_None in B. assert (j < length args0) by (apply nth_error_Some; congruence). lia.
                - apply nth_error_None in A. assert (j < length args) by (apply nth_error_Some; congruence). lia. }
              clear - X. revert args X. induction args0 as [|a l IH]; intros [|b m] X; auto; try (specialize (X 0); discriminate).
              f_equal; [specialize (X 0); cbn in X; congruence|]. apply IH. intros j. apply (X (S j)). }
            subst args0. apply iter_snoc_inv in It'. destruct It' as (os1 & i1 & o & A & B & _). rewrite A in It. inversion It; subst. rewrite B. cbn. apply ok_ok.
      Qed.

      (** Conversely, an expression that was evaluated without failing had
          values for everything it evaluates. *)
      Lemma eval_whole : forall e lo s v s', ready e -> lo <= T -> inv' e lo T s -> eval' e s = Ok (v, s') -> whole lo e T.
      Proof.
        assert (Two : forall a b lo s va sa vb sb, ready a -> ready b -> lo <= T -> disjoint (calls_of a) (calls_of b) -> disjoint (flips_of a) (flips_of b) ->
          (forall lo s v s', ready a -> lo <= T -> inv' a lo T s -> eval' a s = Ok (v, s') -> whole lo a T) ->
          (forall lo s v s', ready b -> lo <= T -> inv' b lo T s -> eval' b s = Ok (v, s') -> whole lo b T) ->
          inv' a lo T s -> inv' b lo T s -> eval' a s = Ok (va, sa) -> eval' b sa = Ok (vb, sb) ->
          (cs lo a T va /\ cs lo b T vb) /\ whole lo a T /\ whole lo b T /\ framed (calls_of a ++ calls_of b) (flips_of a ++ flips_of b) s sb).
        { intros a b lo s va sa vb sb Ra Rb L Dc Df Ga Gb Ia Ib Ea Eb.
          destruct (sound _ _ _ _ _ Ra L Ia Ea) as (Sa & _ & Fa).
          assert (Ib' : inv' b lo T sa) by (eapply inv_frame; [exact Fa|apply disjoint_sym; auto|apply disjoint_sym; auto|auto]).
          destruct (sound _ _ _ _ _ Rb L Ib' Eb) as (Sb & _ & Fb).
          repeat split; eauto; eapply framed_trans; eauto. }
        induction e using expr_ind'; intros lo s v s' (N & P & C & F) L I E.
        - exact Logic.I.
        - exact Logic.I.
        - exact Logic.I.
        - rewrite eval_tuple in E. apply bind_ok in E. destruct E as ([vs s2] & E & _). rewrite inv_tuple in I.
          cbn [calls_of flips_of] in C, F. cbn [pure_switches] in P. cbn [whole].
          assert (N' : forall e, In e l -> no_fetch e) by (intros e J id K; apply (N id); econstructor; eauto). clear N.
          revert vs s E I N' P C F. induction H as [|e l He H IH]; intros vs s E I N' P C F; [exact Logic.I|]. cbn [evals] in E.
          apply bind_ok in E. destruct E as ([w s1] & E & E2). apply bind_ok in E2. destruct E2 as ([ws s3] & E2 & E3). inversion E3; subst.
          cbn [flat_map] in C, F. destruct P as [Pe Pl].
          destruct (nodup_app_disjoint _ _ C) as (C1 & C2 & C3). destruct (nodup_app_disjoint _ _ F) as (F1 & F2 & F3).
          assert (Re : ready e) by (repeat split; auto; apply N'; cbn; auto).
          assert (Ie : inv' e lo T s) by (apply I; cbn; auto).
          destruct (sound _ _ _ _ _ Re L Ie E) as (_ & _ & Fr). split; [eapply He; eauto|].
          eapply IH; eauto.
          + intros e' J. eapply inv_frame; [exact Fr| | |apply I; cbn; auto]; intros x X Y; [apply (C3 x)|apply (F3 x)]; auto; apply in_flat_map; eauto.
          + intros e' J. apply N'. cbn. auto.
        - cbn [eval] in E. eapply (IHe lo); eauto. repeat split; auto. nf.
        - cbn [eval] in E. eapply (IHe lo); eauto. repeat split; auto. nf.
        - cbn [eval] in E. inv_ok. destruct P as [Pa Pb], I as [Ia Ib]. destruct (sub_ready e1 e2) as (R1 & R2 & D1 & D2); auto; try nf.
          edestruct (Two e1 e2) as (_ & A & B & _); eauto. split; auto.
        - cbn [eval] in E. inv_ok. eapply (IHe lo); eauto. repeat split; auto. nf.
        - cbn [eval] in E. inv_ok. destruct P as [Pa Pb], I as [Ia Ib]. destruct (sub_ready e1 e2) as (R1 & R2 & D1 & D2); auto; try nf.
          edestruct (Two e1 e2) as (_ & A & B & _); eauto. split; auto.
        - cbn [eval] in E. inv_ok. destruct P as [Pa Pb], I as [Ia Ib]. destruct (sub_ready e1 e2) as (R1 & R2 & D1 & D2); auto; try nf.
          edestruct (Two e2 e1) as (_ & A & B & _); eauto using disjoint_sym. split; auto.
        - cbn [eval] in E. apply bind_ok in E. destruct E as ([w s1] & E1 & E). destruct P as [Pa Pb], I as [Ia Ib].
          destruct (sub_ready e1 e2) as (R1 & R2 & D1 & D2); auto; try nf.
          destruct (sound _ _ _ _ _ R2 L Ib E1) as (X & _ & Fr). split; [eauto|]. split; [eauto|]. intros Q.
          replace (d <? T) with false in E by (symmetry; apply Nat.ltb_ge; auto).
          apply (IHe1 lo s1 v s'); auto. eapply inv_frame; [exact Fr|auto|auto|auto].
        - exact Logic.I.
        - cbn [eval] in E. apply bind_ok in E. destruct E as ([va sa] & E1 & E). apply bind_ok in E. destruct E as ([vb sb] & E2 & E).
          destruct P as [Pa Pb], I as (Ia & Ib & _). cbn [calls_of flips_of] in C, F. apply NoDup_cons_iff in F. destruct F as [Fi F].
          destruct (sub_ready e1 e2) as (R1 & R2 & D1 & D2); auto; try nf.
          edestruct (Two e1 e2) as ((X & Y) & A & B & _); eauto. repeat split; eauto.
        - cbn [eval] in E. apply bind_ok in E. destruct E as ([va sa] & E1 & E). apply bind_ok in E. destruct E as ([vb sb] & E2 & E). apply bind_ok in E. destruct E as ([vc sc] & E3 & E).
          destruct P as (Pc & Pa & Pb), I as (Ic & Ia & Ib). cbn [calls_of flips_of] in C, F. destruct (nodup_app_disjoint _ _ C) as (C1 & C2 & C3). destruct (nodup_app_disjoint _ _ F) as (F1 & F2 & F3).
          destruct (sub_ready e2 e3) as (R2 & R3 & D1 & D2); auto; try nf.
          assert (R1 : ready e1) by (repeat split; auto; nf).
          edestruct (Two e2 e3) as (_ & A & B & Fr); eauto. split; [|split; auto].
          eapply IHe1; [auto|auto| |exact E3]. eapply inv_frame; [exact Fr|auto|auto|auto].
        - cbn [eval] in E. apply bind_ok in E. destruct E as ([v0 s0] & E0 & E). apply bind_ok in E. destruct E as ([va sa] & E1 & E). apply bind_ok in E. destruct E as ([vb sb] & E2 & E).
          destruct P as ((Ec & Efl) & Pc & Pa & Pb), I as (Ic & Ia & Ib). cbn [calls_of flips_of] in C, F. rewrite Ec in C. rewrite Efl in F. cbn [app] in C, F.
          destruct (sub_ready e2 e3) as (R2 & R3 & D1 & D2); auto; try nf.
          assert (R1 : ready e1) by (repeat split; auto; [nf|rewrite Ec; constructor|rewrite Efl; constructor]).
          destruct (sound _ _ _ _ _ R1 L Ic E0) as (_ & _ & Fr0). rewrite Ec, Efl in Fr0.
          assert (Keep : forall e, inv' e lo T s -> inv' e lo T s0) by (intros e J; eapply inv_frame; [exact Fr0| | |exact J]; intros ? _ []).
          destruct (Two e2 e3 lo s0 va sa vb sb) as (_ & A & B & Fr); auto. split; [eapply IHe1; eauto|auto].
        - cbn [eval] in E. cbn [whole]. intros Q. replace (d <=? T) with true in E by (symmetry; apply Nat.leb_le; auto).
          apply bind_ok in E. destruct E as ([va sa] & E1 & E). destruct I as (I & _). cbn [calls_of flips_of] in C, F. apply NoDup_cons_iff in C. destruct C as [Ci C].
          eapply IHe; eauto; [repeat split; auto; nf|lia].
      Qed.
    End Expr.

    Definition plain (s : stmt) : Prop :=
      match s with SLet _ e | SAssert e => no_fetch e | SInit _ _ _ | SUpdate _ _ => False end.
    Notation holds' := (stmt_holds mode glob rho nok (calls_op call sub0) (nilouts_op nilout) T).
    Notation invs' := (invs mode glob call nilout sub0 rho nok).
    Notation exec' := (exec mode glob T hists call nilout).
    Notation execs' := (execs mode glob T hists call nilout).
    Definition whole_stmt (s : stmt) : Prop := forall e, In e (stmt_exprs s) -> whole 0 e T.
    Definition agrees (st : store) : Prop := forall x n, lookup x st = Some n -> rho T x = Some n.

    Lemma exec_keeps : forall s ss ss', plain s -> exec' s ss = Ok ss' -> agrees (ss_store ss) -> agrees (ss_store ss') ->
      invs' (stmt_exprs s) 0 T (ss_es ss) -> Forall pure_switches (stmt_exprs s) ->
      NoDup (flat_map calls_of (stmt_exprs s)) -> NoDup (flat_map flips_of (stmt_exprs s)) -> NoDup (stmt_targets s) ->
      holds' s /\ whole_stmt s /\ invs' (stmt_exprs s) 0 (S T) (ss_es ss') /\
      framed (flat_map calls_of (stmt_exprs s)) (flat_map flips_of (stmt_exprs s)) (ss_es ss) (ss_es ss').
    Proof.
      intros s ss ss' Pl E A0 A1 I P C F Nt.
      destruct (exec_sound mode glob call nilout sub0 rho nok T hists hist_ok s ss ss' E A0 A1) as (S1 & I1 & F1 & _); auto.
      { intros e J id r Fe. exfalso. destruct s; cbn in Pl, J; try tauto; destruct J as [<-|[]]; eapply Pl; eauto. }
      split; auto. split; [|auto]. intros e J. destruct ss as [st regs es].
      assert (R : ready e /\ exists v s', eval mode glob T hists call nilout regs st e es = Ok (v, s')).
      { destruct s; cbn in Pl, J; try tauto; destruct J as [<-|[]]; cbn [stmt_exprs flat_map] in C, F; rewrite app_nil_r in C, F; inversion P; subst;
          (split; [repeat split; auto|]); cbn [exec] in E; apply bind_ok in E; destruct E as ([v s'] & E & _); eauto. }
      destruct R as (R & v & s' & Ev). exact (eval_whole regs st A0 e 0 es v s' R (Nat.le_0_l _) (I e J) Ev).
    Qed.

    Lemma bind_target_complete : forall (env : ident -> option nillable) t v st, matches env t v ->
      exists st', bind_target t v st = Ok st' /\ forall x n, lookup x st' = Some n -> lookup x st = Some n \/ env x = Some n.
    Proof.
      intros env. induction t using vartuple_ind'; intros v st M.
      - inversion M; subst. exists ((x, n) :: st). split; auto. intros y m. cbn. destruct (String.eqb_spec y x); [intros E; inversion E; subst; auto|auto].
      - destruct l as [|t [|t' l]].
        + exists st. split; auto.
        + inversion M; subst; [|cbn in *; lia]. pose proof (Forall_inv H) as Ht. destruct (Ht v st) as (st' & A & B); auto. exists st'. split; auto.
        + assert (Go : forall m, Forall (fun t => forall v st, matches env t v -> exists st', bind_target t v st = Ok st' /\
              forall x n, lookup x st' = Some n -> lookup x st = Some n \/ env x = Some n) m ->
            forall vs st, Forall2 (matches env) m vs -> exists st',
            (fix go (l : list vartuple) (vs : list val) (st : store) : res store :=
               match l, vs with
               | [], [] => Ok st
               | t :: l, v :: vs => st <- bind_target t v st;; go l vs st
               | _, _ => Panic PType
               end) m vs st = Ok st' /\ forall x n, lookup x st' = Some n -> lookup x st = Some n \/ env x = Some n).
          { clear. induction 1 as [|a m Ha H IH]; intros vs st M; inversion M; subst.
            - exists st. split; auto.
            - destruct (Ha y st) as (s1 & A & B); auto. rewrite A. cbn [bind]. edestruct IH as (s2 & A2 & B2); [eassumption|]. exists s2. split; [exact A2|].
              intros x n L. destruct (B2 _ _ L); auto. }
          inversion M; subst. apply (Go (t :: t' :: l)); auto.
    Qed.

    Lemma exec_complete : forall s ss, plain s -> agrees (ss_store ss) ->
      invs' (stmt_exprs s) 0 T (ss_es ss) -> Forall pure_switches (stmt_exprs s) ->
      NoDup (flat_map calls_of (stmt_exprs s)) -> NoDup (flat_map flips_of (stmt_exprs s)) ->
      holds' s -> whole_stmt s ->
      (exists ss', exec' s ss = Ok ss' /\ agrees (ss_store ss')) \/ bad (exec' s ss).
    Proof.
      intros s [st regs es] Pl A I P C F H W.
      destruct s as [t e|e|id v c|id e]; cbn in Pl; try tauto; cbn [stmt_exprs flat_map] in C, F; rewrite app_nil_r in C, F; inversion P; subst; cbn [ss_store ss_es] in *.
      - destruct H as (v & V & M). assert (R : ready e) by (repeat split; auto).
        assert (Ie : inv' e 0 T es) by (apply I; cbn; auto).
        destruct (eval_complete regs st A e 0 R (Nat.le_0_l _) (ex_intro _ _ V) (W e (or_introl eq_refl)) es Ie) as [([w s'] & E)|B].
        + destruct (sound regs st A _ _ _ _ _ R (Nat.le_0_l _) Ie E) as (X & _). rewrite (csem_fun _ _ _ _ _ X V) in E.
          destruct (bind_target_complete (rho T) t v st M) as (st' & Eb & Ag). left. exists (mkSs st' regs s'). cbn [exec]. rewrite E. cbn [bind]. rewrite Eb. cbn [bind].
          split; auto. intros x n L. destruct (Ag _ _ L); auto.
        + right. cbn [exec]. apply bad_bind. auto.
      - cbn [stmt_holds] in H. assert (R : ready e) by (repeat split; auto).
        assert (Ie : inv' e 0 T es) by (apply I; cbn; auto).
        destruct (eval_complete regs st A e 0 R (Nat.le_0_l _) (ex_intro _ _ H) (W e (or_introl eq_refl)) es Ie) as [([w s'] & E)|B].
        + destruct (sound regs st A _ _ _ _ _ R (Nat.le_0_l _) Ie E) as (X & _). rewrite (csem_fun _ _ _ _ _ X H) in E.
          left. exists (mkSs st regs s'). cbn [exec]. rewrite E. cbn. auto.
        + right. cbn [exec]. apply bad_bind. auto.
    Qed.

    Section Execs.
      Definition fit (l : list stmt) (ss : sstate) : Prop :=
        Forall plain l /\ NoDup (flat_map stmt_targets l) /\ agrees (ss_store ss) /\ invs' (flat_map stmt_exprs l) 0 T (ss_es ss) /\
        Forall pure_switches (flat_map stmt_exprs l) /\
        NoDup (flat_map calls_of (flat_map stmt_exprs l)) /\ NoDup (flat_map flips_of (flat_map stmt_exprs l)).

      Lemma fit_cons : forall s l ss ss1, fit (s :: l) ss -> agrees (ss_store ss1) -> exec' s ss = Ok ss1 ->
        holds' s /\ whole_stmt s /\ fit l ss1 /\
        (forall ssf, framed (flat_map calls_of (flat_map stmt_exprs l)) (flat_map flips_of (flat_map stmt_exprs l)) (ss_es ss1) (ss_es ssf) ->
          invs' (stmt_exprs s) 0 (S T) (ss_es ssf) /\
          framed (flat_map calls_of (flat_map stmt_exprs (s :: l))) (flat_map flips_of (flat_map stmt_exprs (s :: l))) (ss_es ss) (ss_es ssf)).
      Proof.
        intros s l ss ss1 (Pl & Nt & A & I & P & C & F) A1 E1. cbn [flat_map] in *. rewrite !flat_map_app in *.
        inversion Pl; subst. destruct (nodup_str_app _ _ Nt) as (Nt1 & Nt2 & Dt).
        destruct (nodup_app_disjoint _ _ C) as (C1 & C2 & Dc). destruct (nodup_app_disjoint _ _ F) as (F1 & F2 & Df).
        apply Forall_app in P. destruct P as [P1 P2].
        destruct (exec_keeps s ss ss1) as (S1 & W1 & I1 & Fr); auto. { intros e J. apply I. apply in_app_iff. auto. }
        split; auto. split; auto. split.
        - repeat split; auto. assert (I0 : invs' (flat_map stmt_exprs l) 0 T (ss_es ss)) by (intros e J; apply I; apply in_app_iff; auto).
          eapply invs_frame; [exact Fr|apply disjoint_sym; auto|apply disjoint_sym; auto|exact I0].
        - intros ssf Fr2. split; [|eapply framed_trans; eauto].
          eapply invs_frame; [exact Fr2|exact Dc|exact Df|exact I1].
      Qed.

      Lemma execs_keeps : forall l ss ssf, fit l ss -> execs' l ss = Ok ssf -> agrees (ss_store ssf) ->
        (forall x n, lookup x (ss_store ss) = Some n -> ~ In x (flat_map stmt_targets l)) ->
        (forall s, In s l -> holds' s /\ whole_stmt s) /\ invs' (flat_map stmt_exprs l) 0 (S T) (ss_es ssf) /\
        framed (flat_map calls_of (flat_map stmt_exprs l)) (flat_map flips_of (flat_map stmt_exprs l)) (ss_es ss) (ss_es ssf).
      Proof.
        induction l as [|s l IH]; intros ss ssf Ft E Af Dm; cbn [execs] in E.
        - inversion E; subst. split; [intros s []|]. split; [intros e []|]. apply framed_refl.
        - apply bind_ok in E. destruct E as (ss1 & E1 & E).
          assert (Nt := proj1 (proj2 Ft)). cbn [flat_map] in Nt, Dm. destruct (nodup_str_app _ _ Nt) as (Nt1 & Nt2 & Dt).
          assert (M1 : forall x n, lookup x (ss_store ss1) = Some n -> ~ In x (flat_map stmt_targets l)).
          { intros x n L J. destruct (in_dec string_dec x (stmt_targets s)) as [K|K].
            - eapply Dt; eauto.
            - rewrite (exec_store _ _ _ _ _ _ _ _ _ E1 Nt1 x K) in L. eapply Dm; eauto. apply in_app_iff. auto. }
          assert (A1 : agrees (ss_store ss1)).
          { intros x n L. apply Af. rewrite (execs_store _ _ _ _ _ _ _ _ _ E Nt2 x); eauto. }
          destruct (fit_cons _ _ _ _ Ft A1 E1) as (S1 & W1 & Ft1 & K).
          destruct (IH _ _ Ft1 E Af M1) as (X & Y & Z). destruct (K _ Z) as (I1 & Fr).
          split; [|split; auto].
          + intros s' [<-|J]; auto.
          + cbn [flat_map]. intros e J. apply in_app_iff in J. destruct J; auto.
      Qed.

      Lemma execs_complete : forall l ss, fit l ss -> (forall s, In s l -> holds' s /\ whole_stmt s) ->
        (exists ssf, execs' l ss = Ok ssf /\ agrees (ss_store ssf) /\ invs' (flat_map stmt_exprs l) 0 (S T) (ss_es ssf) /\
          framed (flat_map calls_of (flat_map stmt_exprs l)) (flat_map flips_of (flat_map stmt_exprs l)) (ss_es ss) (ss_es ssf)) \/
        bad (execs' l ss).
      Proof.
        induction l as [|s l IH]; intros ss Ft H; cbn [execs].
        - left. exists ss. split; auto. split; [apply Ft|]. split; [intros e []|apply framed_refl].
        - destruct (H s) as [Hs Ws]; [cbn; auto|].
          assert (O : (exists ss', exec' s ss = Ok ss' /\ agrees (ss_store ss')) \/ bad (exec' s ss)).
          { destruct Ft as (Pl & Nt & A & I & P & C & F). cbn [flat_map] in *. rewrite !flat_map_app in *. inversion Pl; subst.
            destruct (nodup_app_disjoint _ _ C) as (C1 & C2 & Dc). destruct (nodup_app_disjoint _ _ F) as (F1 & F2 & Df).
            apply Forall_app in P. destruct P as [P1 P2]. apply exec_complete; auto. intros e J. apply I. apply in_app_iff. auto. }
          destruct O as [(ss1 & E1 & A1)|B]; [|right; apply bad_bind; auto]. rewrite E1. cbn [bind].
          destruct (fit_cons _ _ _ _ Ft A1 E1) as (_ & _ & Ft1 & K).
          destruct (IH ss1 Ft1) as [(ssf & E & A & I & Fr)|B]; [intros s' J; apply H; cbn; auto| |right; auto].
          left. exists ssf. destruct (K _ Fr) as (I1 & Fr'). split; auto. split; auto. split; auto.
          cbn [flat_map]. intros e J. apply in_app_iff in J. destruct J; auto.
      Qed.
    End Execs.
  End Instant.
End Complete.
