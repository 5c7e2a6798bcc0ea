(** The values of an expression are present exactly when its clock is active. *)
From Coq Require Import String List ZArith Bool Arith Lia.
From Verif Require Import Model.Base Model.Scalar Model.Value Model.Ast Model.Interp Model.Surface
  Spec.SurfaceSem Spec.ClockSpec Proofs.OutBasics Proofs.TranslateSem Proofs.Paces.
Import ListNotations.

Lemma all_of_in : forall {A} (P : A -> Prop) l, all_of P l -> forall a, In a l -> P a.
Proof. induction l as [|b l IH]; intros H a []; destruct H; subst; auto. Qed.
Lemma all_from_nth : forall {A} (P : Z -> A -> Prop) l i, all_from P i l -> forall j a, nth_error l j = Some a -> P (i + Z.of_nat j)%Z a.
Proof.
  induction l as [|b l IH]; intros i H [|j] a E; cbn in E; try discriminate; destruct H as [H1 H2].
  - inversion E; subst. rewrite Z.add_0_r. auto.
  - specialize (IH _ H2 _ _ E). replace (i + Z.of_nat (S j))%Z with (i + 1 + Z.of_nat j)%Z by lia. auto.
Qed.

Lemma empty_first : forall v, empty v -> first_is_nil v = true.
Proof.
  fix IH 2. intros v E. destruct E as [|l Ne Fl]; [reflexivity|]. destruct Fl as [|v l Hv Hl]; [congruence|]. cbn. apply IH. exact Hv.
Qed.
Lemma full_first : forall S v, full S v -> first_is_nil v = false.
Proof.
  intros S. fix IH 2. intros v E. destruct E as [s Hs|l Ne Fl]; [reflexivity|]. destruct Fl as [|v l Hv Hl]; [congruence|]. cbn. apply IH. exact Hv.
Qed.
Lemma nil_full : forall S v, full S v -> empty (all_nil v).
Proof.
  intros S. fix IH 2. intros v E. destruct E as [s Hs|l Ne Fl]; cbn; constructor.
  - destruct l; [congruence|discriminate].
  - clear Ne. induction Fl; cbn; constructor; auto.
Qed.
Lemma nil_empty : forall v, empty v -> empty (all_nil v).
Proof.
  fix IH 2. intros v E. destruct E as [|l Ne Fl]; cbn; constructor.
  - destruct l; [congruence|discriminate].
  - clear Ne. induction Fl; cbn; constructor; auto.
Qed.

Section Presence.
  Variable mode : ovf.
  Variable glob : ident -> option scalar.
  Variable locals : list ident.
  Variable env : ident -> option pace.
  Variables rho rho2 : nat -> ident -> option nillable.
  Variable F : ident -> list val -> val -> Prop.
  Variable N : ident -> val -> Prop.
  Variable floats : bool.
  Notation S_ := (allowed floats).
  Notation sm := (sem mode glob locals rho2 F N).
  Notation act k t := (active rho k t).
  Hypothesis Hin : forall x, In x locals -> exists k, env x = Some k /\ k <> Free.
  Hypothesis Hout : forall x, ~ In x locals -> env x = None.
  Hypothesis Hglob : forall x s, glob x = Some s -> S_ s.
  Definition pres (k : pace) (t : Z) (v : val) : Prop := (act k t -> full S_ v) /\ (~ act k t -> empty v).
  Hypothesis Hrho : forall t x n k, In x locals -> rho2 t x = Some n -> env x = Some k ->
    rho t x = Some n /\ pres k (Z.of_nat t) (VS n).
  Hypothesis HF : forall f args w v, F f (args ++ [w]) v ->
    (forall u, In u (args ++ [w]) -> full S_ u \/ empty u) -> (full S_ w -> full S_ v) /\ (empty w -> empty v).

  Lemma active_dec : forall k t, act k t \/ ~ act k t.
  Proof. clear -rho floats.
    intros [| |p x] t; cbn; auto. destruct (Z_le_dec 0 t); [|right; tauto].
    destruct (rho (Z.to_nat t) x) as [[[]|]|]; try (right; intros [_ H]; discriminate).
    destruct (bool_dec b p); [subst; auto|right; intros [_ H]; congruence].
  Qed.

  Lemma not_slow_active : forall k t, slow k = false -> act k t.
  Proof. clear -rho floats. intros [| |p x] t H; cbn in *; auto. discriminate. Qed.

  Lemma same_active : forall a b t, same_pace a b = true -> (act a t <-> act b t).
  Proof. clear -rho floats.
    intros [| |p x] [| |q y] t H; cbn in *; try tauto; try discriminate.
    apply andb_prop in H. destruct H as [A B]. apply Bool.eqb_prop in A. apply String.eqb_eq in B. subst. tauto.
  Qed.

  Lemma meet_active : forall a b c t, meet a b = Some c -> (act c t <-> act a t /\ act b t).
  Proof. clear -rho floats.
    intros [| |p x] [| |q y] c t H; cbn in H; inversion H; subst; cbn; try tauto.
    destruct (Bool.eqb p q && String.eqb x y) eqn:E; inversion H; subst.
    apply andb_prop in E. destruct E as [A B]. apply Bool.eqb_prop in A. apply String.eqb_eq in B. subst. cbn. tauto.
  Qed.

  Lemma pres_scalar : forall k t n, pres k t (VS n) -> (act k t -> exists s, n = Defined s /\ S_ s) /\ (~ act k t -> n = Nil).
  Proof. clear -rho floats.
    intros k t n [A B]. split; intros H.
    - specialize (A H). inversion A; subst. eauto.
    - specialize (B H). inversion B; subst. auto.
  Qed.

  Lemma pres_any : forall k t v, pres k t v -> full S_ v \/ empty v.
  Proof. clear -rho floats. intros k t v [A B]. destruct (active_dec k t); auto. Qed.

  Lemma pres_nil : forall k t v, pres k t v -> empty (all_nil v).
  Proof. intros k t v P. destruct (pres_any _ _ _ P); [eapply nil_full|apply nil_empty]; eauto. Qed.

  Lemma bin_allowed : forall op a b c, scalar_bin mode op a b = Ok c -> S_ a -> S_ b -> S_ c.
  Proof.
    intros op a b c H A B. destruct a, b; cbn in H; try discriminate; destruct op; try discriminate;
      try (inversion H; subst; cbn in *; auto; fail); cbn;
      unfold i64_result, i64_div, i64_rem, i64_result in H;
      repeat match goal with H : context [if ?x then _ else _] |- _ => destruct x end;
      repeat match goal with H : context [match mode with _ => _ end] |- _ => destruct mode end;
      inversion H; subst; exact I.
  Qed.
  Lemma un_allowed : forall op a c, scalar_un mode op a = Ok c -> S_ a -> S_ c.
  Proof.
    intros op a c H A. destruct op, a; cbn in H; try discriminate; try (inversion H; subst; cbn in *; auto; fail);
      unfold i64_result in H;
      repeat match goal with H : context [if ?x then _ else _] |- _ => destruct x end;
      repeat match goal with H : context [match mode with _ => _ end] |- _ => destruct mode end;
      inversion H; subst; exact I.
  Qed.

  Lemma pres_un : forall op k t w v, pres k t w -> val_un mode op w = Ok v -> pres k t v.
  Proof.
    intros op k t w v P E. destruct w as [n|]; [|discriminate]. destruct (pres_scalar _ _ _ P) as [A B].
    cbn in E. split; intros H.
    - destruct (A H) as (s & -> & Hs). cbn in E. destruct (scalar_un mode op s) eqn:U; inversion E; subst.
      constructor. eapply un_allowed; eauto.
    - rewrite (B H) in E. inversion E. constructor.
  Qed.

  Lemma pres_bin : forall op a b c t va vb v, meet a b = Some c -> pres a t va -> pres b t vb ->
    val_bin mode op va vb = Ok v -> pres c t v.
  Proof.
    intros op a b c t va vb v M Pa Pb E. destruct va as [x|]; [|discriminate]. destruct vb as [y|]; [|discriminate].
    destruct (pres_scalar _ _ _ Pa) as [A1 A2]. destruct (pres_scalar _ _ _ Pb) as [B1 B2]. cbn in E.
    split; rewrite (meet_active _ _ _ t M); intros H.
    - destruct H as [Ha Hb]. destruct (A1 Ha) as (s & -> & Hs). destruct (B1 Hb) as (s' & -> & Hs'). cbn in E.
      destruct (scalar_bin mode op s s') eqn:U; inversion E; subst. constructor. eapply bin_allowed; [exact U| |]; auto.
    - destruct (active_dec a t) as [Ha|Ha].
      + rewrite B2 in E by tauto. destruct x; inversion E; constructor.
      + rewrite A2 in E by tauto. inversion E; constructor.
  Qed.

  Lemma cmp_defined : forall op s s' v, floats = false -> S_ s -> S_ s' -> do_cmp op (Defined s) (Defined s') = Ok v -> exists b, v = Defined (SBool b).
  Proof.
    intros op s s' v Fl A B E.
    assert (C : forall c, scalar_cmp s s' = Ok c -> exists x, c = Some x).
    { intros c. destruct s, s'; cbn in *; try congruence; intros X; inversion X; eauto. }
    destruct op; cbn in E; unfold cmp_eq, cmp_ord in E; cbn in E;
      try (destruct (scalar_eq s s') as [r|]; cbn in E; [|discriminate]; inversion E; destruct r; eauto; fail);
      (destruct (scalar_cmp s s') as [r|]; cbn in E; [|discriminate]; destruct (C _ eq_refl) as (x & ->); inversion E;
       destruct (comparison_eqb x _); eauto).
  Qed.

  Lemma cmp_nil : forall op a b v, a = Nil \/ b = Nil -> do_cmp op a b = Ok v -> v = Nil.
  Proof.
    intros op a b v H E. assert (X : nil_eq a b = Ok None) by (destruct H; subst; [|destruct a]; auto).
    assert (Y : nil_cmp a b = Ok None) by (destruct H; subst; [|destruct a]; auto).
    destruct op; cbn in E; unfold cmp_eq, cmp_ord in E; rewrite ?X, ?Y in E; inversion E; auto.
  Qed.

  Lemma pres_cmp : forall op a b c t va vb v, floats = false -> meet a b = Some c -> pres a t va -> pres b t vb ->
    val_cmp op va vb = Ok v -> pres c t v.
  Proof.
    intros op a b c t va vb v Fl M Pa Pb E. destruct va as [x|]; [|discriminate]. destruct vb as [y|]; [|discriminate].
    destruct (pres_scalar _ _ _ Pa) as [A1 A2]. destruct (pres_scalar _ _ _ Pb) as [B1 B2]. cbn in E.
    destruct (do_cmp op x y) as [r|] eqn:C; [|discriminate]. inversion E; subst v.
    split; rewrite (meet_active _ _ _ t M); intros H.
    - destruct H as [Ha Hb]. destruct (A1 Ha) as (s & -> & Hs). destruct (B1 Hb) as (s' & -> & Hs').
      destruct (cmp_defined _ _ _ _ Fl Hs Hs' C) as (b' & ->). constructor. exact I.
    - assert (r = Nil).
      { eapply cmp_nil; [|exact C]. destruct (active_dec a t) as [Ha|Ha]; [right; apply B2; tauto|left; apply A2; auto]. }
      subst. constructor.
  Qed.

  Lemma driver_ready : forall e x n, driver env e = Some x -> ready true locals n e -> (0 <= n)%Z /\ In x locals.
  Proof.
    intros e. induction e using sexpr_ind'; intros y n D R; cbn [driver] in D; try discriminate.
    - destruct (env x) eqn:E; [|discriminate]. inversion D; subst.
      destruct (in_dec string_dec y locals) as [I|I]; [|rewrite Hout in E by auto; discriminate]. cbn in R. auto.
    - destruct l as [|[? ?] ?]; [|discriminate]. destruct R; eauto.
    - destruct l as [|[? ?] ?]; [|discriminate]. destruct R; eauto.
    - destruct l as [|[? ?] ?]; [|discriminate]. destruct R; eauto.
    - destruct l; [|discriminate]. destruct R; eauto.
    - destruct l; [|discriminate]. destruct R; eauto.
  Qed.

  Lemma driver_sem : forall e x t v, driver env e = Some x -> (0 <= t)%Z -> In x locals -> sm e t v ->
    exists n, rho2 (Z.to_nat t) x = Some n /\ v = VS n.
  Proof.
    intros e. induction e using sexpr_ind'; intros y t v D T I M; cbn [driver] in D; try discriminate.
    - destruct (env x) eqn:E; [|discriminate]. inversion D; subst. apply sem_var_iff in M.
      destruct M as [(_ & _ & n & A & ->)|[(_ & A & _)|(A & _)]]; [eauto|lia|contradiction].
    - destruct l as [|[? ?] ?]; [|discriminate]. apply sem_bin_iff in M. destruct M as (w & M & B). inversion B; subst. eauto.
    - destruct l as [|[? ?] ?]; [|discriminate]. inversion M; subst. eauto.
    - destruct l as [|[? ?] ?]; [|discriminate]. apply sem_clock_iff in M. destruct M as (w & M & B). inversion B; subst. eauto.
    - destruct l; [|discriminate]. apply sem_fby_iff in M. cbn [length] in M.
      assert (P : position 0 t = 0) by (unfold position; lia). rewrite P in M. destruct M as (e' & A & M). cbn in A. inversion A; subst.
      rewrite Z.sub_0_r in M. eauto.
    - destruct l; [|discriminate]. apply sem_then_iff in M. cbn [length] in M.
      assert (P : position 0 t = 0) by (unfold position; lia). rewrite P in M. destruct M as (e' & A & M). cbn in A. inversion A; subst. eauto.
  Qed.

  (** The variable that drives a clock, at an instant where it is known. *)
  Lemma driver_value : forall e x n t v, driver env e = Some x -> ready true locals n e -> (n <= t)%Z -> sm e t v ->
    exists m, v = VS m /\ rho (Z.to_nat t) x = Some m /\ pace_var env x <> Free /\ pres (pace_var env x) t (VS m) /\
      (forall p, act (On p x) t <-> m = Defined (SBool p)).
  Proof.
    intros e x n t v D R L M. destruct (driver_ready _ _ _ D R) as [Hn Ix].
    assert (T : (0 <= t)%Z) by lia. destruct (driver_sem _ _ _ _ D T Ix M) as (m & Em & ->).
    destruct (Hin x Ix) as (k & Ek & Nk). destruct (Hrho _ _ _ _ Ix Em Ek) as [Er P]. rewrite Z2Nat.id in P by lia.
    exists m. unfold pace_var. rewrite Ek. split; [auto|]. split; [auto|]. split; [auto|]. split; [auto|].
    intros p. cbn. rewrite Er. split; [intros [_ A]; congruence|intros ->; auto].
  Qed.

  Lemma pres_when : forall pos a k c t m w v, meet a k = Some c -> k <> Free -> pres a t w -> pres k t (VS m) ->
    val_when pos (VS m) w = Ok v ->
    (m = Defined (SBool pos) -> full S_ v) /\ (m <> Defined (SBool pos) -> empty v).
  Proof.
    intros pos a k c t m w v M Nk Pa Pk E. destruct (pres_scalar _ _ _ Pk) as [K1 K2]. cbn in E. split; intros H.
    - subst m. cbn in E. rewrite Bool.eqb_reflx in E. inversion E; subst. apply Pa.
      assert (Ak : act k t) by (destruct (active_dec k t) as [A|A]; auto; specialize (K2 A); discriminate).
      destruct a as [| |q y]; try exact I. destruct k as [| |r z]; [congruence|discriminate|].
      cbn in M. destruct (Bool.eqb q r && String.eqb y z) eqn:X; [|discriminate].
      apply andb_prop in X. destruct X as [X Y]. apply Bool.eqb_prop in X. apply String.eqb_eq in Y. subst. auto.
    - pose proof (pres_nil _ _ _ Pa) as Z. destruct m as [[]|]; try discriminate; cbn in E; inversion E; subst; auto.
      destruct (Bool.eqb b pos) eqn:X; auto. apply Bool.eqb_prop in X. congruence.
  Qed.

  Definition ok (e : sexpr) : Prop := forall n t v k, ready true locals n e -> (n <= t)%Z -> steady env e = true -> tame floats e = true ->
    pace_of env e = Some k -> sm e t v -> pres k t v.

  Lemma ok_list : forall l, Forall ok l -> forall n t vs, all_of (ready true locals n) l -> (n <= t)%Z ->
    forallb (steady env) l = true -> forallb (tame floats) l = true -> sems mode glob locals rho2 F N l t vs ->
    Forall2 (fun o v => forall k, o = Some k -> pres k t v) (map (pace_of env) l) vs.
  Proof.
    induction 1 as [|e l H _ IH]; intros n t vs R L St Ta M; inversion M; subst; cbn [map]; constructor.
    - intros k Ek. destruct R. cbn in St, Ta. apply andb_prop in St, Ta. destruct St, Ta. eapply H; eauto.
    - destruct R. cbn in St, Ta. apply andb_prop in St, Ta. destruct St, Ta. eapply IH; eauto.
  Qed.

  Lemma pres_uniform : forall os vs k t, Forall2 (fun o v => forall k, o = Some k -> pres k t v) os vs ->
    uniform os = Some k -> pres k t (tuple_val vs).
  Proof.
    intros os vs k t H U.
    assert (G : Forall (pres k t) vs).
    { destruct H as [|o v os vs H Hs]; [constructor|]. cbn [uniform] in U. destruct o as [g|]; [|discriminate]. cbn [pbind] in U.
      destruct (forallb _ _) eqn:Fb; [|discriminate]. inversion U; subst. cbn [forallb] in Fb. apply andb_prop in Fb. destruct Fb as [_ Fb].
      constructor; auto. clear H U. induction Hs as [|o v' os vs H _ IH]; [constructor|]. cbn [forallb] in Fb. apply andb_prop in Fb. destruct Fb as [Fa Fb].
      constructor; auto. destruct o as [k'|]; [|discriminate]. specialize (H _ eq_refl). pose proof (same_active _ _ t Fa) as Sa.
      destruct H as [A B]. split; intros X; [apply A|apply B]; tauto. }
    destruct vs as [|v [|v' vs]].
    - inversion H; subst. cbn in U. inversion U; subst. split; [intros _; constructor; exact I|cbn; tauto].
    - inversion G; subst. auto.
    - split; intros X; constructor; try discriminate; eapply Forall_impl; [|exact G| |exact G]; intros w [A B]; auto.
  Qed.

  Lemma never_slow_some : forall o, never_slow o = true -> exists k, o = Some k /\ slow k = false.
  Proof. intros [k|] H; [|discriminate]. exists k. split; auto. cbn in H. destruct (slow k); auto; discriminate. Qed.

  (** Operands of a chain. *)
  Lemma chain_operands : forall e l k, chain_pace env e l = Some k ->
    pace_of env e = Some k /\ (l = [] \/ slow k = false /\ forall a, In a l -> exists k', pace_of env a = Some k' /\ slow k' = false).
  Proof.
    intros e l k H. destruct l as [|a l]; [auto|]. cbn [chain_pace] in H.
    destruct (forallb _ (a :: l)) eqn:Fa; [|discriminate]. destruct (never_slow (pace_of env e)) eqn:Ne; [|discriminate].
    cbn [andb] in H. split; auto. right. destruct (never_slow_some _ Ne) as (k' & E & S). split; [congruence|].
    intros b I. rewrite forallb_forall in Fa. apply never_slow_some. auto.
  Qed.

  Theorem presence : forall e, ok e.
  Proof.
    intros e. induction e using sexpr_ind'; intros n t v k R L St Ta P M.
    - cbn in P. inversion P; subst. split; [intros _|cbn; tauto]. inversion M; subst; constructor; try exact I; try exact Ta.
    - cbn in P. inversion P; subst. apply sem_var_iff in M. unfold pace_var.
      destruct M as [(I & T & m & E & ->)|[(I & T & ->)|(I & s & E & ->)]].
      + destruct (Hin x I) as (k & Ek & _). rewrite Ek. destruct (Hrho _ _ _ _ I E Ek) as [_ Q]. rewrite Z2Nat.id in Q by lia. auto.
      + cbn in R. specialize (R I). lia.
      + rewrite (Hout x I). split; [intros _; constructor; eauto|cbn; tauto].
    - cbn in P. apply sem_paren_iff in M. destruct M as (vs & M & ->). eapply pres_uniform; [|exact P]. eapply ok_list; eauto.
    - cbn in P, R. destruct R as [Hn R]. apply sem_call_iff in M. destruct M as [(T & _)|(T & args & La & Ha & Hf)]; [lia|].
      assert (G : forall j w, nth_error args j = Some w -> pres k (Z.of_nat j) w).
      { intros j w E. specialize (Ha _ _ E). apply sem_paren_iff in Ha. destruct Ha as (vs & M & ->).
        eapply pres_uniform; [|exact P]. eapply ok_list; eauto. lia. }
      destruct (@exists_last _ args) as (as_ & w & Eas); [destruct args; discriminate|]. subst args.
      rewrite app_length in La. cbn in La.
      assert (Pw : pres k t w).
      { replace t with (Z.of_nat (length as_)) by lia. apply G. rewrite nth_error_app2, Nat.sub_diag by lia. auto. }
      destruct (HF _ _ _ _ Hf) as [A B].
      { intros u Iu. apply In_nth_error in Iu. destruct Iu as (j & Ej). eapply pres_any; eauto. }
      destruct Pw as [C D]. split; auto.
    - apply sem_neg_iff in M. destruct M as (w & M & E). eapply pres_un; [|exact E]. eapply IHe; eauto.
    - apply sem_not_iff in M. destruct M as (w & M & E). eapply pres_un; [|exact E]. eapply IHe; eauto.
    - apply sem_pre_iff in M. cbn in P, R. destruct (never_slow (pace_of env e)) eqn:Ne; [|discriminate].
      destruct (never_slow_some _ Ne) as (k' & E & Sk). assert (k' = k) by congruence. subst k'.
      assert (Q : pres k (t - 1) v) by (eapply IHe; eauto; lia).
      destruct Q as [A _]. specialize (A (not_slow_active _ _ Sk)). split; auto. intros X. destruct X. apply not_slow_active. auto.
    - apply sem_if_iff in M. destruct M as (vc & va & vb & Mc & Ma & Mb & E). cbn in R. destruct R as (Rc & Ra & Rb).
      cbn [tame] in Ta. apply andb_prop in Ta. destruct Ta as [Ta Tb]. apply andb_prop in Ta. destruct Ta as [Tc Ta].
      cbn [steady] in St. apply andb_prop in St. destruct St as [St Sx]. apply andb_prop in St. destruct St as [St Sb]. apply andb_prop in St. destruct St as [Sc Sa].
      cbn [pace_of meets fold_left] in P. destruct (pace_of env e1) as [kc|] eqn:Ec; [|discriminate]. cbn [pbind] in P.
      destruct (pace_of env e2) as [ka|] eqn:Ea; [|discriminate]. cbn [pbind] in P. destruct (meet kc ka) as [k1|] eqn:M1; [|discriminate]. cbn [pbind] in P.
      destruct (pace_of env e3) as [kb|] eqn:Eb; [|discriminate]. cbn [pbind] in P.
      assert (Pc : pres kc t vc) by (eapply IHe1; eauto). assert (Pa : pres ka t va) by (eapply IHe2; eauto). assert (Pb : pres kb t vb) by (eapply IHe3; eauto).
      pose proof (meet_active _ _ _ t M1) as X1. pose proof (meet_active _ _ _ t P) as X2.
      destruct vc as [m|]; [|discriminate]. destruct (pres_scalar _ _ _ Pc) as [C1 C2]. cbn in E.
      split; intros Ak.
      + destruct C1 as (s & -> & _); [tauto|]. destruct s as [| |b|]; try discriminate. cbn in E. inversion E; subst.
        destruct b; [apply Pa|apply Pb]; tauto.
      + destruct (active_dec kc t) as [Ac|Ac].
        * destruct (C1 Ac) as (s & -> & _). destruct s as [| |b|]; try discriminate. cbn in E. inversion E; subst.
          (* the two branches are absent together *)
          assert (Sp : ~ act ka t /\ ~ act kb t).
          { destruct kc as [| |q y].
            - pose proof (same_active _ _ t Sx) as X3. tauto.
            - pose proof (same_active _ _ t Sx) as X3. tauto.
            - exfalso. destruct ka as [| |q' y']; cbn in M1; try discriminate; [|destruct (Bool.eqb q q' && String.eqb y y') eqn:Q; [|discriminate]];
                inversion M1; subst; (destruct kb as [| |q'' y'']; cbn in P; try discriminate; [|match type of P with (if ?z then _ else _) = _ => destruct z; [|discriminate] end]);
                inversion P; subst; tauto. }
          destruct b; [apply Pa|apply Pb]; tauto.
        * rewrite (C2 Ac) in E. inversion E; subst. eapply pres_nil; eauto.
    - apply sem_merge_iff in M. destruct M as (vc & va & vb & Mc & Ma & Mb & E). cbn in R. destruct R as (Rc & Ra & Rb).
      cbn [tame] in Ta. apply andb_prop in Ta. destruct Ta as [Ta Tb]. apply andb_prop in Ta. destruct Ta as [Tc Ta].
      cbn [steady] in St. apply andb_prop in St. destruct St as [St Sb]. apply andb_prop in St. destruct St as [Sc Sa].
      cbn [pace_of] in P. destruct (driver env e1) as [x|] eqn:D; [|discriminate]. cbn [pbind] in P.
      destruct (pace_of env e2) as [ka|] eqn:Ea; [|discriminate]. cbn [pbind] in P. destruct (meet ka (On true x)) as [k1|] eqn:M1; [|discriminate]. cbn [pbind] in P.
      destruct (pace_of env e3) as [kb|] eqn:Eb; [|discriminate]. cbn [pbind] in P. destruct (meet kb (On false x)) as [k2|] eqn:M2; [|discriminate]. cbn [pbind] in P.
      inversion P; subst k. clear P.
      assert (Pa : pres ka t va) by (eapply IHe2; eauto). assert (Pb : pres kb t vb) by (eapply IHe3; eauto).
      destruct (driver_value _ _ _ _ _ D Rc L Mc) as (m & -> & Er & _ & Px & Ax).
      destruct (pres_scalar _ _ _ Px) as [K1 K2]. cbn in E.
      assert (Weak : forall k p, (exists c, meet k (On p x) = Some c) -> act (On p x) t -> act k t).
      { intros k p (c & Mk) A. destruct k as [| |q y]; try exact I. cbn in Mk. destruct (Bool.eqb q p && String.eqb y x) eqn:X; [|discriminate].
        apply andb_prop in X. destruct X as [X Y]. apply Bool.eqb_prop in X. apply String.eqb_eq in Y. subst. auto. }
      split; intros A.
      + destruct (K1 A) as (s & -> & _). destruct s as [| |b|]; try discriminate. cbn in E. inversion E; subst.
        destruct b; [apply Pa; apply (Weak ka true)|apply Pb; apply (Weak kb false)]; eauto; apply Ax; auto.
      + rewrite (K2 A) in E. inversion E; subst. eapply pres_nil; eauto.
    - apply sem_bin_iff in M. destruct M as (w & M & B). cbn in R. destruct R as [Re Rl].
      cbn [tame] in Ta. apply andb_prop in Ta. destruct Ta as [Te Tl]. cbn [steady] in St. apply andb_prop in St. destruct St as [Se Sl].
      cbn [pace_of] in P. destruct (pace_of env e) as [ke|] eqn:Ee; [|change (meets (map (fun p => pace_of env (snd p)) l) None = Some k) in P; rewrite meets_none in P; discriminate].
      assert (Pw : pres ke t w) by (eapply IHe; eauto). clear M IHe Re Te Se Ee.
      revert ke w P Pw B. induction H as [|[op a] l Ha _ IH]; intros ke w P Pw B; inversion B; subst.
      + cbn in P. inversion P; subst. auto.
      + cbn [map meets fold_left snd pbind] in P. destruct Rl as [Ra Rl]. cbn [forallb snd] in Tl, Sl. apply andb_prop in Tl, Sl. destruct Tl as [Ta Tl], Sl as [Sa Sl].
        cbn [snd] in *. destruct (pace_of env a) as [ka|] eqn:Ea; cbn [pbind] in P.
        * destruct (meet ke ka) as [k1|] eqn:M1.
          -- eapply (IH Rl Sl Tl k1); eauto. eapply pres_bin; eauto.
          -- exfalso. change (meets (map (fun p => pace_of env (snd p)) l) None = Some k) in P. rewrite meets_none in P. discriminate.
        * exfalso. change (meets (map (fun p => pace_of env (snd p)) l) None = Some k) in P. rewrite meets_none in P. discriminate.
    - cbn in R. destruct R as [Re Rl]. cbn [steady] in St. apply andb_prop in St. destruct St as [Se Sl].
      inversion M; subst; cbn [pace_of map meets fold_left snd] in P.
      + cbn [tame] in Ta. eapply IHe; eauto.
      + cbn [tame] in Ta. apply andb_prop in Ta. destruct Ta as [Ta Tl]. apply andb_prop in Ta. destruct Ta as [Tf Te].
        cbn [forallb snd] in Tl, Sl. rewrite Bool.andb_true_r in Tl, Sl. destruct Rl as [Rl _]. cbn [snd] in Rl.
        destruct (pace_of env e) as [ke|] eqn:Ee; [|discriminate]. cbn [pbind] in P. destruct (pace_of env b) as [kb|] eqn:Eb; [|discriminate]. cbn [pbind] in P.
        inversion H; subst. cbn [snd] in *. eapply pres_cmp; [destruct floats; auto; discriminate|exact P| | |eassumption].
        * eapply IHe; eauto.
        * match goal with X : ok b |- _ => eapply X; eauto end.
    - apply sem_clock_iff in M. destruct M as (w & M & B). cbn in R. destruct R as [Re Rl].
      cbn [tame] in Ta. apply andb_prop in Ta. destruct Ta as [Te Tl]. cbn [steady] in St. apply andb_prop in St. destruct St as [Se Sl].
      cbn [pace_of] in P. destruct (pace_of env e) as [ke|] eqn:Ee; [|rewrite samples_none in P; discriminate].
      assert (Pw : pres ke t w) by (eapply IHe; eauto). clear M IHe Re Te Se Ee.
      revert ke w P Pw B. induction H as [|[op a] l Ha _ IH]; intros ke w P Pw B; inversion B; subst.
      + cbn in P. inversion P; subst. auto.
      + cbn [fold_left] in P. destruct Rl as [Ra Rl]. cbn [forallb snd] in Tl, Sl. apply andb_prop in Tl, Sl. destruct Tl as [Ta Tl], Sl as [Sa Sl].
        unfold sample at 2 in P. cbn [pbind fst snd] in *. destruct (driver env a) as [x|] eqn:D; cbn [pbind] in P; [|rewrite samples_none in P; discriminate].
        destruct (meet ke (pace_var env x)) as [c|] eqn:M1; cbn [pbind] in P; [|rewrite samples_none in P; discriminate].
        match goal with X : sm a t _ |- _ => destruct (driver_value _ _ _ _ _ D Ra L X) as (m & -> & Er & Nf & Px & Ax) end.
        eapply (IH Rl Sl Tl (On op x)); [exact P| |eassumption].
        match goal with X : val_when _ _ _ = Ok _ |- _ => destruct (pres_when _ _ _ _ _ _ _ _ M1 Nf Pw Px X) as [W1 W2] end.
        split; rewrite Ax; auto.
    - change (pace_of env (XFby e l)) with (chain_pace env e l) in P. destruct (chain_operands _ _ _ P) as [Pe Pl].
      apply sem_fby_iff in M. destruct M as (e' & En & M). cbn in R. destruct R as [Re Rl].
      cbn [tame] in Ta. apply andb_prop in Ta. destruct Ta as [Te Tl]. cbn [steady] in St. apply andb_prop in St. destruct St as [Se Sl].
      destruct (position (length l) t) as [|p] eqn:Ep.
      + cbn in En. inversion En; subst e'. rewrite Z.sub_0_r in M. eapply IHe; eauto.
      + cbn in En. pose proof (nth_error_In _ _ En) as I. destruct Pl as [->|[Sk Pl]]; [destruct I|].
        destruct (Pl _ I) as (k' & Ek & Sk'). rewrite Forall_forall in H. rewrite forallb_forall in Tl, Sl.
        assert (Q : pres k' (t - Z.of_nat (S p)) v).
        { eapply (H e' I 0%Z); eauto; [apply (all_of_in _ _ Rl _ I)|]. unfold position in Ep. lia. }
        split; [intros _|intros X; destruct X; apply not_slow_active; auto]. apply Q. apply not_slow_active. auto.
    - change (pace_of env (XThen e l)) with (chain_pace env e l) in P. destruct (chain_operands _ _ _ P) as [Pe Pl].
      apply sem_then_iff in M. destruct M as (e' & En & M). cbn in R. destruct R as [Re Rl].
      cbn [tame] in Ta. apply andb_prop in Ta. destruct Ta as [Te Tl]. cbn [steady] in St. apply andb_prop in St. destruct St as [Se Sl].
      destruct (position (length l) t) as [|p] eqn:Ep.
      + cbn in En. inversion En; subst e'. eapply IHe; eauto.
      + cbn in En. pose proof (nth_error_In _ _ En) as I. destruct Pl as [->|[Sk Pl]]; [destruct I|].
        destruct (Pl _ I) as (k' & Ek & Sk'). rewrite Forall_forall in H. rewrite forallb_forall in Tl, Sl.
        assert (Q : pres k' t v).
        { eapply (H e' I (1 + Z.of_nat p)%Z); eauto; [apply (all_from_nth _ _ _ Rl _ _ En)|]. unfold position in Ep. lia. }
        split; [intros _|intros X; destruct X; apply not_slow_active; auto]. apply Q. apply not_slow_active. auto.
  Qed.
End Presence.
