(** On nodes that never look at an undefined value, [#[universal_pre]] does not
    change the meaning. *)
From Coq Require Import String List ZArith Bool Arith Lia Permutation.
From Verif Require Import Model.Base Model.Scalar Model.Value Model.Ast Model.Errors Model.Options Model.Interp Model.Surface Model.Translate
  Model.Causality Model.Pipeline Spec.StepSpec Spec.SurfaceSem Spec.ProgramSem Spec.SourceCausal Spec.ClockSpec Spec.UniversalSem Spec.PromptSpec
  Proofs.AstInd Proofs.OutBasics Proofs.CoreProofs Proofs.TranslateSem Proofs.NodeWf
  Proofs.PipelineProofs Proofs.ProgramProofs Proofs.Unique Proofs.Paces Proofs.PaceNode Proofs.Presence Proofs.TraceInd Proofs.NilFree
  Proofs.UniProgram Proofs.SourceOrder.
Import ListNotations.

Lemma full_nil : forall S v, full S v -> present_val v.
Proof. intros. unfold present_val. eapply full_first; eauto. Qed.
Lemma full_absent : forall S v, full S v -> absent_val v -> False.
Proof. intros S v A B. apply full_first in A. unfold absent_val in B. congruence. Qed.

Lemma full_tuples : forall (S : scalar -> Prop) vs, S SUnit -> Forall (full S) vs -> full S (tuple_val vs).
Proof.
  intros S vs U H. destruct vs as [|v [|w vs]]; cbn.
  - constructor. auto.
  - inversion H; auto.
  - constructor; [discriminate|auto].
Qed.

Section Values.
  Variable mode : ovf.
  Variable floats : bool.
  Notation S_ := (allowed floats).

  Lemma full_un : forall op w v, full S_ w -> val_un mode op w = Ok v -> full S_ v.
  Proof.
    intros op w v P E. destruct w as [n|]; [|discriminate]. inversion P; subst. cbn in E.
    destruct (scalar_un mode op s) eqn:U; inversion E; subst. constructor. eapply un_allowed; eauto.
  Qed.
  Lemma full_bin : forall op a b v, full S_ a -> full S_ b -> val_bin mode op a b = Ok v -> full S_ v.
  Proof.
    intros op a b v P Q E. destruct a as [n|]; [|discriminate]. destruct b as [m|]; [|discriminate]. inversion P; inversion Q; subst. cbn in E.
    destruct (scalar_bin mode op s s0) eqn:U; inversion E; subst. constructor. eapply bin_allowed; [exact U| |]; auto.
  Qed.
  Lemma full_cmp : forall op a b v, floats = false -> full S_ a -> full S_ b -> val_cmp op a b = Ok v -> full S_ v.
  Proof.
    intros op a b v Fl P Q E. destruct a as [n|]; [|discriminate]. destruct b as [m|]; [|discriminate]. inversion P; inversion Q; subst. cbn in E.
    destruct (do_cmp op (Defined s) (Defined s0)) as [r|] eqn:C; [|discriminate]. inversion E; subst.
    destruct (cmp_defined false op s s0 r) as (b & ->); auto. constructor. exact I.
  Qed.
  Lemma full_ifx : forall c a b v, full S_ c -> full S_ a -> full S_ b -> val_ifx c a b = Ok v -> full S_ v.
  Proof.
    intros c a b v P Q R E. destruct c as [n|]; [|discriminate]. inversion P; subst. cbn in E. destruct s as [| |x|]; try discriminate.
    inversion E; subst. destruct x; auto.
  Qed.
  Lemma full_merge : forall c a b v, full S_ c -> full S_ a -> full S_ b -> val_merge c a b = Ok v -> full S_ v.
  Proof.
    intros c a b v P Q R E. destruct c as [n|]; [|discriminate]. inversion P; subst. cbn in E. destruct s as [| |x|]; try discriminate.
    inversion E; subst. destruct x; auto.
  Qed.
End Values.

Section Still.
  Variable env : ident -> option pace.
  Hypothesis Henv : forall x p y, env x <> Some (On p y).

  Lemma still_var : forall x, slow (pace_var env x) = false.
  Proof. intros x. unfold pace_var. destruct (env x) as [[| |p y]|] eqn:E; auto. destruct (Henv _ _ _ E). Qed.
  Lemma still_meet : forall a b c, meet a b = Some c -> slow a = false -> slow b = false -> slow c = false.
  Proof. intros [| |p x] [| |q y] c H A B; cbn in *; try discriminate; inversion H; auto. Qed.
  Lemma still_meets : forall l o c, meets l o = Some c -> (forall k, o = Some k -> slow k = false) ->
    (forall k, In (Some k) l -> slow k = false) -> slow c = false.
  Proof.
    induction l as [|a l IH]; intros o c H A B; cbn in H; [auto|]. eapply IH; [exact H| |].
    - intros k E. destruct o as [x|]; [|discriminate]. cbn in E. destruct a as [y|]; [|discriminate]. cbn in E.
      eapply still_meet; eauto. apply B. left; auto.
    - intros k I. apply B. right. auto.
  Qed.
  Lemma still_uniform : forall l c, uniform l = Some c -> (forall k, In (Some k) l -> slow k = false) -> slow c = false.
  Proof.
    intros [|o l] c H A; cbn [uniform] in H; [inversion H; auto|]. destruct o as [k|]; [|discriminate]. cbn [pbind] in H.
    match type of H with (if ?b then _ else _) = _ => destruct b end; [|discriminate]. inversion H; subst. apply A. left. auto.

  Qed.

  Lemma prompt_still : forall e k p, prompt k e = true -> upace_of env e = Some p -> slow p = false.
  Proof.
    intros e. induction e using sexpr_ind'; intros k p P U; cbn [upace_of] in U; cbn [prompt] in P.
    - inversion U; auto.
    - inversion U. apply still_var.
    - eapply still_uniform; [exact U|]. intros q I. apply in_map_iff in I. destruct I as (a & Ea & Ia). rewrite Forall_forall in H.
      rewrite forallb_forall in P. eapply H; eauto.
    - eapply still_uniform; [exact U|]. intros q I. apply in_map_iff in I. destruct I as (a & Ea & Ia). rewrite Forall_forall in H.
      rewrite forallb_forall in P. eapply H; eauto.
    - eauto.
    - eauto.
    - destruct k; [discriminate|]. eauto.
    - apply andb_prop in P. destruct P as [P P3]. apply andb_prop in P. destruct P as [P1 P2].
      eapply still_meets; [exact U| |].
      + intros q E. eauto.
      + intros q [E|[E|[]]]; eauto.
    - destruct (driver env e1) as [x|]; [|discriminate]. cbn [pbind] in U.
      destruct (upace_of env e2) as [ka|]; [|discriminate]. cbn [pbind] in U. destruct (meet ka (On true x)); [|discriminate]. cbn [pbind] in U.
      destruct (upace_of env e3) as [kb|]; [|discriminate]. cbn [pbind] in U. destruct (meet kb (On false x)); [|discriminate]. cbn [pbind] in U.
      inversion U. apply still_var.
    - apply andb_prop in P. destruct P as [P1 P2]. rewrite forallb_forall in P2. rewrite Forall_forall in H. eapply still_meets; [exact U| |].
      + intros q E. eauto.
      + intros q I. apply in_map_iff in I. destruct I as (a & Ea & Ia). eapply H; eauto.
    - apply andb_prop in P. destruct P as [P1 P2]. rewrite forallb_forall in P2. rewrite Forall_forall in H. eapply still_meets; [exact U| |].
      + intros q E. eauto.
      + intros q I. apply in_map_iff in I. destruct I as (a & Ea & Ia). eapply H; eauto.
    - destruct l; [|discriminate]. cbn in U. eauto.
    - rewrite Forall_forall in H. eapply still_uniform; [exact U|]. intros q I. apply in_rev in I. destruct I as [E|I].
      + destruct l; [eauto|]. apply andb_prop in P. destruct P as [P _]. eauto.
      + apply in_map_iff in I. destruct I as (a & Ea & Ia). destruct l as [|b l]; [destruct Ia|].
        apply andb_prop in P. destruct P as [_ P]. rewrite forallb_forall in P. eapply H; eauto.
    - rewrite Forall_forall in H. eapply still_uniform; [exact U|]. intros q I. apply in_rev in I. destruct I as [E|I].
      + destruct l as [|b [|c l]]; [eauto| |discriminate]. apply andb_prop in P. destruct P as [P _]. eauto.
      + apply in_map_iff in I. destruct I as (a & Ea & Ia). destruct l as [|b [|c l]]; [destruct Ia| |discriminate].
        apply andb_prop in P. destruct P as [_ P]. destruct Ia as [<-|[]]. eapply H; eauto. left; auto.
  Qed.

  Lemma prompt_no_wait : forall rho e k t, prompt k e = true -> waits env rho e t -> False.
  Proof. intros rho e k t P (p & U & A). apply A. apply not_slow_active. eapply prompt_still; eauto. Qed.
End Still.

Section Expr.
  Variable mode : ovf.
  Variable glob : ident -> option scalar.
  Variable locals : list ident.
  Variable env : ident -> option pace.
  Variable rho : nat -> ident -> option nillable.
  Variables F F' : ident -> list val -> val -> Prop.
  Variable N' : ident -> val -> Prop.
  Variable floats : bool.
  Notation S_ := (allowed floats).
  Hypothesis Henv : forall x p y, env x <> Some (On p y).
  Hypothesis Hglob : forall x s, glob x = Some s -> S_ s.
  Hypothesis HF : forall f args v, F f args v -> Forall (full S_) args -> F' f args v /\ full S_ v.
  Notation us := (usem mode glob locals env rho F).
  Notation sm := (sem mode glob locals rho F' N').

  Definition good (T : nat) (x : ident) : Prop := forall n, rho T x = Some n -> exists s, n = Defined s /\ S_ s.

  (** From instant [k] on the value is defined and the same in the two modes. *)
  Definition uok (e : sexpr) : Prop := forall k T v, prompt k e = true -> tame floats e = true -> k <= T ->
    (forall T' x, T' < T -> In x locals -> good T' x) -> (forall x, In x (now e) -> In x locals -> good T x) ->
    us e T v -> full S_ v /\ sm e (Z.of_nat T) v.

  Lemma uok_past : forall e k T T' v, uok e -> prompt k e = true -> tame floats e = true -> k <= T' -> T' < T ->
    (forall T' x, T' < T -> In x locals -> good T' x) -> us e T' v -> full S_ v /\ sm e (Z.of_nat T') v.
  Proof. intros e k T T' v H P Ta K L Past U. eapply H; eauto. intros T2 x L2. apply Past. lia. Qed.

  (** The last value of an expression that is always defined is the previous one. *)
  Lemma last_prev : forall e k T v, uok e -> prompt k e = true -> tame floats e = true -> S k <= T ->
    (forall T' x, T' < T -> In x locals -> good T' x) -> last_present (us e) T v -> us e (T - 1) v.
  Proof.
    intros e k T v H P Ta K Past (j & L & U & Pr & Ab). destruct (Nat.eq_dec j (T - 1)) as [->|Ne]; auto.
    destruct (Ab (T - 1)) as (w & Uw & Aw); [lia|lia|]. exfalso.
    destruct (uok_past e k T (T - 1) w H P Ta) as [Fw _]; auto; try lia. eapply full_absent; eauto.
  Qed.
  Lemma not_never : forall e k T, uok e -> prompt k e = true -> tame floats e = true -> S k <= T ->
    (forall T' x, T' < T -> In x locals -> good T' x) -> never_present (us e) T -> False.
  Proof.
    intros e k T H P Ta K Past Nv. destruct (Nv (T - 1)) as (w & Uw & Aw); [lia|].
    destruct (uok_past e k T (T - 1) w H P Ta) as [Fw _]; auto; try lia. eapply full_absent; eauto.
  Qed.

  Lemma uok_list : forall l, Forall uok l -> forall k T vs, forallb (prompt k) l = true -> forallb (tame floats) l = true -> k <= T ->
    (forall T' x, T' < T -> In x locals -> good T' x) -> (forall x, In x (flat_map now l) -> In x locals -> good T x) ->
    usems mode glob locals env rho F l T vs -> Forall (full S_) vs /\ sems mode glob locals rho F' N' l (Z.of_nat T) vs.
  Proof.
    induction 1 as [|e l H _ IH]; intros k T vs P Ta K Past Now U; inversion U; subst; [split; constructor|].
    cbn in P, Ta. apply andb_prop in P, Ta. destruct P as [P1 P2], Ta as [T1 T2]. cbn [flat_map] in Now.
    destruct (H k T v) as [A1 A2]; auto; [intros x I; apply Now; apply in_or_app; auto|].
    destruct (IH k T vs0) as [B1 B2]; auto; [intros x I; apply Now; apply in_or_app; auto|].
    split; constructor; auto.
  Qed.

  Lemma uok_paren : forall l b, Forall uok l -> uok (XParen l b).
  Proof.
    intros l b H k T v P Ta K Past Now U. inversion U; subst. destruct (uok_list l H k T vs) as [A B]; auto.
    split; [apply full_tuples; auto; exact I|constructor; auto].
  Qed.

  Lemma uok_bins : forall l, Forall (fun p => uok (snd p)) l -> forall k T w v, full S_ w ->
    forallb (fun p => prompt k (snd p)) l = true -> forallb (fun p => tame floats (snd p)) l = true -> k <= T ->
    (forall T' x, T' < T -> In x locals -> good T' x) -> (forall x, In x (flat_map (fun p => now (snd p)) l) -> In x locals -> good T x) ->
    ubins mode glob locals env rho F w l T v -> full S_ v /\ bins mode glob locals rho F' N' w l (Z.of_nat T) v.
  Proof.
    induction 1 as [|[op e] l H _ IH]; intros k T w v Fw P Ta K Past Now U; inversion U; subst; [split; [auto|constructor]|].
    cbn in P, Ta. apply andb_prop in P, Ta. destruct P as [P1 P2], Ta as [T1 T2]. cbn [flat_map snd] in Now, H.
    match goal with X : us e T ?b, Y : val_bin _ _ _ ?b = Ok ?c |- _ =>
      destruct (H k T b) as [A1 A2]; auto; [intros x I; apply Now; apply in_or_app; auto|];
      destruct (IH k T c v) as [B1 B2]; auto; [eapply full_bin; [exact Fw|exact A1|exact Y]|intros x I; apply Now; apply in_or_app; auto|];
      split; auto; econstructor; eauto end.
  Qed.

  Lemma pos_next : forall m T, 0 < T -> position (S m) (Z.of_nat T) = S (position m (Z.of_nat (T - 1))).
  Proof. intros m T H. unfold position. lia. Qed.
  Lemma pos_zero : forall m, position m (Z.of_nat 0) = 0.
  Proof. intros. unfold position. lia. Qed.

  Lemma uok_fby : forall l e, uok e -> Forall uok l -> prompt 0 e = true -> forallb (prompt 0) l = true ->
    tame floats e = true -> forallb (tame floats) l = true -> forall T v,
    (forall T' x, T' < T -> In x locals -> good T' x) -> (forall x, In x (now e) -> In x locals -> good T x) ->
    us (XFby e l) T v -> full S_ v /\ sm (XFby e l) (Z.of_nat T) v.
  Proof.
    induction l as [|a l IH]; intros e He Hl P Pl Ta Tl T v Past Now U; inversion U; subst.
    - destruct (He 0 T v) as [A B]; auto; [lia|]. split; auto. eapply sem_fby with (e' := e).
      + unfold position. cbn [length]. replace (Z.to_nat _) with 0 by lia. reflexivity.
      + replace (Z.of_nat T - _)%Z with (Z.of_nat T) by (unfold position; cbn [length]; lia). auto.
    - exfalso. eapply (prompt_no_wait env Henv rho (XFby a l) 0); [|eassumption]. cbn in Pl. apply andb_prop in Pl. destruct Pl. cbn. destruct l; [auto|]. apply andb_true_intro. auto.
    - inversion Hl as [|? ? Ha Hl']; subst. cbn in Pl, Tl. apply andb_prop in Pl, Tl. destruct Pl as [Pa Pl], Tl as [Ta' Tl].
      destruct T as [|T].
      + destruct (He 0 0 v) as [A B]; auto. split; auto. eapply sem_fby with (e' := e); rewrite pos_zero; [reflexivity|exact B].
      + exfalso. match goal with X : never_present _ _ |- _ => destruct (X T) as (w & Uw & Aw); [lia|] end.
        destruct (IH a Ha Hl' Pa Pl Ta' Tl T w) as [Fw _]; auto. eapply full_absent; eauto.
    - inversion Hl as [|? ? Ha Hl']; subst. cbn in Pl, Tl. apply andb_prop in Pl, Tl. destruct Pl as [Pa Pl], Tl as [Ta' Tl].
      match goal with X : last_present _ _ _ |- _ => destruct X as (j & L & Uj & Pr & Ab) end.
      assert (P1 : forall T' x, T' < T - 1 -> In x locals -> good T' x) by (intros; apply Past; auto; lia).
      assert (N1 : forall x, In x (now a) -> In x locals -> good (T - 1) x) by (intros; apply Past; auto; lia).
      assert (j = T - 1).
      { destruct (Nat.eq_dec j (T - 1)) as [|Ne]; auto. exfalso. destruct (Ab (T - 1)) as (w & Uw & Aw); [lia|lia|].
        destruct (IH a Ha Hl' Pa Pl Ta' Tl (T - 1) w) as [Fw _]; auto. eapply full_absent; eauto. }
      subst j. destruct (IH a Ha Hl' Pa Pl Ta' Tl (T - 1) v) as [Fv Sv]; auto.
      split; auto. apply sem_fby_iff in Sv. destruct Sv as (e' & E & Sv).
      eapply sem_fby with (e' := e'); cbn [length]; rewrite (pos_next (length l) T) by lia; [exact E|].
      replace (Z.of_nat T - Z.of_nat (S (position (length l) (Z.of_nat (T - 1)))))%Z with
        (Z.of_nat (T - 1) - Z.of_nat (position (length l) (Z.of_nat (T - 1))))%Z by lia. exact Sv.
  Qed.

  Theorem prompt_ok : forall e, uok e.
  Proof.
    intros e. induction e using sexpr_ind'; intros k T v P Ta K Past Now U; cbn [prompt] in P; cbn [now] in Now.
    - inversion U; subst; split; constructor; try exact I; try exact Ta.
    - inversion U; subst.
      + destruct (Now x (or_introl eq_refl) ltac:(assumption) n) as (s & -> & Hs); auto. split; [constructor; auto|].
        apply sem_var; auto; [lia|]. rewrite Nat2Z.id. auto.
      + split; [constructor; eauto|apply sem_global; auto].
    - eapply (uok_paren l b H k); eauto.
    - inversion U; subst. cbn [tame] in Ta.
      assert (G : forall j w, nth_error args j = Some w -> full S_ w /\ sm (XParen l b) (Z.of_nat j) w).
      { intros j w E. assert (Lj : j < length args) by (apply nth_error_Some; congruence).
        match goal with X : forall k w, nth_error args k = Some w -> _ |- _ => specialize (X _ _ E) end.
        eapply (uok_paren l b H 0); eauto; [lia|intros; apply Past; auto; lia|].
        intros x I J. destruct (Nat.eq_dec j T) as [->|Ne]; [apply Now; auto|apply Past; auto; lia]. }
      match goal with X : F _ args v |- _ => apply HF in X as [F1 F2] end.
      + split; auto. eapply sem_call with (args := args); auto; [lia|rewrite Nat2Z.id; auto|]. intros j w E. apply G. auto.
      + apply Forall_forall. intros w I. apply In_nth_error in I. destruct I as (j & E). eapply G; eauto.
    - inversion U; subst. destruct (IHe k T w) as [A B]; auto. split; [eapply full_un; eauto|econstructor; eauto].
    - inversion U; subst. destruct (IHe k T w) as [A B]; auto. split; [eapply full_un; eauto|econstructor; eauto].
    - destruct k as [|k]; [discriminate|]. cbn [tame] in Ta. inversion U; subst.
      + exfalso. eapply (prompt_no_wait env Henv rho e k); eauto.
      + match goal with X : last_present _ _ _ |- _ => apply (last_prev e k) in X; auto end.
        destruct (uok_past e k T (T - 1) v) as [A B]; auto; try lia. split; auto. apply sem_pre.
        replace (Z.of_nat T - 1)%Z with (Z.of_nat (T - 1)) by lia. auto.
      + exfalso. match goal with X : never_present _ _ |- _ => eapply (not_never e k); [exact IHe| | | | |exact X] end; eauto.
    - apply andb_prop in P. destruct P as [P P3]. apply andb_prop in P. destruct P as [P1 P2].
      cbn [tame] in Ta. apply andb_prop in Ta. destruct Ta as [Ta T3]. apply andb_prop in Ta. destruct Ta as [T1 T2]. inversion U; subst.
      destruct (IHe1 k T vc) as [A1 B1]; auto; [intros; apply Now; auto; rewrite !in_app_iff; auto|].
      destruct (IHe2 k T va) as [A2 B2]; auto; [intros; apply Now; auto; rewrite !in_app_iff; auto|].
      destruct (IHe3 k T vb) as [A3 B3]; auto; [intros; apply Now; auto; rewrite !in_app_iff; auto|].
      split; [eapply full_ifx; [exact A1|exact A2|exact A3|eassumption]|econstructor; eauto].
    - apply andb_prop in P. destruct P as [P P3]. apply andb_prop in P. destruct P as [P1 P2].
      cbn [tame] in Ta. apply andb_prop in Ta. destruct Ta as [Ta T3]. apply andb_prop in Ta. destruct Ta as [T1 T2]. inversion U; subst.
      destruct (IHe1 k T vc) as [A1 B1]; auto; [intros; apply Now; auto; rewrite !in_app_iff; auto|].
      destruct (IHe2 k T va) as [A2 B2]; auto; [intros; apply Now; auto; rewrite !in_app_iff; auto|].
      destruct (IHe3 k T vb) as [A3 B3]; auto; [intros; apply Now; auto; rewrite !in_app_iff; auto|].
      split; [eapply full_merge; [exact A1|exact A2|exact A3|eassumption]|econstructor; eauto].
    - apply andb_prop in P. destruct P as [P1 P2]. cbn [tame] in Ta. apply andb_prop in Ta. destruct Ta as [T1 T2]. inversion U; subst.
      destruct (IHe k T w) as [A1 B1]; auto; [intros; apply Now; auto; rewrite !in_app_iff; auto|].
      destruct (uok_bins l H k T w v) as [A2 B2]; auto; [intros; apply Now; auto; rewrite !in_app_iff; auto|].
      split; auto. econstructor; eauto.
    - apply andb_prop in P. destruct P as [P1 P2]. inversion U; subst.
      + destruct (IHe k T v) as [A1 B1]; auto; [intros; apply Now; auto; rewrite !in_app_iff; auto|]. split; auto. constructor; auto.
      + cbn [tame forallb snd] in Ta, P2. apply andb_prop in Ta. destruct Ta as [Ta T2]. apply andb_prop in Ta. destruct Ta as [Fl T1].
        rewrite andb_true_r in T2, P2. inversion H as [|? ? Hb _]; subst. cbn [snd] in Hb.
        destruct (IHe k T va) as [A1 B1]; auto; [intros; apply Now; auto; rewrite !in_app_iff; auto|].
        destruct (Hb k T vb) as [A2 B2]; auto; [intros; apply Now; auto; cbn [flat_map snd]; rewrite !in_app_iff; auto|].
        split; [eapply full_cmp; [|exact A1|exact A2|eassumption]; destruct floats; auto; discriminate|econstructor; eauto].
    - destruct l; [|discriminate]. inversion U; subst. match goal with X : uclocks _ _ _ _ _ _ _ [] _ _ |- _ => inversion X; subst end.
      cbn [tame] in Ta. apply andb_prop in Ta. destruct Ta as [T1 _].
      destruct (IHe k T v) as [A B]; auto; [intros; apply Now; auto; rewrite !in_app_iff; auto|]. split; auto. econstructor; eauto. constructor.
    - cbn [tame] in Ta. apply andb_prop in Ta. destruct Ta as [T1 T2]. destruct l as [|a l].
      + inversion U; subst. destruct (IHe k T v) as [A B]; auto. split; auto.
        apply sem_fby_iff. cbn [length]. replace (position 0 (Z.of_nat T)) with 0 by (unfold position; lia). exists e. split; auto. rewrite Z.sub_0_r. auto.
      + apply andb_prop in P. destruct P as [P1 P2]. eapply uok_fby; eauto.
    - cbn [tame] in Ta. apply andb_prop in Ta. destruct Ta as [T1 T2]. destruct l as [|a [|b l]]; [| |discriminate].
      + inversion U; subst. destruct (IHe k T v) as [A B]; auto; [intros; apply Now; auto; rewrite !in_app_iff; auto|]. split; auto.
        apply sem_then_iff. cbn [length]. replace (position 0 (Z.of_nat T)) with 0 by (unfold position; lia). exists e. split; auto.
      + apply andb_prop in P. destruct P as [P1 P2]. cbn [forallb] in T2. rewrite andb_true_r in T2. inversion H as [|? ? Ha _]; subst.
        assert (Ne : forall x, In x (now e) -> In x locals -> good T x) by (intros; apply Now; auto; rewrite in_app_iff; auto).
        assert (Na : forall x, In x (now a) -> In x locals -> good T x) by (intros; apply Now; auto; cbn [flat_map]; rewrite !in_app_iff; auto).
        inversion U; subst.
        * exfalso. destruct (IHe 0 T w) as [A B]; auto; [lia|]. eapply full_absent; eauto.
        * destruct T as [|T].
          -- destruct (IHe 0 0 v) as [A B]; auto. split; auto. apply sem_then_iff. rewrite pos_zero. exists e. auto.
          -- exfalso. match goal with X : never_present _ _ |- _ => eapply (not_never e 0); [exact IHe| | | | |exact X] end; eauto. lia.
        * match goal with X : us (XThen a []) T v |- _ => inversion X; subst end.
          destruct (Ha (Nat.max 1 k) T v) as [A B]; auto; [lia|]. split; auto. apply sem_then_iff. cbn [length].
          replace (position 1 (Z.of_nat T)) with 1 by (unfold position; lia). exists a. auto.
  Qed.
End Expr.

(** The same in the default mode, between two meanings of the calls. *)
Section Default.
  Variable mode : ovf.
  Variable glob : ident -> option scalar.
  Variable locals : list ident.
  Variable rho : nat -> ident -> option nillable.
  Variables F F' : ident -> list val -> val -> Prop.
  Variables N N' : ident -> val -> Prop.
  Variable floats : bool.
  Notation S_ := (allowed floats).
  Hypothesis Hglob : forall x s, glob x = Some s -> S_ s.
  Hypothesis HF : forall f args v, F f args v -> Forall (full S_) args -> F' f args v /\ full S_ v.
  Notation sd := (sem mode glob locals rho F N).
  Notation sm := (sem mode glob locals rho F' N').
  Notation good := (good rho floats).

  Definition dok (e : sexpr) : Prop := forall k T v, prompt k e = true -> tame floats e = true -> k <= T ->
    (forall T' x, T' < T -> In x locals -> good T' x) -> (forall x, In x (now e) -> In x locals -> good T x) ->
    sd e (Z.of_nat T) v -> full S_ v /\ sm e (Z.of_nat T) v.

  Lemma dok_list : forall l, Forall dok l -> forall k T vs, forallb (prompt k) l = true -> forallb (tame floats) l = true -> k <= T ->
    (forall T' x, T' < T -> In x locals -> good T' x) -> (forall x, In x (flat_map now l) -> In x locals -> good T x) ->
    sems mode glob locals rho F N l (Z.of_nat T) vs -> Forall (full S_) vs /\ sems mode glob locals rho F' N' l (Z.of_nat T) vs.
  Proof.
    induction 1 as [|e l H _ IH]; intros k T vs P Ta K Past Now U; inversion U; subst; [split; constructor|].
    cbn in P, Ta. apply andb_prop in P, Ta. destruct P as [P1 P2], Ta as [T1 T2]. cbn [flat_map] in Now.
    destruct (H k T v) as [A1 A2]; auto; [intros x I; apply Now; apply in_or_app; auto|].
    destruct (IH k T vs0) as [B1 B2]; auto; [intros x I; apply Now; apply in_or_app; auto|].
    split; constructor; auto.
  Qed.
  Lemma dok_paren : forall l b, Forall dok l -> dok (XParen l b).
  Proof.
    intros l b H k T v P Ta K Past Now U. inversion U; subst. destruct (dok_list l H k T vs) as [A B]; auto.
    split; [apply full_tuples; auto; exact I|constructor; auto].
  Qed.
  Lemma dok_bins : forall l, Forall (fun p => dok (snd p)) l -> forall k T w v, full S_ w ->
    forallb (fun p => prompt k (snd p)) l = true -> forallb (fun p => tame floats (snd p)) l = true -> k <= T ->
    (forall T' x, T' < T -> In x locals -> good T' x) -> (forall x, In x (flat_map (fun p => now (snd p)) l) -> In x locals -> good T x) ->
    bins mode glob locals rho F N w l (Z.of_nat T) v -> full S_ v /\ bins mode glob locals rho F' N' w l (Z.of_nat T) v.
  Proof.
    induction 1 as [|[op e] l H _ IH]; intros k T w v Fw P Ta K Past Now U; inversion U; subst; [split; [auto|constructor]|].
    cbn in P, Ta. apply andb_prop in P, Ta. destruct P as [P1 P2], Ta as [T1 T2]. cbn [flat_map snd] in Now, H.
    match goal with X : sd e (Z.of_nat T) ?b, Y : val_bin _ _ _ ?b = Ok ?c |- _ =>
      destruct (H k T b) as [A1 A2]; auto; [intros x I; apply Now; apply in_or_app; auto|];
      destruct (IH k T c v) as [B1 B2]; auto; [eapply full_bin; [exact Fw|exact A1|exact Y]|intros x I; apply Now; apply in_or_app; auto|];
      split; auto; econstructor; eauto end.
  Qed.

  Theorem default_ok : forall e, dok e.
  Proof.
    intros e. induction e using sexpr_ind'; intros k T v P Ta K Past Now U; cbn [prompt] in P; cbn [now] in Now.
    - inversion U; subst; split; constructor; try exact I; try exact Ta.
    - inversion U; subst.
      + rewrite Nat2Z.id in *. destruct (Now x (or_introl eq_refl) ltac:(assumption) n) as (s & -> & Hs); auto. split; [constructor; auto|].
        apply sem_var; auto. rewrite Nat2Z.id. auto.
      + lia.
      + split; [constructor; eauto|apply sem_global; auto].
    - eapply (dok_paren l b H k); eauto.
    - inversion U; subst; [lia|]. cbn [tame] in Ta. rewrite Nat2Z.id in *.
      assert (G : forall j w, nth_error args j = Some w -> full S_ w /\ sm (XParen l b) (Z.of_nat j) w).
      { intros j w E. assert (Lj : j < length args) by (apply nth_error_Some; congruence).
        match goal with X : forall k w, nth_error args k = Some w -> _ |- _ => specialize (X _ _ E) end.
        eapply (dok_paren l b H 0); eauto; [lia|intros; apply Past; auto; lia|].
        intros x I J. destruct (Nat.eq_dec j T) as [->|Ne]; [apply Now; auto|apply Past; auto; lia]. }
      match goal with X : F _ args v |- _ => apply HF in X as [F1 F2] end.
      + split; auto. eapply sem_call with (args := args); auto; [rewrite Nat2Z.id; auto|]. intros j w E. apply G. auto.
      + apply Forall_forall. intros w I. apply In_nth_error in I. destruct I as (j & E). eapply G; eauto.
    - inversion U; subst. destruct (IHe k T w) as [A B]; auto. split; [eapply full_un; eauto|econstructor; eauto].
    - inversion U; subst. destruct (IHe k T w) as [A B]; auto. split; [eapply full_un; eauto|econstructor; eauto].
    - destruct k as [|k]; [discriminate|]. cbn [tame] in Ta. apply sem_pre_iff in U.
      replace (Z.of_nat T - 1)%Z with (Z.of_nat (T - 1)) in U by lia.
      destruct (IHe k (T - 1) v) as [A B]; auto; try lia; [intros; apply Past; auto; lia|intros; apply Past; auto; lia|].
      split; auto. apply sem_pre. replace (Z.of_nat T - 1)%Z with (Z.of_nat (T - 1)) by lia. auto.
    - apply andb_prop in P. destruct P as [P P3]. apply andb_prop in P. destruct P as [P1 P2].
      cbn [tame] in Ta. apply andb_prop in Ta. destruct Ta as [Ta T3]. apply andb_prop in Ta. destruct Ta as [T1 T2]. inversion U; subst.
      destruct (IHe1 k T vc) as [A1 B1]; auto; [intros; apply Now; auto; rewrite !in_app_iff; auto|].
      destruct (IHe2 k T va) as [A2 B2]; auto; [intros; apply Now; auto; rewrite !in_app_iff; auto|].
      destruct (IHe3 k T vb) as [A3 B3]; auto; [intros; apply Now; auto; rewrite !in_app_iff; auto|].
      split; [eapply full_ifx; [exact A1|exact A2|exact A3|eassumption]|econstructor; eauto].
    - apply andb_prop in P. destruct P as [P P3]. apply andb_prop in P. destruct P as [P1 P2].
      cbn [tame] in Ta. apply andb_prop in Ta. destruct Ta as [Ta T3]. apply andb_prop in Ta. destruct Ta as [T1 T2]. inversion U; subst.
      destruct (IHe1 k T vc) as [A1 B1]; auto; [intros; apply Now; auto; rewrite !in_app_iff; auto|].
      destruct (IHe2 k T va) as [A2 B2]; auto; [intros; apply Now; auto; rewrite !in_app_iff; auto|].
      destruct (IHe3 k T vb) as [A3 B3]; auto; [intros; apply Now; auto; rewrite !in_app_iff; auto|].
      split; [eapply full_merge; [exact A1|exact A2|exact A3|eassumption]|econstructor; eauto].
    - apply andb_prop in P. destruct P as [P1 P2]. cbn [tame] in Ta. apply andb_prop in Ta. destruct Ta as [T1 T2]. inversion U; subst.
      destruct (IHe k T w) as [A1 B1]; auto; [intros; apply Now; auto; rewrite !in_app_iff; auto|].
      destruct (dok_bins l H k T w v) as [A2 B2]; auto; [intros; apply Now; auto; rewrite !in_app_iff; auto|].
      split; auto. econstructor; eauto.
    - apply andb_prop in P. destruct P as [P1 P2]. inversion U; subst.
      + destruct (IHe k T v) as [A1 B1]; auto; [intros; apply Now; auto; rewrite !in_app_iff; auto|]. split; auto. constructor; auto.
      + cbn [tame forallb snd] in Ta, P2. apply andb_prop in Ta. destruct Ta as [Ta T2]. apply andb_prop in Ta. destruct Ta as [Fl T1].
        rewrite andb_true_r in T2, P2. inversion H as [|? ? Hb _]; subst. cbn [snd] in Hb.
        destruct (IHe k T va) as [A1 B1]; auto; [intros; apply Now; auto; rewrite !in_app_iff; auto|].
        destruct (Hb k T vb) as [A2 B2]; auto; [intros; apply Now; auto; cbn [flat_map snd]; rewrite !in_app_iff; auto|].
        split; [eapply full_cmp; [|exact A1|exact A2|eassumption]; destruct floats; auto; discriminate|econstructor; eauto].
    - destruct l; [|discriminate]. inversion U; subst. match goal with X : clocks _ _ _ _ _ _ _ [] _ _ |- _ => inversion X; subst end.
      cbn [tame] in Ta. apply andb_prop in Ta. destruct Ta as [T1 _].
      destruct (IHe k T v) as [A B]; auto; [intros; apply Now; auto; rewrite !in_app_iff; auto|]. split; auto. econstructor; eauto. constructor.
    - cbn [tame] in Ta. apply andb_prop in Ta. destruct Ta as [T1 T2]. apply sem_fby_iff in U. destruct U as (e' & E & U).
      set (i := position (length l) (Z.of_nat T)) in *.
      assert (Li : i <= T /\ (i = 0 -> l = [] \/ T = 0)).
      { unfold i, position. split; [lia|]. intros Z. destruct l; auto. right. cbn [length] in Z. lia. }
      destruct Li as [Li Lz]. replace (Z.of_nat T - Z.of_nat i)%Z with (Z.of_nat (T - i)) in U by lia.
      assert (G : full S_ v /\ sm e' (Z.of_nat (T - i)) v).
      { destruct l as [|a l].
        - assert (Zi : i = 0) by (unfold i, position; cbn [length]; lia). rewrite Zi in *. cbn in E. injection E as <-. rewrite Nat.sub_0_r in *. eapply IHe; eauto.
        - apply andb_prop in P. destruct P as [P1 P2]. rewrite forallb_forall in P2, T2. rewrite Forall_forall in H.
          destruct i as [|j]; cbn in E.
          + injection E as <-. rewrite Nat.sub_0_r in *. eapply (IHe 0); eauto.
          + apply nth_error_In in E. eapply (H e' E 0); eauto; [lia|intros; apply Past; auto; lia|intros; apply Past; auto; lia]. }
      destruct G as [G1 G2]. split; auto. apply sem_fby_iff. exists e'. split; auto. fold i.
      replace (Z.of_nat T - Z.of_nat i)%Z with (Z.of_nat (T - i)) by lia. auto.
    - cbn [tame] in Ta. apply andb_prop in Ta. destruct Ta as [T1 T2]. apply sem_then_iff in U. destruct U as (e' & E & U).
      destruct l as [|a [|b l]]; [| |discriminate].
      + assert (Zi : position (length (@nil sexpr)) (Z.of_nat T) = 0) by (unfold position; cbn [length]; lia). rewrite Zi in E. injection E as <-.
        destruct (IHe k T v) as [A B]; auto; [intros; apply Now; auto; rewrite !in_app_iff; auto|]. split; auto.
        apply sem_then_iff. rewrite Zi. exists e. auto.
      + apply andb_prop in P. destruct P as [P1 P2]. cbn [forallb] in T2. rewrite andb_true_r in T2. inversion H as [|? ? Ha _]; subst.
        cbn [flat_map] in Now. destruct T as [|T].
        * cbn [length] in E. rewrite pos_zero in E. injection E as <-.
          destruct (IHe 0 0 v) as [A B]; auto; [intros; apply Now; auto; rewrite !in_app_iff; auto|]. split; auto.
          apply sem_then_iff. rewrite pos_zero. exists e. auto.
        * assert (Zi : position (length [a]) (Z.of_nat (S T)) = 1) by (unfold position; cbn [length]; lia). rewrite Zi in E. injection E as <-.
          destruct (Ha (Nat.max 1 k) (S T) v) as [A B]; auto; [lia|intros; apply Now; auto; rewrite !in_app_iff; auto|]. split; auto.
          apply sem_then_iff. rewrite Zi. exists a. auto.
  Qed.
End Default.

Lemma binds_part : forall l b y, In y (binds (TTuple l b)) -> exists u, In u l /\ In y (binds u).
Proof.
  intros l b y I. cbn [tr_target] in I. destruct l as [|a [|b0 l]]; [destruct I| |].
  - destruct b; cbn [map target_vars flat_map] in I; rewrite ?app_nil_r in I; exists a; cbn; auto.
  - cbn [target_vars] in I. apply in_flat_map in I. destruct I as (w & Iw & Iy). change (In w (map tr_target (a :: b0 :: l))) in Iw.
    apply in_map_iff in Iw. destruct Iw as (u & <- & Iu). eauto.
Qed.

Lemma match_full : forall S env t v, smatches env t v -> full S v -> forall x n, In x (binds t) -> env x = Some n -> exists s, n = Defined s /\ S s.
Proof.
  intros S env t. induction t using starget_ind'; intros v M Fv y n I E.
  - destruct I as [<-|[]]. inversion M; subst. assert (n0 = n) by congruence. subst. inversion Fv; subst. eauto.
  - destruct (binds_part _ _ _ I) as (u & Iu & Iy). rewrite Forall_forall in H. inversion M; subst; [destruct Iu| |].
    + destruct Iu as [<-|[]]. eapply H; eauto. left; auto.
    + assert (Ex : exists w, In w vs /\ smatches env u w).
      { match goal with X : Forall2 _ l vs |- _ => clear - X Iu; induction X as [|a b l vs Ab X IH] end; [destruct Iu|].
        destruct Iu as [->|Iu]; [exists b; split; [left|]; auto|]. destruct (IH Iu) as (w & I1 & I2). exists w. split; auto. right. auto. }
      destruct Ex as (w & Iw & Mw). inversion Fv as [|? ? Fa]; subst. rewrite Forall_forall in Fa. eapply H; eauto.
Qed.

Section Node.
  Variable mode : ovf.
  Variable glob : ident -> option scalar.
  Variable floats : bool.
  Notation S_ := (allowed floats).
  Variable F' : ident -> list val -> val -> Prop.
  Variable N' : ident -> val -> Prop.
  Variable sn : snode.
  Variable rho : nat -> ident -> option nillable.
  Hypothesis Hp : prompt_node floats sn.
  Hypothesis Ho : exists rank : ident -> nat,
    (forall t e, In (XDef t e) (s_defs sn) -> forall x y, In x (now e) -> In x (node_vars sn) -> ~ In x (declared (s_inputs sn)) ->
       In y (binds t) -> rank x < rank y) /\
    (forall x, In x (node_vars sn) -> ~ In x (declared (s_inputs sn)) -> exists t e, In (XDef t e) (s_defs sn) /\ In x (binds t)).
  (** The values of the expressions, in some mode. *)
  Variable M : sexpr -> nat -> val -> Prop.
  Hypothesis HM : forall e k T v, prompt k e = true -> tame floats e = true -> k <= T ->
    (forall T' x, T' < T -> In x (node_vars sn) -> good rho floats T' x) -> (forall x, In x (now e) -> In x (node_vars sn) -> good rho floats T x) ->
    M e T v -> full S_ v /\ sem mode glob (node_vars sn) rho F' N' e (Z.of_nat T) v.
  Definition mholds (T : nat) (i : sstmt) : Prop :=
    match i with
    | XDef t e => exists v, M e T v /\ smatches (rho T) t v
    | XAssert e => M e T (VS (Defined (SBool true)))
    end.
  Variable k : nat.
  Hypothesis Hd : forall T, T < k -> forall i, In i (s_defs sn) -> mholds T i.
  Hypothesis Hi : forall T, T < k -> forall x, In x (declared (s_inputs sn)) -> good rho floats T x.

  Lemma streams_good : forall T, T < k -> forall x, In x (node_vars sn) -> good rho floats T x.
  Proof.
    destruct Ho as (rank & Hr & Hx). intros T. induction T as [T IHT] using lt_wf_ind. intros L.
    assert (G : forall m x, rank x < m -> In x (node_vars sn) -> good rho floats T x).
    { induction m as [|m IHm]; intros x Lx Ix; [lia|].
      destruct (in_dec string_dec x (declared (s_inputs sn))) as [Ii|Ni]; [apply Hi; auto|].
      destruct (Hx x Ix Ni) as (t & e & Id & It). destruct (Hd T L _ Id) as (v & Me & Mt).
      destruct Hp as [_ Hq]. destruct (Hq _ Id) as [P Ta]. cbn [stmt_expr] in *.
      destruct (HM e 0 T v P Ta) as [Fv _]; auto; [lia|intros T' y L' Iy; apply IHT; auto; lia| |].
      - intros y Iy Vy. destruct (in_dec string_dec y (declared (s_inputs sn))) as [Ii|Ny]; [apply Hi; auto|].
        apply IHm; auto. specialize (Hr _ _ Id y x Iy Vy Ny It). lia.
      - intros n E. eapply match_full; eauto. }
    intros x Ix. eapply (G (S (rank x))); auto.
  Qed.

  Lemma prompt_holds : forall T, T < k -> forall i, In i (s_defs sn) -> sstmt_holds mode glob (node_vars sn) rho F' N' T i.
  Proof.
    intros T L i I. destruct Hp as [_ Hq]. destruct (Hq _ I) as [P Ta]. pose proof (Hd T L i I) as D.
    assert (Past : forall T' x, T' < T -> In x (node_vars sn) -> good rho floats T' x) by (intros; apply streams_good; auto; lia).
    destruct i as [t e|e]; cbn [stmt_expr sstmt_holds mholds] in *.
    - destruct D as (v & Me & Mt). exists v. split; auto. eapply (HM e 0); eauto; [lia|]. intros; apply streams_good; auto.
    - eapply (HM e 0); eauto; [lia|]. intros; apply streams_good; auto.
  Qed.
End Node.

Lemma prompt_paces : forall floats sn, prompt_node floats sn -> forall x p y, declared_pace sn x <> Some (On p y).
Proof.
  intros floats sn [H _] x p y E. unfold declared_pace in E. destruct (lookup x _) as [c|] eqn:L; [|discriminate].
  assert (I : In (x, c) (declared_clocks (s_inputs sn ++ s_outputs sn ++ s_locals sn))).
  { clear - L. induction (declared_clocks _) as [|[z d] l IH]; [discriminate|]. simpl in L.
    destruct (String.eqb x z) eqn:Q; [apply String.eqb_eq in Q; subst; inversion L; left; auto|right; auto]. }
  apply H in I. subst. discriminate.
Qed.

Section Program.
  Variable mode : ovf.
  Variable glob : ident -> option scalar.
  Variable floats : bool.
  Notation S_ := (allowed floats).
  Hypothesis Hglob : forall x s, glob x = Some s -> S_ s.

  (** What the meaning of a node gives at every instant. *)
  Lemma node_streams : forall sn rho ins outs (P : nat -> Prop), length outs = length ins ->
    (forall T v o, nth_error ins T = Some v -> nth_error outs T = Some o ->
        (declared (s_inputs sn) = [] \/ row (rho T) (declared (s_inputs sn)) v) /\ P T /\ row (rho T) (declared (s_outputs sn)) o) ->
    Forall (full S_) ins ->
    (forall T, T < length ins -> P T) /\ (forall T, T < length ins -> forall x, In x (declared (s_inputs sn)) -> good rho floats T x).
  Proof.
    intros sn rho ins outs P L H Fi.
    assert (At : forall T, T < length ins -> exists v w, nth_error ins T = Some v /\ nth_error outs T = Some w).
    { intros T K. assert (A : nth_error ins T <> None) by (apply nth_error_Some; auto).
      assert (B : nth_error outs T <> None) by (apply nth_error_Some; lia).
      destruct (nth_error ins T), (nth_error outs T); try congruence. eauto. }
    split; intros T K; destruct (At T K) as (v & w & E1 & E2); destruct (H _ _ _ E1 E2) as (A & B & C); auto.
    intros x I n En. destruct A as [A|A]; [rewrite A in I; destruct I|].
    eapply (full_row _ _ _ _ A); eauto. rewrite Forall_forall in Fi. apply Fi. eapply nth_error_In; eauto.
  Qed.

  Lemma outs_full : forall sn rho (ins outs : list val), length outs = length ins ->
    (forall T v o, nth_error ins T = Some v -> nth_error outs T = Some o -> row (rho T) (declared (s_outputs sn)) o) ->
    (forall T, T < length ins -> forall x, In x (node_vars sn) -> good rho floats T x) -> Forall (full S_) outs.
  Proof.
    intros sn rho ins outs L H G. apply Forall_forall. intros w Iw. apply In_nth_error in Iw. destruct Iw as (T & Ew).
    assert (K : T < length ins) by (rewrite <- L; apply nth_error_Some; congruence).
    destruct (nth_error ins T) as [v|] eqn:Ev; [|apply nth_error_None in Ev; lia].
    eapply row_full; [eapply H; eauto| |exact I]. intros x n Ix En. eapply (G T K x); eauto. unfold node_vars. rewrite !in_app_iff. auto.
  Qed.

  Lemma node_prompt : forall o sn nd (F F' : ident -> list val -> val -> Prop) N N', compiled_node o sn nd -> prompt_node floats sn ->
    (forall f args v, F f args v -> Forall (full S_) args -> F' f args v /\ full S_ v) ->
    forall (u : bool) ins outs, Forall (full S_) ins ->
    (if u then unode_meaning mode glob F sn ins outs else node_meaning mode glob F N sn ins outs) ->
    node_meaning mode glob F' N' sn ins outs /\ Forall (full S_) outs.
  Proof.
    intros o sn nd F F' N N' C Hp HF u ins outs Fi Hm. destruct (compiled_passed _ _ _ C) as (nd0 & stmts & Pa).
    pose proof (source_order _ _ _ _ _ Pa) as Ord.
    assert (G : forall rho (M : sexpr -> nat -> val -> Prop),
      (forall e k T v, prompt k e = true -> tame floats e = true -> k <= T ->
         (forall T' x, T' < T -> In x (node_vars sn) -> good rho floats T' x) -> (forall x, In x (now e) -> In x (node_vars sn) -> good rho floats T x) ->
         M e T v -> full S_ v /\ sem mode glob (node_vars sn) rho F' N' e (Z.of_nat T) v) ->
      length outs = length ins ->
      (forall T v o, nth_error ins T = Some v -> nth_error outs T = Some o ->
         (declared (s_inputs sn) = [] \/ row (rho T) (declared (s_inputs sn)) v) /\
         (forall i, In i (s_defs sn) -> mholds rho M T i) /\ row (rho T) (declared (s_outputs sn)) o) ->
      node_meaning mode glob F' N' sn ins outs /\ Forall (full S_) outs).
    { intros rho M HM L H. destruct (node_streams sn rho ins outs _ L H Fi) as [Hd Hi]. split.
      - split; auto. exists rho. intros T v w E1 E2. destruct (H _ _ _ E1 E2) as (A & B & D). split; auto. split; auto.
        assert (K : T < length ins) by (apply nth_error_Some; congruence).
        intros i I. eapply (prompt_holds mode glob floats F' N' sn rho Hp Ord M HM (length ins) Hd Hi); eauto.
      - eapply (outs_full sn rho ins outs L); [intros T v w E1 E2; apply (H _ _ _ E1 E2)|].
        apply (streams_good mode glob floats F' N' sn rho Hp Ord M HM (length ins) Hd Hi). }
    destruct u; destruct Hm as (L & rho & H).
    - apply (G rho (usem mode glob (node_vars sn) (declared_pace sn) rho F)); auto.
      intros e k T v. apply (prompt_ok mode glob (node_vars sn) (declared_pace sn) rho F F' N' floats (prompt_paces _ _ Hp) Hglob HF e).
    - apply (G rho (fun e T => sem mode glob (node_vars sn) rho F N e (Z.of_nat T))); auto.
      intros e k T v. apply (default_ok mode glob (node_vars sn) rho F F' N N' floats Hglob HF e).
  Qed.

  Lemma filter_full : forall ins, Forall (full S_) ins -> filter (fun v => negb (first_is_nil v)) ins = ins.
  Proof. induction 1 as [|v l H _ IH]; auto. cbn. rewrite (full_first _ _ H). cbn. f_equal. auto. Qed.
  Lemma weave_full : forall w ins pouts, Forall (full S_) ins -> length pouts = length ins -> weave w ins pouts = pouts.
  Proof.
    intros w ins pouts H. revert pouts. induction H as [|v l H _ IH]; intros [|o pouts] L; try discriminate; auto.
    cbn [weave]. rewrite (full_first _ _ H). f_equal. apply IH. cbn in L. lia.
  Qed.

  Theorem moded_default : forall p l, result (pipeline p) = Some l ->
    (forall sn, In sn (source_nodes p) -> prompt_node floats sn) ->
    forall f ins outs, mmeans mode glob (moded_nodes p) f ins outs -> Forall (full S_) ins ->
    means mode glob (source_nodes p) f ins outs /\ Forall (full S_) outs.
  Proof.
    intros p l R Hp f ins outs (n & D) Fi.
    assert (Nm : map snd (moded_nodes p) = source_nodes p).
    { unfold moded_nodes, source_nodes. clear. induction p as [|(a, d) p IH]; auto. cbn. rewrite map_app, IH. destruct d; auto. }
    assert (G : denotes mode glob (source_nodes p) n f ins outs /\ Forall (full S_) outs); [|destruct G; split; [exists n|]; auto].
    revert f ins outs D Fi. induction n as [|n IH]; intros f ins outs D Fi; [destruct D|].
    cbn [mdenotes] in D. destruct D as (u & sn & po & I & E & Mn & ->). cbn zeta in Mn. rewrite (filter_full _ Fi) in Mn.
    assert (Is : In sn (source_nodes p)) by (rewrite <- Nm; apply in_map_iff; exists (u, sn); auto).
    destruct (source_node_in _ _ Is) as (a & Ia). destruct (pipeline_covers _ _ R _ _ Ia) as (d & o & nd & _ & W & Fo & C).
    eapply (node_prompt o sn nd _ (fun g args v => exists os, denotes mode glob (source_nodes p) n g args (os ++ [v])) _ (no_input (source_nodes p))) in Mn; eauto.
    - destruct Mn as [Mn Fo']. assert (L : length po = length ins) by apply Mn. rewrite (weave_full _ _ _ Fi L). split; auto.
      cbn [denotes]. exists sn, po. split; auto. split; auto. rewrite (filter_full _ Fi). split; auto. rewrite (weave_full _ _ _ Fi L). auto.
    - intros g args v (os & D) Fa. destruct (IH _ _ _ D Fa) as [D' Fv]. split; [eauto|]. apply Forall_app in Fv. destruct Fv as [_ Fv]. inversion Fv; auto.
  Qed.
End Program.

Lemma same_sources : forall p q, same_declarations p q -> source_nodes p = source_nodes q.
Proof.
  intros p q H. unfold same_declarations in H. unfold source_nodes.
  assert (G : forall r : sprog, flat_map (fun d => match snd d with XNode sn => [sn] | _ => [] end) r =
    flat_map (fun d => match d with XNode sn => [sn] | _ => [] end) (map snd r)).
  { induction r as [|x r IH]; auto. cbn. rewrite IH. auto. }
  rewrite !G. congruence.
Qed.

Theorem universal_same : forall mode glob floats p q l m f i j ins outs i' outs' j',
  same_declarations p q -> (forall a sn, In (a, XNode sn) q -> ~ In "universal_pre"%string (map a_action a)) ->
  result (pipeline p) = Some l -> result (pipeline q) = Some m ->
  (forall x s, glob x = Some s -> allowed floats s) ->
  (forall sn, In sn (source_nodes p) -> prompt_node floats sn) ->
  Forall (full (allowed floats)) ins ->
  init_inst (nodes_of l) f = Ok i -> run mode glob (nodes_of l) f i ins = Ok (outs, i') ->
  init_inst (nodes_of m) f = Ok j -> run mode glob (nodes_of m) f j ins = Ok (outs', j') ->
  outs = outs' /\ Forall (full (allowed floats)) outs.
Proof.
  intros mode glob floats p q l m f i j ins outs i' outs' j' Sd D R R' Hg Hp Fi Ii Ri Ij Rj.
  pose proof (moded_program_sound _ _ _ _ _ _ _ _ _ R Ii Ri) as A.
  destruct (moded_default mode glob floats Hg p l R Hp f ins outs A Fi) as [A' Fo]. split; auto.
  pose proof (program_sound _ _ _ _ _ _ _ _ _ R' D Ij Rj) as B. rewrite (same_sources _ _ Sd) in A'.
  eapply means_unique; eauto.
Qed.
