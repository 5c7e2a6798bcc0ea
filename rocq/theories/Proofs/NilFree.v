(** Accepted nodes with defined inputs have defined outputs, under conditions. *)
From Coq Require Import String List ZArith Bool Arith Lia Permutation.
From Verif Require Import Model.Base Model.Scalar Model.Value Model.Ast Model.Errors Model.Options Model.Interp Model.Surface Model.Translate
  Model.Graph Model.Causality Model.Typecheck Model.Clockcheck Model.Positivity Model.Pipeline
  Spec.StepSpec Spec.SurfaceSem Spec.ProgramSem Spec.ClockSpec Spec.SafetySpec Proofs.AstInd Proofs.OutBasics Proofs.TranslateSem Proofs.TranslateStruct Proofs.NodeWf
  Proofs.PipelineProofs Proofs.ProgramProofs Proofs.Unique Proofs.Paces Proofs.PaceNode Proofs.Presence Proofs.TraceInd.
Import ListNotations.

(** A run, instant by instant: defined inputs give defined outputs, absent
    inputs absent outputs. *)
Definition answers_well (S : scalar -> Prop) (v o : val) : Prop := (full S v -> full S o) /\ (empty v -> empty o).

Lemma not_both : forall S v, full S v -> empty v -> False.
Proof. intros S v A B. apply full_first in A. apply empty_first in B. congruence. Qed.

Lemma absent_empty : forall l, empty (absent_row l).
Proof.
  intros [|a [|b l]]; try constructor; [discriminate|]. cbn. repeat constructor. induction l; constructor; auto. constructor.
Qed.

Lemma row_full : forall S env l v, row env l v -> (forall x n, In x l -> env x = Some n -> exists s, n = Defined s /\ S s) -> S SUnit -> full S v.
Proof.
  intros S env l v (ns & A & ->) H U.
  assert (G : Forall (full S) (map VS ns)).
  { induction A as [|x n l ns E A IH]; cbn; constructor.
    - destruct (H x n) as (s & -> & Hs); cbn; auto. constructor. auto.
    - apply IH. intros y m I. apply H. cbn. auto. }
  destruct (map VS ns) as [|v [|v' vs]]; cbn.
  - constructor. auto.
  - inversion G; auto.
  - constructor; [discriminate|auto].
Qed.

Lemma full_row : forall S env l v, row env l v -> full S v -> forall x n, In x l -> env x = Some n -> exists s, n = Defined s /\ S s.
Proof.
  intros S env l v (ns & A & ->) H.
  assert (G : Forall (full S) (map VS ns) \/ l = []).
  { destruct A as [|x n l ns E A]; auto. left. destruct A as [|y m l ns E' A]; cbn in *; [constructor; auto|]. inversion H; auto. }
  destruct G as [G| ->]; [|intros x n []]. clear H. induction A as [|x n l ns E A IH]; intros y m I Ey; [destruct I|].
  cbn in G. inversion G as [|? ? G1 G2]; subst. destruct I as [<-|I]; [|eauto].
  assert (m = n) by congruence. subst. inversion G1; subst. eauto.
Qed.

(** Pattern of a present or absent value. *)
Lemma match_pres : forall sn rho k t T v, pace_target (declared_pace sn) t = Some k -> smatches (rho T) t v ->
  forall floats k' , same_pace k k' = true -> pres rho floats k' (Z.of_nat T) v ->
  forall x n kx, In x (target_vars (tr_target t)) -> declared_pace sn x = Some kx -> rho T x = Some n -> pres rho floats kx (Z.of_nat T) (VS n).
Proof.
  intros sn rho k t. revert k. induction t using starget_ind'; intros k T v Pt M floats k' Sk Pv y n ky I Ey En.
  - cbn in Pt, I. destruct I as [<-|[]]. inversion M; subst. assert (k = ky) by congruence. subst.
    assert (n0 = n) by congruence. subst. pose proof (same_active rho ky k' (Z.of_nat T) Sk) as Sa. destruct Pv as [A B]. split; intros X; [apply A|apply B]; tauto.
  - cbn [pace_target] in Pt.
    assert (U : forall u ku, In u l -> pace_target (declared_pace sn) u = Some ku -> same_pace k ku = true).
    { clear - Pt. intros u ku I E. destruct l as [|a l]; [destruct I|]. cbn [map uniform] in Pt.
      destruct (pace_target (declared_pace sn) a) as [g|] eqn:Ea; [|discriminate]. cbn [pbind] in Pt.
      destruct (forallb _ _) eqn:Fb; [|discriminate]. inversion Pt; subst. rewrite forallb_forall in Fb.
      specialize (Fb (Some ku)). apply Fb. cbn [In]. destruct I as [->|I]; [left; congruence|right]. apply in_map_iff. eauto. }
    assert (D : forall u, In u l -> exists ku, pace_target (declared_pace sn) u = Some ku).
    { clear - Pt. intros u I. destruct l as [|a l]; [destruct I|]. cbn [map uniform] in Pt.
      destruct (pace_target (declared_pace sn) a) as [g|] eqn:Ea; [|discriminate]. cbn [pbind] in Pt.
      destruct (forallb _ _) eqn:Fb; [|discriminate]. rewrite forallb_forall in Fb. destruct I as [->|I]; [eauto|].
      destruct (pace_target (declared_pace sn) u) as [ku|] eqn:Eu; eauto.
      exfalso. specialize (Fb None). discriminate Fb. right. rewrite <- Eu. apply in_map. auto. }
    assert (Tr : forall a b c, same_pace a b = true -> same_pace a c = true -> same_pace b c = true).
    { clear. intros [| |p x] [| |q z] [| |r w]; cbn; try discriminate; auto. intros A B. apply andb_prop in A, B. destruct A as [A A'], B as [B B'].
      apply Bool.eqb_prop in A, B. apply String.eqb_eq in A', B'. subst. rewrite Bool.eqb_reflx, String.eqb_refl. auto. }
    assert (In' : exists u, In u l /\ In y (target_vars (tr_target u))).
    { cbn [tr_target] in I. destruct l as [|a [|b0 l]]; [destruct I| |].
      - destruct b; cbn [map target_vars flat_map] in I; rewrite ?app_nil_r in I; exists a; cbn; auto.
      - cbn [target_vars] in I. apply in_flat_map in I. destruct I as (w & Iw & Iy). change (In w (map tr_target (a :: b0 :: l))) in Iw. apply in_map_iff in Iw. destruct Iw as (u & <- & Iu). eauto. }
    destruct In' as (u & Iu & Iy). destruct (D u Iu) as (ku & Eku). pose proof (U u ku Iu Eku) as Sku. rewrite Forall_forall in H.
    assert (Su : same_pace ku k' = true) by (eapply (Tr k); eauto).
    inversion M; subst; [destruct Iu| |].
    + destruct Iu as [<-|[]]. eapply (H t (or_introl eq_refl) ku); eauto.
    + assert (Ex : exists w, In w vs /\ smatches (rho T) u w).
      { match goal with X : Forall2 _ l vs |- _ => clear - X Iu; induction X as [|a b l vs Ab X IH] end; [destruct Iu|].
        destruct Iu as [->|Iu]; [exists b; split; [left|]; auto|]. destruct (IH Iu) as (w & I1 & I2). exists w. split; auto. right. auto. }
      destruct Ex as (w & Iw & Mw). eapply (H u Iu ku); eauto.
      destruct Pv as [A B]. split; intros X.
      * specialize (A X). inversion A; subst. match goal with Z : Forall (full _) vs |- _ => rewrite Forall_forall in Z; auto end.
      * specialize (B X). inversion B; subst. match goal with Z : Forall empty vs |- _ => rewrite Forall_forall in Z; auto end.
Qed.

Section NilFree.
  Variable mode : ovf.
  Variable glob : ident -> option scalar.
  Variable floats : bool.
  Notation S_ := (allowed floats).
  Hypothesis Hglob : forall x s, glob x = Some s -> S_ s.

  Section Node.
    Variable F : ident -> list val -> val -> Prop.
    Variable N : ident -> val -> Prop.
    Hypothesis HF : forall f args w v, F f (args ++ [w]) v ->
      (forall u, In u (args ++ [w]) -> full S_ u \/ empty u) -> (full S_ w -> full S_ v) /\ (empty w -> empty v).

    Lemma declared_pace_in : forall sn x, In x (node_vars sn) -> exists c, lookup x (declared_clocks (s_inputs sn ++ s_outputs sn ++ s_locals sn)) = Some c /\
      In (x, c) (declared_clocks (s_inputs sn ++ s_outputs sn ++ s_locals sn)) /\ declared_pace sn x = Some (clock_pace c).
    Proof.
      intros sn x I. unfold declared_pace.
      assert (J : In x (map fst (declared_clocks (s_inputs sn ++ s_outputs sn ++ s_locals sn)))).
      { rewrite declared_clocks_names. unfold declared. rewrite !flat_map_app. exact I. }
      destruct (lookup x _) as [c|] eqn:E.
      - exists c. split; auto. split; auto. clear - E. induction (declared_clocks _) as [|[y d] l IH]; [discriminate|]. simpl in E.
        destruct (String.eqb x y) eqn:Q; [apply String.eqb_eq in Q; subst; inversion E; left; auto|right; auto].
      - exfalso. revert J. apply lookup_none. auto.
    Qed.

    Lemma streams_present : forall o sn nd nd0 stmts, passed o sn nd nd0 stmts -> o_universal o = false ->
      node_paced sn -> plain_clocks sn -> clear floats sn ->
      forall rho k,
      (forall T, T < k -> forall i, In i (s_defs sn) -> sstmt_holds mode glob (node_vars sn) rho F N T i) ->
      (forall T, T < k -> forall x n, In x (declared (s_inputs sn)) -> rho T x = Some n -> exists s, n = Defined s /\ S_ s) ->
      forall T, T < k -> forall x, In x (node_vars sn) -> forall kx n, declared_pace sn x = Some kx -> rho T x = Some n -> pres rho floats kx (Z.of_nat T) (VS n).
    Proof.
      intros o sn nd nd0 stmts Pa U [Pi Pd] Pl Cl rho k H Hin.
      eapply (trace_ind mode glob F N _ _ _ _ _ Pa U rho k (fun T x => forall kx n, declared_pace sn x = Some kx -> rho T x = Some n -> pres rho floats kx (Z.of_nat T) (VS n)) H).
      - intros T L x I kx n Ek En. destruct (Hin T L x n I En) as (s & -> & Hs).
        assert (Sl : slow kx = false).
        { destruct (declared_pace_in sn x) as (c & Lc & Ic & Ec); [unfold node_vars; rewrite !in_app_iff; auto|].
          assert (kx = clock_pace c) by congruence. subst. apply (Pi x).
          rewrite app_assoc, declared_clocks_app in Lc.
          assert (J : In x (map fst (declared_clocks (s_inputs sn ++ s_outputs sn)))).
          { rewrite declared_clocks_names. unfold declared. rewrite flat_map_app, in_app_iff. left. exact I. }
          clear - J Lc. induction (declared_clocks (s_inputs sn ++ s_outputs sn)) as [|[y d] l IH]; [destruct J|]. simpl in Lc, J.
          destruct (String.eqb x y) eqn:Q; [apply String.eqb_eq in Q; subst; inversion Lc; left; auto|].
          right. apply IH; auto. destruct J as [->|J]; auto. rewrite String.eqb_refl in Q. discriminate. }
        split; [intros _; constructor; auto|]. intros X. destruct X. apply not_slow_active. auto.
      - intros T rho2 t e v L I Hr M Mt x Ix kx n Ek En.
        destruct (Pd _ I) as (k1 & kt & Ek1 & Ekt & Sm). destruct (Cl _ I) as (Rd & Sd & Td). cbn [stmt_expr] in *.
        assert (Pv : pres rho floats k1 (Z.of_nat T) v).
        { eapply (presence mode glob (node_vars sn) (declared_pace sn) rho rho2 F N floats); [| |exact Hglob| |exact HF|exact Rd|lia|exact Sd|exact Td|exact Ek1|exact M].
          - intros y Iy. destruct (declared_pace_in sn y Iy) as (c & _ & Ic & Ec). exists (clock_pace c). split; auto.
            apply Pl in Ic. destruct c; cbn; congruence.
          - intros y Ny. unfold declared_pace.
            assert (Z : lookup y (declared_clocks (s_inputs sn ++ s_outputs sn ++ s_locals sn)) = None).
            { apply lookup_none. rewrite declared_clocks_names. unfold declared. rewrite !flat_map_app. exact Ny. }
            rewrite Z. auto.
          - intros t' y m ky _ Ey Eky. destruct (Hr _ _ _ Ey) as (_ & _ & A & B). split; auto. }
        destruct Sm as [Bn|Sm].
        + exfalso. rewrite binds_mult in Bn. destruct (tr_target t) as [|[|]]; try discriminate. destruct Ix.
        + eapply match_pres; eauto.
    Qed.

    Lemma node_nil_free : forall o sn nd, compiled_node o sn nd -> o_universal o = false ->
      node_paced sn -> plain_clocks sn -> clear floats sn ->
      forall ins outs, node_meaning mode glob F N sn ins outs -> Forall (full S_) ins -> Forall (full S_) outs.
    Proof.
      intros o sn nd C U Pn Pl Cl ins outs (L & rho & H) Fi.
      destruct (compiled_passed _ _ _ C) as (nd0 & stmts & Pa).
      assert (At : forall T, T < length ins -> exists v w, nth_error ins T = Some v /\ nth_error outs T = Some w).
      { intros T K. assert (A : nth_error ins T <> None) by (apply nth_error_Some; auto).
        assert (B : nth_error outs T <> None) by (apply nth_error_Some; lia).
        destruct (nth_error ins T), (nth_error outs T); try congruence. eauto. }
      pose proof (streams_present o sn nd nd0 stmts Pa U Pn Pl Cl rho (length ins)) as St.
      assert (St' : forall T, T < length ins -> forall x, In x (node_vars sn) -> forall kx n, declared_pace sn x = Some kx -> rho T x = Some n -> pres rho floats kx (Z.of_nat T) (VS n)).
      { apply St.
        - intros T K. destruct (At T K) as (v & w & E1 & E2). apply (H _ _ _ E1 E2).
        - intros T K x n I En. destruct (At T K) as (v & w & E1 & E2). destruct (H _ _ _ E1 E2) as ([A|A] & _); [rewrite A in I; destruct I|].
          eapply full_row; eauto. rewrite Forall_forall in Fi. apply Fi. eapply nth_error_In; eauto. }
      apply Forall_forall. intros w Iw. apply In_nth_error in Iw. destruct Iw as (T & Ew).
      assert (K : T < length ins) by (rewrite <- L; apply nth_error_Some; congruence).
      destruct (At T K) as (v & w' & E1 & E2). assert (w' = w) by congruence. subst.
      destruct (H _ _ _ E1 E2) as (_ & _ & R). eapply row_full; [exact R| |exact I].
      intros x n Ix En. destruct (declared_pace_in sn x) as (c & Lc & Ic & Ec); [unfold node_vars; rewrite !in_app_iff; auto|].
      assert (Iv : In x (node_vars sn)) by (unfold node_vars; rewrite !in_app_iff; auto).
      pose proof (St' T K x Iv _ _ Ec En) as P. destruct (pres_scalar rho floats _ _ _ P) as [A _]. apply A. apply not_slow_active.
      destruct Pn as [Pi _]. apply (Pi x). rewrite app_assoc, declared_clocks_app in Lc.
      assert (J : In x (map fst (declared_clocks (s_inputs sn ++ s_outputs sn)))).
      { rewrite declared_clocks_names. unfold declared. rewrite flat_map_app, in_app_iff. right. exact Ix. }
      clear - J Lc. induction (declared_clocks (s_inputs sn ++ s_outputs sn)) as [|[y d] l IH]; [destruct J|]. simpl in Lc, J.
      destruct (String.eqb x y) eqn:Q; [apply String.eqb_eq in Q; subst; inversion Lc; left; auto|].
      right. apply IH; auto. destruct J as [->|J]; auto. rewrite String.eqb_refl in Q. discriminate.
    Qed.
  End Node.

  Lemma weave_well : forall l ins pouts, Forall (fun v => full S_ v \/ empty v) ins -> Forall (full S_) pouts ->
    length pouts = length (filter (fun v => negb (first_is_nil v)) ins) -> Forall2 (answers_well S_) ins (weave (absent_row l) ins pouts).
  Proof.
    intros l ins pouts H. revert pouts. induction H as [|v ins Hv _ IH]; intros pouts P L; cbn [weave]; [constructor|].
    cbn [filter] in L. destruct (first_is_nil v) eqn:E; cbn [negb] in L.
    - constructor; [|auto]. split; intros X; [apply full_first in X; congruence|apply absent_empty].
    - destruct pouts as [|o pouts]; [discriminate|]. inversion P; subst. cbn in L. inversion L. constructor; [|auto].
      split; intros X; [auto|apply empty_first in X; congruence].
  Qed.

  Theorem means_nil_free : forall p l ws, pipeline p = Out (Some l) [] ws -> default_mode p ->
    (forall sn, In sn (source_nodes p) -> plain_clocks sn /\ clear floats sn) ->
    forall f ins outs, means mode glob (source_nodes p) f ins outs -> Forall (fun v => full S_ v \/ empty v) ins ->
    Forall2 (answers_well S_) ins outs.
  Proof.
    intros p l ws H D Cl f ins outs (n & M). revert f ins outs M. induction n as [|n IH]; intros f ins outs M Fi; [destruct M|].
    cbn [denotes] in M. destruct M as (sn & po & I & E & M & ->).
    assert (R : result (pipeline p) = Some l) by (rewrite H; auto).
    destruct (default_compiled _ _ R D _ I) as (o & nd & C & U).
    destruct (Cl _ I) as [Pl Cn].
    pose proof (program_paced _ _ _ H D _ I) as Pn.
    apply weave_well; auto; [|apply M].
    eapply node_nil_free; [|exact C|exact U|exact Pn|exact Pl|exact Cn|exact M|].
    - intros g args w v (os & Dn) Ha. pose proof (IH _ _ _ Dn) as G.
      assert (G' : Forall2 (answers_well S_) (args ++ [w]) (os ++ [v])) by (apply G; apply Forall_forall; auto).
      apply Forall2_app_inv_l in G'. destruct G' as (l1 & l2 & _ & G2 & Eq). inversion G2 as [|? b ? ? G3 G4]; subst. inversion G4; subst.
      apply app_inj_tail in Eq. destruct Eq as [_ ->]. exact G3.
    - apply Forall_forall. intros v Iv. apply filter_In in Iv. destruct Iv as [Iv Pv]. rewrite Forall_forall in Fi.
      destruct (Fi v Iv) as [X|X]; auto. apply empty_first in X. rewrite X in Pv. discriminate.
  Qed.
End NilFree.
