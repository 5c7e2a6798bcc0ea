(** * Lists of items, and the instances for the infix operators. *)
From Coq Require Import String Ascii List ZArith Bool Arith Lia.
From Verif Require Import Model.Base Model.Scalar Model.Ast Model.Options Model.Surface Model.Parse.
From Verif Require Import Spec.GrammarSpec Proofs.ParseFacts Proofs.ParseExpr.
Import ListNotations.
Local Open Scope string_scope.
Local Open Scope list_scope.

(** ** Levels *)
Lemma fold_tidy : forall l, fold_right (fun e P => tidy e /\ P) True l <-> Forall tidy l.
Proof. induction l; cbn; split; intros H; auto; [constructor; tauto|]. inversion H; subst. tauto. Qed.
Lemma fold_tidy_snd : forall O (l : list (O * sexpr)), fold_right (fun p P => tidy (snd p) /\ P) True l <-> Forall tidy (map snd l).
Proof. induction l; cbn; split; intros H; auto; [constructor; tauto|]. inversion H; subst. tauto. Qed.
Lemma open_last : forall l a, fold_left (fun _ e => open_ended e) l (open_ended a) = open_ended (last l a).
Proof. induction l as [|b l IH]; intros a; [reflexivity|]. rewrite last_cons. apply IH. Qed.
Lemma open_last_snd : forall O (l : list (O * sexpr)) a, fold_left (fun _ p => open_ended (snd p)) l (open_ended a) = open_ended (last (map snd l) a).
Proof. induction l as [|b l IH]; intros a; [reflexivity|]. cbn [map]. rewrite last_cons. apply IH. Qed.

Lemma bin_facts : forall k, In k [1; 2; 6; 7] -> build_facts k XBin binop_word (fun o => binop_level o = S k).
Proof.
  intros k K. assert (k < 8) as K8 by (cbn in K; lia). constructor.
  - reflexivity.
  - intros a t N KO. cbn [tidy]. rewrite fold_tidy_snd.
    assert (level (XBin a t) = S k) as L. { destruct t as [|(o, b) t]; [congruence|]. apply (KO (o, b)). now left. }
    rewrite L. split; [tauto|]. intros H. split; [lia|]. split; [exact KO|]. tauto.
  - intros a t N KO. destruct t as [|(o, b) t]; [congruence|]. apply (KO (o, b)). now left.
  - intros a t _. cbn. apply open_last_snd.
  - intros e T L. destruct e as [| | | | | | | | |e t| | | |]; try discriminate L; cbn [level] in L; try (cbn in K; lia).
    exists e, t. split; auto. destruct T as (_ & KO & (N & _) & _). split; [intros ->; now apply N|]. intros p P.
    rewrite (KO p P). exact L.
Qed.
Lemma cmpop_facts : build_facts 5 XCmp cmpop_word (fun _ => True).
Proof.
  constructor; auto.
  - intros a t N KO. cbn [tidy]. rewrite fold_tidy_snd. tauto.
  - intros a t _. cbn. apply open_last_snd.
  - intros e T L. destruct e as [| | | | | | | | |e [|(o, b) t]| | | |]; try discriminate L; cbn [level] in L; try (destruct o; discriminate).
    eexists _, _. split; [reflexivity|]. destruct T as ((N & _) & _). split; auto. intros ->. now apply N.
Qed.
Lemma when_facts : build_facts 0 XClock clock_word (fun _ => True).
Proof.
  constructor; auto.
  - intros a t N KO. cbn [tidy]. rewrite fold_tidy_snd. tauto.
  - intros a t _. cbn. apply open_last_snd.
  - intros e T L. destruct e as [| | | | | | | | |e [|(o, b) t]| | | |]; try discriminate L; cbn [level] in L; try (destruct o; discriminate).
    eexists _, _. split; [reflexivity|]. destruct T as ((N & _) & _). split; auto. intros ->. now apply N.
Qed.
Lemma flat_map_map : forall A B C (f : A -> B) (g : B -> list C) l, flat_map g (map f l) = flat_map (fun x => g (f x)) l.
Proof. induction l; cbn; auto. now rewrite IHl. Qed.
Lemma then_facts : build_facts 3 (drop_ops XThen) (fun _ : unit => WSym "->") (fun _ => True).
Proof.
  constructor; auto; unfold drop_ops.
  - intros a t _. cbn. now rewrite flat_map_map.
  - intros a t N KO. cbn [tidy]. rewrite fold_tidy. tauto.
  - intros a t _. cbn. apply open_last.
  - intros e T L. destruct e as [| | | | | | | | |e [|(o, b) t]| | | |e t]; try discriminate L; cbn [level] in L; try (destruct o; discriminate).
    exists e, (map (pair tt) t). rewrite map_map, map_id. split; auto. destruct T as ((N & _) & _). split; auto. intros Q. apply map_eq_nil in Q. congruence.
Qed.
Lemma follow_facts : build_facts 4 (drop_ops XFby) (fun _ : unit => WIdent "fby") (fun _ => True).
Proof.
  constructor; auto; unfold drop_ops.
  - intros a t _. cbn. now rewrite flat_map_map.
  - intros a t N KO. cbn [tidy]. rewrite fold_tidy. tauto.
  - intros a t _. cbn. apply open_last.
  - intros e T L. destruct e as [| | | | | | | | |e [|(o, b) t]| | |e t|]; try discriminate L; cbn [level] in L; try (destruct o; discriminate).
    exists e, (map (pair tt) t). rewrite map_map, map_id. split; auto. destruct T as ((N & _) & _). split; auto. intros Q. apply map_eq_nil in Q. congruence.
Qed.

Lemma expr_sound : forall p, sound_at 0 p -> sound_at 8 (p_expr p).
Proof.
  intros p H. unfold p_expr, p_or, p_and, p_cmp, p_fby, p_then, p_add, p_mul, p_clock.
  eapply (chain_sound _ _ _ _ _ _ or_facts (bin_facts 7 ltac:(cbn; tauto)) ltac:(lia)).
  eapply (chain_sound _ _ _ _ _ _ and_facts (bin_facts 6 ltac:(cbn; tauto)) ltac:(lia)).
  eapply (chain_sound _ _ _ _ _ _ cmp_facts cmpop_facts ltac:(lia)).
  eapply (chain_sound _ _ _ _ _ _ fby_facts follow_facts ltac:(lia)).
  eapply (chain_sound _ _ _ _ _ _ arrow_facts then_facts ltac:(lia)).
  eapply (chain_sound _ _ _ _ _ _ add_facts (bin_facts 2 ltac:(cbn; tauto)) ltac:(lia)).
  eapply (chain_sound _ _ _ _ _ _ mul_facts (bin_facts 1 ltac:(cbn; tauto)) ltac:(lia)).
  eapply (chain_sound _ _ _ _ _ _ clock_facts when_facts ltac:(lia)). exact H.
Qed.
Lemma expr_complete : forall n p, complete_at n 0 p -> complete_at n 8 (p_expr p).
Proof.
  intros n p H. unfold p_expr, p_or, p_and, p_cmp, p_fby, p_then, p_add, p_mul, p_clock.
  eapply (chain_complete _ _ _ _ _ _ or_facts (bin_facts 7 ltac:(cbn; tauto)) ltac:(lia)).
  eapply (chain_complete _ _ _ _ _ _ and_facts (bin_facts 6 ltac:(cbn; tauto)) ltac:(lia)).
  eapply (chain_complete _ _ _ _ _ _ cmp_facts cmpop_facts ltac:(lia)).
  eapply (chain_complete _ _ _ _ _ _ fby_facts follow_facts ltac:(lia)).
  eapply (chain_complete _ _ _ _ _ _ arrow_facts then_facts ltac:(lia)).
  eapply (chain_complete _ _ _ _ _ _ add_facts (bin_facts 2 ltac:(cbn; tauto)) ltac:(lia)).
  eapply (chain_complete _ _ _ _ _ _ mul_facts (bin_facts 1 ltac:(cbn; tauto)) ltac:(lia)).
  eapply (chain_complete _ _ _ _ _ _ clock_facts when_facts ltac:(lia)). exact H.
Qed.
Definition shrinks {A} (p : parser A) : Prop := forall l a r, p l = Parsed a r -> weights r <= weights l /\ length r <= length l.
Lemma chain_fine : forall O (build : sexpr -> list (O * sexpr) -> sexpr) (op : parser O) k opw opok item n,
  op_facts k op opw opok -> k < 8 -> total_at n item /\ shrinks item -> total_at n (chain build item op) /\ shrinks (chain build item op).
Proof.
  intros O build op k opw opok item n F K (T & D). split.
  - eapply chain_total; eauto.
  - intros l a r. eapply chain_shrinks; eauto.
Qed.
Lemma expr_total : forall n p, total_at n p -> shrinks p -> total_at n (p_expr p).
Proof.
  intros n p H D. unfold p_expr, p_or, p_and, p_cmp, p_fby, p_then, p_add, p_mul, p_clock.
  eapply (chain_fine _ _ _ _ _ _ _ _ or_facts ltac:(lia)).
  eapply (chain_fine _ _ _ _ _ _ _ _ and_facts ltac:(lia)).
  eapply (chain_fine _ _ _ _ _ _ _ _ cmp_facts ltac:(lia)).
  eapply (chain_fine _ _ _ _ _ _ _ _ fby_facts ltac:(lia)).
  eapply (chain_fine _ _ _ _ _ _ _ _ arrow_facts ltac:(lia)).
  eapply (chain_fine _ _ _ _ _ _ _ _ add_facts ltac:(lia)).
  eapply (chain_fine _ _ _ _ _ _ _ _ mul_facts ltac:(lia)).
  eapply (chain_fine _ _ _ _ _ _ _ _ clock_facts ltac:(lia)). auto.
Qed.

(** ** Repetitions *)
Definition psound {A} (P : A -> Prop) (w : A -> list word) (p : parser A) : Prop :=
  forall l a r, p l = Parsed a r -> exists u, l = u ++ r /\ spells (w a) u /\ P a.
Definition pcomplete {A} (n : nat) (Fo : list tok -> Prop) (P : A -> Prop) (w : A -> list word) (p : parser A) : Prop :=
  forall a u r, spells (w a) u -> P a -> weights u < n -> Fo r -> p (u ++ r) = Parsed a r.

Lemma psound_shrinks : forall A P w (p : parser A), psound P w p -> shrinks p.
Proof. intros A P w p H l a r E. apply H in E. destruct E as (u & -> & _). rewrite weights_app, app_length. lia. Qed.
Lemma expr_psound : forall p, sound_at 8 p -> psound tidy words p.
Proof. intros p H l a r E. apply H in E. destruct E as (u & -> & W & T & _). eauto. Qed.

Lemma joined_cons : forall s a l, l <> [] -> joined s (a :: l) = a ++ WSym s :: joined s l.
Proof. intros s a [|b l] N; [congruence|reflexivity]. Qed.

Section Lists.
  Context {A : Type} (P : A -> Prop) (w : A -> list word) (item : parser A) (c : ascii).
  Local Notation s := (String c "").

  Lemma terminated_sound : psound P w item -> forall n l t r, terminated n item (p_punct c) l = Parsed t r ->
    r = [] /\ Forall P (fst t) /\ (snd t = true -> fst t <> []) /\
    spells (joined s (map w (fst t)) ++ if snd t then [WSym s] else []) l.
  Proof.
    intros H. induction n as [|n IH]; intros l t r E; cbn in E.
    - destruct l; try discriminate. inversion E; subst. cbn. repeat split; auto; try discriminate. constructor.
    - destruct l as [|t0 l].
      { inversion E; subst. cbn. repeat split; auto; try discriminate. constructor. }
      pinv E. apply H in E0. destruct E0 as (u & -> & W & PA). destruct r0 as [|t1 r0].
      { inversion E; subst. cbn. repeat split; auto; try discriminate. rewrite ?app_nil_r. exact W. }
      pinv E. apply p_punct_parsed in E0. destruct E0 as (j & E0). rewrite E0 in *. destruct r1 as [|t2 r1].
      { inversion E; subst. cbn. repeat split; auto; try discriminate. apply spells_app; auto. apply sp_sym1, sp_nil. }
      pinv E. destruct a1 as (t', b). cbn in E. inversion E; subst. apply IH in E1. destruct E1 as (-> & F & N & W').
      cbn [fst snd map] in *. repeat split; auto; try discriminate.
      destruct t' as [|a' t'].
      + exfalso. cbn in W'. destruct b; [now apply N|]. apply spells_nil in W'. discriminate.
      + rewrite joined_cons by discriminate. rewrite <- app_assoc. apply spells_app; auto. cbn [app]. now apply sp_sym1.
  Qed.

  Lemma terminated_complete : forall m Fo, pcomplete m Fo P w item -> Fo [] -> (forall j r, Fo (TPunct c j :: r)) ->
    (forall a u, P a -> spells (w a) u -> u <> []) ->
    forall t (b : bool) n l, spells (joined s (map w t) ++ if b then [WSym s] else []) l -> Forall P t -> (b = true -> t <> []) ->
    length l <= n -> weights l < m -> terminated n item (p_punct c) l = Parsed (t, b) [].
  Proof.
    intros m Fo H F0 F1 NE. induction t as [|a t IH]; intros b n l W PT B L M.
    - destruct b; [exfalso; now apply B|]. apply spells_nil in W. subst l. destruct n; reflexivity.
    - inversion PT; subst. destruct t as [|a' t].
      + cbn in W. apply spells_split in W. destruct W as (u & v & -> & W & W').
        assert (u <> []) as U by eauto. rewrite app_length in L. rewrite weights_app in M.
        destruct u as [|t0 u]; [congruence|]. destruct n as [|n]; [cbn in L; lia|].
        cbn [terminated app]. change (t0 :: u ++ v) with ((t0 :: u) ++ v). destruct b.
        * apply spells_sym1 in W'. destruct W' as (j & v' & -> & W'). apply spells_nil in W'. subst v'.
          rewrite (H a (t0 :: u)) by (auto; lia). cbn. rewrite Ascii.eqb_refl. reflexivity.
        * apply spells_nil in W'. subst v. rewrite (H a (t0 :: u)) by (auto; lia). reflexivity.
      + cbn [map] in W. rewrite joined_cons in W by discriminate. rewrite <- app_assoc in W.
        apply spells_split in W. destruct W as (u & v & -> & W & W'). cbn [app] in W'. apply spells_sym1 in W'.
        destruct W' as (j & v' & -> & W'). rewrite app_length in L. cbn in L. rewrite weights_app, weights_cons in M.
        assert (u <> []) as U by eauto. destruct u as [|t0 u]; [congruence|]. destruct n as [|n]; [cbn in L; lia|].
        cbn [terminated app]. change (t0 :: u ++ TPunct c j :: v') with ((t0 :: u) ++ TPunct c j :: v').
        rewrite (H a (t0 :: u)) by (auto; lia). cbn [pbind]. rewrite p_punct_here. cbn [pbind].
        rewrite (IH b n v') by (auto; try discriminate; try lia; cbn in L; lia).
        cbn [pbind fst snd]. destruct v' as [|t1 v'].
        * exfalso. apply spells_split in W'. destruct W' as (u1 & u2 & E & W1 & _). symmetry in E. apply app_eq_nil in E. destruct E as (-> & ->).
          inversion H3; subst. destruct t as [|a2 t].
          -- cbn in W1. eapply (NE a' []); eauto.
          -- cbn [map] in W1. rewrite joined_cons in W1 by discriminate. apply spells_split in W1. destruct W1 as (x & y & E & W1 & _).
             symmetry in E. apply app_eq_nil in E. destruct E as (-> & ->). eapply (NE a' []); eauto.
        * reflexivity.
  Qed.

  Lemma terminated_total : forall m, total_at m item -> shrinks item ->
    forall n l, length l <= n -> weights l < m -> terminated n item (p_punct c) l <> Stuck.
  Proof.
    intros m H D. induction n as [|n IH]; intros l L M; destruct l as [|t0 l]; cbn [terminated]; try discriminate; [cbn in L; lia|].
    apply pbind_not_stuck; auto. intros a r E. apply D in E. destruct r as [|t1 r]; try discriminate.
    apply pbind_not_stuck. { cbn. destruct t1; try discriminate. now destruct (_ =? _)%char. }
    intros x r1 E1. apply p_punct_parsed in E1. destruct E1 as (j & E1). rewrite E1 in *. destruct r1 as [|t2 r1]; try discriminate.
    apply pbind_not_stuck; [|discriminate]. apply IH; cbn in *; rewrite ?weights_cons in *; cbn [weight] in *; lia.
  Qed.

  Lemma until_sound : psound P w item -> forall stop n l t r, until n stop item (p_punct c) l = Parsed t r ->
    stop r = true /\ Forall P t /\ exists u, l = u ++ r /\ spells (flat_map (fun a => w a ++ [WSym s]) t) u.
  Proof.
    intros H stop. induction n as [|n IH]; intros l t r E; cbn in E; destruct (stop l) eqn:St; try discriminate.
    - inversion E; subst. repeat split; auto. exists []. split; auto. constructor.
    - inversion E; subst. repeat split; auto. exists []. split; auto. constructor.
    - pinv E. apply H in E0. destruct E0 as (u & -> & W & PA). pinv E. apply p_punct_parsed in E0. destruct E0 as (j & ->).
      pinv E. inversion E; subst. apply IH in E0. destruct E0 as (S1 & F & v & -> & W').
      repeat split; auto. exists (u ++ TPunct c j :: v). rewrite <- app_assoc. split; auto. cbn. rewrite <- app_assoc.
      apply spells_app; auto. cbn. now apply sp_sym1.
  Qed.

  Lemma until_complete : forall m Fo stop, pcomplete m Fo P w item -> (forall j r, Fo (TPunct c j :: r)) ->
    (forall a u r, P a -> spells (w a) u -> stop (u ++ r) = false) ->
    forall t n u r, spells (flat_map (fun a => w a ++ [WSym s]) t) u -> Forall P t -> stop r = true ->
    length u <= n -> weights u < m -> until n stop item (p_punct c) (u ++ r) = Parsed t r.
  Proof.
    intros m Fo stop H F1 NS. induction t as [|a t IH]; intros n u r W PT SR L M.
    - apply spells_nil in W. subst u. destruct n; cbn; now rewrite SR.
    - inversion PT; subst. cbn in W. rewrite <- app_assoc in W. apply spells_split in W. destruct W as (u1 & v & -> & W & W').
      cbn in W'. apply spells_sym1 in W'. destruct W' as (j & v' & -> & W'). rewrite app_length in L. cbn in L. rewrite weights_app, weights_cons in M.
      destruct n as [|n]; [lia|]. cbn [until]. rewrite <- app_assoc. rewrite (NS a u1) by auto. cbn [app].
      rewrite (H a u1) by (auto; lia). cbn [pbind]. rewrite p_punct_here. cbn [pbind]. rewrite IH; auto; lia.
  Qed.

  Lemma until_total : forall m, total_at m item -> shrinks item ->
    forall stop n l, length l < n -> weights l < m -> until n stop item (p_punct c) l <> Stuck.
  Proof.
    intros m H D stop. induction n as [|n IH]; intros l L M; cbn [until]; [lia|]. destruct (stop l); try discriminate.
    apply pbind_not_stuck; auto. intros a r E. apply D in E.
    apply pbind_not_stuck. { destruct r as [|[| | |] r]; cbn; try discriminate. now destruct (_ =? _)%char. }
    intros x r1 E1. apply p_punct_parsed in E1. destruct E1 as (j & ->).
    apply pbind_not_stuck; [|discriminate]. apply IH; rewrite ?weights_cons in *; cbn [weight length] in *; lia.
  Qed.
End Lists.
