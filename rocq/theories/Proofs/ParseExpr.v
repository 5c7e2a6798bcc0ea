(** * Infix operators and repetitions: soundness, completeness, termination. *)
From Coq Require Import String Ascii List ZArith Bool Arith Lia.
From Verif Require Import Model.Base Model.Scalar Model.Ast Model.Options Model.Surface Model.Parse.
From Verif Require Import Spec.GrammarSpec Proofs.ParseFacts.
Import ListNotations.
Local Open Scope string_scope.
Local Open Scope list_scope.

(** ** What may follow an expression *)
Definition ok {A} (p : pres A) : bool := match p with Parsed _ _ => true | _ => false end.
Definition op_at (j : nat) (l : list tok) : bool :=
  match j with
  | 1 => ok (op_clock l) | 2 => ok (op_mul l) | 3 => ok (op_add l) | 4 => ok (op_arrow l)
  | 5 => ok (op_fby l) | 6 => ok (op_cmp l) | 7 => ok (op_and l) | 8 => ok (op_or l)
  | _ => false
  end.
Definition stops (k : nat) (l : list tok) : Prop := forall j, 1 <= j <= k -> op_at j l = false.
Definition noparen (l : list tok) : Prop := hint_paren l = false.
(** The first token of an expression *)
Definition start (t : tok) : bool := match t with TPunct c _ => Ascii.eqb c "-"%char | _ => true end.

Lemma stops_le : forall j k l, j <= k -> stops k l -> stops j l.
Proof. intros j k l L H i I. apply H. lia. Qed.
Lemma stops_S : forall k l, stops k l -> op_at (S k) l = false -> stops (S k) l.
Proof. intros k l H E j J. destruct (Nat.eq_dec j (S k)) as [->|N]; auto. apply H. lia. Qed.
Lemma stops_0 : forall l, stops 0 l.
Proof. intros l j J. lia. Qed.
Lemma stops_nil : forall k, stops k [].
Proof. intros k j J. do 9 (destruct j as [|j]; [reflexivity|]). reflexivity. Qed.
Lemma stops_ident : forall k x r, ~ In x ["when"; "whenot"; "fby"; "and"; "or"] -> stops k (TIdent x :: r).
Proof.
  intros k x r N j J. cbn in N.
  assert (forall s, s <> x -> String.eqb x s = false) as Q by (intros s D; apply String.eqb_neq; congruence).
  do 9 (destruct j as [|j]; [cbn; unfold op_clock, op_mul, op_add, op_arrow, op_fby, op_cmp, op_and, op_or; cbn;
    rewrite ?Q by tauto; reflexivity|]). reflexivity.
Qed.
Lemma stops_punct : forall k c j r, ~ In c ["*"; "/"; "%"; "+"; "-"; "<"; ">"; "="]%char -> stops k (TPunct c j :: r).
Proof.
  intros k c j0 r N j J. cbn in N.
  assert (forall d, d <> c -> Ascii.eqb c d = false) as Q by (intros s D; apply Ascii.eqb_neq; congruence).
  do 9 (destruct j as [|j]; [cbn; unfold op_clock, op_mul, op_add, op_arrow, op_fby, op_cmp, op_and, op_or, exactly_token_neg, peek_punct2, p_punct2; cbn;
    rewrite ?Q by tauto; destruct j0; try reflexivity; destruct r as [|[| | |] r]; cbn; rewrite ?Q by tauto; reflexivity|]). reflexivity.
Qed.

(** ** Operators *)
Record op_facts {O} (k : nat) (op : parser O) (opw : O -> word) (opok : O -> Prop) : Prop := {
  op_sound : forall l o r, op l = Parsed o r -> exists v, l = v ++ r /\ spells [opw o] v /\ opok o;
  op_less : forall l o r, op l = Parsed o r -> weights r < weights l /\ length r < length l;
  op_total : forall l, op l <> Stuck;
  op_here : forall l, op_at (S k) l = ok (op l);
  op_complete : forall o v t r, opok o -> spells [opw o] v -> start t = true ->
    op (v ++ t :: r) = Parsed o (t :: r) /\ stops k (v ++ t :: r) /\ noparen (v ++ t :: r)
}.

Ltac done_sym :=
  repeat match goal with
  | H : pbind _ _ = Parsed _ _ |- _ => pinv H
  | H : p_punct _ _ = Parsed _ _ |- _ => apply p_punct_parsed in H; destruct H as (? & H)
  | H : p_punct2 _ _ _ = Parsed _ _ |- _ => apply p_punct2_parsed in H; destruct H as (? & H)
  | H : p_kw _ _ = Parsed _ _ |- _ => apply p_kw_parsed in H
  | H : Parsed _ _ = Parsed _ _ |- _ => inversion H; clear H; subst
  | H : (if ?b then _ else _) = Parsed _ _ |- _ => destruct b
  | H : Refused = Parsed _ _ |- _ => discriminate H
  end; subst.
Ltac wit := match goal with
  | |- exists v, ?a :: ?b :: ?r = v ++ ?r /\ _ => exists [a; b]; cbn; repeat split; auto
  | |- exists v, ?a :: ?r = v ++ ?r /\ _ => exists [a]; cbn; repeat split; auto
  end; try apply sp_sym2; try apply sp_sym1; try apply sp_ident; try apply sp_nil.
Ltac start_cases := match goal with H : start ?t = true |- _ =>
  let x := fresh in let Q := fresh in destruct t as [x|x|x ?|? ?]; cbn in H;
  [| |destruct (Ascii.eqb_spec x "-"%char) as [Q|Q]; [subst x|discriminate H]|] end.
Ltac all_levels j := do 9 (destruct j as [|j]; [try lia; try (cbn; reflexivity)|]); reflexivity.
Ltac not_stuck := repeat match goal with
  | |- context [if ?b then _ else _] => destruct b
  | |- pbind _ _ <> Stuck => apply pbind_not_stuck
  | |- p_punct _ ?l <> Stuck => destruct l as [|[| | |] ?]; cbn
  | |- p_kw _ ?l <> Stuck => destruct l as [|[| | |] ?]; cbn
  | |- Parsed _ _ <> Stuck => discriminate
  | |- Refused <> Stuck => discriminate
  | |- forall _, _ => intro
  end.
Ltac lens := rewrite ?weights_cons; cbn [weight length]; lia.

Lemma clock_facts : op_facts 0 op_clock clock_word (fun _ => True).
Proof.
  constructor.
  - intros l o r H. unfold op_clock in H. done_sym; wit.
  - intros l o r H. unfold op_clock in H. done_sym; lens.
  - intros l. unfold op_clock. not_stuck.
  - reflexivity.
  - intros o v t r _ S T. unfold clock_word in S. apply spells_ident in S. destruct S as (u & -> & S). apply spells_nil in S. subst u.
    destruct o; cbn; repeat split; auto using stops_0.
Qed.
Lemma mul_facts : op_facts 1 op_mul binop_word (fun o => binop_level o = 2).
Proof.
  constructor.
  - intros l o r H. unfold op_mul in H. done_sym; wit.
  - intros l o r H. unfold op_mul in H. done_sym; lens.
  - intros l. unfold op_mul. not_stuck.
  - reflexivity.
  - intros o v t r L S T. destruct o; try discriminate; cbn in S; apply spells_sym1 in S; destruct S as (i & u & -> & S); apply spells_nil in S; subst u;
      cbn; repeat split; auto; intros j J; all_levels j.
Qed.
Lemma add_facts : op_facts 2 op_add binop_word (fun o => binop_level o = 3).
Proof.
  constructor.
  - intros l o r H. unfold op_add in H. done_sym; wit.
  - intros l o r H. unfold op_add in H. done_sym; lens.
  - intros l. unfold op_add. not_stuck.
  - reflexivity.
  - intros o v t r L S T. destruct o; try discriminate; cbn in S; apply spells_sym1 in S; destruct S as (i & u & -> & S); apply spells_nil in S; subst u;
      repeat split; auto; try (intros j J; all_levels j); start_cases; reflexivity.
Qed.
Lemma arrow_facts : op_facts 3 op_arrow (fun _ => WSym "->") (fun _ => True).
Proof.
  constructor.
  - intros l o r H. unfold op_arrow in H. done_sym; wit.
  - intros l o r H. unfold op_arrow in H. done_sym; lens.
  - intros l. unfold op_arrow, p_punct2. destruct l as [|[| |? [|]|] [|[| | |] ?]]; try discriminate. not_stuck.
  - reflexivity.
  - intros [] v t r L S T. apply spells_sym2 in S; destruct S as (i & u & -> & S); apply spells_nil in S; subst u.
    repeat split; auto; intros j J; all_levels j.
Qed.
Lemma fby_facts : op_facts 4 op_fby (fun _ => WIdent "fby") (fun _ => True).
Proof.
  constructor.
  - intros l o r H. unfold op_fby in H. done_sym; wit.
  - intros l o r H. unfold op_fby in H. done_sym; lens.
  - intros l. unfold op_fby. not_stuck.
  - reflexivity.
  - intros [] v t r L S T. apply spells_ident in S; destruct S as (u & -> & S); apply spells_nil in S; subst u.
    repeat split; auto; intros j J; all_levels j.
Qed.
Lemma cmp_facts : op_facts 5 op_cmp cmpop_word (fun _ => True).
Proof.
  constructor.
  - intros l o r H. unfold op_cmp in H. done_sym; wit.
  - intros l o r H. unfold op_cmp in H. done_sym; lens.
  - intros l. unfold op_cmp. not_stuck; unfold p_punct2; destruct l as [|[| |? [|]|] [|[| | |] ?]]; try discriminate; not_stuck.
  - reflexivity.
  - intros o v t r L S T.
    destruct o; cbn in S;
      (apply spells_sym2 in S; destruct S as (i & u & -> & S); apply spells_nil in S; subst u) ||
      (apply spells_sym1 in S; destruct S as (i & u & -> & S); apply spells_nil in S; subst u);
      destruct i; start_cases; (split; [reflexivity|split; [intros j J; all_levels j|reflexivity]]).
Qed.
Lemma and_facts : op_facts 6 op_and binop_word (fun o => binop_level o = 7).
Proof.
  constructor.
  - intros l o r H. unfold op_and in H. done_sym; wit.
  - intros l o r H. unfold op_and in H. done_sym; lens.
  - intros l. unfold op_and. not_stuck.
  - reflexivity.
  - intros o v t r L S T. destruct o; try discriminate; cbn in S. apply spells_ident in S; destruct S as (u & -> & S); apply spells_nil in S; subst u.
    repeat split; auto; intros j J; all_levels j.
Qed.
Lemma or_facts : op_facts 7 op_or binop_word (fun o => binop_level o = 8).
Proof.
  constructor.
  - intros l o r H. unfold op_or in H. done_sym; wit.
  - intros l o r H. unfold op_or in H. done_sym; lens.
  - intros l. unfold op_or. not_stuck.
  - reflexivity.
  - intros o v t r L S T. destruct o; try discriminate; cbn in S. apply spells_ident in S; destruct S as (u & -> & S); apply spells_nil in S; subst u.
    repeat split; auto; intros j J; all_levels j.
Qed.

(** ** First tokens *)
Lemma unsigned_start : forall l v, unsigned l v -> exists t u, v = t :: u /\ start t = true.
Proof. intros l v H. destruct H; cbn; eauto. Qed.
Lemma words_start : forall e u, tidy e -> spells (words e) u -> exists t u', u = t :: u' /\ start t = true.
Proof.
  fix IH 1. intros e u T S. destruct e; cbn [words] in S.
  - apply spells_lit in S. destruct S as (v & u' & -> & U & _). apply unsigned_start in U. destruct U as (t & u & -> & U). cbn. eauto.
  - apply spells_ident in S. destruct S as (u' & -> & _). eauto.
  - apply spells_group in S. destruct S as (v & u' & -> & _). eauto.
  - apply spells_ident in S. destruct S as (u' & -> & _). eauto.
  - apply spells_sym1 in S. destruct S as (j & u' & -> & _). eauto.
  - apply spells_ident in S. destruct S as (u' & -> & _). eauto.
  - apply spells_ident in S. destruct S as (u' & -> & _). eauto.
  - apply spells_ident in S. destruct S as (u' & -> & _). eauto.
  - apply spells_ident in S. destruct S as (u' & -> & _). eauto.
  - apply spells_split in S. destruct S as (u1 & u2 & -> & S & _). apply IH in S; [|apply T]. destruct S as (t & u' & -> & S). cbn. eauto.
  - apply spells_split in S. destruct S as (u1 & u2 & -> & S & _). apply IH in S; [|apply T]. destruct S as (t & u' & -> & S). cbn. eauto.
  - apply spells_split in S. destruct S as (u1 & u2 & -> & S & _). apply IH in S; [|apply T]. destruct S as (t & u' & -> & S). cbn. eauto.
  - apply spells_split in S. destruct S as (u1 & u2 & -> & S & _). apply IH in S; [|apply T]. destruct S as (t & u' & -> & S). cbn. eauto.
  - apply spells_split in S. destruct S as (u1 & u2 & -> & S & _). apply IH in S; [|apply T]. destruct S as (t & u' & -> & S). cbn. eauto.
Qed.

(** ** One level of operators *)
Definition sound_at (k : nat) (p : parser sexpr) : Prop :=
  forall l e r, p l = Parsed e r -> exists u, l = u ++ r /\ spells (words e) u /\ tidy e /\ level e <= k /\
    stops k r /\ (open_ended e = true -> stops 8 r).
Definition complete_at (n k : nat) (p : parser sexpr) : Prop :=
  forall e u r, spells (words e) u -> tidy e -> level e <= k -> weights u < n -> noparen r -> stops k r ->
    (open_ended e = true -> stops 8 r) -> p (u ++ r) = Parsed e r.
Definition total_at {A} (n : nat) (p : parser A) : Prop := forall l, weights l < n -> p l <> Stuck.

Record build_facts {O} (k : nat) (build : sexpr -> list (O * sexpr) -> sexpr) (opw : O -> word) (opok : O -> Prop) : Prop := {
  b_words : forall a t, t <> [] -> words (build a t) = words a ++ flat_map (fun p => opw (fst p) :: words (snd p)) t;
  b_tidy : forall a t, t <> [] -> (forall p, In p t -> opok (fst p)) ->
    (tidy (build a t) <-> operands (S k) a (map snd t) /\ tidy a /\ Forall tidy (map snd t));
  b_level : forall a t, t <> [] -> (forall p, In p t -> opok (fst p)) -> level (build a t) = S k;
  b_open : forall a t, t <> [] -> open_ended (build a t) = open_ended (last (map snd t) a);
  b_inv : forall e, tidy e -> level e = S k -> exists a t, e = build a t /\ t <> [] /\ (forall p, In p t -> opok (fst p))
}.

Lemma in_removelast : forall A (x a : A) l, In x (removelast (a :: l)) <-> l <> [] /\ (x = a \/ In x (removelast l)).
Proof.
  intros A x a l. destruct l as [|b l]; [cbn; tauto|]. cbn [removelast In]. split.
  - intros [->|H]; split; auto; discriminate.
  - intros [_ [->|H]]; auto.
Qed.

Lemma last_cons : forall A (b : A) l d, last (b :: l) d = last l b.
Proof. intros A b l. revert b. induction l as [|c l IH]; intros b d; auto. change (last (c :: l) d = last (c :: l) b). now rewrite !IH. Qed.

Section Chain.
  Context {O : Type} (build : sexpr -> list (O * sexpr) -> sexpr) (op : parser O) (k : nat) (opw : O -> word) (opok : O -> Prop).
  Context (item : parser sexpr) (F : op_facts k op opw opok) (B : build_facts k build opw opok) (K : k < 8).

  Lemma sep_sound : sound_at k item -> forall n a l t r, sep_more n item op l = Parsed t r ->
    stops k l -> (open_ended a = true -> stops 8 l) ->
    exists u, l = u ++ r /\ spells (flat_map (fun p => opw (fst p) :: words (snd p)) t) u /\
      (forall p, In p t -> opok (fst p)) /\ Forall tidy (map snd t) /\ (forall b, In b (map snd t) -> level b <= k) /\
      (forall b, In b (removelast (a :: map snd t)) -> open_ended b = false) /\
      stops (S k) r /\ (open_ended (last (map snd t) a) = true -> stops 8 r).
  Proof.
    intros H. induction n as [|n IH]; intros a l t r E S1 S2; cbn in E.
    - destruct (op l) eqn:Q; try discriminate. inversion E; subst. exists []. cbn. repeat split; auto; try tauto; try constructor.
      apply stops_S; auto. rewrite (op_here _ _ _ _ F), Q. reflexivity.
    - destruct (op l) as [o r0| |] eqn:Q; try discriminate.
      2: { inversion E; subst. exists []. cbn. repeat split; auto; try tauto; try constructor.
           apply stops_S; auto. rewrite (op_here _ _ _ _ F), Q. reflexivity. }
      pinv E. pinv E. inversion E; subst. apply H in E0. destruct E0 as (u1 & -> & W1 & T1 & L1 & St1 & O1).
      apply (IH a0) in E1; auto. destruct E1 as (u2 & -> & W2 & K2 & T2 & L2 & R2 & St2 & O2).
      destruct (op_sound _ _ _ _ F _ _ _ Q) as (v & -> & W & KO).
      exists (v ++ u1 ++ u2). rewrite <- !app_assoc. split; auto. split.
      { cbn. change (opw o :: words a0 ++ flat_map (fun p => opw (fst p) :: words (snd p)) a1) with
          ([opw o] ++ words a0 ++ flat_map (fun p => opw (fst p) :: words (snd p)) a1).
        auto using spells_app. }
      cbn [map fst snd In]. split; [|split; [|split; [|split; [|split; auto]]]].
      + intros p [<-|P]; auto.
      + constructor; auto.
      + intros b [<-|P]; auto.
      + intros b P. apply in_removelast in P. destruct P as (_ & [->|P]); auto.
        destruct (open_ended a) eqn:OA; auto. exfalso. specialize (S2 eq_refl (S k)). rewrite (op_here _ _ _ _ F), Q in S2.
        cbn in S2. assert (true = false); [apply S2; lia|discriminate].
      + rewrite last_cons. auto.
  Qed.

  Lemma chain_sound : sound_at k item -> sound_at (S k) (chain build item op).
  Proof.
    intros H l e r E. unfold chain in E. pinv E. pinv E. inversion E; subst. apply H in E0.
    destruct E0 as (u1 & -> & W1 & T1 & L1 & St1 & O1).
    apply (sep_sound H _ a) in E1; auto. destruct E1 as (u2 & -> & W2 & K2 & T2 & L2 & R2 & St2 & O2).
    exists (u1 ++ u2). rewrite <- app_assoc. split; auto.
    destruct a0 as [|p t].
    - cbn in W2. apply spells_nil in W2. subst u2. rewrite app_nil_r. repeat split; auto.
    - assert (p :: t <> []) as N by discriminate. split; [|split; [|split; [|split; auto]]].
      + rewrite (b_words _ _ _ _ B) by auto. now apply spells_app.
      + apply (b_tidy _ _ _ _ B); auto. repeat split; auto; try discriminate.
        intros b [<-|P]; [lia|]. apply L2 in P. lia.
      + now rewrite (b_level _ _ _ _ B).
      + now rewrite (b_open _ _ _ _ B).
  Qed.

  Lemma sep_stop : forall n r, op_at (S k) r = false -> sep_more n item op r = Parsed [] r.
  Proof.
    intros n r E. rewrite (op_here _ _ _ _ F) in E. pose proof (op_total _ _ _ _ F r) as T.
    destruct n; cbn; destruct (op r); auto; try discriminate; contradiction.
  Qed.

  Lemma sep_complete : forall m, complete_at m k item -> forall t n a u r,
    spells (flat_map (fun p => opw (fst p) :: words (snd p)) t) u -> length u <= n -> weights u < m ->
    (forall p, In p t -> opok (fst p)) -> Forall tidy (map snd t) -> (forall b, In b (map snd t) -> level b <= k) ->
    (forall b, In b (removelast (a :: map snd t)) -> open_ended b = false) ->
    noparen r -> stops (S k) r -> (open_ended (last (map snd t) a) = true -> stops 8 r) ->
    sep_more n item op (u ++ r) = Parsed t r /\ stops k (u ++ r) /\ noparen (u ++ r) /\ (open_ended a = true -> stops 8 (u ++ r)).
  Proof.
    intros m H. induction t as [|(o, b) t IH]; intros n a u r W L M KO T Lv C NP St Op.
    - apply spells_nil in W. subst u. cbn [app]. cbn in Op. repeat split; auto; [|apply (stops_le k (S k)); auto].
      apply sep_stop, St. lia.
    - cbn in W. change (opw o :: words b ++ flat_map (fun p => opw (fst p) :: words (snd p)) t) with
        ([opw o] ++ words b ++ flat_map (fun p => opw (fst p) :: words (snd p)) t) in W.
      apply spells_split in W. destruct W as (v & u' & -> & WO & W). apply spells_split in W. destruct W as (u1 & u2 & -> & W1 & W2).
      cbn [map] in *. cbn [fst snd] in *. rewrite last_cons in Op. inversion T; subst.
      assert (v <> []) as NV.
      { intros ->. destruct (op_complete _ _ _ _ F o [] (TLit KOther) []) as (Q & _); auto. { apply (KO (o, b)). now left. }
        apply (op_less _ _ _ _ F) in Q. cbn in Q. lia. }
      destruct (words_start _ _ H2 W1) as (t1 & u1' & -> & St1).
      destruct (op_complete _ _ _ _ F o v t1 ((u1' ++ u2) ++ r)) as (Q & SK & NPv); auto. { apply (KO (o, b)). now left. }
      rewrite !weights_app in M. rewrite !app_length in L.
      assert (1 <= length v) as LV by (destruct v; [congruence|cbn; lia]).
      destruct n as [|n]; [lia|].
      destruct (IH n b u2 r) as (Q2 & SK2 & NP2 & OP2); auto; try lia.
      { intros p P. apply KO. now right. }
      { intros p P. apply Lv. now right. }
      { intros x P. apply C. apply in_removelast. split; [discriminate|]. now right. }
      assert (item ((t1 :: u1') ++ u2 ++ r) = Parsed b (u2 ++ r)) as QI.
      { apply H; auto. { apply Lv. now left. } { lia. } }
      repeat rewrite <- app_assoc in *. cbn [app] in *. repeat rewrite <- app_assoc in *. repeat split; auto.
      + cbn [sep_more]. rewrite Q. rewrite QI. cbn [pbind]. rewrite Q2. reflexivity.
      + intros OA. rewrite (C a) in OA; [discriminate|]. apply in_removelast. split; [discriminate|]. now left.
  Qed.

  Lemma chain_complete : forall m, complete_at m k item -> complete_at m (S k) (chain build item op).
  Proof.
    intros m H e u r W T L M NP St Op. unfold chain.
    destruct (Nat.eq_dec (level e) (S k)) as [E|E].
    - destruct (b_inv _ _ _ _ B e T E) as (a & t & -> & N & KO).
      rewrite (b_words _ _ _ _ B) in W by auto. rewrite (b_open _ _ _ _ B) in Op by auto.
      apply (b_tidy _ _ _ _ B) in T; auto. destruct T as ((_ & Lv & C) & T1 & T2).
      apply spells_split in W. destruct W as (u1 & u2 & -> & W1 & W2). rewrite weights_app in M.
      destruct (sep_complete m H t (length (u2 ++ r)) a u2 r) as (Q & SK & NP2 & OP2); auto; try lia.
      { rewrite app_length. lia. }
      { intros b P. specialize (Lv b (or_intror P)). lia. }
      rewrite <- app_assoc. rewrite (H a u1 (u2 ++ r)); auto; try lia.
      2: { specialize (Lv a (or_introl eq_refl)). lia. }
      cbn [pbind]. rewrite Q. cbn [pbind]. destruct t; [congruence|reflexivity].
    - rewrite (H e u r); auto; try lia. 2: apply (stops_le k (S k)); auto.
      cbn [pbind]. rewrite sep_stop; [reflexivity|]. apply St. lia.
  Qed.

  Lemma sep_total : forall m, total_at m item -> (forall l a r, item l = Parsed a r -> weights r <= weights l /\ length r <= length l) ->
    forall n l, length l <= n -> weights l < m -> sep_more n item op l <> Stuck.
  Proof.
    intros m H D. induction n as [|n IH]; intros l L W; cbn.
    - destruct l; [|cbn in L; lia]. destruct (op []) eqn:Q; try discriminate.
      + apply (op_less _ _ _ _ F) in Q. cbn in Q. lia.
      + exfalso. eapply (op_total _ _ _ _ F); eauto.
    - destruct (op l) as [o r| |] eqn:Q; try discriminate.
      2: { exfalso. eapply (op_total _ _ _ _ F); eauto. }
      destruct (op_less _ _ _ _ F _ _ _ Q). apply pbind_not_stuck; [apply H; lia|].
      intros a r1 E. apply D in E. apply pbind_not_stuck; [apply IH; lia|]. discriminate.
  Qed.
  Lemma sep_shrinks : (forall l a r, item l = Parsed a r -> weights r <= weights l /\ length r <= length l) ->
    forall n l t r, sep_more n item op l = Parsed t r -> weights r <= weights l /\ length r <= length l.
  Proof.
    intros D. induction n as [|n IH]; intros l t r E; cbn in E.
    - destruct (op l); try discriminate. inversion E; subst. lia.
    - destruct (op l) as [o r0| |] eqn:Q; try discriminate; [|inversion E; subst; lia].
      pinv E. pinv E. inversion E; subst. apply (op_less _ _ _ _ F) in Q. apply D in E0. apply IH in E1. lia.
  Qed.
  Lemma chain_total : forall m, total_at m item -> (forall l a r, item l = Parsed a r -> weights r <= weights l /\ length r <= length l) ->
    total_at m (chain build item op).
  Proof.
    intros m H D l L. unfold chain. apply pbind_not_stuck; auto. intros a r E. apply D in E.
    apply pbind_not_stuck; [eapply sep_total; eauto; lia|]. discriminate.
  Qed.
  Lemma chain_shrinks : (forall l a r, item l = Parsed a r -> weights r <= weights l /\ length r <= length l) ->
    forall l a r, chain build item op l = Parsed a r -> weights r <= weights l /\ length r <= length l.
  Proof.
    intros D l a r E. unfold chain in E. pinv E. pinv E. inversion E; subst. apply D in E0. apply (sep_shrinks D) in E1. lia.
  Qed.
End Chain.
