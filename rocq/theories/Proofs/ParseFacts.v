(** * Words, tokens and the basic parsers. *)
From Coq Require Import String Ascii List ZArith Bool Arith Lia.
From Coq Require Import Floats.SpecFloat.
From Verif Require Import Model.Base Model.Scalar Model.Ast Model.Options Model.Surface Model.Parse.
From Verif Require Import Spec.GrammarSpec.
Import ListNotations.
Local Open Scope string_scope.
Local Open Scope list_scope.

(** ** Spelling *)
Lemma spells_app : forall w1 u1 w2 u2, spells w1 u1 -> spells w2 u2 -> spells (w1 ++ w2) (u1 ++ u2).
Proof.
  intros w1 u1 w2 u2 H K. induction H; cbn; rewrite <- ?app_assoc; try solve [econstructor; eauto]; auto.
  apply sp_opt_yes. rewrite app_assoc. exact IHspells.
Qed.

Lemma spells_app_inv : forall w u, spells w u -> forall w1 w2, w = w1 ++ w2 ->
  exists u1 u2, u = u1 ++ u2 /\ spells w1 u1 /\ spells w2 u2.
Proof.
  intros w u H. induction H; intros w1 w2 E;
    destruct w1 as [|a w1]; cbn in E; try (subst; exists [], []; repeat split; auto; constructor; fail);
    try (subst; eexists [], _; repeat split; [constructor| econstructor; eauto; fail]); inversion E; subst; clear E.
  - destruct (IHspells _ _ eq_refl) as (u1 & u2 & -> & A & B). exists (TIdent x :: u1), u2. repeat split; auto. now constructor.
  - destruct (IHspells _ _ eq_refl) as (u1 & u2 & -> & A & B). exists (v ++ u1), u2. rewrite app_assoc. repeat split; auto. now constructor.
  - destruct (IHspells _ _ eq_refl) as (u1 & u2 & -> & A & B). exists (v ++ u1), u2. rewrite app_assoc. repeat split; auto. now constructor.
  - destruct (IHspells _ _ eq_refl) as (u1 & u2 & -> & A & B). exists (v ++ u1), u2. rewrite app_assoc. repeat split; auto. now constructor.
  - destruct (IHspells _ _ eq_refl) as (u1 & u2 & -> & A & B). exists (v ++ u1), u2. rewrite app_assoc. repeat split; auto. now constructor.
  - destruct (IHspells2 _ _ eq_refl) as (u1 & u2 & -> & A & B). exists (TGroup d v :: u1), u2. repeat split; auto. now constructor.
  - destruct (IHspells (o ++ w1) w2) as (u1 & u2 & -> & A & B); [now rewrite app_assoc|]. exists u1, u2. repeat split; auto. now apply sp_opt_yes.
  - destruct (IHspells _ _ eq_refl) as (u1 & u2 & -> & A & B). exists u1, u2. repeat split; auto. now apply sp_opt_no.
  - destruct (IHspells _ _ eq_refl) as (u1 & u2 & -> & A & B). exists u1, u2. repeat split; auto. now apply sp_clock_no.
  - destruct (IHspells _ _ eq_refl) as (u1 & u2 & -> & A & B). exists (TIdent k :: TIdent x :: u1), u2. repeat split; auto. now apply sp_clock_yes.
Qed.

Lemma spells_split : forall w1 w2 u, spells (w1 ++ w2) u -> exists u1 u2, u = u1 ++ u2 /\ spells w1 u1 /\ spells w2 u2.
Proof. intros w1 w2 u H. eapply spells_app_inv; eauto. Qed.

Lemma spells_nil : forall u, spells [] u -> u = [].
Proof. intros u H. now inversion H. Qed.
Lemma spells_ident : forall x w u, spells (WIdent x :: w) u -> exists u', u = TIdent x :: u' /\ spells w u'.
Proof. intros x w u H. inversion H; subst. eauto. Qed.
Lemma spells_group : forall d g w u, spells (WGroup d g :: w) u -> exists v u', u = TGroup d v :: u' /\ spells g v /\ spells w u'.
Proof. intros d g w u H. inversion H; subst. eauto. Qed.
Lemma spells_sym : forall s w u, spells (WSym s :: w) u -> exists v u', u = v ++ u' /\ symbol s v /\ spells w u'.
Proof. intros s w u H. inversion H; subst. eauto. Qed.
Lemma spells_lit : forall l w u, spells (WLit l :: w) u -> exists v u', u = v ++ u' /\ unsigned l v /\ spells w u'.
Proof. intros l w u H. inversion H; subst. eauto. Qed.
Lemma spells_signed : forall l w u, spells (WSigned l :: w) u -> exists v u', u = v ++ u' /\ signed l v /\ spells w u'.
Proof. intros l w u H. inversion H; subst. eauto. Qed.
Lemma spells_arg : forall l w u, spells (WArg l :: w) u -> exists v u', u = v ++ u' /\ argument l v /\ spells w u'.
Proof. intros l w u H. inversion H; subst. eauto. Qed.
Lemma spells_opt : forall o w u, spells (WOpt o :: w) u -> spells (o ++ w) u \/ spells w u.
Proof. intros o w u H. inversion H; subst; auto. Qed.

Lemma symbol_one : forall c v, symbol (String c "") v -> exists j, v = [TPunct c j].
Proof. intros c v H. inversion H; subst; eauto. congruence. Qed.
Lemma symbol_two : forall c d v, symbol (String c (String d "")) v -> exists j, v = [TPunct c true; TPunct d j].
Proof.
  intros c d v H. inversion H; subst.
  match goal with K : symbol _ _ |- _ => apply symbol_one in K; destruct K as (j & ->) end. eauto.
Qed.

Lemma spells_sym1 : forall c w u, spells (WSym (String c "") :: w) u -> exists j u', u = TPunct c j :: u' /\ spells w u'.
Proof.
  intros c w u H. apply spells_sym in H. destruct H as (v & u' & -> & S & H). apply symbol_one in S. destruct S as (j & ->). cbn. eauto.
Qed.
Lemma spells_sym2 : forall c d w u, spells (WSym (String c (String d "")) :: w) u ->
  exists j u', u = TPunct c true :: TPunct d j :: u' /\ spells w u'.
Proof.
  intros c d w u H. apply spells_sym in H. destruct H as (v & u' & -> & S & H). apply symbol_two in S. destruct S as (j & ->). cbn. eauto.
Qed.
Lemma sp_sym1 : forall c j w u, spells w u -> spells (WSym (String c "") :: w) (TPunct c j :: u).
Proof. intros c j w u H. apply (sp_sym (String c "") [TPunct c j]); auto. constructor. Qed.
Lemma sp_sym2 : forall c d j w u, spells w u -> spells (WSym (String c (String d "")) :: w) (TPunct c true :: TPunct d j :: u).
Proof.
  intros c d j w u H. apply (sp_sym (String c (String d "")) [TPunct c true; TPunct d j]); auto.
  constructor; [discriminate|constructor].
Qed.

(** ** Names *)
Lemma usable_name : forall x, usable x = true <-> name x.
Proof.
  intros x. unfold usable, name. rewrite negb_true_iff.
  assert (incl reserved keywords) as I.
  { assert (forallb (fun s => existsb (String.eqb s) keywords) reserved = true) as E by reflexivity.
    rewrite forallb_forall in E. intros s K. apply E in K. apply existsb_exists in K. destruct K as (y & K & Q). apply String.eqb_eq in Q. now subst. }
  assert (incl keywords reserved) as J.
  { assert (forallb (fun s => existsb (String.eqb s) reserved) keywords = true) as E by reflexivity.
    rewrite forallb_forall in E. intros s K. apply E in K. apply existsb_exists in K. destruct K as (y & K & Q). apply String.eqb_eq in Q. now subst. }
  split.
  - intros E K. apply J in K. assert (existsb (String.eqb x) reserved = true) as C; [|congruence].
    apply existsb_exists. exists x. split; auto. apply String.eqb_refl.
  - intros N. destruct (existsb (String.eqb x) reserved) eqn:E; auto. exfalso. apply N, I.
    apply existsb_exists in E. destruct E as (y & K & Q). apply String.eqb_eq in Q. now subst.
Qed.
Lemma name_usable : forall x, name x -> usable x = true.
Proof. intros x. apply usable_name. Qed.
Lemma name_not : forall x s, name x -> In s keywords -> String.eqb x s = false.
Proof. intros x s N K. apply String.eqb_neq. intros ->. contradiction. Qed.
Lemma keyword_unusable : forall s, In s keywords -> usable s = false.
Proof. intros s K. destruct (usable s) eqn:E; auto. apply usable_name in E. contradiction. Qed.

(** ** Results *)
Lemma pbind_parsed : forall A B (p : pres A) (f : A -> list tok -> pres B) b r,
  pbind p f = Parsed b r -> exists a r0, p = Parsed a r0 /\ f a r0 = Parsed b r.
Proof. intros A B [a r0| |] f b r H; cbn in H; try discriminate. eauto. Qed.
Lemma pbind_not_stuck : forall A B (p : pres A) (f : A -> list tok -> pres B),
  p <> Stuck -> (forall a r, p = Parsed a r -> f a r <> Stuck) -> pbind p f <> Stuck.
Proof. intros A B [a r| |] f H K; cbn; auto. discriminate. Qed.

Ltac pinv H :=
  let a := fresh "a" in let r := fresh "r" in let E := fresh "E" in
  apply pbind_parsed in H; destruct H as (a & r & E & H).

(** ** Basic parsers *)
Lemma p_kw_parsed : forall s l a r, p_kw s l = Parsed a r -> l = TIdent s :: r.
Proof.
  intros s [|[x|k|c j|d g] l] a r H; cbn in H; try discriminate.
  destruct (String.eqb_spec x s); try discriminate. now inversion H; subst.
Qed.
Lemma peek_kw_true : forall s l, peek_kw s l = true -> exists r, l = TIdent s :: r.
Proof. intros s [|[x|k|c j|d g] l] H; cbn in H; try discriminate. apply String.eqb_eq in H. subst. eauto. Qed.
Lemma p_kw_here : forall s r, p_kw s (TIdent s :: r) = Parsed tt r.
Proof. intros s r. cbn. now rewrite String.eqb_refl. Qed.
Lemma p_punct_parsed : forall c l a r, p_punct c l = Parsed a r -> exists j, l = TPunct c j :: r.
Proof.
  intros c [|[x|k|d j|d g] l] a r H; cbn in H; try discriminate.
  destruct (Ascii.eqb_spec d c); try discriminate. inversion H; subst. eauto.
Qed.
Lemma peek_punct_true : forall c l, peek_punct c l = true -> exists j r, l = TPunct c j :: r.
Proof. intros c [|[x|k|d j|d g] l] H; cbn in H; try discriminate. apply Ascii.eqb_eq in H. subst. eauto. Qed.
Lemma p_punct_here : forall c j r, p_punct c (TPunct c j :: r) = Parsed tt r.
Proof. intros c j r. cbn. now rewrite Ascii.eqb_refl. Qed.
Lemma p_punct2_parsed : forall c d l a r, p_punct2 c d l = Parsed a r -> exists j, l = TPunct c true :: TPunct d j :: r.
Proof.
  intros c d l a r H. unfold p_punct2 in H.
  destruct l as [|[x|k|c' [|]|d0 g] [|[x'|k'|d' j|d1 g'] l]]; try discriminate.
  destruct (Ascii.eqb_spec c' c); try discriminate. destruct (Ascii.eqb_spec d' d); try discriminate.
  inversion H; subst. eauto.
Qed.
Lemma p_punct2_here : forall c d j r, p_punct2 c d (TPunct c true :: TPunct d j :: r) = Parsed tt r.
Proof. intros c d j r. cbn. now rewrite !Ascii.eqb_refl. Qed.
Lemma p_ident_parsed : forall l x r, p_ident l = Parsed x r -> l = TIdent x :: r /\ name x.
Proof.
  intros [|[x|k|c j|d g] l] y r H; cbn in H; try discriminate. destruct (usable x) eqn:U; try discriminate.
  inversion H; subst. split; auto. now apply usable_name.
Qed.
Lemma p_ident_here : forall x r, name x -> p_ident (TIdent x :: r) = Parsed x r.
Proof. intros x r N. cbn. now rewrite (name_usable _ N). Qed.
Lemma p_group_parsed : forall d l g r, p_group d l = Parsed g r -> l = TGroup d g :: r.
Proof. intros d l g r H. destruct d, l as [|[x|k|c j|[| |] l'] l]; cbn in H; try discriminate; now inversion H; subst. Qed.

Lemma p_lit_parsed : forall l k r, p_lit l = Parsed k r ->
  exists u, l = u ++ r /\ signed (slit_of k) u /\ argument (attr_lit_of k) u /\ (peek_punct "-"%char l = false -> unsigned (slit_of k) u).
Proof.
  intros l k r H.
  destruct l as [|[x|[n|f|s|]|c j|d g] l]; cbn in H; try discriminate.
  - destruct (String.eqb_spec x "true") as [->|]; [|destruct (String.eqb_spec x "false") as [->|]; try discriminate];
      inversion H; subst; clear H.
    + exists [TIdent "true"]. cbn. repeat split; auto using si_plain, un_true. apply (ar_bool true), un_true.
    + exists [TIdent "false"]. cbn. repeat split; auto using si_plain, un_false. apply (ar_bool false), un_false.
  - inversion H; subst. exists [TLit (KInt n)]. cbn. repeat split; auto using si_plain, un_int. apply ar_int, si_plain, un_int.
  - inversion H; subst. exists [TLit (KFloat f)]. cbn. repeat split; auto using si_plain, un_float. apply (ar_float f), si_plain, un_float.
  - inversion H; subst. exists [TLit (KStr s)]. cbn. repeat split; auto using si_plain, un_str, ar_str.
  - inversion H; subst. exists [TLit KOther]. cbn. repeat split; auto using si_plain, un_other, ar_other.
  - destruct l as [|[x|[n|f|s|]|c' j'|d g] l]; try discriminate; destruct (Ascii.eqb_spec c "-"%char) as [->|]; try discriminate.
    + inversion H; subst. exists [TPunct "-"%char j; TLit (KInt n)]. cbn. repeat split; try discriminate; auto using si_int. apply ar_int, si_int.
    + inversion H; subst. exists [TPunct "-"%char j; TLit (KFloat f)]. cbn. repeat split; try discriminate; auto using si_float.
      apply (ar_float (SFopp f)), si_float.
Qed.
Lemma p_lit_signed : forall l u r, signed l u -> exists k, p_lit (u ++ r) = Parsed k r /\ slit_of k = l.
Proof. intros l u r H. destruct H as [l u H| |]; [destruct H|..]; cbn; eauto. Qed.
Lemma p_lit_argument : forall l u r, argument l u -> exists k, p_lit (u ++ r) = Parsed k r /\ attr_lit_of k = l.
Proof.
  intros l u r H. destruct H as [s|z u H|f u H|b u H|]; cbn; eauto.
  - inversion H; subst; cbn; eauto. match goal with K : unsigned _ _ |- _ => inversion K; subst; cbn; eauto end.
  - inversion H; subst; cbn; eauto. match goal with K : unsigned _ _ |- _ => inversion K; subst; cbn; eauto end.
  - inversion H; subst; cbn; eauto.
Qed.

(** ** Sizes *)
Lemma weights_app : forall u v, weights (u ++ v) = weights u + weights v.
Proof. induction u; cbn; intros; auto. unfold weights in *. rewrite IHu. lia. Qed.
Lemma weights_cons : forall t u, weights (t :: u) = weight t + weights u.
Proof. reflexivity. Qed.
Lemma weight_pos : forall t, 1 <= weight t.
Proof. destruct t; cbn; lia. Qed.
Lemma weight_group : forall d g, weight (TGroup d g) = S (weights g).
Proof. reflexivity. Qed.
Lemma length_weights : forall l, length l <= weights l.
Proof. induction l as [|t l IH]; cbn; [lia|]. pose proof (weight_pos t). unfold weights in IH. lia. Qed.
