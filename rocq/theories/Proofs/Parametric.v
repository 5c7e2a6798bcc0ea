(** Well-typed programs do not look at values of generic types. *)
From Coq Require Import String List ZArith Bool Arith Lia.
From Verif Require Import Model.Base Model.Scalar Model.Value Model.History Model.Register Model.Ast Model.Interp Model.Typecheck Model.Causality Model.Extern
  Spec.RuntimeSpec Spec.StepSpec Spec.CausalitySpec Spec.OrderSpec Spec.TypeSpec Spec.GenericSpec
  Proofs.AstInd Proofs.InterpBasics Proofs.RuntimeProofs Proofs.CoreProofs Proofs.CoreNode Proofs.TypeEval Proofs.TypeExec Proofs.TypeProg Proofs.Wrappers Proofs.ExternBasics.
Import ListNotations.

(** ** Related computations *)
Lemma alike_bind : forall {A B A' B'} (Q : A -> B -> Prop) (Q' : A' -> B' -> Prop) x y f g,
  alike Q x y -> (forall a b, Q a b -> alike Q' (f a) (g b)) -> alike Q' (bind x f) (bind y g).
Proof. intros A B A' B' Q Q' [a|e] [b|e'] f g H K; cbn in *; auto; tauto. Qed.
Lemma alike_ok : forall {A B} (Q : A -> B -> Prop) a b, Q a b -> alike Q (Ok a) (Ok b).
Proof. auto. Qed.
Lemma alike_same : forall {A A' B'} (Q' : A' -> B' -> Prop) (x : res A) f g, (forall a, x = Ok a -> alike Q' (f a) (g a)) -> alike Q' (bind x f) (bind x g).
Proof. intros A A' B' Q' [a|e] f g K; cbn in *; auto. Qed.
Lemma alike_weaken : forall {A B} (Q Q' : A -> B -> Prop) x y, alike Q x y -> (forall a b, Q a b -> Q' a b) -> alike Q' x y.
Proof. intros A B Q Q' [a|e] [b|e'] H K; cbn in *; auto. Qed.

Definition opt2 {A B} (Q : A -> B -> Prop) (x : option A) (y : option B) : Prop :=
  match x, y with Some a, Some b => Q a b | None, None => True | _, _ => False end.
Lemma alike_option : forall {A B} (Q : A -> B -> Prop) p x y, opt2 Q x y -> alike Q (of_option p x) (of_option p y).
Proof. intros A B Q p [a|] [b|] H; cbn in *; tauto. Qed.
Lemma nth_set : forall {A} n (a : A) l k, nth_error (set_nth n a l) k = if Nat.eqb n k then (match nth_error l k with Some _ => Some a | None => None end) else nth_error l k.
Proof. induction n; intros a [|b l] [|k]; cbn; auto; try (destruct (Nat.eqb n k); auto; fail). Qed.
Lemma opt2_set : forall {A B} (Q : nat -> A -> B -> Prop) n a b l m k, opt2 (Q k) (nth_error l k) (nth_error m k) -> (n = k -> Q k a b) ->
  opt2 (Q k) (nth_error (set_nth n a l) k) (nth_error (set_nth n b m) k).
Proof.
  intros A B Q n a b l m k H K. rewrite !nth_set. destruct (Nat.eqb_spec n k); auto.
  destruct (nth_error l k), (nth_error m k); cbn in *; auto.
Qed.
Lemma forall2_nth_opt : forall {A B} (Q : A -> B -> Prop) l m k, Forall2 Q l m -> opt2 Q (nth_error l k) (nth_error m k).
Proof. intros A B Q l m k F. revert k. induction F; intros [|k]; cbn; auto. Qed.

(** ** Related values.  A one-component tuple may be its component or a real tuple. *)
Notation relation := (ident -> scalar -> scalar -> Prop).
Inductive rel (R : relation) : ty -> val -> val -> Prop :=
| rl_one : forall b n m, nstands R b n m -> rel R (TSingle b) (VS n) (VS m)
| rl_unit : forall n, rel R (TMult []) (VS n) (VS n)
| rl_single : forall t v w, rel R t v w -> rel R (TMult [t]) v w
| rl_tuple : forall t ts v vs w ws, rel R t v w -> rels R ts vs ws -> rel R (TMult (t :: ts)) (VT (v :: vs)) (VT (w :: ws))
with rels (R : relation) : list ty -> list val -> list val -> Prop :=
| rls_nil : rels R [] [] []
| rls_cons : forall t ts v vs w ws, rel R t v w -> rels R ts vs ws -> rels R (t :: ts) (v :: vs) (w :: ws).
Scheme rel_mind := Induction for rel Sort Prop with rels_mind := Induction for rels Sort Prop.
Combined Scheme rel_both from rel_mind, rels_mind.

Definition concrete (b : base) : Prop := match b with BOther _ => False | _ => True end.
Lemma nstands_refl : forall R b n, concrete b -> nstands R b n n.
Proof. intros R b [s|] C; cbn; auto. destruct b; cbn in *; tauto. Qed.
Lemma rel_concrete : forall R b v w, concrete b -> rel R (TSingle b) v w -> exists n, v = VS n /\ w = VS n.
Proof.
  intros R b v w C H. inversion H as [? n m S| | |]; subst. exists n. split; auto. f_equal.
  destruct n as [s|], m as [s'|]; cbn in S; try tauto. destruct b; cbn in *; try tauto; congruence.
Qed.

Lemma rel_all_nil : forall R t v w, rel R t v w -> rel R t (all_nil v) (all_nil w).
Proof.
  intros R. cut ((forall t v w, rel R t v w -> rel R t (all_nil v) (all_nil w)) /\
    (forall ts vs ws, rels R ts vs ws -> rels R ts (map all_nil vs) (map all_nil ws))); [tauto|].
  apply (rel_both R (fun t v w _ => rel R t (all_nil v) (all_nil w)) (fun ts vs ws _ => rels R ts (map all_nil vs) (map all_nil ws)));
    intros; cbn [all_nil map]; constructor; cbn; auto.
Qed.
Lemma rel_first_nil : forall R t v w, rel R t v w -> first_is_nil v = first_is_nil w.
Proof.
  intros R t v w H. apply (rel_mind R (fun t v w _ => first_is_nil v = first_is_nil w) (fun _ _ _ _ => True)) with (t := t); auto.
  intros b n m S. destruct n, m; cbn in *; tauto.
Qed.
Lemma rel_nil_eq : forall R t v w, rel R t v w -> all_nil v = all_nil w.
Proof.
  intros R t v w H. apply (rel_mind R (fun t v w _ => all_nil v = all_nil w) (fun _ vs ws _ => map all_nil vs = map all_nil ws)) with (t := t); auto;
    intros; cbn; congruence.
Qed.
Lemma shape_nil : forall a b, same_shapeb a b = same_shapeb (all_nil a) (all_nil b).
Proof.
  induction a as [n|l IH] using val_ind'; intros [m|l']; auto. cbn [all_nil same_shapeb].
  revert l'. induction IH as [|a l Ha Hl IHl]; intros [|b l']; cbn; auto. rewrite Ha, IHl. auto.
Qed.
Lemma rel_shape : forall R t t' v w x y, rel R t v w -> rel R t' x y -> same_shapeb v x = same_shapeb w y.
Proof. intros R t t' v w x y V X. rewrite (shape_nil v), (shape_nil w), (rel_nil_eq _ _ _ _ V), (rel_nil_eq _ _ _ _ X). auto. Qed.
Lemma rel_tuple_val : forall R ts vs ws, rels R ts vs ws -> rel R (TMult ts) (tuple_val vs) (tuple_val ws).
Proof.
  intros R ts vs ws H. destruct H as [|t ts v vs w ws H K]; [constructor|]. destruct K; cbn; [apply rl_single; auto|]. constructor; auto. constructor; auto.
Qed.
Lemma rel_default : forall R t, rel R t (ty_shape t) (ty_shape t).
Proof.
  intros R. induction t using ty_ind'; cbn; [constructor; cbn; auto|]. destruct H as [|t l Ht Hl]; [constructor|]. cbn. constructor; auto.
  induction Hl; cbn; constructor; auto.
Qed.

(** ** Operators *)
Lemma bin_rel : forall R mode op b x x' y y', bin_type op b -> rel R (TSingle b) x x' -> rel R (TSingle b) y y' ->
  alike (rel R (TSingle b)) (val_bin mode op x y) (val_bin mode op x' y').
Proof.
  intros R mode op b x x' y y' T X Y. assert (C : concrete b) by (destruct op; cbn in T; intuition subst; cbn; auto).
  destruct (rel_concrete _ _ _ _ C X) as (n & -> & ->), (rel_concrete _ _ _ _ C Y) as (m & -> & ->).
  unfold val_bin. cbn [as_scalar bind]. apply alike_same. intros r _. constructor. apply nstands_refl; auto.
Qed.
Lemma un_rel : forall R mode op b x x', un_type op b -> rel R (TSingle b) x x' ->
  alike (rel R (TSingle b)) (val_un mode op x) (val_un mode op x').
Proof.
  intros R mode op b x x' T X. assert (C : concrete b) by (destruct op; cbn in T; intuition subst; cbn; auto).
  destruct (rel_concrete _ _ _ _ C X) as (n & -> & ->).
  unfold val_un. cbn [as_scalar bind]. apply alike_same. intros r _. constructor. apply nstands_refl; auto.
Qed.
Lemma cmp_rel : forall R op b x x' y y', cmp_type op b -> rel R (TSingle b) x x' -> rel R (TSingle b) y y' ->
  alike (rel R (TSingle BBool)) (val_cmp op x y) (val_cmp op x' y').
Proof.
  intros R op b x x' y y' T X Y. assert (C : concrete b) by (destruct op; cbn in T; intuition subst; cbn; auto).
  destruct (rel_concrete _ _ _ _ C X) as (n & -> & ->), (rel_concrete _ _ _ _ C Y) as (m & -> & ->).
  unfold val_cmp. cbn [as_scalar bind]. apply alike_same. intros r _. constructor. apply nstands_refl; cbn; auto.
Qed.
Lemma ifx_rel : forall R t c c' x x' y y', rel R (TSingle BBool) c c' -> rel R t x x' -> rel R t y y' ->
  alike (rel R t) (val_ifx c x y) (val_ifx c' x' y').
Proof.
  intros R t c c' x x' y y' C X Y. destruct (rel_concrete R BBool _ _ I C) as (n & -> & ->). unfold val_ifx. cbn [as_scalar bind].
  apply alike_same. intros [[|]|] _; cbn; auto. apply rel_all_nil. auto.
Qed.
Lemma when_rel : forall R t p c c' x x', rel R (TSingle BBool) c c' -> rel R t x x' ->
  alike (rel R t) (val_when p c x) (val_when p c' x').
Proof.
  intros R t p c c' x x' C X. destruct (rel_concrete R BBool _ _ I C) as (n & -> & ->). unfold val_when. cbn [as_scalar bind].
  apply alike_same. intros [b|] _; cbn; auto using rel_all_nil. destruct (Bool.eqb b p); auto using rel_all_nil.
Qed.

(** ** Expressions *)
Section Eval.
  Variable mode : ovf.
  Variable glob : ident -> option scalar.
  Variable clk : nat.
  Variables hists hists' : list (ident * hist).
  Variable call : nat -> inst -> val -> res (val * inst).
  Variable nilout : nat -> res val.
  Variable R : relation.
  Variable G : context.
  Variable RS : nat -> inst -> inst -> Prop.
  Hypothesis Hg : forall x b, x_globals G x = Some b -> concrete b.
  Definition hists_rel (hs hs' : list (ident * hist)) : Prop := forall x b, x_vars G x = Some b ->
    opt2 (fun h h' => Forall2 (nstands R b) (hlist h) (hlist h')) (lookup x hs) (lookup x hs').
  Hypothesis Hh : hists_rel hists hists'.
  Definition answer_rel (id : nat) (t : ty) (a b : val * inst) : Prop := rel R t (fst a) (fst b) /\ RS id (snd a) (snd b).
  Hypothesis Hc : forall id tin tout, x_blocks G id = Some (tin, tout) ->
    (forall i j v w, RS id i j -> rel R tin v w -> alike (answer_rel id tout) (call id i v) (call id j w)) /\
    alike (rel R tout) (nilout id) (nilout id).

  Definition es_rel (s s' : estate) : Prop :=
    es_flips s = es_flips s' /\ forall id, opt2 (RS id) (nth_error (es_subs s) id) (nth_error (es_subs s') id).
  Definition store_rel (st st' : store) : Prop := forall x b, x_vars G x = Some b -> opt2 (nstands R b) (lookup x st) (lookup x st').
  Definition reg_rel (t : ty) (r r' : register) : Prop :=
    rel R t (r_inner r) (r_inner r') /\ rel R t (r_next r) (r_next r') /\ r_on_clock r = r_on_clock r'.
  Definition regs_rel (l l' : list register) : Prop := forall id t, x_regs G id = Some t -> opt2 (reg_rel t) (nth_error l id) (nth_error l' id).
  Definition ev_rel (t : ty) (a b : val * estate) : Prop := rel R t (fst a) (fst b) /\ es_rel (snd a) (snd b).

  Section Expr.
    Variables regs regs' : list register.
    Variables st st' : store.
    Hypothesis Hs : store_rel st st'.
    Hypothesis Hr : regs_rel regs regs'.
    Notation ev := (eval mode glob clk hists call nilout regs st).
    Notation ev' := (eval mode glob clk hists' call nilout regs' st').

    Definition evaluates (e : expr) : Prop := forall t, has_type G e t -> forall s s', es_rel s s' -> alike (ev_rel t) (ev e s) (ev' e s').

    Lemma eval_then : forall e t, evaluates e -> has_type G e t -> forall B (Q : B -> B -> Prop) s s' f g, es_rel s s' ->
      (forall v w s s', rel R t v w -> es_rel s s' -> alike Q (f (v, s)) (g (w, s'))) -> alike Q (bind (ev e s) f) (bind (ev' e s') g).
    Proof. intros e t E T B Q s s' f g Es K. eapply alike_bind; [apply E; eauto|]. intros [v s1] [w s2] [A C]. apply K; auto. Qed.
    Ltac step IH H := eapply (eval_then _ _ IH H); [eassumption|]; intros ? ? ? ? ? ?.

    Lemma eval_rel : forall e, evaluates e.
    Proof.
      induction e using expr_ind'; intros t0 HT s s' Es.
      - inversion HT; subst; cbn; split; cbn; auto; constructor; cbn; auto.
      - inversion HT as [| | |? ? b Hx| | | | | | | | | | | | | | |]; subst. destruct d as [|d]; cbn [eval].
        + eapply alike_bind; [apply alike_option, (Hs _ _ Hx)|]. intros n m S. split; cbn; auto. constructor. auto.
        + eapply alike_bind; [apply alike_option, (Hh _ _ Hx)|]. intros h h' S. rewrite !ago_hlist.
          pose proof (forall2_nth_opt _ _ _ d S) as N. destruct (nth_error (hlist h) d), (nth_error (hlist h') d); cbn in N |- *; try tauto.
          split; cbn; auto. constructor. auto.
      - inversion HT; subst. cbn [eval]. apply alike_same. intros g _. split; cbn; auto. constructor. apply nstands_refl. eauto.
      - inversion HT as [| | | | |l0 ts HTs| | | | | | | | | | | | |]; subst. rewrite !eval_tuple.
        eapply (alike_bind (fun a b => rels R ts (fst a) (fst b) /\ es_rel (snd a) (snd b))).
        2:{ intros [vs s1] [ws s2] [A B]. split; cbn; auto. apply rel_tuple_val. auto. }
        clear HT. revert ts HTs s s' Es. induction H as [|e l He _ IH]; intros ts HTs s s' Es; inversion HTs; subst; cbn [evals].
        + split; cbn; auto. constructor.
        + step He H1. eapply alike_bind; [apply (IH _ H3); eassumption|]. intros [vs s1] [ws s2] [A B]. split; cbn; auto. constructor; auto.
      - inversion HT; subst. cbn [eval]. apply IHe; auto.
      - inversion HT; subst. cbn [eval]. apply IHe; auto.
      - inversion HT as [| | | | | | | |? ? ? ? Ha Hb Hop| | | | | | | | | |]; subst. cbn [eval]. step IHe1 Ha. step IHe2 Hb.
        eapply alike_bind; [eapply bin_rel; eauto|]. intros. split; auto.
      - inversion HT as [| | | | | | | | |? ? ? Ha Hop| | | | | | | | |]; subst. cbn [eval]. step IHe Ha.
        eapply alike_bind; [eapply un_rel; eauto|]. intros. split; auto.
      - inversion HT as [| | | | | | | | | |? ? ? ? Ha Hb Hop| | | | | | | |]; subst. cbn [eval]. step IHe1 Ha. step IHe2 Hb.
        eapply alike_bind; [eapply cmp_rel; eauto|]. intros. split; auto.
      - inversion HT as [| | | | | | | | | | |? ? ? ? Ha Hb| | | | | | |]; subst. cbn [eval]. step IHe2 Hb. step IHe1 Ha.
        eapply alike_bind; [eapply when_rel; eauto|]. intros. split; auto.
      - inversion HT as [| | | | | | | | | | | |? ? ? ? Ha Hb| | | | | |]; subst. cbn [eval]. step IHe2 Hb.
        destruct (_ <? _); [split; auto|]. apply IHe1; auto.
      - assert (K : x_regs G id = Some t0) by (inversion HT; subst; auto). cbn [eval].
        eapply alike_bind; [apply alike_option, (Hr _ _ K)|]. intros r r' (A & B & C). split; cbn; auto.
        unfold reg_get. rewrite C. destruct (r_on_clock r'); auto using rel_all_nil.
      - inversion HT as [| | | | | | | | | | | | |? ? ? ? Ha Hb| | | | |]; subst. cbn [eval]. step IHe1 Ha. step IHe2 Hb.
        destruct H2 as [Ef Es']. rewrite Ef. apply alike_same. intros f _. unfold flip_instant. rewrite (rel_first_nil _ _ _ _ H).
        destruct (first_is_nil w); [split; cbn; auto using rel_all_nil; split; cbn; auto|]. destruct (tas f) as [b f'].
        split; cbn; [destruct b; auto|split; cbn; auto].
      - inversion HT as [| | | | | | | | | | | | | |? ? ? ? Hcd Ha Hb| | | |]; subst. cbn [eval]. step IHe2 Ha. step IHe3 Hb. step IHe1 Hcd.
        eapply alike_bind; [eapply ifx_rel; eauto|]. intros. split; auto.
      - inversion HT as [| | | | | | | | | | | | | | |? ? ? ? Hcd Ha Hb| | |]; subst. cbn [eval]. step IHe1 Hcd. step IHe2 Ha. step IHe3 Hb. step IHe1 Hcd.
        eapply alike_bind; [eapply (ifx_rel R t0); eauto|]. intros. split; auto.
      - inversion HT as [| | | | | | | | | | | | | | | | | |? ? ? tin ? Hb Ha]; subst. cbn [eval]. destruct (Hc _ _ _ Hb) as [C1 C2].
        destruct (d <=? clk).
        + step IHe Ha. destruct H0 as [Ef Es']. eapply alike_bind; [apply alike_option, Es'|]. intros i j Rij.
          eapply alike_bind; [apply C1; eauto|]. intros [o i'] [o' j'] [A B]. split; cbn; auto. split; cbn; auto.
          intros k. apply opt2_set; auto. intros <-. auto.
        + eapply alike_bind; [apply C2|]. intros. split; auto.
    Qed.
  End Expr.

  (** ** Statements *)
  Lemma bind_panic : forall t v st e, bind_target t v st = Panic e -> e = PType.
  Proof.
    induction t using vartuple_ind'; intros v st e E.
    - destruct v; cbn in E; congruence.
    - destruct l as [|t [|t' l]]; cbn in E; [discriminate|inversion H; subst; eauto|]. destruct v as [n|vs]; [congruence|].
      assert (Go : forall l, Forall (fun t => forall v st e, bind_target t v st = Panic e -> e = PType) l -> forall vs st e,
        (fix go (l : list vartuple) (vs : list val) (st : store) : res store :=
               match l, vs with
               | [], [] => Ok st
               | t :: l, v :: vs => st <- bind_target t v st;; go l vs st
               | _, _ => Panic PType
               end) l vs st = Panic e -> e = PType).
      { clear. induction 1 as [|t l Ht Hl IH]; intros [|v vs] st e E; try congruence.
        destruct (bind_target t v st) eqn:B; cbn [bind] in E; eauto. inversion E; subst. eauto. }
      exact (Go _ H vs st e E).
  Qed.
  (** A target given a one-component tuple. *)
  Lemma bind_one : forall t, (forall v st, bind_target t (VT [v]) st = Ok st) \/ (forall v st, bind_target t (VT [v]) st = Panic PType).
  Proof.
    induction t using vartuple_ind'; [right; reflexivity|]. destruct l as [|t [|t' l]]; [left; reflexivity|inversion H; subst; auto|].
    right. intros v st. cbn. destruct (bind_target t v st) as [st1|e] eqn:B; cbn; [auto|]. apply bind_panic in B. congruence.
  Qed.

  Definition binds (t : vartuple) : Prop := forall ty v w st st', target_type G t ty -> rel R ty v w -> store_rel st st' ->
    alike store_rel (bind_target t v st) (bind_target t w st').
  Lemma bind_go : forall l, Forall binds l -> forall ts, Forall2 (target_type G) l ts -> forall vs ws st st', rels R ts vs ws -> store_rel st st' ->
    let go := (fix go (l : list vartuple) (vs : list val) (st : store) : res store :=
               match l, vs with
               | [], [] => Ok st
               | t :: l, v :: vs => st <- bind_target t v st;; go l vs st
               | _, _ => Panic PType
               end) in alike store_rel (go l vs st) (go l ws st').
  Proof.
    intros l Fo ts F2. induction F2 as [|t ty l ts T F IH]; intros vs ws st st' Vs S0; inversion Vs; subst; [cbn; auto|].
    inversion Fo as [|? ? IH1 Fo']; subst. eapply alike_bind; [eapply IH1; eauto|]. intros st1 st1' S1. apply IH; auto.
  Qed.
  Lemma bind_rel : forall t, binds t.
  Proof.
    induction t using vartuple_ind'; intros ty0 v w st st' T V S0; inversion T as [? b Hx|? ts F2]; subst.
    - inversion V; subst. cbn. intros y b' X. cbn. destruct (String.eqb_spec y x); [|apply S0; auto]. subst. cbn. congruence.
    - destruct F2 as [|t ty l1 ts T1 F2]; [cbn; auto|]. inversion H as [|? ? IH1 Fo]; subst. destruct F2 as [|t' ty' l ts T2 F2].
      + cbn [bind_target]. inversion V as [| |? ? ? V1|? ? ? ? ? ? V1 Vs]; subst; [eapply IH1; eauto|]. inversion Vs; subst.
        destruct (bind_one t) as [O|O]; rewrite !O; cbn; auto.
      + inversion V as [| | |? ? v0 vs w0 ws V1 Vs]; subst.
        exact (bind_go (t :: t' :: l) H (ty :: ty' :: ts) ltac:(constructor; [|constructor]; auto) (v0 :: vs) (w0 :: ws) st st' ltac:(constructor; auto) S0).
  Qed.

  Definition ss_rel (a b : sstate) : Prop := store_rel (ss_store a) (ss_store b) /\ regs_rel (ss_regs a) (ss_regs b) /\ es_rel (ss_es a) (ss_es b).

  Lemma regs_set : forall l l' id t r r', regs_rel l l' -> x_regs G id = Some t -> reg_rel t r r' -> regs_rel (set_nth id r l) (set_nth id r' l').
  Proof.
    intros l l' id t r r' L X Rr k u Xu. rewrite !nth_set. destruct (Nat.eqb_spec id k); [|apply L; auto]. subst.
    specialize (L _ _ Xu). destruct (nth_error l k), (nth_error l' k); cbn in *; auto. congruence.
  Qed.

  Lemma exec_rel : forall s a b, stmt_typed G s -> ss_rel a b ->
    alike ss_rel (exec mode glob clk hists call nilout s a) (exec mode glob clk hists' call nilout s b).
  Proof.
    intros s [st regs es] [st' regs' es'] T (S1 & S2 & S3). cbn in S1, S2, S3.
    assert (D : forall regs regs' e t, regs_rel regs regs' -> has_type G e t -> forall B (Q : B -> B -> Prop) s s' f g, es_rel s s' ->
      (forall v w s s', rel R t v w -> es_rel s s' -> alike Q (f (v, s)) (g (w, s'))) ->
      alike Q (bind (eval mode glob clk hists call nilout regs st e s) f) (bind (eval mode glob clk hists' call nilout regs' st' e s') g)).
    { intros rg rg' e t Hr Te B Q s0 s0' f g Es K. eapply eval_then; eauto. apply eval_rel; auto. }
    destruct T as [x e t Tx Te|e Te|id e t X Te|id v c t X Tv Tc]; cbn [exec].
    - eapply D; eauto. intros v w s s' V Es. eapply alike_bind; [eapply bind_rel; eauto|]. intros. split; auto.
    - eapply D; eauto. intros v w s s' V Es. destruct (rel_concrete R BBool _ _ I V) as (n & -> & ->). apply alike_same. intros. split; auto.
    - eapply alike_bind; [apply alike_option, (S2 _ _ X)|]. intros r r' (A & B & C).
      eapply D; eauto. intros v w s s' V Es. rewrite (rel_shape _ _ _ _ _ _ _ V A). destruct (same_shapeb w (r_inner r')); [|reflexivity].
      split; [|split]; cbn; auto. eapply regs_set; eauto. unfold reg_schedule. rewrite (rel_first_nil _ _ _ _ V).
      destruct (first_is_nil w); repeat split; auto.
    - cbn [of_option bind]. eapply alike_bind; [apply alike_option, (S2 _ _ X)|]. intros r r' (A & B & C).
      eapply D; eauto. intros cv cw s s' V Es. destruct (rel_concrete R BBool _ _ I V) as (n & -> & ->). cbn [as_scalar bind].
      unfold reg_with_clock. destruct (nil_is n (Defined (SBool true))) as [b|e]; cbn [bind]; [|reflexivity].
      assert (Rr : regs_rel (set_nth id (mkReg (r_inner r) (r_next r) b) regs) (set_nth id (mkReg (r_inner r') (r_next r') b) regs')).
      { eapply regs_set; eauto. repeat split; auto. }
      destruct v as [e|]; [|split; [|split]; cbn; auto]. eapply D; eauto. intros v w s1 s1' V1 Es1. cbn [r_inner].
      rewrite (rel_shape _ _ _ _ _ _ _ V1 A). destruct (same_shapeb w (r_inner r')); [|reflexivity].
      split; [|split]; cbn; auto. eapply regs_set; eauto. unfold reg_try_initialize. cbn [r_inner]. rewrite (rel_first_nil _ _ _ _ A).
      destruct (first_is_nil (r_inner r')); repeat split; auto.
  Qed.
  Lemma execs_rel : forall l a b, Forall (stmt_typed G) l -> ss_rel a b ->
    alike ss_rel (execs mode glob clk hists call nilout l a) (execs mode glob clk hists' call nilout l b).
  Proof.
    induction l as [|s l IH]; intros a b T H; cbn [execs]; auto. inversion T; subst. eapply alike_bind; [eapply exec_rel; eauto|]. auto.
  Qed.
End Eval.
