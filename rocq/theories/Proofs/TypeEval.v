(** Well-typed expressions and statements evaluate to values of their type. *)
From Coq Require Import String List ZArith Bool Arith Lia.
From Verif Require Import Model.Base Model.Scalar Model.Value Model.History Model.Register Model.Ast Model.Interp
  Spec.RuntimeSpec Spec.StepSpec Spec.CausalitySpec Spec.TypeSpec Proofs.AstInd Proofs.InterpBasics Proofs.RuntimeProofs.
Import ListNotations.

(** ** Safe computations *)
Lemma safe_bind : forall {A B} (x : res A) (f : A -> res B) P Q,
  safe x P -> (forall a, P a -> safe (f a) Q) -> safe (bind x f) Q.
Proof. intros A B [a|p] f P Q H K; simpl in *; auto. Qed.
Lemma safe_ok : forall {A} (a : A) (Q : A -> Prop), Q a -> safe (Ok a) Q.
Proof. auto. Qed.
Lemma safe_weaken : forall {A} (x : res A) (P Q : A -> Prop), safe x P -> (forall a, P a -> Q a) -> safe x Q.
Proof. intros A [a|p] P Q; simpl; auto. Qed.
Lemma safe_option : forall {A} p (o : option A) a (Q : A -> Prop), o = Some a -> Q a -> safe (of_option p o) Q.
Proof. intros A p o a Q -> H. exact H. Qed.

(** ** Types *)
Section ty_ind.
  Variable P : ty -> Prop.
  Hypothesis HS : forall b, P (TSingle b).
  Hypothesis HM : forall l, Forall P l -> P (TMult l).
  Fixpoint ty_ind' (t : ty) : P t :=
    match t with
    | TSingle b => HS b
    | TMult l => HM l ((fix go l : Forall P l :=
        match l with [] => Forall_nil _ | t :: l => Forall_cons t (ty_ind' t) (go l) end) l)
    end.
End ty_ind.

Lemma of_type_mult : forall theta ts v, of_type theta (TMult ts) v <->
  match ts with
  | [] => exists n, v = VS n /\ fits TUnit n
  | [t] => of_type theta t v
  | ts => exists vs, v = VT vs /\ Forall2 (of_type theta) ts vs
  end.
Proof.
  assert (G : forall theta ts vs,
    (fix all (ts : list ty) (vs : list val) {struct ts} : Prop :=
         match ts, vs with
         | [], [] => True
         | t :: ts, v :: vs => of_type theta t v /\ all ts vs
         | _, _ => False
         end) ts vs <-> Forall2 (of_type theta) ts vs).
  { intros theta. induction ts as [|t ts IH]; intros [|v vs]; split; intros H; try constructor; try tauto; try inversion H; subst; auto.
    - apply IH; auto.
    - apply IH; auto. }
  intros theta ts v. destruct ts as [|t [|t' ts]]; try reflexivity.
  specialize (G theta (t :: t' :: ts)). cbn [of_type]. split; intros (vs & E & H); exists vs; split; auto; apply G; auto.
Qed.

Lemma of_type_tuple : forall theta ts vs, Forall2 (of_type theta) ts vs -> of_type theta (TMult ts) (tuple_val vs).
Proof.
  intros theta ts vs F. apply of_type_mult. destruct F as [|t v ts vs H F]; simpl.
  - exists (Defined SUnit). simpl. auto.
  - destruct F; auto. exists (v :: y :: l'). split; auto.
Qed.

Lemma all_nil_type : forall theta t v, of_type theta t v -> of_type theta t (all_nil v).
Proof.
  intros theta t. induction t using ty_ind'; intros v H0.
  - destruct H0 as (n & -> & F). exists Nil. simpl. auto.
  - apply of_type_mult in H0. apply of_type_mult. destruct l as [|t [|t' l]].
    + destruct H0 as (n & -> & F). exists Nil. simpl. auto.
    + inversion H; subst; auto.
    + destruct H0 as (vs & -> & F). exists (map all_nil vs). split; auto.
      revert H. induction F; intros H1; simpl; constructor; inversion H1; subst; auto.
Qed.

Lemma shapes_go : forall l l', (fix go l l' := match l, l' with
         | [], [] => true
         | a :: l, b :: l' => same_shapeb a b && go l l'
         | _, _ => false end) l l' = true <-> Forall2 (fun a b => same_shapeb a b = true) l l'.
Proof.
  induction l as [|a l IH]; intros [|b l']; split; intros H; try discriminate; try constructor; auto; try (inversion H; fail).
  - apply andb_true_iff in H. tauto.
  - apply IH. apply andb_true_iff in H. tauto.
  - inversion H; subst. apply andb_true_iff. split; auto. apply IH; auto.
Qed.

Lemma type_shape : forall theta t a b, of_type theta t a -> of_type theta t b -> same_shapeb a b = true.
Proof.
  intros theta t. induction t using ty_ind'; intros x y Hx Hy.
  - destruct Hx as (n & -> & _), Hy as (m & -> & _). reflexivity.
  - apply of_type_mult in Hx, Hy. destruct l as [|t [|t' l]].
    + destruct Hx as (n & -> & _), Hy as (m & -> & _). reflexivity.
    + inversion H; subst; auto.
    + destruct Hx as (vs & -> & F), Hy as (ws & -> & G). cbn [same_shapeb]. apply shapes_go.
      revert ws G H. induction F as [|t0 v ts vs A F IH]; intros ws G Fo; inversion G; subst; constructor; inversion Fo; subst; auto.
Qed.

(** No one-component tuple inside: the default value of the type then has the
    structure of its values. *)
Fixpoint no_single (t : ty) : Prop :=
  match t with
  | TSingle _ => True
  | TMult [_] => False
  | TMult l => (fix all l := match l with [] => True | t :: l => no_single t /\ all l end) l
  end.
Lemma no_single_mult : forall l, no_single (TMult l) <-> length l <> 1 /\ Forall no_single l.
Proof.
  assert (G : forall l, (fix all l := match l with [] => True | t :: l => no_single t /\ all l end) l <-> Forall no_single l).
  { induction l as [|t l IH]; split; intros H; auto; [constructor; [|apply IH]; tauto|]. inversion H; subst. split; auto. apply IH; auto. }
  intros l. destruct l as [|t [|t' l]].
  - cbn. split; auto.
  - cbn. split; [tauto|]. intros [H _]. congruence.
  - specialize (G (t :: t' :: l)). cbn [no_single]. rewrite G. simpl. intuition congruence.
Qed.

Lemma default_type : forall theta t, no_single t -> of_type theta t (all_nil (ty_shape t)).
Proof.
  intros theta t. induction t using ty_ind'; intros N.
  - exists Nil. simpl. auto.
  - apply no_single_mult in N. destruct N as [L N]. apply of_type_mult. destruct l as [|t [|t' l]]; [exists Nil; simpl; auto|simpl in L; congruence|].
    cbn [ty_shape]. exists (map all_nil (map ty_shape (t :: t' :: l))). split; auto. clear L.
    induction H as [|x xs Hx _ IH]; simpl; constructor; inversion N; subst; auto.
Qed.

(** ** Operators *)
Lemma scalar_of : forall theta b v, of_type theta (TSingle b) v -> exists n, v = VS n /\ fits (kind_of theta b) n.
Proof. auto. Qed.

Lemma bin_safe : forall theta mode op b x y, bin_type op b ->
  of_type theta (TSingle b) x -> of_type theta (TSingle b) y ->
  safe (val_bin mode op x y) (of_type theta (TSingle b)).
Proof.
  intros theta mode op b x y T (n & -> & Fn) (m & -> & Fm). unfold val_bin. simpl.
  destruct n as [s|], m as [s'|]; simpl; try (exists Nil; simpl; auto; fail).
  assert (Z : forall z, b = BInt -> safe (i64_result mode z) (fun s => sty_of s = kind_of theta b)).
  { intros z ->. unfold i64_result. destruct (in_i64 z); simpl; auto. destruct mode; simpl; auto. }
  unfold fits in *.
  assert (G : safe (scalar_bin mode op s s') (fun r => sty_of r = kind_of theta b)).
  { destruct b; simpl in Fn, Fm; destruct s; try discriminate; destruct s'; try discriminate; destruct op; simpl in *;
      try (destruct T; discriminate); try discriminate; auto.
    all: try (apply (Z _ eq_refl)).
    - unfold i64_div. destruct (_ =? _)%Z; simpl; auto. destruct (_ && _); simpl; auto.
    - unfold i64_rem. destruct (_ =? _)%Z; simpl; auto. destruct (_ && _); simpl; auto. }
  destruct (scalar_bin mode op s s') as [r|p]; simpl in *; auto. exists (Defined r). auto.
Qed.

Lemma un_safe : forall theta mode op b x, un_type op b -> of_type theta (TSingle b) x ->
  safe (val_un mode op x) (of_type theta (TSingle b)).
Proof.
  intros theta mode op b x T (n & -> & Fn). unfold val_un. simpl.
  destruct n as [s|]; simpl; try (exists Nil; simpl; auto; fail).
  assert (G : safe (scalar_un mode op s) (fun r => sty_of r = kind_of theta b)).
  { unfold fits in Fn. destruct b; simpl in Fn; destruct s; try discriminate; destruct op; simpl in *; try (destruct T; discriminate); auto.
    unfold i64_result. destruct (in_i64 _); simpl; auto. destruct mode; simpl; auto. }
  destruct (scalar_un mode op s) as [r|p]; simpl in *; auto. exists (Defined r). auto.
Qed.

Lemma cmp_safe : forall theta op b x y, cmp_type op b ->
  of_type theta (TSingle b) x -> of_type theta (TSingle b) y ->
  safe (val_cmp op x y) (of_type theta (TSingle BBool)).
Proof.
  intros theta op b x y T (n & -> & Fn) (m & -> & Fm). unfold val_cmp. simpl.
  destruct n as [s|], m as [s'|]; try (destruct op; simpl; exists Nil; simpl; auto; fail).
  assert (C : exists c, scalar_cmp s s' = Ok c).
  { unfold fits in *. destruct b; simpl in Fn, Fm; destruct s; try discriminate; destruct s'; try discriminate; simpl; eauto;
      destruct op; simpl in T; intuition discriminate. }
  assert (E : exists c, scalar_eq s s' = Ok c).
  { unfold fits in *. destruct b; simpl in Fn, Fm; destruct s; try discriminate; destruct s'; try discriminate; simpl; eauto;
      destruct op; simpl in T; intuition discriminate. }
  destruct C as (c & C), E as (e & E).
  assert (Bo : forall r : bool, of_type theta (TSingle BBool) (VS (Defined (SBool r)))) by (intros r; exists (Defined (SBool r)); simpl; auto).
  assert (No : of_type theta (TSingle BBool) (VS Nil)) by (exists Nil; simpl; auto).
  destruct op; unfold do_cmp, cmp_ord, cmp_eq, nil_cmp, nil_eq; rewrite ?C, ?E; cbn [bind safe].
  all: try (destruct c as [[| |]|]; cbn [comparison_eqb]; (apply Bo || apply No)).
  all: destruct e; apply Bo.
Qed.

Lemma bool_value : forall theta v, of_type theta (TSingle BBool) v ->
  exists n ob, as_scalar v = Ok n /\ as_bool n = Ok ob.
Proof.
  intros theta v (n & -> & F). exists n. destruct n as [s|]; simpl; eauto.
  destruct s; simpl in F; try discriminate. eauto.
Qed.

Lemma ifx_safe : forall theta t c a b, of_type theta (TSingle BBool) c -> of_type theta t a -> of_type theta t b ->
  safe (val_ifx c a b) (of_type theta t).
Proof.
  intros theta t c a b C A B. unfold val_ifx. destruct (bool_value _ _ C) as (n & ob & E1 & E2). rewrite E1. simpl. rewrite E2. simpl.
  destruct ob as [[|]|]; auto. apply all_nil_type; auto.
Qed.
Lemma merge_safe : forall theta t c a b, of_type theta (TSingle BBool) c -> of_type theta t a -> of_type theta t b ->
  safe (val_merge c a b) (of_type theta t).
Proof. exact ifx_safe. Qed.
Lemma when_safe : forall theta t p c a, of_type theta (TSingle BBool) c -> of_type theta t a ->
  safe (val_when p c a) (of_type theta t).
Proof.
  intros theta t p c a C A. unfold val_when. destruct (bool_value _ _ C) as (n & ob & E1 & E2). rewrite E1. simpl. rewrite E2. simpl.
  destruct ob as [ob|]; [destruct (Bool.eqb ob p)|]; auto using all_nil_type.
Qed.
Lemma truth_safe : forall theta v, of_type theta (TSingle BBool) v -> safe (val_truth v) (fun _ => True).
Proof.
  intros theta v C. unfold val_truth. destruct (bool_value _ _ C) as (n & ob & E1 & E2). rewrite E1. simpl. rewrite E2. simpl.
  destruct ob as [[|]|]; simpl; auto.
Qed.

(** ** Expressions *)
(** The variables read when an expression is evaluated, with their depths. *)
Fixpoint vars_of (e : expr) : list (ident * nat) :=
  match e with
  | ELit _ | EGlobal _ | EFetch _ _ _ => []
  | EVar x d => [(x, d)]
  | ETuple l => flat_map vars_of l
  | EPre e | EParen e | EUn _ e | ESub _ _ e => vars_of e
  | EBin _ a b | ECmp _ a b | EClock _ a b | ELater _ a b | EFlip _ a b => vars_of a ++ vars_of b
  | EIf a b c | EMerge a b c => vars_of a ++ vars_of b ++ vars_of c
  end.

Section Eval.
  Variable mode : ovf.
  Variable glob : ident -> option scalar.
  Variable clk : nat.
  Variable hists : list (ident * hist).
  Variable call : nat -> inst -> val -> res (val * inst).
  Variable nilout : nat -> res val.
  Variable theta : ident -> sty.
  Variable G : context.
  Variable nf : nat.
  Variable sub_ok : nat -> inst -> Prop.

  Definition globals_ok : Prop := forall x b, x_globals G x = Some b ->
    exists s, glob x = Some s /\ sty_of s = kind_of theta b.
  Definition hists_ok : Prop := forall x h b n, lookup x hists = Some h -> x_vars G x = Some b ->
    In n (hlist h) -> fits (kind_of theta b) n.
  Definition calls_ok : Prop := forall id tin tout, x_blocks G id = Some (tin, tout) ->
    (forall i v, sub_ok id i -> of_type theta tin v ->
       safe (call id i v) (fun '(o, i') => of_type theta tout o /\ sub_ok id i')) /\
    safe (nilout id) (of_type theta tout).
  Hypothesis Hg : globals_ok.
  Hypothesis Hh : hists_ok.
  Hypothesis Hc : calls_ok.

  Definition es_ok (s : estate) : Prop :=
    length (es_flips s) = nf /\
    (forall id tt, x_blocks G id = Some tt -> exists sub, nth_error (es_subs s) id = Some sub) /\
    (forall id sub, nth_error (es_subs s) id = Some sub -> sub_ok id sub).

  Definition store_ok (st : store) : Prop := forall x n b, lookup x st = Some n -> x_vars G x = Some b -> fits (kind_of theta b) n.
  Definition reg_ok (t : ty) (r : register) : Prop := of_type theta t (r_inner r) /\ of_type theta t (r_next r).
  Definition regs_ok (regs : list register) : Prop := forall id t, x_regs G id = Some t ->
    exists r, nth_error regs id = Some r /\ reg_ok t r.

  Definition readable (st : store) (p : ident * nat) : Prop :=
    match snd p with
    | 0 => exists n, lookup (fst p) st = Some n
    | S d => exists h, lookup (fst p) hists = Some h /\ d < length (hlist h)
    end.

  Section Expr.
    Variable regs : list register.
    Variable st : store.
    Hypothesis Hst : store_ok st.
    Hypothesis Hr : regs_ok regs.
    Notation ev := (eval mode glob clk hists call nilout regs st).
    Notation evs := (evals mode glob clk hists call nilout regs st).

    Definition typed_result (t : ty) (r : res (val * estate)) : Prop :=
      safe r (fun '(v, s) => of_type theta t v /\ es_ok s).

    Definition evaluates (e : expr) : Prop := forall t, has_type G e t ->
      Forall (readable st) (vars_of e) -> Forall (fun id => id < nf) (flips_of e) ->
      forall s, es_ok s -> typed_result t (ev e s).

    Lemma eval_types : forall e, evaluates e.
    Proof.
      intros e. induction e using expr_ind'; intros t0 HT R Fl s Es; unfold typed_result;
        cbn [vars_of flips_of] in R, Fl; rewrite ?Forall_app in R; rewrite ?Forall_app in Fl.
      - inversion HT; subst; cbn; (split; [eexists; split; [reflexivity|]; reflexivity|auto]).
      - inversion HT; subst. inversion R as [|? ? R1 _]; subst. unfold readable in R1. destruct d as [|d]; cbn [snd fst] in R1.
        + destruct R1 as (n & L). cbn [eval]. rewrite L. cbn. split; auto. exists n. split; auto. eapply Hst; eauto.
        + destruct R1 as (h & L & Lt). cbn [eval]. rewrite L. cbn [of_option bind]. rewrite ago_hlist.
          destruct (nth_error (hlist h) d) as [n|] eqn:E; [|apply nth_error_None in E; lia].
          cbn. split; auto. exists n. split; auto. eapply Hh; eauto. eapply nth_error_In; eauto.
      - inversion HT; subst. destruct (Hg _ _ H0) as (g & E & K). cbn [eval]. rewrite E. cbn. split; auto. exists (Defined g). auto.
      - inversion HT as [| | | | |l0 ts HTs| | | | | | | | | | | | |]; subst. rewrite eval_tuple. 
        assert (Gs : forall s, es_ok s -> safe (evs l s) (fun '(vs, s) => Forall2 (of_type theta) ts vs /\ es_ok s)).
        { clear HT s Es. revert ts HTs R Fl. induction H as [|e l He _ IH]; intros ts HTs R Fl s Es; inversion HTs; subst.
          - cbn. auto.
          - cbn [flat_map] in R, Fl. rewrite Forall_app in R, Fl. cbn [evals].
            eapply safe_bind; [apply (He _ H1); tauto|]. intros [v s1] [T1 E1].
            eapply safe_bind; [apply (IH _ H3); tauto|]. intros [vs s2] [T2 E2]. apply safe_ok. auto. }
        eapply safe_bind; [apply Gs; auto|]. intros [vs s1] [T1 E1]. apply safe_ok. split; auto. apply of_type_tuple; auto.
      - inversion HT; subst. cbn [eval]. apply IHe; auto.
      - inversion HT; subst. cbn [eval]. apply IHe; auto.
      - inversion HT as [| | | | | | | |? ? ? ? Ha Hb Hop| | | | | | | | | |]; subst. cbn [eval]. destruct R, Fl.
        eapply safe_bind; [apply (IHe1 _ Ha); auto|]. intros [x s1] [T1 E1].
        eapply safe_bind; [apply (IHe2 _ Hb); auto|]. intros [y s2] [T2 E2].
        eapply safe_bind; [apply (bin_safe theta); eauto|]. intros v T. apply safe_ok. auto.
      - inversion HT as [| | | | | | | | |? ? ? Ha Hop| | | | | | | | |]; subst. cbn [eval].
        eapply safe_bind; [apply (IHe _ Ha); auto|]. intros [x s1] [T1 E1].
        eapply safe_bind; [apply (un_safe theta); eauto|]. intros v T. apply safe_ok. auto.
      - inversion HT as [| | | | | | | | | |? ? ? ? Ha Hb Hop| | | | | | | |]; subst. cbn [eval]. destruct R, Fl.
        eapply safe_bind; [apply (IHe1 _ Ha); auto|]. intros [x s1] [T1 E1].
        eapply safe_bind; [apply (IHe2 _ Hb); auto|]. intros [y s2] [T2 E2].
        eapply safe_bind; [apply (cmp_safe theta _ t); eauto|]. intros v T. apply safe_ok. auto.
      - inversion HT as [| | | | | | | | | | |? ? ? ? Ha Hb| | | | | | |]; subst. cbn [eval]. destruct R, Fl.
        eapply safe_bind; [apply (IHe2 _ Hb); auto|]. intros [x s1] [T1 E1].
        eapply safe_bind; [apply (IHe1 _ Ha); auto|]. intros [y s2] [T2 E2].
        eapply safe_bind; [apply (when_safe theta t0); eauto|]. intros v T. apply safe_ok. auto.
      - inversion HT as [| | | | | | | | | | | |? ? ? ? Ha Hb| | | | | |]; subst. cbn [eval]. destruct R, Fl.
        eapply safe_bind; [apply (IHe2 _ Hb); auto|]. intros [x s1] [T1 E1].
        destruct (_ <? _); [apply safe_ok; auto|apply (IHe1 _ Ha); auto].
      - assert (K : exists t', x_regs G id = Some t' /\ t' = t0) by (inversion HT; subst; eauto).
        destruct K as (t' & K & ->). destruct (Hr _ _ K) as (r & E & I1 & I2). cbn [eval]. rewrite E. cbn. split; auto.
        unfold reg_get. destruct (r_on_clock r); auto using all_nil_type.
      - inversion HT as [| | | | | | | | | | | | |? ? ? ? Ha Hb| | | | |]; subst. cbn [eval]. destruct R.
        inversion Fl as [|? ? Lt Fl2]; subst. apply Forall_app in Fl2. destruct Fl2.
        eapply safe_bind; [apply (IHe1 _ Ha); auto|]. intros [x s1] [T1 E1].
        eapply safe_bind; [apply (IHe2 _ Hb); auto|]. intros [y s2] [T2 E2].
        destruct E2 as (E2 & E3 & E4).
        destruct (nth_error (es_flips s2) id) as [f|] eqn:Ef; [|apply nth_error_None in Ef; lia].
        cbn [of_option bind]. unfold flip_instant.
        assert (Es' : forall f', es_ok (mkEs (set_nth id f' (es_flips s2)) (es_subs s2))).
        { intros f'. split; [cbn; rewrite set_nth_length; auto|split; auto]. }
        destruct (first_is_nil x); [apply safe_ok; split; auto; apply all_nil_type; auto|].
        unfold tas. apply safe_ok. split; auto. destruct f; auto.
      - inversion HT as [| | | | | | | | | | | | | |? ? ? ? Hcd Ha Hb| | | |]; subst. cbn [eval]. destruct R as (R1 & R2 & R3), Fl as (F1 & F2 & F3).
        eapply safe_bind; [apply (IHe2 _ Ha); auto|]. intros [x s1] [T1 E1].
        eapply safe_bind; [apply (IHe3 _ Hb); auto|]. intros [y s2] [T2 E2].
        eapply safe_bind; [apply (IHe1 _ Hcd); auto|]. intros [z s3] [T3 E3].
        eapply safe_bind; [apply (ifx_safe theta t0); eauto|]. intros v T. apply safe_ok. auto.
      - inversion HT as [| | | | | | | | | | | | | | |? ? ? ? Hcd Ha Hb| | |]; subst. cbn [eval]. destruct R as (R1 & R2 & R3), Fl as (F1 & F2 & F3).
        eapply safe_bind; [apply (IHe1 _ Hcd); auto|]. intros [z0 s0] [T0 E0].
        eapply safe_bind; [apply (IHe2 _ Ha); auto|]. intros [x s1] [T1 E1].
        eapply safe_bind; [apply (IHe3 _ Hb); auto|]. intros [y s2] [T2 E2].
        eapply safe_bind; [apply (IHe1 _ Hcd); auto|]. intros [z s3] [T3 E3].
        eapply safe_bind; [apply (merge_safe theta t0); eauto|]. intros v T. apply safe_ok. auto.
      - inversion HT as [| | | | | | | | | | | | | | | | | |? ? ? tin ? Hb Ha]; subst. cbn [eval]. destruct (Hc _ _ _ Hb) as [C1 C2].
        destruct (d <=? clk).
        + eapply safe_bind; [apply (IHe _ Ha); auto|]. intros [x s1] [T1 (E1 & E2 & E3)].
          destruct (E2 _ _ Hb) as (sub & Esub). rewrite Esub. cbn [of_option bind].
          eapply safe_bind; [apply C1; eauto|]. intros [v sub'] [T2 S2]. apply safe_ok. split; auto.
          split; [auto|]. cbn [es_subs]. split.
          * intros id' tt' B. destruct (E2 _ _ B) as (sb & Esb). destruct (Nat.eq_dec id id') as [<-|N].
            -- exists sub'. apply nth_error_set_nth_eq. eapply nth_error_some_lt; eauto.
            -- exists sb. rewrite nth_error_set_nth_neq; auto.
          * intros id' sb Esb. destruct (Nat.eq_dec id id') as [<-|N].
            -- rewrite nth_error_set_nth_eq in Esb by (eapply nth_error_some_lt; eauto). inversion Esb; subst. auto.
            -- rewrite nth_error_set_nth_neq in Esb by auto. eauto.
        + eapply safe_bind; [apply C2|]. intros v T. apply safe_ok. auto.
    Qed.
  End Expr.
End Eval.
