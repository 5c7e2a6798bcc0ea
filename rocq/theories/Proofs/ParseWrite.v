(** * Every tree can be written, with parentheses where needed. *)
From Coq Require Import String Ascii List ZArith Bool Arith Lia.
From Verif Require Import Model.Base Model.Scalar Model.Ast Model.Options Model.Surface Model.Parse.
From Verif Require Import Spec.GrammarSpec Proofs.OutBasics Proofs.ParseFacts Proofs.ParseExpr Proofs.ParseLists Proofs.ParseSound Proofs.ParseComplete.
Import ListNotations.
Local Open Scope string_scope.
Local Open Scope list_scope.

Definition wrap (e : sexpr) : sexpr := XParen [e] false.
Fixpoint paren (e : sexpr) : sexpr :=
  match e with
  | XLit _ | XVar _ => e
  | XParen l t => XParen (map paren l) t
  | XCall f l t => XCall f (map paren l) t
  | XNeg e => XNeg (wrap (paren e))
  | XNot e => XNot (wrap (paren e))
  | XPre e => XPre (wrap (paren e))
  | XIf c y n => XIf (paren c) (paren y) (paren n)
  | XMerge c a b => XMerge (wrap (paren c)) (wrap (paren a)) (wrap (paren b))
  | XBin e l => XBin (wrap (paren e)) (map (fun p => (fst p, wrap (paren (snd p)))) l)
  | XCmp e l => XCmp (wrap (paren e)) (map (fun p => (fst p, wrap (paren (snd p)))) l)
  | XClock e l => XClock (wrap (paren e)) (map (fun p => (fst p, wrap (paren (snd p)))) l)
  | XThen e l => XThen (wrap (paren e)) (map (fun e => wrap (paren e)) l)
  | XFby e l => XFby (wrap (paren e)) (map (fun e => wrap (paren e)) l)
  end.

Lemma map_forall : forall A B (f g : A -> B) l, Forall (fun a => f a = g a) l -> map f l = map g l.
Proof. induction 1; cbn; congruence. Qed.
Lemma bare_paren : forall e, bare (paren e) = bare e.
Proof.
  intros e. induction e using sexpr_ind'; cbn [paren]; try reflexivity; try (cbn [bare wrap]; congruence).
  - destruct l as [|a [|a' l]]; [reflexivity| |].
    + inversion H; subst. cbn [map]. destruct b; cbn; congruence.
    + change (bare (XParen (map paren (a :: a' :: l)) b)) with (XParen (map bare (map paren (a :: a' :: l))) b).
      change (bare (XParen (a :: a' :: l) b)) with (XParen (map bare (a :: a' :: l)) b). rewrite map_map. f_equal. now apply map_forall.
  - cbn [bare]. rewrite map_map. f_equal. now apply map_forall.
  - cbn [bare]. unfold wrap at 1. cbn [bare]. rewrite IHe, map_map. f_equal. apply map_forall. eapply Forall_impl; [|exact H]. intros p Q. cbn in *. now rewrite Q.
  - cbn [bare]. unfold wrap at 1. cbn [bare]. rewrite IHe, map_map. f_equal. apply map_forall. eapply Forall_impl; [|exact H]. intros p Q. cbn in *. now rewrite Q.
  - cbn [bare]. unfold wrap at 1. cbn [bare]. rewrite IHe, map_map. f_equal. apply map_forall. eapply Forall_impl; [|exact H]. intros p Q. cbn in *. now rewrite Q.
  - cbn [bare]. unfold wrap at 1. cbn [bare]. rewrite IHe, map_map. f_equal. apply map_forall. eapply Forall_impl; [|exact H]. intros p Q. cbn in *. now rewrite Q.
  - cbn [bare]. unfold wrap at 1. cbn [bare]. rewrite IHe, map_map. f_equal. apply map_forall. eapply Forall_impl; [|exact H]. intros p Q. cbn in *. now rewrite Q.
Qed.

Lemma wrap_operands : forall k e l, 1 <= k -> l <> [] -> operands k (wrap e) (map wrap l).
Proof.
  intros k e l K N. split; [|split].
  - intros Q. apply map_eq_nil in Q. contradiction.
  - intros a [<-|I]; [cbn; lia|]. apply in_map_iff in I. destruct I as (b & <- & _). cbn. lia.
  - intros a I. assert (In a (wrap e :: map wrap l)) as J.
    { clear - I. revert I. generalize (wrap e :: map wrap l). intros m. induction m as [|x m IH]; cbn; auto. destruct m; cbn in *; [tauto|]. tauto. }
    destruct J as [<-|J]; [reflexivity|]. apply in_map_iff in J. destruct J as (b & <- & _). reflexivity.
Qed.
Lemma fold_writable : forall l, fold_right (fun e P => writable e /\ P) True l <-> Forall writable l.
Proof. induction l; cbn; split; intros H; auto; [constructor; tauto|]. inversion H; subst. tauto. Qed.
Lemma fold_writable_snd : forall O (l : list (O * sexpr)), fold_right (fun p P => writable (snd p) /\ P) True l <-> Forall (fun p => writable (snd p)) l.
Proof. induction l; cbn; split; intros H; auto; [constructor; tauto|]. inversion H; subst. tauto. Qed.
Lemma tidy_wrap : forall e, tidy e -> tidy (wrap e).
Proof. intros e T. cbn. repeat split; auto. discriminate. Qed.
Lemma forall_tidy : forall l, Forall (fun e => writable e -> tidy (paren e)) l -> Forall writable l -> Forall tidy (map paren l).
Proof. induction 1; intros W; inversion W; subst; cbn; constructor; auto. Qed.
Lemma forall_tidy_wrap : forall l, Forall (fun e => writable e -> tidy (paren e)) l -> Forall writable l -> Forall tidy (map (fun e => wrap (paren e)) l).
Proof. induction 1; intros W; inversion W; subst; cbn [map]; constructor; auto using tidy_wrap. Qed.
Lemma forall_tidy_snd : forall O (l : list (O * sexpr)), Forall (fun p => writable (snd p) -> tidy (paren (snd p))) l -> Forall (fun p => writable (snd p)) l ->
  Forall tidy (map snd (map (fun p => (fst p, wrap (paren (snd p)))) l)).
Proof. induction 1; intros W; inversion W; subst; cbn [map]; constructor; auto. apply tidy_wrap. auto. Qed.
Lemma wrap_map : forall l, map (fun e => wrap (paren e)) l = map wrap (map paren l).
Proof. intros l. now rewrite map_map. Qed.
Lemma wrap_map_snd : forall O (l : list (O * sexpr)), map snd (map (fun p => (fst p, wrap (paren (snd p)))) l) = map wrap (map (fun p => paren (snd p)) l).
Proof. intros O l. now rewrite !map_map. Qed.

Lemma tidy_paren : forall e, writable e -> tidy (paren e).
Proof.
  intros e. induction e using sexpr_ind'; intros W; cbn [paren]; cbn [writable] in W; auto.
  - exact I.
  - destruct W as (B & W). apply fold_writable in W. split; [|apply fold_tidy; now apply forall_tidy].
    intros Q M. apply map_eq_nil in M. now apply B in Q.
  - destruct W as (N & B & W). apply fold_writable in W. split; auto. split; [|apply fold_tidy; now apply forall_tidy].
    intros Q M. apply map_eq_nil in M. now apply B in Q.
  - split; auto using tidy_wrap.
  - split; auto using tidy_wrap.
  - split; auto using tidy_wrap.
  - destruct W as (W1 & W2 & W3). split; [|split]; auto.
  - destruct W as (W1 & W2 & W3). split; [|split]; (split; [exact I|auto using tidy_wrap]).
  - destruct W as ((N & k & K & KO) & W1 & W2). apply fold_writable_snd in W2.
    assert (level (XBin (wrap (paren e)) (map (fun p => (fst p, wrap (paren (snd p)))) l)) = k) as L.
    { destruct l as [|(o, b) l]; [congruence|]. apply (KO (o, b)). now left. }
    cbn [tidy]. rewrite L. split; auto. split.
    { intros p I. apply in_map_iff in I. destruct I as (q & <- & I). cbn. auto. }
    split.
    { rewrite wrap_map_snd. apply wrap_operands.
      - destruct l as [|(o, b) l]; [congruence|]. rewrite <- (KO (o, b)) by now left. destruct o; cbn; lia.
      - intros Q. apply map_eq_nil in Q. contradiction. }
    split; auto using tidy_wrap. apply fold_tidy_snd. now apply forall_tidy_snd.
  - destruct W as (N & W1 & W2). apply fold_writable_snd in W2. cbn [tidy]. split; [|split; auto using tidy_wrap].
    + rewrite wrap_map_snd. apply wrap_operands; [lia|]. intros Q. apply map_eq_nil in Q. contradiction.
    + apply fold_tidy_snd. now apply forall_tidy_snd.
  - destruct W as (N & W1 & W2). apply fold_writable_snd in W2. cbn [tidy]. split; [|split; auto using tidy_wrap].
    + rewrite wrap_map_snd. apply wrap_operands; [lia|]. intros Q. apply map_eq_nil in Q. contradiction.
    + apply fold_tidy_snd. now apply forall_tidy_snd.
  - destruct W as (N & W1 & W2). apply fold_writable in W2. cbn [tidy]. split; [|split; auto using tidy_wrap].
    + rewrite wrap_map. apply wrap_operands; [lia|]. intros Q. apply map_eq_nil in Q. contradiction.
    + apply fold_tidy. now apply forall_tidy_wrap.
  - destruct W as (N & W1 & W2). apply fold_writable in W2. cbn [tidy]. split; [|split; auto using tidy_wrap].
    + rewrite wrap_map. apply wrap_operands; [lia|]. intros Q. apply map_eq_nil in Q. contradiction.
    + apply fold_tidy. now apply forall_tidy_wrap.
Qed.

Definition spellable (w : list word) : Prop := exists u, spells w u.
Lemma spellable_app : forall v w, spellable v -> spellable w -> spellable (v ++ w).
Proof. intros v w (u & H) (u' & K). exists (u ++ u'). now apply spells_app. Qed.
Lemma spellable_cons : forall a w, spellable [a] -> spellable w -> spellable (a :: w).
Proof. intros a w H K. now apply (spellable_app [a]). Qed.
Lemma spellable_nil : spellable [].
Proof. exists []. constructor. Qed.
Lemma spellable_ident : forall x, spellable [WIdent x].
Proof. intros x. exists [TIdent x]. repeat constructor. Qed.
Lemma spellable_sym : forall s, s <> "" -> spellable [WSym s].
Proof.
  intros s N. assert (exists v, symbol s v) as (v & H).
  { induction s as [|c s IH]; [congruence|]. destruct s as [|c' s]; [exists [TPunct c true]; constructor|].
    destruct IH as (v & H); [discriminate|]. exists (TPunct c true :: v). constructor; auto. discriminate. }
  exists (v ++ []). constructor; auto. constructor.
Qed.
Lemma spellable_group : forall d w, spellable w -> spellable [WGroup d w].
Proof. intros d w (u & H). exists [TGroup d u]. constructor; auto. constructor. Qed.
Lemma spellable_comma : forall l t, Forall spellable l -> spellable (comma_list l t).
Proof.
  intros l t H. unfold comma_list. apply spellable_app; [|destruct t; [now apply spellable_sym|apply spellable_nil]].
  induction H as [|w l H F IH]; [apply spellable_nil|]. destruct l; auto. rewrite joined_cons by discriminate. apply spellable_app; auto.
  apply spellable_cons; auto. now apply spellable_sym.
Qed.
Lemma spellable_wrap : forall e, spellable (words e) -> spellable (words (wrap e)).
Proof. intros e H. apply spellable_group, spellable_comma. repeat constructor. exact H. Qed.
Lemma spellable_chain : forall A (f : A -> list word) l, Forall (fun a => spellable (f a)) l -> spellable (flat_map f l).
Proof. induction 1; cbn; auto using spellable_nil, spellable_app. Qed.
Lemma binop_spellable : forall o, spellable [binop_word o].
Proof. destruct o; try apply spellable_ident; now apply spellable_sym. Qed.
Lemma cmpop_spellable : forall o, spellable [cmpop_word o].
Proof. destruct o; now apply spellable_sym. Qed.

Lemma map_words : forall l, Forall (fun e => writable e -> spellable (words (paren e))) l -> Forall writable l -> Forall spellable (map words (map paren l)).
Proof. induction 1; intros W; inversion W; subst; cbn; constructor; auto. Qed.

Lemma paren_spellable : forall e, writable e -> spellable (words (paren e)).
Proof.
  intros e. induction e using sexpr_ind'; intros W; cbn [paren]; cbn [writable] in W.
  - destruct l as [z|f|b|]; cbn.
    + exists [TLit (KInt (Z.to_N z))]. rewrite <- (app_nil_r [TLit _]). constructor; [|constructor].
      rewrite <- (Z2N.id z) at 1 by auto. constructor.
    + exists [TLit (KFloat f)]. rewrite <- (app_nil_r [TLit _]). constructor; constructor.
    + exists [TIdent (if b then "true" else "false")]. rewrite <- (app_nil_r [TIdent _]). constructor; [|constructor]. destruct b; constructor.
    + exists [TLit KOther]. rewrite <- (app_nil_r [TLit _]). constructor; constructor.
  - apply spellable_ident.
  - destruct W as (B & W). apply fold_writable in W. apply spellable_group, spellable_comma. now apply map_words.
  - destruct W as (N & B & W). apply fold_writable in W. apply spellable_cons; [apply spellable_ident|]. apply spellable_group, spellable_comma. now apply map_words.
  - apply spellable_cons; [now apply spellable_sym|]. apply spellable_wrap. auto.
  - apply spellable_cons; [now apply spellable_ident|]. apply spellable_wrap. auto.
  - apply spellable_cons; [now apply spellable_ident|]. apply spellable_wrap. auto.
  - destruct W as (W1 & W2 & W3). cbn [words]. apply spellable_cons; [apply spellable_ident|]. apply spellable_app; auto.
    apply spellable_cons; [apply spellable_ident|]. apply spellable_app; auto. apply spellable_cons; [apply spellable_ident|]. auto.
  - destruct W as (W1 & W2 & W3). rewrite words_merge. apply spellable_cons; [apply spellable_ident|].
    apply spellable_app; [|apply spellable_app]; apply spellable_wrap; auto.
  - destruct W as (_ & W1 & W2). apply fold_writable_snd in W2. cbn [words]. apply spellable_app; [apply spellable_wrap; auto|].
    apply spellable_chain, Forall_map. rewrite Forall_forall in *. intros p I. cbn [fst snd]. apply spellable_cons; [apply binop_spellable|]. apply spellable_wrap. auto.
  - destruct W as (_ & W1 & W2). apply fold_writable_snd in W2. cbn [words]. apply spellable_app; [apply spellable_wrap; auto|].
    apply spellable_chain, Forall_map. rewrite Forall_forall in *. intros p I. cbn [fst snd]. apply spellable_cons; [apply cmpop_spellable|]. apply spellable_wrap. auto.
  - destruct W as (_ & W1 & W2). apply fold_writable_snd in W2. cbn [words]. apply spellable_app; [apply spellable_wrap; auto|].
    apply spellable_chain, Forall_map. rewrite Forall_forall in *. intros p I. cbn [fst snd]. apply spellable_cons; [apply spellable_ident|]. apply spellable_wrap. auto.
  - destruct W as (_ & W1 & W2). apply fold_writable in W2. cbn [words]. apply spellable_app; [apply spellable_wrap; auto|].
    apply spellable_chain, Forall_map. rewrite Forall_forall in *. intros p I. apply spellable_cons; [apply spellable_ident|]. apply spellable_wrap. auto.
  - destruct W as (_ & W1 & W2). apply fold_writable in W2. cbn [words]. apply spellable_app; [apply spellable_wrap; auto|].
    apply spellable_chain, Forall_map. rewrite Forall_forall in *. intros p I. apply spellable_cons; [now apply spellable_sym|]. apply spellable_wrap. auto.
Qed.

Theorem expr_accepts : forall ts n e, weights ts < n -> (p_expr (positive n) ts = Parsed e [] <-> tidy e /\ spells (words e) ts).
Proof.
  intros ts n e L. split.
  - intros E. apply p_expr_sound in E. destruct E as (u & E & W & T). rewrite app_nil_r in E. subst. auto.
  - intros (T & W). rewrite <- (app_nil_r ts). apply p_expr_complete; auto using follows_nil.
Qed.
Theorem expr_writable : forall e, writable e -> exists ts e', p_expr (positive (S (weights ts))) ts = Parsed e' [] /\ bare e' = bare e.
Proof.
  intros e W. destruct (paren_spellable e W) as (ts & S). exists ts, (paren e). split; [|apply bare_paren].
  apply expr_accepts; auto using tidy_paren.
Qed.

(** ** Spaces *)
Lemma respaced_sym : forall l l', respaced l l' -> respaced l' l.
Proof.
  intros l l' H. induction H; constructor; auto. intros B. symmetry. apply H. destruct H0; cbn in *; auto.
Qed.
Lemma symbol_respaced : forall s v, symbol s v -> forall u z, respaced (v ++ u) z -> exists v' u', z = v' ++ u' /\ symbol s v' /\ respaced u u'.
Proof.
  intros s v H. induction H as [c j|c s v N H IH]; intros u z R; cbn [app] in R; inversion R; subst.
  - exists [TPunct c j'], l'. repeat split; auto. constructor.
  - match goal with K : respaced (v ++ u) _ |- _ => apply IH in K; destruct K as (v' & u' & -> & S & R') end. exists (TPunct c true :: v'), u'.
    assert (true = j') as <-. { match goal with K : begins_punct _ -> _ |- _ => apply K end. destruct H; exact I. }
    repeat split; auto. constructor; auto.
Qed.
Lemma one_respaced : forall t u z, respaced ([t] ++ u) z -> match t with TIdent _ | TLit _ => True | _ => False end ->
  exists u', z = [t] ++ u' /\ respaced u u'.
Proof. intros t u z R T. cbn in R. inversion R; subst; try contradiction; (eexists; split; [reflexivity|assumption]). Qed.
Lemma unsigned_respaced : forall l v, unsigned l v -> forall u z, respaced (v ++ u) z -> exists v' u', z = v' ++ u' /\ unsigned l v' /\ respaced u u'.
Proof. intros l v H u z R. destruct H; apply one_respaced in R; try exact I; destruct R as (u' & -> & R); eexists _, u'; repeat split; auto; constructor. Qed.
Lemma signed_respaced : forall l v, signed l v -> forall u z, respaced (v ++ u) z -> exists v' u', z = v' ++ u' /\ signed l v' /\ respaced u u'.
Proof.
  intros l v H u z R. destruct H as [l v H|n j|f j].
  - eapply unsigned_respaced in R; eauto. destruct R as (v' & u' & -> & U & R). exists v', u'. repeat split; auto. now constructor.
  - cbn in R. inversion R; subst. match goal with K : respaced (TLit _ :: u) _ |- _ => inversion K; subst end. exists [TPunct "-"%char j'; TLit (KInt n)]. eexists; split; [reflexivity|split; [apply si_int|assumption]].
  - cbn in R. inversion R; subst. match goal with K : respaced (TLit _ :: u) _ |- _ => inversion K; subst end. exists [TPunct "-"%char j'; TLit (KFloat f)]. eexists; split; [reflexivity|split; [apply si_float|assumption]].
Qed.
Lemma argument_respaced : forall l v, argument l v -> forall u z, respaced (v ++ u) z -> exists v' u', z = v' ++ u' /\ argument l v' /\ respaced u u'.
Proof.
  intros l v H u z R. destruct H as [s|x v H|f v H|b v H|].
  - apply one_respaced in R; try exact I. destruct R as (u' & -> & R). eexists _, u'. repeat split; auto. constructor.
  - eapply signed_respaced in R; eauto. destruct R as (v' & u' & -> & U & R). exists v', u'. repeat split; auto. now constructor.
  - eapply signed_respaced in R; eauto. destruct R as (v' & u' & -> & U & R). exists v', u'. repeat split; auto. now apply (ar_float f).
  - eapply unsigned_respaced in R; eauto. destruct R as (v' & u' & -> & U & R). exists v', u'. repeat split; auto. now apply (ar_bool b).
  - apply one_respaced in R; try exact I. destruct R as (u' & -> & R). eexists _, u'. repeat split; auto. constructor.
Qed.
Lemma spells_respaced : forall w u, spells w u -> forall z, respaced u z -> spells w z.
Proof.
  intros w u H. induction H; intros z R.
  - inversion R; subst. constructor.
  - inversion R; subst. constructor. auto.
  - eapply symbol_respaced in R; eauto. destruct R as (v' & u' & -> & S & R). constructor; auto.
  - eapply unsigned_respaced in R; eauto. destruct R as (v' & u' & -> & S & R). constructor; auto.
  - eapply signed_respaced in R; eauto. destruct R as (v' & u' & -> & S & R). constructor; auto.
  - eapply argument_respaced in R; eauto. destruct R as (v' & u' & -> & S & R). constructor; auto.
  - inversion R; subst. constructor; auto.
  - apply sp_opt_yes. auto.
  - apply sp_opt_no. auto.
  - apply sp_clock_no. auto.
  - inversion R; subst. match goal with K : respaced (TIdent x :: u) _ |- _ => inversion K; subst end. apply sp_clock_yes; auto.
Qed.

(** ** Programs *)
Theorem prog_accepts : forall ts p, p_prog ts = Parsed p [] <-> tidy_prog p /\ spells (prog_words p) ts.
Proof.
  intros ts p. split.
  - intros E. apply prog_sound in E. tauto.
  - intros (T & W). now apply prog_complete.
Qed.
Theorem prog_unambiguous : forall ts p q, tidy_prog p -> tidy_prog q -> spells (prog_words p) ts -> spells (prog_words q) ts -> p = q.
Proof. intros ts p q Tp Tq Wp Wq. apply prog_complete in Wp; auto. apply prog_complete in Wq; auto. congruence. Qed.
Theorem prog_respaced : forall ts us p, respaced ts us -> (p_prog ts = Parsed p [] <-> p_prog us = Parsed p []).
Proof.
  intros ts us p R. rewrite !prog_accepts. split; intros (T & W); split; auto; eapply spells_respaced; eauto. now apply respaced_sym.
Qed.
