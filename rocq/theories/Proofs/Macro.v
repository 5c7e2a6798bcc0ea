(** * From the tokens to the outcome of the macro. *)
From Coq Require Import String Ascii List ZArith Bool Arith Lia.
From Coq Require Import Floats.SpecFloat.
From Verif Require Spec.ClockSpec.
From Verif Require Import Model.Base Model.Scalar Model.Ast Model.Errors Model.Options Model.Surface Model.Parse Model.Translate Model.Pipeline Model.Names Model.Codegen Model.Macro
  Spec.RangeSpec Spec.CrashSpec Spec.CodegenSpec Spec.GrammarSpec Spec.TokenSpec Spec.Static
  Proofs.OutBasics Proofs.AstInd Proofs.ParseWrite Proofs.StaticProgram Proofs.Codegen.
Import ListNotations.
Local Open Scope string_scope.
Local Open Scope list_scope.

(** ** The number of the invocation *)
Lemma all_chars_num : forall f n m s, all_chars f (decimal n) = true -> all_chars f (decimal m) = true ->
  forall x, all_chars f (x ++ "__lus_" ++ decimal n ++ s)%string = all_chars f (x ++ "__lus_" ++ decimal m ++ s)%string.
Proof. intros f n m s A B x. rewrite !all_chars_app, A, B. reflexivity. Qed.
Lemma ident_num : forall n m s x, is_ident (x ++ "__lus_" ++ decimal n ++ s)%string = is_ident (x ++ "__lus_" ++ decimal m ++ s)%string.
Proof.
  intros n m s [|c x].
  - change (is_ident (String "_" ("_lus_" ++ decimal n ++ s)) = is_ident (String "_" ("_lus_" ++ decimal m ++ s))). cbn [is_ident].
    rewrite !all_chars_app, !decimal_chars. reflexivity.
  - change (is_ident (String c (x ++ "__lus_" ++ decimal n ++ s)) = is_ident (String c (x ++ "__lus_" ++ decimal m ++ s))). cbn [is_ident].
    f_equal. apply all_chars_num; apply decimal_chars.
Qed.
Lemma node_num : forall n m x, creatable (Plain (node_id n x)) = creatable (Plain (node_id m x)).
Proof. intros. apply ident_num. Qed.
Lemma global_num : forall n m x, creatable (Plain (global_id n x)) = creatable (Plain (global_id m x)).
Proof. intros. apply ident_num. Qed.

Lemma forallb_flat : forall {A B} (f : B -> bool) (g h : A -> list B) l, (forall a, In a l -> forallb f (g a) = forallb f (h a)) ->
  forallb f (flat_map g l) = forallb f (flat_map h l).
Proof.
  intros A B f g h l. induction l as [|a l IH]; intros H; cbn; auto. rewrite !forallb_app. rewrite H by (left; auto). rewrite IH; auto. intros b J. apply H. right. auto.
Qed.
Lemma expr_num : forall n m e, forallb creatable (expr_requests n e) = forallb creatable (expr_requests m e).
Proof.
  intros n m. induction e using expr_ind'; cbn [expr_requests]; auto; rewrite ?forallb_app; try congruence.
  - cbn [forallb]. rewrite (global_num n m). auto.
  - apply forallb_flat. rewrite Forall_forall in H. auto.
Qed.
Lemma option_num : forall n m o, forallb creatable (option_requests n o) = forallb creatable (option_requests m o).
Proof. intros n m [e|]; cbn; auto. apply expr_num. Qed.
Lemma stmt_num : forall n m i, forallb creatable (stmt_requests n i) = forallb creatable (stmt_requests m i).
Proof.
  intros n m [t e|e|id v c|id e]; cbn [stmt_requests]; rewrite ?forallb_app, ?(option_num n m v), ?(option_num n m c); try (rewrite (expr_num n m e)); auto.
Qed.
Lemma requests_num : forall n m d, forallb creatable (requests n d) = forallb creatable (requests m d).
Proof.
  intros n m [o x t e|o nd|o x t|o x i o']; cbn [requests]; rewrite !forallb_app.
  - cbn [forallb]. rewrite (global_num n m), (expr_num n m). auto.
  - cbn [forallb]. rewrite (node_num n m). rewrite (forallb_flat creatable (stmt_requests n) (stmt_requests m)) by (intros; apply stmt_num).
    replace (forallb creatable (map (fun f => Plain (node_id n f)) (n_blocks nd))) with (forallb creatable (map (fun f => Plain (node_id m f)) (n_blocks nd))); auto.
    induction (n_blocks nd) as [|f l IH]; cbn [map forallb]; auto. rewrite IH, (node_num n m). auto.
  - cbn [forallb]. rewrite (global_num n m). auto.
  - cbn [forallb]. rewrite (node_num n m). auto.
Qed.

Lemma expand_num : forall n m p, expand n p = expand m p.
Proof.
  intros n m p. unfold expand. match goal with |- (if ?b then _ else _) = _ => destruct b; auto end. destruct (compile p) as [[l|] ws|]; auto.
  replace (forallb (fun d => forallb creatable (requests n d) && renders d) l) with (forallb (fun d => forallb creatable (requests m d) && renders d) l); auto.
  induction l as [|d l IH]; cbn [forallb]; auto. rewrite IH, (requests_num n m). auto.
Qed.
Theorem macro_num : forall n m ts, macro n ts = macro m ts.
Proof. intros n m ts. unfold macro. destruct (p_prog ts) as [p [|t r]| |]; auto. rewrite (expand_num n m). auto. Qed.
Theorem macros_map : forall l n, macros n l = map (macro 0) l.
Proof. induction l as [|ts l IH]; intros n; cbn [macros map]; auto. rewrite IH, (macro_num n 0). auto. Qed.

(** ** Words and tokens *)
Inductive within (k : word) : list word -> Prop :=
| wi_here : forall w, within k (k :: w)
| wi_group : forall d g w, within k g -> within k (WGroup d g :: w)
| wi_later : forall k' w, within k w -> within k (k' :: w).
Lemma within_left : forall k a b, within k a -> within k (a ++ b).
Proof. induction 1; cbn; [apply wi_here|apply wi_group; auto|apply wi_later; auto]. Qed.
Lemma within_right : forall k a b, within k b -> within k (a ++ b).
Proof. intros k a b H. induction a; cbn; auto. apply wi_later. auto. Qed.
Lemma within_in : forall k w, In k w -> within k w.
Proof. induction w as [|k' w IH]; intros J; destruct J; [subst; apply wi_here|apply wi_later; auto]. Qed.
Lemma within_joined : forall k sep l w, In w l -> within k w -> within k (joined sep l).
Proof.
  intros k sep l w. induction l as [|w' l IH]; intros J H; cbn [joined]; [destruct J|]. destruct J as [<-|J].
  - destruct l; auto. apply within_left. auto.
  - destruct l as [|w'' l]; [destruct J|]. apply within_right, wi_later, IH; auto.
Qed.
Lemma within_comma : forall k l t w, In w l -> within k w -> within k (comma_list l t).
Proof. intros. apply within_left. eapply within_joined; eauto. Qed.
Lemma within_loose : forall k sep l w, In w l -> within k w -> within k (loose_list sep l).
Proof. intros k sep [|w' l] w J H; [destruct J|]. apply within_left. eapply within_joined; eauto. Qed.
Lemma within_flat : forall {A} k (f : A -> list word) l a, In a l -> within k (f a) -> within k (flat_map f l).
Proof. intros A k f l a. induction l as [|b l IH]; intros J H; cbn; [destruct J|]. destruct J as [<-|J]; [apply within_left|apply within_right]; auto. Qed.

(** The tokens of a word. *)
Inductive said : word -> list tok -> Prop :=
| said_ident : forall x, said (WIdent x) [TIdent x]
| said_lit : forall l v, unsigned l v -> said (WLit l) v
| said_signed : forall l v, signed l v -> said (WSigned l) v
| said_arg : forall l v, argument l v -> said (WArg l) v.
Definition solid (k : word) : bool := match k with WIdent _ | WLit _ | WSigned _ | WArg _ => true | _ => false end.

Lemma atoms_app : forall a b : list tok, flat_map atoms (a ++ b) = flat_map atoms a ++ flat_map atoms b.
Proof. intros. apply flat_map_app. Qed.
Lemma spells_within : forall w u, spells w u -> forall k, solid k = true -> within k w ->
  exists v, said k v /\ incl (flat_map atoms v) (flat_map atoms u).
Proof.
  assert (L : forall v u : list tok, incl (flat_map atoms v) (flat_map atoms (v ++ u))) by (intros v u; rewrite atoms_app; apply incl_appl, incl_refl).
  assert (R : forall v u w : list tok, incl (flat_map atoms w) (flat_map atoms u) -> incl (flat_map atoms w) (flat_map atoms (v ++ u))) by (intros v u w H; rewrite atoms_app; apply incl_appr; auto).
  induction 1; intros k' So H'.
  all: try (inversion H'; subst; try discriminate; fail).
  - inversion H'; subst; [|destruct (IHspells k' So H1) as (v & A & B); exists v; split; auto; apply (R [TIdent x]); auto].
    exists [TIdent x]. split; [constructor|]. apply (L [TIdent x] u).
  - inversion H'; subst; [discriminate|]. destruct (IHspells k' So H2) as (v' & A & B). exists v'. auto.
  - inversion H'; subst; [exists v; split; [constructor; auto|apply L]|]. destruct (IHspells k' So H2) as (v' & A & B). exists v'. auto.
  - inversion H'; subst; [exists v; split; [constructor; auto|apply L]|]. destruct (IHspells k' So H2) as (v' & A & B). exists v'. auto.
  - inversion H'; subst; [exists v; split; [constructor; auto|apply L]|]. destruct (IHspells k' So H2) as (v' & A & B). exists v'. auto.
  - inversion H'; subst; [discriminate| |].
    + destruct (IHspells1 k' So H2) as (v' & A & B). exists v'. split; auto. cbn [flat_map atoms]. apply incl_appl. auto.
    + destruct (IHspells2 k' So H2) as (v' & A & B). exists v'. split; auto. apply (R [TGroup d v]). auto.
  - inversion H'; subst; [discriminate|]. apply IHspells; auto. apply within_right. auto.
  - inversion H'; subst; [discriminate|]. apply IHspells; auto.
  - inversion H'; subst; [discriminate|]. apply IHspells; auto.
  - inversion H'; subst; [discriminate|]. destruct (IHspells k' So H3) as (v' & A & B). exists v'. split; auto. apply (R [TIdent k; TIdent x]). auto.
Qed.

(** ** The names and literals of a program are written in it *)
Definition has (P : word -> Prop) (w : list word) : Prop := exists k, P k /\ within k w.
Section Has.
  Variable P : word -> Prop.
  Lemma has_left : forall a b, has P a -> has P (a ++ b).
  Proof. intros a b (k & A & B). exists k. split; auto. apply within_left. auto. Qed.
  Lemma has_right : forall a b, has P b -> has P (a ++ b).
  Proof. intros a b (k & A & B). exists k. split; auto. apply within_right. auto. Qed.
  Lemma has_later : forall k w, has P w -> has P (k :: w).
  Proof. intros k' w (k & A & B). exists k. split; auto. apply wi_later. auto. Qed.
  Lemma has_here : forall k w, P k -> has P (k :: w).
  Proof. intros k w H. exists k. split; auto. apply wi_here. Qed.
  Lemma has_group : forall d g w, has P g -> has P (WGroup d g :: w).
  Proof. intros d g w (k & A & B). exists k. split; auto. apply wi_group. auto. Qed.
  Lemma has_comma : forall l t w, In w l -> has P w -> has P (comma_list l t).
  Proof. intros l t w J (k & A & B). exists k. split; auto. eapply within_comma; eauto. Qed.
  Lemma has_loose : forall sep l w, In w l -> has P w -> has P (loose_list sep l).
  Proof. intros s l w J (k & A & B). exists k. split; auto. eapply within_loose; eauto. Qed.
  Lemma has_joined : forall sep l w, In w l -> has P w -> has P (joined sep l).
  Proof. intros s l w J (k & A & B). exists k. split; auto. eapply within_joined; eauto. Qed.
  Lemma has_flat : forall {A} (f : A -> list word) l a, In a l -> has P (f a) -> has P (flat_map f l).
  Proof. intros A f l a J (k & X & Y). exists k. split; auto. eapply within_flat; eauto. Qed.

  (** What an expression contains, given its literals, variables and calls. *)
  Inductive mentions : sexpr -> Prop :=
  | me_lit : forall l, P (WLit l) -> P (WSigned l) -> mentions (XLit l)
  | me_var : forall x, P (WIdent x) -> mentions (XVar x)
  | me_call : forall f l t, P (WIdent f) -> mentions (XCall f l t)
  | me_below : forall e c, In c (ClockSpec.parts e) -> mentions c -> mentions e.

  Lemma has_snd : forall {O} (h : O -> word) l c, In c (map snd l) -> has P (words c) -> has P (flat_map (fun p => h (fst p) :: words (snd p)) l).
  Proof. intros O h l c J H. apply in_map_iff in J. destruct J as (p & <- & J). apply (has_flat _ l p J). apply has_later. auto. Qed.
  Lemma mentions_has : forall e, mentions e -> has P (words e).
  Proof.
    induction 1.
    - apply has_here. auto.
    - apply has_here. auto.
    - apply has_here. auto.
    - assert (Hop : has P (match c with XLit l => [WSigned l] | _ => words c end)).
      { destruct c; auto. inversion H0; subst; [apply has_here; auto|]. destruct H1. }
      clear H0. destruct e; cbn [ClockSpec.parts words] in *; try (destruct H; fail).
      + apply has_group. apply (has_comma _ _ (words c)); auto. apply in_map. auto.
      + apply has_later, has_group. apply (has_comma _ _ (words c)); auto. apply in_map. auto.
      + destruct H as [<-|[]]. apply has_later. auto.
      + destruct H as [<-|[]]. apply has_later. auto.
      + destruct H as [<-|[]]. apply has_later. auto.
      + apply has_later. destruct H as [<-|[<-|[<-|[]]]]; [apply has_left; auto|apply has_right, has_later, has_left; auto|].
        apply has_right, has_later, has_right, has_later. auto.
      + apply has_later. destruct H as [<-|[<-|[<-|[]]]]; [apply has_left; auto|apply has_right, has_left; auto|]. apply has_right, has_right. auto.
      + destruct H as [<-|H]; [apply has_left; auto|]. apply has_right. apply (has_snd (fun o => binop_word o) _ c); auto.
      + destruct H as [<-|H]; [apply has_left; auto|]. apply has_right. apply (has_snd (fun o => cmpop_word o) _ c); auto.
      + destruct H as [<-|H]; [apply has_left; auto|]. apply has_right. apply (has_snd (fun o => clock_word o) _ c); auto.
      + destruct H as [<-|H]; [apply has_left; auto|]. apply has_right. eapply has_flat; eauto. apply has_later. auto.
      + destruct H as [<-|H]; [apply has_left; auto|]. apply has_right. eapply has_flat; eauto. apply has_later. auto.
  Qed.

  (** The collections of names and literals. *)
  Lemma flat_mentions : forall {A} (f : sexpr -> list A) a l, In a (flat_map f l) ->
    Forall (fun e => In a (f e) -> mentions e) l -> exists c, In c l /\ mentions c.
  Proof. intros A f a l J H. apply in_flat_map in J. destruct J as (c & J & K). rewrite Forall_forall in H. exists c. auto. Qed.
  Lemma flat_mentions_snd : forall {A O} (f : sexpr -> list A) a (l : list (O * sexpr)), In a (flat_map (fun p => f (snd p)) l) ->
    Forall (fun p => In a (f (snd p)) -> mentions (snd p)) l -> exists c, In c (map snd l) /\ mentions c.
  Proof. intros A O f a l J H. apply in_flat_map in J. destruct J as (c & J & K). rewrite Forall_forall in H. exists (snd c). split; auto. apply in_map. auto. Qed.
End Has.

Ltac gather f a := intros e; induction e using sexpr_ind'; cbn [f In]; intros J; rewrite ?in_app_iff in J;
  repeat match goal with H : _ \/ _ |- _ => destruct H as [H|H] end; try contradiction;
  try match goal with
  | H : In a (flat_map f _), F : Forall _ _ |- _ => destruct (flat_mentions _ f a _ H F) as (c & K1 & K2)
  | H : In a (flat_map (fun p => f (snd p)) _), F : Forall _ _ |- _ => destruct (flat_mentions_snd _ f a _ H F) as (c & K1 & K2)
  end;
  try (eapply me_below; [|solve [eauto]]; cbn [ClockSpec.parts In]; solve [auto 6]).

Lemma names_mention : forall x e, In x (expr_names e) -> mentions (eq (WIdent x)) e.
Proof.
  intros x. gather expr_names x.
  - subst. apply me_var. auto.
  - subst. apply me_call. auto.
Qed.
Definition says (l : slit) (k : word) : Prop := k = WLit l \/ k = WSigned l.
Lemma literals_mention : forall z e, In z (literals e) -> mentions (says (SLInt z)) e.
Proof. intros z. gather literals z. destruct l; try destruct J as [<-|[]]; try contradiction. apply me_lit; [left|right]; auto. Qed.
Lemma floats_mention : forall f e, In f (floats e) -> mentions (says (SLFloat f)) e.
Proof. intros f. gather floats f. destruct l; try destruct J as [<-|[]]; try contradiction. apply me_lit; [left|right]; auto. Qed.

Lemma target_has : forall x t, In x (target_names t) -> has (eq (WIdent x)) (target_words t).
Proof.
  fix IH 2. intros x [y|l b] J; cbn [target_names target_words] in *; [destruct J as [<-|[]]; apply has_here; auto|].
  apply has_group. apply in_flat_map in J. destruct J as (t & J & K).
  assert (H : has (eq (WIdent x)) (target_words t)).
  { clear - IH J K. induction l as [|t' l IHl]; [destruct J|]. destruct J as [<-|J]; [apply IH; auto|apply IHl; auto]. }
  eapply has_comma; [apply in_map; exact J|auto].
Qed.
Lemma args_has : forall x a, In x (fst a ++ type_names (fst (snd a)) ++ clock_names (snd (snd a))) -> has (eq (WIdent x)) (args_words a).
Proof.
  intros x (xs & b & c) J. cbn [fst snd] in J. unfold args_words. cbn [fst snd]. rewrite !in_app_iff in J. destruct J as [J|[J|J]].
  - apply has_left. eapply has_joined; [apply in_map; exact J|]. apply has_here. auto.
  - apply has_right, has_later. destruct b; cbn in J; try contradiction. destruct J as [<-|[]]. apply has_here. auto.
  - apply has_right, has_later, has_later. destruct c as [[] y| |]; cbn in J; try contradiction; destruct J as [<-|[]]; apply has_later, has_here; auto.
Qed.
Lemma vars_args : forall x l, In x (vars_names l) -> exists a, In a l /\ has (eq (WIdent x)) (args_words a).
Proof.
  intros x l J. apply in_flat_map in J. destruct J as ((xs & b & c) & J & K). exists (xs, (b, c)). split; auto. apply args_has. auto.
Qed.
Lemma interface_has : forall x l w, In x (vars_names l) -> has (eq (WIdent x)) (interface_word l :: w).
Proof.
  intros x l w J. destruct (vars_args _ _ J) as (a & Ja & H). apply has_group. eapply has_loose; [apply in_map; exact Ja|auto].
Qed.
Lemma locals_has : forall x l, In x (vars_names l) -> has (eq (WIdent x)) (locals_words l).
Proof.
  intros x l J. destruct (vars_args _ _ J) as (a & Ja & H). destruct l as [|b l]; [destruct Ja|]. apply has_later. eapply has_flat; [exact Ja|]. apply has_left. auto.
Qed.
Lemma base_has : forall x b w, In x (type_names b) -> has (eq (WIdent x)) (base_word b :: w).
Proof. intros x [| | |t] w J; cbn in J; try contradiction. destruct J as [<-|[]]. apply has_here. auto. Qed.

Lemma expr_decl : forall P d e, In e (expressions d) -> has P (words e) -> has P (decl_words d).
Proof.
  intros P [x b e0|sn|x b|f i o] e J H; cbn [expressions decl_words] in *; try contradiction.
  - destruct J as [<-|[]]. apply has_right. auto.
  - apply in_map_iff in J. destruct J as (s & <- & J). unfold node_words. apply has_right, has_right, has_later, has_left.
    eapply has_flat; [exact J|]. apply has_left. destruct s; cbn [stmt_words]; [apply has_right, has_later|apply has_later]; auto.
Qed.
Lemma decl_has : forall x d, In x (decl_names d) -> has (eq (WIdent x)) (decl_words d).
Proof.
  intros x [y b e|sn|y b|f i o] J; cbn [decl_names decl_words] in *.
  - destruct J as [<-|J]; [apply has_later, has_here; auto|]. apply in_app_iff in J. destruct J as [J|J].
    + apply has_left, has_later, has_later, has_later, base_has. auto.
    + apply has_right, mentions_has, names_mention. auto.
  - unfold node_words. destruct J as [<-|J]; [apply has_later, has_here; auto|]. rewrite !in_app_iff in J. destruct J as [J|[J|[J|J]]].
    + apply has_left, has_later, has_later, interface_has. auto.
    + apply has_left, has_later, has_later, has_later, has_later, interface_has. auto.
    + apply has_right, has_left, locals_has. auto.
    + apply has_right, has_right, has_later, has_left. apply in_flat_map in J. destruct J as (s & J & K). eapply has_flat; [exact J|]. apply has_left.
      destruct s; cbn [stmt_words].
      * apply in_app_iff in K. destruct K as [K|K]; [apply has_left, target_has; auto|]. apply has_right, has_later, mentions_has, names_mention. auto.
      * apply has_later, mentions_has, names_mention. auto.
  - destruct J as [<-|J]; [apply has_later, has_later, has_here; auto|]. apply has_later, has_later, has_later, has_later, base_has. auto.
  - destruct J as [<-|J]; [apply has_later, has_later, has_here; auto|]. apply in_app_iff in J. destruct J as [J|J].
    + apply has_later, has_later, has_later, interface_has. auto.
    + apply has_later, has_later, has_later, has_later, has_later, interface_has. auto.
Qed.
Lemma params_has : forall x l, In x (flat_map a_params l) -> has (eq (WIdent x)) (flat_map attr_words l).
Proof.
  intros x l J. apply in_flat_map in J. destruct J as (a & J & K). eapply has_flat; [exact J|]. unfold attr_words. apply has_later, has_group, has_later.
  destruct (a_params a) as [|y q] eqn:E; [destruct K|]. cbn [map optional_list]. apply has_group.
  eapply has_loose; [apply (in_map (fun x => [WIdent x]) (y :: q)); exact K|]. apply has_here. auto.
Qed.

(** ** Plain tokens spell plain programs *)
Lemma prog_has : forall (P : word -> Prop) p a ts, spells (prog_words p) ts -> (forall k, P k -> solid k = true) -> In a p -> has P (attrdecl_words a) ->
  exists k v, P k /\ said k v /\ incl (flat_map atoms v) (flat_map atoms ts).
Proof.
  intros P p a ts S So J H. destruct (has_loose P ";" (map attrdecl_words p) (attrdecl_words a)) as (k & A & B); auto using in_map.
  destruct (spells_within _ _ S k (So _ A) B) as (v & C & D). exists k, v. auto.
Qed.

Lemma plain_tokens_words : forall p ts, spells (prog_words p) ts -> plain_tokens ts -> plain_words p.
Proof.
  intros p ts S Pl. split.
  - intros a x J K. unfold names in K. apply in_app_iff in K.
    destruct (prog_has (eq (WIdent x)) p a ts S) as (k & v & <- & Sv & I); auto.
    { intros k <-. auto. }
    { unfold attrdecl_words. destruct K as [K|K]; [apply has_left, params_has|apply has_right, decl_has]; auto. }
    inversion Sv; subst. apply (Pl (TIdent x)). apply I. cbn. auto.
  - intros a e f J Je Jf. destruct (prog_has (says (SLFloat f)) p a ts S) as (k & v & Hk & Sv & I); auto.
    { intros k [->| ->]; auto. }
    { unfold attrdecl_words. apply has_right. eapply expr_decl; eauto. apply mentions_has, floats_mention. auto. }
    assert (D : exists g, (f = g \/ f = SFopp g) /\ In (TLit (KFloat g)) (flat_map atoms v)).
    { destruct Hk as [->| ->]; inversion Sv; subst.
      - inversion H0; subst. exists f. cbn. auto.
      - inversion H0; subst; [inversion H; subst; exists f; cbn; auto|]. exists f0. cbn. auto. }
    destruct D as (g & D & Ig). pose proof (Pl _ (I _ Ig)) as Fg. cbn in Fg. destruct D as [->| ->]; auto. destruct g; cbn in *; auto.
Qed.
Lemma plain_tokens_literals : forall p ts, spells (prog_words p) ts -> plain_tokens ts -> forall a, In a p -> small_literals (snd a).
Proof.
  intros p ts S Pl a J e z Je Jz. destruct (prog_has (says (SLInt z)) p a ts S) as (k & v & Hk & Sv & I); auto.
  { intros k [->| ->]; auto. }
  { unfold attrdecl_words. apply has_right. eapply expr_decl; eauto. apply mentions_has, literals_mention. auto. }
  assert (D : exists n, (z = Z.of_N n \/ z = - Z.of_N n)%Z /\ In (TLit (KInt n)) (flat_map atoms v)).
  { destruct Hk as [->| ->]; inversion Sv; subst.
    - inversion H0; subst. exists n. cbn. auto.
    - inversion H0; subst; [inversion H; subst; exists n; cbn; auto|]. exists n. cbn. auto. }
  destruct D as (n & D & In_). pose proof (Pl _ (I _ In_)) as Fg. cbn match in Fg. change (2 ^ 63)%Z with 9223372036854775808%Z in *. lia.
Qed.

(** ** The outcome *)
Lemma macro_parsed : forall uid ts p, p_prog ts = Parsed p [] -> macro uid ts = Outcome (expand uid p).
Proof. intros uid ts p H. unfold macro. rewrite H. auto. Qed.
Lemma macro_outcome : forall uid ts c, macro uid ts = Outcome c -> exists p, p_prog ts = Parsed p [] /\ c = expand uid p.
Proof. intros uid ts c H. unfold macro in H. destruct (p_prog ts) as [p [|]| |]; try discriminate. inversion H. eauto. Qed.

Theorem macro_refused : forall uid ts, macro uid ts = SyntaxError <-> ~ (exists p, tidy_prog p /\ spells (prog_words p) ts).
Proof.
  intros uid ts. split.
  - intros H (p & Q). apply prog_accepts in Q. rewrite (macro_parsed _ _ _ Q) in H. discriminate.
  - intros H. destruct (macro uid ts) as [|c] eqn:E; auto. apply macro_outcome in E. destruct E as (p & E & _). exfalso. apply H. exists p. apply prog_accepts. auto.
Qed.

Lemma expand_code : forall uid p l ws, expand uid p = Expanded (Some l) ws -> result (pipeline p) = Some l.
Proof.
  intros uid p l ws H. unfold expand in H. match type of H with (if ?b then _ else _) = _ => destruct b; [|discriminate] end. unfold compile in H. destruct (pipeline p) as [[l'|] es w|]; cbn [result] in *.
  - destruct (forallb (fun d => forallb creatable (requests uid d) && renders d) l'); inversion H; auto.
  - destruct es; discriminate.
  - discriminate.
Qed.

Theorem macro_code : forall uid ts l ws, macro uid ts = Outcome (Expanded (Some l) ws) ->
  exists p, tidy_prog p /\ spells (prog_words p) ts /\ well_formed p /\ result (pipeline p) = Some l.
Proof.
  intros uid ts l ws H. apply macro_outcome in H. destruct H as (p & E & H). symmetry in H. apply expand_code in H. exists p.
  apply prog_accepts in E. destruct E. split; auto. split; auto. split; auto. apply accepted_well_formed. eauto.
Qed.

Theorem macro_accepts : forall uid ts p, tidy_prog p -> spells (prog_words p) ts -> plain_tokens ts ->
  ((exists l ws, macro uid ts = Outcome (Expanded (Some l) ws)) <-> well_formed p).
Proof.
  intros uid ts p T S Pl. assert (E : p_prog ts = Parsed p []) by (apply prog_accepts; auto). rewrite (macro_parsed _ _ _ E).
  rewrite (expansion_same uid p) by (eapply plain_tokens_words; eauto). rewrite <- accepted_well_formed. split.
  - intros (l & ws & H). inversion H as [X]. exists l. apply (expand_code 0) with (ws := ws). rewrite expansion_same; auto. eapply plain_tokens_words; eauto.
  - intros (l & H). unfold compile. destruct (pipeline p) as [[l'|] es w|]; cbn in H; inversion H; subst. eauto.
Qed.

Theorem macro_safe : forall uid ts, plain_tokens ts ->
  (forall p, tidy_prog p -> spells (prog_words p) ts ->
     (forall a, In a p -> small_counts (fst a)) /\
     (forall a f b e, In a p -> callable (snd a) = Some f -> In b p -> In e (expressions (snd b)) -> In f (callees e) -> determined a)) ->
  macro uid ts <> Outcome Crashed.
Proof.
  intros uid ts Pl Pc H. apply macro_outcome in H. destruct H as (p & E & H). pose proof E as E'. apply prog_accepts in E'. destruct E' as (T & S).
  destruct (Pc p T S) as (C1 & C2). symmetry in H. revert H. apply expansion_safe; [split; auto; eapply plain_tokens_literals; eauto|eapply plain_tokens_words; eauto].
Qed.

Theorem macro_spaces : forall uid ts us, respaced ts us -> macro uid ts = macro uid us.
Proof.
  intros uid ts us R. destruct (macro uid ts) as [|c] eqn:E.
  - symmetry. apply macro_refused. apply macro_refused in E. intros (p & Q). apply E. exists p. apply prog_accepts. apply (prog_respaced ts us p R). apply prog_accepts. auto.
  - apply macro_outcome in E. destruct E as (p & E & ->). apply (prog_respaced ts us p R) in E. rewrite (macro_parsed _ _ _ E). auto.
Qed.
