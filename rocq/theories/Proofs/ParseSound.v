(** * What the parser accepts is spelled as the grammar says. *)
From Coq Require Import String Ascii List ZArith Bool Arith Lia.
From Verif Require Import Model.Base Model.Scalar Model.Ast Model.Options Model.Surface Model.Parse.
From Verif Require Import Spec.GrammarSpec Proofs.ParseFacts Proofs.ParseExpr Proofs.ParseLists.
Import ListNotations.
Local Open Scope string_scope.
Local Open Scope list_scope.

Lemma list_sound : forall A P w (item : parser A) c d, psound P w item ->
  psound (fun t => Forall P (fst t) /\ (snd t = true -> fst t <> []))
    (fun t => [WGroup d (joined (String c "") (map w (fst t)) ++ if snd t then [WSym (String c "")] else [])])
    (p_list d item (p_punct c)).
Proof.
  intros A P w item c d H l t r E. unfold p_list in E. pinv E. apply p_group_parsed in E0. subst l. pinv E. inversion E; subst.
  eapply terminated_sound in E0; eauto. destruct E0 as (-> & F & N & W). exists [TGroup d a]. repeat split; auto.
  constructor; auto. constructor.
Qed.

Definition operand (e : sexpr) : list word := match e with XLit l => [WSigned l] | _ => words e end.
Lemma words_merge : forall c a b, words (XMerge c a b) = WIdent "merge" :: operand c ++ operand a ++ operand b.
Proof. reflexivity. Qed.

Lemma atomic_sound : forall expr l e r, psound tidy words expr -> p_atomic expr l = Parsed e r ->
  exists u, l = u ++ r /\ spells (operand e) u /\ is_atomic e /\ tidy e /\ (peek_punct "-"%char l = false -> spells (words e) u).
Proof.
  intros expr l e r H E. unfold p_atomic in E.
  destruct (hint_paren l).
  { pinv E. inversion E; subst. apply (list_sound _ _ _ _ ","%char DParen H) in E0. destruct E0 as (u & -> & W & F & N).
    exists u. repeat split; auto. now apply fold_tidy. }
  destruct (peek_lit l).
  { pinv E. inversion E; subst. apply p_lit_parsed in E0. destruct E0 as (u & -> & S1 & _ & S2). exists u. cbn. repeat split; auto.
    - rewrite <- (app_nil_r u). apply sp_signed; auto. constructor.
    - intros P. rewrite <- (app_nil_r u). apply sp_lit; auto. constructor. }
  destruct (peek_ident l); try discriminate.
  pinv E. inversion E; subst. apply p_ident_parsed in E0. destruct E0 as (-> & N). exists [TIdent e0] || exists [TIdent a].
  cbn. repeat split; auto; repeat constructor.
Qed.

Lemma positive_sound : forall n, sound_at 0 (positive n).
Proof.
  induction n as [|n IH]; intros l e r E; cbn [positive] in E; [discriminate|].
  pose proof (expr_sound _ IH) as H8. pose proof (expr_psound _ H8) as HX.
  destruct (hint_call l).
  { pinv E. pinv E. inversion E; subst. apply p_ident_parsed in E0. destruct E0 as (-> & N).
    apply (list_sound _ _ _ _ ","%char DParen HX) in E1. destruct E1 as (u & -> & W & F & NE).
    exists (TIdent a :: u). repeat split; auto using stops_0; try discriminate.
    - cbn. now constructor.
    - now apply fold_tidy. }
  destruct (peek_kw "if" l).
  { pinv E. apply p_kw_parsed in E0. subst l. pinv E. apply H8 in E0. destruct E0 as (u1 & -> & W1 & T1 & _).
    pinv E. apply p_kw_parsed in E0. subst. pinv E. apply H8 in E0. destruct E0 as (u2 & -> & W2 & T2 & _).
    pinv E. apply p_kw_parsed in E0. subst. pinv E. apply H8 in E0. destruct E0 as (u3 & -> & W3 & T3 & _ & S3 & _).
    inversion E; subst. exists (TIdent "if" :: u1 ++ TIdent "then" :: u2 ++ TIdent "else" :: u3).
    cbn [app]. rewrite <- app_assoc. cbn [app]. rewrite <- app_assoc. repeat split; auto using stops_0.
    cbn. constructor. apply spells_app; auto. constructor. apply spells_app; auto. now constructor. }
  destruct (peek_kw "merge" l).
  { pinv E. apply p_kw_parsed in E0. subst l. pinv E. apply atomic_sound in E0; auto. destruct E0 as (u1 & -> & W1 & A1 & T1 & _).
    pinv E. apply atomic_sound in E0; auto. destruct E0 as (u2 & -> & W2 & A2 & T2 & _).
    pinv E. apply atomic_sound in E0; auto. destruct E0 as (u3 & -> & W3 & A3 & T3 & _). inversion E; subst.
    exists (TIdent "merge" :: u1 ++ u2 ++ u3). cbn [app]. rewrite <- !app_assoc. repeat split; auto using stops_0; try discriminate.
    rewrite words_merge. constructor. auto using spells_app. }
  destruct (peek_kw "pre" l).
  { pinv E. apply p_kw_parsed in E0. subst l. pinv E. apply IH in E0. destruct E0 as (u & -> & W & T & L & _ & O). inversion E; subst.
    exists (TIdent "pre" :: u). repeat split; auto using stops_0; [now constructor|lia]. }
  destruct (peek_punct "-"%char l) eqn:PM.
  { pinv E. apply p_punct_parsed in E0. destruct E0 as (j & ->). pinv E. apply IH in E0. destruct E0 as (u & -> & W & T & L & _ & O). inversion E; subst.
    exists (TPunct "-"%char j :: u). repeat split; auto using stops_0; [now apply sp_sym1|lia]. }
  destruct (peek_kw "not" l).
  { pinv E. apply p_kw_parsed in E0. subst l. pinv E. apply IH in E0. destruct E0 as (u & -> & W & T & L & _ & O). inversion E; subst.
    exists (TIdent "not" :: u). repeat split; auto using stops_0; [now constructor|lia]. }
  apply atomic_sound in E; auto. destruct E as (u & -> & _ & A & T & W). exists u. repeat split; auto using stops_0.
  - destruct e; cbn in A; try contradiction; auto.
  - destruct e; cbn in A; try contradiction; discriminate.
Qed.

Lemma p_expr_sound : forall n, psound tidy words (p_expr (positive n)).
Proof. intros n. apply expr_psound, expr_sound, positive_sound. Qed.

(** ** Declarations *)
Lemma base_sound : psound tidy_base (fun b => [base_word b]) p_base.
Proof.
  intros l b r E. unfold p_base in E.
  assert (forall s, peek_kw s l = false -> forall x r, l = TIdent x :: r -> x <> s) as Q.
  { intros s P x r0 -> ->. cbn in P. now rewrite String.eqb_refl in P. }
  destruct (peek_kw "int" l) eqn:K1. { done_sym. wit. }
  destruct (peek_kw "bool" l) eqn:K2. { done_sym. wit. }
  destruct (peek_kw "float" l) eqn:K3. { done_sym. wit. }
  destruct (peek_ident l); try discriminate. pinv E. inversion E; subst. apply p_ident_parsed in E0. destruct E0 as (-> & N). wit.
  intros I. cbn in I. destruct I as [<-|[<-|[<-|[]]]]; [eapply (Q "int")|eapply (Q "float")|eapply (Q "bool")]; eauto.
Qed.
Lemma on_clock_sound : psound tidy_clock clock_words p_on_clock.
Proof.
  intros l c r E. unfold p_on_clock in E.
  destruct (peek_kw "when" l).
  { pinv E. apply p_kw_parsed in E0. subst l. pinv E. apply p_ident_parsed in E0. destruct E0 as (-> & N). inversion E; subst. wit. repeat constructor. }
  destruct (peek_kw "whenot" l).
  { pinv E. apply p_kw_parsed in E0. subst l. pinv E. apply p_ident_parsed in E0. destruct E0 as (-> & N). inversion E; subst. wit. repeat constructor. }
  inversion E; subst. exists []. cbn. repeat split. constructor.
Qed.
Lemma type_sound : psound (fun t => tidy_base (fst t) /\ tidy_clock (snd t)) (fun t => base_word (fst t) :: clock_words (snd t)) p_type.
Proof.
  intros l t r E. unfold p_type in E. pinv E. apply base_sound in E0. destruct E0 as (u & -> & W & T). pinv E. apply on_clock_sound in E0.
  destruct E0 as (u' & -> & W' & T'). inversion E; subst. exists (u ++ u'). rewrite <- app_assoc. repeat split; auto.
  now apply (spells_app [base_word a]).
Qed.

Definition ident_words (x : ident) : list word := [WIdent x].
Lemma ident_sound : psound name ident_words p_ident.
Proof. intros l x r E. apply p_ident_parsed in E. destruct E as (-> & N). exists [TIdent x]. repeat split; auto. repeat constructor. Qed.

Lemma more_idents_sound : forall n l t r, sep_more n p_ident p_comma l = Parsed t r ->
  exists u, l = u ++ r /\ Forall name (map snd t) /\ forall x v, spells [WIdent x] v -> spells (joined "," (map ident_words (x :: map snd t))) (v ++ u).
Proof.
  induction n as [|n IH]; intros l t r E; cbn in E; destruct (p_comma l) as [o r0| |] eqn:Q; try discriminate.
  - inversion E; subst. exists []. repeat split; auto; [constructor|]. intros x v W. now rewrite app_nil_r.
  - pinv E. pinv E. inversion E; subst. apply p_punct_parsed in Q. destruct Q as (j & ->). apply p_ident_parsed in E0. destruct E0 as (-> & N).
    apply IH in E1. destruct E1 as (u & -> & F & W). exists (TPunct ","%char j :: TIdent a :: u). repeat split; auto.
    + cbn. constructor; auto.
    + intros x v V. cbn [map snd]. rewrite joined_cons by discriminate. apply spells_app; auto. apply sp_sym1.
      apply (W a [TIdent a]). repeat constructor.
  - inversion E; subst. exists []. repeat split; auto; [constructor|]. intros x v W. now rewrite app_nil_r.
Qed.
Lemma args_sound : psound tidy_args args_words p_args.
Proof.
  intros l a r E. unfold p_args in E. pinv E. unfold p_decls in E0. pinv E0. pinv E0. inversion E0; subst. clear E0.
  apply p_ident_parsed in E1. destruct E1 as (-> & N). apply more_idents_sound in E2. destruct E2 as (u & -> & F & W).
  pinv E. apply p_punct_parsed in E0. destruct E0 as (j & ->). pinv E. apply type_sound in E0. destruct E0 as (u' & -> & W' & T & C). inversion E; subst.
  exists (TIdent a1 :: u ++ TPunct ":"%char j :: u'). cbn [app]. rewrite <- app_assoc. repeat split; auto; try discriminate; [|constructor; auto].
  unfold args_words. cbn [fst snd]. change (TIdent a1 :: u ++ TPunct ":"%char j :: u') with (([TIdent a1] ++ u) ++ TPunct ":"%char j :: u').
  apply spells_app; [|now apply sp_sym1]. apply W. repeat constructor.
Qed.

Lemma loose_spells : forall c (l : list (list word)) (b : bool) u, (b = true -> l <> []) ->
  spells (joined (String c "") l ++ if b then [WSym (String c "")] else []) u -> spells (loose_list (String c "") l) u.
Proof.
  intros c l b u N W. unfold loose_list. destruct l as [|w l].
  { destruct b; [exfalso; now apply N|]. exact W. }
  apply spells_split in W. destruct W as (u1 & u2 & -> & W1 & W2). apply spells_app; auto. destruct b.
  - apply sp_opt_yes. exact W2.
  - now apply sp_opt_no.
Qed.
Lemma interface_sound : psound (Forall tidy_args) (fun l => [interface_word l]) p_interface.
Proof.
  intros l t r E. unfold p_interface in E. pinv E. inversion E; subst. apply (list_sound _ _ _ _ ";"%char DParen args_sound) in E0.
  destruct E0 as (u & -> & W & F & N). exists u. repeat split; auto. apply spells_group in W. destruct W as (v & u' & -> & W & W').
  constructor; auto. apply loose_spells with (b := snd a); auto. intros S. intros M. apply map_eq_nil in M. now apply N in S.
Qed.

Lemma locals_sound : psound (Forall tidy_args) locals_words p_locals.
Proof.
  intros l t r E. unfold p_locals in E. destruct (peek_kw "var" l).
  - pinv E. apply p_kw_parsed in E0. subst l. eapply until_sound in E; [|apply args_sound]. destruct E as (_ & F & u & -> & W).
    exists (TIdent "var" :: u). repeat split; auto. unfold locals_words. destruct t as [|a0 t].
    + apply spells_nil in W. subst u. apply sp_opt_yes. repeat constructor.
    + now constructor.
  - inversion E; subst. exists []. repeat split; auto. apply sp_opt_no. constructor.
Qed.

Lemma fold_target : forall l, fold_right (fun t P => tidy_target t /\ P) True l <-> Forall tidy_target l.
Proof. induction l; cbn; split; intros H; auto; [constructor; tauto|]. inversion H; subst. tauto. Qed.
Lemma target_sound : forall n, psound tidy_target target_words (p_target n).
Proof.
  induction n as [|n IH]; intros l t r E; cbn [p_target] in E; [discriminate|]. destruct (hint_paren l).
  - pinv E. inversion E; subst. apply (list_sound _ _ _ _ ","%char DParen IH) in E0. destruct E0 as (u & -> & W & F & N).
    exists u. repeat split; auto. now apply fold_target.
  - pinv E. inversion E; subst. apply ident_sound in E0. destruct E0 as (u & -> & W & N). eauto.
Qed.
Lemma stmt_sound : forall n, psound tidy_stmt stmt_words (p_stmt n).
Proof.
  intros n l i r E. unfold p_stmt in E. destruct (peek_kw "assert" l).
  - pinv E. apply p_kw_parsed in E0. subst l. pinv E. apply p_expr_sound in E0. destruct E0 as (u & -> & W & T). inversion E; subst.
    exists (TIdent "assert" :: u). repeat split; auto. now constructor.
  - pinv E. apply target_sound in E0. destruct E0 as (u & -> & W & T). pinv E. apply p_punct_parsed in E0. destruct E0 as (j & ->).
    pinv E. apply p_expr_sound in E0. destruct E0 as (u' & -> & W' & T'). inversion E; subst.
    exists (u ++ TPunct "="%char j :: u'). rewrite <- app_assoc. repeat split; auto. cbn. apply spells_app; auto. now apply sp_sym1.
Qed.

Lemma interface_one : forall l u w v, spells [interface_word l] u -> spells w v -> spells (interface_word l :: w) (u ++ v).
Proof. intros l u w v H K. now apply (spells_app [interface_word l]). Qed.

Lemma node_sound : forall n, psound tidy_node node_words (p_node n).
Proof.
  intros n l sn r E. unfold p_node in E.
  pinv E. apply p_kw_parsed in E0. subst l. pinv E. apply p_ident_parsed in E0. destruct E0 as (-> & N).
  pinv E. apply interface_sound in E0. destruct E0 as (u1 & -> & W1 & T1).
  pinv E. apply p_kw_parsed in E0. subst. pinv E. apply interface_sound in E0. destruct E0 as (u2 & -> & W2 & T2).
  pinv E. apply p_punct_parsed in E0. destruct E0 as (j & ->). pinv E. apply locals_sound in E0. destruct E0 as (u3 & -> & W3 & T3).
  pinv E. apply p_kw_parsed in E0. subst. pinv E. eapply until_sound in E0; [|apply stmt_sound]. destruct E0 as (_ & T4 & u4 & -> & W4).
  pinv E. apply p_kw_parsed in E0. subst. inversion E; subst.
  exists (TIdent "node" :: TIdent a0 :: u1 ++ TIdent "returns" :: u2 ++ TPunct ";"%char j :: u3 ++ TIdent "let" :: u4 ++ [TIdent "tel"]).
  split. { cbn [app]. repeat (rewrite <- app_assoc; cbn [app]). reflexivity. }
  split; [|repeat split; auto].
  unfold node_words. cbn [app s_name s_inputs s_outputs s_locals s_defs].
  apply sp_ident, sp_ident, interface_one; auto. apply sp_ident, interface_one; auto. apply sp_sym1, spells_app; auto.
  apply sp_ident, spells_app; auto. repeat constructor.
Qed.
Lemma const_sound : forall n, psound tidy_decl decl_words (p_const n).
Proof.
  intros n l d r E. unfold p_const in E. pinv E. apply p_kw_parsed in E0. subst l. pinv E. apply p_ident_parsed in E0. destruct E0 as (-> & N).
  pinv E. apply p_punct_parsed in E0. destruct E0 as (j & ->). pinv E. apply base_sound in E0. destruct E0 as (u & -> & W & T).
  pinv E. apply p_punct_parsed in E0. destruct E0 as (j' & ->). pinv E. apply p_expr_sound in E0. destruct E0 as (u' & -> & W' & T').
  inversion E; subst. exists (TIdent "const" :: TIdent a0 :: TPunct ":"%char j :: u ++ TPunct "="%char j' :: u').
  cbn [app]. rewrite <- app_assoc. repeat split; auto. cbn. apply sp_ident, sp_ident, sp_sym1. apply (spells_app [base_word a2]); auto.
  now apply sp_sym1.
Qed.
Lemma extern_sound : psound tidy_decl decl_words p_extern.
Proof.
  intros l d r E. unfold p_extern in E. pinv E. apply p_kw_parsed in E0. subst l. destruct (peek_kw "const" r0).
  - pinv E. apply p_kw_parsed in E0. subst. pinv E. apply p_ident_parsed in E0. destruct E0 as (-> & N).
    pinv E. apply p_punct_parsed in E0. destruct E0 as (j & ->). pinv E. unfold p_type in E0. pinv E0. apply base_sound in E1.
    destruct E1 as (u & -> & W & T). pinv E0. apply on_clock_sound in E1. destruct E1 as (u' & -> & W' & T').
    inversion E0; subst. inversion E; subst. cbn [fst]. exists (TIdent "extern" :: TIdent "const" :: TIdent a1 :: TPunct ":"%char j :: u ++ u').
    cbn [app]. rewrite <- app_assoc. repeat split; auto. cbn. apply sp_ident, sp_ident, sp_ident, sp_sym1. apply (spells_app [base_word a4]); auto.
    destruct a5 as [[|] x| |]; cbn in W'.
    + apply spells_ident in W'. destruct W' as (u1 & -> & W'). apply spells_ident in W'. destruct W' as (u2 & -> & W').
      apply sp_clock_yes; auto.
    + apply spells_ident in W'. destruct W' as (u1 & -> & W'). apply spells_ident in W'. destruct W' as (u2 & -> & W').
      apply sp_clock_yes; auto.
    + now apply sp_clock_no.
    + now apply sp_clock_no.
  - pinv E. apply p_kw_parsed in E0. subst. pinv E. apply p_ident_parsed in E0. destruct E0 as (-> & N).
    pinv E. apply interface_sound in E0. destruct E0 as (u1 & -> & W1 & T1).
    pinv E. apply p_kw_parsed in E0. subst. pinv E. apply interface_sound in E0. destruct E0 as (u2 & -> & W2 & T2). inversion E; subst.
    exists (TIdent "extern" :: TIdent "node" :: TIdent a1 :: u1 ++ TIdent "returns" :: u2). cbn [app]. rewrite <- app_assoc. repeat split; auto.
    cbn. apply sp_ident, sp_ident, sp_ident, interface_one; auto. now apply sp_ident.
Qed.
Lemma decl_sound : forall n, psound tidy_decl decl_words (p_decl n).
Proof.
  intros n l d r E. unfold p_decl in E. destruct (peek_kw "extern" l); [now apply extern_sound|]. destruct (peek_kw "const" l); [now apply const_sound in E|].
  pinv E. inversion E; subst. apply node_sound in E0. exact E0.
Qed.

(** ** Attributes *)
Lemma loose_nil : forall s u, spells (loose_list s []) u -> u = [].
Proof. intros s u H. now apply spells_nil in H. Qed.
Lemma group_optional : forall d (l : list (list word)) b u, (b = true -> l <> []) ->
  spells [WGroup d (joined "," l ++ if b then [WSym ","] else [])] u -> spells [optional_list d l] u.
Proof.
  intros d l b u N W. apply spells_group in W. destruct W as (v & u' & -> & W & W'). apply (loose_spells ","%char) in W; auto.
  unfold optional_list. destruct l.
  - apply loose_nil in W. subst. apply sp_opt_yes. constructor; auto. constructor.
  - constructor; auto.
Qed.
Lemma params_sound : psound (Forall name) (fun t => [optional_list DBracket (map ident_words t)]) p_params.
Proof.
  intros l t r E. unfold p_params in E.
  assert (l = [] ++ l /\ spells [optional_list DBracket (map ident_words [])] [] /\ Forall name []) as Z.
  { repeat split; auto. apply sp_opt_no. constructor. }
  destruct l as [|[| | |[| |] g] l]; try (inversion E; subst; exists []; exact Z).
  pinv E. inversion E; subst. apply (list_sound _ _ _ _ ","%char DBracket ident_sound) in E0. destruct E0 as (u & E0 & W & F & N).
  exists u. repeat split; auto. apply group_optional with (b := snd a); auto. intros B M. apply map_eq_nil in M. now apply N in B.
Qed.
Definition lit_words (k : literal) : list word := [WArg (attr_lit_of k)].
Lemma lit_sound : psound (fun _ => True) lit_words p_lit.
Proof.
  intros l k r E. apply p_lit_parsed in E. destruct E as (u & -> & _ & A & _). exists u. repeat split; auto.
  rewrite <- (app_nil_r u). apply sp_arg; auto. constructor.
Qed.
Lemma targets_sound : psound (fun _ => True) (fun t => [optional_list DParen (map (fun l => [WArg l]) t)]) p_targets.
Proof.
  intros l t r E. unfold p_targets in E.
  assert (l = [] ++ l /\ spells [optional_list DParen (map (fun l => [WArg l]) [])] [] /\ True) as Z.
  { repeat split; auto. apply sp_opt_no. constructor. }
  destruct l as [|[| | |[| |] g] l]; try (inversion E; subst; exists []; exact Z).
  pinv E. inversion E; subst. apply (list_sound _ _ _ _ ","%char DParen lit_sound) in E0. destruct E0 as (u & E0 & W & F & N).
  exists u. repeat split; auto. rewrite map_map. apply group_optional with (b := snd a); auto. intros B M. apply map_eq_nil in M. now apply N in B.
Qed.
Lemma attr_sound : psound tidy_attr attr_words p_attr.
Proof.
  intros l a r E. unfold p_attr in E. pinv E. apply p_punct_parsed in E0. destruct E0 as (j & ->).
  pinv E. apply p_group_parsed in E0. subst. pinv E. apply p_ident_parsed in E0. destruct E0 as (-> & N).
  pinv E. apply params_sound in E0. destruct E0 as (u & -> & W & F). pinv E. apply targets_sound in E0. destruct E0 as (u' & -> & W' & _).
  match type of E with match ?g with _ => _ end = _ => destruct g; try discriminate end. inversion E; subst. exists [TPunct "#"%char j; TGroup DBracket (TIdent a2 :: u ++ u' ++ [])].
  repeat split; auto. apply sp_sym1. apply sp_group; [|constructor]. apply sp_ident. rewrite app_nil_r.
  now apply (spells_app [optional_list DBracket (map ident_words a1)]).
Qed.
Definition tidy_attrdecl (a : sattrdecl) : Prop := Forall tidy_attr (fst a) /\ tidy_decl (snd a).
Lemma attrdecl_sound : forall k n, psound tidy_attrdecl attrdecl_words (p_attrdecl k n).
Proof.
  induction k as [|k IH]; intros n l a r E; cbn [p_attrdecl] in E; destruct (peek_punct "#"%char l); try discriminate.
  - pinv E. inversion E; subst. apply decl_sound in E0. destruct E0 as (u & -> & W & T). exists u. repeat split; auto. constructor.
  - pinv E. apply attr_sound in E0. destruct E0 as (u & -> & W & T). pinv E. apply IH in E0. destruct E0 as (u' & -> & W' & T' & D').
    inversion E; subst. exists (u ++ u'). rewrite <- app_assoc. repeat split; auto; [|constructor; auto].
    unfold attrdecl_words in *. cbn [fst snd flat_map]. rewrite <- app_assoc. now apply spells_app.
  - pinv E. inversion E; subst. apply decl_sound in E0. destruct E0 as (u & -> & W & T). exists u. repeat split; auto. constructor.
Qed.
Theorem prog_sound : forall l p r, p_prog l = Parsed p r -> r = [] /\ tidy_prog p /\ spells (prog_words p) l.
Proof.
  intros l p r E. unfold p_prog in E. pinv E. inversion E; subst.
  apply (terminated_sound tidy_attrdecl attrdecl_words) in E0; [|intros l' a' r' E'; eapply attrdecl_sound; eauto].
  destruct E0 as (-> & F & N & W). repeat split.
  - intros. rewrite Forall_forall in F. now apply F.
  - intros. rewrite Forall_forall in F. now apply F.
  - apply loose_spells with (b := snd a); auto. intros B M. apply map_eq_nil in M. now apply N in B.
Qed.
