(** * Whatever is spelled as the grammar says is accepted, as that tree. *)
From Coq Require Import String Ascii List ZArith Bool Arith Lia.
From Verif Require Import Model.Base Model.Scalar Model.Ast Model.Options Model.Surface Model.Parse.
From Verif Require Import Spec.GrammarSpec Proofs.ParseFacts Proofs.ParseExpr Proofs.ParseLists Proofs.ParseSound.
Import ListNotations.
Local Open Scope string_scope.
Local Open Scope list_scope.

Lemma tidy_level : forall e, tidy e -> level e <= 8.
Proof. intros e T. destruct e; try (cbn; lia). apply T. Qed.

Definition follows (r : list tok) : Prop := noparen r /\ stops 8 r.
Lemma follows_nil : follows [].
Proof. split; [reflexivity|apply stops_nil]. Qed.
Lemma follows_punct : forall c j r, ~ In c ["*"; "/"; "%"; "+"; "-"; "<"; ">"; "="]%char -> follows (TPunct c j :: r).
Proof. intros c j r N. split; [reflexivity|now apply stops_punct]. Qed.
Lemma follows_comma : forall j r, follows (TPunct ","%char j :: r).
Proof. intros j r. apply follows_punct. cbn. intros H. decompose [or] H; try discriminate; auto. Qed.
Lemma follows_semi : forall j r, follows (TPunct ";"%char j :: r).
Proof. intros j r. apply follows_punct. cbn. intros H. decompose [or] H; try discriminate; auto. Qed.
Lemma follows_ident : forall x r, ~ In x ["when"; "whenot"; "fby"; "and"; "or"] -> follows (TIdent x :: r).
Proof. intros x r N. split; [reflexivity|now apply stops_ident]. Qed.
Ltac notin := cbn; let H := fresh in intros H; decompose [or] H; try discriminate; auto.

Lemma expr_pcomplete : forall n p, complete_at n 8 p -> pcomplete n follows tidy words p.
Proof. intros n p H e u r W T M (NP & St). apply H; auto. now apply tidy_level. Qed.

Lemma list_complete : forall A P w (item : parser A) c m Fo, pcomplete m Fo P w item -> Fo [] -> (forall j r, Fo (TPunct c j :: r)) ->
  (forall a u, P a -> spells (w a) u -> u <> []) ->
  forall d t (b : bool) u r, d <> DBrace -> spells [WGroup d (joined (String c "") (map w t) ++ if b then [WSym (String c "")] else [])] u ->
    Forall P t -> (b = true -> t <> []) -> weights u <= m -> p_list d item (p_punct c) (u ++ r) = Parsed (t, b) r.
Proof.
  intros A P w item c m Fo H F0 F1 NE d t b u r D W F B M. apply spells_group in W. destruct W as (v & u' & -> & W & W').
  apply spells_nil in W'. subst u'. unfold p_list.
  assert (p_group d ([TGroup d v] ++ r) = Parsed v r) as -> by (destruct d; [reflexivity|reflexivity|congruence]). cbn [pbind].
  rewrite weights_cons, weight_group in M.
  rewrite (terminated_complete P w item c m Fo H F0 F1 NE t b (length v) v) by (auto; lia). reflexivity.
Qed.

Lemma words_nonempty : forall e u, tidy e -> spells (words e) u -> u <> [].
Proof. intros e u T W. apply words_start in W; auto. destruct W as (t & u' & -> & _). discriminate. Qed.

Lemma hint_call_ident : forall x r, hint_call (TIdent x :: r) = (usable x && hint_paren r)%bool.
Proof. intros x [|[| | |[| |] g] r]; cbn; destruct (usable x); reflexivity. Qed.
Lemma peek_kw_name : forall s x r, In s keywords -> name x -> peek_kw s (TIdent x :: r) = false.
Proof. intros s x r K N. cbn. now apply name_not. Qed.

Lemma atomic_complete : forall expr n e u r, pcomplete n follows tidy words expr -> is_atomic e -> tidy e -> spells (operand e) u -> weights u <= n ->
  p_atomic expr (u ++ r) = Parsed e r.
Proof.
  intros expr n e u r H A T W M. unfold p_atomic. destruct e; cbn in A; try contradiction; cbn [operand] in W.
  - apply spells_signed in W. destruct W as (v & u' & -> & Sg & W). apply spells_nil in W. subst u'. rewrite app_nil_r.
    destruct (p_lit_signed _ _ r Sg) as (k & E & <-).
    assert (hint_paren (v ++ r) = false) as -> by (destruct Sg as [l0 v Un| |]; [destruct Un|..]; reflexivity).
    unfold peek_lit. rewrite E. reflexivity.
  - apply spells_ident in W. destruct W as (u' & -> & W). apply spells_nil in W. subst u'. cbn [app].
    assert (peek_lit (TIdent x :: r) = false) as ->.
    { unfold peek_lit. cbn. rewrite !name_not; auto; cbn; tauto. }
    cbn [hint_paren]. cbn [peek_ident]. rewrite (name_usable _ T), (p_ident_here _ _ T). reflexivity.
  - assert (hint_paren (u ++ r) = true) as ->.
    { apply spells_group in W. destruct W as (v & u' & -> & _). reflexivity. }
    destruct T as (B & T). apply fold_tidy in T. unfold p_comma.
    rewrite (list_complete _ _ _ _ ","%char n follows H follows_nil follows_comma words_nonempty DParen l trailing) by (auto; discriminate). reflexivity.
Qed.

Lemma plain_operand : forall e u, is_atomic e -> spells (words e) u -> spells (operand e) u.
Proof.
  intros e u A W. destruct e; cbn in A; try contradiction; auto. apply spells_lit in W. destruct W as (v & u' & -> & Un & W).
  apply sp_signed; auto. now apply si_plain.
Qed.

Lemma positive_complete : forall n, complete_at n 0 (positive n).
Proof.
  induction n as [|n IH]; intros e u r W T L M NP _ Op; [lia|].
  pose proof (expr_complete _ _ IH) as H8. pose proof (expr_pcomplete _ _ H8) as HX.
  cbn [positive].
  destruct e as [l|x|l t|f l t|e|e|e|c y e|c a b|e l|e l|e l|e l|e l]; try (cbn in L; lia).
  - assert (p_atomic (p_expr (positive n)) (u ++ r) = Parsed (XLit l) r) as E.
    { apply (atomic_complete _ n); auto; [|lia]. now apply plain_operand. }
    apply spells_lit in W. destruct W as (v & u' & -> & Un & W). apply spells_nil in W. subst u'. rewrite app_nil_r in *.
    destruct Un; cbn [app] in *; rewrite ?hint_call_ident; exact E.
  - assert (p_atomic (p_expr (positive n)) (u ++ r) = Parsed (XVar x) r) as E.
    { apply (atomic_complete _ n); auto; cbn; auto; lia. }
    apply spells_ident in W. destruct W as (u' & -> & W). apply spells_nil in W. subst u'. cbn [app] in *.
    rewrite hint_call_ident, NP, andb_false_r. rewrite !peek_kw_name by (auto; cbn; tauto). exact E.
  - assert (p_atomic (p_expr (positive n)) (u ++ r) = Parsed (XParen l t) r) as E.
    { apply (atomic_complete _ n); auto; cbn; auto; lia. }
    apply spells_group in W. destruct W as (v & u' & -> & _). exact E.
  - destruct T as (N & B & T). apply fold_tidy in T. cbn [words] in W. apply spells_ident in W. destruct W as (u' & -> & W).
    cbn [app]. rewrite hint_call_ident, (name_usable _ N).
    assert (hint_paren (u' ++ r) = true) as ->. { apply spells_group in W. destruct W as (v & u1 & -> & _). reflexivity. }
    cbn [andb]. rewrite (p_ident_here _ _ N). cbn [pbind]. rewrite weights_cons in M. cbn [weight] in M. unfold p_comma.
    rewrite (list_complete _ _ _ _ ","%char n follows HX follows_nil follows_comma words_nonempty DParen l t) by (auto; try discriminate; lia). reflexivity.
  - destruct T as (Lv & T). cbn [words] in W. apply spells_sym1 in W. destruct W as (j & u' & -> & W). rewrite weights_cons in M. cbn [weight] in M.
    cbn [app hint_call peek_kw peek_punct]. cbn. rewrite (IH e u' r); auto; try lia. apply stops_0.
  - destruct T as (Lv & T). cbn [words] in W. apply spells_ident in W. destruct W as (u' & -> & W). rewrite weights_cons in M. cbn [weight] in M.
    cbn [app]. rewrite hint_call_ident. cbn. rewrite (IH e u' r); auto; try lia. apply stops_0.
  - destruct T as (Lv & T). cbn [words] in W. apply spells_ident in W. destruct W as (u' & -> & W). rewrite weights_cons in M. cbn [weight] in M.
    cbn [app]. rewrite hint_call_ident. cbn. rewrite (IH e u' r); auto; try lia. apply stops_0.
  - destruct T as (T1 & T2 & T3). cbn [words] in W. apply spells_ident in W. destruct W as (u' & -> & W).
    apply spells_split in W. destruct W as (u1 & u2 & -> & W1 & W). apply spells_ident in W. destruct W as (u3 & -> & W).
    apply spells_split in W. destruct W as (u4 & u5 & -> & W2 & W). apply spells_ident in W. destruct W as (u6 & -> & W).
    repeat (rewrite weights_cons in M || rewrite weights_app in M). cbn [weight] in M.
    cbn [app]. rewrite hint_call_ident. cbn [usable reserved existsb andb negb orb]. rewrite <- app_assoc. cbn [app]. rewrite <- app_assoc. cbn [app].
    change (peek_kw "if" (TIdent "if" :: u1 ++ TIdent "then" :: u4 ++ TIdent "else" :: u6 ++ r)) with true.
    replace (usable "if" && hint_paren (u1 ++ TIdent "then" :: u4 ++ TIdent "else" :: u6 ++ r))%bool with false by reflexivity.
    cbv iota. rewrite p_kw_here. cbn [pbind].
    rewrite (HX c u1) by (auto; try lia; apply follows_ident; notin). cbn [pbind]. rewrite p_kw_here. cbn [pbind].
    rewrite (HX y u4) by (auto; try lia; apply follows_ident; notin). cbn [pbind]. rewrite p_kw_here. cbn [pbind].
    rewrite (HX e u6) by (auto; try lia; split; auto). reflexivity.
  - destruct T as ((A1 & T1) & (A2 & T2) & (A3 & T3)). rewrite words_merge in W. apply spells_ident in W. destruct W as (u' & -> & W).
    apply spells_split in W. destruct W as (u1 & u2 & -> & W1 & W). apply spells_split in W. destruct W as (u3 & u4 & -> & W2 & W).
    repeat (rewrite weights_cons in M || rewrite weights_app in M). cbn [weight] in M. cbn [app]. rewrite <- !app_assoc.
    rewrite hint_call_ident.
    change (peek_kw "merge" (TIdent "merge" :: u1 ++ u3 ++ u4 ++ r)) with true.
    change (peek_kw "if" (TIdent "merge" :: u1 ++ u3 ++ u4 ++ r)) with false.
    replace (usable "merge" && hint_paren (u1 ++ u3 ++ u4 ++ r))%bool with false by reflexivity.
    cbv iota. rewrite p_kw_here. cbn [pbind].
    rewrite (atomic_complete _ n c u1) by (auto; lia). cbn [pbind].
    rewrite (atomic_complete _ n a u3) by (auto; lia). cbn [pbind].
    rewrite (atomic_complete _ n b u4) by (auto; lia). reflexivity.
  - cbn in L. destruct l as [|(o, b) l]; [lia|]. destruct o; cbn in L; lia.
Qed.

Lemma p_expr_complete : forall n, pcomplete n follows tidy words (p_expr (positive n)).
Proof. intros n. apply expr_pcomplete, expr_complete, positive_complete. Qed.

(** ** Declarations *)
Lemma follows_clock : forall r, follows r -> peek_kw "when" r = false /\ peek_kw "whenot" r = false.
Proof.
  intros r (_ & St). specialize (St 1 ltac:(lia)). cbn in St. unfold op_clock in St.
  destruct (peek_kw "when" r) eqn:E. { apply peek_kw_true in E. destruct E as (r' & ->). discriminate. }
  destruct (peek_kw "whenot" r) eqn:E'; auto. apply peek_kw_true in E'. destruct E' as (r' & ->). discriminate.
Qed.
Lemma base_complete : forall b u r, spells [base_word b] u -> tidy_base b -> p_base (u ++ r) = Parsed b r.
Proof.
  intros b u r W T. apply spells_ident in W. destruct W as (u' & -> & W). apply spells_nil in W. subst u'. cbn [app].
  destruct b as [| | |x]; try reflexivity. destruct T as (N & NI). unfold p_base. cbn [peek_kw].
  assert (forall s, In s ["int"; "float"; "bool"] -> String.eqb x s = false) as Q.
  { intros s I. apply String.eqb_neq. intros ->. contradiction. }
  rewrite !Q by (cbn; tauto). cbn [peek_ident]. rewrite (name_usable _ N), (p_ident_here _ _ N). reflexivity.
Qed.
Lemma on_clock_complete : forall c u r, spells (clock_words c) u -> tidy_clock c -> follows r -> p_on_clock (u ++ r) = Parsed c r.
Proof.
  intros c u r W T F. destruct c as [[|] x| |]; cbn in T; try contradiction.
  - apply spells_ident in W. destruct W as (u' & -> & W). apply spells_ident in W. destruct W as (u1 & -> & W). apply spells_nil in W. subst u1.
    cbn [app]. unfold p_on_clock. cbn [peek_kw]. rewrite String.eqb_refl, p_kw_here. cbn [pbind]. rewrite (p_ident_here _ _ T). reflexivity.
  - apply spells_ident in W. destruct W as (u' & -> & W). apply spells_ident in W. destruct W as (u1 & -> & W). apply spells_nil in W. subst u1.
    cbn [app]. unfold p_on_clock. change (peek_kw "when" (TIdent "whenot" :: TIdent x :: r)) with false.
    change (peek_kw "whenot" (TIdent "whenot" :: TIdent x :: r)) with true. cbv iota. rewrite p_kw_here. cbn [pbind]. rewrite (p_ident_here _ _ T). reflexivity.
  - apply spells_nil in W. subst u. cbn [app]. unfold p_on_clock. apply follows_clock in F. destruct F as (-> & ->). reflexivity.
Qed.
Lemma idents_complete : forall xs n u r, spells (flat_map (fun x => [WSym ","; WIdent x]) xs) u -> Forall name xs -> p_comma r = Refused ->
  length u <= n -> exists t, sep_more n p_ident p_comma (u ++ r) = Parsed t r /\ map snd t = xs.
Proof.
  induction xs as [|x xs IH]; intros n u r W N R L.
  - apply spells_nil in W. subst u. exists []. split; auto. cbn [app]. destruct n; cbn [sep_more]; now rewrite R.
  - inversion N; subst. cbn [flat_map app] in W. apply spells_sym1 in W. destruct W as (j & u' & -> & W). apply spells_ident in W. destruct W as (u1 & -> & W).
    cbn in L. destruct n as [|n]; [lia|]. destruct (IH n u1 r) as (t & E & Q); auto; try lia.
    exists ((tt, x) :: t). cbn [map snd app sep_more]. unfold p_comma at 1. rewrite p_punct_here. rewrite p_ident_here by auto. cbn [pbind]. rewrite E, Q. auto.
Qed.
Lemma joined_idents : forall xs x, joined "," (map ident_words (x :: xs)) = WIdent x :: flat_map (fun x => [WSym ","; WIdent x]) xs.
Proof.
  induction xs as [|y xs IH]; intros x; [reflexivity|]. cbn [map]. rewrite joined_cons by discriminate. specialize (IH y). cbn [map] in IH. rewrite IH. reflexivity.
Qed.
Lemma args_complete : forall n, pcomplete n follows tidy_args args_words p_args.
Proof.
  intros n (xs, (b, c)) u r W (NE & N & T & C) _ F. cbn [fst snd] in *. unfold args_words in W. cbn [fst snd] in W.
  destruct xs as [|x xs]; [congruence|]. apply spells_split in W. destruct W as (u1 & u2 & -> & W1 & W2).
  change (map (fun x => [WIdent x]) (x :: xs)) with (map ident_words (x :: xs)) in W1. rewrite joined_idents in W1.
  apply spells_ident in W1. destruct W1 as (u3 & -> & W1). apply spells_sym1 in W2. destruct W2 as (j & u4 & -> & W2).
  inversion N; subst.
  destruct (idents_complete xs (length (u3 ++ TPunct ":"%char j :: u4 ++ r)) u3 (TPunct ":"%char j :: u4 ++ r)) as (t & E & Q); auto.
  { rewrite app_length. lia. }
  unfold p_args, p_decls. cbn [app]. rewrite <- app_assoc. cbn [app]. rewrite p_ident_here by auto. cbn [pbind]. rewrite E. cbn [pbind].
  unfold p_colon. rewrite p_punct_here. cbn [pbind].
  change (base_word b :: clock_words c) with ([base_word b] ++ clock_words c) in W2. apply spells_split in W2. destruct W2 as (u5 & u6 & -> & W3 & W4).
  unfold p_type. rewrite <- app_assoc. rewrite (base_complete b u5) by auto. cbn [pbind]. rewrite (on_clock_complete c u6) by auto. cbn [pbind].
  now rewrite Q.
Qed.
Lemma args_start : forall a u r s, tidy_args a -> spells (args_words a) u -> In s keywords -> peek_kw s (u ++ r) = false.
Proof.
  intros (xs, t) u r s (NE & N & _) W K. cbn [fst snd] in *. unfold args_words in W. destruct xs as [|x xs]; [congruence|].
  apply spells_split in W. destruct W as (u1 & u2 & -> & W1 & W2). cbn [fst snd] in W1.
  change (map (fun x => [WIdent x]) (x :: xs)) with (map ident_words (x :: xs)) in W1. rewrite joined_idents in W1.
  apply spells_ident in W1. destruct W1 as (u3 & -> & W1). inversion N; subst. now apply peek_kw_name.
Qed.
Lemma args_nonempty : forall a u, tidy_args a -> spells (args_words a) u -> u <> [].
Proof.
  intros (xs, t) u (NE & N & _) W ->. cbn [fst snd] in *. unfold args_words in W. apply spells_split in W. destruct W as (u1 & u2 & E & W1 & W2).
  symmetry in E. apply app_eq_nil in E. destruct E as (-> & ->). apply spells_sym1 in W2. destruct W2 as (j & u & E & _). discriminate.
Qed.

Lemma loose_inv : forall c (l : list (list word)) u, spells (loose_list (String c "") l) u ->
  exists b : bool, (b = true -> l <> []) /\ spells (joined (String c "") l ++ if b then [WSym (String c "")] else []) u.
Proof.
  intros c l u W. unfold loose_list in W. destruct l as [|w l].
  { exists false. split; [discriminate|]. exact W. }
  apply spells_split in W. destruct W as (u1 & u2 & -> & W1 & W2). apply spells_opt in W2. destruct W2 as [W2|W2].
  - exists true. split; [discriminate|]. now apply spells_app.
  - exists false. split; [discriminate|]. now apply spells_app.
Qed.
Lemma interface_complete : forall l u r, spells [interface_word l] u -> Forall tidy_args l -> p_interface (u ++ r) = Parsed l r.
Proof.
  intros l u r W F. apply spells_group in W. destruct W as (v & u' & -> & W & W'). apply spells_nil in W'. subst u'.
  apply loose_inv in W. destruct W as (b & B & W). unfold p_interface, p_semi.
  rewrite (list_complete _ tidy_args args_words _ ";"%char (weights [TGroup DParen v]) follows (args_complete _) follows_nil follows_semi args_nonempty DParen l b);
    auto; try discriminate.
  - constructor; [exact W|constructor].
  - intros Q ->. now apply B in Q.
Qed.

Lemma locals_complete : forall l u r, spells (locals_words l) u -> Forall tidy_args l -> p_locals (u ++ TIdent "let" :: r) = Parsed l (TIdent "let" :: r).
Proof.
  intros l u r W F. unfold p_locals.
  assert (forall u', spells (flat_map (fun a => args_words a ++ [WSym ";"]) l) u' -> p_locals (TIdent "var" :: u' ++ TIdent "let" :: r) = Parsed l (TIdent "let" :: r)) as H.
  { intros u' W'. unfold p_locals. change (peek_kw "var" (TIdent "var" :: u' ++ TIdent "let" :: r)) with true. cbv iota. rewrite p_kw_here. cbn [pbind].
    unfold p_semi. eapply (until_complete tidy_args args_words p_args ";"%char (S (weights u')) follows); auto.
    - apply args_complete.
    - apply follows_semi.
    - intros a v r' T W1. apply (args_start a); auto. cbn. tauto.
    - rewrite app_length. lia. }
  unfold locals_words in W. destruct l as [|a l].
  - apply spells_opt in W. destruct W as [W|W].
    + apply spells_ident in W. destruct W as (u' & -> & W). apply spells_nil in W. subst u'. apply (H []). constructor.
    + apply spells_nil in W. subst u. reflexivity.
  - apply spells_ident in W. destruct W as (u' & -> & W). now apply H.
Qed.

Lemma target_start : forall t u, tidy_target t -> spells (target_words t) u ->
  (exists x, u = [TIdent x] /\ name x) \/ (exists g, u = [TGroup DParen g]).
Proof.
  intros [x|l b] u T W; cbn [target_words] in W.
  - apply spells_ident in W. destruct W as (u' & -> & W). apply spells_nil in W. subst u'. eauto.
  - apply spells_group in W. destruct W as (v & u' & -> & _ & W). apply spells_nil in W. subst u'. eauto.
Qed.
Lemma target_complete : forall n, pcomplete n (fun _ => True) tidy_target target_words (p_target n).
Proof.
  induction n as [|n IH]; intros t u r W T M _; [lia|]. cbn [p_target]. destruct t as [x|l b].
  - cbn [target_words] in W. apply spells_ident in W. destruct W as (u' & -> & W). apply spells_nil in W. subst u'. cbn [app hint_paren].
    rewrite (p_ident_here x) by exact T. reflexivity.
  - assert (hint_paren (u ++ r) = true) as ->. { apply spells_group in W. destruct W as (v & u' & -> & _). reflexivity. }
    destruct T as (B & T). apply fold_target in T. unfold p_comma.
    rewrite (list_complete _ tidy_target target_words _ ","%char n (fun _ => True) IH I (fun _ _ => I)) with (t := l) (b := b) (d := DParen);
      auto; try discriminate; try lia.
    intros a v TA WA. apply target_start in WA; auto. destruct WA as [(x & -> & _)|(g & ->)]; discriminate.
Qed.
Lemma stmt_complete : forall n, pcomplete n follows tidy_stmt stmt_words (p_stmt n).
Proof.
  intros n i u r W T M F. unfold p_stmt. destruct i as [t e|e]; cbn [stmt_words] in W.
  - destruct T as (T & TE). apply spells_split in W. destruct W as (u1 & u2 & -> & W1 & W2). apply spells_sym1 in W2. destruct W2 as (j & u3 & -> & W2).
    rewrite weights_app, weights_cons in M.
    assert (peek_kw "assert" ((u1 ++ TPunct "="%char j :: u3) ++ r) = false) as ->.
    { apply target_start in W1; auto. destruct W1 as [(x & -> & N)|(g & ->)]; [|reflexivity]. apply peek_kw_name; auto. cbn. tauto. }
    rewrite <- app_assoc. cbn [app]. rewrite (target_complete n t u1) by (auto; lia). cbn [pbind]. unfold p_equal. rewrite p_punct_here. cbn [pbind].
    rewrite (p_expr_complete n e u3) by (auto; lia). reflexivity.
  - apply spells_ident in W. destruct W as (u' & -> & W). rewrite weights_cons in M. cbn [weight] in M.
    cbn [app peek_kw]. rewrite String.eqb_refl, p_kw_here. cbn [pbind]. rewrite (p_expr_complete n e u') by (auto; lia). reflexivity.
Qed.
Lemma stmt_start : forall i u r, tidy_stmt i -> spells (stmt_words i) u -> peek_kw "tel" (u ++ r) = false.
Proof.
  intros [t e|e] u r T W; cbn [stmt_words] in W.
  - apply spells_split in W. destruct W as (u1 & u2 & -> & W1 & _). apply target_start in W1; [|apply T].
    destruct W1 as [(x & -> & N)|(g & ->)]; [|reflexivity]. apply peek_kw_name; auto. cbn. tauto.
  - apply spells_ident in W. destruct W as (u' & -> & W). reflexivity.
Qed.

Lemma split_interface : forall l w u, spells (interface_word l :: w) u -> exists u1 u2, u = u1 ++ u2 /\ spells [interface_word l] u1 /\ spells w u2.
Proof. intros l w u H. now apply (spells_split [interface_word l]) in H. Qed.
Lemma split_base : forall b w u, spells (base_word b :: w) u -> exists u1 u2, u = u1 ++ u2 /\ spells [base_word b] u1 /\ spells w u2.
Proof. intros b w u H. now apply (spells_split [base_word b]) in H. Qed.

Lemma node_complete : forall n, pcomplete n (fun _ => True) tidy_node node_words (p_node n).
Proof.
  intros n sn u r W (N & T1 & T2 & T3 & T4) M _. destruct sn as [f ins outs locs defs]. cbn [s_name s_inputs s_outputs s_locals s_defs] in *.
  unfold node_words in W. cbn [s_name s_inputs s_outputs s_locals s_defs app] in W.
  apply spells_ident in W. destruct W as (w1 & -> & W). apply spells_ident in W. destruct W as (w2 & -> & W).
  apply split_interface in W. destruct W as (u1 & w3 & -> & W1 & W). apply spells_ident in W. destruct W as (w4 & -> & W).
  apply split_interface in W. destruct W as (u2 & w5 & -> & W2 & W). apply spells_sym1 in W. destruct W as (j & w6 & -> & W).
  apply spells_split in W. destruct W as (u3 & w7 & -> & W3 & W). apply spells_ident in W. destruct W as (w8 & -> & W).
  apply spells_split in W. destruct W as (u4 & w9 & -> & W4 & W). apply spells_ident in W. destruct W as (w10 & -> & W). apply spells_nil in W. subst w10.
  repeat (rewrite weights_cons in M || rewrite weights_app in M). cbn [weight] in M.
  unfold p_node. cbn [app]. repeat (rewrite <- app_assoc; cbn [app]). rewrite p_kw_here. cbn [pbind]. rewrite p_ident_here by auto. cbn [pbind].
  rewrite (interface_complete ins u1) by auto. cbn [pbind]. rewrite p_kw_here. cbn [pbind].
  rewrite (interface_complete outs u2) by auto. cbn [pbind]. unfold p_semi at 1. rewrite p_punct_here. cbn [pbind].
  rewrite (locals_complete locs u3) by auto. cbn [pbind]. rewrite p_kw_here. cbn [pbind].
  unfold p_semi. rewrite (until_complete tidy_stmt stmt_words (p_stmt n) ";"%char n follows (peek_kw "tel") (stmt_complete n) follows_semi stmt_start defs)
    by (auto; try lia; rewrite app_length; lia).
  cbn [pbind]. rewrite p_kw_here. reflexivity.
Qed.
Lemma const_complete : forall n x b e u r, spells (decl_words (XConst x b e)) u -> tidy_decl (XConst x b e) -> weights u < n -> follows r ->
  p_const n (u ++ r) = Parsed (XConst x b e) r.
Proof.
  intros n x b e u r W (N & T & TE) M F. cbn [decl_words app] in W.
  apply spells_ident in W. destruct W as (w1 & -> & W). apply spells_ident in W. destruct W as (w2 & -> & W).
  apply spells_sym1 in W. destruct W as (j & w3 & -> & W). apply split_base in W. destruct W as (u1 & w4 & -> & W1 & W).
  apply spells_sym1 in W. destruct W as (j' & w5 & -> & W). repeat (rewrite weights_cons in M || rewrite weights_app in M). cbn [weight] in M.
  unfold p_const. cbn [app]. rewrite <- app_assoc. cbn [app]. rewrite p_kw_here. cbn [pbind]. rewrite p_ident_here by auto. cbn [pbind].
  unfold p_colon. rewrite p_punct_here. cbn [pbind]. rewrite (base_complete b u1) by auto. cbn [pbind]. unfold p_equal. rewrite p_punct_here. cbn [pbind].
  rewrite (p_expr_complete n e w5) by (auto; lia). reflexivity.
Qed.
Lemma decl_complete : forall n, pcomplete n follows tidy_decl decl_words (p_decl n).
Proof.
  intros n d u r W T M F. unfold p_decl. destruct d as [x b e|sn|x b|f i o].
  - rewrite (const_complete n x b e u r) by auto. cbn [decl_words app] in W. apply spells_ident in W. destruct W as (w1 & -> & W). reflexivity.
  - assert (p_node n (u ++ r) = Parsed sn r) as -> by now apply node_complete.
    cbn [decl_words] in W. unfold node_words in W. cbn [app] in W. apply spells_ident in W. destruct W as (w1 & -> & W). reflexivity.
  - cbn [decl_words] in W. destruct T as (N & T). apply spells_ident in W. destruct W as (w1 & -> & W). apply spells_ident in W. destruct W as (w2 & -> & W).
    apply spells_ident in W. destruct W as (w3 & -> & W). apply spells_sym1 in W. destruct W as (j & w4 & -> & W).
    apply split_base in W. destruct W as (u1 & w5 & -> & W1 & W).
    assert (exists c, p_on_clock (w5 ++ r) = Parsed c r) as (c & E).
    { inversion W; subst.
      - match goal with K : spells [] _ |- _ => apply spells_nil in K; subst end. exists CImplicit. apply (on_clock_complete CImplicit []); auto; constructor.
      - match goal with K : spells [] _ |- _ => apply spells_nil in K; subst end.
        match goal with K : _ \/ _ |- _ => destruct K; subst end.
        + eexists. apply (on_clock_complete (CExplicit true x0) [TIdent "when"; TIdent x0]); auto. repeat constructor.
        + eexists. apply (on_clock_complete (CExplicit false x0) [TIdent "whenot"; TIdent x0]); auto. repeat constructor. }
    cbn [app]. rewrite <- app_assoc.
    change (peek_kw "extern" (TIdent "extern" :: TIdent "const" :: TIdent x :: TPunct ":" j :: u1 ++ w5 ++ r)) with true. cbv iota.
    unfold p_extern. rewrite p_kw_here. cbn [pbind].
    change (peek_kw "const" (TIdent "const" :: TIdent x :: TPunct ":" j :: u1 ++ w5 ++ r)) with true. cbv iota.
    rewrite p_kw_here. cbn [pbind]. rewrite p_ident_here by auto. cbn [pbind]. unfold p_colon. rewrite p_punct_here. cbn [pbind].
    unfold p_type. rewrite (base_complete b u1) by auto. cbn [pbind]. rewrite E. reflexivity.
  - cbn [decl_words] in W. destruct T as (N & T1 & T2). apply spells_ident in W. destruct W as (w1 & -> & W). apply spells_ident in W. destruct W as (w2 & -> & W).
    apply spells_ident in W. destruct W as (w3 & -> & W). apply split_interface in W. destruct W as (u1 & w4 & -> & W1 & W).
    apply spells_ident in W. destruct W as (w5 & -> & W). cbn [app]. rewrite <- app_assoc. cbn [app].
    change (peek_kw "extern" (TIdent "extern" :: TIdent "node" :: TIdent f :: u1 ++ TIdent "returns" :: w5 ++ r)) with true. cbv iota.
    unfold p_extern. rewrite p_kw_here. cbn [pbind].
    change (peek_kw "const" (TIdent "node" :: TIdent f :: u1 ++ TIdent "returns" :: w5 ++ r)) with false. cbv iota.
    rewrite p_kw_here. cbn [pbind]. rewrite p_ident_here by auto. cbn [pbind]. rewrite (interface_complete i u1) by auto. cbn [pbind].
    rewrite p_kw_here. cbn [pbind]. rewrite (interface_complete o w5) by auto. reflexivity.
Qed.

(** ** Attributes *)
Lemma ident_complete : forall n, pcomplete n (fun _ => True) name ident_words p_ident.
Proof. intros n x u r W N _ _. apply spells_ident in W. destruct W as (u' & -> & W). apply spells_nil in W. subst u'. now apply p_ident_here. Qed.
Lemma params_complete : forall xs u r, spells [optional_list DBracket (map ident_words xs)] u -> Forall name xs ->
  (forall g r', r <> TGroup DBracket g :: r') -> p_params (u ++ r) = Parsed xs r.
Proof.
  intros xs u r W F R. unfold optional_list in W. destruct (map ident_words xs) as [|w ws] eqn:E.
  - apply map_eq_nil in E. subst xs. apply spells_opt in W. destruct W as [W|W].
    + apply spells_group in W. destruct W as (v & u' & -> & W & W'). apply spells_nil in W. apply spells_nil in W'. subst. reflexivity.
    + apply spells_nil in W. subst u. cbn [app]. unfold p_params. destruct r as [|[| | |[| |] g] r]; auto. exfalso. eapply R; eauto.
  - apply spells_group in W. destruct W as (v & u' & -> & W & W'). apply spells_nil in W'. subst u'. rewrite <- E in W.
    apply loose_inv in W. destruct W as (b & B & W). cbn [app p_params]. change (TGroup DBracket v :: r) with ([TGroup DBracket v] ++ r). unfold p_comma.
    rewrite (list_complete _ name ident_words _ ","%char (weights [TGroup DBracket v]) (fun _ => True) (ident_complete _) I (fun _ _ => I)) with (t := xs) (b := b) (d := DBracket);
      auto; try discriminate.
    + intros a v' _ W1. apply spells_ident in W1. destruct W1 as (u' & -> & _). discriminate.
    + constructor; [exact W|constructor].
    + intros Q ->. discriminate.
Qed.
Definition pmap {A B} (f : A -> B) (p : parser A) : parser B := fun l => DO a, r <~~ p l ;; Parsed (f a) r.
Lemma terminated_map : forall A B (f : A -> B) item sep n l,
  terminated n (pmap f item) sep l = pbind (terminated n item sep l) (fun t r => Parsed (map f (fst t), snd t) r).
Proof.
  intros A B f item sep. induction n as [|n IH]; intros l; destruct l as [|t l]; try reflexivity. cbn [terminated]. unfold pmap at 1.
  destruct (item (t :: l)) as [a r| |]; try reflexivity. cbn [pbind]. destruct r as [|t1 r]; try reflexivity.
  destruct (sep (t1 :: r)) as [x r1| |]; try reflexivity. cbn [pbind]. destruct r1 as [|t2 r1]; try reflexivity. rewrite IH.
  destruct (terminated n item sep (t2 :: r1)) as [(q, b) r2| |]; reflexivity.
Qed.
Lemma lit_complete : forall n, pcomplete n (fun _ => True) (fun _ => True) (fun l => [WArg l]) (pmap attr_lit_of p_lit).
Proof.
  intros n l u r W _ _ _. apply spells_arg in W. destruct W as (v & u' & -> & A & W). apply spells_nil in W. subst u'. rewrite app_nil_r.
  destruct (p_lit_argument _ _ r A) as (k & E & <-). unfold pmap. now rewrite E.
Qed.
Lemma argument_nonempty : forall l v, argument l v -> v <> [].
Proof.
  intros l v H. destruct H as [s|z u H|f u H|b u H|]; try discriminate.
  - inversion H; subst; try discriminate. match goal with K : unsigned _ _ |- _ => inversion K; discriminate end.
  - inversion H; subst; try discriminate. match goal with K : unsigned _ _ |- _ => inversion K; discriminate end.
  - inversion H; discriminate.
Qed.
Lemma targets_complete : forall ts u, spells [optional_list DParen (map (fun l => [WArg l]) ts)] u -> p_targets u = Parsed ts [].
Proof.
  intros ts u W. unfold optional_list in W. destruct (map (fun l => [WArg l]) ts) as [|w ws] eqn:E.
  - apply map_eq_nil in E. subst ts. apply spells_opt in W. destruct W as [W|W].
    + apply spells_group in W. destruct W as (v & u' & -> & W & W'). apply spells_nil in W. apply spells_nil in W'. subst. reflexivity.
    + apply spells_nil in W. subst u. reflexivity.
  - apply spells_group in W. destruct W as (v & u' & -> & W & W'). apply spells_nil in W'. subst u'. rewrite <- E in W.
    apply loose_inv in W. destruct W as (b & B & W).
    assert (terminated (length v) (pmap attr_lit_of p_lit) p_comma v = Parsed (ts, b) []) as Q.
    { unfold p_comma. eapply (terminated_complete (fun _ => True) (fun l => [WArg l]) _ ","%char (S (weights v)) (fun _ => True) (lit_complete _) I (fun _ _ => I)); auto.
      - intros a v' _ W1. apply spells_arg in W1. destruct W1 as (v1 & u' & -> & A & _). apply argument_nonempty in A. destruct v1; [congruence|discriminate].
      - apply Forall_forall. auto.
      - intros Q ->. discriminate. }
    rewrite terminated_map in Q. cbn [p_targets]. unfold p_list, p_group. cbn [pbind].
    destruct (terminated (length v) p_lit p_comma v) as [(q, b') r| |]; try discriminate. cbn [pbind fst snd] in *. inversion Q; subst. reflexivity.
Qed.
Lemma attr_complete : forall a u r, spells (attr_words a) u -> tidy_attr a -> p_attr (u ++ r) = Parsed a r.
Proof.
  intros [x ps ts] u r W (N & F). cbn [a_action a_params a_targets] in *. unfold attr_words in W. cbn [a_action a_params a_targets] in W.
  apply spells_sym1 in W. destruct W as (j & u1 & -> & W). apply spells_group in W. destruct W as (g & u2 & -> & W & W'). apply spells_nil in W'. subst u2.
  apply spells_ident in W. destruct W as (g1 & -> & W).
  change ([optional_list DBracket (map (fun x => [WIdent x]) ps); optional_list DParen (map (fun l => [WArg l]) ts)]) with
    ([optional_list DBracket (map ident_words ps)] ++ [optional_list DParen (map (fun l => [WArg l]) ts)]) in W.
  apply spells_split in W. destruct W as (g2 & g3 & -> & W1 & W2). unfold p_attr. cbn [app]. rewrite p_punct_here. cbn [pbind p_group].
  rewrite p_ident_here by auto. cbn [pbind]. rewrite (params_complete ps g2) by (auto; intros g r' ->; unfold optional_list in W2;
    destruct (map (fun l => [WArg l]) ts); inversion W2; subst;
    match goal with K : spells _ _ |- _ => inversion K end). cbn [pbind]. rewrite (targets_complete ts g3) by auto. reflexivity.
Qed.

Lemma decl_start : forall d u r, spells (decl_words d) u -> peek_punct "#"%char (u ++ r) = false.
Proof.
  intros d u r W. destruct d; cbn [decl_words] in W; unfold node_words in W; cbn [app] in W; apply spells_ident in W; destruct W as (u' & -> & _); reflexivity.
Qed.
Lemma attrdecl_complete : forall al d k n u r, spells (attrdecl_words (al, d)) u -> tidy_attrdecl (al, d) -> weights u < n -> length u <= k -> follows r ->
  p_attrdecl k n (u ++ r) = Parsed (al, d) r.
Proof.
  induction al as [|a al IH]; intros d k n u r W (TA & TD) M L F; unfold attrdecl_words in W; cbn [fst snd flat_map app] in W.
  - assert (p_decl n (u ++ r) = Parsed d r) as E by now apply decl_complete. destruct k; cbn [p_attrdecl]; rewrite (decl_start d) by auto; rewrite E; reflexivity.
  - rewrite <- app_assoc in W. apply spells_split in W. destruct W as (u1 & u2 & -> & W1 & W2). cbn [fst snd] in *. inversion TA; subst.
    assert (exists j u3, u1 = TPunct "#"%char j :: u3) as (j & u3 & E).
    { unfold attr_words in W1. apply spells_sym1 in W1. destruct W1 as (j & u3 & -> & _). eauto. }
    rewrite weights_app in M. rewrite app_length in L.
    assert (1 <= length u1) as L1 by (rewrite E; cbn; lia). destruct k as [|k]; [lia|].
    cbn [p_attrdecl]. rewrite <- app_assoc. rewrite (attr_complete a u1) by auto. cbn [pbind]. rewrite (IH d k n u2) by (auto; try lia; split; auto).
    rewrite E. reflexivity.
Qed.
Theorem prog_complete : forall l p, tidy_prog p -> spells (prog_words p) l -> p_prog l = Parsed p [].
Proof.
  intros l p T W. unfold prog_words in W. apply loose_inv in W. destruct W as (b & B & W). unfold p_prog, p_semi.
  rewrite (terminated_complete tidy_attrdecl attrdecl_words _ ";"%char (S (weights l)) follows) with (t := p) (b := b); auto.
  - intros (al, d) u r W1 T1 _ F. apply attrdecl_complete; auto; [rewrite weights_app|rewrite app_length]; lia.
  - apply follows_nil.
  - apply follows_semi.
  - intros (al, d) u _ W1 ->. unfold attrdecl_words in W1. apply spells_split in W1. destruct W1 as (u1 & u2 & E & _ & W1).
    symmetry in E. apply app_eq_nil in E. destruct E as (-> & ->). cbn [snd] in W1.
    destruct d; cbn [decl_words] in W1; unfold node_words in W1; cbn [app] in W1; apply spells_ident in W1; destruct W1 as (u' & E & _); discriminate.
  - apply Forall_forall. intros a I. now apply T.
  - intros Q ->. now apply B in Q.
Qed.
