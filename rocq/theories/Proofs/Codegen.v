(** Code generation does not abort on programs with ordinary names and finite
    literals, and the identifiers it creates are not keywords. *)
From Coq Require Import String Ascii List ZArith Bool Arith Lia DecimalString.
From Coq Require Import Floats.SpecFloat.
From Verif Require Import Model.Base Model.Scalar Model.Value Model.Ast Model.Errors Model.Interp Model.Options Model.Surface Model.Translate
  Model.Pipeline Model.Names Model.Codegen Spec.TranslateSpec Spec.CrashSpec Spec.NamesSpec Spec.CodegenSpec
  Proofs.OutBasics Proofs.AstInd Proofs.Constants Proofs.NoCrash Proofs.Names Proofs.CodegenNames.
Import ListNotations.
Local Open Scope string_scope.
Local Open Scope list_scope.

(** ** Identifiers *)
Definition no_raw : list string := ["_"; "self"; "Self"; "super"; "crate"].
Definition legal (x : ident) : Prop := is_ident x = true /\ ~ In x no_raw.

Lemma all_chars_forall : forall f s, all_chars f s = true <-> Forall (fun c => f c = true) (list_ascii_of_string s).
Proof.
  intros f s. induction s as [|c s IH]; cbn; [split; auto|]. rewrite andb_true_iff, IH. split; [intros []; auto|intros H; inversion H; auto].
Qed.
Lemma letters_letter : forall c, In c letters -> letter c = true.
Proof. intros c H. cbn in H. repeat (destruct H as [<-|H]; [reflexivity|]). destruct H. Qed.
Lemma digits_digit : forall c, In c digits -> letter_or_digit c = true.
Proof. intros c H. cbn in H. repeat (destruct H as [<-|H]; [reflexivity|]). destruct H. Qed.
Lemma letter_digit : forall c, letter c = true -> letter_or_digit c = true.
Proof. intros c H. unfold letter_or_digit. rewrite H. reflexivity. Qed.

Lemma ordinary_legal : forall x, ordinary x -> legal x.
Proof.
  intros x (c & l & E & Hc & Hl & N). split; [|exact N]. destruct x as [|c' s]; [discriminate|]. cbn in E. inversion E; subst.
  cbn. rewrite letters_letter by auto. cbn. apply all_chars_forall, Forall_forall. intros d J.
  destruct (Hl _ J); [apply letter_digit, letters_letter; auto|apply digits_digit; auto].
Qed.
Lemma raw_legal : forall x, legal x -> creatable (Raw x) = true.
Proof.
  intros x [A B]. cbn [creatable]. rewrite A. cbn [andb]. apply negb_true_iff. fold no_raw. destruct (existsb (String.eqb x) no_raw) eqn:E; auto.
  apply existsb_exists in E. destruct E as (y & J & E). apply String.eqb_eq in E. subst. contradiction.
Qed.
Lemma plain_legal : forall x, legal x -> creatable (Plain x) = true.
Proof. intros x [A _]. exact A. Qed.

Lemma all_chars_app : forall f a b, all_chars f (a ++ b)%string = all_chars f a && all_chars f b.
Proof. intros f a b. induction a as [|c a IH]; cbn; auto. rewrite IH, andb_assoc. auto. Qed.
Lemma ident_app : forall a b, is_ident a = true -> all_chars letter_or_digit b = true -> is_ident (a ++ b)%string = true.
Proof.
  intros [|c a] b A B; [discriminate|]. cbn in *. apply andb_true_iff in A. destruct A as [A1 A2]. rewrite A1, all_chars_app, A2, B. reflexivity.
Qed.
Lemma decimal_chars : forall n, all_chars letter_or_digit (decimal n) = true.
Proof. intros n. unfold decimal. induction (Nat.to_uint n); cbn; auto. Qed.
Lemma local_legal : forall x, legal x -> creatable (Plain (local_id x)) = true.
Proof. intros x [A _]. apply ident_app; auto. Qed.
Lemma node_legal : forall uid x, legal x -> creatable (Plain (node_id uid x)) = true.
Proof. intros uid x [A _]. apply ident_app; auto. rewrite !all_chars_app, decimal_chars. reflexivity. Qed.
Lemma global_legal : forall uid x, legal x -> creatable (Plain (global_id uid x)) = true.
Proof. intros uid x [A _]. apply ident_app; auto. rewrite !all_chars_app, decimal_chars. reflexivity. Qed.

(** ** Declarations *)
Definition can (l : list request) : Prop := forall r, In r l -> creatable r = true.
Lemma can_app : forall a b, can a -> can b -> can (a ++ b).
Proof. intros a b A B r J. apply in_app_iff in J. destruct J; auto. Qed.
Lemma can_cons : forall r l, creatable r = true -> can l -> can (r :: l).
Proof. intros r l A B r' [<-|J]; auto. Qed.
Lemma can_nil : can [].
Proof. intros r []. Qed.
Lemma can_flat : forall {A} (f : A -> list request) l, (forall a, In a l -> can (f a)) -> can (flat_map f l).
Proof. intros A f l H r J. apply in_flat_map in J. destruct J as (a & Ja & J). eapply H; eauto. Qed.
Lemma can_map : forall {A} (f : A -> request) l, (forall a, In a l -> creatable (f a) = true) -> can (map f l).
Proof. intros A f l H r J. apply in_map_iff in J. destruct J as (a & <- & J). auto. Qed.

Notation fine := (fine legal legal finite).
Notation clean := (clean legal finite).

Lemma base_can : forall b, base_fine legal b -> can (base_requests b).
Proof. intros [| | |t] H; try apply can_nil. apply can_cons; [apply plain_legal; exact H|apply can_nil]. Qed.
Lemma ty_can : forall t, ty_fine legal t -> can (ty_requests t).
Proof.
  induction t using ty_ind'; intros F; cbn [ty_requests ty_fine] in *; [apply base_can; auto|]. apply fold_all in F.
  apply can_flat. intros t J. rewrite Forall_forall in H, F. auto.
Qed.
Lemma expr_can : forall uid e, clean e -> can (expr_requests uid e).
Proof.
  intros uid. induction e using expr_ind'; intros C;
    (assert (Ch : forall c, In c (children _) -> clean c) by (intros c J; eapply clean_child; [exact C|exact J]));
    cbn [children expr_requests] in *; try apply can_nil;
    try (repeat apply can_app; first [apply IHe|apply IHe1|apply IHe2|apply IHe3]; apply Ch; cbn; auto; fail).
  - apply can_cons; [|apply can_nil]. apply local_legal. apply (C (EVar x d)). constructor.
  - apply can_cons; [|apply can_nil]. apply global_legal. apply (C (EGlobal x)). constructor.
  - apply can_flat. intros e J. rewrite Forall_forall in H. auto.
Qed.
Lemma target_can : forall t, target_fine legal t -> can (target_requests t).
Proof.
  induction t using vartuple_ind'; intros F; cbn [target_requests target_fine] in *; [apply can_cons; [apply local_legal; auto|apply can_nil]|].
  apply fold_all in F. apply can_flat. intros t J. rewrite Forall_forall in H, F. auto.
Qed.
Lemma option_can : forall uid o, option_clean legal finite o -> can (option_requests uid o).
Proof. intros uid [e|] H; [apply expr_can; auto|apply can_nil]. Qed.
Lemma stmt_can : forall uid i, stmt_fine legal finite i -> can (stmt_requests uid i).
Proof.
  intros uid [t e|e|id v c|id e] H; cbn [stmt_requests stmt_fine] in *.
  - apply can_app; [apply target_can|apply expr_can]; apply H.
  - apply expr_can; auto.
  - apply can_app; apply option_can; apply H.
  - apply expr_can; auto.
Qed.
Lemma interface_can : forall l, Forall (var_fine legal legal) l -> can (interface_requests l).
Proof.
  intros l H. apply can_flat. intros v J. rewrite Forall_forall in H. destruct (H _ J) as (A & B & _). apply can_cons; [apply local_legal|apply base_can]; auto.
Qed.
Lemma trace_can : forall o l, Forall (var_fine legal legal) l -> can (trace_requests o l).
Proof.
  intros [o|] l H; [|apply can_nil]. apply can_flat. intros v J. rewrite Forall_forall in H. destruct (H _ J) as (A & _).
  apply can_cons; [apply local_legal; auto|apply can_cons; [apply raw_legal; auto|apply can_nil]].
Qed.

Lemma decl_can : forall uid d, fine d -> checked legal d -> can (requests uid d).
Proof.
  intros uid [o x t e|o nd|o x t|o x i o'] F C; cbn [requests CodegenNames.fine checked] in *.
  - destruct F as (A & B & D). apply can_app; [|apply can_app; [apply expr_can|apply base_can]; auto].
    apply can_cons; [apply raw_legal; auto|apply can_cons; [apply global_legal; auto|apply can_nil]].
  - destruct F as (A & B & G & D & E & _). unfold all_vars in B. rewrite !Forall_app in B. destruct B as (Bi & Bo & Bl).
    apply can_app; [apply can_cons; [apply raw_legal; auto|apply can_cons; [apply node_legal; auto|apply can_nil]]|].
    apply can_app; [apply interface_can; rewrite Forall_app; auto|].
    apply can_app; [apply interface_can; rewrite Forall_forall in *; intros v J; apply filter_In in J; apply Bl, J|].
    apply can_app; [apply can_map; intros g J; rewrite Forall_forall in G; apply raw_legal; auto|].
    apply can_app; [apply can_map; intros f J; rewrite Forall_forall in D; apply node_legal; auto|].
    apply can_app; [apply can_flat; intros r J; rewrite Forall_forall in C; destruct (C _ J) as (t & -> & T); apply ty_can; auto|].
    apply can_app; [apply trace_can; rewrite !Forall_app; auto|].
    apply can_flat. intros i J. rewrite Forall_forall in E. apply stmt_can. auto.
  - destruct F as [A B]. apply can_app; [|apply base_can; auto].
    apply can_cons; [apply raw_legal; auto|apply can_cons; [apply global_legal; auto|apply can_nil]].
  - destruct F as (A & B & G).
    apply can_app; [apply can_cons; [apply raw_legal; auto|apply can_cons; [apply node_legal; auto|apply can_nil]]|].
    apply can_app; [apply interface_can; auto|].
    apply can_app; [apply can_map; intros g J; rewrite Forall_forall in G; apply raw_legal; auto|apply trace_can; auto].
Qed.

(** ** Literals *)
Lemma lit_ok : forall l, clean (ELit l) -> lit_renders l = true.
Proof.
  intros [z|f|b] C; auto. assert (F : finite f) by (apply (C (ELit (LFloat f))); constructor). destruct f; cbn in *; auto; contradiction.
Qed.
Lemma expr_ok : forall e, clean e -> expr_renders e = true.
Proof.
  induction e using expr_ind'; intros C;
    (assert (Ch : forall c, In c (children _) -> clean c) by (intros c J; eapply clean_child; [exact C|exact J]));
    cbn [children expr_renders] in *; auto;
    try (rewrite ?andb_true_iff; repeat split; first [apply IHe|apply IHe1|apply IHe2|apply IHe3]; apply Ch; cbn; auto; fail).
  - apply lit_ok. auto.
  - apply forallb_forall. intros e J. rewrite Forall_forall in H. auto.
Qed.
Lemma const_ok : forall e, clean e -> cexpr e -> (forall x n, ~ occurs (EVar x n) e) -> const_renders e = true.
Proof.
  intros e C H. induction H; intros N;
    (assert (Ch : forall c, In c (children _) -> clean c) by (intros c' J; eapply clean_child; [exact C|exact J]));
    (assert (Nh : forall c, In c (children _) -> forall x n, ~ occurs (EVar x n) c) by (intros c' J x' n' O'; eapply N; eapply occ_child; [exact J|exact O']));
    cbn [children const_renders] in *; auto.
  - apply lit_ok. auto.
  - exfalso. eapply N. constructor.
  - apply IHcexpr; [apply Ch|apply Nh]; cbn; auto.
  - apply IHcexpr; [apply Ch|apply Nh]; cbn; auto.
  - rewrite andb_true_iff. split; [apply IHcexpr1|apply IHcexpr2]; first [apply Ch; cbn; auto; fail|apply Nh; cbn; auto].
  - rewrite andb_true_iff. split; [apply IHcexpr1|apply IHcexpr2]; first [apply Ch; cbn; auto; fail|apply Nh; cbn; auto].
  - rewrite !andb_true_iff. repeat split; [apply IHcexpr1|apply IHcexpr2|apply IHcexpr3]; first [apply Ch; cbn; auto; fail|apply Nh; cbn; auto].
Qed.
Lemma decl_renders : forall d, fine d -> checked legal d -> clocked d -> renders d = true.
Proof.
  intros [o x t e|o nd|o x t|o x i o'] F C K; cbn [renders CodegenNames.fine checked clocked] in *; auto.
  - destruct F as (_ & _ & D), C. apply const_ok; auto.
  - destruct F as (_ & _ & _ & _ & E & _). rewrite andb_true_iff, !forallb_forall. rewrite Forall_forall in C, E. split.
    + intros r J. destruct (C _ J) as (t & -> & _). reflexivity.
    + intros i J. pose proof (E _ J) as Ei. destruct i as [t e|e|id v c|id e]; cbn [stmt_renders stmt_fine] in *; try (apply expr_ok; tauto).
      destruct Ei as [Ev Ec]. destruct c as [c|]; [|exfalso; apply (K _ _ _ J); auto]. rewrite (expr_ok c) by auto.
      destruct v as [v|]; cbn in *; auto. rewrite expr_ok; auto.
Qed.

(** ** Programs *)
Lemma vars_types_names : forall l x, In x (vars_types l) -> In x (vars_names l).
Proof.
  intros l x J. apply in_flat_map in J. destruct J as ([xs [b c]] & J & K). apply in_flat_map. exists (xs, (b, c)). split; auto. rewrite !in_app_iff. auto.
Qed.
Lemma types_names : forall d x, In x (decl_types d) -> In x (decl_names d).
Proof.
  intros [y b e|sn|y b|f i o] x J; cbn [decl_types decl_names] in *; cbn [In]; rewrite ?in_app_iff in *; auto;
    repeat destruct J as [J|J]; auto 6 using vars_types_names.
Qed.
Theorem expansion_same : forall uid p, plain_words p -> expand uid p = compile p.
Proof.
  intros uid p Pw. unfold expand.
  assert (Al : forallb (fun a => forallb allows (fst a)) p = true).
  { apply forallb_forall. intros a Ja. apply forallb_forall. intros b Jb. unfold allows. destruct (String.eqb (a_action b) "rustc_allow" || String.eqb (a_action b) "clippy_allow")%bool; auto.
    destruct (a_params b) as [|x [|]] eqn:E; auto. destruct (a_targets b); [|reflexivity].
    assert (O : ordinary x); [|apply ordinary_legal in O; apply O]. apply (pw_names _ Pw a); auto. unfold CodegenSpec.names. apply in_app_iff. left.
    apply in_flat_map. exists b. rewrite E. cbn. auto. }
  rewrite Al. destruct (compile p) as [[l|] ws|] eqn:E; [|reflexivity|reflexivity].
  assert (R : result (pipeline p) = Some l).
  { unfold compile in E. destruct (pipeline p) as [[l'|] [|] ws'|]; cbn in *; congruence. }
  assert (G : forallb (fun d => forallb creatable (requests uid d) && renders d) l = true); [|rewrite G; reflexivity].
  apply forallb_forall. intros d J. destruct (compiled_fine legal legal finite _ _ R) with (d := d) as (F & C & K); auto.
  { intros a Ja. split.
    - intros x Jx. apply ordinary_legal. eapply (pw_names _ Pw); eauto.
    - split; [|intros e f Je Jf; eapply (pw_floats _ Pw); eauto]. intros x Jx. apply ordinary_legal. eapply (pw_names _ Pw); eauto. apply in_app_iff. right. apply types_names, Jx. }
  rewrite andb_true_iff. split; [|apply decl_renders; auto]. apply forallb_forall. apply decl_can; auto.
Qed.

Theorem expansion_safe : forall uid p, precautions p -> plain_words p -> expand uid p <> Crashed.
Proof. intros uid p Pc Pw. rewrite expansion_same by auto. apply no_crash; auto. Qed.

(** ** Keywords *)
Lemma plain_reserved : forall s, In s rust_keywords -> plain s.
Proof. intros x I. unfold rust_keywords in I. cbn in I. repeat destruct I as [<-|I]; try (plain_lit; fail). destruct I. Qed.
Definition unreserved (x : string) : Prop := ~ In x rust_keywords.
Lemma marked_unreserved : forall a b, unreserved (a ++ "__lus_" ++ b)%string.
Proof. intros a b J. apply (plain_reserved _ J a b eq_refl). Qed.
Definition fresh (l : list request) : Prop := forall s, In (Plain s) l -> unreserved s.
Lemma fresh_app : forall a b, fresh a -> fresh b -> fresh (a ++ b).
Proof. intros a b A B s J. apply in_app_iff in J. destruct J; auto. Qed.
Lemma fresh_cons : forall s l, unreserved s -> fresh l -> fresh (Plain s :: l).
Proof. intros r l A B s [X|J]; auto. inversion X; subst. auto. Qed.
Lemma fresh_raw : forall s l, fresh l -> fresh (Raw s :: l).
Proof. intros r l B s [X|J]; auto. discriminate. Qed.
Lemma fresh_nil : fresh [].
Proof. intros s []. Qed.
Lemma fresh_flat : forall {A} (f : A -> list request) l, (forall a, In a l -> fresh (f a)) -> fresh (flat_map f l).
Proof. intros A f l H r J. apply in_flat_map in J. destruct J as (a & Ja & J). eapply H; eauto. Qed.
Lemma fresh_raws : forall l, fresh (map Raw l).
Proof. intros l s J. apply in_map_iff in J. destruct J as (a & X & _). discriminate. Qed.
Lemma fresh_nodes : forall uid l, fresh (map (fun f => Plain (node_id uid f)) l).
Proof. intros uid l s J. apply in_map_iff in J. destruct J as (a & X & _). inversion X; subst. apply marked_unreserved. Qed.
Local Hint Resolve fresh_app fresh_cons fresh_raw fresh_nil marked_unreserved fresh_raws fresh_nodes : fresh.

Notation any := (fun _ => True).
Lemma base_fresh : forall b, base_fine unreserved b -> fresh (base_requests b).
Proof. intros [| | |t] H; cbn; auto with fresh. Qed.
Lemma ty_fresh : forall t, ty_fine unreserved t -> fresh (ty_requests t).
Proof.
  induction t using ty_ind'; intros F; cbn [ty_requests ty_fine] in *; [apply base_fresh; auto|]. apply fold_all in F.
  apply fresh_flat. intros t J. rewrite Forall_forall in H, F. auto.
Qed.
Lemma expr_fresh : forall uid e, fresh (expr_requests uid e).
Proof.
  intros uid. induction e using expr_ind'; cbn [expr_requests]; auto with fresh.
  - apply fresh_cons; [apply (marked_unreserved x "local")|auto with fresh].
  - apply fresh_cons; [apply marked_unreserved|auto with fresh].
  - apply fresh_flat. intros e J. rewrite Forall_forall in H. auto.
Qed.
Lemma local_unreserved : forall x, unreserved (local_id x).
Proof. intros x. apply (marked_unreserved x "local"). Qed.
Lemma target_fresh : forall t, fresh (target_requests t).
Proof.
  induction t using vartuple_ind'; cbn [target_requests]; [apply fresh_cons; auto using local_unreserved, fresh_nil|].
  apply fresh_flat. intros t J. rewrite Forall_forall in H. auto.
Qed.
Lemma stmt_fresh : forall uid i, fresh (stmt_requests uid i).
Proof.
  intros uid [t e|e|id v c|id e]; cbn [stmt_requests]; repeat apply fresh_app; auto using expr_fresh, target_fresh.
  all: match goal with |- fresh (option_requests _ ?o) => destruct o end; cbn; auto using expr_fresh, fresh_nil.
Qed.
Lemma interface_fresh : forall l, Forall (var_fine any unreserved) l -> fresh (interface_requests l).
Proof.
  intros l H. apply fresh_flat. intros v J. rewrite Forall_forall in H. destruct (H _ J) as (A & B & _).
  apply fresh_cons; [apply local_unreserved|apply base_fresh; auto].
Qed.
Lemma trace_fresh : forall o l, fresh (trace_requests o l).
Proof.
  intros [o|] l; [|apply fresh_nil]. apply fresh_flat. intros v J. apply fresh_cons; [apply local_unreserved|auto with fresh].
Qed.
Lemma decl_fresh : forall uid d, CodegenNames.fine any unreserved any d -> checked unreserved d -> fresh (requests uid d).
Proof.
  intros uid [o x t e|o nd|o x t|o x i o'] F C; cbn [requests CodegenNames.fine checked] in *.
  - destruct F as (A & B & D). apply fresh_app; [|apply fresh_app; [apply expr_fresh|apply base_fresh; auto]].
    apply fresh_raw, fresh_cons; [apply marked_unreserved|apply fresh_nil].
  - destruct F as (A & B & _). unfold all_vars in B. rewrite !Forall_app in B. destruct B as (Bi & Bo & Bl).
    apply fresh_app; [apply fresh_raw, fresh_cons; [apply marked_unreserved|apply fresh_nil]|].
    apply fresh_app; [apply interface_fresh; rewrite Forall_app; auto|].
    apply fresh_app; [apply interface_fresh; rewrite Forall_forall in *; intros v J; apply filter_In in J; apply Bl, J|].
    apply fresh_app; [apply fresh_raws|]. apply fresh_app; [apply fresh_nodes|].
    apply fresh_app; [apply fresh_flat; intros r J; rewrite Forall_forall in C; destruct (C _ J) as (t & -> & T); apply ty_fresh; auto|].
    apply fresh_app; [apply trace_fresh|]. apply fresh_flat. intros i J. apply stmt_fresh.
  - destruct F as [A B]. apply fresh_app; [|apply base_fresh; auto].
    apply fresh_raw, fresh_cons; [apply marked_unreserved|apply fresh_nil].
  - destruct F as (A & B & _).
    apply fresh_app; [apply fresh_raw, fresh_cons; [apply marked_unreserved|apply fresh_nil]|].
    apply fresh_app; [apply interface_fresh; auto|]. apply fresh_app; [apply fresh_raws|apply trace_fresh].
Qed.

Theorem no_keywords : forall uid p l ws, compile p = Expanded (Some l) ws ->
  (forall a x, In a p -> In x (decl_types (snd a)) -> ~ In x rust_keywords) ->
  forall d s, In d l -> In (Plain s) (requests uid d) -> ~ In s rust_keywords.
Proof.
  intros uid p l ws E T d s J Js.
  assert (R : result (pipeline p) = Some l) by (unfold compile in E; destruct (pipeline p) as [[l'|] [|] ws'|]; cbn in *; congruence).
  destruct (compiled_fine any unreserved any _ _ R) with (d := d) as (F & C & _); auto.
  { intros a Ja. split; [auto|]. split; [intros x Jx; eapply T; eauto|auto]. }
  eapply decl_fresh; eauto.
Qed.

Lemma expansion_aborts : forall uid p l ws d, compile p = Expanded (Some l) ws -> In d l ->
  (exists r, In r (requests uid d) /\ creatable r = false) \/ renders d = false -> expand uid p = Crashed.
Proof.
  intros uid p l ws d E J H. unfold expand. destruct forallb; auto. rewrite E.
  destruct (forallb (fun d => forallb creatable (requests uid d) && renders d) l) eqn:F; auto.
  rewrite forallb_forall in F. specialize (F _ J). apply andb_true_iff in F. destruct F as [F1 F2].
  destruct H as [(r & Jr & C)|R]; [|congruence]. rewrite forallb_forall in F1. apply F1 in Jr. congruence.
Qed.
