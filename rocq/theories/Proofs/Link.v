(** Programs compiled separately. *)
From Coq Require Import String List ZArith Bool Arith Lia Permutation.
From Verif Require Import Model.Base Model.Scalar Model.Value Model.Register Model.Ast Model.Errors Model.Interp Model.Options Model.Surface Model.Translate
  Model.Graph Model.Causality Model.Typecheck Model.Clockcheck Model.Positivity Model.Pipeline
  Spec.TranslateSpec Spec.GraphSpec Spec.ProgramSem Spec.SourceCausal Spec.AttrSpec Spec.ConstSpec Spec.CrashSpec Spec.TypeSpec Spec.ClockSpec Spec.BehaviourSpec Spec.Static Spec.LinkSpec
  Proofs.AstInd Proofs.OutBasics Proofs.CausalityProofs Proofs.PipelineProofs Proofs.TypePipeline Proofs.DeclOrder Proofs.DeclRuns
  Proofs.StaticTypes Proofs.StaticNode Proofs.StaticNames Proofs.StaticProgram.
Import ListNotations.

(** ** Code *)
Definition tree (a : sattrdecl) (d : decl) : Prop := exists d0, result (tr_attrdecl a) = Some d0 /\ decl_causality d0 = inl d.
Definition code (g : list (ident * base)) (f : list (ident * fsig)) (d d4 : decl) : Prop :=
  exists d2 d3, result (tc_one g f d) = Some d2 /\ result (kc_decl d2) = Some d3 /\ result (pos_decl d3) = Some d4.

Lemma tree_function : forall a d d', tree a d -> tree a d' -> d = d'.
Proof. intros a d d' (x & A & B) (y & C & D). congruence. Qed.
Lemma code_function : forall g f d a b, code g f d a -> code g f d b -> a = b.
Proof. intros g f d a b (x & y & A & B & C) (x' & y' & A' & B' & C'). congruence. Qed.
Lemma forall2_join : forall {A B C} (R : A -> B -> Prop) (S : B -> C -> Prop) l m n, Forall2 R l m -> Forall2 S m n ->
  Forall2 (fun a c => exists b, R a b /\ S b c) l n.
Proof. intros A B C R S l m n F. revert n. induction F; intros n G; inversion G; subst; constructor; eauto. Qed.
Lemma forall2_cut : forall {A B C} (R : A -> B -> Prop) (S : B -> C -> Prop) l n, Forall2 (fun a c => exists b, R a b /\ S b c) l n ->
  exists m, Forall2 R l m /\ Forall2 S m n.
Proof. intros A B C R S l n F. induction F as [|a c l n (b & X & Y) F (m & G & H)]; [exists []|exists (b :: m)]; split; constructor; auto. Qed.
Lemma tree_becomes : forall p m, Forall2 tree p m -> Forall2 becomes p m.
Proof. intros p m F. eapply Forall2_weaken; [|exact F]. intros a d (d0 & T & C). eapply tr_becomes; eauto. Qed.

Lemma accepted_code : forall p l, result (pipeline p) = Some l -> exists m l4, Forall2 tree p m /\
  NoDup (flat_map decl_provides m) /\ acyclic decl_provides decl_requires m /\ Forall2 (code (consts m) (funs m)) m l4 /\ Permutation l4 l.
Proof.
  intros p l H. unfold pipeline, tr_prog, analyse, clockcheck, positivity in H. apply obind_some in H. destruct H as (l0 & E0 & H). apply obind_some in H. destruct H as (l1 & E1 & H).
  apply obind_some in H. destruct H as (l2 & E2 & H). apply obind_some in H. destruct H as (l3 & E3 & E4).
  apply omap_result in E0. apply causality_true in E1. apply typecheck_true in E2. apply omap_result in E3. apply omap_result in E4.
  unfold prog_causality in E1. destruct (decls_causality l0) as [m|] eqn:D; [|discriminate]. apply decls_causality_iff in D.
  assert (X : exists out, schedule decl reference reference_eqb decl_provides decl_requires [] m [] = inl out) by eauto.
  apply (schedule_iff _ reference_eqb_spec) in X. destruct X as ([ND _] & _ & Ac).
  destruct (schedule_sorted _ _ E1) as [S1 N1]. pose proof E1 as Pm. apply (schedule_perm _ reference_eqb_spec) in Pm. destruct Pm as [Pm _].
  assert (Dp : forall d, In d l1 -> deep d).
  { intros d J. apply (Permutation_in _ Pm) in J. destruct (forall2_in_r _ _ _ D _ J) as (d0 & J0 & D0).
    destruct (forall2_in_r _ _ _ E0 _ J0) as (a & Ja & T). eapply accepted_deep; eauto. }
  apply (tc_sorted l1 [] l2) in E2; auto. cbn [app] in E2. destruct (context_perm _ _ Pm N1) as [Cg Cf].
  assert (C : Forall2 (code (consts m) (funs m)) l1 l).
  { pose proof (forall2_join _ _ _ _ _ E2 (forall2_join _ _ _ _ _ E3 E4)) as J. eapply Forall2_weaken; [|exact J]. cbn.
    intros d d4 (d2 & T & d3 & K & Q). exists d2, d3. rewrite <- (tc_one_same _ _ _ _ d Cg Cf). auto. }
  destruct (Permutation_Forall2 Pm C) as (l4 & P4 & C4). exists m, l4. split; [|split; [auto|split; [auto|split; [auto|apply Permutation_sym; auto]]]].
  exact (forall2_join _ _ _ _ _ E0 D).
Qed.

Lemma code_accepted : forall p m l4, Forall2 tree p m -> NoDup (flat_map decl_provides m) -> acyclic decl_provides decl_requires m ->
  Forall2 (code (consts m) (funs m)) m l4 -> exists l, result (pipeline p) = Some l /\ Permutation l4 l.
Proof.
  intros p m l4 T N A C. destruct (forall2_cut _ _ _ _ T) as (l0 & T0 & D0).
  assert (X : exists l, result (pipeline p) = Some l).
  { apply accepted_iff. exists l0, m. split; auto. split; auto. split; auto. split; auto. apply Forall_forall. intros d J.
    destruct (forall2_in_l _ _ _ C _ J) as (d4 & _ & d2 & d3 & K). exists d2, d3, d4. auto. }
  destruct X as (l & H). exists l. split; auto. destruct (accepted_code _ _ H) as (m' & l4' & T' & _ & _ & C' & P).
  rewrite <- (Forall2_functional _ tree_function _ _ _ T T') in C'. rewrite (Forall2_functional _ (code_function _ _) _ _ _ C C'). auto.
Qed.

(** The code depends on the types of the names that occur. *)
Lemma code_context : forall a d d4 m m', tree a d -> NoDup (flat_map decl_provides m) -> NoDup (flat_map decl_provides m') ->
  (forall x, mentions (snd a) (Constant x) -> exists t, In (x, t) (flat_map const_of m) /\ In (x, t) (flat_map const_of m')) ->
  (forall x, mentions (snd a) (Node x) -> exists t, In (x, t) (flat_map fun_of m) /\ In (x, t) (flat_map fun_of m')) ->
  code (consts m) (funs m) d d4 -> code (consts m') (funs m') d d4.
Proof.
  intros a d d4 m m' T N N' Hc Hf (d2 & d3 & A & B & C). exists d2, d3. split; auto.
  destruct T as (d0 & T & D). destruct (tr_becomes _ _ _ T D) as (_ & _ & Bc & _).
  assert (Lc : forall m x t, NoDup (flat_map decl_provides m) -> In (x, t) (flat_map const_of m) -> lookup x (consts m) = Some t).
  { intros m0 x t N0 J. unfold consts, funs. apply lookup_unique; [rewrite <- in_rev; auto|]. intros t' J'. rewrite <- in_rev in J'. eapply provided_consts; eauto. }
  assert (Lf : forall m x t, NoDup (flat_map decl_provides m) -> In (x, t) (flat_map fun_of m) -> lookup x (funs m) = Some t).
  { intros m0 x t N0 J. unfold consts, funs. apply lookup_unique; [rewrite <- in_rev; auto|]. intros t' J'. rewrite <- in_rev in J'. eapply provided_funs; eauto. }
  rewrite (tc_one_ext (consts m') (consts m) (funs m') (funs m)); auto; [eapply accepted_deep; eauto| |]; intros x J.
  - apply (becomes_requires _ _ Bc (Constant x)) in J. destruct (Hc _ J) as (t & K & K'). rewrite (Lc _ _ _ N K), (Lc _ _ _ N' K'). auto.
  - apply (becomes_requires _ _ Bc (Node x)) in J. destruct (Hf _ J) as (t & K & K'). rewrite (Lf _ _ _ N K), (Lf _ _ _ N' K'). auto.
Qed.

(** ** Names *)
Lemma typed_names : forall vars consts nodes e t, typed vars consts nodes e t -> forall x, In x (names e) -> name_type vars consts x <> None.
Proof.
  intros vars consts nodes. pose (P := fun e => forall t, typed vars consts nodes e t -> forall f, In f (names e) -> name_type vars consts f <> None).
  assert (L2 : forall l ts, Forall P l -> Forall2 (typed vars consts nodes) l ts -> forall f, In f (flat_map names l) -> name_type vars consts f <> None).
  { intros l ts HP F. revert HP. induction F as [|e t l ts H F IH]; intros HP f I; inversion HP; subst; cbn in I; [tauto|]. apply in_app_iff in I. destruct I; eauto. }
  assert (L1 : forall l t, Forall P l -> Forall (fun e => typed vars consts nodes e t) l -> forall f, In f (flat_map names l) -> name_type vars consts f <> None).
  { intros l t HP F f I. apply in_flat_map in I. destruct I as (e & I & J). rewrite Forall_forall in HP, F. exact (HP e I t (F e I) f J). }
  assert (LP : forall O (l : list (O * sexpr)) t, Forall (fun p => P (snd p)) l -> Forall (fun p => typed vars consts nodes (snd p) t) l ->
    forall f, In f (flat_map (fun p => names (snd p)) l) -> name_type vars consts f <> None).
  { intros O l t HP F f I. apply in_flat_map in I. destruct I as (e & I & J). rewrite Forall_forall in HP, F. exact (HP e I t (F e I) f J). }
  assert (Paren : forall l b t, Forall P l -> typed vars consts nodes (XParen l b) t -> forall f, In f (flat_map names l) -> name_type vars consts f <> None).
  { intros l b t HP T f I. inversion T; subst; [|eapply L2; eauto]. cbn in I. rewrite app_nil_r in I. inversion HP as [|? ? HPe _]; subst. eapply HPe; eauto. }
  intros e. change (P e). induction e using sexpr_ind'; intros t T h I; cbn [names] in I.
  - destruct I.
  - destruct I as [<-|[]]. inversion T; subst. congruence.
  - eapply Paren; eauto.
  - inversion T; subst. eapply Paren; eauto.
  - inversion T; subst. eauto.
  - inversion T; subst. eauto.
  - inversion T; subst. eauto.
  - inversion T; subst. rewrite !in_app_iff in I. destruct I as [I|[I|I]]; eauto.
  - inversion T; subst. rewrite !in_app_iff in I. destruct I as [I|[I|I]]; eauto.
  - rewrite in_app_iff in I. inversion T; subst; destruct I as [I|I]; eauto. apply (LP _ l (TSingle b) H); auto.
    apply Forall_forall. match goal with Q : Forall (fun p => _ /\ _) _ |- _ => rewrite Forall_forall in Q; intros p J; apply (Q p J) end.
  - rewrite in_app_iff in I. inversion T; subst; (destruct I as [I|I]; [eauto|]); cbn [flat_map snd In app] in I; [destruct I|]. rewrite app_nil_r in I. inversion H; subst. cbn [snd] in *. eauto.
  - rewrite in_app_iff in I. inversion T; subst; destruct I as [I|I]; eauto.
  - rewrite in_app_iff in I. inversion T; subst; destruct I as [I|I]; eauto.
  - rewrite in_app_iff in I. inversion T; subst; destruct I as [I|I]; eauto.
Qed.

Lemma constant_introduced : forall p x t, In (x, t) (flat_map constant_of p) -> exists a, In a p /\ introduces (snd a) = Constant x.
Proof.
  intros p x t H. apply in_flat_map in H. destruct H as (a & J & K). exists a. split; auto. destruct a as [at_ []]; cbn in *; try tauto; destruct K as [K|[]]; inversion K; auto.
Qed.
Lemma interface_introduced : forall p x t, In (x, t) (flat_map interface_of p) -> exists a, In a p /\ introduces (snd a) = Node x.
Proof.
  intros p x t H. apply in_flat_map in H. destruct H as (a & J & K). exists a. split; auto. destruct a as [at_ []]; cbn in *; try tauto; destruct K as [K|[]]; inversion K; auto.
Qed.

(** Every name that occurs is declared. *)
Lemma mentions_declared : forall p a n, well_formed p -> In a p -> mentions (snd a) n -> exists b, In b p /\ introduces (snd b) = n.
Proof.
  intros p a n (Ok & _) J (e & Je & M). specialize (Ok a J). destruct a as [at_ sd]. unfold decl_ok in Ok. cbn [fst snd] in *. destruct Ok as (_ & _ & Ok).
  destruct sd as [x t e0|sn|x t|x i o]; cbn [expressions In] in Je; try (destruct Je; fail).
  - destruct Je as [<-|[]]. destruct Ok as (_ & T). destruct n as [y|f].
    + destruct M as [M _]. pose proof (typed_names _ _ _ _ _ T _ M) as K. unfold name_type in K.
      destruct (lookup y (flat_map constant_of p)) as [t'|] eqn:L; [|congruence]. apply lookup_found in L. eapply constant_introduced; eauto.
    + destruct (typed_calls _ _ _ _ _ T _ M) as (i & K). discriminate.
  - apply in_map_iff in Je. destruct Je as (i & Q & Ji). destruct Ok as (_ & _ & _ & _ & _ & K). destruct (K i Ji) as (S & _).
    assert (T : exists t, typed (fun x => option_map fst (lookup x (variables (s_inputs sn ++ s_outputs sn ++ s_locals sn))))
      (fun x => lookup x (flat_map constant_of p)) (fun f => lookup f (flat_map interface_of p)) e t).
    { destruct i; subst e; cbn in S; [destruct S as (t & _ & S)|]; eauto. }
    destruct T as (t & T). destruct n as [y|f].
    + destruct M as [M V]. pose proof (typed_names _ _ _ _ _ T _ M) as L. unfold name_type in L.
      destruct (lookup y (variables _)) as [b|] eqn:Lv.
      * exfalso. apply V. apply lookup_found in Lv. apply (in_map fst) in Lv. rewrite variables_names, !declared_app in Lv. exact Lv.
      * cbn in L. destruct (lookup y (flat_map constant_of p)) as [t'|] eqn:L'; [|congruence]. apply lookup_found in L'. eapply constant_introduced; eauto.
    + destruct (typed_calls _ _ _ _ _ T _ M) as (i' & L). apply lookup_found in L. eapply interface_introduced; eauto.
Qed.

Lemma imports_introduces : forall lib e, imports lib e -> exists a, In a lib /\ introduces (snd e) = introduces (snd a) /\
  constant_of e = constant_of a /\ interface_of e = interface_of a.
Proof.
  intros lib e (X & a & J & C & I). exists a. split; auto. split; auto. destruct e as [ea es], a as [aa as_].
  destruct es, as_; cbn in *; try tauto; try discriminate; try congruence.
Qed.

Lemma introduced_provides : forall p m, Forall2 tree p m -> flat_map decl_provides m = map reference_of (map (fun a => introduces (snd a)) p).
Proof.
  intros p m F. apply tree_becomes in F. induction F as [|a d p m B F IH]; auto. cbn [flat_map map]. rewrite (becomes_provides _ _ B), IH. reflexivity.
Qed.
Lemma tree_consts : forall p m, Forall2 tree p m -> flat_map const_of m = flat_map constant_of p.
Proof. intros p m F. apply tree_becomes in F. induction F as [|a d p m B F IH]; auto. cbn [flat_map]. rewrite (becomes_const _ _ B), IH. reflexivity. Qed.
Lemma tree_funs : forall p m, Forall2 tree p m -> map (fun v => (fst v, interface_sig (snd v))) (flat_map fun_of m) = flat_map interface_of p.
Proof. intros p m F. apply tree_becomes in F. induction F as [|a d p m B F IH]; auto. cbn [flat_map]. rewrite map_app, (becomes_fun _ _ B), IH. reflexivity. Qed.
Lemma in_funs : forall p m, Forall2 tree p m -> forall x s, In (x, s) (flat_map fun_of m) <-> In (x, interface_sig s) (flat_map interface_of p).
Proof.
  intros p m F x s. rewrite <- (tree_funs _ _ F). split.
  - intros J. apply (in_map (fun v => (fst v, interface_sig (snd v)))) in J. exact J.
  - intros J. apply in_map_iff in J. destruct J as ([y s'] & Q & J). cbn in Q. inversion Q; subst. destruct s, s'. cbn in *. congruence.
Qed.
Lemma introduces_constant : forall a x, introduces (snd a) = Constant x -> exists t, In (x, t) (constant_of a).
Proof. intros [at_ d] x Q; destruct d; cbn in *; inversion Q; subst; eauto. Qed.
Lemma introduces_interface : forall a x, introduces (snd a) = Node x -> exists s, In (x, interface_sig s) (interface_of a).
Proof.
  intros [at_ d] x Q. destruct d as [y t e|sn|y t|y i o]; cbn in *; inversion Q; subst.
  - exists (mkSig (type_params at_) (types (s_inputs sn)) (types (s_outputs sn))). left. reflexivity.
  - exists (mkSig (type_params at_) (types i) (types o)). left. reflexivity.
Qed.

(** ** Two programs *)
Lemma forall2_both : forall {A B C} (R : A -> B -> Prop) (S S' : B -> C -> Prop) l m n, Forall2 R l m -> Forall2 S m n ->
  (forall a b c, In a l -> R a b -> S b c -> S' b c) -> Forall2 S' m n.
Proof.
  intros A B C R S S' l m n F. revert n. induction F as [|a b l m H F IH]; intros n G K; inversion G; subst; constructor.
  - eapply K; eauto; cbn; auto.
  - apply IH; auto. intros. eapply K; eauto; cbn; auto.
Qed.
Lemma definitions_perm : forall l l', Permutation l l' -> Permutation (definitions l) (definitions l').
Proof.
  unfold definitions. induction 1 as [|d l l' P IH|d d' l|l l' l'' P IH P' IH']; cbn [filter]; auto.
  - destruct d; auto.
  - destruct d, d'; auto using perm_swap.
  - eapply Permutation_trans; eauto.
Qed.
Lemma definitions_app : forall l l', definitions (l ++ l') = definitions l ++ definitions l'.
Proof. intros. apply filter_app. Qed.
Lemma extern_tree : forall a d, extern (snd a) -> tree a d -> match d with DExtConst _ _ _ | DExtNode _ _ _ _ => True | _ => False end.
Proof. intros a d X (d0 & T & C). destruct (tr_becomes _ _ _ T C) as (_ & _ & B & _). destruct B; cbn in *; auto. Qed.
Lemma extern_code : forall g f d d4, match d with DExtConst _ _ _ | DExtNode _ _ _ _ => True | _ => False end -> code g f d d4 -> definitions [d4] = [].
Proof.
  intros g f d d4 X (d2 & d3 & T & K & P). destruct d; try tauto; cbn [tc_one] in T.
  - inversion T; subst. cbn in K. inversion K; subst. cbn in P. inversion P; subst. reflexivity.
  - apply obind_some in T. destruct T as (u & _ & T). inversion T; subst. cbn [kc_decl] in K. apply obind_some in K. destruct K as (u' & _ & K). inversion K; subst.
    cbn in P. inversion P; subst. reflexivity.
Qed.
Lemma extern_codes : forall g f p m c, (forall a, In a p -> extern (snd a)) -> Forall2 tree p m -> Forall2 (code g f) m c -> definitions c = [].
Proof.
  intros g f p m c X T. revert c. induction T as [|a d p m H T IH]; intros c C; inversion C; subst; auto.
  assert (E : definitions [y] = []) by (eapply extern_code; [eapply extern_tree; [apply X; cbn; auto|exact H]|eassumption]).
  change (y :: l') with ([y] ++ l'). rewrite definitions_app, E, IH; auto. intros. apply X. cbn. auto.
Qed.
Lemma nth_in_l : forall {A} (l l' : list A) i, i < length l -> nth_error (l ++ l') i = nth_error l i.
Proof. intros. apply nth_error_app1. auto. Qed.
Lemma nth_in_r : forall {A} (l l' : list A) i, length l <= i -> nth_error (l ++ l') i = nth_error l' (i - length l).
Proof. intros. apply nth_error_app2. auto. Qed.

Section Link.
  Variables lib imp cli : sprog.
  Hypothesis Im : forall e, In e imp -> imports lib e.
  Hypothesis Ap : apart lib cli.

  Lemma constants_agree : forall x t, In (x, t) (flat_map constant_of (imp ++ cli)) -> In (x, t) (flat_map constant_of (lib ++ cli)).
  Proof.
    intros x t J. rewrite flat_map_app in *. apply in_app_iff in J. apply in_app_iff. destruct J as [J|J]; auto. left.
    apply in_flat_map in J. destruct J as (e & Je & J). destruct (imports_introduces _ _ (Im e Je)) as (a & Ja & _ & C & _). rewrite C in J. apply in_flat_map. eauto.
  Qed.
  Lemma interfaces_agree : forall x t, In (x, t) (flat_map interface_of (imp ++ cli)) -> In (x, t) (flat_map interface_of (lib ++ cli)).
  Proof.
    intros x t J. rewrite flat_map_app in *. apply in_app_iff in J. apply in_app_iff. destruct J as [J|J]; auto. left.
    apply in_flat_map in J. destruct J as (e & Je & J). destruct (imports_introduces _ _ (Im e Je)) as (a & Ja & _ & _ & C). rewrite C in J. apply in_flat_map. eauto.
  Qed.

  Lemma nodup_both : forall p q, NoDup (map (fun a => introduces (snd a)) p) -> NoDup (map (fun a : sattrdecl => introduces (snd a)) q) -> apart p q ->
    NoDup (map (fun a => introduces (snd a)) (p ++ q)).
  Proof.
    clear. induction p as [|a p IH]; intros q Np Nq A; cbn; auto. inversion Np; subst. constructor.
    - rewrite map_app, in_app_iff. intros [J|J]; [auto|]. apply in_map_iff in J. destruct J as (b & Q & J). eapply (A a b); cbn; auto.
    - apply IH; auto. intros x y J K. apply A; cbn; auto.
  Qed.
  Lemma nodup_parts : forall p q, NoDup (map (fun a : sattrdecl => introduces (snd a)) (p ++ q)) ->
    NoDup (map (fun a => introduces (snd a)) p) /\ NoDup (map (fun a => introduces (snd a)) q) /\ apart p q.
  Proof.
    clear. intros p q N. rewrite map_app in N. induction p as [|a p IH]; cbn in *.
    - split; [constructor|]. split; auto. intros x y [].
    - inversion N; subst. destruct (IH H2) as (A & B & C). rewrite in_app_iff in H1. split; [constructor; auto|]. split; auto.
      intros x y [<-|J] K; auto. intros Q. apply H1. right. rewrite Q. apply in_map with (f := fun a => introduces (snd a)). auto.
  Qed.

  Hypothesis Wl : well_formed lib.

  (** The library does not depend on its client. *)
  Lemma library_closed : forall i j, follows (lib ++ cli) i j -> i < length lib -> j < length lib /\ follows lib i j.
  Proof.
    intros i j (a & b & Ha & Hb & M) L. pose proof Ha as Ha'. rewrite nth_in_l in Ha' by auto.
    destruct (mentions_declared _ _ _ Wl (nth_error_In _ _ Ha') M) as (b' & Jb & Q).
    destruct (Nat.lt_ge_cases j (length lib)) as [Lj|Lj].
    - split; auto. exists a, b. rewrite nth_in_l in Hb by auto. auto.
    - exfalso. rewrite nth_in_r in Hb by auto. apply nth_error_In in Hb. exact (Ap _ _ Jb Hb Q).
  Qed.
  Lemma library_closed_plus : forall i j, follows_plus (lib ++ cli) i j -> i < length lib -> j < length lib /\ follows_plus lib i j.
  Proof.
    induction 1 as [i j F|i j k F _ IH]; intros L; destruct (library_closed _ _ F L) as (Lj & F').
    - split; auto. apply fp_one. auto.
    - destruct (IH Lj) as (Lk & G). split; auto. eapply fp_more; eauto.
  Qed.
  Lemma client_follows : forall i j, follows_plus (lib ++ cli) (length lib + i) (length lib + j) -> follows_plus (imp ++ cli) (length imp + i) (length imp + j).
  Proof.
    assert (S : forall i j, follows (lib ++ cli) (length lib + i) (length lib + j) -> follows (imp ++ cli) (length imp + i) (length imp + j)).
    { intros i j (a & b & Ha & Hb & M). rewrite nth_in_r in Ha, Hb by lia. exists a, b. rewrite !nth_in_r by lia.
      replace (length imp + i - length imp) with (length lib + i - length lib) by lia. replace (length imp + j - length imp) with (length lib + j - length lib) by lia. auto. }
    intros i j H. remember (length lib + i) as x eqn:Ex. remember (length lib + j) as y eqn:Ey. revert i Ex. induction H as [x y F|x z y F G IH]; intros i Ex; subst.
    - apply fp_one. auto.
    - destruct (Nat.lt_ge_cases z (length lib)) as [L|L].
      + destruct (library_closed_plus _ _ G L). lia.
      + replace z with (length lib + (z - length lib)) in * by lia. eapply fp_more; [apply S; exact F|]. apply IH; auto.
  Qed.

  Theorem linked : forall l1 l2, result (pipeline lib) = Some l1 -> result (pipeline (imp ++ cli)) = Some l2 ->
    exists l, result (pipeline (lib ++ cli)) = Some l /\ Permutation (definitions l) (definitions (l1 ++ l2)).
  Proof.
    intros l1 l2 H1 H2. destruct (accepted_code _ _ H1) as (m1 & c1 & T1 & N1 & A1 & C1 & P1).
    destruct (accepted_code _ _ H2) as (m2 & c2 & T2 & N2 & A2 & C2 & P2).
    assert (W2 : well_formed (imp ++ cli)) by (apply accepted_well_formed; eauto).
    apply Forall2_app_inv_l in T2. destruct T2 as (mi & mc & Ti & Tc & ->). pose proof (Forall2_app Ti Tc) as T2.
    apply Forall2_app_inv_l in C2. destruct C2 as (ci & cc & Ci & Cc & ->). pose proof (Forall2_app T1 Tc) as T.
    assert (Nn : NoDup (map (fun a => introduces (snd a)) (lib ++ cli))).
    { destruct W2 as (_ & W2 & _). apply nodup_parts in W2. apply nodup_both; [apply Wl|tauto|auto]. }
    assert (N : NoDup (flat_map decl_provides (m1 ++ mc))) by (apply (names_distinct _ _ (tree_becomes _ _ T)); auto).
    assert (A : acyclic decl_provides decl_requires (m1 ++ mc)).
    { apply (names_acyclic _ _ (tree_becomes _ _ T)). intros i F. destruct (Nat.lt_ge_cases i (length lib)) as [L|L].
      - destruct (library_closed_plus _ _ F L) as (_ & G). exact (proj2 (proj2 Wl) _ G).
      - replace i with (length lib + (i - length lib)) in F by lia. apply client_follows in F. exact (proj2 (proj2 W2) _ F). }
    assert (C : Forall2 (code (consts (m1 ++ mc)) (funs (m1 ++ mc))) (m1 ++ mc) (c1 ++ cc)).
    { apply Forall2_app.
      - assert (K : forall a d d4, In a lib -> tree a d -> code (consts m1) (funs m1) d d4 -> code (consts (m1 ++ mc)) (funs (m1 ++ mc)) d d4).
        { intros a d d4 Ja Ta Ca. apply (code_context a d d4 m1 (m1 ++ mc) Ta N1 N); auto; intros x M; destruct (mentions_declared _ _ _ Wl Ja M) as (b & Jb & Q).
          - destruct (introduces_constant _ _ Q) as (t & Jt). exists t. rewrite flat_map_app, in_app_iff, (tree_consts _ _ T1).
            assert (J : In (x, t) (flat_map constant_of lib)) by (apply in_flat_map; eauto). auto.
          - destruct (introduces_interface _ _ Q) as (t & Jt). exists t. rewrite flat_map_app, in_app_iff.
            assert (J : In (x, t) (flat_map fun_of m1)) by (apply (in_funs _ _ T1); apply in_flat_map; eauto). auto. }
        eapply forall2_both; [exact T1|exact C1|]. intros. eapply K; eauto.
      - eapply forall2_both; [exact Tc|exact Cc|]. intros a d d4 Ja Ta Ca.
        assert (Ja' : In a (imp ++ cli)) by (apply in_app_iff; auto).
        apply (code_context a d d4 (mi ++ mc) (m1 ++ mc) Ta N2 N); auto; intros x M; destruct (mentions_declared _ _ _ W2 Ja' M) as (b & Jb & Q).
        + destruct (introduces_constant _ _ Q) as (t & Jt). exists t. rewrite (tree_consts _ _ T2), (tree_consts _ _ T).
          assert (J : In (x, t) (flat_map constant_of (imp ++ cli))) by (apply in_flat_map; eauto). auto using constants_agree.
        + destruct (introduces_interface _ _ Q) as (t & Jt). exists t. rewrite (in_funs _ _ T2), (in_funs _ _ T).
          assert (J : In (x, interface_sig t) (flat_map interface_of (imp ++ cli))) by (apply in_flat_map; eauto). auto using interfaces_agree. }
    destruct (code_accepted _ _ _ T N A C) as (l & H & P). exists l. split; auto.
    rewrite <- (definitions_perm _ _ P), definitions_app, definitions_app, <- (definitions_perm _ _ P1), <- (definitions_perm _ _ P2), definitions_app.
    rewrite (extern_codes _ _ _ _ _ (fun e Je => proj1 (Im e Je)) Ti Ci). reflexivity.
  Qed.

  (** The client can be compiled against declarations of what it uses. *)
  Hypothesis Ni : NoDup (map (fun a => introduces (snd a)) imp).
  Hypothesis Used : forall a b, In a lib -> In b cli -> mentions (snd b) (introduces (snd a)) -> exists e, In e imp /\ introduces (snd e) = introduces (snd a).

  Lemma imported_idle : forall i j, follows (imp ++ cli) i j -> length imp <= i.
  Proof.
    intros i j (a & b & Ha & _ & (e & Je & _)). destruct (Nat.lt_ge_cases i (length imp)) as [L|L]; auto. exfalso.
    rewrite nth_in_l in Ha by auto. destruct (Im a (nth_error_In _ _ Ha)) as (X & _). destruct (snd a); cbn in *; tauto.
  Qed.
  Lemma client_follows_back : forall i j, follows_plus (imp ++ cli) (length imp + i) (length imp + j) -> follows_plus (lib ++ cli) (length lib + i) (length lib + j).
  Proof.
    assert (S : forall i j, follows (imp ++ cli) (length imp + i) (length imp + j) -> follows (lib ++ cli) (length lib + i) (length lib + j)).
    { intros i j (a & b & Ha & Hb & M). rewrite nth_in_r in Ha, Hb by lia. exists a, b. rewrite !nth_in_r by lia.
      replace (length lib + i - length lib) with (length imp + i - length imp) by lia. replace (length lib + j - length lib) with (length imp + j - length imp) by lia. auto. }
    intros i j H. remember (length imp + i) as x eqn:Ex. remember (length imp + j) as y eqn:Ey. revert i Ex. induction H as [x y F|x z y F G IH]; intros i Ex; subst.
    - apply fp_one. auto.
    - assert (L : length imp <= z) by (inversion G; subst; eapply imported_idle; eauto).
      replace z with (length imp + (z - length imp)) in * by lia. eapply fp_more; [apply S; exact F|]. apply IH; auto.
  Qed.

  Theorem separated : forall l, result (pipeline (lib ++ cli)) = Some l -> (forall e, In e imp -> exists x, result (pipeline [e]) = Some x) ->
    exists l2, result (pipeline (imp ++ cli)) = Some l2.
  Proof.
    intros l H Ei. destruct (accepted_code _ _ H) as (m & c & T & N & _ & C & _).
    assert (W : well_formed (lib ++ cli)) by (apply accepted_well_formed; eauto).
    apply Forall2_app_inv_l in T. destruct T as (m1 & mc & T1 & Tc & ->). pose proof (Forall2_app T1 Tc) as T.
    apply Forall2_app_inv_l in C. destruct C as (c1 & cc & C1 & Cc & ->).
    assert (Ti : exists mi, Forall2 tree imp mi).
    { clear - Ei. induction imp as [|e p IH]; [exists []; constructor|]. destruct IH as (mi & F); [intros; apply Ei; cbn; auto|].
      destruct (Ei e) as (x & X); [cbn; auto|]. destruct (accepted_code _ _ X) as (m & c & T & _). inversion T; subst. exists (y :: mi). constructor; auto. }
    destruct Ti as (mi & Ti). pose proof (Forall2_app Ti Tc) as T2.
    assert (Nn : NoDup (map (fun a => introduces (snd a)) (imp ++ cli))).
    { destruct W as (_ & W & _). apply nodup_parts in W. apply nodup_both; [auto|tauto|]. intros e b Je Jb Q.
      destruct (imports_introduces _ _ (Im e Je)) as (a & Ja & Qa & _). rewrite Qa in Q. exact (Ap _ _ Ja Jb Q). }
    assert (N2 : NoDup (flat_map decl_provides (mi ++ mc))) by (apply (names_distinct _ _ (tree_becomes _ _ T2)); auto).
    assert (A : acyclic decl_provides decl_requires (mi ++ mc)).
    { apply (names_acyclic _ _ (tree_becomes _ _ T2)). intros i F. assert (L : length imp <= i) by (inversion F; subst; eapply imported_idle; eauto).
      replace i with (length imp + (i - length imp)) in F by lia. apply client_follows_back in F. exact (proj2 (proj2 W) _ F). }
    assert (Ci : exists ci, Forall2 (code (consts (mi ++ mc)) (funs (mi ++ mc))) mi ci).
    { assert (K : forall e d, In e imp -> tree e d -> exists d4, code (consts (mi ++ mc)) (funs (mi ++ mc)) d d4).
      { intros e d Je Te. destruct (Ei e Je) as (x & X). destruct (accepted_code _ _ X) as (m & c & Tm & Nm & _ & Cm & _).
        inversion Tm as [|? d' ? ? Te' Tn]; subst. inversion Tn; subst. rewrite (tree_function _ _ _ Te' Te) in *.
        inversion Cm as [|? d4 ? ? Ce Cn]; subst. exists d4. apply (code_context e d d4 [d] (mi ++ mc) Te); auto;
          intros y (e' & M & _); destruct (Im e Je) as (Xe & _); destruct (snd e); cbn in *; tauto. }
      clear - K Ti. revert Ti K. generalize (consts (mi ++ mc)) (funs (mi ++ mc)). intros g f Ti. induction Ti as [|e d p m0 H T IH]; intros K; [exists []; constructor|].
      destruct IH as (ci & F); [intros; eapply K; eauto; cbn; auto|]. destruct (K e d) as (d4 & D); [cbn; auto|auto|]. exists (d4 :: ci). constructor; auto. }
    destruct Ci as (ci & Ci).
    assert (Cc' : Forall2 (code (consts (mi ++ mc)) (funs (mi ++ mc))) mc cc).
    { eapply forall2_both; [exact Tc|exact Cc|]. intros a d d4 Ja Ta Ca.
      assert (Ja' : In a (lib ++ cli)) by (apply in_app_iff; auto).
      assert (K : forall n, mentions (snd a) n -> exists b, In b (imp ++ cli) /\ introduces (snd b) = n).
      { intros n M. destruct (mentions_declared _ _ _ W Ja' M) as (b & Jb & Q). apply in_app_iff in Jb. destruct Jb as [Jb|Jb].
        - rewrite <- Q in M. destruct (Used _ _ Jb Ja M) as (e & Je & Qe). exists e. rewrite in_app_iff, Qe. auto.
        - exists b. rewrite in_app_iff. auto. }
      apply (code_context a d d4 (m1 ++ mc) (mi ++ mc) Ta N N2); auto; intros x M; destruct (K _ M) as (b & Jb & Q).
      + destruct (introduces_constant _ _ Q) as (t & Jt). exists t. rewrite (tree_consts _ _ T2), (tree_consts _ _ T).
        assert (J : In (x, t) (flat_map constant_of (imp ++ cli))) by (apply in_flat_map; eauto). auto using constants_agree.
      + destruct (introduces_interface _ _ Q) as (t & Jt). exists t. rewrite (in_funs _ _ T2), (in_funs _ _ T).
        assert (J : In (x, interface_sig t) (flat_map interface_of (imp ++ cli))) by (apply in_flat_map; eauto). auto using interfaces_agree. }
    destruct (code_accepted _ _ _ T2 N2 A (Forall2_app Ci Cc')) as (l2 & H2 & _). eauto.
  Qed.
End Link.

(** Behaviour *)
Lemma nodes_definitions : forall l, nodes_of (definitions l) = nodes_of l.
Proof. intros l. unfold nodes_of, definitions. f_equal. induction l as [|d l IH]; auto. destruct d; cbn; rewrite ?IH; auto. Qed.

Lemma code_called : forall g f d d4, code g f d d4 -> called d4 = called d.
Proof.
  intros g f d d4 (d2 & d3 & T & K & P).
  assert (E2 : called d2 = called d).
  { destruct d; cbn [tc_one] in T; try (inversion T; auto; fail); apply obind_some in T; destruct T as (r & T & Q); try (inversion Q; auto; fail).
    destruct r as [nd' gens]. inversion Q; subst. unfold tc_node in T. inv_out. reflexivity. }
  assert (E3 : called d3 = called d2).
  { destruct d2; cbn [kc_decl] in K; try (inversion K; auto; fail); apply obind_some in K; destruct K as (nd' & K & Q); inversion Q; subst; auto.
    unfold kc_node in K. inv_out. reflexivity. }
  rewrite <- E2, <- E3. destruct d3; cbn [pos_decl] in P; try (inversion P; auto; fail). apply obind_some in P. destruct P as (nd' & P & Q). inversion Q; subst.
  unfold pos_node in P. apply obind_some in P. destruct P as (m & _ & P). inversion P. reflexivity.
Qed.
Lemma node_source : forall p l nd, result (pipeline p) = Some l -> In nd (nodes_of l) ->
  exists a, In a p /\ introduces (snd a) = Node (n_name nd) /\ ~ extern (snd a) /\ forall g, In g (n_blocks nd) -> mentions (snd a) (Node g).
Proof.
  intros p l nd H J. destruct (accepted_code _ _ H) as (m & c & T & _ & _ & C & P).
  unfold nodes_of in J. apply in_rev in J. apply in_flat_map in J. destruct J as (d4 & Jd & J). destruct d4 as [|o nd'| |]; cbn in J; try tauto. destruct J as [->|[]].
  apply (Permutation_in _ (Permutation_sym P)) in Jd. destruct (forall2_in_r _ _ _ C _ Jd) as (d & Jd' & Cd). destruct (forall2_in_r _ _ _ T _ Jd') as (a & Ja & d0 & Ta & Da).
  destruct (tr_becomes _ _ _ Ta Da) as (_ & _ & B & _). apply code_called in Cd. exists a. split; auto.
  destruct d as [|o1 nd1| |]; cbn in Cd; try discriminate. inversion Cd as [[Q1 Q2]].
  split; [|split].
  - pose proof (becomes_provides _ _ B) as Pr. cbn [decl_provides] in Pr. rewrite Q1. apply (reference_inj). cbn [reference_of]. congruence.
  - inversion B; subst. cbn. auto.
  - intros g G. apply (becomes_requires _ _ B (Node g)). cbn [decl_requires reference_of]. apply in_app_iff. left. apply in_map. rewrite <- Q2. auto.
Qed.

Theorem linked_behaviour : forall lib imp cli l1 l2, (forall e, In e imp -> imports lib e) -> apart lib cli ->
  result (pipeline lib) = Some l1 -> result (pipeline (imp ++ cli)) = Some l2 ->
  exists l, result (pipeline (lib ++ cli)) = Some l /\ Permutation (definitions l) (definitions (l1 ++ l2)) /\
    same_behaviour (nodes_of l) (nodes_of l2 ++ nodes_of l1).
Proof.
  intros lib imp cli l1 l2 Im Ap H1 H2. assert (Wl : well_formed lib) by (apply accepted_well_formed; eauto).
  destruct (linked lib imp cli Im Ap Wl l1 l2 H1 H2) as (l & H & P). exists l. split; auto. split; auto.
  assert (Pn : Permutation (nodes_of l) (nodes_of l2 ++ nodes_of l1)).
  { assert (Q : nodes_of l2 ++ nodes_of l1 = nodes_of (l1 ++ l2)) by (unfold nodes_of; rewrite flat_map_app, rev_app_distr; auto).
    rewrite Q, <- nodes_definitions, <- (nodes_definitions (l1 ++ l2)). apply nodes_perm. auto. }
  destruct (accepted_ranked _ _ H) as [R N]. 
  assert (R' : ranked (nodes_of l2 ++ nodes_of l1)).
  { destruct (accepted_ranked _ _ H1) as [R1 _], (accepted_ranked _ _ H2) as [R2 _]. intros a nd b Q g G J.
    assert (S : (exists b', nodes_of l2 = a ++ nd :: b') \/ (exists a', a = nodes_of l2 ++ a' /\ nodes_of l1 = a' ++ nd :: b)).
    { clear - Q. revert a Q. induction (nodes_of l2) as [|n l IH]; intros [|n' a] Q; cbn in Q.
      - right. exists []. auto.
      - right. exists (n' :: a). auto.
      - left. inversion Q; subst. exists l. auto.
      - inversion Q; subst. destruct (IH _ H1) as [(b' & ->)|(a' & -> & E)]; [left; exists b'; auto|right; exists a'; auto]. }
    destruct S as [(b' & S)|(a' & -> & S)]; [eapply (R2 _ _ _ S); eauto|].
    rewrite <- app_assoc, map_app in J. apply in_app_iff in J. destruct J as [J|J]; [|eapply (R1 _ _ _ S); eauto].
    assert (Jn : In nd (nodes_of l1)) by (rewrite S; apply in_app_iff; cbn; auto).
    destruct (node_source _ _ _ H1 Jn) as (x & Jx & _ & _ & M). destruct (mentions_declared _ _ _ Wl Jx (M _ G)) as (y & Jy & Qy).
    apply in_map_iff in J. destruct J as (nd' & Qn & J). destruct (node_source _ _ _ H2 J) as (z & Jz & Qz & Xz & _).
    apply in_app_iff in Jz. destruct Jz as [Jz|Jz]; [exact (Xz (proj1 (Im z Jz)))|]. apply (Ap y z Jy Jz). congruence. }
  split; [|split; [|split]]; intros.
  - apply same_init; auto.
  - apply same_step; auto.
  - apply same_run; auto.
  - apply same_main; auto.
Qed.
