(** Translation and analysis of a renamed program. *)
From Coq Require Import String List ZArith Bool Arith Permutation.
From Verif Require Import Model.Base Model.Scalar Model.Value Model.Ast Model.Errors Model.Options Model.Surface Model.Interp
  Model.Translate Model.Graph Model.Causality Model.Typecheck Model.Clockcheck Model.Positivity Model.Constexpr Model.Pipeline
  Spec.RenameSpec Spec.GraphSpec Proofs.AstInd Proofs.OutBasics Proofs.CausalityProofs Proofs.Stripped Proofs.Renamed Proofs.RenamedChecks Proofs.DeclOrder.
Import ListNotations.

Section Tr.
  Variables rl rg rf : ident -> ident.
  Hypothesis Il : injective rl.
  Local Notation re := (re rl rg).
  Local Notation rst := (rst rl rg).
  Local Notation rx := (renamed_expr rl rf).
  Definition rtst (s : tst) : tst := mkT (map rf (t_blocks s)) (map rst (t_stmts s)) (t_regs s) (t_flips s).
  Definition rp (p : expr * tst) := (re (fst p), rtst (snd p)).
  Definition rps (p : list expr * tst) := (map re (fst p), rtst (snd p)).
  Definition rpo (p : option expr * tst) := (option_map re (fst p), rtst (snd p)).

  Variable u : bool.
  Variable locals : list ident.
  Definition fine (x : ident) : Prop := ~ In x locals -> rl x = rg x.
  Local Notation T e := (forall d s, tr u (map rl locals) (rx e) d (rtst s) = rmap rp (tr u locals e d s)).

  Lemma elems_r : forall l, Forall (fun e => T e) l -> forall d s,
    tr_elems (tr u (map rl locals)) (map rx l) d (rtst s) = rmap rps (tr_elems (tr u locals) l d s).
  Proof.
    intros l H. induction H as [|e l E _ IH]; intros d s; simpl; auto. apply (om rp); auto. intros [e1 s1]. cbn [rp fst snd].
    apply (om rps); [apply IH|]. intros [l1 s2]. auto.
  Qed.
  Lemma left_r : forall O (compose : O -> expr -> expr -> expr),
    (forall o a b, compose o (re a) (re b) = re (compose o a b)) -> forall l, Forall (fun q => T (snd q)) l -> forall acc d s,
    tr_left (tr u (map rl locals)) compose (re acc) (map (fun p => (fst p, rx (snd p))) l) d (rtst s) =
    rmap rp (tr_left (tr u locals) compose acc l d s).
  Proof.
    intros O compose C l H. induction H as [|[o e] l E _ IH]; intros acc d s; simpl; auto. apply (om rp); [apply E|]. intros [e1 s1].
    cbn [rp fst snd]. rewrite C. apply IH.
  Qed.
  Definition rcompose (compose : nat -> nat -> expr -> expr -> tst -> expr * tst) : Prop :=
    forall d i a b s, compose d i (re a) (re b) (rtst s) = rp (compose d i a b s).
  Lemma right_r : forall bump compose, rcompose compose -> forall l, Forall (fun e => T e) l -> forall i d s,
    tr_right (tr u (map rl locals)) bump compose i (map rx l) d (rtst s) = rmap rpo (tr_right (tr u locals) bump compose i l d s).
  Proof.
    intros bump compose C l H. induction H as [|e l E _ IH]; intros i d s; simpl; auto.
    apply (om rpo); [apply IH|]. intros [acc s1]. cbn [rpo fst snd]. apply (om rp); [apply E|]. intros [e1 s2]. cbn [rp fst snd].
    destruct acc as [a|]; simpl; auto. rewrite C. destruct (compose d i e1 a s2). auto.
  Qed.
  Lemma paren_r : forall es t, paren (map re es) t = re (paren es t).
  Proof. intros [|a [|b l]] []; auto. Qed.
  Lemma registers_r : rcompose fby_registers.
  Proof. intros d i a b s. unfold fby_registers, rp, rtst. simpl. rewrite !map_app. auto. Qed.
  Lemma flips_r : rcompose then_flips.
  Proof. intros d i a b s. auto. Qed.
  Lemma later_r : rcompose later.
  Proof. intros d i a b s. auto. Qed.

  Lemma all_T : forall l, Forall (fun e => (forall x, In x (mentioned e) -> fine x) -> T e) l ->
    (forall x, In x (flat_map mentioned l) -> fine x) -> Forall (fun e => T e) l.
  Proof.
    intros l H. induction H as [|e l E _ IH]; intros F; constructor.
    - apply E. intros x I. apply F. simpl. apply in_app_iff. auto.
    - apply IH. intros x I. apply F. simpl. apply in_app_iff. auto.
  Qed.
  Lemma alls_T : forall O (l : list (O * sexpr)), Forall (fun p => (forall x, In x (mentioned (snd p)) -> fine x) -> T (snd p)) l ->
    (forall x, In x (flat_map (fun p => mentioned (snd p)) l) -> fine x) -> Forall (fun p => T (snd p)) l.
  Proof.
    intros O l H. induction H as [|e l E _ IH]; intros F; constructor.
    - apply E. intros x I. apply F. simpl. apply in_app_iff. auto.
    - apply IH. intros x I. apply F. simpl. apply in_app_iff. auto.
  Qed.
  Lemma in_locals : forall x, fine x ->
    tr_var (map rl locals) (rl x) = fun d => re (tr_var locals x d).
  Proof.
    intros x F. unfold tr_var. rewrite existsb_inj by auto. destruct (existsb (String.eqb x) locals) eqn:E; auto.
    simpl. rewrite F; auto. intros I. assert (existsb (String.eqb x) locals = true); [|congruence].
    apply existsb_exists. exists x. split; auto. apply String.eqb_refl.
  Qed.
  Ltac one := apply (om rp); [auto|]; intros [? ?]; cbn [rp fst snd].
  Lemma tr_r : forall e, (forall x, In x (mentioned e) -> fine x) -> T e.
  Proof.
    induction e using sexpr_ind'; intros F d s0.
    - cbn [renamed_expr tr]. rewrite rmap_obind. destruct l as [z|b|f|]; simpl; auto; try (destruct (in_i64 z); auto).
      all: match goal with |- context[in_i64 ?z] => destruct (in_i64 z) end; auto.
    - cbn [renamed_expr tr]. rewrite in_locals; auto. apply F. simpl. auto.
    - cbn [renamed_expr tr]. apply (om rps); [apply elems_r, all_T; auto|]. intros [es s1]. cbn [rps fst snd]. rewrite paren_r. auto.
    - cbn [renamed_expr tr]. apply (om rps); [apply elems_r, all_T; auto|]. intros [es s1]. cbn [rps fst snd]. rewrite paren_r.
      unfold done, rp, rtst, add_block. simpl. rewrite map_length, map_app. auto.
    - cbn [renamed_expr tr]. one. auto.
    - cbn [renamed_expr tr]. one. auto.
    - cbn [renamed_expr tr]. destruct u.
      + apply (om rp); [apply (IHe F d (new_reg s0))|]. intros [e1 s1]. cbn [rp fst snd]. unfold done, rp, rtst, add_stmt. simpl. rewrite !map_app. auto.
      + one. auto.
    - cbn [renamed_expr tr]. simpl in F.
      apply (om rp); [apply IHe1; intros; apply F; rewrite !in_app_iff; auto|]. intros [c s1]. cbn [rp fst snd].
      apply (om rp); [apply IHe2; intros; apply F; rewrite !in_app_iff; auto|]. intros [a s2]. cbn [rp fst snd].
      apply (om rp); [apply IHe3; intros; apply F; rewrite !in_app_iff; auto|]. intros [b s3]. auto.
    - cbn [renamed_expr tr]. simpl in F.
      apply (om rp); [apply IHe1; intros; apply F; rewrite !in_app_iff; auto|]. intros [c s1]. cbn [rp fst snd].
      apply (om rp); [apply IHe2; intros; apply F; rewrite !in_app_iff; auto|]. intros [a s2]. cbn [rp fst snd].
      apply (om rp); [apply IHe3; intros; apply F; rewrite !in_app_iff; auto|]. intros [b s3]. auto.
    - cbn [renamed_expr tr]. simpl in F. apply (om rp); [apply IHe; intros; apply F; rewrite !in_app_iff; auto|]. intros [c s1]. cbn [rp fst snd].
      apply left_r; auto. apply alls_T; auto. intros x I. apply F. apply in_app_iff. auto.
    - cbn [renamed_expr tr]. simpl in F. apply (om rp); [apply IHe; intros; apply F; rewrite !in_app_iff; auto|]. intros [c s1]. cbn [rp fst snd].
      assert (A : Forall (fun p => T (snd p)) l) by (apply alls_T; auto; intros x I; apply F; apply in_app_iff; auto).
      destruct l as [|[o1 e1] [|[o2 e2] l]]; simpl; auto.
      + inversion A; subst. apply (om rp); auto. intros [r s2]. auto.
      + inversion A as [|? ? A1 A']; subst. inversion A' as [|? ? A2 A'']; subst. simpl in *.
        apply (om rp); auto. intros [r s2]. cbn [rp fst snd]. apply (om rp); auto. intros [r' s3]. auto.
    - cbn [renamed_expr tr]. simpl in F. apply (om rp); [apply IHe; intros; apply F; rewrite !in_app_iff; auto|]. intros [c s1]. cbn [rp fst snd].
      apply left_r; auto. apply alls_T; auto. intros x I. apply F. apply in_app_iff. auto.
    - cbn [renamed_expr tr]. simpl in F.
      assert (A : Forall (fun e => T e) l) by (apply all_T; auto; intros x I; apply F; apply in_app_iff; auto).
      assert (C : rcompose (if u then fby_registers else later)) by (destruct u; [apply registers_r|apply later_r]).
      apply (om rpo); [apply right_r; auto|]. intros [acc s1]. cbn [rpo fst snd].
      apply (om rp); [apply IHe; intros; apply F; rewrite !in_app_iff; auto|]. intros [c s2]. cbn [rp fst snd].
      destruct acc as [a|]; cbn [option_map]; auto. rewrite C. auto.
    - cbn [renamed_expr tr]. simpl in F.
      assert (A : Forall (fun e => T e) l) by (apply all_T; auto; intros x I; apply F; apply in_app_iff; auto).
      assert (C : rcompose (if u then then_flips else later)) by (destruct u; [apply flips_r|apply later_r]).
      apply (om rpo); [apply right_r; auto|]. intros [acc s1]. cbn [rpo fst snd].
      apply (om rp); [apply IHe; intros; apply F; rewrite !in_app_iff; auto|]. intros [c s2]. cbn [rp fst snd].
      destruct acc as [a|]; cbn [option_map]; auto. rewrite C. auto.
  Qed.
  Lemma tr_target_r : forall t, tr_target (renamed_target rl t) = rtg rl (tr_target t).
  Proof.
    fix IH 1. intros [x|l b]; [reflexivity|]. simpl.
    assert (E : map tr_target (map (renamed_target rl) l) = map (rtg rl) (map tr_target l)).
    { induction l as [|t l IHl]; [reflexivity|]. simpl. rewrite IH, IHl. reflexivity. }
    rewrite E. destruct (map tr_target l) as [|a [|c m]], b; reflexivity.
  Qed.
  Lemma tr_stmts_r : forall l, (forall i x, In i l -> In x (mentioned_stmt i) -> fine x) -> forall s,
    tr_stmts u (map rl locals) (map (renamed_stmt rl rf) l) (rtst s) = rmap rtst (tr_stmts u locals l s).
  Proof.
    induction l as [|i l IH]; intros F s; simpl; auto. apply (om rtst).
    - assert (Fi : forall x, In x (mentioned_stmt i) -> fine x) by (intros x I; eapply F; [left; reflexivity|auto]).
      destruct i as [t e|e]; cbn [renamed_stmt tr_stmt]; (apply (om rp); [apply tr_r; auto|]); intros [e1 s1]; cbn [rp fst snd];
        unfold done, rtst, add_stmt; simpl; rewrite ?tr_target_r, map_app; auto.
    - intros s1. apply IH. intros i' x I J. eapply F; [right; eauto|auto].
  Qed.
End Tr.

Section Prog.
  Variable n : naming.
  Local Notation rg := (of_const n).
  Local Notation rf := (of_node n).
  Local Notation rt := (of_type n).
  Hypothesis Ig : injective rg.
  Hypothesis If : injective rf.
  Hypothesis It : injective rt.
  Hypothesis Il : forall f, injective (inside n f).
  Hypothesis Pn : forall t, primitive_name (rt t) <-> primitive_name t.

  Definition rdc (d : decl) : decl :=
    match d with
    | DConst o x t e => DConst o (rg x) (rb rt t) (re rg rg e)
    | DNode o nd => DNode (ropts rt o) (rnd (inside n (n_name nd)) rg rf rt nd)
    | DExtConst o x t => DExtConst o (rg x) (rb rt t)
    | DExtNode o x i o' => DExtNode (rexts rt o) (rf x) (map (rvar (inside n x) rt) i) (map (rvar (inside n x) rt) o')
    end.

  (** ** Attributes *)
  Definition rdo (o : decl_opts) : decl_opts :=
    mkDeclOpts (d_trace o) (d_export o) (d_public o) (d_main o) (d_test o) (d_allow o) (d_doc o) (d_trait o)
      (option_map (map rt) (d_generics o)) (d_universal o).
  Lemma check_generics_r : forall l a, check_generics (map rt a) (map rt l) = check_generics a l.
  Proof.
    assert (P : forall t, (String.eqb t "int" || String.eqb t "float" || String.eqb t "bool")%bool = true <-> primitive_name t).
    { intros t. unfold primitive_name. rewrite !orb_true_iff, !String.eqb_eq. tauto. }
    assert (Q : forall t, (String.eqb (rt t) "int" || String.eqb (rt t) "float" || String.eqb (rt t) "bool")%bool =
                          (String.eqb t "int" || String.eqb t "float" || String.eqb t "bool")%bool).
    { intros t. apply eq_true_iff_eq. rewrite !P. apply Pn. }
    induction l as [|t l IH]; intros a; auto. simpl map. cbn [check_generics]. rewrite Q, existsb_inj by auto.
    match goal with |- context[if ?b then _ else _] => destruct b end; auto.
    match goal with |- context[if ?b then _ else _] => destruct b end; auto. apply (IH (t :: a)).
  Qed.
  Lemma with_attr_r : forall o a, with_attr (rdo o) (renamed_attr n a) = rmap rdo (with_attr o a).
  Proof.
    intros [tr ex pu ma te al do ti ge un] [ac ps ts]. unfold renamed_attr. cbn [a_action a_params a_targets].
    destruct (String.eqb_spec ac "generic") as [->|N].
    - unfold rdo. cbn [with_attr d_trace d_export d_public d_main d_test d_allow d_doc d_trait d_generics d_universal a_action a_params a_targets].
      cbn [String.eqb Ascii.eqb Bool.eqb]. destruct ts; auto. change (@nil ident) with (map rt []) at 1. rewrite check_generics_r.
      apply obind_same. intros _. unfold done, rdo. simpl. do 3 f_equal. destruct ge; simpl; auto. rewrite map_app. auto.
    - apply String.eqb_neq in N. unfold with_attr, rdo.
      cbn [d_trace d_export d_public d_main d_test d_allow d_doc d_trait d_generics d_universal a_action a_params a_targets]. rewrite N.
      repeat match goal with |- (if ?b then _ else _) = _ => destruct b end; auto;
        repeat match goal with
        | |- obind ?x _ = rmap _ (obind ?x _) => apply obind_same; intros
        | |- context[match ?l with [] => _ | _ :: _ => _ end] => is_var l; destruct l
        | |- context[match ?a with ALStr _ => _ | ALInt _ => _ | ALOther => _ end] => is_var a; destruct a
        | |- context[if is_usize ?i then _ else _] => destruct (is_usize i)
        end; auto.
  Qed.
  Lemma with_attrs_r : forall l o, with_attrs (rdo o) (map (renamed_attr n) l) = rmap rdo (with_attrs o l).
  Proof. induction l as [|a l IH]; intros o; simpl; auto. apply (om rdo); [apply with_attr_r|]. auto. Qed.
  Lemma skip_r : forall {A B} (g : A -> B) (o : setopt A), skip (option_map g o) = skip o.
  Proof. intros A B g [a|]; auto. Qed.

  Lemma tr_decls_r : forall r l, tr_decls (renamed_decls n r l) = map (rvar r rt) (tr_decls l).
  Proof.
    intros r l. unfold tr_decls, renamed_decls. apply flat_map_map. apply Forall_forall. intros [xs [b c]] _. simpl. rewrite !map_map.
    apply map_ext. intros x. unfold rvar. simpl. destruct b, c; auto.
  Qed.
  Lemma declared_names : forall l x, In x (map v_name (tr_decls l)) <-> In x (flat_map fst l).
  Proof.
    intros l x. unfold tr_decls. induction l as [|[xs [b c]] l IH]; simpl; [tauto|]. rewrite map_app, !in_app_iff, IH, map_map. simpl.
    rewrite map_id. tauto.
  Qed.
  Definition reads_well (d : sdecl) : Prop :=
    match d with
    | XNode nd => forall i x, In i (s_defs nd) -> In x (mentioned_stmt i) -> ~ declares nd x -> inside n (s_name nd) x = rg x
    | _ => True
    end.
  Lemma tr_decl_r : forall o d, reads_well d -> tr_decl (rdo o) (renamed_decl n d) = rmap rdc (tr_decl o d).
  Proof.
    intros o [x t e|nd|x t|x i o'] W; cbn [renamed_decl tr_decl].
    - unfold for_const. cbn [rdo d_trace d_export d_public d_main d_test d_allow d_doc d_trait d_generics d_universal].
      rewrite skip_r. apply obind_same. intros co.
      apply (om (rp rg rg rf)).
      + refine (tr_r rg rg rf Ig false [] e _ 0 tst0). intros y _ _. auto.
      + intros [e1 s1]. cbn [rp fst snd]. destruct s1 as [bl st rgs fl]. cbn [rtst t_stmts t_blocks].
        destruct st; simpl; auto. destruct bl; simpl; auto.
    - cbn [for_node]. apply (om (ropts rt)).
      { unfold for_node, done, rdo, ropts. simpl. destruct (d_generics o); auto. }
      intros no. rewrite rmap_obind. etransitivity; [apply obind_ext; [|intros a; exact (eq_refl (done (DNode (ropts rt no) a)))]|].
      + instantiate (1 := rmap (rnd (inside n (s_name nd)) rg rf rt) (tr_node no nd)). unfold tr_node. cbn [ropts o_universal s_name s_inputs s_outputs s_locals s_defs].
        rewrite !tr_decls_r, <- !map_app.
        replace (map v_name (map (rvar (inside n (s_name nd)) rt) (tr_decls (s_inputs nd) ++ tr_decls (s_outputs nd) ++ tr_decls (s_locals nd))))
          with (map (inside n (s_name nd)) (map v_name (tr_decls (s_inputs nd) ++ tr_decls (s_outputs nd) ++ tr_decls (s_locals nd))))
          by (rewrite !map_map; auto).
        apply (om (rtst (inside n (s_name nd)) rg rf)).
        * apply (tr_stmts_r _ _ _ (Il (s_name nd)) _ _ _) with (s := tst0). intros i x I J N. apply (W i x I J).
          intros D. apply N. unfold declares in D. rewrite !map_app, !in_app_iff, !declared_names. rewrite !flat_map_app, !in_app_iff in D. auto.
        * intros s. unfold done, rnd, rtst. simpl. do 2 f_equal. f_equal. induction (t_regs s); simpl; congruence.
      + unfold tr_node. match goal with |- context[tr_stmts ?a ?b ?c ?d] => destruct (tr_stmts a b c d) as [[s|] es ws|] end; reflexivity.
    - unfold for_ext_const. cbn [rdo d_trace d_export d_public d_main d_test d_allow d_doc d_trait d_generics d_universal].
      rewrite skip_r. apply obind_same. auto.
    - unfold for_ext_node. cbn [rdo d_trace d_export d_public d_main d_test d_allow d_doc d_trait d_generics d_universal].
      apply (om (rexts rt)).
      + repeat (apply obind_same; intros). unfold done, rexts. simpl. destruct (d_generics o); auto.
      + intros eo. unfold done. simpl. rewrite !tr_decls_r. auto.
  Qed.
  Lemma tr_prog_r : forall p, (forall a, In a p -> reads_well (snd a)) -> tr_prog (renamed_prog n p) = rmap (map rdc) (tr_prog p).
  Proof.
    intros p W. unfold tr_prog, renamed_prog. apply omap_r. intros [at_ d] I. unfold tr_attrdecl. cbn [fst snd].
    apply (om rdo); [apply (with_attrs_r at_ no_opts)|]. intros o. apply tr_decl_r. apply (W _ I).
  Qed.

  (** ** Causality *)
  Lemma decl_causality_r : forall d, decl_causality (rdc d) = smap rdc (decl_causality d).
  Proof.
    intros [o x t e|o nd|o x t|o x i o']; auto. cbn [rdc decl_causality]. unfold node_causality.
    cbn [rnd n_inputs n_outputs n_locals n_blocks n_stmts n_regs n_flips n_name].
    pose proof (schedule_r _ _ _ _ reference_eqb reference_eqb stmt_provides stmt_requires stmt_provides stmt_requires
      (rst (inside n (n_name nd)) rg) (rref (inside n (n_name nd)) rg rf)
      (provides_rst _ _ _) (requires_rst _ _ _) (rref_eqb _ _ _ (Il _) Ig If)
      (map (fun x => RLocal (v_name x)) (n_inputs nd)) (n_stmts nd) (map (fun x => RLocal (v_name x)) (n_locals nd ++ n_outputs nd))) as S.
    rewrite <- map_app, !map_map. rewrite !map_map in S. cbn [rref rvar v_name] in *. rewrite S.
    match goal with |- context[schedule ?a ?b ?c ?d ?e ?f ?g ?h] => destruct (schedule a b c d e f g h) end; simpl; auto.
  Qed.
  Lemma decls_causality_r : forall l, decls_causality (map rdc l) = smap (map rdc) (decls_causality l).
  Proof.
    induction l as [|d l IH]; simpl; auto. rewrite decl_causality_r, IH. destruct (decl_causality d); simpl; auto.
    destruct (decls_causality l); auto.
  Qed.

  (** *** The same names everywhere *)
  Lemma flat_requires_r : forall rl l, flat_map stmt_requires (map (rst rl rg) l) = map (rref rl rg rf) (flat_map stmt_requires l).
  Proof. intros rl l. apply flat_map_map. apply Forall_forall. intros i _. apply requires_rst. Qed.
  Lemma causality_uniform : (forall f, inside n f = rg) -> forall l, causality (map rdc l) = rmap (map rdc) (causality l).
  Proof.
    intros U l. unfold causality, prog_causality. rewrite decls_causality_r. destruct (decls_causality l) as [m|[]]; simpl; auto.
    rewrite (schedule_r _ _ _ _ reference_eqb reference_eqb decl_provides decl_requires decl_provides decl_requires rdc (rref rg rg rf)) with (ext := []) (must := []).
    - destruct (schedule _ _ _ _ _ _ _ _) as [r|[]]; simpl; auto.
    - intros [o x t e|o nd|o x t|o x i o']; auto.
    - intros [o x t e|o nd|o x t|o x i o']; simpl; auto; [apply requires_re|]. rewrite U, map_app, flat_requires_r, !map_map. auto.
    - apply rref_eqb; auto.
  Qed.

  (** *** Other names in each node *)
  Definition outer (u : reference) : Prop := match u with RFun _ | RGlobal _ => True | _ => False end.
  Local Notation ro := (rref (fun x => x) rg rf).
  Lemma ro_inj : forall a b, ro a = ro b -> a = b.
  Proof. intros [] [] E; simpl in E; inversion E; auto; f_equal; auto. Qed.
  Lemma provides_outer : forall d u, In u (decl_provides d) -> outer u.
  Proof. intros [] u [<-|[]]; simpl; auto. Qed.
  Lemma provides_rdc : forall d, decl_provides (rdc d) = map ro (decl_provides d).
  Proof. intros []; auto. Qed.
  Lemma requires_rdc : forall d u, outer u -> In (ro u) (decl_requires (rdc d)) <-> In u (decl_requires d).
  Proof.
    assert (X : forall rl u l, outer u -> In (ro u) (map (rref rl rg rf) l) <-> In u l).
    { intros rl u l O. rewrite in_map_iff. split.
      - intros (w & E & I). replace u with w; auto. destruct u, w; simpl in *; try tauto; inversion E; f_equal; auto.
      - intros I. exists u. split; auto. destruct u; simpl in *; tauto. }
    intros [o x t e|o nd|o x t|o x i o'] u O; simpl.
    - rewrite (requires_re rg rg rf). apply X; auto.
    - rewrite flat_requires_r, map_map. rewrite !in_app_iff, X by auto. apply or_iff_compat_r. rewrite !in_map_iff.
      split; intros (g & E & I).
      + exists g. split; auto. destruct u; simpl in *; try discriminate; try tauto. inversion E. f_equal. auto.
      + exists g. split; auto. subst u. auto.
    - tauto.
    - tauto.
  Qed.
  Lemma depends_rdc : forall l i j, depends_on decl_provides decl_requires (map rdc l) i j <-> depends_on decl_provides decl_requires l i j.
  Proof.
    intros l i j. unfold depends_on. split.
    - intros (a & b & u & Ha & Hb & Hr & Hp). rewrite nth_error_map in Ha, Hb.
      destruct (nth_error l i) as [a0|] eqn:Ea; inversion Ha; subst. destruct (nth_error l j) as [b0|] eqn:Eb; inversion Hb; subst.
      rewrite provides_rdc in Hp. apply in_map_iff in Hp. destruct Hp as (w & <- & Hp). exists a0, b0, w. repeat split; auto.
      apply requires_rdc; auto. eapply provides_outer; eauto.
    - intros (a & b & u & Ha & Hb & Hr & Hp). exists (rdc a), (rdc b), (ro u). rewrite !nth_error_map, Ha, Hb. repeat split; auto.
      + apply requires_rdc; auto. eapply provides_outer; eauto.
      + rewrite provides_rdc. apply in_map. auto.
  Qed.
  Lemma acyclic_rdc : forall l, acyclic decl_provides decl_requires (map rdc l) <-> acyclic decl_provides decl_requires l.
  Proof.
    intros l. assert (X : forall i j, depends_plus decl_provides decl_requires (map rdc l) i j <-> depends_plus decl_provides decl_requires l i j).
    { intros i j. split; induction 1; [apply dp_one|eapply dp_more; eauto|apply dp_one|eapply dp_more; eauto]; apply depends_rdc; auto. }
    unfold acyclic. split; intros A i D; apply (A i), X; auto.
  Qed.
  Lemma provided_rdc : forall l, flat_map decl_provides (map rdc l) = map ro (flat_map decl_provides l).
  Proof. intros l. apply flat_map_map. apply Forall_forall. intros d _. apply provides_rdc. Qed.
  Lemma NoDup_map_inj : forall {A B} (f : A -> B) l, (forall a b, f a = f b -> a = b) -> NoDup (map f l) <-> NoDup l.
  Proof.
    intros A B f l I. split; [apply NoDup_map_inv|]. induction 1 as [|a l N _ IH]; simpl; constructor; auto.
    intros J. apply in_map_iff in J. destruct J as (b & E & J). apply I in E. subst. auto.
  Qed.
  Lemma schedule_rdc : forall l,
    (exists o, schedule decl reference reference_eqb decl_provides decl_requires [] (map rdc l) [] = inl o) <->
    (exists o, schedule decl reference reference_eqb decl_provides decl_requires [] l [] = inl o).
  Proof.
    intros l. rewrite !(schedule_iff _ reference_eqb_spec). unfold single_assignment, complete. rewrite provided_rdc, acyclic_rdc.
    rewrite (NoDup_map_inj ro _ ro_inj). simpl. intuition.
  Qed.
  Lemma schedule_no_abort : forall l, schedule decl reference reference_eqb decl_provides decl_requires [] l [] <> inr GraphAbort.
  Proof.
    intros l E. pose proof (schedule_reasons _ reference_eqb_spec decl_provides decl_requires [] l []) as R. rewrite E in R. auto.
  Qed.
  Lemma causality_r : forall l,
    (exists l1 l1', causality l = done l1 /\ causality (map rdc l) = done l1' /\ Permutation l1' (map rdc l1)) \/
    (exists o, causality l = o /\ causality (map rdc l) = rmap (map rdc) o /\ result o = None).
  Proof.
    intros l. unfold causality, prog_causality. rewrite decls_causality_r. destruct (decls_causality l) as [m|e]; simpl.
    2:{ right. destruct e; eexists; split; eauto. }
    pose proof (schedule_rdc m) as S. pose proof (schedule_no_abort m) as A. pose proof (schedule_no_abort (map rdc m)) as A'.
    pose proof (fun o => schedule_perm _ reference_eqb_spec decl_provides decl_requires [] m [] o) as P.
    pose proof (fun o => schedule_perm _ reference_eqb_spec decl_provides decl_requires [] (map rdc m) [] o) as P'.
    destruct (schedule decl reference reference_eqb decl_provides decl_requires [] m []) as [o|e].
    - left. destruct (proj2 S (ex_intro _ o eq_refl)) as (o' & E'). rewrite E'. exists o, o'. split; auto. split; auto.
      destruct (P o eq_refl) as [Q _]. destruct (P' o' E') as [Q' _]. rewrite Q', Q. auto.
    - right. destruct (schedule decl reference reference_eqb decl_provides decl_requires [] (map rdc m) []) as [o'|e'].
      + destruct (proj1 S (ex_intro _ o' eq_refl)) as (o & E). discriminate.
      + exists (match e with GraphAbort => Abort | _ => fail ECausality end). split; auto. destruct e, e'; simpl; auto; try tauto; congruence.
  Qed.

  (** ** The other passes *)
  Definition rest (l : list decl) : out (list decl) := l <~ typecheck l;; l <~ clockcheck l;; positivity l.
  Lemma tc_one_r : forall g fs d,
    tc_one (map (rent rg (rb rt)) g) (map (rent rf (rsig rt)) fs) (rdc d) = rmap rdc (tc_one g fs d).
  Proof.
    intros g fs [o x t e|o nd|o x t|o x i o']; cbn [rdc tc_one]; auto.
    - rewrite tc_const_r by auto. apply obind_same. auto.
    - rewrite tc_node_r, obind_rmap, rmap_obind by auto. apply obind_ext'. intros [nd' gs] R. cbn [fst].
      assert (E : n_name nd' = n_name nd) by (unfold tc_node in R; inv_out; auto). simpl. rewrite E. auto.
    - rewrite tc_ext_node_r by auto. apply obind_same. auto.
  Qed.
  Lemma lookup_none_r : forall {A B} (r : ident -> ident) (h : A -> B) x l, injective r ->
    (lookup (r x) (map (rent r h) l) = None <-> lookup x l = None).
  Proof. intros A B r h x l I. rewrite lookup_rent by auto. destruct (lookup x l); simpl; split; congruence. Qed.
  Lemma tc_decls_r : forall l g fs,
    tc_decls (map (rent rg (rb rt)) g) (map (rent rf (rsig rt)) fs) (map rdc l) = rmap (fun r => (fst r, map rdc (snd r))) (tc_decls g fs l).
  Proof.
    induction l as [|d l IH]; intros g fs; auto. simpl map. rewrite !tc_decls_one.
    apply (om (option_map rdc)); [apply att_r, tc_one_r|]. intros r.
    apply (om (fun c => (map (rent rg (rb rt)) (fst c), map (rent rf (rsig rt)) (snd c)))).
    - destruct d as [o x t e|o nd|o x t|o x i o']; cbn [rdc n_name rnd]; rewrite lookup_rent by auto.
      + destruct (lookup x g); auto.
      + rewrite node_sig_r. destruct (lookup (n_name nd) fs); auto.
      + destruct (lookup x g); auto.
      + rewrite ext_sig_r. destruct (lookup x fs); auto.
    - intros [g' fs']. cbn [fst snd]. apply (om (fun r => (fst r, map rdc (snd r)))); [apply IH|]. intros [ok ds].
      destruct r; auto.
  Qed.
  Lemma typecheck_r : forall l, typecheck (map rdc l) = rmap (map rdc) (typecheck l).
  Proof.
    intros l. unfold typecheck. apply (om (fun r => (fst r, map rdc (snd r)))); [apply (tc_decls_r l [] [])|]. intros [ok ds]. cbn [fst snd].
    apply obind_same. auto.
  Qed.
  Lemma kc_decl_r : forall d, kc_decl (rdc d) = rmap rdc (kc_decl d).
  Proof.
    intros [o x t e|o nd|o x t|o x i o']; cbn [rdc kc_decl]; auto.
    - rewrite kc_node_r, obind_rmap, rmap_obind by auto. apply obind_ext'. intros nd' R.
      assert (E : n_name nd' = n_name nd) by (unfold kc_node in R; inv_out; auto). simpl. rewrite E. auto.
    - rewrite <- map_app, sig_implicit_r by auto. apply obind_same. auto.
  Qed.
  Lemma pos_decl_r : forall d, pos_decl (rdc d) = rmap rdc (pos_decl d).
  Proof.
    intros [o x t e|o nd|o x t|o x i o']; cbn [rdc pos_decl]; auto.
    rewrite pos_node_r, obind_rmap, rmap_obind by auto. apply obind_ext'. intros nd' R.
    assert (E : n_name nd' = n_name nd) by (unfold pos_node in R; inv_out; auto). simpl. rewrite E. auto.
  Qed.
  Lemma rest_r : forall l, rest (map rdc l) = rmap (map rdc) (rest l).
  Proof.
    intros l. unfold rest. apply (om (map rdc)); [apply typecheck_r|]. intros l1.
    apply (om (map rdc)); [apply omap_r; intros; apply kc_decl_r|]. intros l2. apply omap_r. intros; apply pos_decl_r.
  Qed.
  Lemma analyse_rest : forall l, analyse l = (l <~ causality l;; rest l).
  Proof. reflexivity. Qed.
  Lemma pipeline_uniform : (forall f, inside n f = rg) -> forall p, (forall a, In a p -> reads_well (snd a)) ->
    pipeline (renamed_prog n p) = rmap (map rdc) (pipeline p).
  Proof.
    intros U p W. unfold pipeline. apply (om (map rdc)); [apply tr_prog_r; auto|]. intros l. rewrite !analyse_rest.
    apply (om (map rdc)); [apply causality_uniform; auto|]. apply rest_r.
  Qed.
End Prog.
