(** The type checks of a node. *)
From Coq Require Import String List ZArith Bool Arith Lia Permutation.
From Verif Require Import Model.Base Model.Scalar Model.Value Model.Ast Model.Errors Model.Interp Model.Options Model.Surface Model.Translate
  Model.Causality Model.Typecheck Spec.TypeSpec Spec.ProgramSem Spec.RangeSpec Spec.ClockSpec Spec.CrashSpec Spec.ConstSpec Spec.SourceCausal Spec.Static
  Proofs.AstInd Proofs.OutBasics Proofs.TranslateSem Proofs.TranslateStruct Proofs.ProgramProofs Proofs.Unify Proofs.CallTypes Proofs.CausalityProofs Proofs.PipelineProofs
  Proofs.StaticTypes Proofs.StaticStmts.
From Verif Require Proofs.DeclOrder Proofs.NoCrash.
Import ListNotations.

(** ** Variables *)
Lemma variables_app : forall a b, variables (a ++ b) = variables a ++ variables b.
Proof. intros. apply flat_map_app. Qed.
Lemma types_app : forall a b, types (a ++ b) = types a ++ types b.
Proof. intros. unfold types. rewrite variables_app, map_app. auto. Qed.
Lemma declared_app : forall a b, declared (a ++ b) = declared a ++ declared b.
Proof. intros. apply flat_map_app. Qed.
Lemma variables_names : forall l, map fst (variables l) = declared l.
Proof.
  induction l as [|[xs bc] l IH]; auto. change (variables ((xs, bc) :: l)) with (map (fun x => (x, bc)) xs ++ variables l).
  rewrite map_app, map_map, IH. cbn. rewrite map_id. auto.
Qed.
Lemma tr_variables : forall l, map (fun v => (v_name v, (v_base v, v_clk v))) (tr_decls l) = variables l.
Proof.
  induction l as [|[xs [b c]] l IH]; auto. change (tr_decls ((xs, (b, c)) :: l)) with (map (fun x => mkVar x b c 0) xs ++ tr_decls l).
  rewrite map_app, map_map, IH. reflexivity.
Qed.
Lemma tr_types : forall l, map v_base (tr_decls l) = types l.
Proof. intros l. unfold types. rewrite <- tr_variables, map_map. reflexivity. Qed.
Lemma lookup_pairs : forall {A B} (f : A -> B) x (l : list (ident * A)), lookup x (map (fun v => (fst v, f (snd v))) l) = option_map f (lookup x l).
Proof. intros A B f x. induction l as [|[y a] l IH]; cbn; auto. destruct (String.eqb x y); auto. Qed.
Lemma lookup_some_in : forall {A} x a (l : list (ident * A)), lookup x l = Some a -> In (x, a) l.
Proof.
  intros A x a. induction l as [|[y b] l IH]; cbn; [discriminate|]. destruct (String.eqb_spec x y); intros E; [inversion E; subst; auto|auto].
Qed.
Lemma lookup_in_unique : forall {A} x a (l : list (ident * A)), NoDup (map fst l) -> In (x, a) l -> lookup x l = Some a.
Proof.
  intros A x a. induction l as [|[y b] l IH]; cbn; intros N I; [destruct I|]. inversion N; subst. destruct I as [E|I].
  - inversion E; subst. rewrite String.eqb_refl. auto.
  - destruct (String.eqb_spec x y); auto. subst. exfalso. apply H1. change y with (fst (y, a)). apply in_map. auto.
Qed.
Lemma lookup_none_in : forall {A} x (l : list (ident * A)), lookup x l = None <-> ~ In x (map fst l).
Proof.
  intros A x. induction l as [|[y b] l IH]; cbn; [tauto|]. destruct (String.eqb_spec x y); [subst; split; [discriminate|intros H; exfalso; auto]|]. rewrite IH. intuition.
Qed.

Lemma each_ok : forall {A} (f : A -> out unit) l, (exists u, result (each f l) = Some u) <-> (forall a, In a l -> result (f a) = Some tt).
Proof.
  intros A f l. split; [intros (u & H); eapply each_some; eauto|]. induction l as [|a l IH]; intros H; cbn; [eauto|].
  rewrite (obind_ok _ _ tt); [apply IH; cbn in H; auto|apply H; cbn; auto].
Qed.
Lemma some_tt : forall (x : out unit), (exists u, result x = Some u) <-> result x = Some tt.
Proof. intros x. split; [intros ([] & H); auto|eauto]. Qed.

Lemma executable_fits : forall b ins outs, (exists u, result (tc_executable b (tr_decls ins) (tr_decls outs)) = Some u) <-> runnable (b = true) ins outs.
Proof.
  intros b ins outs. unfold runnable. rewrite declared_app, <- !tr_decls_names. destruct b; cbn; [|split; [discriminate|eauto]].
  destruct (tr_decls ins), (tr_decls outs); cbn; split; eauto; intros H; try (destruct H; discriminate); discriminate (H eq_refl).
Qed.
Lemma declared_ok : forall params v, result (tc_declared params v) = Some tt <-> forall t, v_base v = BOther t -> In t params.
Proof.
  intros params v. unfold tc_declared. destruct (v_base v) as [| | |t]; cbn; try (split; [discriminate|reflexivity]).
  destruct (existsb (String.eqb t) params) eqn:E; split; intros H; try discriminate; auto.
  - intros t' Et. inversion Et; subst. apply existsb_exists in E. destruct E as (y & I & E). apply String.eqb_eq in E. subst. auto.
  - assert (X : existsb (String.eqb t) params = true); [|congruence]. apply existsb_exists. exists t. split; [auto|apply String.eqb_refl].
Qed.
Lemma used_ok : forall ins g, is_used ins g = true <-> In (BOther g) (map v_base ins).
Proof.
  intros ins g. unfold is_used. rewrite existsb_exists, in_map_iff. split; intros (v & A & B); exists v.
  - apply base_eqb_spec in B. auto.
  - split; auto. apply base_eqb_spec. auto.
Qed.
Lemma generics_fits : forall params ins others,
  (exists u, result (tc_generics params (tr_decls ins) (tr_decls others)) = Some u) <-> well_parametrised params ins others.
Proof.
  intros params ins others. unfold tc_generics, well_parametrised. rewrite types_app, <- !tr_types.
  assert (D : forall l, result (each (tc_declared params) l) = Some tt <-> forall t, In (BOther t) (map v_base l) -> In t params).
  { intros l. rewrite <- some_tt, each_ok. split; intros H.
    - intros t I. apply in_map_iff in I. destruct I as (v & E & I). specialize (H v I). rewrite declared_ok in H. auto.
    - intros v I. apply declared_ok. intros t E. apply H. rewrite <- E. apply in_map. auto. }
  assert (U : result (each (fun g => if is_used (tr_decls ins) g then done tt else fail EUnusedGeneric) params) = Some tt <->
    forall t, In t params -> In (BOther t) (map v_base (tr_decls ins))).
  { rewrite <- some_tt, each_ok. split; intros H t I; specialize (H t I); [|apply used_ok in H; rewrite H; reflexivity].
    apply used_ok. destruct (is_used (tr_decls ins) t); auto; discriminate. }
  split.
  - intros (u & H). inv_out. destruct u. repeat match goal with r : unit |- _ => destruct r end.
    rewrite D in *. rewrite U in *. split; auto. intros t I. apply in_app_iff in I. destruct I; auto.
  - intros [A B]. exists tt. rewrite (obind_ok _ _ tt) by (apply D; intros; apply A, in_app_iff; auto).
    rewrite (obind_ok _ _ tt) by (apply D; intros; apply A, in_app_iff; auto). apply U. auto.
Qed.

Definition pair_of (v : tyvar) : ident * base := (v_name v, v_base v).
Definition clock_ok (vars : list (ident * base)) (c : clock) : Prop :=
  match c with CExplicit _ x => lookup x vars = Some BBool | _ => True end.
Lemma tc_clock_fits : forall vars c, exists o, result (attempt (tc_clock vars c)) = Some o /\ (is_set o = true <-> clock_ok vars c).
Proof.
  intros vars [pos x| |]; cbn; try (exists (Some tt); cbn; tauto). destruct (lookup x vars) as [[]|]; cbn; eexists; (split; [reflexivity|]); cbn; split; congruence.
Qed.
Lemma vars_fits : forall l vars, exists ok, result (tc_vars l vars) = Some (ok, rev (map pair_of l) ++ vars) /\
  (ok = true <-> NoDup (map v_name l) /\ (forall v, In v l -> lookup (v_name v) vars = None) /\
    forall a v b, l = a ++ v :: b -> clock_ok (rev (map pair_of a) ++ vars) (v_clk v)).
Proof.
  induction l as [|v l IH]; intros vars; cbn [tc_vars].
  - exists true. cbn. split; auto. split; auto. intros _. repeat split; [constructor|tauto|]. intros [|] ? ? E; discriminate.
  - assert (F : exists fresh, result (match lookup (v_name v) vars with
      | Some _ => r <~ attempt (fail (A := unit) EDeclTwice);; done false
      | None => done true end) = Some fresh /\ (fresh = true <-> lookup (v_name v) vars = None)).
    { destruct (lookup (v_name v) vars); cbn; eexists; (split; [reflexivity|]); split; congruence. }
    destruct F as (fresh & EF & F). rewrite (obind_ok _ _ _ EF).
    destruct (tc_clock_fits vars (v_clk v)) as (o & EC & C). rewrite (obind_ok _ _ _ EC).
    destruct (IH ((v_name v, v_base v) :: vars)) as (rest & ER & R). rewrite (obind_ok _ _ _ ER). cbn [result done].
    eexists. split; [cbn [map rev]; rewrite <- app_assoc; reflexivity|].
    change (match o with Some _ => true | None => false end) with (is_set o). rewrite !andb_true_iff, F, C, R. cbn [map]. split.
    + intros ((A & B) & N & L & K). split; [|split].
      * constructor; auto. intros I. apply in_map_iff in I. destruct I as (w & E & I). specialize (L w I). cbn in L. rewrite E, String.eqb_refl in L. discriminate.
      * intros w [<-|I]; auto. specialize (L w I). cbn in L. destruct (String.eqb (v_name w) (v_name v)); [discriminate|auto].
      * intros [|w a] x b E; inversion E; subst; auto. cbn [map rev]. rewrite <- app_assoc. eapply K; eauto.
    + intros (N & L & K). inversion N; subst. split; [split; [apply L; cbn; auto|apply (K [] v l); auto]|]. split; [auto|split].
      * intros w I. cbn. destruct (String.eqb_spec (v_name w) (v_name v)) as [E|E]; [|apply L; cbn; auto]. exfalso. apply H1. rewrite <- E. apply in_map. auto.
      * intros a x b E. specialize (K (v :: a) x b). cbn [map rev] in K. rewrite <- app_assoc in K. apply K. rewrite E. auto.
Qed.

Lemma declared_fits : forall l, exists ok, result (tc_vars (tr_decls l) []) = Some (ok, rev (map (fun v => (fst v, fst (snd v))) (variables l))) /\
  (ok = true <-> well_declared l).
Proof.
  intros l. destruct (vars_fits (tr_decls l) []) as (ok & E & H). exists ok.
  assert (P : forall m, map pair_of m = map (fun v => (fst v, fst (snd v))) (map (fun v => (v_name v, (v_base v, v_clk v))) m)) by (intros; rewrite map_map; reflexivity).
  rewrite app_nil_r, P, tr_variables in E. split; auto. rewrite H. unfold well_declared. rewrite <- variables_names, <- tr_variables, map_map. cbn [fst].
  assert (Q : NoDup (map v_name (tr_decls l)) -> forall a v b, tr_decls l = a ++ v :: b -> forall pos y, v_clk v = CExplicit pos y ->
    (clock_ok (rev (map pair_of a) ++ []) (v_clk v) <-> exists c, In (y, (BBool, c)) (map (fun v => (v_name v, (v_base v, v_clk v))) a))).
  { intros N a v b Ea pos y Ey. rewrite Ey. cbn. rewrite app_nil_r.
    assert (Na : NoDup (map fst (rev (map pair_of a)))).
    { rewrite map_rev, map_map. cbn. apply NoDup_rev. rewrite Ea, map_app in N. clear -N. induction (map v_name a) as [|x m IH]; [constructor|]. cbn in N. inversion N; subst.
      constructor; auto. intros I. apply H1. apply in_app_iff. auto. }
    split.
    - intros L. apply lookup_some_in in L. apply in_rev in L. apply in_map_iff in L. destruct L as (w & Ew & I). inversion Ew. exists (v_clk w).
      apply in_map_iff. exists w. rewrite H1. subst. auto.
    - intros (c & I). apply lookup_in_unique; auto. apply -> in_rev. apply in_map_iff in I. destruct I as (w & Ew & I). inversion Ew; subst. apply in_map_iff. exists w. split; auto. }
  split.
  - intros (N & _ & K). split; auto. intros bef x b pos y aft Eq.
    apply map_eq_app in Eq. destruct Eq as (a & r & El & Ea & Er). apply map_eq_cons in Er. destruct Er as (v & r' & -> & Ev & Er). subst bef.
    inversion Ev; subst. eapply Q; eauto.
  - intros (N & K). split; auto. split; [reflexivity|]. intros a v b Ea. destruct (v_clk v) as [pos y| |] eqn:Ev; try exact I.
    rewrite <- Ev. eapply Q; eauto. eapply K. rewrite Ea, map_app. cbn [map]. rewrite Ev. reflexivity.
Qed.

(** ** Calls *)
Lemma typed_calls : forall vars consts nodes e t, typed vars consts nodes e t -> forall f, In f (callees e) -> exists i, nodes f = Some i.
Proof.
  intros vars consts nodes. pose (P := fun e => forall t, typed vars consts nodes e t -> forall f, In f (callees e) -> exists i, nodes f = Some i).
  assert (L2 : forall l ts, Forall P l -> Forall2 (typed vars consts nodes) l ts -> forall f, In f (flat_map callees l) -> exists i, nodes f = Some i).
  { intros l ts HP F. revert HP. induction F as [|e t l ts H F IH]; intros HP f I; inversion HP; subst; cbn in I; [tauto|]. apply in_app_iff in I. destruct I; eauto. }
  assert (L1 : forall l t, Forall P l -> Forall (fun e => typed vars consts nodes e t) l -> forall f, In f (flat_map callees l) -> exists i, nodes f = Some i).
  { intros l t HP F f I. apply in_flat_map in I. destruct I as (e & I & J). rewrite Forall_forall in HP, F. exact (HP e I t (F e I) f J). }
  assert (LP : forall O (l : list (O * sexpr)) t, Forall (fun p => P (snd p)) l -> Forall (fun p => typed vars consts nodes (snd p) t) l ->
    forall f, In f (flat_map (fun p => callees (snd p)) l) -> exists i, nodes f = Some i).
  { intros O l t HP F f I. apply in_flat_map in I. destruct I as (e & I & J). rewrite Forall_forall in HP, F. exact (HP e I t (F e I) f J). }
  assert (Paren : forall l b t, Forall P l -> typed vars consts nodes (XParen l b) t -> forall f, In f (flat_map callees l) -> exists i, nodes f = Some i).
  { intros l b t HP T f I. inversion T; subst; [|eapply L2; eauto]. cbn in I. rewrite app_nil_r in I. inversion HP as [|? ? HPe _]; subst. eapply HPe; eauto. }
  intros e. change (P e). induction e using sexpr_ind'; intros t T h I; cbn [callees] in I.
  - destruct I.
  - destruct I.
  - eapply Paren; eauto.
  - inversion T; subst. destruct I as [<-|I]; eauto.
  - inversion T; subst. eauto.
  - inversion T; subst. eauto.
  - inversion T; subst. eauto.
  - inversion T; subst. rewrite !in_app_iff in I. destruct I as [I|[I|I]]; eauto.
  - inversion T; subst. rewrite !in_app_iff in I. destruct I as [I|[I|I]]; eauto.
  - rewrite in_app_iff in I. inversion T; subst; destruct I as [I|I]; eauto. apply (LP _ l (TSingle b) H); auto.
    apply Forall_forall. match goal with Q : Forall (fun p => _ /\ _) _ |- _ => rewrite Forall_forall in Q; intros p J; apply (Q p J) end.
  - rewrite in_app_iff in I. inversion T; subst; (destruct I as [I|I]; [eauto|]); cbn [flat_map snd In app] in I; [destruct I|]. rewrite app_nil_r in I. inversion H; subst. cbn [snd] in *. eauto.
  - rewrite in_app_iff in I. inversion T; subst; destruct I as [I|I]; eauto.
  - rewrite in_app_iff in I. inversion T; subst; destruct I as [I|I]; eauto.
  - rewrite in_app_iff in I. inversion T; subst; destruct I as [I|I]; eauto.
Qed.

Lemma blocks_fit : forall f l, (exists gs, result (tc_blocks f l) = Some gs) <-> forall h, In h l -> exists g, lookup h f = Some g.
Proof.
  intros f. induction l as [|h l IH]; cbn [tc_blocks].
  - cbn. split; [intros _ ? []|eauto].
  - split.
    + destruct (lookup h f) eqn:E; [|intros (gs & H); discriminate]. intros (gs & H). apply obind_some in H. destruct H as (gs' & H & _).
      intros h' [<-|I]; eauto. apply IH; eauto.
    + intros H. destruct (H h (or_introl eq_refl)) as (g & E). rewrite E. destruct (proj2 IH) as (gs & G); [intros; apply H; cbn; auto|].
      rewrite (obind_ok _ _ _ G). cbn. eauto.
Qed.
Lemma blocks_nth : forall f l gs, result (tc_blocks f l) = Some gs -> forall i h, nth_error l i = Some h -> exists g, nth_error gs i = Some g /\ lookup h f = Some g.
Proof.
  intros f. induction l as [|h l IH]; intros gs H i h' N; [destruct i; discriminate|]. cbn [tc_blocks] in H.
  destruct (lookup h f) as [g|] eqn:E; [|discriminate]. inv_out. destruct i as [|i]; cbn in *; [inversion N; subst; eauto|]. eauto.
Qed.

(** ** Statements *)
Lemma stmts_fit : forall ctx l y, (forall i, In i l -> forall y y2, (exists y', result (tc_stmt ctx i y) = Some y') -> exists y', result (tc_stmt ctx i y2) = Some y') ->
  ((exists y', result (tc_stmts ctx l y) = Some (Some y')) <-> forall i, In i l -> exists y', result (tc_stmt ctx i tyst0) = Some y').
Proof.
  intros ctx. induction l as [|i l IH]; intros y H; cbn [tc_stmts].
  - cbn. split; [intros _ ? []|eauto].
  - assert (IH' : forall y, (exists y', result (tc_stmts ctx l y) = Some (Some y')) <-> forall i, In i l -> exists y', result (tc_stmt ctx i tyst0) = Some y')
      by (intros; apply IH; intros; eapply H; cbn; eauto).
    split.
    + intros (y' & E). apply obind_some in E. destruct E as ([y1|] & E1 & E2); [|inv_out; discriminate].
      intros j [<-|J]; [|apply (IH' y1); eauto]. apply (H i (or_introl eq_refl) y). exists y1. destruct (tc_stmt ctx i y) as [[]|]; cbn in E1; inversion E1; auto.
    + intros A. destruct (H i (or_introl eq_refl) tyst0 y (A i (or_introl eq_refl))) as (y1 & E1). rewrite (obind_ok _ _ _ (attempt_ok _ _ E1)).
      apply IH'. intros; apply A; cbn; auto.
Qed.

Definition well_sig (g : fsig) : Prop :=
  (forall x, In (BOther x) (g_ins g) <-> In x (g_params g)) /\ (forall x, In (BOther x) (g_outs g) -> In x (g_params g)).

Lemma node_types : forall gl f o sn nd nd' consts nodes,
  result (tr_node o sn) = Some nd -> node_causality nd = inl nd' ->
  (forall x, lookup x gl = consts x) ->
  (forall h, nodes h = option_map (fun g => (g_params g, (g_ins g, g_outs g))) (lookup h f)) ->
  (forall h g, lookup h f = Some g -> well_sig g) ->
  let all := s_inputs sn ++ s_outputs sn ++ s_locals sn in
  (exists r, result (tc_node gl f o nd') = Some r) <->
  runnable (is_set (o_main o) || is_set (o_test o) = true) (s_inputs sn) (s_outputs sn) /\
  well_parametrised (o_generics o) (s_inputs sn) (s_outputs sn ++ s_locals sn) /\
  well_declared all /\
  forall i, In i (s_defs sn) -> stmt_typed (fun x => option_map fst (lookup x (variables all))) consts nodes i.
Proof.
  intros gl f o sn nd nd' consts nodes Tn Cn Hg Hn Hw all.
  pose proof (tr_node_translated _ _ _ Tn) as T. destruct (node_stmts_perm _ _ Cn) as [Pm En].
  assert (Ei : n_inputs nd' = tr_decls (s_inputs sn)) by (rewrite En; apply (td_inputs _ _ _ T)).
  assert (Eo : n_outputs nd' = tr_decls (s_outputs sn)) by (rewrite En; apply (td_outputs _ _ _ T)).
  assert (El : n_locals nd' = tr_decls (s_locals sn)) by (rewrite En; apply (td_locals _ _ _ T)).
  assert (Eb : n_blocks nd' = n_blocks nd) by (rewrite En; reflexivity).
  assert (Ta : forall a b, tr_decls (a ++ b) = tr_decls a ++ tr_decls b) by (intros; apply flat_map_app).
  unfold tc_node. rewrite Ei, Eo, El, Eb, <- !Ta. fold all.
  destruct (declared_fits all) as (ok & Ev & Hv).
  set (vars := rev (map (fun v => (fst v, fst (snd v))) (variables all))) in *.
  set (ty := fun x => option_map fst (lookup x (variables all))).
  assert (Look : well_declared all -> forall x, lookup x vars = ty x).
  { intros [N _] x. unfold vars, ty. rewrite <- lookup_pairs. rewrite <- variables_names in N.
    assert (N2 : NoDup (map fst (map (fun v : ident * (base * clock) => (fst v, fst (snd v))) (variables all)))) by (rewrite map_map; exact N).
    destruct (lookup x (map (fun v => (fst v, fst (snd v))) (variables all))) as [b|] eqn:E.
    - apply lookup_some_in in E. apply lookup_in_unique; [rewrite map_rev; apply NoDup_rev; auto|apply -> in_rev; auto].
    - apply lookup_none_in. apply lookup_none_in in E. rewrite map_rev, <- in_rev. auto. }
  assert (Names : map v_name (all_vars nd) = map fst (variables all)).
  { unfold all_vars. rewrite (td_inputs _ _ _ T), (td_outputs _ _ _ T), (td_locals _ _ _ T), <- !Ta, <- tr_variables, map_map. reflexivity. }
  assert (Main : well_declared all -> forall bs, result (tc_blocks f (n_blocks nd)) = Some bs ->
    ((exists y, result (tc_stmts (mkTctx gl vars bs) (n_stmts nd') tyst0) = Some (Some y)) <-> forall i, In i (s_defs sn) -> stmt_typed ty consts nodes i)).
  { intros W bs Eblk. set (ctx := mkTctx gl vars bs).
    assert (K : known ctx nodes (n_blocks nd)).
    { intros i h N. destruct (blocks_nth _ _ _ Eblk _ _ N) as (g & N' & L). exists g. split; auto. rewrite Hn, L. split; auto. apply (Hw h g L). }
    assert (Hin : forall x, In x (map v_name (all_vars nd)) -> exists b, lookup x (c_vars ctx) = Some b /\ ty x = Some b).
    { intros x I. cbn. rewrite (Look W). rewrite Names in I. unfold ty. destruct (lookup x (variables all)) as [[b c]|] eqn:E; [cbn; eauto|]. apply lookup_none_in in E. contradiction. }
    assert (Hout : forall x, ~ In x (map v_name (all_vars nd)) -> ty x = None).
    { intros x I. unfold ty. rewrite Names in I. apply lookup_none_in in I. rewrite I. auto. }
    assert (One : forall i i', translates (o_universal o) (map v_name (all_vars nd)) (n_blocks nd) i i' ->
      forall y, (exists y', result (tc_stmt ctx i' y) = Some y') <-> stmt_typed ty consts nodes i).
    { intros i i' (s & s' & e' & bl & E & B) y.
      assert (K' : known ctx nodes (t_blocks s')).
      { intros k h N. apply K. rewrite B, nth_error_app1; auto. apply nth_error_Some. congruence. }
      assert (X : result (tr (o_universal o) (map v_name (all_vars nd)) (right_side i) 0 s) = Some (e', s') /\
        i' = match i with XDef p _ => SLet (tr_target p) e' | XAssert _ => SAssert e' end) by (destruct i; auto).
      destruct X as [X1 ->]. eapply (stmt_fits ctx _ _ ty consts nodes i); eauto. }
    assert (Src : forall i, In i (n_stmts nd') -> (exists j, In j (s_defs sn) /\ translates (o_universal o) (map v_name (all_vars nd)) (n_blocks nd) j i) \/
      forall y, exists y', result (tc_stmt ctx i y) = Some y').
    { intros i I. destruct (sourced i) eqn:Es.
      - left. eapply forall2_in_r; [exact (td_sourced _ _ _ T)|]. apply filter_In. split; auto. eapply Permutation_in; eauto.
      - right. intros y. destruct i; try discriminate; cbn; eauto. }
    rewrite stmts_fit.
    - split.
      + intros A i I. destruct (forall2_in_l _ _ _ (td_sourced _ _ _ T) _ I) as (i' & I' & R). apply (One _ _ R tyst0). apply A.
        apply filter_In in I'. eapply Permutation_in; [apply Permutation_sym, Pm|tauto].
      + intros A i I. destruct (Src i I) as [(j & J & R)|R]; [apply (One _ _ R); auto|apply R].
    - intros i I y y2 S. destruct (Src i I) as [(j & J & R)|R]; [apply (One _ _ R); apply (One _ _ R) in S; auto|apply R]. }
  assert (Blk : (forall i, In i (s_defs sn) -> stmt_typed ty consts nodes i) -> exists bs, result (tc_blocks f (n_blocks nd)) = Some bs).
  { intros A. apply blocks_fit. intros h I. destruct (NoCrash.tr_node_blocks _ _ _ _ Tn I) as (e & Ie & Ih). cbn in Ie. apply in_map_iff in Ie. destruct Ie as (i & Ee & Ii).
    specialize (A i Ii). assert (X : exists t, typed ty consts nodes e t) by (destruct i; cbn in A; [destruct A as (t & _ & A)|]; subst; eauto).
    destruct X as (t & X). destruct (typed_calls _ _ _ _ _ X h Ih) as (g & G). rewrite Hn in G. destruct (lookup h f); [eauto|discriminate]. }
  split.
  - intros (r & H). apply obind_some in H. destruct H as (u1 & H1 & H). apply obind_some in H. destruct H as (u2 & H2 & H).
    apply obind_some in H. destruct H as ((ok', vars') & H3 & H). assert (E3 : (ok', vars') = (ok, vars)) by congruence. inversion E3; subst ok' vars'. clear E3.
    apply obind_some in H. destruct H as (u4 & H4 & H). apply obind_some in H. destruct H as (bs & H5 & H). apply obind_some in H. destruct H as (y & H6 & H).
    destruct y as [y|]; [|discriminate].
    assert (W : well_declared all) by (apply Hv; destruct ok; [auto|discriminate]).
    split; [apply executable_fits; eauto|]. split; [apply generics_fits; eauto|]. split; auto. apply (Main W bs H5). eauto.
  - intros (R & P & W & S). apply executable_fits in R. destruct R as (u1 & R). apply generics_fits in P. destruct P as (u2 & P). destruct (Blk S) as (bs & B).
    rewrite (obind_ok _ _ _ R), (obind_ok _ _ _ P), (obind_ok _ _ _ Ev). apply Hv in W as E. rewrite E. rewrite (obind_ok (scope_close true) _ tt eq_refl), (obind_ok _ _ _ B).
    destruct (proj2 (Main W bs B) S) as (y & Y). rewrite (obind_ok _ _ _ Y), need_ok. cbn. eauto.
Qed.
