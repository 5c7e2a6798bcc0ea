(** Types, clocks and depths of a renamed node. *)
From Coq Require Import String List ZArith Bool Arith Permutation.
From Verif Require Import Model.Base Model.Scalar Model.Value Model.Ast Model.Errors Model.Options Model.Interp
  Model.Graph Model.Causality Model.Typecheck Model.Clockcheck Model.Positivity Model.Constexpr Model.Pipeline
  Spec.RenameSpec Proofs.AstInd Proofs.OutBasics Proofs.Stripped Proofs.Renamed.
From Verif Require Proofs.NodeWf Proofs.Positive Proofs.TypeInfer.
Import ListNotations.

Lemma om : forall {A A' B B'} (g : A -> A') (h : B -> B') (x : out A) x' (f : A -> out B) (f' : A' -> out B'),
  x' = rmap g x -> (forall a, f' (g a) = rmap h (f a)) -> obind x' f' = rmap h (obind x f).
Proof. intros A A' B B' g h x x' f f' -> H. apply obind_map; auto. Qed.
Lemma each_map : forall {A B} (f : A -> out unit) (f' : B -> out unit) (r : A -> B) l,
  (forall a, In a l -> f' (r a) = f a) -> each f' (map r l) = each f l.
Proof.
  intros A B f f' r l H.
  induction l as [|a l IH]; simpl; auto. rewrite H by (left; auto). apply obind_ext; [auto|]. intros o.
  rewrite IH by (intros; apply H; right; auto). auto.
Qed.

Section Names.
  Variables rl rg rf rt : ident -> ident.
  Hypothesis Il : injective rl.
  Hypothesis Ig : injective rg.
  Hypothesis If : injective rf.
  Hypothesis It : injective rt.
  Local Notation rb := (rb rt).
  Local Notation rty := (rty rt).
  Local Notation rcl := (rcl rl).
  Local Notation rvar := (rvar rl rt).
  Local Notation re := (re rl rg).
  Local Notation rtg := (rtg rl).
  Local Notation rst := (rst rl rg).

  Definition rsig (s : fsig) : fsig := mkSig (map rt (g_params s)) (map rb (g_ins s)) (map rb (g_outs s)).
  Definition rent {A B} (r : ident -> ident) (h : A -> B) (p : ident * A) : ident * B := (r (fst p), h (snd p)).
  Definition rctx (c : tctx) : tctx :=
    mkTctx (map (rent rg rb) (c_global c)) (map (rent rl rb) (c_vars c)) (map rsig (c_blocks c)).
  Definition rys (s : tyst) : tyst :=
    mkTyst (map (fun p => (fst p, rty (snd p))) (y_regs s)) (map (fun p => (fst p, map rb (snd p))) (y_gens s)).
  Definition rmm (m : list (ident * option base)) := map (rent rt (option_map rb)) m.
  Definition run_ (u : unifier) : unifier := match u with UIdentity => UIdentity | UMapping m => UMapping (rmm m) end.
  Definition rts (p : ty * tyst) := (rty (fst p), rys (snd p)).
  Definition rbs (p : base * tyst) := (rb (fst p), rys (snd p)).

  Lemma lookup_rent : forall {A B} (r : ident -> ident) (h : A -> B) x l, injective r ->
    lookup (r x) (map (rent r h) l) = option_map h (lookup x l).
  Proof. intros. apply lookup_map. auto. Qed.
  Lemma base_eqb_r : forall a b, base_eqb (rb a) (rb b) = base_eqb a b.
  Proof. destruct a, b; simpl; auto. apply eqb_inj; auto. Qed.
  Lemma from_generics_r : forall l, from_generics (map rt l) = rmap run_ (from_generics l).
  Proof.
    induction l as [|g l IH]; simpl; auto. apply (om run_); auto. intros [|m]; simpl; auto.
    rewrite existsb_inj by auto. destruct (existsb (String.eqb g) l); auto.
  Qed.
  Lemma require_identical_r : forall u a b, require_identical (run_ u) (rb a) (rb b) = rmap run_ (require_identical u a b).
  Proof.
    intros u a b. destruct a as [| | |x]; simpl.
    1-3: destruct b; simpl; auto.
    destruct u as [|m]; simpl.
    - destruct b; simpl; auto. rewrite eqb_inj by auto. match goal with |- context[String.eqb x ?y] => destruct (String.eqb x y) end; auto.
    - unfold rmm. rewrite lookup_rent by auto. destruct (lookup x m) as [[v|]|]; simpl; auto.
      + rewrite base_eqb_r. destruct (base_eqb v b); auto.
      + unfold rmm, done. do 3 f_equal. rewrite !map_map. apply map_ext. intros [y o]. unfold rent. simpl.
        rewrite eqb_inj by auto. destruct (String.eqb x y); auto.
  Qed.
  Fixpoint idents (u : unifier) (ts us : list ty) {struct ts} : out (option unifier) :=
    match ts, us with
    | t :: ts, v :: us =>
        r <~ attempt (identical u t v);;
        match r with
        | Some u => idents u ts us
        | None => _ <~ idents u ts us;; done None
        end
    | _, _ => done (Some u)
    end.
  Lemma identical_mult : forall u ts us, identical u (TMult ts) (TMult us) =
    (if length ts =? length us then r <~ idents u ts us;; need r else fail ETypeMismatch).
  Proof. reflexivity. Qed.
  Lemma identical_r : forall a b u, identical (run_ u) (rty a) (rty b) = rmap run_ (identical u a b).
  Proof.
    fix IH 1. intros [l|ts] [r|us] u; [apply require_identical_r|reflexivity|reflexivity|].
    change (rty (TMult ts)) with (TMult (map rty ts)). change (rty (TMult us)) with (TMult (map rty us)).
    rewrite !identical_mult, !map_length. destruct (length ts =? length us); [|reflexivity].
    apply (om (option_map run_)); [|intros o; apply need_map].
    revert u us. induction ts as [|t ts IHl]; intros u us; [reflexivity|]. destruct us as [|v us]; [reflexivity|].
    simpl map. cbn [idents]. apply (om (option_map run_)).
    - rewrite IH, attempt_rmap. reflexivity.
    - intros [u'|]; simpl; [apply IHl|]. apply (om (option_map run_)); [apply IHl|auto].
  Qed.
  Lemma identical_id : forall a b, identical UIdentity (rty a) (rty b) = rmap run_ (identical UIdentity a b).
  Proof. intros. apply (identical_r a b UIdentity). Qed.
  Lemma is_primitive_r : forall t, is_primitive (rty t) = rmap rb (is_primitive t).
  Proof. intros [b|l]; auto. Qed.
  Lemma is_bool_r : forall b, is_bool (rb b) = is_bool b.
  Proof. intros []; auto. Qed.
  Lemma bin_accepts_r : forall op a b, bin_accepts op (rb a) (rb b) = bin_accepts op a b.
  Proof. intros. unfold bin_accepts. rewrite base_eqb_r. destruct (base_eqb a b); auto. destruct op, a; auto. Qed.
  Lemma cmp_accepts_r : forall op a b, cmp_accepts op (rb a) (rb b) = cmp_accepts op a b.
  Proof. intros. unfold cmp_accepts. rewrite base_eqb_r. destruct (base_eqb a b); auto. destruct op, a; auto. Qed.
  Lemma un_accepts_r : forall op a, un_accepts op (rb a) = un_accepts op a.
  Proof. intros op a. destruct op, a; auto. Qed.
  Lemma flat_r : forall l, flat (map rb l) = rty (flat l).
  Proof. intros [|a [|b l]]; simpl; auto. rewrite !map_map. auto. Qed.
  Lemma instances_r : forall m, instances (rmm m) = rmap (map rb) (instances m).
  Proof. induction m as [|[x [b|]] m IH]; simpl; auto. apply (om (map rb)); auto. Qed.
  Lemma instances_known : forall m l x, result (instances m) = Some l -> lookup x m <> Some None.
  Proof.
    induction m as [|[y [b|]] m IH]; intros l x R; simpl in *; try discriminate.
    inv_out. destruct (String.eqb x y); [discriminate|]. eauto.
  Qed.
  Lemma subst_r : forall m t, subst_ty (rmm m) (rty t) = rty (subst_ty m t).
  Proof.
    intros m. fix IH 1. intros [b|l]; simpl.
    - f_equal. destruct b as [| | |x]; simpl; auto. unfold rmm. rewrite lookup_rent by auto. destruct (lookup x m) as [[v|]|]; auto.
    - f_equal. rewrite !map_map. induction l as [|t l IHl]; simpl; auto. rewrite IH, IHl. auto.
  Qed.
  Lemma next_st_r : forall {A A'} (g : A -> A') (r : option (A * tyst)) s,
    next_st (option_map (fun p => (g (fst p), rys (snd p))) r) (rys s) = rys (next_st r s).
  Proof. intros A A' g [[a s1]|] s; auto. Qed.
  Lemma primitive_r : forall x x', x' = rmap rts x -> primitive x' = rmap rbs (primitive x).
  Proof.
    intros x x' ->. unfold primitive. apply (om rts); auto. intros [t s]. simpl. apply (om rb); [apply is_primitive_r|auto].
  Qed.
  Lemma prim_att : forall x x', x' = rmap rts x -> attempt (primitive x') = rmap (option_map rbs) (attempt (primitive x)).
  Proof. intros. rewrite (primitive_r x) by auto. apply attempt_rmap. Qed.
  Lemma att_r : forall {A B} (g : A -> B) x x', x' = rmap g x -> attempt x' = rmap (option_map g) (attempt x).
  Proof. intros A B g x x' ->. apply attempt_rmap. Qed.
  Lemma rmap_unit : forall (x : out unit), x = rmap (fun u => u) x.
  Proof. intros. rewrite rmap_id. auto. Qed.

  Ltac tcneed := apply (om rts); [apply need_map|]; intros [? ?]; cbn [fst snd rts rbs].
  Ltac bneed := apply (om rbs); [apply need_map|]; intros [? ?]; cbn [fst snd rts rbs].

  Section Ctx.
  Variable ctx : tctx.
  Lemma tcs_r : forall l, Forall (fun e => forall s, tc (rctx ctx) (re e) (rys s) = rmap rts (tc ctx e s)) l -> forall s,
    tcs (rctx ctx) (map re l) (rys s) = rmap (fun p => (map rty (fst p), rys (snd p))) (tcs ctx l s).
  Proof.
    intros l H. induction H as [|e l E _ IH]; intros s; simpl; auto.
    apply (om rts); [apply E|]. intros [t s1]. apply (om (fun p => (map rty (fst p), rys (snd p)))); [apply IH|]. intros [ts s2]. auto.
  Qed.
  Lemma tc_r : forall e s, tc (rctx ctx) (re e) (rys s) = rmap rts (tc ctx e s).
  Proof.
    intros e. induction e using expr_ind'; intros s.
    - destruct l; auto.
    - simpl. rewrite lookup_rent by auto. destruct (lookup x (c_vars ctx)); auto.
    - simpl. rewrite lookup_rent by auto. destruct (lookup x (c_global ctx)); auto.
    - change (re (ETuple l)) with (ETuple (map re l)). rewrite !TypeInfer.tc_tuple.
      apply (om (fun p => (map rty (fst p), rys (snd p)))); [apply tcs_r; auto|]. intros [ts s1]. auto.
    - exact (IHe s).
    - exact (IHe s).
    - cbn [Renamed.re tc]. apply (om (option_map rbs)); [apply prim_att; auto|]. intros l.
      apply (om (option_map rbs)); [unfold rbs; rewrite next_st_r; apply prim_att; auto|]. intros r.
      bneed. bneed. rewrite bin_accepts_r. apply (om (fun u => u)); [apply rmap_unit|]. auto.
    - cbn [Renamed.re tc]. apply (om rbs); [apply primitive_r; auto|]. intros [b s1]. cbn [fst snd rbs].
      rewrite un_accepts_r. apply (om (fun u => u)); [apply rmap_unit|]. auto.
    - cbn [Renamed.re tc]. apply (om (option_map rbs)); [apply prim_att; auto|]. intros l.
      apply (om (option_map rbs)); [unfold rbs; rewrite next_st_r; apply prim_att; auto|]. intros r.
      bneed. bneed. rewrite cmp_accepts_r. apply (om (fun u => u)); [apply rmap_unit|]. auto.
    - cbn [Renamed.re tc]. apply (om (option_map rbs)); [apply prim_att; auto|]. intros l.
      apply (om rts); [unfold rbs; rewrite next_st_r; auto|]. intros [t s1]. cbn [fst snd rts].
      bneed. rewrite is_bool_r. apply (om (fun u => u)); [apply rmap_unit|]. auto.
    - cbn [Renamed.re tc]. apply (om (option_map rts)); [apply att_r; auto|]. intros l.
      apply (om (option_map rts)); [unfold rts; rewrite next_st_r; apply att_r; auto|]. intros r.
      tcneed. tcneed. apply (om run_); [apply identical_id|]. auto.
    - cbn [Renamed.re tc]. apply (om rts); auto. intros [t s1]. cbn [fst snd rts]. apply (om rys).
      + destruct i as [i|]; simpl; auto. simpl in H. apply (om rts); auto. intros [ti s2]. cbn [fst snd rts].
        apply (om run_); [apply identical_id|]. auto.
      + intros s2. auto.
    - cbn [Renamed.re tc]. apply (om (option_map rts)); [apply att_r; auto|]. intros l.
      apply (om (option_map rts)); [unfold rts; rewrite next_st_r; apply att_r; auto|]. intros r.
      tcneed. tcneed. apply (om run_); [apply identical_id|]. auto.
    - cbn [Renamed.re tc]. apply (om (option_map rbs)); [apply prim_att; auto|]. intros c.
      apply (om (option_map rts)); [unfold rbs; rewrite next_st_r; apply att_r; auto|]. intros y.
      apply (om (option_map rts)); [unfold rbs, rts; rewrite !next_st_r; apply att_r; auto|]. intros n.
      bneed. rewrite is_bool_r. apply (om (fun u => u)); [apply rmap_unit|]. intros _.
      tcneed. tcneed. apply (om run_); [apply identical_id|]. auto.
    - cbn [Renamed.re tc]. apply (om rts); auto. intros [c s1]. cbn [fst snd rts]. apply (om rts); auto. intros [x s2]. cbn [fst snd rts].
      apply (om rts); auto. intros [y s3]. cbn [fst snd rts]. apply (om rb); [apply is_primitive_r|]. intros b.
      rewrite is_bool_r. apply (om (fun u => u)); [apply rmap_unit|]. intros _. apply (om run_); [apply identical_id|]. auto.
    - cbn [Renamed.re tc rctx c_blocks]. rewrite nth_error_map. destruct (nth_error (c_blocks ctx) id) as [f|]; cbn [option_map]; auto.
      apply (om rts); auto. intros [t s1]. cbn [fst snd rts rsig g_params g_ins g_outs]. apply (om run_); [apply from_generics_r|]. intros u.
      apply (om run_); [rewrite flat_r; apply identical_r|]. intros [|m]; cbn [run_]; auto.
      apply (om (map rb)); [apply instances_r|]. intros inst. rewrite flat_r, subst_r. auto.
  Qed.
  Lemma tc_target_r : forall t, tc_target (rctx ctx) (rtg t) = rmap rty (tc_target ctx t).
  Proof.
    fix IH 1. intros [x|l].
    - simpl. rewrite lookup_rent by auto. destruct (lookup x (c_vars ctx)); auto.
    - simpl. apply (om (map rty)); auto. induction l as [|t l IHl]; simpl; auto.
      apply (om rty); auto. intros t'. apply (om (map rty)); auto.
  Qed.
  Lemma tc_stmt_r : forall i s, tc_stmt (rctx ctx) (rst i) (rys s) = rmap rys (tc_stmt ctx i s).
  Proof.
    intros [t e|e|id v c|id e] s; cbn [Renamed.rst tc_stmt]; auto.
    - apply (om (option_map rty)); [apply att_r, tc_target_r|]. intros t'. apply (om (option_map rts)); [apply att_r, tc_r|]. intros r.
      apply (om rty); [apply need_map|]. intros t2. tcneed. apply (om run_); [apply identical_id|]. auto.
    - apply (om rbs); [apply primitive_r, tc_r|]. intros [b s1]. cbn [fst snd rbs]. rewrite is_bool_r.
      apply (om (fun u => u)); [apply rmap_unit|]. auto.
  Qed.
  Lemma tc_stmts_r : forall l s, tc_stmts (rctx ctx) (map rst l) (rys s) = rmap (option_map rys) (tc_stmts ctx l s).
  Proof.
    induction l as [|i l IH]; intros s; simpl; auto. apply (om (option_map rys)); [apply att_r, tc_stmt_r|].
    intros [s1|]; simpl; auto. apply (om (option_map rys)); auto.
  Qed.
  End Ctx.

  Lemma is_const_r : forall e, is_const (re e) = is_const e.
  Proof. induction e using expr_ind'; simpl; auto; rewrite ?IHe, ?IHe1, ?IHe2, ?IHe3; auto. Qed.
  Lemma tc_clock_r : forall vars c, tc_clock (map (rent rl rb) vars) (rcl c) = tc_clock vars c.
  Proof.
    intros vars [b x| |]; simpl; auto. rewrite lookup_rent by auto. destruct (lookup x vars); simpl; auto. apply is_bool_r.
  Qed.
  Lemma tc_vars_r : forall l vars,
    tc_vars (map rvar l) (map (rent rl rb) vars) = rmap (fun p => (fst p, map (rent rl rb) (snd p))) (tc_vars l vars).
  Proof.
    induction l as [|v l IH]; intros vars; auto. simpl map. cbn [tc_vars].
    apply (om (fun b => b)).
    - cbn [Renamed.rvar v_name]. rewrite lookup_rent by auto. destruct (lookup (v_name v) vars); auto.
    - intros fresh. apply (om (fun u => u)).
      + cbn [Renamed.rvar v_clk]. rewrite tc_clock_r, rmap_id. auto.
      + intros ok. apply (om (fun p => (fst p, map (rent rl rb) (snd p)))).
        * rewrite <- IH. reflexivity.
        * intros [rest vs]. auto.
  Qed.
  Lemma tc_generics_r : forall d i o, tc_generics (map rt d) (map rvar i) (map rvar o) = tc_generics d i o.
  Proof.
    intros d i o. unfold tc_generics.
    assert (D : forall v, tc_declared (map rt d) (rvar v) = tc_declared d v).
    { intros v. unfold tc_declared. simpl. destruct (v_base v) as [| | |x]; simpl; auto. rewrite existsb_inj by auto. auto. }
    apply obind_ext; [apply each_map; auto|]. intros _. apply obind_ext; [apply each_map; auto|]. intros _.
    apply each_map. intros g _. replace (is_used (map rvar i) (rt g)) with (is_used i g); auto.
    unfold is_used. induction i as [|v i IH]; simpl; auto. rewrite IH. f_equal.
    symmetry. apply (base_eqb_r (v_base v) (BOther g)).
  Qed.
  Lemma tc_executable_r : forall b i o, tc_executable b (map rvar i) (map rvar o) = tc_executable b i o.
  Proof. intros [] [|v i] [|w o]; auto. Qed.
  Lemma tc_blocks_r : forall fs l, tc_blocks (map (rent rf rsig) fs) (map rf l) = rmap (map rsig) (tc_blocks fs l).
  Proof.
    intros fs. induction l as [|f l IH]; simpl; auto. rewrite lookup_rent by auto. destruct (lookup f fs); simpl; auto.
    apply (om (map rsig)); auto.
  Qed.
  Lemma lookup_nat_r : forall {A B} (h : A -> B) n l, lookup_nat n (map (fun p => (fst p, h (snd p))) l) = option_map h (lookup_nat n l).
  Proof. intros A B h n l. induction l as [|[m a] l IH]; simpl; auto. destruct (n =? m); auto. Qed.

  Definition ropts (o : node_opts) : node_opts :=
    mkNodeOpts (o_trace o) (o_export o) (o_public o) (o_main o) (o_allow o) (o_doc o) (o_trait o) (o_test o)
      (map rt (o_generics o)) (o_universal o).
  Definition rexts (o : ext_node_opts) : ext_node_opts :=
    mkExtNodeOpts (oe_trace o) (oe_main o) (oe_allow o) (map rt (oe_generics o)).
  Lemma bases_r : forall l, map v_base (map rvar l) = map rb (map v_base l).
  Proof. intros. rewrite !map_map. auto. Qed.
  Lemma node_sig_r : forall o nd, node_sig (ropts o) (rnd rl rg rf rt nd) = rsig (node_sig o nd).
  Proof. intros. unfold node_sig, rsig. simpl. rewrite !bases_r. auto. Qed.
  Lemma ext_sig_r : forall o i o', ext_sig (rexts o) (map rvar i) (map rvar o') = rsig (ext_sig o i o').
  Proof. intros. unfold ext_sig, rsig. simpl. rewrite !bases_r. auto. Qed.
  Lemma tc_node_r : forall g fs o nd,
    tc_node (map (rent rg rb) g) (map (rent rf rsig) fs) (ropts o) (rnd rl rg rf rt nd) =
    rmap (fun r => (rnd rl rg rf rt (fst r), map (option_map (map rb)) (snd r))) (tc_node g fs o nd).
  Proof.
    intros g fs o nd. unfold tc_node. cbn [rnd ropts n_inputs n_outputs n_locals n_blocks n_stmts n_regs n_flips n_name o_main o_test o_generics].
    rewrite <- !map_app, tc_executable_r, tc_generics_r, !map_length.
    apply obind_same. intros _. apply obind_same. intros _.
    apply (om (fun p => (fst p, map (rent rl rb) (snd p)))).
    { apply (tc_vars_r _ []). }
    intros [ok vars]. cbn [fst snd]. apply obind_same. intros _. apply (om (map rsig)); [apply tc_blocks_r|]. intros bs.
    apply (om (option_map rys)); [apply (tc_stmts_r (mkTctx g vars bs) _ tyst0)|]. intros s.
    apply (om rys); [apply need_map|]. intros s1. cbn. unfold done, rnd. cbn. rewrite !map_map.
    do 3 f_equal; [f_equal|]; apply map_ext; intros id; apply lookup_nat_r.
  Qed.
  Lemma tc_ext_node_r : forall o i o', tc_ext_node (rexts o) (map rvar i) (map rvar o') = tc_ext_node o i o'.
  Proof.
    intros o i o'. unfold tc_ext_node. cbn [rexts oe_main oe_generics]. rewrite tc_executable_r, tc_generics_r, <- map_app.
    apply obind_ext; [auto|]. intros _. apply obind_ext; [auto|]. intros _.
    change (@nil (ident * base)) with (map (rent rl rb) []) at 1. rewrite tc_vars_r, obind_rmap.
    apply obind_ext; [auto|]. intros [ok vs]. auto.
  Qed.
  Lemma tc_const_r : forall g t e, tc_const (map (rent rg rb) g) (rb t) (re e) = tc_const g t e.
  Proof.
    intros g t e. unfold tc_const. rewrite is_const_r. apply obind_ext; [auto|]. intros _.
    change (mkTctx (map (rent rg rb) g) [] []) with (rctx (mkTctx g [] [])). change tyst0 with (rys tyst0) at 1.
    rewrite tc_r, obind_rmap. apply obind_ext; [auto|]. intros [r s]. cbn [rts fst snd].
    change (TSingle (rb t)) with (rty (TSingle t)). rewrite identical_id, obind_rmap. auto.
  Qed.

  (** ** Clocks *)
  Definition rclk (k : clk) : clk := match k with KOn x => KOn (rl x) | KOff x => KOff (rl x) | k => k end.
  Definition rks (s : kst) : kst := map (fun p => (fst p, re (snd p))) s.
  Definition rkp (p : clk * kst) := (rclk (fst p), rks (snd p)).
  Lemma into_clk_r : forall c, into_clk (rcl c) = rclk (into_clk c).
  Proof. intros [[] x| |]; auto. Qed.
  Lemma is_implicit_r : forall k, is_implicit (rclk k) = is_implicit k.
  Proof. intros []; auto. Qed.
  Lemma clk_identical_r : forall a b, clk_identical (rclk a) (rclk b) = clk_identical a b.
  Proof. intros [] []; simpl; auto; rewrite eqb_inj by auto; auto. Qed.
  Lemma refine_r : forall a b, refine (rclk a) (rclk b) = rmap rclk (refine a b).
  Proof. intros [] []; simpl; auto; rewrite eqb_inj by auto; destruct (String.eqb x x0); auto. Qed.
  Lemma as_clock_r : forall e p, as_clock (re e) p = rmap rclk (as_clock e p).
  Proof. intros [] p; auto. destruct p; auto. Qed.
  Lemma forge_r : forall k, forge_as_expr (rclk k) = re (forge_as_expr k).
  Proof. intros []; auto. Qed.
  Lemma knext_r : forall r s, knext (option_map rkp r) (rks s) = rks (knext r s).
  Proof. intros [[a s1]|] s; auto. Qed.

  Ltac kneed := apply (om rkp); [apply need_map|]; intros [? ?]; cbn [fst snd rkp].
  Ltac katt := apply (om (option_map rkp)); [rewrite ?knext_r; apply att_r; auto|]; intros ?.
  Section Clk.
  Variable local : list (ident * clock).
  Definition rlocal := map (rent rl rcl) local.
  Lemma kcs_r : forall g l, Forall (fun e => forall s, kc rlocal (re e) (rks s) = rmap rkp (kc local e s)) l -> forall s,
    kcs rlocal (rclk g) (map re l) (rks s) = rmap rks (kcs local g l s).
  Proof.
    intros g l H. induction H as [|e l E _ IH]; intros s; simpl; auto.
    apply (om rkp); auto. intros [k s1]. cbn [fst snd rkp]. rewrite clk_identical_r. apply obind_same. auto.
  Qed.
  Lemma kc_r : forall e s, kc rlocal (re e) (rks s) = rmap rkp (kc local e s).
  Proof.
    intros e. induction e using expr_ind'; intros s; auto.
    - simpl. unfold rlocal. rewrite lookup_rent by auto. destruct (lookup x local); simpl; auto. rewrite into_clk_r. auto.
    - change (re (ETuple l)) with (ETuple (map re l)). rewrite !NodeWf.kc_tuple.
      destruct l as [|e0 l]; auto. change (map re (e0 :: l)) with (re e0 :: map re l).
      cbv iota. inversion H; subst. apply (om rkp); auto. intros [g s1]. cbn [fst snd rkp].
      apply (om rks); [|auto]. exact (kcs_r g (e0 :: l) H s1).
    - cbn [Renamed.re kc]. apply (om rkp); auto. intros [k s1]. cbn [fst snd rkp]. rewrite is_implicit_r. apply obind_same. auto.
    - exact (IHe s).
    - cbn [Renamed.re kc]. katt. katt. kneed. kneed. apply (om rclk); [apply refine_r|auto].
    - exact (IHe s).
    - cbn [Renamed.re kc]. katt. katt. kneed. kneed. apply (om rclk); [apply refine_r|auto].
    - cbn [Renamed.re kc]. apply (om rkp); auto. intros [k s1]. cbn [fst snd rkp]. apply (om rkp); auto. intros [k2 s2]. cbn [fst snd rkp].
      apply (om rclk); [apply as_clock_r|]. intros new. apply (om rclk); [apply refine_r|]. auto.
    - cbn [Renamed.re kc]. katt. katt. kneed. kneed. rewrite !is_implicit_r. apply obind_same. intros _. apply obind_same. auto.
    - cbn [Renamed.re kc]. apply (om rkp); auto. intros [k s1]. cbn [fst snd rkp]. apply (om rks).
      + destruct i as [i|]; simpl; auto. simpl in H. apply (om rkp); auto. intros [k2 s2]. cbn [fst snd rkp].
        rewrite clk_identical_r. apply obind_same. auto.
      + intros s2. unfold done, rkp. simpl. rewrite forge_r. auto.
    - cbn [Renamed.re kc]. katt. katt. kneed. kneed. rewrite clk_identical_r. apply obind_same. auto.
    - cbn [Renamed.re kc]. katt. katt. katt. kneed. kneed. kneed.
      apply (om rclk); [apply refine_r|]. intros ?. apply (om rclk); [apply refine_r|auto].
    - cbn [Renamed.re kc]. apply (om (option_map rclk)); [apply att_r, as_clock_r|]. intros on.
      apply (om (option_map rclk)); [apply att_r, as_clock_r|]. intros off. katt. katt. katt. kneed. kneed. kneed.
      apply (om rclk); [apply need_map|]. intros on1. apply (om rclk); [apply refine_r|]. intros _.
      apply (om rclk); [apply need_map|]. intros off1. apply (om rclk); [apply refine_r|auto].
    - exact (IHe s).
  Qed.
  Definition kc_targets (g : clk) (local : list (ident * clock)) : list vartuple -> out unit :=
    fix go (l : list vartuple) : out unit :=
    match l with
    | [] => done tt
    | t :: l => k <~ kc_target local t;; _ <~ clk_identical g k;; go l
    end.
  Lemma kc_target_mult : forall loc t0 l, kc_target loc (VTMult (t0 :: l)) =
    (g <~ kc_target loc t0;; _ <~ kc_targets g loc (t0 :: l);; done g).
  Proof. reflexivity. Qed.
  Lemma kc_target_r : forall t, kc_target rlocal (rtg t) = rmap rclk (kc_target local t).
  Proof.
    induction t as [x|l H] using vartuple_ind'.
    - simpl. unfold rlocal. rewrite lookup_rent by auto. destruct (lookup x local); simpl; auto. rewrite into_clk_r. auto.
    - destruct l as [|t0 l]; [reflexivity|]. change (rtg (VTMult (t0 :: l))) with (VTMult (rtg t0 :: map rtg l)).
      rewrite !kc_target_mult. inversion H; subst. apply (om rclk); auto. intros g.
      change (rtg t0 :: map rtg l) with (map rtg (t0 :: l)).
      replace (kc_targets (rclk g) rlocal (map rtg (t0 :: l))) with (kc_targets g local (t0 :: l)).
      + apply obind_same. auto.
      + symmetry. clear H2 H3. induction H as [|t l' E _ IH]; auto. simpl map. cbn [kc_targets]. rewrite E, obind_rmap.
        apply obind_ext; [auto|]. intros k. rewrite clk_identical_r. apply obind_ext; auto.
  Qed.
  Lemma kc_stmt_r : forall i s, kc_stmt rlocal (rst i) (rks s) = rmap rks (kc_stmt local i s).
  Proof.
    intros [t e|e|id v c|id e] s; cbn [Renamed.rst kc_stmt]; auto.
    - apply (om rclk); [apply kc_target_r|]. intros k. apply (om rkp); [apply kc_r|]. intros [r s1]. cbn [fst snd rkp].
      rewrite clk_identical_r. destruct t as [x|[|t0 l]]; simpl; auto; apply obind_same; auto.
    - apply (om rkp); [apply kc_r|]. intros [k s1]. cbn [fst snd rkp]. rewrite is_implicit_r. apply obind_same; auto.
  Qed.
  Lemma kc_stmts_r : forall l s, kc_stmts rlocal (map rst l) (rks s) = rmap (option_map rks) (kc_stmts local l s).
  Proof.
    induction l as [|i l IH]; intros s; simpl; auto. apply (om (option_map rks)); [apply att_r, kc_stmt_r|].
    intros [s1|]; simpl; auto. apply (om (option_map rks)); auto.
  Qed.
  End Clk.
  Lemma omap_r : forall {A A' B B'} (f : A -> out B) (f' : A' -> out B') (ga : A -> A') (gb : B -> B') l,
    (forall a, In a l -> f' (ga a) = rmap gb (f a)) -> omap f' (map ga l) = rmap (map gb) (omap f l).
  Proof.
    intros A A' B B' f f' ga gb l H. induction l as [|a l IH]; simpl; auto.
    apply (om gb); [apply H; left; auto|]. intros b. apply (om (map gb)); [|auto]. apply IH. intros; apply H; right; auto.
  Qed.
  Lemma sig_implicit_r : forall l, each sig_implicit (map rvar l) = each sig_implicit l.
  Proof. intros l. apply each_map. intros v _. unfold sig_implicit. simpl. rewrite into_clk_r. apply is_implicit_r. Qed.
  Lemma kc_node_r : forall nd, kc_node (rnd rl rg rf rt nd) = rmap (rnd rl rg rf rt) (kc_node nd).
  Proof.
    intros nd. unfold kc_node. cbn [rnd n_inputs n_outputs n_locals n_blocks n_stmts n_regs n_flips n_name].
    rewrite <- !map_app, sig_implicit_r. apply obind_same. intros _.
    rewrite (map_map rvar).
    change (fun x => (v_name (rvar x), v_clk (rvar x))) with (fun x => rent rl rcl (v_name x, v_clk x)).
    rewrite <- (map_map (fun v => (v_name v, v_clk v)) (rent rl rcl)), <- map_rev.
    apply (om (option_map rks)); [apply (kc_stmts_r _ _ [])|]. intros s. apply (om rks); [apply need_map|]. intros s1.
    apply (om (map rst)); [|auto]. apply omap_r. intros [t e|e|id v c|id e] _; simpl; auto.
    unfold rks. rewrite lookup_nat_r. destruct (lookup_nat id s1); auto.
  Qed.

  (** ** Depths *)
  Definition rm (m : depths) : depths := map (rent rl (fun d => d)) m.
  Lemma lookup_rm : forall x m, lookup (rl x) (rm m) = lookup x m.
  Proof. intros. unfold rm. rewrite lookup_rent by auto. destruct (lookup x m); auto. Qed.
  Lemma poss_r : forall l, Forall (fun e => forall cur m, Positivity.pos (re e) cur (rm m) = rmap rm (Positivity.pos e cur m)) l -> forall cur m,
    poss (map re l) cur (rm m) = rmap rm (poss l cur m).
  Proof. intros l H. induction H as [|e l E _ IH]; intros cur m; simpl; auto. apply (om rm); auto. Qed.
  Lemma pos_r : forall e cur m, Positivity.pos (re e) cur (rm m) = rmap rm (Positivity.pos e cur m).
  Proof.
    induction e using expr_ind'; intros cur m; auto.
    - simpl. destruct (d <=? cur); auto. unfold depth_update. rewrite lookup_rm. destruct (lookup x m); auto.
      destruct (d <=? n); auto.
    - change (re (ETuple l)) with (ETuple (map re l)). rewrite !Positive.pos_tuple. apply poss_r. auto.
    - exact (IHe cur m).
    - exact (IHe cur m).
    - cbn [Renamed.re Positivity.pos]. apply (om rm); auto.
    - exact (IHe cur m).
    - cbn [Renamed.re Positivity.pos]. apply (om rm); auto.
    - cbn [Renamed.re Positivity.pos]. apply (om rm); auto.
    - cbn [Renamed.re Positivity.pos]. apply (om rm); auto.
    - cbn [Renamed.re Positivity.pos]. destruct i as [i|]; simpl.
      + simpl in H. apply (om rm); auto.
      + destruct cur; auto.
    - cbn [Renamed.re Positivity.pos]. apply (om rm); auto.
    - cbn [Renamed.re Positivity.pos]. apply (om rm); auto. intros m1. apply (om rm); auto.
    - cbn [Renamed.re Positivity.pos]. apply (om rm); auto. intros m1. apply (om rm); auto.
    - exact (IHe cur m).
  Qed.
  Lemma pos_stmts_r : forall l m, pos_stmts (map rst l) (rm m) = rmap rm (pos_stmts l m).
  Proof. induction l as [|i l IH]; intros m; simpl; auto. apply (om rm); auto. destruct i; simpl; auto; apply pos_r. Qed.
  Lemma pos_node_r : forall nd, pos_node (rnd rl rg rf rt nd) = rmap (rnd rl rg rf rt) (pos_node nd).
  Proof.
    intros nd. unfold pos_node. cbn [rnd n_inputs n_outputs n_locals n_blocks n_stmts n_regs n_flips n_name].
    apply (om rm); [apply (pos_stmts_r _ [])|]. intros m. unfold done, rnd. cbn.
    assert (E : forall l, map (set_depth (rm m)) (map rvar l) = map rvar (map (set_depth m) l)).
    { intros l. rewrite !map_map. apply map_ext. intros v. unfold set_depth, Renamed.rvar. simpl. rewrite lookup_rm. auto. }
    rewrite !E. auto.
  Qed.
End Names.
