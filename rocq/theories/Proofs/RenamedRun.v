(** Execution of a renamed program. *)
From Coq Require Import String List ZArith Bool Arith Permutation.
From Verif Require Import Model.Base Model.Scalar Model.Value Model.History Model.Register Model.Ast Model.Errors Model.Options Model.Interp
  Model.Constexpr Model.Pipeline
  Spec.RenameSpec Proofs.AstInd Proofs.OutBasics Proofs.Stripped Proofs.Renamed Proofs.RenamedChecks.
From Verif Require Proofs.InterpBasics.
Import ListNotations.

Lemma bm : forall {A A' B B'} (g : A -> A') (h : B -> B') (x : res A) x' (f : A -> res B) (f' : A' -> res B'),
  x' = resmap g x -> (forall a, f' (g a) = resmap h (f a)) -> bind x' f' = resmap h (bind x f).
Proof. intros A A' B B' g h x x' f f' -> H. apply bind_map; auto. Qed.
Lemma bs : forall {A B B'} (h : B -> B') (x x' : res A) (f : A -> res B) (f' : A -> res B'),
  x' = x -> (forall a, f' a = resmap h (f a)) -> bind x' f' = resmap h (bind x f).
Proof. intros A B B' h x x' f f' -> H. apply resmap_bind; auto. Qed.
Lemma resmap_id : forall {A} (x : res A), resmap (fun a => a) x = x.
Proof. intros A []; auto. Qed.
Lemma of_option_map : forall {A B} (g : A -> B) p o, of_option p (option_map g o) = resmap g (of_option p o).
Proof. intros A B g p [a|]; auto. Qed.

(** A function of the position applied to every element. *)
Fixpoint mapi_ {A B} (f : nat -> A -> B) (k : nat) (l : list A) : list B :=
  match l with [] => [] | a :: l => f k a :: mapi_ f (S k) l end.
Definition mapi {A B} (f : nat -> A -> B) l := mapi_ f 0 l.
Lemma nth_mapi : forall {A B} (f : nat -> A -> B) l id, nth_error (mapi f l) id = option_map (f id) (nth_error l id).
Proof.
  intros A B f l id. unfold mapi. assert (X : forall l k id, nth_error (mapi_ f k l) id = option_map (f (k + id)) (nth_error l id)).
  { induction l0 as [|a l0 IH]; intros k [|n]; simpl; auto; [rewrite Nat.add_0_r; auto|]. rewrite IH, Nat.add_succ_r. auto. }
  apply X.
Qed.
Lemma set_mapi : forall {A B} (f : nat -> A -> B) l id a, set_nth id (f id a) (mapi f l) = mapi f (set_nth id a l).
Proof.
  intros A B f l id a. unfold mapi. assert (X : forall l k id, set_nth id (f (k + id) a) (mapi_ f k l) = mapi_ f k (set_nth id a l)).
  { induction l0 as [|b l0 IH]; intros k [|n]; simpl; auto; [rewrite Nat.add_0_r; auto|]. rewrite <- IH, Nat.add_succ_r. auto. }
  exact (X l 0 id).
Qed.

Section Names.
  Variables rl rg rf rt : ident -> ident.
  Hypothesis Il : injective rl.
  Variables glob glob' : ident -> option scalar.
  Hypothesis G : forall x, glob' (rg x) = glob x.
  Local Notation re := (re rl rg).
  Local Notation rtg := (rtg rl).
  Local Notation rst := (rst rl rg).
  Local Notation rvar := (rvar rl rt).
  Definition keys {A} (l : list (ident * A)) : list (ident * A) := map (rent rl (fun a => a)) l.
  Lemma lookup_keys : forall {A} x (l : list (ident * A)), lookup (rl x) (keys l) = lookup x l.
  Proof. intros. unfold keys. rewrite lookup_rent by auto. destruct (lookup x l); auto. Qed.

  Section Eval.
    Variable mode : ovf.
    Variable clk : nat.
    Variable hists : list (ident * hist).
    Variables call call' : nat -> inst -> val -> res (val * inst).
    Variables nilout nilout' : nat -> res val.
    Variable rs : nat -> inst -> inst.
    Hypothesis C : forall id i v, call' id (rs id i) v = resmap (fun p => (fst p, rs id (snd p))) (call id i v).
    Hypothesis N : forall id, nilout' id = nilout id.
    Definition res_ (s : estate) : estate := mkEs (es_flips s) (mapi rs (es_subs s)).
    Definition rve {A} (p : A * estate) : A * estate := (fst p, res_ (snd p)).
    Local Notation ev := (eval mode glob clk hists call nilout).
    Local Notation ev' := (eval mode glob' clk (keys hists) call' nilout').

    Lemma evals_r : forall regs st l,
      Forall (fun e => forall s, ev' regs (keys st) (re e) (res_ s) = resmap rve (ev regs st e s)) l -> forall s,
      evals mode glob' clk (keys hists) call' nilout' regs (keys st) (map re l) (res_ s) =
      resmap rve (evals mode glob clk hists call nilout regs st l s).
    Proof.
      intros regs st l H. induction H as [|e l E _ IH]; intros s; simpl; auto.
      apply (bm rve); auto. intros [v s1]. apply (bm rve); [apply IH|]. intros [vs s2]. auto.
    Qed.
    Lemma eval_r : forall regs st e s, ev' regs (keys st) (re e) (res_ s) = resmap rve (ev regs st e s).
    Proof.
      intros regs st e. induction e using expr_ind'; intros s.
      - reflexivity.
      - destruct d; simpl; rewrite lookup_keys; apply bs; auto. intros h. apply bs; auto.
      - simpl. rewrite G. apply bs; auto.
      - change (re (ETuple l)) with (ETuple (map re l)). rewrite !InterpBasics.eval_tuple.
        apply (bm rve); [apply evals_r; auto|]. intros [vs s1]. auto.
      - exact (IHe s).
      - exact (IHe s).
      - cbn [Renamed.re eval]. apply (bm rve); auto. intros [x s1]. cbn [rve fst snd]. apply (bm rve); auto. intros [y s2].
        cbn [rve fst snd]. apply bs; auto.
      - cbn [Renamed.re eval]. apply (bm rve); auto. intros [x s1]. cbn [rve fst snd]. apply bs; auto.
      - cbn [Renamed.re eval]. apply (bm rve); auto. intros [x s1]. cbn [rve fst snd]. apply (bm rve); auto. intros [y s2].
        cbn [rve fst snd]. apply bs; auto.
      - cbn [Renamed.re eval]. apply (bm rve); auto. intros [x s1]. cbn [rve fst snd]. apply (bm rve); auto. intros [y s2].
        cbn [rve fst snd]. apply bs; auto.
      - cbn [Renamed.re eval]. apply (bm rve); auto. intros [x s1]. cbn [rve fst snd]. destruct (d <? clk); auto.
      - cbn [Renamed.re eval]. apply bs; auto.
      - cbn [Renamed.re eval]. apply (bm rve); auto. intros [x s1]. cbn [rve fst snd]. apply (bm rve); auto. intros [y s2].
        cbn [rve fst snd]. apply bs; auto. intros f. destruct (flip_instant f x y). auto.
      - cbn [Renamed.re eval]. apply (bm rve); auto. intros [x s1]. cbn [rve fst snd]. apply (bm rve); auto. intros [y s2].
        cbn [rve fst snd]. apply (bm rve); auto. intros [b s3]. cbn [rve fst snd]. apply bs; auto.
      - cbn [Renamed.re eval]. apply (bm rve); auto. intros [x s1]. cbn [rve fst snd]. apply (bm rve); auto. intros [y s2].
        cbn [rve fst snd]. apply (bm rve); auto. intros [b s3]. cbn [rve fst snd]. apply (bm rve); auto. intros [b2 s4]. cbn [rve fst snd]. apply bs; auto.
      - cbn [Renamed.re eval]. destruct (d <=? clk).
        + apply (bm rve); auto. intros [a s1]. cbn [rve fst snd res_ es_subs es_flips]. rewrite nth_mapi.
          apply (bm (rs id)); [apply of_option_map|]. intros sub.
          apply (bm (fun p => (fst p, rs id (snd p)))); [apply C|]. intros [v sub']. cbn [fst snd]. rewrite set_mapi. auto.
        + apply bs; auto.
    Qed.

    Definition binds (st : store) (l : list vartuple) (vs : list val) : res store :=
      (fix go (l : list vartuple) (vs : list val) (st : store) : res store :=
               match l, vs with
               | [], [] => Ok st
               | t :: l, v :: vs => st <- bind_target t v st;; go l vs st
               | _, _ => Panic PType
               end) l vs st.
    Lemma bind_target_r : forall t v st, bind_target (rtg t) v (keys st) = resmap keys (bind_target t v st).
    Proof.
      induction t as [x|l H] using vartuple_ind'; intros v st.
      - destruct v; auto.
      - destruct l as [|t0 [|t1 l]]; [reflexivity| |].
        + inversion H; subst. apply H2.
        + change (bind_target (rtg (VTMult (t0 :: t1 :: l))) v (keys st)) with
            (match v with VS _ => Panic PType | VT vs => binds (keys st) (map rtg (t0 :: t1 :: l)) vs end).
          change (bind_target (VTMult (t0 :: t1 :: l)) v st) with
            (match v with VS _ => Panic PType | VT vs => binds st (t0 :: t1 :: l) vs end).
          destruct v as [n|vs]; auto. revert vs st. induction H as [|t l' E _ IH]; intros vs st; destruct vs as [|v vs]; auto.
          change (binds (keys st) (map rtg (t :: l')) (v :: vs)) with (st' <- bind_target (rtg t) v (keys st);; binds st' (map rtg l') vs).
          change (binds st (t :: l') (v :: vs)) with (st' <- bind_target t v st;; binds st' l' vs).
          apply (bm keys); auto.
    Qed.

    Definition rss (s : sstate) : sstate := mkSs (keys (ss_store s)) (ss_regs s) (res_ (ss_es s)).
    Lemma exec_r : forall i s, exec mode glob' clk (keys hists) call' nilout' (rst i) (rss s) = resmap rss (exec mode glob clk hists call nilout i s).
    Proof.
      intros [t e|e|id v c|id e] [st regs es]; cbn [Renamed.rst exec rss ss_store ss_regs ss_es].
      - apply (bm rve); [apply eval_r|]. intros [v s1]. cbn [rve fst snd]. apply (bm keys); [apply bind_target_r|]. auto.
      - apply (bm rve); [apply eval_r|]. intros [v s1]. cbn [rve fst snd]. apply bs; auto.
      - apply (bm re); [apply of_option_map|]. intros c1. apply bs; auto. intros r. apply (bm rve); [apply eval_r|]. intros [cv s1]. cbn [rve fst snd].
        apply bs; auto. intros n. apply bs; auto. intros r1. destruct v as [e|]; auto. simpl option_map. cbv iota.
        apply (bm rve); [apply eval_r|]. intros [v s2]. cbn [rve fst snd]. destruct (same_shapeb v (r_inner r1)); auto.
      - apply bs; auto. intros r. apply (bm rve); [apply eval_r|]. intros [v s1]. cbn [rve fst snd]. destruct (same_shapeb v (r_inner r)); auto.
    Qed.
    Lemma execs_r : forall l s, execs mode glob' clk (keys hists) call' nilout' (map rst l) (rss s) = resmap rss (execs mode glob clk hists call nilout l s).
    Proof. induction l as [|i l IH]; intros s; simpl; auto. apply (bm rss); [apply exec_r|]. auto. Qed.
  End Eval.

  Lemma vars_nil_r : forall l, vars_nil (map rvar l) = vars_nil l.
  Proof. intros [|a [|b l]]; auto. simpl. rewrite map_map. auto. Qed.
  Lemma bind_inputs_r : forall l v, bind_inputs (map rvar l) v = resmap keys (bind_inputs l v).
  Proof.
    intros l v. destruct l as [|a l]; auto.
    change (bind_inputs (map rvar (a :: l)) v) with (bind_target (VTMult (map (fun x => VTSingle (v_name x)) (map rvar (a :: l)))) v (keys [])).
    change (bind_inputs (a :: l) v) with (bind_target (VTMult (map (fun x => VTSingle (v_name x)) (a :: l))) v []).
    rewrite <- bind_target_r. f_equal. change (rtg (VTMult ?l)) with (VTMult (map rtg l)). rewrite !map_map. auto.
  Qed.
  Lemma update_vars_r : forall st l hs, update_vars (keys st) (keys hs) (map rvar l) = resmap keys (update_vars st hs l).
  Proof.
    intros st. induction l as [|x l IH]; intros hs; simpl; auto. apply (bm keys); auto. unfold update_var.
    cbn [Renamed.rvar v_depth v_name]. rewrite lookup_keys. destruct (v_depth x =? 0); auto. apply bs; auto. intros n.
    simpl. f_equal. unfold keys. rewrite !map_map. apply map_ext. intros [y h]. unfold rent. simpl. rewrite eqb_inj by auto. auto.
  Qed.
  Lemma read_outputs_r : forall l st, read_outputs (map rvar l) (keys st) = read_outputs l st.
  Proof.
    intros l st. unfold read_outputs. apply bind_ext; auto. induction l as [|x l IH]; simpl; auto. rewrite IH. unfold var_value.
    cbn [Renamed.rvar v_name]. rewrite lookup_keys. auto.
  Qed.
  Definition rin (rs : nat -> inst -> inst) (i : inst) : inst :=
    let 'Inst clk h regs flips subs := i in Inst clk (keys h) regs flips (mapi rs subs).
  Lemma node_step_r : forall mode call call' nilout nilout' rs nd i v,
    (forall id i v, call' id (rs id i) v = resmap (fun p => (fst p, rs id (snd p))) (call id i v)) ->
    (forall id, nilout' id = nilout id) ->
    node_step mode glob' call' nilout' (rnd rl rg rf rt nd) (rin rs i) v =
    resmap (fun p => (fst p, rin rs (snd p))) (node_step mode glob call nilout nd i v).
  Proof.
    intros mode call call' nilout nilout' rs nd i v C N. unfold node_step.
    cbn [rnd n_inputs n_outputs n_locals n_blocks n_stmts n_regs n_flips n_name].
    destruct (first_is_nil v); [rewrite vars_nil_r; auto|]. destruct i as [clk hists regs flips subs]. cbn [rin].
    apply (bm keys); [apply bind_inputs_r|]. intros st. apply (bm (rss rs)).
    { apply (execs_r mode clk hists call call' nilout nilout' rs C N (n_stmts nd) (mkSs st regs (mkEs flips subs))). }
    intros [st1 regs1 [flips1 subs1]]. cbn [rss res_ ss_store ss_regs ss_es es_flips es_subs].
    apply (bm keys).
    { unfold all_vars. cbn [rnd n_inputs n_outputs n_locals]. rewrite <- !map_app. apply update_vars_r. }
    intros h. rewrite read_outputs_r. apply bs; auto.
  Qed.
  Lemma init_hists_r : forall nd, init_hists (rnd rl rg rf rt nd) = keys (init_hists nd).
  Proof.
    intros nd. unfold init_hists, all_vars. cbn [rnd n_inputs n_outputs n_locals]. rewrite <- !map_app.
    unfold keys. apply flat_map_map. apply Forall_forall. intros x _. cbn [Renamed.rvar v_depth v_name]. destruct (v_depth x); auto.
  Qed.
End Names.

Section Prog.
  Variable n : naming.
  Hypothesis Il : forall f, injective (inside n f).
  Hypothesis If : injective (of_node n).
  Definition rnode (nd : node) : node := rnd (inside n (n_name nd)) (of_const n) (of_node n) (of_type n) nd.

  (** The instance of the renamed node that corresponds to one of [f]. *)
  Fixpoint ri (p : prog) (f : ident) (i : inst) {struct p} : inst :=
    match p with
    | [] => i
    | nd :: p => if String.eqb f (n_name nd)
                 then rin (inside n (n_name nd)) (fun id => match nth_error (n_blocks nd) id with Some g => ri p g | None => fun i => i end) i
                 else ri p f i
    end.

  Lemma find_r : forall p f, find_node (map rnode p) (of_node n f) = option_map (fun q => (rnode (fst q), map rnode (snd q))) (find_node p f).
  Proof.
    induction p as [|nd p IH]; intros f; simpl; auto. rewrite eqb_inj by auto. destruct (String.eqb f (n_name nd)); auto.
  Qed.
  Lemma nil_outputs_r : forall p f, nil_outputs (map rnode p) (of_node n f) = nil_outputs p f.
  Proof.
    intros p f. unfold nil_outputs. rewrite find_r. destruct (find_node p f) as [[nd q]|]; simpl; auto. rewrite vars_nil_r. auto.
  Qed.
  Lemma shape_r : forall t, ty_shape (rty (of_type n) t) = ty_shape t.
  Proof.
    fix IH 1. intros [b|l]; [reflexivity|]. destruct l as [|t l]; [reflexivity|].
    change (VT (ty_shape (rty (of_type n) t) :: map ty_shape (map (rty (of_type n)) l)) = VT (ty_shape t :: map ty_shape l)).
    rewrite IH, map_map. do 2 f_equal. induction l as [|u l IHl]; [reflexivity|]. simpl. rewrite IH, IHl. reflexivity.
  Qed.
  Lemma init_r : forall p f, init_inst (map rnode p) (of_node n f) = resmap (ri p f) (init_inst p f).
  Proof.
    induction p as [|nd p IH]; intros f; auto. simpl map. cbn [init_inst ri]. unfold rnode at 1. cbn [rnd n_name].
    rewrite eqb_inj by auto. destruct (String.eqb f (n_name nd)); auto.
    cbn [rnode rnd n_regs n_blocks n_flips].
    apply bs.
    { induction (n_regs nd) as [|t l IHl]; simpl; auto. rewrite IHl. destruct t; simpl; auto. rewrite shape_r. auto. }
    intros regs. set (rs := fun id => match nth_error (n_blocks nd) id with Some g => ri p g | None => fun i => i end).
    apply (bm (mapi rs)).
    - subst rs. generalize (n_blocks nd) as bs. unfold mapi. intros bs.
      assert (X : forall k l, (forall id, nth_error bs (k + id) = nth_error l id) ->
        mapM (init_inst (map rnode p)) (map (of_node n) l) =
        resmap (mapi_ (fun id => match nth_error bs id with Some g => ri p g | None => fun i => i end) k) (mapM (init_inst p) l)).
      { intros k l. revert k. induction l as [|g l IHl]; intros k H; auto. simpl map. cbn [mapM]. apply (bm (ri p g)); [apply IH|]. intros i.
        apply (bm (mapi_ (fun id => match nth_error bs id with Some g => ri p g | None => fun i => i end) (S k))).
        - apply IHl. intros id. replace (S k + id) with (k + S id) by (rewrite Nat.add_succ_r; auto). apply (H (S id)).
        - intros subs. simpl. do 2 f_equal. specialize (H 0). rewrite Nat.add_0_r in H. rewrite H. auto. }
      apply (X 0). auto.
    - intros subs. cbn [resmap rin]. unfold rnode. rewrite init_hists_r. auto.
  Qed.

  Variables glob glob' : ident -> option scalar.
  Hypothesis G : forall x, glob' (of_const n x) = glob x.
  Lemma step_r : forall mode p f i v,
    step mode glob' (map rnode p) (of_node n f) (ri p f i) v = resmap (fun q => (fst q, ri p f (snd q))) (step mode glob p f i v).
  Proof.
    intros mode. induction p as [|nd p IH]; intros f i v; auto. simpl map. cbn [step ri]. unfold rnode at 1. cbn [rnd n_name].
    rewrite eqb_inj by auto. destruct (String.eqb f (n_name nd)); auto.
    unfold rnode at 3. apply node_step_r; auto.
    - intros id i' v'. cbn [rnode rnd n_blocks]. rewrite nth_error_map. destruct (nth_error (n_blocks nd) id) as [g|]; simpl; auto.
    - intros id. cbn [rnode rnd n_blocks]. rewrite nth_error_map. destruct (nth_error (n_blocks nd) id) as [g|]; simpl; auto. apply nil_outputs_r.
  Qed.
  Lemma run_r : forall mode p f ins i,
    run mode glob' (map rnode p) (of_node n f) (ri p f i) ins = resmap (fun q => (fst q, ri p f (snd q))) (run mode glob p f i ins).
  Proof.
    intros mode p f. induction ins as [|v ins IH]; intros i; auto. cbn [run].
    apply (bm (fun q => (fst q, ri p f (snd q)))); [apply step_r|]. intros [o i1]. cbn [fst snd].
    apply (bm (fun q => (fst q, ri p f (snd q)))); [apply IH|]. intros [os i2]. auto.
  Qed.
  Lemma outputs_r : forall mode p f ins, outputs_on mode glob' (map rnode p) (of_node n f) ins = outputs_on mode glob p f ins.
  Proof.
    intros mode p f ins. unfold outputs_on. rewrite init_r. destruct (init_inst p f) as [i|]; simpl; auto.
    rewrite run_r. destruct (run mode glob p f i ins) as [[os i2]|]; auto.
  Qed.
  Lemma main_r : forall mode p f k fuel,
    main_fn mode glob' (map rnode p) (of_node n f) k fuel = option_map (resmap (ri p f)) (main_fn mode glob p f k fuel).
  Proof.
    intros mode p f k fuel. unfold main_fn. rewrite init_r. destruct (init_inst p f) as [i|]; simpl; auto.
    assert (B : forall i, main_body mode glob' (map rnode p) (of_node n f) (ri p f i) = resmap (ri p f) (main_body mode glob p f i)).
    { intros j. unfold main_body. apply (bm (fun q => (fst q, ri p f (snd q)))); [apply step_r|]. intros [o i1]. apply bs; auto. }
    destruct (k =? 0).
    - revert i. induction fuel as [|m IH]; intros i; simpl; auto. rewrite B. destruct (main_body mode glob p f i); simpl; auto.
    - simpl. f_equal. revert i. induction k as [|m IH]; intros i; simpl; auto. rewrite B. destruct (main_body mode glob p f i); simpl; auto.
  Qed.
End Prog.
