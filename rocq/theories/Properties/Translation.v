(** * Claims about the translation of source programs (C07, C14, C18, C20, C27, C30). *)
From Coq Require Import String List ZArith Bool Arith Permutation.
From Verif Require Import Model.Base Model.Scalar Model.Value Model.History Model.Register Model.Ast Model.Errors
  Model.Options Model.Interp Model.Surface Model.Translate Model.Pipeline
  Spec.CausalitySpec Spec.StepSpec Spec.CoreSem Spec.SurfaceSem Spec.TranslateSpec Spec.ProgramSem Spec.OrderSpec Spec.ChainSpec
  Proofs.ProgramProofs Proofs.Unique Proofs.Reorder Proofs.ReorderSource Proofs.Chains Properties.Steps.
Import ListNotations.
Local Open Scope list_scope.

(** ** Source programs used in the examples *)
Definition i_ (z : Z) : sexpr := XLit (SLInt z).
Definition x_ (x : string) : sexpr := XVar x.
Definition on_ (xs : list string) (b : base) : list string * (base * clock) := (xs, (b, CImplicit)).
Definition def_ (x : string) (e : sexpr) : sstmt := XDef (TVar x) e.
Definition attr_ (a : string) : attribute := mkAttr a [] [].
Definition run_source (p : sprog) (f : string) (ins : list val) : option (res (list val)) :=
  match result (pipeline p) with Some l => Some (run0 (nodes_of l) f ins) | None => None end.

(**
<<
node top(b : bool; k : int) returns (y : int);
var z : int;
let y = z + count(); z = if b then k else 0 -> 10 -> pre y; tel
node count() returns (n : int); let n = 0 fby n + 1; tel
>> *)
Definition src_top (defs : list sstmt) : snode :=
  mkSNode "top" [on_ ["b"] BBool; on_ ["k"] BInt]%string [on_ ["y"] BInt]%string [on_ ["z"] BInt]%string defs.
Definition src_y : sstmt := def_ "y" (XBin (x_ "z") [(Add, XCall "count" [] false)]).
Definition src_z : sstmt :=
  def_ "z" (XIf (x_ "b") (x_ "k") (XThen (i_ 0) [i_ 10; XPre (x_ "y")])).
Definition src_count : snode :=
  mkSNode "count" [] [on_ ["n"] BInt]%string [] [def_ "n" (XFby (i_ 0) [XBin (x_ "n") [(Add, i_ 1)]])].
Definition src : sprog := [([], XNode (src_top [src_y; src_z])); ([], XNode src_count)].
Definition src' : sprog := [([], XNode src_count); ([], XNode (src_top [src_z; src_y]))].

Definition ins_src : list val :=
  map (fun p => VT [vbool (fst p); vint (snd p)]) [(true, 5); (false, 0); (false, 0); (true, 7); (false, 1)]%Z.

Example src_runs :
  run_source src "top" ins_src = Some (Ok (map vint [5; 11; 13; 10; 14]%Z)) /\
  run_source src' "top" ins_src = Some (Ok (map vint [5; 11; 13; 10; 14]%Z)).
Proof. split; vm_compute; reflexivity. Qed.

(** ** C20 *)
(** The value, at instant [T], of the translation of [e] under [n] [pre]s is
    the reference value of [e] at instant [T - n]. *)
Theorem c20_pushed_pre : forall mode glob locals rho kappa F N e n s e' s',
  result (tr false locals e n s) = Some (e', s') ->
  forall T v,
  csem mode glob rho kappa
    (fun id args v => exists g, nth_error (t_blocks s') id = Some g /\ F g args v)
    (fun id v => exists g, nth_error (t_blocks s') id = Some g /\ N g v) 0 e' T v
  <-> sem mode glob locals rho F N e (Z.of_nat T - Z.of_nat n) v.
Proof. exact pushed_pre. Qed.
Print Assumptions c20_pushed_pre.

(** [(x + (0 -> pre x))] under two [pre]s; [x] is 1, 2, 4, 8, ... *)
Definition c20_rho (T : nat) (x : ident) : option nillable := Some (Defined (SInt (2 ^ Z.of_nat T))).
Definition c20_e : sexpr := XBin (x_ "x") [(Add, XParen [XThen (i_ 0) [XPre (x_ "x")]] false)].
Example c20_ex : forall mode glob kappa F N, exists e' s',
  result (tr false ["x"%string] c20_e 2 tst0) = Some (e', s') /\
  sem mode glob ["x"%string] c20_rho F N c20_e (Z.of_nat 5 - Z.of_nat 2) (vint 12) /\
  csem mode glob c20_rho kappa (fun _ _ _ => False) (fun _ _ => False) 0 e' 5 (vint 12).
Proof.
  intros. eexists. eexists. split; [vm_compute; reflexivity|].
  assert (S : sem mode glob ["x"%string] c20_rho F N c20_e (Z.of_nat 5 - Z.of_nat 2) (vint 12)).
  { eapply sem_bin with (w := vint 8); [apply sem_var; [simpl; auto|discriminate|reflexivity]|].
    eapply bins_cons with (v := vint 4); [|destruct mode; reflexivity|apply bins_nil].
    eapply sem_paren with (vs := [vint 4]). constructor; [|constructor].
    eapply sem_then with (e' := XPre (x_ "x")); [reflexivity|].
    apply sem_pre. apply sem_var; [simpl; auto|discriminate|reflexivity]. }
  split; [exact S|].
  eapply cs_bin with (va := vint 8) (vb := vint 4);
    [apply cs_var; [repeat constructor|reflexivity]| |destruct mode; reflexivity].
  apply cs_paren, cs_after; [repeat constructor|]. apply cs_pre, cs_var; [repeat constructor|reflexivity].
Qed.

(** ** C07 *)
Theorem c07_then_default : forall mode glob locals rho kappa F N e l s r s',
  result (tr false locals (XThen e l) 0 s) = Some (r, s') ->
  forall T v,
  csem mode glob rho kappa
    (fun id args v => exists g, nth_error (t_blocks s') id = Some g /\ F g args v)
    (fun id v => exists g, nth_error (t_blocks s') id = Some g /\ N g v) 0 r T v
  <-> exists ek, nth_error (e :: l) (Nat.min T (length l)) = Some ek /\ sem mode glob locals rho F N ek (Z.of_nat T) v.
Proof. exact then_default. Qed.
Print Assumptions c07_then_default.

Theorem c07_fby_default : forall mode glob locals rho kappa F N e l s r s',
  result (tr false locals (XFby e l) 0 s) = Some (r, s') ->
  forall T v,
  csem mode glob rho kappa
    (fun id args v => exists g, nth_error (t_blocks s') id = Some g /\ F g args v)
    (fun id v => exists g, nth_error (t_blocks s') id = Some g /\ N g v) 0 r T v
  <-> exists ek, nth_error (e :: l) (Nat.min T (length l)) = Some ek /\
        sem mode glob locals rho F N (Nat.iter (Nat.min T (length l)) XPre ek) (Z.of_nat T) v.
Proof. exact fby_default. Qed.
Print Assumptions c07_fby_default.

Definition chain_src (attrs : list attribute) (e : sexpr) : sprog :=
  [(attrs, XNode (mkSNode "f" [on_ ["x"; "z"; "y"] BInt]%string [on_ ["o"] BInt]%string [] [def_ "o" e]))].
Definition chain_ins : list val :=
  map (fun p => VT [vint p; vint (10 + p); vint (20 + p)]) [0; 1; 2; 3]%Z.
Example c07_then_ex : run_source (chain_src [] (XThen (x_ "x") [x_ "z"; x_ "y"])) "f" chain_ins
  = Some (Ok (map vint [0; 11; 22; 23]%Z)).
Proof. vm_compute. reflexivity. Qed.
Example c07_fby_ex : run_source (chain_src [] (XFby (x_ "x") [x_ "z"; x_ "y"])) "f" chain_ins
  = Some (Ok (map vint [0; 10; 20; 21]%Z)).
Proof. vm_compute. reflexivity. Qed.

(** Universal mode: the middle operands are never used, provided they have a
    value and are present when the first one is. *)
Theorem c07_then_universal_partial : forall locals e l m d s r s',
  result (tr true locals (XThen e (l ++ [m])) d s) = Some (r, s') ->
  exists e' l' m', translation_of true locals d e e' /\ Forall2 (translation_of true locals d) l l' /\
    translation_of true locals d m m' /\
    forall mode glob rho kappa calls nilouts id T v,
    let value := csem mode glob rho kappa calls nilouts 0 in
    (forall k x, k <= T -> In x (e' :: l') -> exists w, value x k w) ->
    (forall k x w0 w, k <= T -> In x l' -> value e' k w0 -> first_is_nil w0 = false -> value x k w -> first_is_nil w = false) ->
    value r T v <-> value (EFlip id e' m') T v.
Proof. exact then_universal. Qed.
Print Assumptions c07_then_universal_partial.

Example c07_universal_ex :
  run_source (chain_src [attr_ "universal_pre"] (XThen (x_ "x") [x_ "z"; x_ "y"])) "f" chain_ins
    = Some (Ok (map vint [0; 21; 22; 23]%Z)) /\
  run_source (chain_src [attr_ "universal_pre"] (XThen (x_ "x") [x_ "y"])) "f" chain_ins
    = Some (Ok (map vint [0; 21; 22; 23]%Z)).
Proof. split; vm_compute; reflexivity. Qed.

(** Without that condition the middle operand shows: [x -> pre z -> y] is not
    [x -> y]. *)
Theorem c07_then_universal_refuted : exists e0 e1 e2 ins o o',
  run_source (chain_src [attr_ "universal_pre"] (XThen e0 [e1; e2])) "f" ins = Some (Ok o) /\
  run_source (chain_src [attr_ "universal_pre"] (XThen e0 [e2])) "f" ins = Some (Ok o') /\
  o <> o'.
Proof.
  exists (x_ "x"), (XPre (x_ "z")), (x_ "y"), chain_ins, (map vint [0; 10; 22; 23]%Z), (map vint [0; 21; 22; 23]%Z).
  split; [vm_compute; reflexivity|]. split; [vm_compute; reflexivity|]. discriminate.
Qed.
Print Assumptions c07_then_universal_refuted.

(** ** C27 *)
Theorem c27_bin_left : forall u locals e l d s r s',
  result (tr u locals (XBin e l) d s) = Some (r, s') ->
  exists e' es, translation_of u locals d e e' /\ length es = length l /\
    r = fold_left (fun a p => EBin (fst p) a (snd p)) (combine (map fst l) es) e' /\
    forall k op x x', nth_error l k = Some (op, x) -> nth_error es k = Some x' -> translation_of u locals d x x'.
Proof. exact bin_left. Qed.
Print Assumptions c27_bin_left.

Theorem c27_clock_left : forall u locals e l d s r s',
  result (tr u locals (XClock e l) d s) = Some (r, s') ->
  exists e' es, translation_of u locals d e e' /\ length es = length l /\
    r = fold_left (fun a p => EClock (fst p) a (snd p)) (combine (map fst l) es) e' /\
    forall k op x x', nth_error l k = Some (op, x) -> nth_error es k = Some x' -> translation_of u locals d x x'.
Proof. exact clock_left. Qed.
Print Assumptions c27_clock_left.

Theorem c27_cmp_chain : forall u locals e p1 p2 l d s, result (tr u locals (XCmp e (p1 :: p2 :: l)) d s) = None.
Proof. exact cmp_chain. Qed.
Print Assumptions c27_cmp_chain.

(** [x - z - y] is [(x - z) - y]. *)
Example c27_ex :
  run_source (chain_src [] (XBin (x_ "x") [(Sub, x_ "z"); (Sub, x_ "y")])) "f" chain_ins
    = Some (Ok (map vint [-30; -31; -32; -33]%Z)) /\
  run_source (chain_src [] (XBin (x_ "x") [(Sub, XParen [XBin (x_ "z") [(Sub, x_ "y")]] false)])) "f" chain_ins
    = Some (Ok (map vint [10; 11; 12; 13]%Z)).
Proof. split; vm_compute; reflexivity. Qed.
Example c27_cmp_ex :
  run_source (chain_src [] (XIf (XCmp (x_ "x") [(Lt, x_ "z")]) (i_ 1) (i_ 0))) "f" chain_ins
    = Some (Ok (map vint [1; 1; 1; 1]%Z)) /\
  pipeline (chain_src [] (XIf (XCmp (x_ "x") [(Lt, x_ "z"); (Lt, x_ "y")]) (i_ 1) (i_ 0)))
    = Out None [ECmpNotAssociative] [].
Proof. split; vm_compute; reflexivity. Qed.

(** ** C30 *)
Theorem c30_identities : forall p l nd, result (pipeline p) = Some l -> In nd (nodes_of l) ->
  let es := flat_map computed (n_stmts nd) in
  Permutation (flat_map calls_of es) (seq 0 (length (n_blocks nd))) /\
  Permutation (flat_map flips_of es) (seq 0 (n_flips nd)) /\
  Permutation (map fst (flat_map reads_of es)) (seq 0 (length (n_regs nd))) /\
  (forall r, r < length (n_regs nd) -> init_count r (n_stmts nd) = 1 /\ update_count r (n_stmts nd) = 1) /\
  (forall r i n, In (r, (i, n)) (flat_map reads_of es) ->
     In (SUpdate r n) (n_stmts nd) /\ exists c, In (SInit r i (Some c)) (n_stmts nd)).
Proof. exact compiled_ids. Qed.
Print Assumptions c30_identities.

Definition c30_src : sprog :=
  chain_src [attr_ "universal_pre"]
    (XThen (XFby (x_ "x") [x_ "z"; x_ "y"]) [XCall "id" [x_ "x"] false; XCall "id" [XPre (x_ "o")] false])
  ++ [([], XNode (mkSNode "id" [on_ ["a"] BInt]%string [on_ ["b"] BInt]%string [] [def_ "b" (x_ "a")]))].
Example c30_ex : exists l nd, result (pipeline c30_src) = Some l /\ In nd (nodes_of l) /\
  (length (n_regs nd), n_flips nd, n_blocks nd) = (3, 2, ["id"; "id"]%string).
Proof. eexists. eexists. split; [vm_compute; reflexivity|]. split; [left; reflexivity|]. reflexivity. Qed.

(** ** C18 *)
(** Every run of an accepted program satisfies the equations of its source. *)
Theorem c18_equations : forall mode glob p l f i ins outs i',
  result (pipeline p) = Some l ->
  (forall a sn, In (a, XNode sn) p -> ~ In "universal_pre"%string (map a_action a)) ->
  init_inst (nodes_of l) f = Ok i ->
  run mode glob (nodes_of l) f i ins = Ok (outs, i') ->
  means mode glob (source_nodes p) f ins outs.
Proof. exact program_sound. Qed.
Print Assumptions c18_equations.

(** And these equations leave no choice. *)
Theorem c18_unique : forall mode glob p l, result (pipeline p) = Some l ->
  (forall a sn, In (a, XNode sn) p -> ~ In "universal_pre"%string (map a_action a)) ->
  forall f ins outs outs', means mode glob (source_nodes p) f ins outs -> means mode glob (source_nodes p) f ins outs' ->
  outs = outs'.
Proof. exact means_unique. Qed.
Print Assumptions c18_unique.

Lemma src_default : forall p a sn, (forall d, In d p -> fst d = []) -> In (a, XNode sn) p -> ~ In "universal_pre"%string (map a_action a).
Proof. intros p a sn H I. apply H in I. simpl in I. subst. auto. Qed.
Example c18_ex : means Checked noglob (source_nodes src) "top" ins_src (map vint [5; 11; 13; 10; 14]%Z).
Proof.
  destruct (result (pipeline src)) as [l|] eqn:E; [|vm_compute in E; discriminate].
  vm_compute in E. injection E as <-.
  eapply (c18_equations Checked noglob src); [vm_compute; reflexivity| |vm_compute; reflexivity|vm_compute; reflexivity].
  intros a sn I. apply (src_default src _ sn); auto. intros d [<-|[<-|[]]]; reflexivity.
Qed.

(** ** C14 *)
(** Two orders of the statements in which everything is written before it is
    read: same runs, same final states, same failures. *)
Theorem c14_order : forall mode glob P P', Forall2 permuted_node P P' ->
  forall f ins i r, run mode glob P f i ins = Ok r <-> run mode glob P' f i ins = Ok r.
Proof. exact run_perm_iff. Qed.
Print Assumptions c14_order.
Theorem c14_init : forall P P', Forall2 permuted_node P P' -> forall f, init_inst P f = init_inst P' f.
Proof. exact init_perm. Qed.
Print Assumptions c14_init.

(** Two source programs that differ by the order of their declarations and
    equations. *)
Theorem c14_source : forall mode glob p q l m f i j ins outs i' outs' j',
  reordered p q ->
  result (pipeline p) = Some l -> result (pipeline q) = Some m ->
  (forall a sn, In (a, XNode sn) p -> ~ In "universal_pre"%string (map a_action a)) ->
  (forall a sn, In (a, XNode sn) q -> ~ In "universal_pre"%string (map a_action a)) ->
  init_inst (nodes_of l) f = Ok i -> run mode glob (nodes_of l) f i ins = Ok (outs, i') ->
  init_inst (nodes_of m) f = Ok j -> run mode glob (nodes_of m) f j ins = Ok (outs', j') ->
  outs = outs'.
Proof. exact reordered_runs. Qed.
Print Assumptions c14_source.

Example c14_source_ex : reordered src src'.
Proof.
  exists [([], XNode src_count); ([], XNode (src_top [src_y; src_z]))]. split; [apply perm_swap|].
  repeat constructor. 
Qed.

(** [y = a + 1; a = x; b = a] against [a = x; b = a; y = a + 1], as executed. *)
Definition perm_node (l : list stmt) : node :=
  mkNode "f" [v_ "x" 0 BInt] [v_ "y" 0 BInt] [v_ "a" 0 BInt; v_ "b" 0 BInt] [] l [] 0.
Definition st_a : stmt := SLet (VTSingle "a") (EVar "x" 0).
Definition st_b : stmt := SLet (VTSingle "b") (EVar "a" 0).
Definition st_y : stmt := SLet (VTSingle "y") (EBin Add (EVar "a" 0) (lit_ 1)).
Example c14_ex : permuted_node (perm_node [st_a; st_b; st_y]) (perm_node [st_a; st_y; st_b]).
Proof.
  assert (W : forall l, l = [st_b; st_y] \/ l = [st_y; st_b] -> well_ordered (st_a :: l)).
  { assert (RA : forall x k, reads_now x (EVar "a" 0) -> forall k' s', nth_error [st_a; st_b; st_y] k' = Some s' \/ nth_error [st_a; st_y; st_b] k' = Some s' -> stmt_count x s' <> 0 -> k' < S k).
    { intros x k R k' s' E C. inversion R; subst. destruct k' as [|[|[|k']]]; [apply Nat.lt_0_succ| | |];
      destruct E as [E|E]; try (destruct k'; discriminate E); cbn in E; injection E as <-; vm_compute in C; congruence. }
    intros l L. assert (LL : forall k' s', nth_error (st_a :: l) k' = Some s' -> nth_error [st_a; st_b; st_y] k' = Some s' \/ nth_error [st_a; st_y; st_b] k' = Some s') by (destruct L; subst; auto).
    intros k s e E I.
    assert (Cs : (k = 0 /\ e = EVar "x" 0) \/ (exists k0, k = S k0) /\ (e = EVar "a" 0 \/ e = EBin Add (EVar "a" 0) (lit_ 1))).
    { destruct k as [|[|[|k]]]; [left| | |]; destruct L; subst l; try (destruct k; discriminate E); cbn in E; injection E as <-; cbn in I; destruct I as [<-|[]]; auto; right; split; eauto. }
    split.
    - intros x R k' s' E' C. destruct Cs as [[-> ->]|[[k0 ->] [->| ->]]].
      + inversion R; subst. apply LL in E'. destruct k' as [|[|[|k']]]; destruct E' as [E'|E']; try (destruct k'; discriminate E'); cbn in E'; injection E' as <-; vm_compute in C; congruence.
      + eapply RA; eauto.
      + inversion R; subst; [eapply RA; eauto|]. match goal with H : reads_now _ (lit_ 1) |- _ => inversion H end.
    - intros r R. destruct Cs as [[-> ->]|[[k0 ->] [->| ->]]]; inversion R; subst; match goal with H : fetches _ _ |- _ => inversion H end. }
  unfold permuted_node. cbn [n_name n_inputs n_outputs n_locals n_blocks n_regs n_flips n_stmts perm_node].
  repeat (split; [reflexivity|]). split; [apply perm_skip, perm_swap|].
  split; [|split; apply W; auto].
  split; [|split; [|split; [|split; constructor]]]; try (intros; vm_compute; auto; fail).
  intros x. unfold definitions. cbn.
  destruct (String.eqb_spec x "a"), (String.eqb_spec x "b"), (String.eqb_spec x "y"); subst; try discriminate; cbn; auto.
Qed.
