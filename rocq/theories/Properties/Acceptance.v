(** * Claims about which source programs are accepted (C12, C44, C45). *)
From Coq Require Import String List ZArith Bool Arith Permutation.
From Verif Require Import Model.Base Model.Scalar Model.Value Model.Ast Model.Errors Model.Interp Model.Options Model.Surface Model.Translate Model.Causality
  Model.Pipeline Spec.OrderSpec Spec.ProgramSem Spec.SourceCausal Spec.TypeSpec Spec.ClockSpec Spec.AttrSpec Spec.CrashSpec Spec.DiagSpec Spec.Static
  Proofs.SourceCausality Proofs.StaticProgram Proofs.StaticOrder Proofs.StaticSilent.
Import ListNotations.

(** ** C12 *)
(** On source nodes, for both translations of [pre], [fby] and [->]: the
    equations can be ordered exactly when every variable but the inputs is
    assigned, once, and no equation waits for itself. *)
Theorem c12_source : forall o sn nd, result (tr_node o sn) = Some nd ->
  ((exists nd', node_causality nd = inl nd') <-> solvable sn).
Proof. exact causality_source. Qed.
Print Assumptions c12_source.

Open Scope string_scope.
Open Scope list_scope.
Definition c12_opts (u : bool) : node_opts := mkNodeOpts None false false None [] [] false None [] u.
(** [z] reads [y], and [y] the past of [z]. *)
Definition c12_sn (first : sexpr -> sexpr) : snode :=
  mkSNode "f" [(["a"], (BInt, CImplicit))] [(["y"], (BInt, CImplicit))] [(["z"; "w"], (BInt, CImplicit))]
    [XDef (TVar "y") (first (XVar "z"));
     XDef (TTuple [TVar "w"; TVar "z"] false) (XParen [XVar "a"; XBin (XVar "y") [(Scalar.Add, XVar "a")]] false)].
Definition c12_fby (e : sexpr) : sexpr := XFby (XLit (SLInt 0)) [XBin e [(Scalar.Mul, XLit (SLInt 2))]].
Definition c12_then (e : sexpr) : sexpr := XThen (XLit (SLInt 0)) [XBin e [(Scalar.Mul, XLit (SLInt 2))]].
Example c12_ex_source : forall u, solvable (c12_sn c12_fby) /\
  exists nd, result (tr_node (c12_opts u) (c12_sn c12_fby)) = Some nd /\ length (n_stmts nd) = if u then 4 else 2.
Proof.
  intros u. assert (E : exists nd, result (tr_node (c12_opts u) (c12_sn c12_fby)) = Some nd /\
    (exists nd', node_causality nd = inl nd') /\ length (n_stmts nd) = if u then 4 else 2).
  { destruct u; (eexists; split; [vm_compute; reflexivity|split; [eexists; vm_compute; reflexivity|reflexivity]]). }
  destruct E as (nd & E & S & L). split; [exact (proj1 (c12_source _ _ _ E) S)|eauto].
Qed.
Example c12_ex_waits : waits_plus (c12_sn c12_then) 0 0 /\ ~ solvable (c12_sn c12_then).
Proof.
  assert (W : waits_plus (c12_sn c12_then) 0 0).
  { apply wp_more with 1; [|apply wp_one]; [exists (nth 0 (s_defs (c12_sn c12_then)) (XAssert (XVar ""))), (nth 1 (s_defs (c12_sn c12_then)) (XAssert (XVar ""))), "z"
      |exists (nth 1 (s_defs (c12_sn c12_then)) (XAssert (XVar ""))), (nth 0 (s_defs (c12_sn c12_then)) (XAssert (XVar ""))), "y"]; cbn; intuition auto. }
  split; auto. intros (_ & _ & _ & N). exact (N _ W).
Qed.

(** ** C45 *)
(** The programs for which code is generated are exactly the well-formed ones:
    [well_formed] only speaks of the source. *)
Theorem c45_accepted : forall p, (exists l, result (pipeline p) = Some l) <-> well_formed p.
Proof. exact accepted_well_formed. Qed.
Print Assumptions c45_accepted.

(**
<<
#[universal_pre] #[generic[T]]
node sample(c : bool; x : T) returns (y : T); var s : T when c;
let s = x when c; y = merge c s ((x -> pre y) whenot c); tel
#[main(4)] node main() returns (); var n : int; b, ok : bool;
let assert ok; b = true fby not b; (n, ok) = (k + sample(b, 0 fby n), k >= 0); tel
const k : int = if 2 < 3 then 4 - j else 0;
extern const j : int;
>> *)
Definition c45_sample (past : sexpr) : sattrdecl :=
  ([mkAttr "universal_pre" [] []; mkAttr "generic" ["T"] []],
   XNode (mkSNode "sample" [(["c"], (BBool, CImplicit)); (["x"], (BOther "T", CImplicit))] [(["y"], (BOther "T", CImplicit))]
     [(["s"], (BOther "T", CExplicit true "c"))]
     [XDef (TVar "s") (XClock (XVar "x") [(true, XVar "c")]);
      XDef (TVar "y") (XMerge (XVar "c") (XVar "s") (XClock (XParen [past] false) [(false, XVar "c")]))])).
Definition c45_main (step : sexpr) : sattrdecl :=
  ([mkAttr "main" [] [ALInt 4]],
   XNode (mkSNode "main" [] [] [(["n"], (BInt, CImplicit)); (["b"; "ok"], (BBool, CImplicit))]
     [XAssert (XVar "ok");
      XDef (TVar "b") (XFby (XLit (SLBool true)) [XNot (XVar "b")]);
      XDef (TTuple [TVar "n"; TVar "ok"] false)
        (XParen [XBin (XVar "k") [(Scalar.Add, step)]; XCmp (XVar "k") [(Scalar.Ge, XLit (SLInt 0))]] false)])).
Definition c45_k (body : sexpr) : sattrdecl :=
  ([], XConst "k" BInt (XIf (XCmp (XLit (SLInt 2)) [(Scalar.Lt, XLit (SLInt 3))]) body (XLit (SLInt 0)))).
Definition c45_past : sexpr := XThen (XVar "x") [XPre (XVar "y")].
Definition c45_step : sexpr := XCall "sample" [XVar "b"; XFby (XLit (SLInt 0)) [XVar "n"]] false.
Definition c45_body : sexpr := XBin (XLit (SLInt 4)) [(Scalar.Sub, XVar "j")].
Definition c45_j : sattrdecl := ([], XExtConst "j" BInt).
Example c45_ex : well_formed [c45_sample c45_past; c45_main c45_step; c45_k c45_body; c45_j].
Proof. apply c45_accepted. eexists. vm_compute. reflexivity. Qed.

(** Changing one thing: [pre y] without [->]; [pre pre y]; a type that does not
    fit; a clock that does not; an instantaneous loop; an unknown name; a
    constant that is not one; a constant that depends on itself; a name declared
    twice; an attribute that does not apply. *)
Example c45_ex_past : ~ well_formed [c45_sample (XPre (XVar "y")); c45_main c45_step; c45_k c45_body; c45_j] /\
  ~ well_formed [c45_sample (XThen (XVar "x") [XPre (XPre (XVar "y"))]); c45_main c45_step; c45_k c45_body; c45_j].
Proof. split; intros H; apply c45_accepted in H; destruct H as (l & H); vm_compute in H; discriminate. Qed.
Example c45_ex_types : ~ well_formed [c45_sample c45_past; c45_main (XCall "sample" [XVar "n"; XVar "b"] false); c45_k c45_body; c45_j] /\
  ~ well_formed [c45_sample (XVar "c"); c45_main c45_step; c45_k c45_body; c45_j].
Proof. split; intros H; apply c45_accepted in H; destruct H as (l & H); vm_compute in H; discriminate. Qed.
Example c45_ex_clock : ~ well_formed [c45_sample (XThen (XVar "s") [XPre (XVar "y")]); c45_main c45_step; c45_k c45_body; c45_j].
Proof. intros H; apply c45_accepted in H; destruct H as (l & H); vm_compute in H; discriminate. Qed.
Example c45_ex_loop : ~ well_formed [c45_sample c45_past; c45_main (XCall "sample" [XVar "b"; XVar "n"] false); c45_k c45_body; c45_j].
Proof. intros H; apply c45_accepted in H; destruct H as (l & H); vm_compute in H; discriminate. Qed.
Example c45_ex_constants : ~ well_formed [c45_sample c45_past; c45_main c45_step; c45_k c45_body] /\
  ~ well_formed [c45_sample c45_past; c45_main c45_step; c45_k (XCall "j" [] false); c45_j] /\
  ~ well_formed [c45_sample c45_past; c45_main c45_step; c45_k (XBin c45_body [(Scalar.Mul, XVar "k")]); c45_j] /\
  ~ well_formed [c45_j; c45_sample c45_past; c45_main c45_step; c45_k c45_body; c45_j].
Proof. repeat split; intros H; apply c45_accepted in H; destruct H as (l & H); vm_compute in H; discriminate. Qed.
Example c45_ex_attributes : ~ well_formed [c45_sample c45_past; c45_main c45_step; c45_k c45_body; (fst (c45_main c45_step), snd c45_j)] /\
  ~ well_formed [(fst (c45_main c45_step), snd (c45_sample c45_past)); c45_main c45_step; c45_k c45_body; c45_j].
Proof. repeat split; intros H; apply c45_accepted in H; destruct H as (l & H); vm_compute in H; discriminate. Qed.

(** Unless the macro aborts, it expands to code when the program is well formed
    and to at least one compile error when it is not. *)
Theorem c45_verdict : forall p, compile p <> Crashed ->
  (well_formed p /\ exists l ws, compile p = Expanded (Some l) ws) \/
  (~ well_formed p /\ exists e es, compile p = Expanded None (e :: es)).
Proof. exact verdict. Qed.
Print Assumptions c45_verdict.
Example c45_ex_verdict :
  (exists l, compile [c45_sample c45_past; c45_main c45_step; c45_k c45_body; c45_j] = Expanded (Some l) []) /\
  compile [c45_sample c45_past; c45_main c45_step; c45_k c45_body] = Expanded None [EVarNotFound].
Proof. split; [eexists|]; vm_compute; reflexivity. Qed.

(** No error is recorded and then dropped exactly when, besides, the right hand
    sides of the nodes without [#[universal_pre]] obey the clock calculus of
    [pace_of], which also looks at the later operands of [fby] and [->]. *)
Theorem c45_silent : forall p, (exists l ws, pipeline p = Out (Some l) [] ws) <->
  well_formed p /\ (forall a sn, In (a, XNode sn) p -> ~ marked_universal a ->
    forall i, In i (s_defs sn) -> pace_of (declared_pace sn) (sstmt_expr i) <> None).
Proof. exact silent_consistent. Qed.
Print Assumptions c45_silent.

(** [y = x fby s], where [s] is slower than [x]. *)
Definition c45_slow (universal : bool) : sprog :=
  [(if universal then [mkAttr "universal_pre" [] []] else [],
    XNode (mkSNode "f" [(["c"], (BBool, CImplicit)); (["x"], (BInt, CImplicit))] [(["y"], (BInt, CImplicit))]
      [(["s"], (BInt, CExplicit true "c"))]
      [XDef (TVar "s") (XClock (XVar "x") [(true, XVar "c")]);
       XDef (TVar "y") (XFby (XVar "x") [XVar "s"])]))].
Example c45_ex_silent :
  (exists l ws, pipeline [c45_sample c45_past; c45_main c45_step; c45_k c45_body; c45_j] = Out (Some l) [] ws) /\
  well_formed (c45_slow false) /\ ~ (exists l ws, pipeline (c45_slow false) = Out (Some l) [] ws) /\ ~ well_formed (c45_slow true).
Proof.
  split; [do 2 eexists; vm_compute; reflexivity|]. split; [apply c45_accepted; eexists; vm_compute; reflexivity|]. split.
  - intros H. apply c45_silent in H. destruct H as (_ & H). refine (H _ _ (or_introl eq_refl) _ (XDef (TVar "y") (XFby (XVar "x") [XVar "s"])) _ _).
    + intros [].
    + cbn. auto.
    + reflexivity.
  - intros H. apply c45_accepted in H. destruct H as (l & H). vm_compute in H. discriminate.
Qed.

(** ** C44 *)
(** Equations too can be written in any order. *)
Theorem c44_equations : forall p q l, rewritten p q -> result (pipeline p) = Some l -> exists m, result (pipeline q) = Some m.
Proof. exact reordered_accepted. Qed.
Print Assumptions c44_equations.

Definition c44_swapped : sprog :=
  [c45_j; (fst (c45_sample c45_past), XNode (mkSNode "sample" [(["c"], (BBool, CImplicit)); (["x"], (BOther "T", CImplicit))] [(["y"], (BOther "T", CImplicit))]
     [(["s"], (BOther "T", CExplicit true "c"))]
     [XDef (TVar "y") (XMerge (XVar "c") (XVar "s") (XClock (XParen [c45_past] false) [(false, XVar "c")]));
      XDef (TVar "s") (XClock (XVar "x") [(true, XVar "c")])])); c45_main c45_step; c45_k c45_body].
Example c44_ex_equations : rewritten [c45_sample c45_past; c45_main c45_step; c45_k c45_body; c45_j] c44_swapped /\
  exists m, result (pipeline c44_swapped) = Some m.
Proof.
  assert (R : rewritten [c45_sample c45_past; c45_main c45_step; c45_k c45_body; c45_j] c44_swapped).
  { exists [c45_j; c45_sample c45_past; c45_main c45_step; c45_k c45_body]. split.
    - apply Permutation_sym, (Permutation_cons_app [c45_sample c45_past; c45_main c45_step; c45_k c45_body] []). apply Permutation_refl.
    - repeat constructor. }
  split; auto. destruct (proj2 (c45_accepted _) c45_ex) as (l & H). exact (c44_equations _ _ _ R H).
Qed.
