(** * Claims about types and temporal depths (C17, C23, C24). *)
From Coq Require Import String List ZArith Bool Arith Lia Permutation.
From Verif Require Import Model.Base Model.Scalar Model.Value Model.History Model.Register Model.Ast Model.Errors
  Model.Options Model.Interp Model.Surface Model.Translate Model.Typecheck Model.Pipeline
  Spec.StepSpec Spec.OrderSpec Spec.ProgramSem Spec.TypeSpec Spec.DepthSpec Spec.SafetySpec Spec.ClockSpec
  Proofs.AstInd Proofs.TypeEval Proofs.TypeExec Proofs.TypePipeline Proofs.TypeNode Proofs.Depths Proofs.Unify Proofs.CallTypes Proofs.DepthPipeline Proofs.BoundedReads
  Properties.Steps Properties.Translation.
Import ListNotations.
Local Open Scope list_scope.

(** ** C23: well-typed inputs never lead to a type error. *)
Theorem c23_program : forall mode glob p l, result (pipeline p) = Some l -> closed p -> default_mode p -> constants_ok p glob ->
  forall sn, In sn (source_nodes p) ->
  exists i, init_inst (nodes_of l) (s_name sn) = Ok i /\
    forall theta ins, Forall (of_type theta (declared_type (s_inputs sn))) ins ->
    match run mode glob (nodes_of l) (s_name sn) i ins with
    | Ok (outs, _) => Forall (of_type theta (declared_type (s_outputs sn))) outs
    | Panic e => e = POverflow \/ e = PDivZero \/ e = PAssert \/ e = PAssertNil
    end.
Proof. exact default_program_errors. Qed.
Print Assumptions c23_program.

(**
<<
#[generic[T]]
node hold(x : T; b : bool) returns (y : T); let y = if b then x else x fby y; tel
const K : int = 3;
node main(b : bool) returns (n : int); var f : bool;
let f = hold(b, b); n = if f then K else hold(0 fby 0 fby n, b); tel
>> *)
Definition gen_src : sprog :=
  [([mkAttr "generic" ["T"] []]%string,
    XNode (mkSNode "hold" [on_ ["x"] (BOther "T"); on_ ["b"] BBool] [on_ ["y"] (BOther "T")] []
      [def_ "y" (XIf (x_ "b") (x_ "x") (XFby (x_ "x") [x_ "y"]))]))%string;
   ([], XConst "K" BInt (i_ 3));
   ([], XNode (mkSNode "main" [on_ ["b"] BBool] [on_ ["n"] BInt] [on_ ["f"] BBool]
      [def_ "f" (XCall "hold" [x_ "b"; x_ "b"] false);
       def_ "n" (XIf (x_ "f") (x_ "K") (XCall "hold" [XFby (i_ 0) [i_ 0; x_ "n"]; x_ "b"] false))]))%string].
Definition gen_glob (x : ident) : option scalar := if String.eqb x "K" then Some (SInt 3) else None.
Example c23_ex :
  (exists l, result (pipeline gen_src) = Some l) /\ closed gen_src /\ default_mode gen_src /\ constants_ok gen_src gen_glob /\
  Forall (of_type (fun _ => TInt) (declared_type [on_ ["b"] BBool]%string)) [vbool true; VS Nil; vbool false].
Proof.
  split; [eexists; vm_compute; reflexivity|]. split; [intros a x i o I; cbn in I; intuition discriminate|].
  split; [intros a sn I; cbn in I; destruct I as [I|[I|[I|[]]]]; inversion I; cbn; intuition discriminate|].
  split.
  - intros x t (a & [(e & I)|I]); cbn in I; destruct I as [I|[I|[I|[]]]]; inversion I; subst. exists (SInt 3). split; reflexivity.
  - repeat constructor; eexists; split; reflexivity || exact I.
Qed.

(** The same with [#[universal_pre]], if no register holds a tuple with one
    component: such tuples break the registers, see below. *)
Theorem c23_registers_partial : forall mode glob p l, result (pipeline p) = Some l -> closed p -> constants_ok p glob ->
  (forall a sn, In (a, XNode sn) p -> In "universal_pre"%string (map a_action a) -> plain_clocks sn) ->
  (forall nd, In nd (nodes_of l) -> Forall (fun t => match t with Some t => no_single t | None => True end) (n_regs nd)) ->
  forall sn, In sn (source_nodes p) ->
  exists i, init_inst (nodes_of l) (s_name sn) = Ok i /\
    forall theta ins, Forall (of_type theta (declared_type (s_inputs sn))) ins ->
    match run mode glob (nodes_of l) (s_name sn) i ins with
    | Ok (outs, _) => Forall (of_type theta (declared_type (s_outputs sn))) outs
    | Panic e => e = POverflow \/ e = PDivZero \/ e = PAssert \/ e = PAssertNil
    end.
Proof. exact plain_program_errors. Qed.
Print Assumptions c23_registers_partial.

(** [(z,) = (x,) fby (y,)] with registers: accepted by all the passes, although
    the register holds scalars and is used with tuples. *)
Definition single_src : sprog :=
  [([attr_ "universal_pre"], XNode (mkSNode "f" [on_ ["x"; "y"] BInt] [on_ ["z"] BInt] []
     [XDef (TTuple [TVar "z"] true) (XFby (XParen [x_ "x"] true) [XParen [x_ "y"] true])]))]%string.
Theorem c23_singleton_refuted : exists p sn l i ins theta, In sn (source_nodes p) /\ closed p /\
  (forall x t, ~ constant p x t) /\
  result (pipeline p) = Some l /\ init_inst (nodes_of l) (s_name sn) = Ok i /\
  Forall (of_type theta (declared_type (s_inputs sn))) ins /\
  run Checked noglob (nodes_of l) (s_name sn) i ins = Panic PType.
Proof.
  exists single_src. eexists. eexists. eexists. exists [VT [vint 1; vint 2]], (fun _ => TInt).
  split; [cbn; left; reflexivity|]. split; [intros a x i o I; cbn in I; intuition discriminate|].
  split; [intros x t (a & [(e & I)|I]); cbn in I; destruct I as [I|[]]; inversion I|].
  split; [vm_compute; reflexivity|]. split; [vm_compute; reflexivity|].
  split; [|vm_compute; reflexivity].
  repeat constructor. eexists. split; [reflexivity|]. cbn. repeat split; eexists; split; reflexivity.
Qed.
Print Assumptions c23_singleton_refuted.

(** One expression. The predicates are those of [Proofs/TypeEval.v]: the
    constants, the histories, the store, the registers and the instances of the
    nodes called hold values of the types that [G] gives them; every variable of
    [e] is assigned, or has a history deep enough. *)
Theorem c23_expression : forall mode glob clk hists call nilout theta G nf sub_ok regs st e t s,
  globals_ok glob theta G -> hists_ok hists theta G -> calls_ok call nilout theta G sub_ok ->
  store_ok theta G st -> regs_ok theta G regs ->
  has_type G e t -> Forall (readable hists st) (vars_of e) -> Forall (fun id => id < nf) (flips_of e) ->
  es_ok G nf sub_ok s ->
  safe (eval mode glob clk hists call nilout regs st e s) (fun '(v, s') => of_type theta t v /\ es_ok G nf sub_ok s').
Proof. exact eval_typed. Qed.
Print Assumptions c23_expression.

(** The type check only accepts expressions typable by the rules of [TypeSpec]. *)
Theorem c23_inference : forall ctx G,
  (forall x b, lookup x (c_vars ctx) = Some b -> x_vars G x = Some b) ->
  (forall x b, lookup x (c_global ctx) = Some b -> x_globals G x = Some b) ->
  forall e s t s', result (tc ctx e s) = Some (t, s') ->
  (forall id t, In (id, t) (y_regs s') -> x_regs G id = Some t) ->
  (forall id l f, In (id, l) (y_gens s') -> nth_error (c_blocks ctx) id = Some f ->
     let sigma x := match lookup x (combine (g_params f) l) with Some b => b | None => BOther x end in
     x_blocks G id = Some (tuple_ty (map (inst_base sigma) (g_ins f)), tuple_ty (map (inst_base sigma) (g_outs f)))) ->
  has_type G e t.
Proof. exact tc_sound. Qed.
Print Assumptions c23_inference.

(** [(x > 1, f(x, true))] where [f] is [hold]. *)
Definition tc_ex_ctx : tctx := mkTctx [] [("x", BInt)]%string [mkSig ["T"] [BOther "T"; BBool] [BOther "T"]]%string.
Definition tc_ex : expr :=
  ETuple [ECmp Gt (EVar "x" 0) (lit_ 1); ESub 0 0 (ETuple [EVar "x" 0; ELit (LBool true)])]%string.
Example c23_inference_ex : exists G, has_type G tc_ex (TMult [TSingle BBool; TSingle BInt]) /\
  result (tc tc_ex_ctx tc_ex tyst0) = Some (TMult [TSingle BBool; TSingle BInt], mkTyst [] [(0, [BInt])]).
Proof.
  exists (mkCtx (fun x => if String.eqb x "x" then Some BInt else None) (fun _ => None)
    (fun id => if Nat.eqb id 0 then Some (TMult [TSingle BInt; TSingle BBool], TSingle BInt) else None) (fun _ => None)).
  split; [|vm_compute; reflexivity].
  constructor. constructor; [|constructor; [|constructor]].
  - econstructor; [constructor; reflexivity|constructor|]. cbn. auto.
  - eapply ht_sub; [reflexivity|]. constructor. repeat constructor.
Qed.

(** ** C24 *)
(** A call is accepted exactly if the types of the arguments are an instance of
    the declared ones; its type is the same instance of the declared results. *)
Theorem c24_call : forall ctx d id args s f actual s1 t,
  nth_error (c_blocks ctx) id = Some f -> NoDup (g_params f) ->
  (forall x, In (BOther x) (g_ins f) <-> In x (g_params f)) ->
  (forall x, In (BOther x) (g_outs f) -> In x (g_params f)) ->
  result (tc ctx args s) = Some (actual, s1) ->
  ((exists s', result (tc ctx (ESub d id args) s) = Some (t, s')) <->
   (exists sigma, actual = tuple_ty (map (inst_base sigma) (g_ins f)) /\ t = tuple_ty (map (inst_base sigma) (g_outs f)))).
Proof. exact call_types. Qed.
Print Assumptions c24_call.

(** This instance is unique. *)
Theorem c24_unique : forall ins s s', tuple_ty (map (inst_base s) ins) = tuple_ty (map (inst_base s') ins) ->
  forall x, In (BOther x) ins -> s x = s' x.
Proof. exact instantiate_unique. Qed.
Print Assumptions c24_unique.

(** The instance recorded for the generated code, in the order of the declared
    type variables. *)
Theorem c24_recorded : forall ctx d id args s f t s', nth_error (c_blocks ctx) id = Some f ->
  result (tc ctx (ESub d id args) s) = Some (t, s') ->
  exists l, In (id, l) (y_gens s') /\ length l = length (g_params f) /\
    let sigma x := match lookup x (combine (g_params f) l) with Some b => b | None => BOther x end in
    (exists s1, result (tc ctx args s) = Some (tuple_ty (map (inst_base sigma) (g_ins f)), s1)) /\
    t = tuple_ty (map (inst_base sigma) (g_outs f)).
Proof. exact call_instance. Qed.
Print Assumptions c24_recorded.

(** Accepted nodes have the signatures supposed by [c24_call], up to repeated
    type variables. *)
Theorem c24_signature : forall gl fn o nd r, result (tc_node gl fn o nd) = Some r ->
  (forall x, In (BOther x) (map v_base (n_inputs nd)) <-> In x (o_generics o)) /\
  (forall x, In (BOther x) (map v_base (n_outputs nd)) -> In x (o_generics o)).
Proof. exact signature_vars. Qed.
Print Assumptions c24_signature.

(** [f(T, bool) returns T]: [f(x, true)] is an [int], [f(x, x)] is refused. *)
Example c24_ex :
  (exists s', result (tc tc_ex_ctx (ESub 0 0 (ETuple [EVar "x" 0; ELit (LBool true)])) tyst0) = Some (TSingle BInt, s')) /\
  result (tc tc_ex_ctx (ESub 0 0 (ETuple [EVar "x" 0; EVar "x" 0])) tyst0) = None.
Proof. split; [eexists|]; vm_compute; reflexivity. Qed.

(** ** C17 *)
(** The depth recorded for a variable is that of its deepest occurrence. *)
Theorem c17_exact : forall p l, result (pipeline p) = Some l -> default_mode p -> forall nd, In nd (nodes_of l) ->
  exists sn, In sn (source_nodes p) /\ s_name sn = n_name nd /\
    forall v, In v (all_vars nd) ->
      (forall e n, In e (source_exprs sn) -> under 1 (v_name v) e n -> n <= v_depth v) /\
      (v_depth v = 0 \/ exists e, In e (source_exprs sn) /\ under 1 (v_name v) e (v_depth v)).
Proof. exact program_depths. Qed.
Print Assumptions c17_exact.

(** With registers, no variable has a history. *)
Theorem c17_universal : forall p l, result (pipeline p) = Some l ->
  (forall a sn, In (a, XNode sn) p -> In "universal_pre"%string (map a_action a)) ->
  forall nd v, In nd (nodes_of l) -> In v (all_vars nd) -> v_depth v = 0.
Proof. exact universal_depths. Qed.
Print Assumptions c17_universal.

(** [n] occurs under two [pre]s in [gen_src], [y] and [x] under one and none. *)
Example c17_ex : exists l, result (pipeline gen_src) = Some l /\
  map (fun nd => (n_name nd, map (fun v => (v_name v, v_depth v)) (all_vars nd))) (nodes_of l) =
  [("main", [("b", 0); ("n", 2); ("f", 0)]); ("hold", [("x", 0); ("b", 0); ("y", 1)])]%string.
Proof. eexists. split; vm_compute; reflexivity. Qed.
