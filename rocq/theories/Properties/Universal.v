(** * Claims about nodes compiled with [#[universal_pre]] (C32, C39). *)
From Coq Require Import String List ZArith Bool Arith.
From Verif Require Import Model.Base Model.Scalar Model.Value Model.Ast Model.Errors
  Model.Options Model.Interp Model.Surface Model.Translate Model.Pipeline
  Spec.StepSpec Spec.SurfaceSem Spec.ProgramSem Spec.ClockSpec Spec.UniversalSem Spec.PromptSpec
  Proofs.ProgramProofs Proofs.UniProgram Proofs.Prompt Properties.Steps Properties.Translation Properties.Clocks.
Import ListNotations.
Local Open Scope string_scope.
Local Open Scope list_scope.

(** ** C39 *)
(** Every run of an accepted program satisfies the equations of its source,
    each node being read in its own mode. *)
Theorem c39_equations : forall mode glob p l f i ins outs i',
  result (pipeline p) = Some l ->
  init_inst (nodes_of l) f = Ok i ->
  run mode glob (nodes_of l) f i ins = Ok (outs, i') ->
  mmeans mode glob (moded_nodes p) f ins outs.
Proof. exact moded_program_sound. Qed.
Print Assumptions c39_equations.

(** The sum, the previous value and the number of the [x] received when [b],
    in a node that a default one calls.
<<
#[universal_pre]
node acc(b : bool; x : int) returns (y : int); var s, p, n : int when b;
let
  s = (x when b) -> (pre s + (x when b)); p = (7 when b) fby (x when b);
  n = ((1 when b) -> (1 + pre n)) + (10 when b);
  y = merge b (s * 10000 + p * 100 + n) ((-1) whenot b);
tel
node top(b : bool; x : int) returns (y : int); let y = acc(b, 0 -> pre x) + 0; tel
>> *)
Definition acc_src : snode :=
  mkSNode "acc" [on_ ["b"] BBool; on_ ["x"] BInt] [on_ ["y"] BInt]
    [(["s"; "p"; "n"], (BInt, CExplicit true "b"))]
    [def_ "s" (XThen (XParen [when_ (x_ "x") "b"] false) [XParen [XBin (XPre (x_ "s")) [(Add, XParen [when_ (x_ "x") "b"] false)]] false]);
     def_ "p" (XFby (XParen [when_ (i_ 7) "b"] false) [XParen [when_ (x_ "x") "b"] false]);
     def_ "n" (XBin (XParen [XThen (XParen [when_ (i_ 1) "b"] false) [XParen [XBin (i_ 1) [(Add, XPre (x_ "n"))]] false]] false)
                [(Add, XParen [when_ (i_ 10) "b"] false)]);
     def_ "y" (XMerge (x_ "b")
       (XParen [XBin (XBin (x_ "s") [(Mul, XParen [when_ (i_ 10000) "b"] false)])
         [(Add, XBin (x_ "p") [(Mul, XParen [when_ (i_ 100) "b"] false)]); (Add, x_ "n")]] false)
       (XParen [whenot_ (XNeg (i_ 1)) "b"] false))].
Definition acc_top : snode :=
  mkSNode "top" [on_ ["b"] BBool; on_ ["x"] BInt] [on_ ["y"] BInt] []
    [def_ "y" (XBin (XCall "acc" [x_ "b"; XThen (i_ 0) [XPre (x_ "x")]] false) [(Add, i_ 0)])].
Definition acc_prog : sprog := [([attr_ "universal_pre"], XNode acc_src); ([], XNode acc_top)].
Definition acc_ins : list val :=
  map (fun p => VT [vbool (fst p); vint (snd p)]) [(false, 1); (true, 2); (false, 3); (false, 4); (true, 5); (true, 6)]%Z.
Example c39_run : forall p f ins outs, run_source p f ins = Some (Ok outs) ->
  mmeans Checked noglob (moded_nodes p) f ins outs.
Proof.
  unfold run_source, run0. intros p f ins outs H. destruct (result (pipeline p)) as [l|] eqn:E; [|discriminate].
  destruct (init_inst (nodes_of l) f) as [i|] eqn:I; [|discriminate]. cbn [bind] in H.
  destruct (run Checked noglob (nodes_of l) f i ins) as [[outs' i']|] eqn:R; [|discriminate].
  cbn [bind] in H. injection H as <-. exact (c39_equations _ _ _ _ _ _ _ _ _ E I R).
Qed.
Example c39_ex : mmeans Checked noglob (moded_nodes acc_prog) "top" acc_ins (map vint [-1; 10711; -1; -1; 50122; 100433]%Z).
Proof. apply c39_run. vm_compute. reflexivity. Qed.

(** ** C32 *)
(** Two programs that differ by their attributes, the second one without
    [#[universal_pre]]: if no node samples, compares floating point numbers,
    or applies [fby], [->] or another node to an operand that is not defined
    from the first instant on, their runs on defined inputs are the same. *)
Theorem c32_same_partial : forall mode glob floats p q l m f i j ins outs i' outs' j',
  same_declarations p q -> (forall a sn, In (a, XNode sn) q -> ~ In "universal_pre"%string (map a_action a)) ->
  result (pipeline p) = Some l -> result (pipeline q) = Some m ->
  (forall x s, glob x = Some s -> allowed floats s) ->
  (forall sn, In sn (source_nodes p) -> prompt_node floats sn) ->
  Forall (full (allowed floats)) ins ->
  init_inst (nodes_of l) f = Ok i -> run mode glob (nodes_of l) f i ins = Ok (outs, i') ->
  init_inst (nodes_of m) f = Ok j -> run mode glob (nodes_of m) f j ins = Ok (outs', j') ->
  outs = outs' /\ Forall (full (allowed floats)) outs.
Proof. exact universal_same. Qed.
Print Assumptions c32_same_partial.

(** The equations have the default meaning, whatever the modes. *)
Theorem c32_default_meaning_partial : forall mode glob floats, (forall x s, glob x = Some s -> allowed floats s) ->
  forall p l, result (pipeline p) = Some l -> (forall sn, In sn (source_nodes p) -> prompt_node floats sn) ->
  forall f ins outs, mmeans mode glob (moded_nodes p) f ins outs -> Forall (full (allowed floats)) ins ->
  means mode glob (source_nodes p) f ins outs /\ Forall (full (allowed floats)) outs.
Proof. exact moded_default. Qed.
Print Assumptions c32_default_meaning_partial.

(**
<<
node sum(x : int) returns (s : int); let s = x -> pre s + x; tel
node top(x : int) returns (y : int); var z : int;
let z = 1 fby 2 fby sum(7 -> pre x); y = if z > 2 then (0 -> (pre (1 fby x) + pre y)) else z; tel
>> *)
Definition sum_src : snode := mkSNode "sum" [on_ ["x"] BInt] [on_ ["s"] BInt] []
  [def_ "s" (XThen (x_ "x") [XBin (XPre (x_ "s")) [(Add, x_ "x")]])].
Definition prompt_top : snode := mkSNode "top" [on_ ["x"] BInt] [on_ ["y"] BInt] [on_ ["z"] BInt]
  [def_ "z" (XFby (i_ 1) [i_ 2; XCall "sum" [XThen (i_ 7) [XPre (x_ "x")]] false]);
   def_ "y" (XIf (XCmp (x_ "z") [(Gt, i_ 2)])
     (XParen [XThen (i_ 0) [XParen [XBin (XPre (XParen [XFby (i_ 1) [x_ "x"]] false)) [(Add, XPre (x_ "y"))]] false]] false) (x_ "z"))].
Definition prompt_src (a b : list attribute) : sprog := [(a, XNode sum_src); (b, XNode prompt_top)].
Example c32_same_ex : (forall sn, In sn (source_nodes (prompt_src [] [])) -> prompt_node false sn) /\
  forall a b, In a [[]; [attr_ "universal_pre"]] -> In b [[]; [attr_ "universal_pre"]] ->
  run_source (prompt_src a b) "top" (map vint [3; 5; 8; 13; 21]%Z) = Some (Ok (map vint [1; 2; 5; 10; 18]%Z)).
Proof.
  split.
  - intros sn [<-|[<-|[]]]; split; cbn; intros;
      repeat match goal with H : _ \/ _ |- _ => destruct H end; try contradiction; try (injection H; intros; subst); try congruence; subst; split; reflexivity.
  - intros a b [<-|[<-|[]]] [<-|[<-|[]]]; vm_compute; reflexivity.
Qed.

(** The claim does not hold of every node whose chains of [->] have two
    operands, even when both programs are accepted: [0 -> (pre x -> 5)]
    restarts when [pre x] begins to be defined. *)
Definition nested_src (a : list attribute) (e : sexpr) : sprog :=
  [(a, XNode (mkSNode "f" [on_ ["x"] BInt] [on_ ["y"] BInt] [] [def_ "y" e]))].
Definition nested_arrow : sexpr := XThen (i_ 0) [XParen [XThen (XPre (x_ "x")) [i_ 5]] false].
Theorem c32_nested_refuted :
  run_source (nested_src [] nested_arrow) "f" (map vint [1; 2; 3]%Z) = Some (Ok (map vint [0; 5; 5]%Z)) /\
  run_source (nested_src [attr_ "universal_pre"] nested_arrow) "f" (map vint [1; 2; 3]%Z) = Some (Ok (map vint [0; 1; 5]%Z)).
Proof. split; vm_compute; reflexivity. Qed.
Print Assumptions c32_nested_refuted.
(** A constant has a past in the default mode only. *)
Definition old_literal : sexpr := XThen (i_ 0) [XParen [XThen (i_ 0) [XPre (XPre (i_ 1))]] false].
Theorem c32_literal_refuted :
  run_source (nested_src [] old_literal) "f" (map vint [1; 2; 3]%Z) = Some (Ok (map vint [0; 1; 1]%Z)) /\
  run_source (nested_src [attr_ "universal_pre"] old_literal) "f" (map vint [1; 2; 3]%Z) = Some (Ok [vint 0; VS Nil; vint 1]%Z).
Proof. split; vm_compute; reflexivity. Qed.
Print Assumptions c32_literal_refuted.
