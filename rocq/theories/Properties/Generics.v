(** * Generic types (README, "Generics") *)
From Coq Require Import String List ZArith Bool Arith.
From Verif Require Import Model.Base Model.Scalar Model.Value Model.Ast Model.Errors Model.Interp Model.Options Model.Surface Model.Pipeline Model.Extern
  Spec.StepSpec Spec.ProgramSem Spec.TypeSpec Spec.SafetySpec Spec.GenericSpec
  Proofs.OutBasics Proofs.Parametric Proofs.ParametricProg Proofs.ParametricCases Properties.Translation.
Import ListNotations.
Open Scope string_scope.
Open Scope list_scope.

(** ** C49 *)
(** Let each type variable of a node relate the values that may stand for each
    other.  On inputs that stand for each other, row by row, an accepted program
    gives outputs that stand for each other, or fails in the same way. *)
Theorem c49_blind : forall mode glob ext p l, result (pipeline p) = Some l -> constants_ok p glob -> externs_blind p ext ->
  forall sn, In sn (source_nodes p) -> forall R ins ins', Forall2 (row_stands R (bases (s_inputs sn))) ins ins' ->
  alike (Forall2 (row_stands R (bases (s_outputs sn)))) (xoutputs mode glob ext (items_of l) (s_name sn) ins) (xoutputs mode glob ext (items_of l) (s_name sn) ins').
Proof. exact generic_blind. Qed.
Print Assumptions c49_blind.

(** Replacing the values of generic types in the inputs replaces them in the outputs. *)
Theorem c49_replace : forall mode glob ext p l, result (pipeline p) = Some l -> constants_ok p glob -> externs_blind p ext ->
  forall sn, In sn (source_nodes p) -> forall f ins, Forall (row_of (bases (s_inputs sn))) ins ->
  alike (fun outs outs' => outs' = map (replace_row f (bases (s_outputs sn))) outs)
    (xoutputs mode glob ext (items_of l) (s_name sn) ins) (xoutputs mode glob ext (items_of l) (s_name sn) (map (replace_row f (bases (s_inputs sn))) ins)).
Proof. exact generic_replace. Qed.
Print Assumptions c49_replace.

(** A value of a generic type in an output has been received, now or before, in
    an input of the same type. *)
Theorem c49_origin : forall mode glob ext p l, result (pipeline p) = Some l -> constants_ok p glob -> externs_blind p ext ->
  forall sn, In sn (source_nodes p) -> forall ins, Forall (row_of (bases (s_inputs sn))) ins ->
  forall outs, xoutputs mode glob ext (items_of l) (s_name sn) ins = Ok outs ->
  forall T o x s, nth_error outs T = Some o -> carries (bases (s_outputs sn)) o x s ->
  exists T' i, T' <= T /\ nth_error ins T' = Some i /\ carries (bases (s_inputs sn)) i x s.
Proof. exact generic_origin. Qed.
Print Assumptions c49_origin.

(** [pair] uses [hold] at two types; its second output is a [bool] whatever [S] is.
<<
#[generic[T]]
node hold(x : T; b : bool) returns (y : T); let y = if b then x else x fby y; tel
#[generic[S]]
node pair(x : S; b : bool) returns (y : S; c : bool); let y = hold(x, b); c = hold(b, true fby b); tel
>> *)
Definition c49_pair : snode :=
  mkSNode "pair" [on_ ["x"] (BOther "S"); on_ ["b"] BBool] [on_ ["y"] (BOther "S"); on_ ["c"] BBool] []
    [def_ "y" (XCall "hold" [x_ "x"; x_ "b"] false); def_ "c" (XCall "hold" [x_ "b"; XFby (XLit (SLBool true)) [x_ "b"]] false)].
Definition c49_src : sprog :=
  [([mkAttr "generic" ["T"] []],
    XNode (mkSNode "hold" [on_ ["x"] (BOther "T"); on_ ["b"] BBool] [on_ ["y"] (BOther "T")] []
      [def_ "y" (XIf (x_ "b") (x_ "x") (XFby (x_ "x") [x_ "y"]))]));
   ([mkAttr "generic" ["S"] []], XNode c49_pair)].
Definition c49_in (n : Z) (b : bool) : val := VT [VS (Defined (SInt n)); VS (Defined (SBool b))].
Definition c49_ins : list val := [c49_in 5 true; c49_in 6 false; VT [VS Nil; VS Nil]; c49_in 8 false; c49_in 9 true; c49_in 2 false].
Definition c49_out (n : Z) (b : bool) : val := VT [VS (Defined (SInt n)); VS (Defined (SBool b))].
Definition c49_outs : list val := [c49_out 5 true; c49_out 5 false; VT [VS Nil; VS Nil]; c49_out 5 false; c49_out 9 false; c49_out 9 false].
(** Any other type will do for [S]: here, whether the number is even. *)
Definition c49_parity (x : ident) (s : scalar) : scalar := match s with SInt n => SBool (Z.even n) | s => s end.

Definition c49_prog : list decl := Eval vm_compute in match result (pipeline c49_src) with Some l => l | None => [] end.
Example c49_ex : result (pipeline c49_src) = Some c49_prog /\ In c49_pair (source_nodes c49_src) /\ constants_ok c49_src (fun _ => None) /\
  externs_blind c49_src (fun _ _ _ => Panic PAssert) /\ Forall (row_of (bases (s_inputs c49_pair))) c49_ins /\
  xoutputs Checked (fun _ => None) (fun _ _ _ => Panic PAssert) (items_of c49_prog) "pair" c49_ins = Ok c49_outs /\
  xoutputs Checked (fun _ => None) (fun _ _ _ => Panic PAssert) (items_of c49_prog) "pair" (map (replace_row c49_parity (bases (s_inputs c49_pair))) c49_ins) =
    Ok (map (replace_row c49_parity (bases (s_outputs c49_pair))) c49_outs) /\
  map (replace_row c49_parity (bases (s_outputs c49_pair))) c49_outs <> c49_outs.
Proof.
  split; [vm_compute; reflexivity|]. split; [cbn; auto|]. split; [|split; [|split; [|split; [vm_compute; reflexivity|split; [vm_compute; reflexivity|vm_compute; discriminate]]]]].
  - intros x t (a & [(e & J)|J]); cbn in J; repeat (destruct J as [J|J]; [discriminate|]); destruct J.
  - intros a x i o J. cbn in J. repeat (destruct J as [J|J]; [discriminate|]). destruct J.
  - repeat constructor; (eexists [_; _]; split; reflexivity).
Qed.
Example c49_ex_origin : nth_error c49_outs 3 = Some (c49_out 5 false) /\ carries (bases (s_outputs c49_pair)) (c49_out 5 false) "S" (SInt 5) /\
  carries (bases (s_inputs c49_pair)) (c49_in 5 true) "S" (SInt 5).
Proof. split; [reflexivity|]. split; (eexists [_; _], 0; repeat split). Qed.
