(** * Parentheses that make the grouping of operators explicit. *)
From Coq Require Import String List ZArith Bool.
From Verif Require Import Model.Base Model.Scalar Model.Value Model.Ast Model.Errors Model.Options Model.Surface Model.Interp
  Model.Constexpr Model.Trace Model.Pipeline Spec.GroupSpec Proofs.Grouped.
Import ListNotations.
Local Open Scope string_scope.
Local Open Scope list_scope.

(** C51.  The macro gives the same diagnostics, and code that runs in the same way, for two programs that differ by
    such parentheses... *)
Theorem c51_same : forall p q, grouped_prog p = grouped_prog q -> open_prog p -> open_prog q ->
  same_outcome (compile p) (compile q).
Proof. exact regrouped_open. Qed.
Print Assumptions c51_same.

(** ... in particular whatever is accepted stays so without them... *)
Theorem c51_dropped : forall p P ws, compile p = Expanded (Some P) ws ->
  exists Q, compile (grouped_prog p) = Expanded (Some Q) ws /\ indistinguishable P Q.
Proof. exact ungrouped_accepted. Qed.
Print Assumptions c51_dropped.

(** ... and two accepted programs run in the same way wherever their parentheses are. *)
Theorem c51_runs : forall p q P Q ws ws', grouped_prog p = grouped_prog q ->
  compile p = Expanded (Some P) ws -> compile q = Expanded (Some Q) ws' -> ws = ws' /\ indistinguishable P Q.
Proof. exact regrouped_accepted. Qed.
Print Assumptions c51_runs.

Definition c51_node (defs : list sstmt) : sprog :=
  [([], XNode (mkSNode "f" [(["x"; "y"], (BInt, CImplicit)); (["b"], (BBool, CImplicit))]
                 [(["z"; "w"], (BInt, CImplicit))] [] defs))].
Definition c51_p (e : sexpr) : sexpr := XParen [e] false.
Definition c51_x := XVar "x".
Definition c51_y := XVar "y".
Definition c51_b := XVar "b".
Definition c51_int (z : Z) := XLit (SLInt z).

(** [z = x + y - (1 fby 2 fby x); w = merge b (x when b) (y whenot b)] *)
Definition c51_plain : sprog := c51_node
  [XDef (TVar "z") (XBin c51_x [(Add, c51_y); (Sub, c51_p (XFby (c51_int 1) [c51_int 2; c51_x]))]);
   XDef (TVar "w") (XMerge c51_b (c51_p (XClock c51_x [(true, c51_b)])) (c51_p (XClock c51_y [(false, c51_b)])))].
(** [(z) = ((x) + y) - (1 fby (2 fby x)); w = (merge b ((x) when b) (y whenot b))] *)
Definition c51_explicit : sprog := c51_node
  [XDef (TTuple [TVar "z"] false)
     (XBin (c51_p (XBin (c51_p c51_x) [(Add, c51_y)]))
        [(Sub, c51_p (XFby (c51_int 1) [c51_p (XFby (c51_int 2) [c51_x])]))]);
   XDef (TVar "w") (c51_p (XMerge c51_b (c51_p (XClock (c51_p c51_x) [(true, c51_b)])) (c51_p (XClock c51_y [(false, c51_b)]))))].
Definition c51_in (x y : Z) (b : bool) : val :=
  VT [VS (Defined (SInt x)); VS (Defined (SInt y)); VS (Defined (SBool b))].
Definition c51_outputs (p : sprog) (ins : list val) : option (list val) :=
  match compile p with
  | Expanded (Some l) _ =>
      match init_inst (nodes_of l) "f" with
      | Ok i => match run Checked (fun _ => None) (nodes_of l) "f" i ins with Ok (os, _) => Some os | _ => None end
      | _ => None
      end
  | _ => None
  end.
Example c51_ex :
  grouped_prog c51_plain = grouped_prog c51_explicit /\ c51_plain <> c51_explicit /\
  open_prog c51_plain /\ open_prog c51_explicit /\
  c51_outputs c51_explicit [c51_in 5 6 true; c51_in 7 8 false; c51_in 1 1 true] =
    Some [VT [VS (Defined (SInt 10)); VS (Defined (SInt 5))]; VT [VS (Defined (SInt 13)); VS (Defined (SInt 8))];
          VT [VS (Defined (SInt (-3))); VS (Defined (SInt 1))]].
Proof.
  repeat split; try discriminate; try (vm_compute; reflexivity).
  - intros a [<-|[]]. simpl. repeat constructor; simpl; try tauto; intros p [<-|[]]; simpl; tauto.
  - intros a [<-|[]]. simpl. repeat constructor; simpl; try tauto; intros p [<-|[]]; simpl; tauto.
Qed.

(** A clock between parentheses is refused: [x when (b)] is not [x when b]. *)
Theorem c51_clock_refuted : ~ (forall p q, grouped_prog p = grouped_prog q -> same_outcome (compile p) (compile q)).
Proof.
  intros H.
  specialize (H
    (c51_node [XDef (TVar "z") c51_x;
               XDef (TVar "w") (XMerge c51_b (XClock c51_x [(true, c51_p c51_b)]) (XClock c51_y [(false, c51_b)]))])
    (c51_node [XDef (TVar "z") c51_x;
               XDef (TVar "w") (XMerge c51_b (XClock c51_x [(true, c51_b)]) (XClock c51_y [(false, c51_b)]))]) eq_refl).
  vm_compute in H. exact H.
Qed.
Print Assumptions c51_clock_refuted.

(** The arrow does not group: [0 -> 1 -> x] is 0, 1, x.. and [0 -> (1 -> x)] is 0, x... *)
Definition c51_arrow (e : sexpr) : sprog := c51_node [XDef (TVar "z") e; XDef (TVar "w") c51_y].
Definition c51_first (p : sprog) (ins : list val) : option (list val) :=
  option_map (map (fun v => match v with VT (v :: _) => v | v => v end)) (c51_outputs p ins).
Theorem c51_arrow_refuted : ~ (forall e a b,
  compile (c51_arrow (XThen e [a; b])) <> Crashed ->
  forall ins, c51_outputs (c51_arrow (XThen e [a; b])) ins = c51_outputs (c51_arrow (group_right XThen e [a; b])) ins).
Proof.
  intros H.
  assert (N : compile (c51_arrow (XThen (c51_int 0) [c51_int 1; c51_x])) <> Crashed) by (vm_compute; discriminate).
  specialize (H (c51_int 0) (c51_int 1) c51_x N [c51_in 5 6 true; c51_in 7 8 false]).
  vm_compute in H. discriminate.
Qed.
Print Assumptions c51_arrow_refuted.
Example c51_arrow_ex :
  c51_first (c51_arrow (XThen (c51_int 0) [c51_int 1; c51_x])) [c51_in 5 6 true; c51_in 7 8 false; c51_in 9 9 true] =
    Some [VS (Defined (SInt 0)); VS (Defined (SInt 1)); VS (Defined (SInt 9))] /\
  c51_first (c51_arrow (group_right XThen (c51_int 0) [c51_int 1; c51_x])) [c51_in 5 6 true; c51_in 7 8 false; c51_in 9 9 true] =
    Some [VS (Defined (SInt 0)); VS (Defined (SInt 7)); VS (Defined (SInt 9))].
Proof. split; vm_compute; reflexivity. Qed.
