(** * When the equations of a source node can be solved, instant by instant. *)
From Coq Require Import String List ZArith Bool Arith.
From Verif Require Import Model.Base Model.Scalar Model.Ast Model.Surface Spec.ProgramSem.
Import ListNotations.

(** The names of which an expression needs the present value: neither those
    under [pre], nor those on the right of [fby]. *)
Fixpoint now (e : sexpr) : list ident :=
  match e with
  | XLit _ | XPre _ => []
  | XVar x => [x]
  | XParen l _ | XCall _ l _ => flat_map now l
  | XNeg e | XNot e => now e
  | XIf a b c | XMerge a b c => now a ++ now b ++ now c
  | XBin e l => now e ++ flat_map (fun p => now (snd p)) l
  | XCmp e l => now e ++ flat_map (fun p => now (snd p)) l
  | XClock e l => now e ++ flat_map (fun p => now (snd p)) l
  | XFby e _ => now e
  | XThen e l => now e ++ flat_map now l
  end.

(** The variables of the left hand side of an equation. *)
Fixpoint pattern_vars (t : starget) : list ident :=
  match t with
  | TVar x => [x]
  | TTuple l _ => flat_map pattern_vars l
  end.
Definition assigns (i : sstmt) : list ident := match i with XDef t _ => pattern_vars t | XAssert _ => [] end.
Definition right_side (i : sstmt) : sexpr := match i with XDef _ e => e | XAssert e => e end.

(** Equation number [i] needs the present value of a variable of the node that
    equation number [j] assigns. *)
Definition waits_for (sn : snode) (i j : nat) : Prop :=
  exists a b x, nth_error (s_defs sn) i = Some a /\ nth_error (s_defs sn) j = Some b /\
    In x (now (right_side a)) /\ In x (node_vars sn) /\ In x (assigns b).
Inductive waits_plus (sn : snode) : nat -> nat -> Prop :=
| wp_one : forall i j, waits_for sn i j -> waits_plus sn i j
| wp_more : forall i j k, waits_for sn i j -> waits_plus sn j k -> waits_plus sn i k.

(** Every variable is assigned at most once, inputs never, outputs and locals at
    least once, and no equation needs what it assigns. *)
Definition solvable (sn : snode) : Prop :=
  NoDup (flat_map assigns (s_defs sn)) /\
  (forall x, In x (declared (s_inputs sn)) -> ~ In x (flat_map assigns (s_defs sn))) /\
  (forall x, In x (declared (s_outputs sn) ++ declared (s_locals sn)) -> In x (flat_map assigns (s_defs sn))) /\
  (forall i, ~ waits_plus sn i i).
