(** * Slices of a node. *)
From Coq Require Import String List ZArith Bool.
From Verif Require Import Model.Base Model.Scalar Model.Value Model.Ast Model.Interp Model.Surface
  Spec.StepSpec Spec.ProgramSem Spec.SourceCausal Spec.ConstSpec.
Import ListNotations.

(** The second node has the inputs of the first one, some of its outputs and
    equations, in any order; the variables that it uses, it declares. *)
Definition slice (sn sn' : snode) : Prop :=
  declared (s_inputs sn') = declared (s_inputs sn) /\
  incl (declared (s_outputs sn')) (declared (s_outputs sn)) /\
  incl (s_defs sn') (s_defs sn) /\
  forall s x, In s (s_defs sn') -> In x (names (right_side s)) -> (In x (node_vars sn) <-> In x (node_vars sn')).

(** The values of the variables [o'] in the row [r] of values of [o]. *)
Definition among (o o' : list ident) (r : list nillable) : list nillable :=
  map (fun x => match find (fun p => String.eqb (fst p) x) (combine o r) with Some p => snd p | None => Nil end) o'.
