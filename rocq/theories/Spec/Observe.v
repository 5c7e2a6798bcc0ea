(** * Assertions and outputs. *)
From Coq Require Import String List ZArith Bool.
From Verif Require Import Model.Base Model.Scalar Model.Value Model.Ast Model.Interp Model.Surface
  Spec.StepSpec Spec.ProgramSem Spec.SourceCausal Spec.ConstSpec.
Import ListNotations.

(** The second node is the first one with, instead of an assertion [assert e],
    an equation [z = e] for a new variable [z], its last output. *)
Inductive observed : snode -> snode -> Prop :=
| observed_intro : forall f g i o o' v z e before after,
    declared o' = declared o ++ [z] ->
    ~ In z (declared i ++ declared o ++ declared v) ->
    (forall s, In s (before ++ XAssert e :: after) -> ~ In z (names (right_side s)) /\ ~ In z (assigns s)) ->
    observed (mkSNode f i o v (before ++ XAssert e :: after))
             (mkSNode g i o' v (before ++ XDef (TVar z) e :: after)).

(** The output made of some values, a single one not being put in a tuple. *)
Definition tuple (r : list nillable) : val := tuple_val (map VS r).

(** The outputs [r], then [true] if there was an input and nil otherwise. *)
Definition and_true (v : val) (r : list nillable) : val :=
  tuple (r ++ [if first_is_nil v then Nil else Defined (SBool true)]).
