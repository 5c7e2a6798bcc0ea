(** * Vocabulary for the statements about declarations and equations in another order. *)
From Coq Require Import String List ZArith Bool Arith.
From Verif Require Import Model.Base Model.Scalar Model.Value Model.Ast Model.Interp.
Import ListNotations.

(** Every node starts in the same state, and does the same thing at every step,
    including failing; so do the executable nodes. *)
Definition same_behaviour (p q : prog) : Prop :=
  (forall f, init_inst p f = init_inst q f) /\
  (forall mode glob f i v, step mode glob p f i v = step mode glob q f i v) /\
  (forall mode glob f i ins, run mode glob p f i ins = run mode glob q f i ins) /\
  (forall mode glob f n fuel, main_fn mode glob p f n fuel = main_fn mode glob q f n fuel).
