(** * The variables of a node along a run. *)
From Coq Require Import String List ZArith Bool.
From Verif Require Import Model.Base Model.Scalar Model.Value Model.Ast Model.Interp Model.Options Model.Surface
  Spec.StepSpec Spec.SurfaceSem Spec.ProgramSem Spec.ClockSpec Spec.UniversalSem.
Import ListNotations.

(** The streams [rho] carry the inputs and the outputs of the node. *)
Definition carried (sn : snode) (ins outs : list val) (rho : nat -> ident -> option nillable) : Prop :=
  length outs = length ins /\
  forall T v o, nth_error ins T = Some v -> nth_error outs T = Some o ->
    (declared (s_inputs sn) = [] \/ row (rho T) (declared (s_inputs sn)) v) /\
    row (rho T) (declared (s_outputs sn)) o.

(** [F] gives answers of the nodes of the program. *)
Definition answers (mode : ovf) (glob : ident -> option scalar) (p : sprog) (F : ident -> list val -> val -> Prop) : Prop :=
  forall f args v, F f args v -> exists os, mmeans mode glob (moded_nodes p) f args (os ++ [v]).

(** [n] times [pre]. *)
Fixpoint pres (n : nat) (e : sexpr) : sexpr :=
  match n with 0 => e | S n => XPre (pres n e) end.
