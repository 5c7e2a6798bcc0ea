(** * Strict meaning of source programs with extern nodes (default mode). *)
From Coq Require Import String List ZArith Bool Arith.
From Verif Require Import Model.Base Model.Scalar Model.Value Model.Ast Model.Interp Model.Options Model.Surface Model.Extern
  Spec.StepSpec Spec.SurfaceSem Spec.ProgramSem Spec.SettledSem Spec.ExternSem.
Import ListNotations.

(** A tuple of as many values as there are names. *)
Definition fits (names : list ident) (v : val) : Prop :=
  names = [] \/ exists ns, length ns = length names /\ v = tuple_val (map VS ns).

(** The errors of the extern nodes are not those that the nodes raise when a
    variable or a past value is missing. *)
Definition ordinary (ext : ident -> behaviour) : Prop :=
  forall x past v, ext x past v <> Panic PPast /\ ext x past v <> Panic PUnbound.

Section XSettles.
  Variable mode : ovf.
  Variable glob : ident -> option scalar.
  Variable ext : ident -> behaviour.
  Variable p : sprog.

  (** [xdenotes], with settled streams in all the nodes, and inputs that fit the
      declarations of the extern nodes. *)
  Fixpoint xsettles (n : nat) (f : ident) (ins outs : list val) : Prop :=
    let present_ins := filter (fun v => negb (first_is_nil v)) ins in
    (exists a i o pouts, In (a, XExtNode f i o) p /\ Forall (fits (declared i)) present_ins /\
      responds (ext f) (declared o) present_ins pouts /\
      outs = weave (absent_row (declared o)) ins pouts) \/
    match n with
    | 0 => False
    | S n => exists a sn pouts,
        In (a, XNode sn) p /\ s_name sn = f /\
        node_settles mode glob (fun g args v => exists os, xsettles n g args (os ++ [v])) (silence p) sn present_ins pouts /\
        outs = weave (absent_row (declared (s_outputs sn))) ins pouts
    end.

  Definition xmeans_strictly (f : ident) (ins outs : list val) : Prop := exists n, xsettles n f ins outs.
End XSettles.
