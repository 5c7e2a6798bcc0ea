(** * Reference meaning of source programs (default mode).

    A node transforms the sequence of its inputs into the sequence of its
    outputs: some streams, one per variable, carry the inputs and the outputs
    and satisfy all the equations at every instant.  Instants whose first input
    is absent do not exist for the node, it answers nil to them. *)
From Coq Require Import String List ZArith Bool.
From Verif Require Import Model.Base Model.Scalar Model.Value Model.Ast Model.Interp Model.Surface
  Spec.StepSpec Spec.SurfaceSem.
Import ListNotations.

(** The declared names, in order. *)
Definition declared (l : sdecls) : list ident := flat_map fst l.
Definition node_vars (sn : snode) : list ident :=
  declared (s_inputs sn) ++ declared (s_outputs sn) ++ declared (s_locals sn).

(** [v] is the tuple of the values of the variables [l]; a single variable is
    not put in a tuple. *)
Definition row (env : ident -> option nillable) (l : list ident) (v : val) : Prop :=
  exists ns, Forall2 (fun x n => env x = Some n) l ns /\ v = tuple_val (map VS ns).

(** The answer to an absent input. *)
Definition absent_row (l : list ident) : val :=
  match l with
  | [] | [_] => VS Nil
  | _ => VT (map (fun _ => VS Nil) l)
  end.

Section ProgramSem.
  Variable mode : ovf.
  Variable glob : ident -> option scalar.
  Variable nodes : list snode.

  (** Meaning of the node [sn] on present inputs, given the meaning [F], [N] of
      the nodes it calls. *)
  Definition node_meaning (F : ident -> list val -> val -> Prop) (N : ident -> val -> Prop)
      (sn : snode) (ins outs : list val) : Prop :=
    length outs = length ins /\
    exists rho : nat -> ident -> option nillable,
      forall T v o, nth_error ins T = Some v -> nth_error outs T = Some o ->
        (declared (s_inputs sn) = [] \/ row (rho T) (declared (s_inputs sn)) v) /\
        (forall i, In i (s_defs sn) -> sstmt_holds mode glob (node_vars sn) rho F N T i) /\
        row (rho T) (declared (s_outputs sn)) o.

  Definition no_input (f : ident) (v : val) : Prop :=
    exists sn, In sn nodes /\ s_name sn = f /\ v = absent_row (declared (s_outputs sn)).

  (** Meaning of node [f], if its calls are nested at most [n] times. *)
  Fixpoint denotes (n : nat) (f : ident) (ins outs : list val) : Prop :=
    match n with
    | 0 => False
    | S n => exists sn pouts,
        In sn nodes /\ s_name sn = f /\
        node_meaning (fun g args v => exists os, denotes n g args (os ++ [v])) no_input
          sn (filter (fun v => negb (first_is_nil v)) ins) pouts /\
        outs = weave (absent_row (declared (s_outputs sn))) ins pouts
    end.

  Definition means (f : ident) (ins outs : list val) : Prop := exists n, denotes n f ins outs.
End ProgramSem.

(** The nodes of a source program. *)
Definition source_nodes (p : sprog) : list snode :=
  flat_map (fun d => match snd d with XNode sn => [sn] | _ => [] end) p.
