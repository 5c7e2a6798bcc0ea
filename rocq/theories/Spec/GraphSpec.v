(** * What a scheduling is, independently of how it is computed. *)
From Coq Require Import List Arith Permutation.
Import ListNotations.

(** A graph is given by the successors of each vertex. *)
Definition edge (g : list (list nat)) (u w : nat) : Prop :=
  exists l, nth_error g u = Some l /\ In w l.

Inductive reach (g : list (list nat)) : nat -> nat -> Prop :=
| reach_refl : forall u, reach g u u
| reach_step : forall u v w, edge g u v -> reach g v w -> reach g u w.

Section Schedule.
  Context {Obj Unit : Type}.
  Variables provides requires : Obj -> list Unit.
  Variable objs : list Obj.

  (** Item number [i] needs something that item number [j] gives. *)
  Definition depends_on (i j : nat) : Prop :=
    exists oi oj u, nth_error objs i = Some oi /\ nth_error objs j = Some oj /\
                    In u (requires oi) /\ In u (provides oj).

  (** [depends_plus i j]: a nonempty chain of dependencies from [i] to [j]. *)
  Inductive depends_plus : nat -> nat -> Prop :=
  | dp_one : forall i j, depends_on i j -> depends_plus i j
  | dp_more : forall i j k, depends_on i j -> depends_plus j k -> depends_plus i k.

  Definition acyclic : Prop := forall i, ~ depends_plus i i.

  (** Nothing is given twice, nor given both by an item and by the context. *)
  Definition single_assignment (ext : list Unit) : Prop :=
    NoDup (flat_map provides objs) /\
    forall u, In u ext -> ~ In u (flat_map provides objs).

  (** Everything in [must] is given. *)
  Definition complete (must : list Unit) : Prop :=
    forall u, In u must -> In u (flat_map provides objs).

  (** [ord] enumerates the positions of the items, each exactly once, in the order
      of [out]. *)
  Definition reordering (ord : list nat) (out : list Obj) : Prop :=
    Permutation ord (seq 0 (length objs)) /\ map (nth_error objs) ord = map Some out.

  (** No item comes before (or is) something it depends on. *)
  Definition respects_dependencies (ord : list nat) : Prop :=
    forall k1 k2 i j, nth_error ord k1 = Some i -> nth_error ord k2 = Some j -> k1 <= k2 ->
      ~ depends_on i j.
End Schedule.
