(** * Vocabulary for the statements about the run-time library. *)
From Coq Require Import List ZArith Bool Floats.SpecFloat.
From Verif Require Import Model.Base Model.Scalar Model.Value Model.Register Spec.Clocked.
Import ListNotations.

(** A value contains a nil component (at any depth). *)
Inductive has_nil : val -> Prop :=
| has_nil_here : has_nil (VS Nil)
| has_nil_in : forall l v, In v l -> has_nil v -> has_nil (VT l).

(** Non-degenerate shapes: the empty tuple of values does not exist. *)
Fixpoint shape_ok (v : val) : bool :=
  match v with
  | VS _ => true
  | VT [] => false
  | VT (v :: l) => shape_ok v
  end.

(** Drive a register through a list of instants. *)
Fixpoint reg_run (r : register) (l : list (nillable * option val * val)) : res (list val) :=
  match l with
  | [] => Ok []
  | (clk, init, next) :: l =>
      '(out, r) <- reg_instant r clk init next;;
      outs <- reg_run r l;;
      Ok (out :: outs)
  end.

Fixpoint flip_run (f : bool) (l : list (val * val)) : list val :=
  match l with
  | [] => []
  | (a, b) :: l => let '(out, f) := flip_instant f a b in out :: flip_run f l
  end.

(** Presence of an instant, as seen by the register: the clock is true exactly
    when the instant is present; a present operand has a defined first
    component, an absent one is entirely nil; everything has the shape of
    [nilv]. *)
Definition clk_means (present : bool) (clk : nillable) : Prop :=
  if present then clk = Defined (SBool true)
  else clk = Defined (SBool false) \/ clk = Nil.

Definition operand_means (nilv : val) (o : option val) (v : val) : Prop :=
  match o with
  | Some a => v = a /\ first_is_nil a = false /\ all_nil a = nilv
  | None => v = nilv
  end.

Definition fst_o {A B} (o : option (A * B)) : option A := option_map fst o.
Definition snd_o {A B} (o : option (A * B)) : option B := option_map snd o.
Definition is_some {A} (o : option A) : bool := match o with Some _ => true | None => false end.

Definition fby_instant (nilv : val) (o : option (val * val)) (i : nillable * option val * val) : Prop :=
  let '(clk, init, next) := i in
  clk_means (is_some o) clk /\
  (exists v, init = Some v /\ operand_means nilv (fst_o o) v) /\
  operand_means nilv (snd_o o) next.

Definition pre_instant (nilv : val) (o : option val) (i : nillable * option val * val) : Prop :=
  let '(clk, init, next) := i in
  clk_means (is_some o) clk /\ init = None /\ operand_means nilv o next.

Definition or_nil (nilv : val) (o : option val) : val :=
  match o with Some v => v | None => nilv end.

(** Flips: no assumption on the second operand. *)
Definition flip_means (i : val * val) : option (val * val) :=
  if first_is_nil (fst i) then None else Some i.

(** Mathematical meaning of the integer operators, where it exists. *)
Definition int_exact (op : binop) (x y : Z) : option Z :=
  match op with
  | Add => Some (x + y)%Z
  | Sub => Some (x - y)%Z
  | Mul => Some (x * y)%Z
  | _ => None
  end.

(** The order of payloads, written independently of the implementation:
    [Some c] when the payloads are comparable. *)
Inductive scalar_order : scalar -> scalar -> comparison -> Prop :=
| ord_int : forall x y c,
    match c with Datatypes.Lt => (x < y)%Z | Datatypes.Eq => x = y | Datatypes.Gt => (x > y)%Z end ->
    scalar_order (SInt x) (SInt y) c
| ord_bool_lt : scalar_order (SBool false) (SBool true) Datatypes.Lt
| ord_bool_gt : scalar_order (SBool true) (SBool false) Datatypes.Gt
| ord_bool_eq : forall b, scalar_order (SBool b) (SBool b) Datatypes.Eq.

(** Some leaf is defined. *)
Inductive has_defined : val -> Prop :=
| has_defined_here : forall s, has_defined (VS (Defined s))
| has_defined_in : forall l v, In v l -> has_defined v -> has_defined (VT l).

(** Same tree structure. *)
Inductive same_shape : val -> val -> Prop :=
| shape_scalar : forall a b, same_shape (VS a) (VS b)
| shape_tuple : forall l l', Forall2 same_shape l l' -> same_shape (VT l) (VT l').

(** Comparison of an integer with a finite float. *)
Definition compared (R : Z -> Z -> Prop) (z : Z) (f : spec_float) : Prop :=
  match f with
  | S754_zero _ => R z 0%Z
  | S754_finite s m e =>
      let v := if s then Z.neg m else Z.pos m in
      if (0 <=? e)%Z then R z (v * 2 ^ e)%Z else R (z * 2 ^ (- e))%Z v
  | S754_infinity _ | S754_nan => False
  end.

(** [t] is the part of [f] before the point. *)
Definition truncation (f : spec_float) (t : Z) : Prop :=
  compared eq t f \/
  match f with
  | S754_finite false _ _ => compared Z.lt t f /\ compared Z.gt (t + 1) f /\ (0 <= t)%Z
  | S754_finite true _ _ => compared Z.gt t f /\ compared Z.lt (t - 1) f /\ (t <= 0)%Z
  | _ => False
  end.
(** The sign bit, zero included. *)
Definition sign_bit (f : spec_float) : option bool :=
  match f with S754_zero s | S754_infinity s | S754_finite s _ _ => Some s | S754_nan => None end.
