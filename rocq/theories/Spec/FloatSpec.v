(** * Floating point numbers as real numbers. *)
From Coq Require Import ZArith Bool Reals.
From Coq Require Import Floats.SpecFloat.
From Flocq Require Import Core.
From Verif Require Import Model.Scalar.

(** Representable in 64 bits: 53 bits of mantissa, and the exponent range of binary64. *)
Definition binary64 (f : spec_float) : Prop := valid_binary 53 1024 f = true.
Definition is_finite (f : spec_float) : Prop :=
  match f with S754_zero _ | S754_finite _ _ _ => True | S754_infinity _ | S754_nan => False end.
Definition sign (f : spec_float) : bool :=
  match f with S754_zero s | S754_infinity s | S754_finite s _ _ => s | S754_nan => false end.

(** The number that a finite float stands for. *)
Definition value (f : spec_float) : R :=
  match f with
  | S754_finite s m e => ((if s then -1 else 1) * IZR (Z.pos m) * powerRZ 2 e)%R
  | _ => 0%R
  end.

(** The multiple of the unit in the last place that is closest to [r] (the
    even one of two), without a bound on large numbers. *)
Definition nearest (r : R) : R := round radix2 (FLT_exp (-1074) 53) ZnearestE r.

(** [f] is the result of an operation whose exact result is [r]; [s] is the
    sign of a result that is zero. *)
Definition correctly_rounded (r : R) (s : bool) (f : spec_float) : Prop :=
  if Rlt_bool (Rabs (nearest r)) (powerRZ 2 1024)
  then is_finite f /\ value f = nearest r /\ (value f = 0%R -> sign f = s)
  else f = S754_infinity (Rlt_bool r 0).

(** The exact result of an operator on finite operands and the sign of a zero
    result. *)
Definition exact (op : binop) (x y : spec_float) : option (R * bool) :=
  match op with
  | Add => Some ((value x + value y)%R, if Req_bool (value x + value y) 0 then sign x && sign y else Rlt_bool (value x + value y) 0)
  | Sub => Some ((value x - value y)%R, if Req_bool (value x - value y) 0 then sign x && negb (sign y) else Rlt_bool (value x - value y) 0)
  | Mul => Some ((value x * value y)%R, xorb (sign x) (sign y))
  | Div => if Req_bool (value y) 0 then None else Some ((value x / value y)%R, xorb (sign x) (sign y))
  | _ => None
  end.

(** The order of the floats that are not NaN. *)
Definition float_order (x y : spec_float) (c : comparison) : Prop :=
  match x, y with
  | S754_nan, _ | _, S754_nan => False
  | S754_infinity s, S754_infinity t => c = Bool.compare t s
  | S754_infinity s, _ => c = if s then Datatypes.Lt else Datatypes.Gt
  | _, S754_infinity s => c = if s then Datatypes.Gt else Datatypes.Lt
  | _, _ => match c with
            | Datatypes.Lt => (value x < value y)%R
            | Datatypes.Eq => value x = value y
            | Datatypes.Gt => (value x > value y)%R
            end
  end.

(** Operands that are infinite or not a number, and divisions by zero. *)
Definition sum_special (x y : spec_float) (f : spec_float) : Prop :=
  match x, y with
  | S754_infinity s, S754_infinity t => f = if Bool.eqb s t then S754_infinity s else S754_nan
  | S754_infinity s, _ | _, S754_infinity s => f = S754_infinity s
  | _, _ => False
  end.
Definition special (op : binop) (x y f : spec_float) : Prop :=
  match x, y with
  | S754_nan, _ | _, S754_nan => f = S754_nan
  | _, _ =>
    match op with
    | Add => sum_special x y f
    | Sub => sum_special x (match y with S754_infinity t => S754_infinity (negb t) | _ => y end) f
    | Mul => match x, y with
             | S754_infinity _, S754_zero _ | S754_zero _, S754_infinity _ => f = S754_nan
             | S754_infinity _, _ | _, S754_infinity _ => f = S754_infinity (xorb (sign x) (sign y))
             | _, _ => False
             end
    | Div => match x, y with
             | S754_infinity _, S754_infinity _ | S754_zero _, S754_zero _ => f = S754_nan
             | S754_infinity _, _ | _, S754_zero _ => f = S754_infinity (xorb (sign x) (sign y))
             | _, S754_infinity _ => f = S754_zero (xorb (sign x) (sign y))
             | _, _ => False
             end
    | _ => False
    end
  end.

Definition float_range (s : scalar) : Prop := match s with SFloat f => binary64 f | _ => True end.
