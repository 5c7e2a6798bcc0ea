(** * Conversions of the standard library: [/repo/chandeliers-std/src/cast.rs]. *)
From Coq Require Import ZArith Bool.
From Coq Require Import Floats.SpecFloat.
From Verif Require Import Model.Base Model.Scalar Model.Value.
Local Open Scope Z_scope.

(** Rust [i as f64]: round to nearest even. *)
Definition i64_to_f64 (z : Z) : f64 := binary_normalize f64_prec f64_emax z 0 false.

(** [m * 2^e] truncated towards zero. *)
Definition trunc_mag (m : positive) (e : Z) : Z :=
  if 0 <=? e then Z.pos m * 2 ^ e else Z.pos m / 2 ^ (- e).

Definition saturate (z : Z) : Z :=
  if z <? i64_min then i64_min else if i64_max <? z then i64_max else z.

(** Rust [f as i64]: truncation, saturating, NaN to 0. *)
Definition f64_to_i64 (f : f64) : Z :=
  match f with
  | S754_zero _ => 0
  | S754_nan => 0
  | S754_infinity s => if s then i64_min else i64_max
  | S754_finite s m e =>
      saturate (if s then - trunc_mag m e else trunc_mag m e)
  end.

(** [f64::floor] and [f64::ceil]: already integral when the exponent is
    non-negative; the sign of a zero result is the sign of the operand. *)
Definition f64_floor (f : f64) : f64 :=
  match f with
  | S754_finite s m e =>
      if 0 <=? e then f
      else binary_normalize f64_prec f64_emax
             ((if s then Z.neg m else Z.pos m) / 2 ^ (- e)) 0 s
  | _ => f
  end.

Definition f64_ceil (f : f64) : f64 :=
  match f with
  | S754_finite s m e =>
      if 0 <=? e then f
      else binary_normalize f64_prec f64_emax
             (- (- (if s then Z.neg m else Z.pos m) / 2 ^ (- e))) 0 s
  | _ => f
  end.

Definition on_float (f : f64 -> scalar) (s : scalar) : scalar :=
  match s with SFloat x => f x | s => s end.
Definition on_int (f : Z -> scalar) (s : scalar) : scalar :=
  match s with SInt x => f x | s => s end.

(** cast.rs:11-18, 25-33, 40-47, 54-61: the [step] of each node. The other
    scalar types cannot reach these functions (rustc typing). *)
Definition float_of_int (n : nillable) : nillable := nmap (on_int (fun z => SFloat (i64_to_f64 z))) n.
Definition int_of_float (n : nillable) : nillable := nmap (on_float (fun f => SInt (f64_to_i64 f))) n.
Definition std_ceil (n : nillable) : nillable := nmap (on_float (fun f => SFloat (f64_ceil f))) n.
Definition std_floor (n : nillable) : nillable := nmap (on_float (fun f => SFloat (f64_floor f))) n.
