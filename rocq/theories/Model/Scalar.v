(** * Scalars: the payloads of streams.

    [/repo/chandeliers-sem/src/time_travel.rs:58-61]: the sealed payload types
    are [i64], [f64], [bool] and [()].

    - [i64] is [Z]; every operation states its overflow behaviour explicitly:
      a checked build panics, an unchecked build wraps.
    - [f64] is the pure binary64 arithmetic of [Coq.Floats.SpecFloat]
      (precision 53, emax 1024); NaN payloads and signs of NaN are not
      distinguished.  Float remainder is not modelled: the typechecker refuses
      it (typecheck.rs:637), so it is [PType] here. *)
From Coq Require Import ZArith Bool List.
From Coq Require Import Floats.SpecFloat.
From Verif Require Import Model.Base.
Local Open Scope Z_scope.

Definition f64 := spec_float.
Definition f64_prec : Z := 53.
Definition f64_emax : Z := 1024.

Inductive scalar : Type :=
| SInt (z : Z)
| SFloat (f : f64)
| SBool (b : bool)
| SUnit.

(** Overflow behaviour of the build profile. *)
Inductive ovf : Type := Checked | Wrapping.

Definition i64_min : Z := - 2 ^ 63.
Definition i64_max : Z := 2 ^ 63 - 1.
Definition in_i64 (z : Z) : bool := (i64_min <=? z) && (z <=? i64_max).
Definition wrap64 (z : Z) : Z := (z + 2 ^ 63) mod 2 ^ 64 - 2 ^ 63.

Definition i64_result (m : ovf) (z : Z) : res scalar :=
  if in_i64 z then Ok (SInt z)
  else match m with Checked => Panic POverflow | Wrapping => Ok (SInt (wrap64 z)) end.

(** chandeliers-san/src/ast/mod.rs op::Bin *)
Inductive binop : Type := Add | Mul | Sub | Div | Rem | BitAnd | BitOr | BitXor.
(** op::Un *)
Inductive unop : Type := Neg | Not.
(** op::Cmp *)
Inductive cmpop : Type := Le | Ge | Lt | Gt | Eq | Ne.

(** Rust's primitive operators on the payloads, as used through
    [nillable.rs:93-110] ([lhs.$func(rhs)]). *)
Definition i64_div (m : ovf) (x y : Z) : res scalar :=
  if y =? 0 then Panic PDivZero
  else if (x =? i64_min) && (y =? -1) then Panic POverflow
  else Ok (SInt (Z.quot x y)).

Definition i64_rem (m : ovf) (x y : Z) : res scalar :=
  if y =? 0 then Panic PDivZero
  else if (x =? i64_min) && (y =? -1) then Panic POverflow
  else Ok (SInt (Z.rem x y)).

Definition scalar_bin (m : ovf) (op : binop) (a b : scalar) : res scalar :=
  match a, b with
  | SInt x, SInt y =>
      match op with
      | Add => i64_result m (x + y)
      | Mul => i64_result m (x * y)
      | Sub => i64_result m (x - y)
      | Div => i64_div m x y
      | Rem => i64_rem m x y
      | BitAnd => Ok (SInt (Z.land x y))
      | BitOr => Ok (SInt (Z.lor x y))
      | BitXor => Ok (SInt (Z.lxor x y))
      end
  | SFloat x, SFloat y =>
      match op with
      | Add => Ok (SFloat (SFadd f64_prec f64_emax x y))
      | Mul => Ok (SFloat (SFmul f64_prec f64_emax x y))
      | Sub => Ok (SFloat (SFsub f64_prec f64_emax x y))
      | Div => Ok (SFloat (SFdiv f64_prec f64_emax x y))
      | _ => Panic PType
      end
  | SBool x, SBool y =>
      match op with
      | BitAnd => Ok (SBool (andb x y))
      | BitOr => Ok (SBool (orb x y))
      | BitXor => Ok (SBool (xorb x y))
      | _ => Panic PType
      end
  | _, _ => Panic PType
  end.

Definition scalar_un (m : ovf) (op : unop) (a : scalar) : res scalar :=
  match op, a with
  | Neg, SInt x => i64_result m (- x)
  | Neg, SFloat x => Ok (SFloat (SFopp x))
  | Not, SInt x => Ok (SInt (Z.lnot x))
  | Not, SBool b => Ok (SBool (negb b))
  | _, _ => Panic PType
  end.

Definition bool_compare (x y : bool) : comparison :=
  match x, y with
  | true, false => Datatypes.Gt
  | false, true => Datatypes.Lt
  | _, _ => Datatypes.Eq
  end.

(** [PartialOrd::partial_cmp] on payloads of the same type
    (outer error: operands of different types, refused by rustc). *)
Definition scalar_cmp (a b : scalar) : res (option comparison) :=
  match a, b with
  | SInt x, SInt y => Ok (Some (Z.compare x y))
  | SFloat x, SFloat y => Ok (SFcompare x y)
  | SBool x, SBool y => Ok (Some (bool_compare x y))
  | SUnit, SUnit => Ok (Some Datatypes.Eq)
  | _, _ => Panic PType
  end.

(** [PartialEq::eq] on payloads of the same type. *)
Definition scalar_eq (a b : scalar) : res bool :=
  match a, b with
  | SInt x, SInt y => Ok (Z.eqb x y)
  | SFloat x, SFloat y => Ok (SFeqb x y)
  | SBool x, SBool y => Ok (Bool.eqb x y)
  | SUnit, SUnit => Ok true
  | _, _ => Panic PType
  end.

(** Scalar types. [ty::Base] of ast/mod.rs; the type variable [Other] is
    only known to the typechecker. *)
Inductive sty : Type := TInt | TFloat | TBool | TUnit.

Definition sty_of (s : scalar) : sty :=
  match s with
  | SInt _ => TInt | SFloat _ => TFloat | SBool _ => TBool | SUnit => TUnit
  end.

(** Payload invariant: integers fit in 64 bits. (The floats of the model are
    those produced by the operations above.) *)
Definition wf_scalar (s : scalar) : bool :=
  match s with
  | SInt z => in_i64 z
  | _ => true
  end.
