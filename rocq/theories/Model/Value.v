(** * Nillable values and tuples of them.
    [/repo/chandeliers-sem/src/nillable.rs] and [stepping.rs]. *)
From Coq Require Import List ZArith Bool.
From Verif Require Import Model.Base Model.Scalar.
Import ListNotations.

(** nillable.rs:23-30 [Nillable] *)
Inductive nillable : Type :=
| Defined (s : scalar)
| Nil.

(** A run-time value: a scalar stream value or a (nested) tuple of values.
    Simplification: Rust tuples of arity 1 written [(x,)] never occur in
    generated code (codegen/mod.rs:739-754 and 1089-1092 emit [( x )], which is
    [x]); the empty tuple is a scalar of type [()] (stepping.rs: [()] is
    [Sealed], so [().embed()] is [Defined(())]).  The arity limit of 11 of the
    trait implementations (nillable.rs:238-249) is not modelled. *)
Inductive val : Type :=
| VS (n : nillable)
| VT (l : list val).

Definition is_nil (n : nillable) : bool :=
  match n with Nil => true | Defined _ => false end.

(** nillable.rs:68-73 *)
Definition unwrap (n : nillable) : res scalar :=
  match n with Defined s => Ok s | Nil => Panic PUnwrapNil end.

(** nillable.rs:79-87 *)
Definition nmap (f : scalar -> scalar) (n : nillable) : nillable :=
  match n with Defined s => Defined (f s) | Nil => Nil end.

(** nillable.rs:91-117 binary operators *)
Definition nil_bin (m : ovf) (op : binop) (a b : nillable) : res nillable :=
  match a, b with
  | Defined x, Defined y => z <- scalar_bin m op x y;; Ok (Defined z)
  | _, _ => Ok Nil
  end.

(** nillable.rs:121-141 unary operators *)
Definition nil_un (m : ovf) (op : unop) (a : nillable) : res nillable :=
  match a with
  | Defined x => z <- scalar_un m op x;; Ok (Defined z)
  | Nil => Ok Nil
  end.

(** nillable.rs:154-159 [eq] *)
Definition nil_eq (a b : nillable) : res (option bool) :=
  match a, b with
  | Defined x, Defined y => r <- scalar_eq x y;; Ok (Some r)
  | _, _ => Ok None
  end.

(** nillable.rs:167-173 [is] *)
Definition nil_is (a b : nillable) : res bool :=
  match a, b with
  | Defined x, Defined y => scalar_eq x y
  | Nil, Nil => Ok true
  | _, _ => Ok false
  end.

(** nillable.rs:199-204 [cmp] *)
Definition nil_cmp (a b : nillable) : res (option comparison) :=
  match a, b with
  | Defined x, Defined y => scalar_cmp x y
  | _, _ => Ok None
  end.

Definition comparison_eqb (a b : comparison) : bool :=
  match a, b with
  | Datatypes.Eq, Datatypes.Eq | Datatypes.Lt, Datatypes.Lt | Datatypes.Gt, Datatypes.Gt => true
  | _, _ => false
  end.

(** candle.rs:390-398 [nillable_cmp_ord!] *)
Definition cmp_ord (ord : comparison) (r : bool) (a b : nillable) : res nillable :=
  c <- nil_cmp a b;;
  Ok (match c with
      | Some c => if comparison_eqb c ord then Defined (SBool r) else Defined (SBool (negb r))
      | None => Nil
      end).

(** candle.rs:403-411 [nillable_cmp_eq!] *)
Definition cmp_eq (equal : bool) (a b : nillable) : res nillable :=
  c <- nil_eq a b;;
  Ok (match c with
      | Some true => Defined (SBool equal)
      | Some false => Defined (SBool (negb equal))
      | None => Nil
      end).

(** candle.rs:424-443 [cmp!] *)
Definition do_cmp (op : cmpop) (a b : nillable) : res nillable :=
  match op with
  | Eq => cmp_eq true a b
  | Ne => cmp_eq false a b
  | Lt => cmp_ord Datatypes.Lt true a b
  | Gt => cmp_ord Datatypes.Gt true a b
  | Le => cmp_ord Datatypes.Gt false a b
  | Ge => cmp_ord Datatypes.Lt false a b
  end.

(** nillable.rs:206-249 [AllNil::auto_size]: the all-nil value of the shape of
    [v] (Rust infers the shape from the type; here it is copied from a value
    of that type). *)
Fixpoint all_nil (v : val) : val :=
  match v with
  | VS _ => VS Nil
  | VT l => VT (map all_nil l)
  end.

(** nillable.rs:271-306 [FirstIsNil]: descend in first components. The empty
    [VT] does not exist in Rust. *)
Fixpoint first_is_nil (v : val) : bool :=
  match v with
  | VS n => is_nil n
  | VT [] => false
  | VT (v :: _) => first_is_nil v
  end.

(** stepping.rs:17-66 [Embed] of plain (non-nillable) data. *)
Inductive plain : Type :=
| PS (s : scalar)
| PT (l : list plain).

Fixpoint embed (p : plain) : val :=
  match p with
  | PS s => VS (Defined s)
  | PT l => VT (map embed l)
  end.

(** stepping.rs:70-100 [Trusted]: components from left to right. *)
Fixpoint trusted (v : val) : res plain :=
  match v with
  | VS n => s <- unwrap n;; Ok (PS s)
  | VT l =>
      ps <- (fix go (l : list val) : res (list plain) :=
               match l with
               | [] => Ok []
               | v :: l => p <- trusted v;; ps <- go l;; Ok (p :: ps)
               end) l;;
      Ok (PT ps)
  end.

(** Scalar stream operations need scalar operands; a tuple is a rustc error. *)
Definition as_scalar (v : val) : res nillable :=
  match v with VS n => Ok n | VT _ => Panic PType end.

Definition as_bool (n : nillable) : res (option bool) :=
  match n with
  | Nil => Ok None
  | Defined (SBool b) => Ok (Some b)
  | Defined _ => Panic PType
  end.

(** candle.rs:371-385 [binop!], [unop!], 424 [cmp!] on values *)
Definition val_bin (m : ovf) (op : binop) (a b : val) : res val :=
  x <- as_scalar a;; y <- as_scalar b;; r <- nil_bin m op x y;; Ok (VS r).
Definition val_un (m : ovf) (op : unop) (a : val) : res val :=
  x <- as_scalar a;; r <- nil_un m op x;; Ok (VS r).
Definition val_cmp (op : cmpop) (a b : val) : res val :=
  x <- as_scalar a;; y <- as_scalar b;; r <- do_cmp op x y;; Ok (VS r).

(** candle.rs:350-361 [ifx!] once the three operands are evaluated *)
Definition val_ifx (c yes no : val) : res val :=
  n <- as_scalar c;; b <- as_bool n;;
  Ok (match b with
      | Some true => yes
      | Some false => no
      | None => all_nil yes
      end).

(** candle.rs:499-511 [merge!] *)
Definition val_merge (c on off : val) : res val :=
  n <- as_scalar c;; b <- as_bool n;;
  Ok (match b with
      | Some true => on
      | Some false => off
      | None => all_nil on
      end).

(** candle.rs:466-492 [when!] and [whenot!]; [pos] is [true] for [when] *)
Definition val_when (pos : bool) (c e : val) : res val :=
  n <- as_scalar c;; b <- as_bool n;;
  Ok (match b with
      | Some b => if Bool.eqb b pos then e else all_nil e
      | None => all_nil e
      end).

(** candle.rs:450-460 [truth!] *)
Definition val_truth (v : val) : res unit :=
  n <- as_scalar v;; b <- as_bool n;;
  match b with
  | Some true => Ok tt
  | Some false => Panic PAssert
  | None => Panic PAssertNil
  end.
