(** * Results of modelled Rust computations.

    A Rust computation either returns a value or panics.  Code that rustc
    would refuse to compile (use of an unbound local, ill-typed destructuring)
    is also an explicit error value, so that its absence can be proved. *)
From Coq Require Import String List ZArith Bool.
Import ListNotations.

Inductive panic : Type :=
| POverflow        (* arithmetic overflow in a checked build            *)
| PDivZero         (* division or remainder by zero                     *)
| PPast            (* time_travel.rs:117-124,136-141  `ago` out of range *)
| PAssert          (* candle.rs:456  assertion false                    *)
| PAssertNil       (* candle.rs:457  assertion nil                      *)
| PUnwrapNil       (* nillable.rs:71 unwrap of nil                      *)
| PUnbound         (* generated code reads a local that is not yet bound (rustc error) *)
| PType.           (* generated code is ill-typed (rustc error)         *)

Inductive res (A : Type) : Type :=
| Ok : A -> res A
| Panic : panic -> res A.
Arguments Ok {A} a.
Arguments Panic {A} p.

Definition bind {A B} (x : res A) (f : A -> res B) : res B :=
  match x with Ok a => f a | Panic p => Panic p end.

Notation "x <- e ;; f" := (bind e (fun x => f))
  (at level 61, e at next level, right associativity).
Notation "' pat <- e ;; f" := (bind e (fun x => match x with pat => f end))
  (at level 61, pat pattern, e at next level, right associativity).

Definition is_ok {A} (x : res A) : bool :=
  match x with Ok _ => true | Panic _ => false end.

Definition of_option {A} (p : panic) (o : option A) : res A :=
  match o with Some a => Ok a | None => Panic p end.

(** Evaluation of a list from left to right, stopping at the first panic. *)
Fixpoint mapM {A B} (f : A -> res B) (l : list A) : res (list B) :=
  match l with
  | [] => Ok []
  | a :: l => b <- f a;; bs <- mapM f l;; Ok (b :: bs)
  end.

(** Replace the [n]-th element; the list is unchanged if it is too short. *)
Fixpoint set_nth {A} (n : nat) (a : A) (l : list A) : list A :=
  match l, n with
  | [], _ => []
  | _ :: l, O => a :: l
  | b :: l, S n => b :: set_nth n a l
  end.

Definition ident := string.
