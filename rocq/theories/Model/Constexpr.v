(** * Constants: [/repo/chandeliers-san/src/codegen/constexpr.rs].

    A [const] declaration becomes a Rust [const] item
    (codegen/mod.rs:306-327) whose value is a plain Rust expression, computed by
    rustc.  This file computes it.  Panics are compile-time errors of rustc. *)
From Coq Require Import String List ZArith Bool.
From Verif Require Import Model.Base Model.Scalar Model.Ast Model.Interp.
Import ListNotations.

(** Rust's comparison operators on primitive types: all but [!=] are false when
    the operands are not ordered. *)
Definition rust_cmp (op : cmpop) (a b : scalar) : res scalar :=
  match op with
  | Eq => r <- scalar_eq a b;; Ok (SBool r)
  | Ne => r <- scalar_eq a b;; Ok (SBool (negb r))
  | Lt => c <- scalar_cmp a b;; Ok (SBool (match c with Some Datatypes.Lt => true | _ => false end))
  | Gt => c <- scalar_cmp a b;; Ok (SBool (match c with Some Datatypes.Gt => true | _ => false end))
  | Le => c <- scalar_cmp a b;; Ok (SBool (match c with Some Datatypes.Lt | Some Datatypes.Eq => true | _ => false end))
  | Ge => c <- scalar_cmp a b;; Ok (SBool (match c with Some Datatypes.Gt | Some Datatypes.Eq => true | _ => false end))
  end.

(** constexpr.rs:52-104.  Arithmetic in constants is checked in every build.
    Tuples do not have the (scalar) type of a constant; the operators refused by
    constexpr.rs:90-102 ([abort!]) are the last line. *)
Fixpoint const_eval (glob : ident -> option scalar) (e : expr) : res scalar :=
  match e with
  | ELit l => Ok (lit_scalar l)
  | EGlobal x => of_option PUnbound (glob x)
  | EPre e | EParen e => const_eval glob e
  | EBin op a b => x <- const_eval glob a;; y <- const_eval glob b;; scalar_bin Checked op x y
  | EUn op a => x <- const_eval glob a;; scalar_un Checked op x
  | ECmp op a b => x <- const_eval glob a;; y <- const_eval glob b;; rust_cmp op x y
  | EIf c a b =>
      c <- const_eval glob c;;
      match c with
      | SBool true => const_eval glob a
      | SBool false => const_eval glob b
      | _ => Panic PType
      end
  | ETuple _ => Panic PType
  | EVar _ _ => Panic PType                                   (* constexpr.rs:127-129 *)
  | ELater _ _ _ | EFlip _ _ _ | ESub _ _ _ | EMerge _ _ _ | EClock _ _ _ | EFetch _ _ _ => Panic PType
  end.

(** The constants of a program, in its order (rustc does not depend on the
    order; the causality pass puts constants after those they use).  [ext] gives
    the constants of the code around the macro: codegen/mod.rs:353-376. *)
Fixpoint const_env (ext : ident -> option scalar) (l : list decl) (g : list (ident * scalar)) : res (list (ident * scalar)) :=
  match l with
  | [] => Ok g
  | DConst _ x _ e :: l =>
      s <- const_eval (fun y => lookup y g) e;;
      const_env ext l ((x, s) :: g)
  | DExtConst _ x _ :: l =>
      s <- of_option PUnbound (ext x);;
      const_env ext l ((x, s) :: g)
  | _ :: l => const_env ext l g
  end.

(** What the nodes of a compiled program read: codegen/mod.rs:941-946. *)
Definition constants (ext : ident -> option scalar) (l : list decl) : res (ident -> option scalar) :=
  g <- const_env ext l [];; Ok (fun x => lookup x g).
