(** * Vocabulary for the statements about the translation. *)
From Coq Require Import List.
From Verif Require Import Model.Base Model.Ast.
Import ListNotations.

(** The register reads that are evaluated when an expression is evaluated:
    number, initialiser and next value of each. *)
Fixpoint reads_of (e : expr) : list (nat * (option expr * expr)) :=
  match e with
  | ELit _ | EVar _ _ | EGlobal _ => []
  | EFetch id i n => [(id, (i, n))]
  | ETuple l => flat_map reads_of l
  | EPre e | EParen e | EUn _ e | ESub _ _ e => reads_of e
  | EBin _ a b | ECmp _ a b | EClock _ a b | ELater _ a b | EFlip _ a b => reads_of a ++ reads_of b
  | EIf a b c | EMerge a b c => reads_of a ++ reads_of b ++ reads_of c
  end.

(** Direct subexpressions, those of a register read included. *)
Definition children (e : expr) : list expr :=
  match e with
  | ELit _ | EVar _ _ | EGlobal _ => []
  | EFetch id i n => (match i with Some e => [e] | None => [] end) ++ [n]
  | ETuple l => l
  | EPre e | EParen e | EUn _ e | ESub _ _ e => [e]
  | EBin _ a b | ECmp _ a b | EClock _ a b | ELater _ a b | EFlip _ a b => [a; b]
  | EIf a b c | EMerge a b c => [a; b; c]
  end.

(** [x] occurs in [e]. *)
Inductive occurs (x : expr) : expr -> Prop :=
| occ_here : occurs x x
| occ_child : forall e c, In c (children e) -> occurs x c -> occurs x e.
