(** * Vocabulary for the statements about chains of operators. *)
From Coq Require Import List.
From Verif Require Import Model.Base Model.Ast Model.Errors Model.Surface Model.Translate.
Import ListNotations.

(** [e'] is what the translation of [e] at depth [d] produces in some state of
    the translator. *)
Definition translation_of (u : bool) (locals : list ident) (d : nat) (e : sexpr) (e' : expr) : Prop :=
  exists s s', result (tr u locals e d s) = Some (e', s').

(** [nested r [e0; ...; em]]: [r] is [e0 -> (e1 -> (... -> em))] made with flips. *)
Inductive nested : expr -> list expr -> Prop :=
| ns_one : forall e, nested e [e]
| ns_flip : forall id e r es, nested r es -> nested (EFlip id e r) (e :: es).
