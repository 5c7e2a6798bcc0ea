(** * Vocabulary for the statements about the input of the macro. *)
From Coq Require Import String List ZArith.
From Verif Require Import Model.Base Model.Parse Spec.CodegenSpec.
Import ListNotations.

(** The identifiers, literals and punctuation of token trees. *)
Fixpoint atoms (t : tok) : list tok :=
  match t with TGroup _ l => flat_map atoms l | _ => [t] end.

(** Neither raw identifiers nor special ones, integers of an [i64], floats that
    are not too large. *)
Definition plain_tokens (ts : list tok) : Prop :=
  forall t, In t (flat_map atoms ts) ->
    match t with
    | TIdent x => ordinary x
    | TLit (KInt n) => (Z.of_N n <= 2 ^ 63 - 1)%Z
    | TLit (KFloat f) => finite f
    | _ => True
    end.
