(** * Vocabulary for the statements about step functions. *)
From Coq Require Import String List ZArith Bool Arith.
From Verif Require Import Model.Base Model.Scalar Model.Value Model.Ast Model.Interp.
Import ListNotations.

(** Call sites and flips occurring in the evaluated part of an expression. *)
Fixpoint calls_of (e : expr) : list nat :=
  match e with
  | ELit _ | EVar _ _ | EGlobal _ | EFetch _ _ _ => []
  | ETuple l => flat_map calls_of l
  | EPre e | EParen e | EUn _ e => calls_of e
  | EBin _ a b | ECmp _ a b | EClock _ a b | ELater _ a b | EFlip _ a b => calls_of a ++ calls_of b
  | EIf a b c | EMerge a b c => calls_of a ++ calls_of b ++ calls_of c
  | ESub _ id a => id :: calls_of a
  end.

Fixpoint flips_of (e : expr) : list nat :=
  match e with
  | ELit _ | EVar _ _ | EGlobal _ | EFetch _ _ _ => []
  | ETuple l => flat_map flips_of l
  | EPre e | EParen e | EUn _ e => flips_of e
  | EBin _ a b | ECmp _ a b | EClock _ a b | ELater _ a b => flips_of a ++ flips_of b
  | EFlip id a b => id :: flips_of a ++ flips_of b
  | EIf a b c | EMerge a b c => flips_of a ++ flips_of b ++ flips_of c
  | ESub _ _ a => flips_of a
  end.

(** Evaluation changes only the sub-instances and flips it mentions. *)
Definition framed (cs fs : list nat) (s s' : estate) : Prop :=
  (forall id, ~ In id cs -> nth_error (es_subs s') id = nth_error (es_subs s) id) /\
  (forall id, ~ In id fs -> nth_error (es_flips s') id = nth_error (es_flips s) id) /\
  length (es_subs s') = length (es_subs s) /\
  length (es_flips s') = length (es_flips s).

(** Outputs of a run with absent instants, from the outputs of the present ones:
    [nilv] is put at every absent instant. *)
Fixpoint weave (nilv : val) (ins outs : list val) : list val :=
  match ins with
  | [] => []
  | v :: ins =>
      if first_is_nil v then nilv :: weave nilv ins outs
      else match outs with
           | [] => []
           | o :: outs => o :: weave nilv ins outs
           end
  end.


(** The outputs at the present instants. *)
Fixpoint present_outputs (ins outs : list val) : list val :=
  match ins, outs with
  | v :: ins, o :: outs =>
      if first_is_nil v then present_outputs ins outs else o :: present_outputs ins outs
  | _, _ => []
  end.

(** The first component is nil: the instant does not exist for a node that
    receives this value. *)
Inductive lacking : val -> Prop :=
| lacking_nil : lacking (VS Nil)
| lacking_first : forall v l, lacking v -> lacking (VT (v :: l)).
