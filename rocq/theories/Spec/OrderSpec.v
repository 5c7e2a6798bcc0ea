(** * Vocabulary for the statements about the order of equations. *)
From Coq Require Import String List ZArith Bool Arith Permutation.
From Verif Require Import Model.Base Model.Ast Model.Surface Spec.StepSpec Spec.CausalitySpec.
Import ListNotations.

(** All the expressions a statement evaluates. *)
Definition computed (s : stmt) : list expr :=
  match s with
  | SLet _ e | SAssert e | SUpdate _ e => [e]
  | SInit _ v c => (match c with Some c => [c] | None => [] end) ++ (match v with Some e => [e] | None => [] end)
  end.

(** Every variable is written, and every register initialised, before it is read. *)
Definition well_ordered (l : list stmt) : Prop :=
  forall k s e, nth_error l k = Some s -> In e (computed s) ->
    (forall x, reads_now x e -> forall k' s', nth_error l k' = Some s' -> stmt_count x s' <> 0 -> k' < k) /\
    (forall r, fetches r e -> forall k' v c, nth_error l k' = Some (SInit r v c) -> k' < k).

(** Number of statements initialising, updating register [r]. *)
Definition init_count (r : nat) (l : list stmt) : nat :=
  length (filter (fun s => match s with SInit r' _ _ => Nat.eqb r r' | _ => false end) l).
Definition update_count (r : nat) (l : list stmt) : nat :=
  length (filter (fun s => match s with SUpdate r' _ => Nat.eqb r r' | _ => false end) l).

(** Each variable is written, each register initialised and updated, at most
    once, and each call site or flip occurs once. *)
Definition separate (l : list stmt) : Prop :=
  (forall x, definitions x l <= 1) /\
  (forall r, init_count r l <= 1) /\ (forall r, update_count r l <= 1) /\
  NoDup (flat_map calls_of (flat_map computed l)) /\
  NoDup (flat_map flips_of (flat_map computed l)).

(** The same node up to the order of its statements. *)
Definition permuted_node (a b : node) : Prop :=
  n_name a = n_name b /\ n_inputs a = n_inputs b /\ n_outputs a = n_outputs b /\ n_locals a = n_locals b /\
  n_blocks a = n_blocks b /\ n_regs a = n_regs b /\ n_flips a = n_flips b /\
  Permutation (n_stmts a) (n_stmts b) /\
  separate (n_stmts a) /\ well_ordered (n_stmts a) /\ well_ordered (n_stmts b).

(** Two source programs that differ by the order of their declarations and of
    the equations in each node. *)
Definition same_decl (a b : sattrdecl) : Prop :=
  match snd a, snd b with
  | XNode n, XNode m =>
      s_name n = s_name m /\ s_inputs n = s_inputs m /\ s_outputs n = s_outputs m /\ s_locals n = s_locals m /\
      Permutation (s_defs n) (s_defs m)
  | x, y => x = y
  end.
Definition reordered (p q : sprog) : Prop := exists p', Permutation p p' /\ Forall2 same_decl p' q.
