(** * Which variables statements read and write. *)
From Coq Require Import String List ZArith Bool Arith.
From Verif Require Import Model.Base Model.Ast.
Import ListNotations.

(** Variable [x] occurs in [e] at the current instant (not in the past). *)
Inductive reads_now (x : ident) : expr -> Prop :=
| rn_var : reads_now x (EVar x 0)
| rn_tuple : forall l e, In e l -> reads_now x e -> reads_now x (ETuple l)
| rn_pre : forall e, reads_now x e -> reads_now x (EPre e)
| rn_paren : forall e, reads_now x e -> reads_now x (EParen e)
| rn_bin1 : forall o a b, reads_now x a -> reads_now x (EBin o a b)
| rn_bin2 : forall o a b, reads_now x b -> reads_now x (EBin o a b)
| rn_cmp1 : forall o a b, reads_now x a -> reads_now x (ECmp o a b)
| rn_cmp2 : forall o a b, reads_now x b -> reads_now x (ECmp o a b)
| rn_un : forall o a, reads_now x a -> reads_now x (EUn o a)
| rn_clk1 : forall p a b, reads_now x a -> reads_now x (EClock p a b)
| rn_clk2 : forall p a b, reads_now x b -> reads_now x (EClock p a b)
| rn_later1 : forall d a b, reads_now x a -> reads_now x (ELater d a b)
| rn_later2 : forall d a b, reads_now x b -> reads_now x (ELater d a b)
| rn_flip1 : forall i a b, reads_now x a -> reads_now x (EFlip i a b)
| rn_flip2 : forall i a b, reads_now x b -> reads_now x (EFlip i a b)
| rn_if1 : forall c a b, reads_now x c -> reads_now x (EIf c a b)
| rn_if2 : forall c a b, reads_now x a -> reads_now x (EIf c a b)
| rn_if3 : forall c a b, reads_now x b -> reads_now x (EIf c a b)
| rn_merge1 : forall c a b, reads_now x c -> reads_now x (EMerge c a b)
| rn_merge2 : forall c a b, reads_now x a -> reads_now x (EMerge c a b)
| rn_merge3 : forall c a b, reads_now x b -> reads_now x (EMerge c a b)
| rn_sub : forall d i a, reads_now x a -> reads_now x (ESub d i a).

(** Register [r] is fetched in [e]. *)
Inductive fetches (r : nat) : expr -> Prop :=
| fe_fetch : forall i n, fetches r (EFetch r i n)
| fe_tuple : forall l e, In e l -> fetches r e -> fetches r (ETuple l)
| fe_pre : forall e, fetches r e -> fetches r (EPre e)
| fe_paren : forall e, fetches r e -> fetches r (EParen e)
| fe_bin1 : forall o a b, fetches r a -> fetches r (EBin o a b)
| fe_bin2 : forall o a b, fetches r b -> fetches r (EBin o a b)
| fe_cmp1 : forall o a b, fetches r a -> fetches r (ECmp o a b)
| fe_cmp2 : forall o a b, fetches r b -> fetches r (ECmp o a b)
| fe_un : forall o a, fetches r a -> fetches r (EUn o a)
| fe_clk1 : forall p a b, fetches r a -> fetches r (EClock p a b)
| fe_clk2 : forall p a b, fetches r b -> fetches r (EClock p a b)
| fe_later1 : forall d a b, fetches r a -> fetches r (ELater d a b)
| fe_later2 : forall d a b, fetches r b -> fetches r (ELater d a b)
| fe_flip1 : forall i a b, fetches r a -> fetches r (EFlip i a b)
| fe_flip2 : forall i a b, fetches r b -> fetches r (EFlip i a b)
| fe_if1 : forall c a b, fetches r c -> fetches r (EIf c a b)
| fe_if2 : forall c a b, fetches r a -> fetches r (EIf c a b)
| fe_if3 : forall c a b, fetches r b -> fetches r (EIf c a b)
| fe_merge1 : forall c a b, fetches r c -> fetches r (EMerge c a b)
| fe_merge2 : forall c a b, fetches r a -> fetches r (EMerge c a b)
| fe_merge3 : forall c a b, fetches r b -> fetches r (EMerge c a b)
| fe_sub : forall d i a, fetches r a -> fetches r (ESub d i a).

(** The expression a statement computes (a register's clock excepted). *)
Definition stmt_value (s : stmt) : option expr :=
  match s with
  | SLet _ e => Some e
  | SAssert e => Some e
  | SInit _ v _ => v
  | SUpdate _ e => Some e
  end.

Definition stmt_reads (s : stmt) (x : ident) : Prop := exists e, stmt_value s = Some e /\ reads_now x e.
Definition stmt_fetches (s : stmt) (r : nat) : Prop := exists e, stmt_value s = Some e /\ fetches r e.

(** Number of times [x] is a component of a target. *)
Fixpoint target_count (x : ident) (t : vartuple) : nat :=
  match t with
  | VTSingle y => if String.eqb x y then 1 else 0
  | VTMult l => fold_right (fun t n => target_count x t + n) 0 l
  end.

Definition stmt_count (x : ident) (s : stmt) : nat :=
  match s with SLet t _ => target_count x t | _ => 0 end.

Definition definitions (x : ident) (l : list stmt) : nat :=
  fold_right (fun s n => stmt_count x s + n) 0 l.

(** Number of statements initialising register [r]. *)
Definition stmt_inits (r : nat) (s : stmt) : nat :=
  match s with SInit r' _ _ => if r' =? r then 1 else 0 | _ => 0 end.

Definition initialisations (r : nat) (l : list stmt) : nat :=
  fold_right (fun s n => stmt_inits r s + n) 0 l.

(** Statement number [i] uses, at the same instant, something that statement
    number [j] computes: a variable it reads outside of any past, or the
    initial value of a register. *)
Definition awaits (l : list stmt) (i j : nat) : Prop :=
  exists si sj, nth_error l i = Some si /\ nth_error l j = Some sj /\
    ((exists x, stmt_reads si x /\ stmt_count x sj <> 0) \/
     (exists r, stmt_fetches si r /\ stmt_inits r sj <> 0)).

(** A nonempty chain of such uses. *)
Inductive awaits_plus (l : list stmt) : nat -> nat -> Prop :=
| ap_one : forall i j, awaits l i j -> awaits_plus l i j
| ap_more : forall i j k, awaits l i j -> awaits_plus l j k -> awaits_plus l i k.

(** The conditions under which the statements of a node can be ordered. *)
Definition orderable (nd : node) : Prop :=
  (forall x, In x (n_inputs nd) -> definitions (v_name x) (n_stmts nd) = 0) /\
  (forall x, In x (n_outputs nd ++ n_locals nd) -> definitions (v_name x) (n_stmts nd) <> 0) /\
  (forall x, definitions x (n_stmts nd) <= 1) /\
  (forall r, initialisations r (n_stmts nd) <= 1) /\
  (forall i, ~ awaits_plus (n_stmts nd) i i).
