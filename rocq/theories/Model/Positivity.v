(** * Temporal depth: [/repo/chandeliers-san/src/positivity.rs]. *)
From Coq Require Import String List ZArith Bool Arith.
From Verif Require Import Model.Base Model.Scalar Model.Ast Model.Errors Model.Interp.
Import ListNotations.

(** positivity.rs:16-21: the depths observed so far, latest first. *)
Definition depths := list (ident * nat).

(** positivity.rs:47-56 *)
Definition depth_update (x : ident) (d : nat) (m : depths) : depths :=
  match lookup x m with
  | Some old => if d <=? old then m else (x, d) :: m
  | None => (x, d) :: m
  end.

(** positivity.rs:153-234, 247-273; [cur] is [current]. *)
Fixpoint pos (e : expr) (cur : nat) (m : depths) {struct e} : out depths :=
  match e with
  | ELit _ | EGlobal _ => done m
  | EVar x d => if d <=? cur then done (depth_update x d m) else fail ENotPositive
  | ETuple l =>
      (fix go (l : list expr) (m : depths) {struct l} : out depths :=
         match l with
         | [] => done m
         | e :: l => m <~ pos e cur m;; go l m
         end) l m
  | EPre e | EParen e | EUn _ e => pos e cur m
  | EBin _ a b | ECmp _ a b => m <~ pos a cur m;; pos b cur m
  | EIf c a b => m <~ pos c cur m;; m <~ pos a cur m;; pos b cur m
  | ELater delay a b => m <~ pos a cur m;; pos b (delay + 1) m
  | EFlip _ a b => m <~ pos a cur m;; pos b (cur + 1) m
  | ESub _ _ args => pos args cur m
  | EClock _ inner act => m <~ pos act cur m;; pos inner cur m
  | EMerge c a b => m <~ pos c cur m;; m <~ pos a cur m;; pos b cur m
  | EFetch _ (Some init) next => m <~ pos init cur m;; pos next cur m
  | EFetch _ None next =>
      match cur with
      | S cur => pos next cur m
      | 0 => fail EShallowPre
      end
  end.

(** Name for the local loop of [ETuple]. *)
Fixpoint poss (l : list expr) (cur : nat) (m : depths) : out depths :=
  match l with
  | [] => done m
  | e :: l => m <~ pos e cur m;; poss l cur m
  end.

(** positivity.rs:137-150 *)
Definition pos_stmt (i : stmt) (m : depths) : out depths :=
  match i with
  | SLet _ e | SAssert e => pos e 0 m
  | SUpdate _ _ | SInit _ _ _ => done m
  end.

Fixpoint pos_stmts (l : list stmt) (m : depths) : out depths :=
  match l with
  | [] => done m
  | i :: l => m <~ pos_stmt i m;; pos_stmts l m
  end.

Definition set_depth (m : depths) (v : tyvar) : tyvar :=
  mkVar (v_name v) (v_base v) (v_clk v) (match lookup (v_name v) m with Some d => d | None => 0 end).

(** positivity.rs:117-135 *)
Definition pos_node (nd : node) : out node :=
  m <~ pos_stmts (n_stmts nd) [];;
  done (mkNode (n_name nd) (map (set_depth m) (n_inputs nd)) (map (set_depth m) (n_outputs nd))
          (map (set_depth m) (n_locals nd)) (n_blocks nd) (n_stmts nd) (n_regs nd) (n_flips nd)).

(** positivity.rs:98-115 *)
Definition pos_decl (d : decl) : out decl :=
  match d with
  | DNode o nd => nd <~ pos_node nd;; done (DNode o nd)
  | d => done d
  end.

Definition positivity (l : list decl) : out (list decl) := omap pos_decl l.
