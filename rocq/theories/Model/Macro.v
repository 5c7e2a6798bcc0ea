(** * The macro [decl!] and the crate that invokes it:
    [/repo/chandeliers-lus/src/lib.rs], [/repo/chandeliers-lus/src/pipeline.rs]. *)
From Coq Require Import List Arith.
From Verif Require Import Model.Base Model.Surface Model.Parse Model.Pipeline Model.Codegen.
Import ListNotations.

Inductive outcome : Type :=
| SyntaxError
| Outcome (c : compiled).

(** lib.rs:64-86 [decl]: [parse_macro_input!] reports what cannot be parsed, or
    not to its end. *)
Definition macro (uid : nat) (ts : list tok) : outcome :=
  match p_prog ts with
  | Parsed p [] => Outcome (expand uid p)
  | _ => SyntaxError
  end.

(** pipeline.rs:70-93 [new_run_uid]: the number of the invocation is taken once
    its input is parsed, whatever follows. *)
Definition next_uid (uid : nat) (o : outcome) : nat := match o with SyntaxError => uid | Outcome _ => S uid end.
Fixpoint macros (uid : nat) (l : list (list tok)) : list outcome :=
  match l with
  | [] => []
  | ts :: l => let o := macro uid ts in o :: macros (next_uid uid o) l
  end.
