(** * The sequence of passes: [/repo/chandeliers-lus/src/pipeline.rs] and
    [/repo/chandeliers-lus/src/lib.rs]. *)
From Coq Require Import String List ZArith Bool Arith.
From Verif Require Import Model.Base Model.Scalar Model.Ast Model.Errors Model.Interp Model.Graph
  Model.Surface Model.Translate Model.Causality Model.Typecheck Model.Clockcheck Model.Positivity.
Import ListNotations.

(** pipeline.rs:127-135 *)
Definition causality (l : list decl) : out (list decl) :=
  match prog_causality l with
  | inl l => done l
  | inr GraphAbort => Abort
  | inr _ => fail ECausality
  end.

(** The passes on the analysis AST: pipeline.rs:179-199, lib.rs:93-100. *)
Definition analyse (l : list decl) : out (list decl) :=
  l <~ causality l;;
  l <~ typecheck l;;
  l <~ clockcheck l;;
  positivity l.

(** lib.rs:89-102 [prog_pipeline], up to code generation. *)
Definition pipeline (p : sprog) : out (list decl) :=
  l <~ tr_prog p;;
  analyse l.

(** What the macro shows to the user: the generated code if any, and the
    diagnostics emitted. *)
Inductive compiled : Type :=
| Expanded (code : option (list decl)) (emitted : list error)
| Crashed.

(** lib.rs:64-86 [decl] *)
Definition compile (p : sprog) : compiled :=
  match pipeline p with
  | Abort => Crashed
  | Out (Some l) es ws => Expanded (Some l) ws
  | Out None es ws => match es with [] => Crashed | _ => Expanded None es end
  end.

(** The executable nodes, latest first (see [Interp.prog]). *)
Definition nodes_of (l : list decl) : prog :=
  rev (flat_map (fun d => match d with DNode _ nd => [nd] | _ => [] end) l).
