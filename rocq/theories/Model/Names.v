(** * Names in the generated code: [/repo/chandeliers-san/src/codegen/mod.rs],
    [/repo/chandeliers-san/src/codegen/options.rs] and
    [/repo/chandeliers-lus/src/pipeline.rs].

    Only the names are modelled here: the items that each declaration becomes,
    the fields of their structures, the names bound in their code and the names
    their code refers to.  [r#x] and [x] are the same name for rustc. *)
From Coq Require Import String List ZArith Bool Arith DecimalString DecimalNat.
From Verif Require Import Model.Base Model.Scalar Model.Ast Model.Errors Model.Options Model.Surface Model.Pipeline.
Import ListNotations.
Local Open Scope string_scope.
Local Open Scope list_scope.

(** Rust's formatting of [usize] *)
Definition decimal (n : nat) : string := NilEmpty.string_of_uint (Nat.to_uint n).

(** mod.rs:241-278 [AsIdent<SanitizedIdent>] for nodes, constants and variables *)
Definition node_id (uid : nat) (x : ident) : string := (x ++ "__lus_" ++ decimal uid ++ "_node")%string.
Definition global_id (uid : nat) (x : ident) : string := (x ++ "__lus_" ++ decimal uid ++ "_global")%string.
Definition local_id (x : ident) : string := (x ++ "__lus_local")%string.

(** The two namespaces of items: structures are in the first, constants and
    functions in the second. *)
Inductive space : Type := Types | Values.
Definition item : Type := space * string.

(** mod.rs:316, 367, 497, 846: the item that a declaration stands for in
    the invocation [uid]. *)
Definition internal (uid : nat) (d : decl) : item :=
  match d with
  | DConst _ x _ _ | DExtConst _ x _ => (Values, global_id uid x)
  | DNode _ nd => (Types, node_id uid (n_name nd))
  | DExtNode _ x _ _ => (Types, node_id uid x)
  end.

(** options.rs:144-173 *)
Definition main_item (o : option Z) : list item := match o with Some _ => [(Values, "main")] | None => [] end.

(** mod.rs:306-330, 653-676, options.rs:144-215: the other items. *)
Definition visible (d : decl) : list item :=
  match d with
  | DConst o x _ _ => if oc_export o then [(Values, x)] else []
  | DExtConst _ _ _ => []
  | DNode o nd =>
      (if o_export o then [(Types, n_name nd)] else []) ++
      main_item (o_main o) ++
      (match o_test o with Some _ => [(Values, n_name nd)] | None => [] end)
  | DExtNode o _ _ _ => main_item (oe_main o)
  end.

Definition items (uid : nat) (d : decl) : list item := internal uid d :: visible d.

(** The constants among the items; those of the code around the program have
    the names given in the declarations (mod.rs:358-372). *)
Definition const_names (uid : nat) (d : decl) : list string :=
  match d with
  | DConst o x _ _ => global_id uid x :: (if oc_export o then [x] else [])
  | DExtConst _ x _ => [global_id uid x; x]
  | _ => []
  end.

(** mod.rs:497-510, 846-849: the fields of the internal structure *)
Definition fields (d : decl) : list string :=
  match d with
  | DNode _ nd =>
      ["__clock"; "__phantom"] ++
      map (fun v => local_id (v_name v)) (filter (fun v => Nat.ltb 0 (v_depth v)) (n_inputs nd ++ n_outputs nd ++ n_locals nd)) ++
      ["__nodes"; "__flips"; "__regs"]
  | DExtNode _ _ _ _ => ["inner"; "__clock"]
  | _ => []
  end.

(** options.rs:88-131, mod.rs:757-766: the names bound by a trace *)
Definition trace_binders (o : option trace_opt) (vars : list tyvar) : list string :=
  match o with Some _ => ["_ext"; "_this"; "_clk"] ++ map v_name vars | None => [] end.

(** options.rs:161, 200 *)
Definition run_binders (o : option Z) : list string := match o with Some _ => ["sys"] | None => [] end.

(** The names bound by the patterns of the generated code: mod.rs:369-370,
    589-598, 867-877, 997-1007, 1145-1146.  In Rust the name of a constant
    cannot be bound. Simplification: the macros of candle.rs are not expanded. *)
Definition binders (d : decl) : list string :=
  match d with
  | DConst _ _ _ _ => []
  | DExtConst _ _ _ => ["real"; "expected"]
  | DNode o nd =>
      let vars := n_inputs nd ++ n_locals nd ++ n_outputs nd in
      ["inputs"] ++ map (fun v => local_id (v_name v)) vars ++
      (match n_flips nd with 0 => [] | S _ => ["initial"; "continued"] end) ++
      trace_binders (o_trace o) vars ++ run_binders (o_main o) ++ run_binders (o_test o)
  | DExtNode o _ ins outs =>
      ["inputs"] ++ map (fun v => local_id (v_name v)) (ins ++ outs) ++
      trace_binders (oe_trace o) (ins ++ outs) ++ run_binders (oe_main o)
  end.

(** mod.rs:936-949, 1077-1165, constexpr.rs:52-104: the constants that the code of an
    expression names *)
Fixpoint expr_globals (e : expr) : list ident :=
  match e with
  | ELit _ | EVar _ _ => []
  | EGlobal x => [x]
  | ETuple l => flat_map expr_globals l
  | EPre e | EParen e | EUn _ e | ESub _ _ e => expr_globals e
  | EBin _ a b | ECmp _ a b | EClock _ a b | ELater _ a b | EFlip _ a b => expr_globals a ++ expr_globals b
  | EIf a b c | EMerge a b c => expr_globals a ++ expr_globals b ++ expr_globals c
  | EFetch _ _ _ => []
  end.

(** mod.rs:997-1040 *)
Definition stmt_globals (s : stmt) : list ident :=
  match s with
  | SLet _ e | SAssert e | SUpdate _ e => expr_globals e
  | SInit _ v c =>
      (match c with Some e => expr_globals e | None => [] end) ++
      (match v with Some e => expr_globals e | None => [] end)
  end.

(** The internal items that the code of a declaration refers to: mod.rs:306,
    437-455, 497, 665, 846, 941-946, options.rs:161, 200. *)
Definition refers (uid : nat) (d : decl) : list item :=
  match d with
  | DConst o x _ e =>
      (if oc_export o then [(Values, global_id uid x)] else []) ++
      map (fun x => (Values, global_id uid x)) (expr_globals e)
  | DExtConst _ _ _ => []
  | DNode o nd =>
      (Types, node_id uid (n_name nd)) ::
      map (fun f => (Types, node_id uid f)) (n_blocks nd) ++
      map (fun x => (Values, global_id uid x)) (flat_map stmt_globals (n_stmts nd))
  | DExtNode _ x _ _ => [(Types, node_id uid x)]
  end.

(** The invocations of the macro in a crate: each one takes the next number
    (pipeline.rs:71-91), even if it generates no code. Simplification: the
    counter does not overflow, and all the code is in one module. *)
Fixpoint crate (uid : nat) (ps : list sprog) : list (nat * decl) :=
  match ps with
  | [] => []
  | p :: ps =>
      map (pair uid) (match result (pipeline p) with Some l => l | None => [] end) ++
      crate (S uid) ps
  end.
Definition generated (ps : list sprog) : list (nat * decl) := crate 0 ps.

(** mod.rs:87-99, 497-505, 575-590, options.rs:230-255: the type parameters of
    the structure, and the types of Rust named without a path. *)
Definition params (d : decl) : list ident :=
  match d with
  | DNode o _ => o_generics o
  | DExtNode o _ _ _ => oe_generics o
  | _ => []
  end.
Definition rust_types : list string := ["usize"; "i64"; "f64"; "bool"; "Default"].
