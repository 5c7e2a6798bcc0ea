(** * When the names of a crate do not interfere. *)
From Coq Require Import String List.
From Verif Require Import Model.Base Model.Ast Model.Options Model.Surface Model.Names.
Import ListNotations.
Local Open Scope string_scope.
Local Open Scope list_scope.

(** The mark of the generated names does not appear. *)
Definition plain (x : string) : Prop := forall a b, x <> (a ++ "__lus_" ++ b)%string.

(** Constants of the surrounding code: exported, or declared extern. *)
Definition exposes (d : decl) (x : ident) : Prop :=
  match d with
  | DConst o y _ _ => oc_export o = true /\ x = y
  | DExtConst _ y _ => x = y
  | _ => False
  end.

(** The variables printed by a trace *)
Definition traced (d : decl) : list ident :=
  match d with
  | DNode o nd => match o_trace o with Some _ => map v_name (n_inputs nd ++ n_locals nd ++ n_outputs nd) | None => [] end
  | DExtNode o _ ins outs => match oe_trace o with Some _ => map v_name (ins ++ outs) | None => [] end
  | _ => []
  end.

Definition reserved : list string :=
  ["inputs"; "initial"; "continued"; "sys"; "real"; "expected"; "_ext"; "_this"; "_clk"].

(** The precautions that avoid interferences: *)
Record cautious (l : list (nat * decl)) : Prop := mkCautious {
  (** the visible names do not contain the mark, *)
  ca_items : forall u d s x, In (u, d) l -> In (s, x) (visible d) -> plain x;
  ca_consts : forall u d x, In (u, d) l -> exposes d x -> plain x;
  ca_vars : forall u d x, In (u, d) l -> In x (traced d) -> plain x;
  ca_params : forall u d x, In (u, d) l -> In x (params d) -> plain x;
  (** they are distinct, *)
  ca_distinct : NoDup (flat_map (fun ud => visible (snd ud)) l);
  (** no constant has a reserved name or the name of a traced variable, *)
  ca_reserved : forall u d x, In (u, d) l -> exposes d x -> ~ In x reserved;
  ca_traced : forall u d u' d' x, In (u, d) l -> In (u', d') l -> exposes d x -> ~ In x (traced d');
  (** and no node or type parameter has the name of a type of Rust. *)
  ca_types : forall u d x, In (u, d) l -> In (Types, x) (visible d) -> ~ In x rust_types;
  ca_rust : forall u d x, In (u, d) l -> In x (params d) -> ~ In x rust_types
}.
