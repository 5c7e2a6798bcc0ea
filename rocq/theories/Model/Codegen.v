(** * Where code generation can abort: [/repo/chandeliers-san/src/codegen].

    The generated code itself is modelled by [Interp], [Constexpr] and [Names].
    Here are the identifiers and literals created for it, which can panic in
    [proc_macro2] and [syn], and the [abort!]s.
    Simplifications: the types given to the parameters of called nodes
    (mod.rs:437-455) are not listed (they are types of the caller);
    [assert_used] is left out (each option is read on every path). *)
From Coq Require Import String Ascii List ZArith Bool Arith.
From Coq Require Import Floats.SpecFloat.
From Verif Require Import Model.Base Model.Scalar Model.Ast Model.Errors Model.Options Model.Surface Model.Pipeline Model.Names.
Import ListNotations.
Local Open Scope string_scope.
Local Open Scope list_scope.

(** ** [proc_macro2::Ident] *)

(** The characters of identifiers. Simplification: all non-ASCII characters
    count as letters. *)
Definition letter (c : ascii) : bool :=
  let n := N_of_ascii c in
  ((65 <=? n) && (n <=? 90) || (97 <=? n) && (n <=? 122) || (n =? 95) || (128 <=? n))%N%bool.
Definition letter_or_digit (c : ascii) : bool :=
  let n := N_of_ascii c in (letter c || (48 <=? n) && (n <=? 57))%N%bool.
Fixpoint all_chars (f : ascii -> bool) (s : string) : bool :=
  match s with EmptyString => true | String c s => f c && all_chars f s end.
Definition is_ident (s : string) : bool :=
  match s with EmptyString => false | String c s => letter c && all_chars letter_or_digit s end.

(** An identifier to create: [Ident::new] or [Ident::new_raw]. *)
Inductive request : Type := Plain (s : string) | Raw (s : string).
(** They panic on a string that is not an identifier ([r#x] is not one), and
    [new_raw] on those that have no raw form. *)
Definition creatable (r : request) : bool :=
  match r with
  | Plain s => is_ident s
  | Raw s => is_ident s && negb (existsb (String.eqb s) ["_"; "self"; "Self"; "super"; "crate"])
  end.

(** ** Identifiers *)

(** mod.rs:87-106: types *)
Definition base_requests (b : base) : list request := match b with BOther t => [Plain t] | _ => [] end.
Fixpoint ty_requests (t : ty) : list request :=
  match t with TSingle b => base_requests b | TMult l => flat_map ty_requests l end.

(** mod.rs:936-962, 1077-1165; a register read is only a number. *)
Fixpoint expr_requests (uid : nat) (e : expr) : list request :=
  match e with
  | ELit _ | EFetch _ _ _ => []
  | EVar x _ => [Plain (local_id x)]
  | EGlobal x => [Plain (global_id uid x)]
  | ETuple l => flat_map (expr_requests uid) l
  | EPre e | EParen e | EUn _ e | ESub _ _ e => expr_requests uid e
  | EBin _ a b | ECmp _ a b | EClock _ a b | ELater _ a b | EFlip _ a b => expr_requests uid a ++ expr_requests uid b
  | EIf a b c | EMerge a b c => expr_requests uid a ++ expr_requests uid b ++ expr_requests uid c
  end.
(** mod.rs:1049-1071 *)
Fixpoint target_requests (t : vartuple) : list request :=
  match t with VTSingle x => [Plain (local_id x)] | VTMult l => flat_map target_requests l end.
(** mod.rs:1009-1046 *)
Definition option_requests (uid : nat) (o : option expr) : list request :=
  match o with Some e => expr_requests uid e | None => [] end.
Definition stmt_requests (uid : nat) (i : stmt) : list request :=
  match i with
  | SLet t e => target_requests t ++ expr_requests uid e
  | SAssert e | SUpdate _ e => expr_requests uid e
  | SInit _ v c => option_requests uid v ++ option_requests uid c
  end.

(** mod.rs:128-154, 738-755: inputs and outputs *)
Definition interface_requests (l : list tyvar) : list request :=
  flat_map (fun v => Plain (local_id (v_name v)) :: base_requests (v_base v)) l.
(** mod.rs:792-799, 964-972, 996-1007: stored variables *)
Definition stored_requests (l : list tyvar) : list request :=
  interface_requests (filter (fun v => Nat.ltb 0 (v_depth v)) l).
(** mod.rs:757-766, options.rs:83-131: traces *)
Definition trace_requests (o : option trace_opt) (l : list tyvar) : list request :=
  match o with
  | Some _ => flat_map (fun v => [Plain (local_id (v_name v)); Raw (v_name v)]) l
  | None => []
  end.

(** mod.rs:286-333, 353-380, 416-435, 437-681, 813-889, options.rs:144-215, 253-275.
    The external name is created even if it is not used. *)
Definition requests (uid : nat) (d : decl) : list request :=
  match d with
  | DConst _ x t e => [Raw x; Plain (global_id uid x)] ++ expr_requests uid e ++ base_requests t
  | DExtConst _ x t => [Raw x; Plain (global_id uid x)] ++ base_requests t
  | DNode o nd =>
      [Raw (n_name nd); Plain (node_id uid (n_name nd))] ++
      interface_requests (n_inputs nd ++ n_outputs nd) ++ stored_requests (n_locals nd) ++
      map Raw (o_generics o) ++ map (fun f => Plain (node_id uid f)) (n_blocks nd) ++
      flat_map (fun r => match r with Some t => ty_requests t | None => [] end) (n_regs nd) ++
      trace_requests (o_trace o) (n_inputs nd ++ n_locals nd ++ n_outputs nd) ++
      flat_map (stmt_requests uid) (n_stmts nd)
  | DExtNode o x i o' =>
      [Raw x; Plain (node_id uid x)] ++ interface_requests (i ++ o') ++ map Raw (oe_generics o) ++
      trace_requests (oe_trace o) (i ++ o')
  end.

(** ** Literals and aborts *)

(** constexpr.rs:106-123: [LitFloat::new] panics on ["inff64"]; a value is never
    NaN since it comes from a literal. *)
Definition lit_renders (l : lit) : bool :=
  match l with LFloat (S754_infinity _) | LFloat S754_nan => false | _ => true end.
Fixpoint expr_renders (e : expr) : bool :=
  match e with
  | ELit l => lit_renders l
  | EVar _ _ | EGlobal _ | EFetch _ _ _ => true
  | ETuple l => forallb expr_renders l
  | EPre e | EParen e | EUn _ e | ESub _ _ e => expr_renders e
  | EBin _ a b | ECmp _ a b | EClock _ a b | ELater _ a b | EFlip _ a b => expr_renders a && expr_renders b
  | EIf a b c | EMerge a b c => expr_renders a && expr_renders b && expr_renders c
  end.
Definition option_renders (o : option expr) : bool := match o with Some e => expr_renders e | None => true end.
(** mod.rs:1031-1033: the clock of a register must be known. *)
Definition stmt_renders (i : stmt) : bool :=
  match i with
  | SLet _ e | SAssert e | SUpdate _ e => expr_renders e
  | SInit _ v c => option_renders v && match c with Some c => expr_renders c | None => false end
  end.
(** constexpr.rs:52-104, 125-136 *)
Fixpoint const_renders (e : expr) : bool :=
  match e with
  | ELit l => lit_renders l
  | EGlobal _ => true
  | EPre e | EParen e | EUn _ e => const_renders e
  | EBin _ a b | ECmp _ a b => const_renders a && const_renders b
  | ETuple l => forallb const_renders l
  | EIf a b c => const_renders a && const_renders b && const_renders c
  | EVar _ _ | ELater _ _ _ | EFlip _ _ _ | ESub _ _ _ | EMerge _ _ _ | EClock _ _ _ | EFetch _ _ _ => false
  end.
(** mod.rs:722-735: the type of a register must be known. *)
Definition renders (d : decl) : bool :=
  match d with
  | DConst _ _ _ e => const_renders e
  | DNode _ nd => forallb (fun r => match r with Some _ => true | None => false end) (n_regs nd) && forallb stmt_renders (n_stmts nd)
  | DExtConst _ _ _ | DExtNode _ _ _ _ => true
  end.

(** ** The macro *)

(** syn/src/translate/options.rs:423-440: [Ident::new] on the lint to allow.
    Simplification: attributes are interpreted in order, and one that is wrong in
    another way before this one is reported instead; here the abort comes first. *)
Definition allows (a : attribute) : bool :=
  if (String.eqb (a_action a) "rustc_allow" || String.eqb (a_action a) "clippy_allow")%bool then
    match a_params a, a_targets a with [x], [] => is_ident x | _, _ => true end
  else true.

(** lus/src/lib.rs:64-86 with the rendering of the declarations, in the
    invocation number [uid] *)
Definition expand (uid : nat) (p : sprog) : compiled :=
  if forallb (fun a => forallb allows (fst a)) p then
    match compile p with
    | Expanded (Some l) ws =>
        if forallb (fun d => forallb creatable (requests uid d) && renders d) l then Expanded (Some l) ws else Crashed
    | r => r
    end
  else Crashed.
