(** * Attributes of declarations.

    [/repo/chandeliers-syn/src/translate/options.rs] turns the attributes
    [#[action[params](targets)]] written before a declaration into the options
    of [/repo/chandeliers-san/src/ast/options.rs]. *)
From Coq Require Import String List ZArith Bool.
From Verif Require Import Model.Base Model.Scalar Model.Errors.
Import ListNotations.

(** ast/options.rs:287-314 *)
Inductive trace_file : Type := StdOut | StdErr.
Inductive trace_format : Type := TfDefault | TfEmpty | TfStr (s : string).
Definition trace_opt : Type := trace_file * (trace_format * trace_format).
Inductive allow : Type := AllowRustc (x : ident) | AllowClippy (x : ident).

(** ast/options.rs:427-430: the options of each kind of declaration.
    Simplification: the record of the passes that read each option
    ([UseOpt::usage]) is not modelled. *)
Record node_opts : Type := mkNodeOpts {
  o_trace : option trace_opt;
  o_export : bool;
  o_public : bool;
  o_main : option Z;
  o_allow : list allow;
  o_doc : list string;
  o_trait : bool;
  o_test : option Z;
  o_generics : list ident;
  o_universal : bool
}.
Record ext_node_opts : Type := mkExtNodeOpts {
  oe_trace : option trace_opt;
  oe_main : option Z;
  oe_allow : list allow;
  oe_generics : list ident
}.
Record const_opts : Type := mkConstOpts {
  oc_export : bool;
  oc_public : bool;
  oc_allow : list allow;
  oc_doc : list string
}.
Record ext_const_opts : Type := mkExtConstOpts { ox_allow : list allow }.

(** options.rs:43-127 [SetOpt]: the value if it was set.  The default, the
    message and the position are not stored. *)
Definition setopt (A : Type) : Type := option A.
Definition push {A} (o : setopt (list A)) (a : A) : setopt (list A) :=
  match o with Some l => Some (l ++ [a]) | None => Some [a] end.
Definition extend {A} (o : setopt (list A)) (l' : list A) : setopt (list A) :=
  match o with Some l => Some (l ++ l') | None => Some l' end.
Definition take {A} (default : A) (o : setopt A) : A :=
  match o with Some a => a | None => default end.
(** options.rs:115-125 *)
Definition skip {A} (o : setopt A) : out unit :=
  match o with Some _ => fail EInapplicableAttribute | None => done tt end.

(** options.rs:130-154 [Decl] *)
Record decl_opts : Type := mkDeclOpts {
  d_trace : setopt (option trace_opt);
  d_export : setopt bool;
  d_public : setopt bool;
  d_main : setopt (option Z);
  d_test : setopt (option Z);
  d_allow : setopt (list allow);
  d_doc : setopt (list string);
  d_trait : setopt bool;
  d_generics : setopt (list ident);
  d_universal : setopt bool
}.
(** options.rs:153-169 *)
Definition no_opts : decl_opts := mkDeclOpts None None None None None None None None None None.

(** options.rs:193-233 [for_const], [for_node], [for_ext_const], [for_ext_node] *)
Definition for_const (d : decl_opts) : out const_opts :=
  _ <~ skip (d_trace d);; _ <~ skip (d_main d);; _ <~ skip (d_trait d);; _ <~ skip (d_test d);;
  _ <~ skip (d_generics d);; _ <~ skip (d_universal d);;
  done (mkConstOpts (take false (d_export d)) (take false (d_public d)) (take [] (d_allow d)) (take [] (d_doc d))).

Definition for_node (d : decl_opts) : out node_opts :=
  done (mkNodeOpts (take None (d_trace d)) (take false (d_export d)) (take false (d_public d))
          (take None (d_main d)) (take [] (d_allow d)) (take [] (d_doc d)) (take false (d_trait d))
          (take None (d_test d)) (take [] (d_generics d)) (take false (d_universal d))).

Definition for_ext_const (d : decl_opts) : out ext_const_opts :=
  _ <~ skip (d_trace d);; _ <~ skip (d_export d);; _ <~ skip (d_main d);; _ <~ skip (d_doc d);;
  _ <~ skip (d_public d);; _ <~ skip (d_trait d);; _ <~ skip (d_test d);; _ <~ skip (d_generics d);;
  _ <~ skip (d_universal d);;
  done (mkExtConstOpts (take [] (d_allow d))).

Definition for_ext_node (d : decl_opts) : out ext_node_opts :=
  _ <~ skip (d_export d);; _ <~ skip (d_doc d);; _ <~ skip (d_public d);; _ <~ skip (d_trait d);;
  _ <~ skip (d_test d);; _ <~ skip (d_universal d);;
  done (mkExtNodeOpts (take None (d_trace d)) (take None (d_main d)) (take [] (d_allow d)) (take [] (d_generics d))).

(** Literals in the arguments of an attribute. *)
Inductive attr_lit : Type := ALStr (s : string) | ALInt (z : Z) | ALOther.

(** ast.rs (chandeliers-syn) [Attribute], after [flatten]. *)
Record attribute : Type := mkAttr {
  a_action : ident;
  a_params : list ident;       (* between brackets *)
  a_targets : list attr_lit    (* between parentheses *)
}.

(** [usize] on a 64-bit target; a literal between parentheses may carry a sign. *)
Definition is_usize (z : Z) : bool := ((0 <=? z) && (z <=? 2 ^ 64 - 1))%Z.

(** options.rs:257-278 [duplicate!] *)
Definition duplicate {A} (o : setopt A) : out unit :=
  match o with Some _ => warn EWarnDuplicate | None => done tt end.
(** options.rs:281-303 [conflicting!] *)
Definition conflicting {A} (other : setopt A) : out unit :=
  match other with Some _ => warn EWarnConflict | None => done tt end.

(** options.rs:453-478: the checks on one [#[generic[...]]] attribute. *)
Fixpoint check_generics (already types : list ident) : out unit :=
  match types with
  | [] => done tt
  | t :: types =>
      if (String.eqb t "int" || String.eqb t "float" || String.eqb t "bool")%bool then fail EMalformedAttribute
      else if existsb (String.eqb t) already then fail EMalformedAttribute
      else check_generics (t :: already) types
  end.

(** options.rs:236-487 [with].
    Simplification: [syn::Ident::new] on the argument of [rustc_allow] is left out;
    it aborts on raw identifiers only, see [Codegen.allows]. *)
Definition with_attr (d : decl_opts) (a : attribute) : out decl_opts :=
  let '(mkDeclOpts tr ex pu ma te al do ti ge un) := d in
  let action := a_action a in
  let params := a_params a in
  let targets := a_targets a in
  if String.eqb action "trace" then
    dest <~ match params with
            | [] => done StdOut
            | [p] => if String.eqb p "stdout" then done StdOut
                     else if String.eqb p "stderr" then done StdErr
                     else fail EMalformedAttribute
            | _ => fail EMalformedAttribute
            end;;
    format <~ match targets with
              | [] => done (TfDefault, TfDefault)
              | [ALStr o] => done (TfEmpty, TfStr o)
              | [ALStr i; ALStr o] => done (TfStr i, TfStr o)
              | _ => fail EMalformedAttribute
              end;;
    _ <~ duplicate tr;;
    done (mkDeclOpts (Some (Some (dest, format))) ex pu ma te al do ti ge un)
  else if String.eqb action "export" then
    match params, targets with
    | [], [] =>
        _ <~ conflicting te;; _ <~ duplicate ex;;
        done (mkDeclOpts tr (Some true) pu ma te al do ti ge un)
    | _, _ => fail EMalformedAttribute
    end
  else if String.eqb action "pub" then
    match params, targets with
    | [], [] =>
        _ <~ conflicting te;; _ <~ duplicate pu;; _ <~ duplicate ex;;
        done (mkDeclOpts tr (Some true) (Some true) ma te al do ti ge un)
    | _, _ => fail EMalformedAttribute
    end
  else if String.eqb action "trait" then
    match params, targets with
    | [], [] => _ <~ duplicate ti;; done (mkDeclOpts tr ex pu ma te al do (Some true) ge un)
    | _, _ => fail EMalformedAttribute
    end
  else if String.eqb action "universal_pre" then
    match params, targets with
    | [], [] => _ <~ duplicate un;; done (mkDeclOpts tr ex pu ma te al do ti ge (Some true))
    | _, _ => fail EMalformedAttribute
    end
  else if String.eqb action "main" then
    match params, targets with
    | [], [] =>
        _ <~ conflicting te;; _ <~ duplicate ma;;
        done (mkDeclOpts tr ex pu (Some (Some 100%Z)) te al do ti ge un)
    | [], [ALInt i] =>
        _ <~ conflicting te;; _ <~ duplicate ma;;
        if is_usize i then done (mkDeclOpts tr ex pu (Some (Some i)) te al do ti ge un) else Abort
    | _, _ => fail EMalformedAttribute
    end
  else if String.eqb action "test" then
    match params, targets with
    | [], [] =>
        _ <~ conflicting ma;; _ <~ conflicting pu;; _ <~ conflicting ex;; _ <~ duplicate te;;
        done (mkDeclOpts tr ex pu ma (Some (Some 100%Z)) al do ti ge un)
    | [], [ALInt i] =>
        _ <~ conflicting ma;; _ <~ duplicate te;;
        if is_usize i then done (mkDeclOpts tr ex pu ma (Some (Some i)) al do ti ge un) else Abort
    | _, _ => fail EMalformedAttribute
    end
  else if String.eqb action "rustc_allow" then
    match params, targets with
    | [x], [] => done (mkDeclOpts tr ex pu ma te (push al (AllowRustc x)) do ti ge un)
    | _, _ => fail EMalformedAttribute
    end
  else if String.eqb action "clippy_allow" then
    match params, targets with
    | [x], [] => done (mkDeclOpts tr ex pu ma te (push al (AllowClippy x)) do ti ge un)
    | _, _ => fail EMalformedAttribute
    end
  else if String.eqb action "doc" then
    match params, targets with
    | [], [ALStr s] => done (mkDeclOpts tr ex pu ma te al (push do s) ti ge un)
    | _, _ => fail EMalformedAttribute
    end
  else if String.eqb action "generic" then
    match targets with
    | [] => _ <~ check_generics [] params;; done (mkDeclOpts tr ex pu ma te al do ti (extend ge params) un)
    | _ => fail EMalformedAttribute
    end
  else fail EMalformedAttribute.

(** translate/mod.rs:325-343 [AttrDecl]: attributes are applied from the
    outermost (first written) to the innermost. *)
Fixpoint with_attrs (d : decl_opts) (l : list attribute) : out decl_opts :=
  match l with
  | [] => done d
  | a :: l => d <~ with_attr d a;; with_attrs d l
  end.
