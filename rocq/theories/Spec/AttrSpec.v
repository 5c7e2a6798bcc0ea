(** * What the attributes of a declaration mean (README, Compilation options). *)
From Coq Require Import String List ZArith Bool.
From Verif Require Import Model.Base Model.Ast Model.Options Model.Surface.
Import ListNotations.
Local Open Scope string_scope.
Local Open Scope list_scope.

(** The effect of one attribute. *)
Inductive effect : Type :=
| Trace (t : trace_opt)
| Export
| Public
| Trait
| Universal
| Main (n : Z)
| Test (n : Z)
| Allow (a : allow)
| Doc (s : string)
| Generic (l : list ident).

Inductive destination : list ident -> trace_file -> Prop :=
| dest_none : destination [] StdOut
| dest_out : destination ["stdout"] StdOut
| dest_err : destination ["stderr"] StdErr.

Inductive formats : list attr_lit -> trace_format * trace_format -> Prop :=
| fmt_none : formats [] (TfDefault, TfDefault)
| fmt_out : forall o, formats [ALStr o] (TfEmpty, TfStr o)
| fmt_both : forall i o, formats [ALStr i; ALStr o] (TfStr i, TfStr o).

(** The well-formed attributes: [#[name[identifiers](literals)]]. *)
Inductive means : attribute -> effect -> Prop :=
| m_trace : forall ps ts d f, destination ps d -> formats ts f -> means (mkAttr "trace" ps ts) (Trace (d, f))
| m_export : means (mkAttr "export" [] []) Export
| m_pub : means (mkAttr "pub" [] []) Public
| m_trait : means (mkAttr "trait" [] []) Trait
| m_universal : means (mkAttr "universal_pre" [] []) Universal
| m_main : means (mkAttr "main" [] []) (Main 100)
| m_main_n : forall n, means (mkAttr "main" [] [ALInt n]) (Main n)
| m_test : means (mkAttr "test" [] []) (Test 100)
| m_test_n : forall n, means (mkAttr "test" [] [ALInt n]) (Test n)
| m_rustc : forall x, means (mkAttr "rustc_allow" [x] []) (Allow (AllowRustc x))
| m_clippy : forall x, means (mkAttr "clippy_allow" [x] []) (Allow (AllowClippy x))
| m_doc : forall s, means (mkAttr "doc" [] [ALStr s]) (Doc s)
| m_generic : forall l, NoDup l -> ~ In "int" l -> ~ In "float" l -> ~ In "bool" l ->
    means (mkAttr "generic" l []) (Generic l).

(** Which attributes each kind of declaration accepts. *)
Inductive applies : sdecl -> effect -> Prop :=
| on_node : forall nd e, applies (XNode nd) e
| on_const_export : forall x t v, applies (XConst x t v) Export
| on_const_pub : forall x t v, applies (XConst x t v) Public
| on_const_doc : forall x t v s, applies (XConst x t v) (Doc s)
| on_const_allow : forall x t v a, applies (XConst x t v) (Allow a)
| on_ext_const_allow : forall x t a, applies (XExtConst x t) (Allow a)
| on_ext_node_trace : forall x i o t, applies (XExtNode x i o) (Trace t)
| on_ext_node_main : forall x i o n, applies (XExtNode x i o) (Main n)
| on_ext_node_allow : forall x i o a, applies (XExtNode x i o) (Allow a)
| on_ext_node_generic : forall x i o l, applies (XExtNode x i o) (Generic l).

(** What a list of effects says about each option: the last value given, or
    everything that was given, in order. *)
Fixpoint latest {A} (l : list A) : option A :=
  match l with
  | [] => None
  | [a] => Some a
  | _ :: l => latest l
  end.
Definition traces (l : list effect) := flat_map (fun e => match e with Trace t => [t] | _ => [] end) l.
Definition mains (l : list effect) := flat_map (fun e => match e with Main n => [n] | _ => [] end) l.
Definition tests (l : list effect) := flat_map (fun e => match e with Test n => [n] | _ => [] end) l.
Definition allows (l : list effect) := flat_map (fun e => match e with Allow a => [a] | _ => [] end) l.
Definition docs (l : list effect) := flat_map (fun e => match e with Doc s => [s] | _ => [] end) l.
Definition generics (l : list effect) := flat_map (fun e => match e with Generic x => x | _ => [] end) l.

(** The options [o] are those given by the effects [l]. *)
Record node_options (l : list effect) (o : node_opts) : Prop := {
  no_trace : o_trace o = latest (traces l);
  no_export : o_export o = true <-> In Export l \/ In Public l;
  no_public : o_public o = true <-> In Public l;
  no_main : o_main o = latest (mains l);
  no_allow : o_allow o = allows l;
  no_doc : o_doc o = docs l;
  no_trait : o_trait o = true <-> In Trait l;
  no_test : o_test o = latest (tests l);
  no_generics : o_generics o = generics l;
  no_universal : o_universal o = true <-> In Universal l
}.
Record const_options (l : list effect) (o : const_opts) : Prop := {
  co_export : oc_export o = true <-> In Export l \/ In Public l;
  co_public : oc_public o = true <-> In Public l;
  co_allow : oc_allow o = allows l;
  co_doc : oc_doc o = docs l
}.
Record ext_node_options (l : list effect) (o : ext_node_opts) : Prop := {
  eo_trace : oe_trace o = latest (traces l);
  eo_main : oe_main o = latest (mains l);
  eo_allow : oe_allow o = allows l;
  eo_generics : oe_generics o = generics l
}.

(** [d] is what becomes of the source declaration [s] with the options given by
    the effects [l]: same name, same kind. *)
Inductive carries (l : list effect) : sdecl -> decl -> Prop :=
| carries_node : forall sn o nd, node_options l o -> n_name nd = s_name sn -> carries l (XNode sn) (DNode o nd)
| carries_const : forall x t v o e, const_options l o -> carries l (XConst x t v) (DConst o x t e)
| carries_ext_const : forall x t o, ox_allow o = allows l -> carries l (XExtConst x t) (DExtConst o x t)
| carries_ext_node : forall x i o' o vi vo, ext_node_options l o ->
    carries l (XExtNode x i o') (DExtNode o x vi vo).

(** The declaration [d] is the source declaration with its attributes applied. *)
Definition attributed (a : sattrdecl) (d : decl) : Prop := exists es,
  Forall2 means (fst a) es /\ Forall (applies (snd a)) es /\ carries es (snd a) d.

(** The number of steps fits in a machine word. *)
Definition countable (e : effect) : Prop :=
  match e with Main n | Test n => (0 <= n <= 2 ^ 64 - 1)%Z | _ => True end.

(** The same option is given twice, or [test] is combined with [main],
    [export] or [pub]. *)
Definition option_of (e : effect) : nat :=
  match e with
  | Trace _ => 0 | Export => 1 | Public => 2 | Trait => 3 | Universal => 4 | Main _ => 5 | Test _ => 6
  | Allow _ => 7 | Doc _ => 8 | Generic _ => 9
  end.
Definition single (e : effect) : bool := match e with Allow _ | Doc _ | Generic _ => false | _ => true end.
Definition is_test (e : effect) : bool := match e with Test _ => true | _ => false end.
Definition against_test (e : effect) : bool := match e with Main _ | Export | Public => true | _ => false end.

(** Two attributes that do not go together. *)
Inductive clash : effect -> effect -> Prop :=
| clash_same : forall e e', single e = true -> option_of e = option_of e' -> clash e e'
| clash_export_pub : clash Export Public
| clash_pub_export : clash Public Export
| clash_test : forall e e', is_test e = true -> against_test e' = true -> clash e e'
| clash_with_test : forall e e', against_test e = true -> is_test e' = true -> clash e e'.

(** [#[test(n)]] with an explicit number. *)
Definition test_with_count (a : attribute) : Prop := a_action a = "test" /\ a_targets a <> [].
