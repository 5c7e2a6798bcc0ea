(** * Claims about the names of the generated code (C28). *)
From Coq Require Import String List ZArith Bool Arith Lia.
From Verif Require Import Model.Base Model.Scalar Model.Ast Model.Errors Model.Options Model.Surface Model.Pipeline Model.Names
  Spec.NamesSpec Proofs.Names Properties.Translation.
Import ListNotations.
Local Open Scope list_scope.

(** The nodes and constants of all the programs of a crate become distinct items. *)
Theorem c28_items : forall ps, NoDup (map (fun ud => internal (fst ud) (snd ud)) (generated ps)).
Proof. exact (fun ps => internal_distinct ps 0). Qed.
Print Assumptions c28_items.

(** The code of a program refers to its own nodes and constants. *)
Theorem c28_references : forall ps u d, In (u, d) (generated ps) -> forall it, In it (refers u d) ->
  exists d', In (u, d') (generated ps) /\ internal u d' = it.
Proof. exact (fun ps => references_inside ps 0). Qed.
Print Assumptions c28_references.

(** The fields of each structure are distinct. *)
Theorem c28_fields : forall ps u d, In (u, d) (generated ps) -> NoDup (fields d).
Proof. exact (fun ps => fields_distinct ps 0). Qed.
Print Assumptions c28_fields.

(** The variables of a node become distinct names, which are neither those of
    items nor those of the other names bound by the generated code. *)
Theorem c28_locals : forall ps u d v,
  let vars d := match d with DNode _ nd => n_inputs nd ++ n_outputs nd ++ n_locals nd | DExtNode _ _ ins outs => ins ++ outs | _ => [] end in
  In (u, d) (generated ps) -> In v (vars d) ->
  (forall w, In w (vars d) -> local_id (v_name w) = local_id (v_name v) -> w = v) /\
  (forall u' d', In (u', d') (generated ps) -> snd (internal u' d') <> local_id (v_name v)) /\
  ~ In (local_id (v_name v)) reserved.
Proof. exact (fun ps => locals_apart ps 0). Qed.
Print Assumptions c28_locals.

(** With precautions, the names visible in the crate do not interfere with them:
    all the items are distinct, no bound name is that of a constant, no type
    parameter is the name of another type and no item that of a type of Rust. *)
Theorem c28_visible_partial : forall ps, cautious (generated ps) ->
  NoDup (flat_map (fun ud => items (fst ud) (snd ud)) (generated ps)) /\
  (forall u d u' d' b, In (u, d) (generated ps) -> In (u', d') (generated ps) -> In b (binders d) -> ~ In b (const_names u' d')) /\
  (forall u d t, In (u, d) (generated ps) -> In t rust_types \/ In (Types, t) (refers u d) -> ~ In t (params d)) /\
  (forall u d t, In (u, d) (generated ps) -> In t rust_types -> ~ In (Types, t) (items u d)).
Proof. exact (fun ps Ca => conj (items_distinct ps 0 Ca) (conj (binders_free ps 0 Ca) (conj (types_free ps 0 Ca) (rust_free ps 0 Ca)))). Qed.
Print Assumptions c28_visible_partial.

(** Two programs with the same names:
<<
#[export] const k : int = 3;
#[trace][export] node f(x : int) returns (y : int); let y = 0 -> pre x + k; tel
#[test(3)] node t() returns (); let assert f(1) >= 0; tel

const k : int = 4;
node f__lus_0() returns (y : int); let y = k; tel
node f() returns (y : int); let y = f__lus_0(); tel
>> *)
Definition names_a : sprog :=
  [([attr_ "export"], XConst "k" BInt (i_ 3));
   ([attr_ "trace"; attr_ "export"], XNode (mkSNode "f" [on_ ["x"] BInt] [on_ ["y"] BInt] []
      [def_ "y" (XThen (i_ 0) [XBin (XPre (x_ "x")) [(Add, x_ "k")]])]));
   ([mkAttr "test" [] [ALInt 3]], XNode (mkSNode "t" [] [] [] [XAssert (XCmp (XCall "f" [i_ 1] false) [(Ge, i_ 0)])]))]%string.
Definition names_b : sprog :=
  [([], XConst "k" BInt (i_ 4));
   ([], XNode (mkSNode "f__lus_0" [] [on_ ["y"] BInt] [] [def_ "y" (x_ "k")]));
   ([], XNode (mkSNode "f" [] [on_ ["y"] BInt] [] [def_ "y" (XCall "f__lus_0" [] false)]))]%string.
Example c28_ex : cautious (generated [names_a; names_b]) /\
  map (fun ud => items (fst ud) (snd ud)) (generated [names_a; names_b]) =
  [[(Values, "k__lus_0_global"); (Values, "k")];
   [(Types, "f__lus_0_node"); (Types, "f")];
   [(Types, "t__lus_0_node"); (Values, "t")];
   [(Values, "k__lus_1_global")];
   [(Types, "f__lus_0__lus_1_node")];
   [(Types, "f__lus_1_node")]]%string.
Proof.
  assert (E : exists g, generated [names_a; names_b] = g /\ cautious g) ; [|destruct E as (g & <- & C); split; [exact C|vm_compute; reflexivity]].
  eexists. split; [vm_compute; reflexivity|]. apply cautious_check. vm_compute. reflexivity.
Qed.

(** Without these precautions the names collide.  Two declarations with a common item:
<<
node f() returns (); let tel
#[export] node f__lus_0_node() returns (); let tel

#[main(1)] node f() returns (); let tel
#[main(1)] node g() returns (); let tel

#[export] const k : int = 1;
#[test(1)] node k() returns (); let tel
>> *)
Definition unit_node (f : string) : sdecl := XNode (mkSNode f [] [] [] []).
Definition collide (p : sprog) : Prop := exists u d d' it,
  In (u, d) (generated [p]) /\ In (u, d') (generated [p]) /\ internal u d <> internal u d' /\ In it (items u d) /\ In it (items u d').
Theorem c28_items_refuted :
  collide [([], unit_node "f"); ([attr_ "export"], unit_node "f__lus_0_node")]%string /\
  collide [([mkAttr "main" [] [ALInt 1]], unit_node "f"); ([mkAttr "main" [] [ALInt 1]], unit_node "g")]%string /\
  collide [([attr_ "export"], XConst "k" BInt (i_ 1)); ([mkAttr "test" [] [ALInt 1]], unit_node "k")]%string.
Proof.
  repeat split; eexists; eexists; eexists.
  - exists (Types, "f__lus_0_node"%string). split; [vm_compute; left; reflexivity|]. split; [vm_compute; right; left; reflexivity|].
    split; [vm_compute; discriminate|]. split; vm_compute; auto.
  - exists (Values, "main"%string). split; [vm_compute; left; reflexivity|]. split; [vm_compute; right; left; reflexivity|].
    split; [vm_compute; discriminate|]. split; vm_compute; auto.
  - exists (Values, "k"%string). split; [vm_compute; left; reflexivity|]. split; [vm_compute; right; left; reflexivity|].
    split; [vm_compute; discriminate|]. split; vm_compute; auto.
Qed.
Print Assumptions c28_items_refuted.

(** A bound name that is a constant:
<<
#[export] const inputs : int = 1;
node f() returns (); let tel

#[export] const x : int = 1;
#[trace] node f(x : int) returns (); let tel
>> *)
Definition bind_constant (p : sprog) : Prop := exists u d d' b,
  In (u, d) (generated [p]) /\ In (u, d') (generated [p]) /\ In b (binders d) /\ In b (const_names u d').
Theorem c28_binders_refuted :
  bind_constant [([attr_ "export"], XConst "inputs" BInt (i_ 1)); ([], unit_node "f")]%string /\
  bind_constant [([attr_ "export"], XConst "x" BInt (i_ 1)); ([attr_ "trace"], XNode (mkSNode "f" [on_ ["x"] BInt] [] [] []))]%string.
Proof.
  split; eexists; eexists; eexists.
  - exists "inputs"%string. split; [vm_compute; right; left; reflexivity|]. split; [vm_compute; left; reflexivity|].
    split; vm_compute; auto.
  - exists "x"%string. split; [vm_compute; right; left; reflexivity|]. split; [vm_compute; left; reflexivity|].
    split; vm_compute; auto 10.
Qed.
Print Assumptions c28_binders_refuted.

(** A type parameter that takes the place of a type of Rust:
<<
#[generic[usize]] node f(x : usize) returns (y : usize); let y = x; tel
>> *)
Theorem c28_types_refuted : exists p u d t, In (u, d) (generated [p]) /\ In t rust_types /\ In t (params d).
Proof.
  exists [([mkAttr "generic" ["usize"] []], XNode (mkSNode "f" [on_ ["x"] (BOther "usize")] [on_ ["y"] (BOther "usize")] [] [def_ "y" (x_ "x")]))]%string.
  eexists. eexists. exists "usize"%string. split; [vm_compute; left; reflexivity|]. split; vm_compute; auto.
Qed.
Print Assumptions c28_types_refuted.
