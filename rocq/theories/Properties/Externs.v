(** * Claims about programs with extern nodes at run time (C48). *)
From Coq Require Import String List ZArith Bool Arith.
From Verif Require Import Model.Base Model.Scalar Model.Value Model.Ast Model.Errors Model.Interp Model.Options Model.Surface Model.Pipeline Model.Extern
  Spec.StepSpec Spec.ProgramSem Spec.UniversalSem Spec.TypeSpec Spec.SafetySpec Spec.Static Spec.LinkSpec Spec.ExternSem Proofs.Externs Proofs.ExternLink Proofs.ExternTypes
  Properties.Translation Properties.Linking.
Import ListNotations.
Local Open Scope list_scope.
Open Scope string_scope.
Open Scope list_scope.

(** Whatever the extern nodes do, the outputs of a node are those that its
    equations give, an extern node being asked once at each instant where its
    first input is present, with this input and nothing else. *)
Theorem c48_sound : forall mode glob ext p l f ins outs, result (pipeline p) = Some l ->
  xoutputs mode glob ext (items_of l) f ins = Ok outs -> xmeans mode glob ext p f ins outs.
Proof. exact extern_program_sound. Qed.
Print Assumptions c48_sound.

(** All the nodes of an accepted program have an initial state. *)
Theorem c48_init : forall p l, result (pipeline p) = Some l -> forall a f, In a p -> introduces (snd a) = Node f ->
  exists i, xinit (items_of l) f = Ok i.
Proof. exact accepted_init. Qed.
Print Assumptions c48_init.

(** Without extern nodes this is the execution that the other claims are about. *)
Theorem c48_closed : forall mode glob ext p l, result (pipeline p) = Some l -> closed p -> forall f ins,
  xoutputs mode glob ext (items_of l) f ins = outputs mode glob (nodes_of l) f ins.
Proof. exact closed_outputs. Qed.
Print Assumptions c48_closed.

(** A client whose extern nodes are the nodes of a library compiled apart gives
    the same outputs, and fails at the same instants with the same errors, as the
    library and the client compiled together. *)
Theorem c48_linked : forall lib imp cli l1 l2 l, (forall e, In e imp -> imports lib e) -> apart lib cli -> closed lib -> closed cli ->
  result (pipeline lib) = Some l1 -> result (pipeline (imp ++ cli)) = Some l2 -> result (pipeline (lib ++ cli)) = Some l ->
  forall mode glob a f, In a (imp ++ cli) -> introduces (snd a) = Node f -> forall ins,
  xoutputs mode glob (answers_of mode glob (nodes_of l1)) (items_of l2) f ins = outputs mode glob (nodes_of l) f ins.
Proof. exact linked_outputs. Qed.
Print Assumptions c48_linked.

(** If the extern nodes answer values of the declared types to inputs of the
    declared types, or fail as nodes may, then so does the program. *)
Theorem c48_typed : forall mode glob ext p l, result (pipeline p) = Some l -> default_mode p -> constants_ok p glob -> externs_ok p ext ->
  forall sn, In sn (source_nodes p) -> forall theta ins, Forall (of_type theta (declared_type (s_inputs sn))) ins ->
  match xoutputs mode glob ext (items_of l) (s_name sn) ins with
  | Ok outs => Forall (of_type theta (declared_type (s_outputs sn))) outs
  | Panic e => e = POverflow \/ e = PDivZero \/ e = PAssert \/ e = PAssertNil
  end.
Proof. exact default_extern_safe. Qed.
Print Assumptions c48_typed.

(** [total], written elsewhere, adds up what it receives:
<<
extern node total(x : int) returns (s : int);
node main(a : int; c : bool) returns (n : int);
let n = merge c (total(a when c)) ((0 fby total(a)) when not c); tel
>> *)
Definition c48_int (v : val) : Z := match v with VS (Defined (SInt z)) => z | _ => 0 end.
Definition c48_total (f : ident) : behaviour := fun past v =>
  if String.eqb f "total" then Ok (VS (Defined (SInt (fold_right Z.add (c48_int v) (map c48_int past))))) else Panic PType.
Definition c48_src : sprog :=
  [([], XExtNode "total" [on_ ["x"] BInt] [on_ ["s"] BInt]);
   ([], XNode (mkSNode "main" [on_ ["a"] BInt; on_ ["c"] BBool] [on_ ["n"] BInt] []
     [def_ "n" (XMerge (x_ "c") (XCall "total" [XClock (x_ "a") [(true, x_ "c")]] false)
        (XClock (XParen [XFby (i_ 0) [XCall "total" [x_ "a"] false]] false) [(false, x_ "c")]))]))].
Definition c48_in (a : Z) (c : bool) : val := VT [VS (Defined (SInt a)); VS (Defined (SBool c))].
Definition c48_ins : list val := [c48_in 1 true; c48_in 10 false; VT [VS Nil; VS Nil]; c48_in 100 true; c48_in 1000 false].
Definition c48_outs : list val := [VS (Defined (SInt 1)); VS (Defined (SInt 1)); VS Nil; VS (Defined (SInt 101)); VS (Defined (SInt 111))].

Example c48_ex_run : exists l, result (pipeline c48_src) = Some l /\ ~ closed c48_src /\
  xoutputs Checked (fun _ => None) c48_total (items_of l) "main" c48_ins = Ok c48_outs.
Proof.
  eexists. split; [vm_compute; reflexivity|]. split; [|vm_compute; reflexivity].
  intros C. eapply C. left. reflexivity.
Qed.
Example c48_ex_means : xmeans Checked (fun _ => None) c48_total c48_src "main" c48_ins c48_outs.
Proof. destruct c48_ex_run as (l & H & _ & R). exact (c48_sound _ _ _ _ _ _ _ _ H R). Qed.
Example c48_ex_typed : default_mode c48_src /\ constants_ok c48_src (fun _ => None) /\ externs_ok c48_src c48_total /\
  Forall (of_type (fun _ => TInt) (TMult [TSingle BInt; TSingle BBool])) c48_ins.
Proof.
  split; [intros a sn [E|[E|[]]]; inversion E; subst; cbn; tauto|].
  split; [intros x t (a & [(e & [E|[E|[]]])|[E|[E|[]]]]); discriminate|]. split.
  - intros a x i o [E|[E|[]]]; inversion E; subst. intros theta past v _ _. cbn. eexists. split; [reflexivity|]. reflexivity.
  - repeat (constructor; [eexists; split; [reflexivity|repeat constructor; eexists; (split; [reflexivity|]); exact I || reflexivity]|]). constructor.
Qed.
(** Nothing is asked of [total] at absent instants. *)
Example c48_ex_absent : exists l, result (pipeline c48_src) = Some l /\
  xoutputs Checked (fun _ => None) (fun _ _ _ => Panic PAssert) (items_of l) "main" [VT [VS Nil; VS Nil]; VT [VS Nil; VS Nil]] = Ok [VS Nil; VS Nil] /\
  xoutputs Checked (fun _ => None) (fun _ _ _ => Panic PAssert) (items_of l) "main" [VT [VS Nil; VS Nil]; c48_in 1 true] = Panic PAssert.
Proof. eexists. split; [vm_compute; reflexivity|]. split; vm_compute; reflexivity. Qed.

(** The library and the client of [Linking.v]. *)
Definition c48_k (x : ident) : option scalar := if String.eqb x "k" then Some (SInt 2) else None.
Definition c48_bools : list val := map (fun b => VS (Defined (SBool b))) [true; false; false; true; false].
Definition c48_both : list decl :=
  Eval vm_compute in match result (pipeline (c46_lib ++ [c46_count])) with Some l => l | None => [] end.
Example c48_ex_linked : exists l1 l2 l,
  result (pipeline c46_lib) = Some l1 /\ result (pipeline (c46_imp BBool ++ [c46_count])) = Some l2 /\
  result (pipeline (c46_lib ++ [c46_count])) = Some l /\ closed c46_lib /\ closed [c46_count] /\
  xoutputs Checked c48_k (answers_of Checked c48_k (nodes_of l1)) (items_of l2) "count" c48_bools =
    outputs Checked c48_k (nodes_of l) "count" c48_bools /\
  outputs Checked c48_k (nodes_of l) "count" c48_bools = Ok (map (fun z => VS (Defined (SInt z))) [2; 1; 4; 2; 6]%Z).
Proof.
  destruct c46_ex_parts as (Im & Ap & (l1 & H1 & _) & l2 & H2 & _). destruct c46_ex_together as (l & H & _).
  assert (C1 : closed c46_lib) by (intros a x i o [E|[E|[E|[]]]]; discriminate).
  assert (C2 : closed [c46_count]) by (intros a x i o [E|[]]; discriminate).
  exists l1, l2, l. split; auto. split; auto. split; auto. split; auto. split; auto. split.
  - apply (c48_linked _ _ _ _ _ _ Im Ap C1 C2 H1 H2 H _ _ c46_count); [cbn; auto|reflexivity].
  - clear - H. assert (E : result (pipeline (c46_lib ++ [c46_count])) = Some c48_both) by (vm_compute; reflexivity).
    assert (l = c48_both) by congruence. subst l. vm_compute. reflexivity.
Qed.
