(** * Claims about whole programs (C26, C44). *)
From Coq Require Import String List ZArith Bool Arith Permutation.
From Verif Require Import Model.Base Model.Scalar Model.Value Model.Ast Model.Errors
  Model.Options Model.Interp Model.Surface Model.Translate Model.Constexpr Model.Pipeline
  Spec.ProgramSem Spec.BehaviourSpec
  Proofs.DeclRuns Proofs.ConstOrder Proofs.Interface Properties.Steps Properties.Translation.
Import ListNotations.
Local Open Scope string_scope.
Local Open Scope list_scope.

(** ** C26 *)

(** Executable nodes have neither inputs nor outputs: the loop around them has
    nothing to provide and nothing to read. *)
Theorem c26_interface : forall p l a s x, result (pipeline p) = Some l -> In (a, s) p ->
  In x a -> a_action x = "main" \/ a_action x = "test" ->
  match s with
  | XNode sn => declared (s_inputs sn) = [] /\ declared (s_outputs sn) = []
  | XExtNode _ i o => declared i = [] /\ declared o = []
  | _ => False
  end.
Proof. exact main_interface. Qed.
Print Assumptions c26_interface.

(** [#[main(3)] extern node m() returns (); #[test] node f() returns (); var y : int; let y = 1; tel] *)
Definition exec_src (outs locs : sdecls) : sprog :=
  [([mkAttr "main" [] [ALInt 3]], XExtNode "m" [] []);
   ([attr_ "test"], XNode (mkSNode "f" [] outs locs [def_ "y" (i_ 1)]))].
Example c26_interface_ex : (exists l, result (pipeline (exec_src [] [on_ ["y"] BInt])) = Some l) /\
  result (pipeline (exec_src [on_ ["y"] BInt] [])) = None.
Proof. split; [eexists|]; vm_compute; reflexivity. Qed.

(** ** C44 *)

(** A program remains accepted when its declarations are written in another
    order; the code of each declaration is the same, and so is what it does. *)
Theorem c44_declarations : forall p p' l, Permutation p p' -> result (pipeline p) = Some l ->
  exists l', result (pipeline p') = Some l' /\ Permutation l l' /\ same_behaviour (nodes_of l) (nodes_of l').
Proof. exact order_irrelevant. Qed.
Print Assumptions c44_declarations.

(** The constants have the same values too. *)
Theorem c44_constants : forall p p' l l', result (pipeline p) = Some l -> result (pipeline p') = Some l' -> Permutation l l' ->
  forall ext g, constants ext l = Ok g -> exists g', constants ext l' = Ok g' /\ forall x, g' x = g x.
Proof. exact constants_permuted. Qed.
Print Assumptions c44_constants.

(** [const a : int = b * 2; const b : int = c + 1; extern const c : int;] with [c] equal to 4, and the same in reverse. *)
Definition c44_a : sattrdecl := ([], XConst "a" BInt (XBin (x_ "b") [(Mul, i_ 2)])).
Definition c44_b : sattrdecl := ([], XConst "b" BInt (XBin (x_ "c") [(Add, i_ 1)])).
Definition c44_c : sattrdecl := ([], XExtConst "c" BInt).
Definition c44_value (p : sprog) (x : ident) : option scalar :=
  match result (pipeline p) with
  | Some l => match constants (fun x => if String.eqb x "c" then Some (SInt 4) else None) l with Ok g => g x | _ => None end
  | None => None
  end.
Example c44_ex_constants : map (c44_value [c44_a; c44_b; c44_c]) ["a"; "b"; "c"] = map Some [SInt 10; SInt 5; SInt 4]%Z /\
  map (c44_value [c44_c; c44_a; c44_b]) ["a"; "b"; "c"] = map Some [SInt 10; SInt 5; SInt 4]%Z.
Proof. split; vm_compute; reflexivity. Qed.

(**
<<
node c() returns (n : int); let n = a() + b(); tel
node a() returns (n : int); let n = 0 fby n + k; tel
node b() returns (n : int); let n = a() * k; tel
const k : int = 2;
>> *)
Definition decl_c : sattrdecl := ([], XNode (mkSNode "c" [] [on_ ["n"] BInt] [] [def_ "n" (XBin (XCall "a" [] false) [(Add, XCall "b" [] false)])])).
Definition decl_a : sattrdecl := ([], XNode (mkSNode "a" [] [on_ ["n"] BInt] [] [def_ "n" (XFby (i_ 0) [XBin (x_ "n") [(Add, x_ "k")]])])).
Definition decl_b : sattrdecl := ([], XNode (mkSNode "b" [] [on_ ["n"] BInt] [] [def_ "n" (XBin (XCall "a" [] false) [(Mul, x_ "k")])])).
Definition decl_k : sattrdecl := ([], XConst "k" BInt (i_ 2)).
Example c44_ex : exists l l', result (pipeline [decl_c; decl_a; decl_b; decl_k]) = Some l /\ result (pipeline [decl_k; decl_b; decl_c; decl_a]) = Some l' /\
  Permutation [decl_c; decl_a; decl_b; decl_k] [decl_k; decl_b; decl_c; decl_a] /\
  map n_name (nodes_of l) = ["c"; "b"; "a"] /\
  (i <- init_inst (nodes_of l') "c";; '(os, _) <- run Checked (fun x => if String.eqb x "k" then Some (SInt 2) else None) (nodes_of l') "c" i [VS (Defined SUnit); VS (Defined SUnit)];; Ok os) = Ok (map vint [0; 6]%Z).
Proof.
  do 2 eexists. split; [vm_compute; reflexivity|]. split; [vm_compute; reflexivity|]. split; [|split; vm_compute; reflexivity].
  apply Permutation_sym. apply (Permutation_cons_app [decl_c; decl_a; decl_b] [] decl_k). cbn.
  apply (Permutation_cons_app [decl_c; decl_a] [] decl_b). cbn. apply Permutation_refl.
Qed.
