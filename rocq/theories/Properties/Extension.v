(** * Claims about programs and parts of them (C53). *)
From Coq Require Import String List ZArith Bool Arith Permutation.
From Verif Require Import Model.Base Model.Scalar Model.Value Model.Ast Model.Errors
  Model.Options Model.Interp Model.Surface Model.Translate Model.Constexpr Model.Pipeline
  Spec.Static Proofs.Extension Properties.Steps Properties.Translation Properties.Declarations.
Import ListNotations.
Local Open Scope string_scope.
Local Open Scope list_scope.

(** Declarations that the others do not mention can be removed: what remains is
    accepted. *)
Theorem c53_removed : forall q p rest m, Permutation q (p ++ rest) ->
  (forall a b, In a p -> In b rest -> ~ mentions (snd a) (introduces (snd b))) ->
  result (pipeline q) = Some m -> exists l, result (pipeline p) = Some l.
Proof. exact unused_removed. Qed.
Print Assumptions c53_removed.

(** Whatever else a program contains, the code generated for its declarations is
    the same. *)
Theorem c53_code : forall p q l m, incl p q ->
  result (pipeline p) = Some l -> result (pipeline q) = Some m -> incl l m.
Proof. exact accepted_incl. Qed.
Print Assumptions c53_code.

(** And so is what it does: values of constants, initial states, outputs, states
    and failures of nodes, main function. *)
Theorem c53_runs : forall p q l m, incl p q ->
  result (pipeline p) = Some l -> result (pipeline q) = Some m ->
  forall ext g', constants ext m = Ok g' ->
  exists g, constants ext l = Ok g /\
    (forall a x, In a p -> introduces (snd a) = Constant x -> g x = g' x) /\
    (forall a f, In a p -> introduces (snd a) = Node f ->
       init_inst (nodes_of l) f = init_inst (nodes_of m) f /\
       (forall mode i ins, run mode g (nodes_of l) f i ins = run mode g' (nodes_of m) f i ins) /\
       (forall mode k fuel, main_fn mode g (nodes_of l) f k fuel = main_fn mode g' (nodes_of m) f k fuel)).
Proof. exact extended_runs. Qed.
Print Assumptions c53_runs.

(** Around the program of [c44_ex]:
<<
node d() returns (n : int); let n = c() + h; tel
const h : int = k * 5;
>> *)
Definition decl_d : sattrdecl := ([], XNode (mkSNode "d" [] [on_ ["n"] BInt] [] [def_ "n" (XBin (XCall "c" [] false) [(Add, x_ "h")])])).
Definition decl_h : sattrdecl := ([], XConst "h" BInt (XBin (x_ "k") [(Mul, i_ 5)])).
Definition c53_out (p : sprog) (f : ident) : option (list val) :=
  match result (pipeline p) with
  | Some l =>
      match g <- constants (fun _ => None) l;;
            i <- init_inst (nodes_of l) f;; run Checked g (nodes_of l) f i [VS (Defined SUnit); VS (Defined SUnit)] with
      | Ok (os, _) => Some os
      | _ => None
      end
  | None => None
  end.
Example c53_ex : let p := [decl_c; decl_a; decl_b; decl_k] in let q := [decl_d; decl_c; decl_a; decl_h; decl_b; decl_k] in
  Permutation q (p ++ [decl_d; decl_h]) /\ incl p q /\
  (forall a b, In a p -> In b [decl_d; decl_h] -> ~ mentions (snd a) (introduces (snd b))) /\
  c53_out p "c" = Some (map vint [0; 6]%Z) /\ c53_out q "c" = Some (map vint [0; 6]%Z) /\ c53_out q "d" = Some (map vint [10; 16]%Z) /\
  result (pipeline [decl_d; decl_c; decl_a; decl_b; decl_k]) = None.
Proof.
  intros p q. split; [|split; [|split; [|repeat split; vm_compute; reflexivity]]].
  - unfold q. cbn [p app]. apply (Permutation_cons_app [decl_c; decl_a; decl_b; decl_k] [decl_h] decl_d). cbn. do 2 apply perm_skip.
    apply (Permutation_cons_app [decl_b; decl_k] [] decl_h). cbn. apply Permutation_refl.
  - intros a. unfold p, q. cbn. tauto.
  - intros a b A B (e & J & K). unfold p in A. cbn [In] in A, B.
    destruct B as [<-|[<-|[]]]; destruct A as [<-|[<-|[<-|[<-|[]]]]]; cbn in J, K;
      repeat match goal with H : _ \/ _ |- _ => destruct H as [<-|H] end; cbn in K; intuition discriminate.
Qed.
