(** * C52: names do not matter. *)
From Coq Require Import String List ZArith Bool.
From Verif Require Import Model.Base Model.Scalar Model.Value Model.Ast Model.Errors Model.Options Model.Surface Model.Interp
  Model.Constexpr Model.Pipeline Spec.RenameSpec Proofs.RenamedMain.
Import ListNotations.
Open Scope string_scope.
Open Scope list_scope.

(** A program is accepted or not whatever its constants, nodes, type variables and, node by node, its variables are called... *)
Theorem c52_verdict : forall n p, faithful n p ->
  (exists l ws, compile p = Expanded (Some l) ws) <-> (exists l ws, compile (renamed_prog n p) = Expanded (Some l) ws).
Proof. exact verdict_r. Qed.
Print Assumptions c52_verdict.

(** ... when accepted it gives the same warnings, its constants have the same values, its nodes give the same outputs
    or the same panic on the same inputs, and so does [main]... *)
Theorem c52_runs : forall n p l ws ext ext', faithful n p -> (forall x, ext' (of_const n x) = ext x) ->
  compile p = Expanded (Some l) ws ->
  exists l', compile (renamed_prog n p) = Expanded (Some l') ws /\
    (forall g, constants ext l = Ok g -> exists g', constants ext' l' = Ok g' /\
       (forall x, g' (of_const n x) = g x) /\
       (forall mode f ins, outputs_on mode g' (nodes_of l') (of_node n f) ins = outputs_on mode g (nodes_of l) f ins) /\
       (forall mode f k fuel, ends (main_fn mode g' (nodes_of l') (of_node n f) k fuel) = ends (main_fn mode g (nodes_of l) f k fuel))) /\
    (forall g', constants ext' l' = Ok g' -> exists g, constants ext l = Ok g).
Proof. exact renamed_runs. Qed.
Print Assumptions c52_runs.

(** ... and when the same name is given to the same variables and constants everywhere, what is rejected is rejected with
    the same errors, in the same order. *)
Theorem c52_diagnostics : forall n p, faithful n p -> (forall f, inside n f = of_const n) ->
  match compile p with
  | Expanded (Some l) ws => exists l', compile (renamed_prog n p) = Expanded (Some l') ws
  | Expanded None es => compile (renamed_prog n p) = Expanded None es
  | Crashed => compile (renamed_prog n p) = Crashed
  end.
Proof. exact diagnostics_r. Qed.
Print Assumptions c52_diagnostics.

(** ** Examples *)
Definition swap (a b x : ident) : ident := if String.eqb x a then b else if String.eqb x b then a else x.
Lemma swap_injective : forall a b, injective (swap a b).
Proof.
  intros a b x y. unfold swap.
  destruct (String.eqb_spec x a), (String.eqb_spec x b), (String.eqb_spec y a), (String.eqb_spec y b); congruence.
Qed.
Lemma then_injective : forall f g, injective f -> injective g -> injective (fun x => g (f x)).
Proof. intros f g F G x y E. auto. Qed.
Definition c52_int (xs : list ident) := (xs, (BInt, CImplicit)).
(**
<<
const k : int = 2;
node add(x, y : int) returns (z : int); var t : int; let t = 0 fby z; z = x + k * t; tel
#[generic[T]] node last(x : T) returns (y : T); let y = x -> pre x; tel
node use(x : int) returns (z : int); let z = add(x, x) - k; tel
>> *)
Definition c52_prog : sprog :=
  [([], XConst "k" BInt (XLit (SLInt 2)));
   ([], XNode (mkSNode "add" [c52_int ["x"; "y"]] [c52_int ["z"]] [c52_int ["t"]]
      [XDef (TVar "t") (XFby (XLit (SLInt 0)) [XVar "z"]);
       XDef (TVar "z") (XBin (XVar "x") [(Add, XBin (XVar "k") [(Mul, XVar "t")])])]));
   ([mkAttr "generic" ["T"] []], XNode (mkSNode "last" [(["x"], (BOther "T", CImplicit))] [(["y"], (BOther "T", CImplicit))] []
      [XDef (TVar "y") (XThen (XVar "x") [XPre (XVar "x")])]));
   ([], XNode (mkSNode "use" [c52_int ["x"]] [c52_int ["z"]] []
      [XDef (TVar "z") (XBin (XCall "add" [XVar "x"; XVar "x"] false) [(Sub, XVar "k")])]))].
(** [k] becomes [t], [add] and [use] exchange their names, [T] becomes [x], and [add] exchanges [x] and [z] and calls [t] [k]. *)
Definition c52_naming : naming :=
  mkNaming (swap "k" "t") (swap "add" "use") (swap "T" "x")
    (fun f => if String.eqb f "add" then fun x => swap "k" "t" (swap "x" "z" x) else if String.eqb f "use" then swap "k" "t" else swap "y" "last").
Definition c52_outputs (p : sprog) (f : ident) (ins : list val) : option (list val) :=
  match compile p with
  | Expanded (Some l) _ =>
      match constants (fun _ => None) l with
      | Ok g => match outputs_on Checked g (nodes_of l) f ins with Ok os => Some os | _ => None end
      | _ => None
      end
  | _ => None
  end.
Example c52_ex : faithful c52_naming c52_prog /\ (exists l ws, compile c52_prog = Expanded (Some l) ws) /\
  (exists rest, map snd (renamed_prog c52_naming c52_prog) =
     XConst "t" BInt (XLit (SLInt 2)) ::
     XNode (mkSNode "use" [c52_int ["z"; "y"]] [c52_int ["x"]] [c52_int ["k"]]
      [XDef (TVar "k") (XFby (XLit (SLInt 0)) [XVar "x"]);
       XDef (TVar "x") (XBin (XVar "z") [(Add, XBin (XVar "t") [(Mul, XVar "k")])])]) :: rest) /\
  c52_outputs c52_prog "use" (map (fun z => VS (Defined (SInt z))) [1; 2; 3]%Z) = Some (map (fun z => VS (Defined (SInt z))) [-1; 2; 9]%Z) /\
  c52_outputs (renamed_prog c52_naming c52_prog) "add" (map (fun z => VS (Defined (SInt z))) [1; 2; 3]%Z) = Some (map (fun z => VS (Defined (SInt z))) [-1; 2; 9]%Z).
Proof.
  split; [|split; [|split; [|split]]].
  - constructor; cbn [c52_naming of_const of_node of_type inside].
    + apply swap_injective.
    + apply swap_injective.
    + apply swap_injective.
    + intros f. destruct (String.eqb f "add"); [apply then_injective; apply swap_injective|]. destruct (String.eqb f "use"); apply swap_injective.
    + intros t. unfold primitive_name, swap. destruct (String.eqb_spec t "T"), (String.eqb_spec t "x"); subst; intuition discriminate.
    + intros a nd i x I J K D. unfold c52_prog in I. repeat (destruct I as [I|I]; [try discriminate I; inversion I; subst; clear I|]); try destruct I;
        cbn in J; repeat (destruct J as [<-|J]); try destruct J; cbn in K; repeat (destruct K as [<-|K]); try destruct K; try reflexivity;
        exfalso; apply D; cbn; auto 10.
  - do 2 eexists. vm_compute. reflexivity.
  - eexists. vm_compute. reflexivity.
  - vm_compute. reflexivity.
  - vm_compute. reflexivity.
Qed.
(** A variable that takes the name of a constant its node reads changes the program. *)
Definition c52_capturing : naming := mkNaming (fun x => x) (fun x => x) (fun x => x) (fun f => if String.eqb f "add" then swap "k" "t" else fun x => x).
Example c52_ex_capture : ~ faithful c52_capturing c52_prog /\ exists e es, compile (renamed_prog c52_capturing c52_prog) = Expanded None (e :: es).
Proof.
  split; [|do 2 eexists; vm_compute; reflexivity].
  intros F. assert (E : inside c52_capturing "add" "k" = of_const c52_capturing "k").
  { change "add" with (s_name (mkSNode "add" [c52_int ["x"; "y"]] [c52_int ["z"]] [c52_int ["t"]]
      [XDef (TVar "t") (XFby (XLit (SLInt 0)) [XVar "z"]);
       XDef (TVar "z") (XBin (XVar "x") [(Add, XBin (XVar "k") [(Mul, XVar "t")])])])).
    eapply (f_free _ _ F); [right; left; reflexivity|right; left; reflexivity|cbn; auto|].
    cbn. intuition discriminate. }
  discriminate.
Qed.
(** A node with [assert x] and a node with [y = x + true] over integers have the same errors with [x] and [y] exchanged. *)
Definition c52_wrong : sprog :=
  [([], XNode (mkSNode "f" [c52_int ["x"]] [c52_int ["y"]] [] [XDef (TVar "y") (XVar "x"); XAssert (XVar "x")]));
   ([], XNode (mkSNode "g" [c52_int ["x"]] [c52_int ["y"]] [] [XDef (TVar "y") (XBin (XVar "x") [(Add, XLit (SLBool true))])]))].
Definition c52_everywhere : naming := mkNaming (swap "x" "y") (swap "f" "g") (fun x => x) (fun _ => swap "x" "y").
Example c52_ex_diagnostics : faithful c52_everywhere c52_wrong /\ exists a b, compile c52_wrong = Expanded None [a; b] /\
  compile (renamed_prog c52_everywhere c52_wrong) = Expanded None [a; b].
Proof.
  split; [|do 2 eexists; split; vm_compute; reflexivity].
  constructor; cbn [c52_everywhere of_const of_node of_type inside]; try tauto; try (intros x y; auto; fail); try (intros; apply swap_injective); auto;
    apply swap_injective.
Qed.
