(** * Claims about programs compiled separately (C46). *)
From Coq Require Import String List ZArith Bool Arith Permutation.
From Verif Require Import Model.Base Model.Scalar Model.Value Model.Ast Model.Errors Model.Interp Model.Options Model.Surface Model.Pipeline
  Spec.BehaviourSpec Spec.Static Spec.LinkSpec Proofs.Link.
Import ListNotations.

(** A library and a client that are accepted separately, the client with extern
    declarations of nodes and constants of the library, are accepted together
    without these declarations; the code is the same, and behaves the same as the
    code of the client put together with that of the library. *)
Theorem c46_linked : forall lib imp cli l1 l2, (forall e, In e imp -> imports lib e) -> apart lib cli ->
  result (pipeline lib) = Some l1 -> result (pipeline (imp ++ cli)) = Some l2 ->
  exists l, result (pipeline (lib ++ cli)) = Some l /\ Permutation (definitions l) (definitions (l1 ++ l2)) /\
    same_behaviour (nodes_of l) (nodes_of l2 ++ nodes_of l1).
Proof. exact linked_behaviour. Qed.
Print Assumptions c46_linked.

(** Conversely a program can be cut in two: what a part uses of a part that does
    not depend on it can be declared as extern. *)
Theorem c46_separated : forall lib imp cli l, (forall e, In e imp -> imports lib e) -> apart lib cli ->
  NoDup (map (fun e => introduces (snd e)) imp) -> (forall e, In e imp -> exists x, result (pipeline [e]) = Some x) ->
  (forall a b, In a lib -> In b cli -> mentions (snd b) (introduces (snd a)) -> exists e, In e imp /\ introduces (snd e) = introduces (snd a)) ->
  result (pipeline (lib ++ cli)) = Some l -> exists l2, result (pipeline (imp ++ cli)) = Some l2.
Proof. intros lib imp cli l Im Ap Ni Ei Us H. exact (separated lib imp cli Im Ap Ni Us l H Ei). Qed.
Print Assumptions c46_separated.

(**
<<
const k : int = 2;
#[export] #[generic[T]] node pair(x, y : T; c : bool) returns (z : T); let z = if c then x else hold(y); tel
#[generic[T]] node hold(x : T) returns (y : T); let y = x fby x; tel
>>
<<
extern const k : int;
#[generic[T]] extern node pair(a : T; b : T; choice : bool) returns (r : T);
node count(c : bool) returns (n : int); let n = pair(k, 1 fby n + k, c); tel
>> *)
Open Scope string_scope.
Open Scope list_scope.
Definition c46_generic := mkAttr "generic" ["T"] [].
Definition c46_pair : sattrdecl :=
  ([mkAttr "export" [] []; c46_generic],
   XNode (mkSNode "pair" [(["x"; "y"], (BOther "T", CImplicit)); (["c"], (BBool, CImplicit))] [(["z"], (BOther "T", CImplicit))] []
     [XDef (TVar "z") (XIf (XVar "c") (XVar "x") (XCall "hold" [XVar "y"] false))])).
Definition c46_hold : sattrdecl :=
  ([c46_generic],
   XNode (mkSNode "hold" [(["x"], (BOther "T", CImplicit))] [(["y"], (BOther "T", CImplicit))] []
     [XDef (TVar "y") (XFby (XVar "x") [XVar "x"])])).
Definition c46_lib : sprog := [([], XConst "k" BInt (XLit (SLInt 2))); c46_pair; c46_hold].
Definition c46_imp (last : base) : sprog :=
  [([], XExtConst "k" BInt);
   ([c46_generic], XExtNode "pair" [(["a"], (BOther "T", CImplicit)); (["b"], (BOther "T", CImplicit)); (["choice"], (last, CImplicit))]
      [(["r"], (BOther "T", CImplicit))])].
Definition c46_count : sattrdecl :=
  ([], XNode (mkSNode "count" [(["c"], (BBool, CImplicit))] [(["n"], (BInt, CImplicit))] []
     [XDef (TVar "n") (XCall "pair" [XVar "k"; XFby (XLit (SLInt 1)) [XBin (XVar "n") [(Scalar.Add, XVar "k")]]; XVar "c"] false)])).

Example c46_ex_parts : (forall e, In e (c46_imp BBool) -> imports c46_lib e) /\ apart c46_lib [c46_count] /\
  (exists l1, result (pipeline c46_lib) = Some l1 /\ length (nodes_of l1) = 2) /\
  (exists l2, result (pipeline (c46_imp BBool ++ [c46_count])) = Some l2 /\ length (nodes_of l2) = 1).
Proof.
  split; [|split; [|split; eexists; split; vm_compute; reflexivity]].
  - intros e [<-|[<-|[]]]; (split; [exact I|]); [exists ([], XConst "k" BInt (XLit (SLInt 2)))|exists c46_pair]; cbn; auto.
  - intros a b [<-|[<-|[<-|[]]]] [<-|[]]; discriminate.
Qed.
Example c46_ex_together : exists l, result (pipeline (c46_lib ++ [c46_count])) = Some l /\ length (nodes_of l) = 3.
Proof.
  destruct c46_ex_parts as (Im & Ap & (l1 & H1 & N1) & l2 & H2 & N2). destruct (c46_linked _ _ _ _ _ Im Ap H1 H2) as (l & H & _ & _).
  exists l. split; auto. revert H. vm_compute. intros H. inversion H. reflexivity.
Qed.
(** With another interface the parts can be accepted and the whole refused. *)
Definition c46_wrong : sattrdecl :=
  ([], XNode (mkSNode "count" [(["c"], (BInt, CImplicit))] [(["n"], (BInt, CImplicit))] []
     [XDef (TVar "n") (XCall "pair" [XVar "k"; XFby (XLit (SLInt 1)) [XVar "n"]; XVar "c"] false)])).
Example c46_ex_interface : (exists l2, result (pipeline (c46_imp BInt ++ [c46_wrong])) = Some l2) /\
  result (pipeline (c46_lib ++ [c46_wrong])) = None.
Proof. split; [eexists|]; vm_compute; reflexivity. Qed.
(** The other direction. *)
Example c46_ex_separated : exists l2, result (pipeline (c46_imp BBool ++ [c46_count])) = Some l2.
Proof.
  destruct c46_ex_together as (l & H & _). destruct c46_ex_parts as (Im & Ap & _).
  refine (c46_separated _ _ _ _ Im Ap _ _ _ H).
  - repeat constructor; cbn; intuition discriminate.
  - intros e [<-|[<-|[]]]; eexists; vm_compute; reflexivity.
  - intros a b [<-|[<-|[<-|[]]]] [<-|[]] (e & [<-|[]] & M); cbn in M.
    + exists ([], XExtConst "k" BInt). cbn. auto.
    + eexists. split; [right; left; reflexivity|reflexivity].
    + destruct M as [M|[]]. discriminate.
Qed.
