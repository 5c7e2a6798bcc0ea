(** * Vocabulary for programs compiled separately. *)
From Coq Require Import String List ZArith Bool Arith.
From Verif Require Import Model.Base Model.Ast Model.Options Model.Surface Spec.Static.
Import ListNotations.

Definition extern (d : sdecl) : Prop := match d with XExtConst _ _ | XExtNode _ _ _ => True | _ => False end.

(** [e] is an extern declaration of a constant or node of [lib], with its type,
    or its type parameters and the types of its inputs and outputs. *)
Definition imports (lib : sprog) (e : sattrdecl) : Prop :=
  extern (snd e) /\ exists a, In a lib /\ constant_of e = constant_of a /\ interface_of e = interface_of a.

(** No constant and no node of one program has the name of one of the other. *)
Definition apart (p q : sprog) : Prop :=
  forall a b, In a p -> In b q -> introduces (snd a) <> introduces (snd b).

(** What is compiled: extern declarations produce no code. *)
Definition definitions (l : list decl) : list decl :=
  filter (fun d => match d with DConst _ _ _ _ | DNode _ _ => true | _ => false end) l.
