(** * Replacing nodes, removing assertions. *)
From Coq Require Import String List ZArith Bool.
From Verif Require Import Model.Base Model.Scalar Model.Value Model.Ast Model.Interp Model.Surface
  Spec.StepSpec Spec.SurfaceSem Spec.ProgramSem Spec.SettledSem.
Import ListNotations.

(** The equations of [b] are satisfied, whatever the nodes that they call do,
    with the inputs and outputs that satisfy those of [a]. *)
Definition solutions_kept (mode : ovf) (glob : ident -> option scalar) (a b : snode) : Prop :=
  forall (F : ident -> list val -> val -> Prop) (N : ident -> val -> Prop) ins outs,
    node_settles mode glob F N a ins outs -> node_settles mode glob F N b ins outs.

(** The same statements, without some of the assertions. *)
Inductive fewer_asserts : list sstmt -> list sstmt -> Prop :=
| fa_nil : fewer_asserts [] []
| fa_keep : forall i l l', fewer_asserts l l' -> fewer_asserts (i :: l) (i :: l')
| fa_drop : forall e l l', fewer_asserts l l' -> fewer_asserts (XAssert e :: l) l'.

Inductive asserts_less : sattrdecl -> sattrdecl -> Prop :=
| al_same : forall a, asserts_less a a
| al_node : forall a f i o v l l', fewer_asserts l l' ->
    asserts_less (a, XNode (mkSNode f i o v l)) (a, XNode (mkSNode f i o v l')).
