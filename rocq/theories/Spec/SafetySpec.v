(** * What is expected from accepted programs: types of nodes and constants. *)
From Coq Require Import String List ZArith Bool Arith.
From Verif Require Import Model.Base Model.Scalar Model.Value Model.Ast Model.Interp Model.Options Model.Surface
  Spec.TypeSpec Spec.ProgramSem.
Import ListNotations.

(** The type of a list of declared variables, as one value. *)
Definition declared_type (l : sdecls) : ty :=
  tuple_ty (flat_map (fun g => map (fun _ => fst (snd g)) (fst g)) l).

(** [x] is a constant of type [t], defined by the program or by the code around it. *)
Definition constant (p : sprog) (x : ident) (t : base) : Prop :=
  exists a, (exists e, In (a, XConst x t e) p) \/ In (a, XExtConst x t) p.

(** The values of the constants have the declared types. *)
Definition constants_ok (p : sprog) (glob : ident -> option scalar) : Prop :=
  forall x t, constant p x t -> exists s, glob x = Some s /\ forall theta, sty_of s = kind_of theta t.

(** All the nodes are defined in the program. *)
Definition closed (p : sprog) : Prop := forall a x i o, ~ In (a, XExtNode x i o) p.

Definition default_mode (p : sprog) : Prop :=
  forall a sn, In (a, XNode sn) p -> ~ In "universal_pre"%string (map a_action a).
