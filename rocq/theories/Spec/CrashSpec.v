(** * Programs on which the compiler reports instead of crashing. *)
From Coq Require Import String List ZArith Bool.
From Verif Require Import Model.Base Model.Scalar Model.Value Model.Ast Model.Options Model.Surface Spec.RangeSpec.
Import ListNotations.
Local Open Scope string_scope.
Local Open Scope list_scope.

(** The nodes that an expression calls. *)
Fixpoint callees (e : sexpr) : list ident :=
  match e with
  | XLit _ | XVar _ => []
  | XParen l _ => flat_map callees l
  | XCall f l _ => f :: flat_map callees l
  | XNeg e | XNot e | XPre e => callees e
  | XIf a b c | XMerge a b c => callees a ++ callees b ++ callees c
  | XBin e l => callees e ++ flat_map (fun p => callees (snd p)) l
  | XCmp e l => callees e ++ flat_map (fun p => callees (snd p)) l
  | XClock e l => callees e ++ flat_map (fun p => callees (snd p)) l
  | XFby e l | XThen e l => callees e ++ flat_map callees l
  end.

(** The expressions of a declaration. *)
Definition expressions (d : sdecl) : list sexpr :=
  match d with
  | XConst _ _ e => [e]
  | XNode sn => map (fun i => match i with XDef _ e | XAssert e => e end) (s_defs sn)
  | XExtConst _ _ | XExtNode _ _ _ => []
  end.

(** Integer literals fit in an [i64]. *)
Definition small_literals (d : sdecl) : Prop :=
  forall e z, In e (expressions d) -> In z (literals e) -> (- 2 ^ 63 <= z <= 2 ^ 63 - 1)%Z.

(** The numbers of steps asked by [#[main(n)]] and [#[test(n)]] fit in a [usize]. *)
Definition small_counts (l : list attribute) : Prop :=
  forall a n, In a l -> a_action a = "main" \/ a_action a = "test" -> a_targets a = [ALInt n] -> (0 <= n <= 2 ^ 64 - 1)%Z.

(** The type parameters of a declaration, and the types of the inputs of a node. *)
Definition type_params (l : list attribute) : list ident :=
  flat_map (fun a => if String.eqb (a_action a) "generic" then a_params a else []) l.
Definition input_types (d : sdecl) : list base :=
  let types (l : sdecls) := flat_map (fun '(xs, (b, _)) => map (fun _ => b) xs) l in
  match d with
  | XNode sn => types (s_inputs sn)
  | XExtNode _ i _ => types i
  | XConst _ _ _ | XExtConst _ _ => []
  end.
(** The name under which it can be called. *)
Definition callable (d : sdecl) : option ident :=
  match d with
  | XNode sn => Some (s_name sn)
  | XExtNode x _ _ => Some x
  | XConst _ _ _ | XExtConst _ _ => None
  end.

(** The inputs of a call determine the type parameters: these are distinct, and
    they are the abstract types of the inputs. *)
Definition determined (a : sattrdecl) : Prop :=
  NoDup (type_params (fst a)) /\
  forall t, In (BOther t) (input_types (snd a)) <-> In t (type_params (fst a)).

Record precautions (p : sprog) : Prop := mkPrecautions {
  pc_literals : forall a, In a p -> small_literals (snd a);
  pc_counts : forall a, In a p -> small_counts (fst a);
  pc_called : forall a f b e, In a p -> callable (snd a) = Some f ->
    In b p -> In e (expressions (snd b)) -> In f (callees e) -> determined a
}.
