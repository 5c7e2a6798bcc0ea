(** * What it means for a program not to look at the values of generic types. *)
From Coq Require Import String List ZArith Bool Arith.
From Verif Require Import Model.Base Model.Scalar Model.Value Model.Ast Model.Interp Model.Surface Model.Extern Spec.StepSpec.
Import ListNotations.

(** [R x] relates the scalars that stand for each other at the type variable
    [x]; at another type a scalar stands for itself only. *)
Definition stands (R : ident -> scalar -> scalar -> Prop) (b : base) (s s' : scalar) : Prop :=
  match b with BOther x => R x s s' | _ => s = s' end.
Definition nstands (R : ident -> scalar -> scalar -> Prop) (b : base) (n n' : nillable) : Prop :=
  match n, n' with
  | Nil, Nil => True
  | Defined s, Defined s' => stands R b s s'
  | _, _ => False
  end.

(** Rows of values of declared variables of types [bs]. *)
Inductive all_stand (R : ident -> scalar -> scalar -> Prop) : list base -> list nillable -> list nillable -> Prop :=
| as_nil : all_stand R [] [] []
| as_cons : forall b bs n ns m ms, nstands R b n m -> all_stand R bs ns ms -> all_stand R (b :: bs) (n :: ns) (m :: ms).
Definition row_stands (R : ident -> scalar -> scalar -> Prop) (bs : list base) (v w : val) : Prop :=
  match bs with
  | [] => exists n, v = VS n /\ w = VS n
  | _ => exists ns ms, v = tuple_val (map VS ns) /\ w = tuple_val (map VS ms) /\ all_stand R bs ns ms
  end.

(** The types of declared variables. *)
Definition bases (l : sdecls) : list base := flat_map (fun g => map (fun _ => fst (snd g)) (fst g)) l.

(** Both succeed with related results, or both fail in the same way. *)
Definition alike {A B} (Q : A -> B -> Prop) (x : res A) (y : res B) : Prop :=
  match x, y with Ok a, Ok b => Q a b | Panic e, Panic e' => e = e' | _, _ => False end.

(** The extern nodes do not look at values of generic types either. *)
Definition externs_blind (p : sprog) (ext : ident -> behaviour) : Prop := forall a x i o, In (a, XExtNode x i o) p ->
  forall R past past' v v', Forall2 (row_stands R (bases i)) past past' -> row_stands R (bases i) v v' ->
  alike (row_stands R (bases o)) (ext x past v) (ext x past' v').

(** ** Special cases *)
(** A row with as many values as declared variables. *)
Definition row_of (bs : list base) (v : val) : Prop :=
  match bs with
  | [] => exists n, v = VS n
  | _ => exists ns, v = tuple_val (map VS ns) /\ length ns = length bs
  end.

(** A row in which the values of generic types are replaced. *)
Definition replace (f : ident -> scalar -> scalar) (b : base) (n : nillable) : nillable :=
  match n, b with
  | Defined s, BOther x => Defined (f x s)
  | _, _ => n
  end.
Fixpoint replace_all (f : ident -> scalar -> scalar) (bs : list base) (vs : list val) : list val :=
  match bs, vs with
  | b :: bs, VS n :: vs => VS (replace f b n) :: replace_all f bs vs
  | _, vs => vs
  end.
Definition replace_row (f : ident -> scalar -> scalar) (bs : list base) (v : val) : val :=
  match bs, v with
  | [b], VS n => VS (replace f b n)
  | _, VS n => VS n
  | _, VT vs => VT (replace_all f bs vs)
  end.

(** The row [v] contains the scalar [s] for a variable whose type is the type variable [x]. *)
Definition carries (bs : list base) (v : val) (x : ident) (s : scalar) : Prop :=
  exists ns k, v = tuple_val (map VS ns) /\ length ns = length bs /\ nth_error bs k = Some (BOther x) /\ nth_error ns k = Some (Defined s).
