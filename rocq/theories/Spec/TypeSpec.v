(** * What it means for values, expressions and instances to be well typed. *)
From Coq Require Import String List ZArith Bool Arith.
From Verif Require Import Model.Base Model.Scalar Model.Value Model.History Model.Register Model.Ast Model.Interp.
Import ListNotations.

(** ** Values.  [theta] says which scalar type each type variable stands for. *)
Definition kind_of (theta : ident -> sty) (b : base) : sty :=
  match b with BInt => TInt | BFloat => TFloat | BBool => TBool | BOther x => theta x end.

Definition fits (k : sty) (n : nillable) : Prop :=
  match n with Nil => True | Defined s => sty_of s = k end.

(** A value of a type; any component may be nil.  The tuple with one component
    is its component, the tuple without components is a unit. *)
Fixpoint of_type (theta : ident -> sty) (t : ty) (v : val) {struct t} : Prop :=
  match t with
  | TSingle b => exists n, v = VS n /\ fits (kind_of theta b) n
  | TMult [] => exists n, v = VS n /\ fits TUnit n
  | TMult [t] => of_type theta t v
  | TMult ts => exists vs, v = VT vs /\
      (fix all (ts : list ty) (vs : list val) {struct ts} : Prop :=
         match ts, vs with
         | [], [] => True
         | t :: ts, v :: vs => of_type theta t v /\ all ts vs
         | _, _ => False
         end) ts vs
  end.

(** ** Expressions *)
(** Types of the operators. *)
Definition bin_type (op : binop) (b : base) : Prop :=
  match op with
  | Add | Mul | Sub | Div => b = BInt \/ b = BFloat
  | Rem => b = BInt
  | BitAnd | BitOr | BitXor => b = BInt \/ b = BBool
  end.
Definition un_type (op : unop) (b : base) : Prop :=
  match op with Neg => b = BInt \/ b = BFloat | Not => b = BInt \/ b = BBool end.
Definition cmp_type (op : cmpop) (b : base) : Prop :=
  match op with
  | Le | Ge | Lt | Gt => b = BInt \/ b = BFloat \/ b = BBool
  | Eq | Ne => b = BInt \/ b = BBool
  end.

Record context : Type := mkCtx {
  x_vars : ident -> option base;
  x_globals : ident -> option base;
  x_blocks : nat -> option (ty * ty);      (* argument and result types of each call site *)
  x_regs : nat -> option ty
}.

Inductive has_type (G : context) : expr -> ty -> Prop :=
| ht_int : forall z, has_type G (ELit (LInt z)) (TSingle BInt)
| ht_float : forall f, has_type G (ELit (LFloat f)) (TSingle BFloat)
| ht_bool : forall b, has_type G (ELit (LBool b)) (TSingle BBool)
| ht_var : forall x d b, x_vars G x = Some b -> has_type G (EVar x d) (TSingle b)
| ht_global : forall x b, x_globals G x = Some b -> has_type G (EGlobal x) (TSingle b)
| ht_tuple : forall l ts, have_types G l ts -> has_type G (ETuple l) (TMult ts)
| ht_pre : forall e t, has_type G e t -> has_type G (EPre e) t
| ht_paren : forall e t, has_type G e t -> has_type G (EParen e) t
| ht_bin : forall op a b t, has_type G a (TSingle t) -> has_type G b (TSingle t) -> bin_type op t ->
    has_type G (EBin op a b) (TSingle t)
| ht_un : forall op a t, has_type G a (TSingle t) -> un_type op t -> has_type G (EUn op a) (TSingle t)
| ht_cmp : forall op a b t, has_type G a (TSingle t) -> has_type G b (TSingle t) -> cmp_type op t ->
    has_type G (ECmp op a b) (TSingle BBool)
| ht_clock : forall p e c t, has_type G e t -> has_type G c (TSingle BBool) -> has_type G (EClock p e c) t
| ht_later : forall d a b t, has_type G a t -> has_type G b t -> has_type G (ELater d a b) t
| ht_flip : forall id a b t, has_type G a t -> has_type G b t -> has_type G (EFlip id a b) t
| ht_if : forall c a b t, has_type G c (TSingle BBool) -> has_type G a t -> has_type G b t -> has_type G (EIf c a b) t
| ht_merge : forall c a b t, has_type G c (TSingle BBool) -> has_type G a t -> has_type G b t -> has_type G (EMerge c a b) t
| ht_fetch0 : forall id n t, x_regs G id = Some t -> has_type G n t -> has_type G (EFetch id None n) t
| ht_fetch : forall id i n t, x_regs G id = Some t -> has_type G i t -> has_type G n t -> has_type G (EFetch id (Some i) n) t
| ht_sub : forall d id a tin tout, x_blocks G id = Some (tin, tout) -> has_type G a tin -> has_type G (ESub d id a) tout
with have_types (G : context) : list expr -> list ty -> Prop :=
| hts_nil : have_types G [] []
| hts_cons : forall e l t ts, has_type G e t -> have_types G l ts -> have_types G (e :: l) (t :: ts).

Inductive target_type (G : context) : vartuple -> ty -> Prop :=
| tt_var : forall x b, x_vars G x = Some b -> target_type G (VTSingle x) (TSingle b)
| tt_mult : forall l ts, Forall2 (target_type G) l ts -> target_type G (VTMult l) (TMult ts).

(** The errors that a well-typed, well-scheduled program may still raise. *)
Definition arithmetic_or_assert (p : panic) : Prop :=
  match p with
  | POverflow | PDivZero | PAssert | PAssertNil => True
  | PPast | PUnwrapNil | PUnbound | PType => False
  end.

(** A result that satisfies [Q], or one of these errors. *)
Definition safe {A} (r : res A) (Q : A -> Prop) : Prop :=
  match r with Ok a => Q a | Panic p => arithmetic_or_assert p end.

(** ** Type variables *)
(** A type in which each type variable is replaced by the type [s] gives it. *)
Definition inst_base (s : ident -> base) (b : base) : base := match b with BOther x => s x | b => b end.
Fixpoint inst_ty (s : ident -> base) (t : ty) : ty :=
  match t with
  | TSingle b => TSingle (inst_base s b)
  | TMult l => TMult (map (inst_ty s) l)
  end.

(** The type of the tuple of some variables: one variable is not a tuple. *)
Definition tuple_ty (l : list base) : ty :=
  match l with
  | [b] => TSingle b
  | l => TMult (map TSingle l)
  end.
