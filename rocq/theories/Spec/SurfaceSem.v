(** * Reference meaning of source expressions (default mode).

    Time is the clock of the node and may be negative: before instant 0 the
    variables have no value (nil), and so do the results of calls.  A trace
    [rho] gives the value of every variable of the node at every instant. *)
From Coq Require Import String List ZArith Bool.
From Verif Require Import Model.Base Model.Scalar Model.Value Model.Ast Model.Interp Model.Surface.
Import ListNotations.

(** Position, in a chain of [m + 1] operands, of the operand that gives the
    value at instant [t]: the operands are used one after the other, then the
    last one forever; the first one is also used in the past. *)
Definition position (m : nat) (t : Z) : nat := Z.to_nat (Z.max 0 (Z.min t (Z.of_nat m))).

Section SurfaceSem.
  Variable mode : ovf.
  Variable glob : ident -> option scalar.
  Variable locals : list ident.
  Variable rho : nat -> ident -> option nillable.
  (** [F f args v]: a new instance of node [f] that has received the sequence
      of inputs [args] answers [v] to the last one. *)
  Variable F : ident -> list val -> val -> Prop.
  (** The answer of [f] when there is no input. *)
  Variable N : ident -> val -> Prop.

  Inductive sem : sexpr -> Z -> val -> Prop :=
  | sem_int : forall z t, sem (XLit (SLInt z)) t (VS (Defined (SInt z)))
  | sem_float : forall f t, sem (XLit (SLFloat f)) t (VS (Defined (SFloat f)))
  | sem_bool : forall b t, sem (XLit (SLBool b)) t (VS (Defined (SBool b)))
  | sem_var : forall x t n, In x locals -> (0 <= t)%Z -> rho (Z.to_nat t) x = Some n -> sem (XVar x) t (VS n)
  | sem_past : forall x t, In x locals -> (t < 0)%Z -> sem (XVar x) t (VS Nil)
  | sem_global : forall x t s, ~ In x locals -> glob x = Some s -> sem (XVar x) t (VS (Defined s))
  | sem_paren : forall l b t vs, sems l t vs -> sem (XParen l b) t (tuple_val vs)
  | sem_call_past : forall f l b t v, (t < 0)%Z -> N f v -> sem (XCall f l b) t v
  | sem_call : forall f l b t args v, (0 <= t)%Z ->
      length args = S (Z.to_nat t) ->
      (forall k w, nth_error args k = Some w -> sem (XParen l b) (Z.of_nat k) w) ->
      F f args v -> sem (XCall f l b) t v
  | sem_neg : forall e t w v, sem e t w -> val_un mode Neg w = Ok v -> sem (XNeg e) t v
  | sem_not : forall e t w v, sem e t w -> val_un mode Not w = Ok v -> sem (XNot e) t v
  | sem_pre : forall e t v, sem e (t - 1) v -> sem (XPre e) t v
  | sem_if : forall c a b t vc va vb v, sem c t vc -> sem a t va -> sem b t vb ->
      val_ifx vc va vb = Ok v -> sem (XIf c a b) t v
  | sem_merge : forall c a b t vc va vb v, sem c t vc -> sem a t va -> sem b t vb ->
      val_merge vc va vb = Ok v -> sem (XMerge c a b) t v
  | sem_bin : forall e l t w v, sem e t w -> bins w l t v -> sem (XBin e l) t v
  | sem_clock : forall e l t w v, sem e t w -> clocks w l t v -> sem (XClock e l) t v
  | sem_cmp1 : forall e t v, sem e t v -> sem (XCmp e []) t v
  | sem_cmp2 : forall op a b t va vb v, sem a t va -> sem b t vb ->
      val_cmp op va vb = Ok v -> sem (XCmp a [(op, b)]) t v
  | sem_fby : forall e l t e' v,
      nth_error (e :: l) (position (length l) t) = Some e' ->
      sem e' (t - Z.of_nat (position (length l) t)) v -> sem (XFby e l) t v
  | sem_then : forall e l t e' v,
      nth_error (e :: l) (position (length l) t) = Some e' ->
      sem e' t v -> sem (XThen e l) t v
  with sems : list sexpr -> Z -> list val -> Prop :=
  | sems_nil : forall t, sems [] t []
  | sems_cons : forall e l t v vs, sem e t v -> sems l t vs -> sems (e :: l) t (v :: vs)
  (** Left-associative chains: the value so far is the first argument. *)
  with bins : val -> list (binop * sexpr) -> Z -> val -> Prop :=
  | bins_nil : forall w t, bins w [] t w
  | bins_cons : forall w op e l t v w' r, sem e t v -> val_bin mode op w v = Ok w' ->
      bins w' l t r -> bins w ((op, e) :: l) t r
  with clocks : val -> list (bool * sexpr) -> Z -> val -> Prop :=
  | clocks_nil : forall w t, clocks w [] t w
  | clocks_cons : forall w pos e l t v w' r, sem e t v -> val_when pos v w = Ok w' ->
      clocks w' l t r -> clocks w ((pos, e) :: l) t r.

  (** The variables of a pattern have, in [env], the components of a value. *)
  Inductive smatches (env : ident -> option nillable) : starget -> val -> Prop :=
  | sm_var : forall x n, env x = Some n -> smatches env (TVar x) (VS n)
  | sm_empty : forall b v, smatches env (TTuple [] b) v
  | sm_one : forall t b v, smatches env t v -> smatches env (TTuple [t] b) v
  | sm_mult : forall l b vs, 2 <= length l -> Forall2 (smatches env) l vs -> smatches env (TTuple l b) (VT vs).

  (** The equation, or assertion, holds at instant [T]. *)
  Definition sstmt_holds (T : nat) (i : sstmt) : Prop :=
    match i with
    | XDef t e => exists v, sem e (Z.of_nat T) v /\ smatches (rho T) t v
    | XAssert e => sem e (Z.of_nat T) (VS (Defined (SBool true)))
    end.
End SurfaceSem.
