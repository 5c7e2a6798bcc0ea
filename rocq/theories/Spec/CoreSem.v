(** * Stream meaning of analysis-level expressions.

    Time is the clock of the node: instant [T] is the [T]-th step whose first
    input is present.  A trace gives the value of every variable ([rho]) and of
    every register read ([kappa]) at every instant. *)
From Coq Require Import String List ZArith Bool Arith.
From Verif Require Import Model.Base Model.Scalar Model.Value Model.Register Model.Ast Model.Interp.
Import ListNotations.

Section CoreSem.
  Variable mode : ovf.
  Variable glob : ident -> option scalar.
  Variable rho : nat -> ident -> option nillable.
  Variable kappa : nat -> nat -> option val.
  (** [calls id args v]: the last output of call site [id] fed with the
      sequence [args] from its creation. *)
  Variable calls : nat -> list val -> val -> Prop.
  Variable nilouts : nat -> val -> Prop.

  (** [csem lo e T v]: [v] is the value at instant [T] of the expression [e],
      which is present in the program since instant [lo]. *)
  Inductive csem : nat -> expr -> nat -> val -> Prop :=
  | cs_lit : forall lo l T, csem lo (ELit l) T (VS (Defined (lit_scalar l)))
  | cs_var : forall lo x d T n, d <= T -> rho (T - d) x = Some n -> csem lo (EVar x d) T (VS n)
  | cs_past : forall lo x d T, T < d -> csem lo (EVar x d) T (VS Nil)
  | cs_global : forall lo x T s, glob x = Some s -> csem lo (EGlobal x) T (VS (Defined s))
  | cs_tuple : forall lo l T vs, csems lo l T vs -> csem lo (ETuple l) T (tuple_val vs)
  | cs_pre : forall lo e T v, csem lo e T v -> csem lo (EPre e) T v
  | cs_paren : forall lo e T v, csem lo e T v -> csem lo (EParen e) T v
  | cs_bin : forall lo op a b T va vb v, csem lo a T va -> csem lo b T vb ->
      val_bin mode op va vb = Ok v -> csem lo (EBin op a b) T v
  | cs_un : forall lo op a T va v, csem lo a T va -> val_un mode op va = Ok v -> csem lo (EUn op a) T v
  | cs_cmp : forall lo op a b T va vb v, csem lo a T va -> csem lo b T vb ->
      val_cmp op va vb = Ok v -> csem lo (ECmp op a b) T v
  | cs_clock : forall lo pos a b T va vb v, csem lo a T va -> csem lo b T vb ->
      val_when pos vb va = Ok v -> csem lo (EClock pos a b) T v
  | cs_before : forall lo d a b T v, T <= d -> csem lo a T v -> csem lo (ELater d a b) T v
  | cs_after : forall lo d a b T v, d < T -> csem lo b T v -> csem lo (ELater d a b) T v
  | cs_fetch : forall lo id i n T v, kappa T id = Some v -> csem lo (EFetch id i n) T v
  | cs_flip_absent : forall lo id a b T va, csem lo a T va -> first_is_nil va = true ->
      csem lo (EFlip id a b) T (all_nil va)
  | cs_flip_first : forall lo id a b T va, csem lo a T va -> first_is_nil va = false ->
      (forall k, lo <= k -> k < T -> exists w, csem lo a k w /\ first_is_nil w = true) ->
      csem lo (EFlip id a b) T va
  | cs_flip_later : forall lo id a b T va vb k w, csem lo a T va -> first_is_nil va = false ->
      lo <= k -> k < T -> csem lo a k w -> first_is_nil w = false ->
      csem lo b T vb -> csem lo (EFlip id a b) T vb
  | cs_if : forall lo c a b T vc va vb v, csem lo c T vc -> csem lo a T va -> csem lo b T vb ->
      val_ifx vc va vb = Ok v -> csem lo (EIf c a b) T v
  | cs_merge : forall lo c a b T vc va vb v, csem lo c T vc -> csem lo a T va -> csem lo b T vb ->
      val_merge vc va vb = Ok v -> csem lo (EMerge c a b) T v
  | cs_sub_wait : forall lo d id a T v, T < d -> nilouts id v -> csem lo (ESub d id a) T v
  | cs_sub : forall lo d id a T args v, d <= T ->
      length args = S T - Nat.max lo d ->
      (forall j w, nth_error args j = Some w -> csem (Nat.max lo d) a (Nat.max lo d + j) w) ->
      calls id args v -> csem lo (ESub d id a) T v
  with csems : nat -> list expr -> nat -> list val -> Prop :=
  | css_nil : forall lo T, csems lo [] T []
  | css_cons : forall lo e l T v vs, csem lo e T v -> csems lo l T vs -> csems lo (e :: l) T (v :: vs).

  (** A pattern matches a value in the environment of an instant. *)
  Inductive matches (env : ident -> option nillable) : vartuple -> val -> Prop :=
  | m_single : forall x n, env x = Some n -> matches env (VTSingle x) (VS n)
  | m_empty : forall v, matches env (VTMult []) v
  | m_one : forall t v, matches env t v -> matches env (VTMult [t]) v
  | m_mult : forall l vs, 2 <= length l -> Forall2 (matches env) l vs -> matches env (VTMult l) (VT vs).

  (** The equation of a statement holds at instant [T]. *)
  Definition stmt_holds (T : nat) (s : stmt) : Prop :=
    match s with
    | SLet t e => exists v, csem 0 e T v /\ matches (rho T) t v
    | SAssert e => csem 0 e T (VS (Defined (SBool true)))
    | SInit _ _ _ => True
    | SUpdate _ _ => True
    end.

  (** Register [id], of the given shape, started empty, goes through instants
      [0 .. k-1]; at each of them its clock, initialiser and next value are the
      values of the three expressions, the last two have the shape of the
      register, and its output is the register read of the trace. *)
  Definition register_holds (k : nat) (shape : val) (id : nat) (init : option expr) (clk next : expr) : Prop :=
    exists state : nat -> register,
      state 0 = reg_default shape /\
      forall T, T < k -> exists n vi vn out,
        csem 0 clk T (VS n) /\
        match init with
        | Some e => exists v, vi = Some v /\ csem 0 e T v
        | None => vi = None
        end /\
        csem 0 next T vn /\
        (forall v, vi = Some v -> all_nil v = all_nil (r_inner (state T))) /\
        all_nil vn = all_nil (r_inner (state T)) /\
        reg_instant (state T) n vi vn = Ok (out, state (S T)) /\
        kappa T id = Some out.
End CoreSem.

(** The outputs of a node at one instant. *)
Definition outputs_are (env : ident -> option nillable) (l : list tyvar) (v : val) : Prop :=
  exists ns, Forall2 (fun x n => env (v_name x) = Some n) l ns /\ v = tuple_val (map VS ns).

(** The inputs of a node at one instant: a list of inputs is received as a
    (flat) tuple, a single input directly. *)
Definition inputs_are (env : ident -> option nillable) (l : list tyvar) (v : val) : Prop :=
  l = [] \/ matches env (VTMult (map (fun x => VTSingle (v_name x)) l)) v.
