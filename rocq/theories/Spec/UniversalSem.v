(** * Reference meaning of nodes compiled with [#[universal_pre]].

    In such a node the operators [pre], [fby] and [->] go at the pace of their
    operands: they only count the instants at which these have a value. *)
From Coq Require Import String List ZArith Bool.
From Verif Require Import Model.Base Model.Scalar Model.Value Model.Ast Model.Interp Model.Options Model.Surface
  Spec.StepSpec Spec.SurfaceSem Spec.ProgramSem Spec.ClockSpec.
Import ListNotations.

Section UPace.
  Variable env : ident -> option pace.

  (** The clock of an expression: as in default mode, except that the temporal
      operators accept any clock, as long as it is the same for all their
      operands. *)
  Fixpoint upace_of (e : sexpr) : option pace :=
    match e with
    | XLit _ => Some Free
    | XVar x => Some (pace_var env x)
    | XParen l _ | XCall _ l _ => uniform (map upace_of l)
    | XNeg e | XNot e | XPre e => upace_of e
    | XIf c a b => meets [upace_of a; upace_of b] (upace_of c)
    | XMerge c a b =>
        pbind (driver env c) (fun x =>
        pbind (upace_of a) (fun ka => pbind (meet ka (On true x)) (fun _ =>
        pbind (upace_of b) (fun kb => pbind (meet kb (On false x)) (fun _ => Some (pace_var env x))))))
    | XBin e l => meets (map (fun p => upace_of (snd p)) l) (upace_of e)
    | XCmp e l => meets (map (fun p => upace_of (snd p)) l) (upace_of e)
    | XClock e l => fold_left (sample env) l (upace_of e)
    | XFby e l | XThen e l => uniform (rev (upace_of e :: map upace_of l))
    end.
End UPace.

Definition present_val (v : val) : Prop := first_is_nil v = false.
Definition absent_val (v : val) : Prop := first_is_nil v = true.

(** Among the values that [P] gives to the instants before [t], the last
    present one is [v]. *)
Definition last_present (P : nat -> val -> Prop) (t : nat) (v : val) : Prop :=
  exists k, k < t /\ P k v /\ present_val v /\
    forall j, k < j -> j < t -> exists w, P j w /\ absent_val w.
(** They are all absent. *)
Definition never_present (P : nat -> val -> Prop) (t : nat) : Prop :=
  forall j, j < t -> exists w, P j w /\ absent_val w.

Section UniversalSem.
  Variable mode : ovf.
  Variable glob : ident -> option scalar.
  Variable locals : list ident.
  Variable env : ident -> option pace.
  Variable rho : nat -> ident -> option nillable.
  Variable F : ident -> list val -> val -> Prop.

  (** The clock of [e] is active at instant [t], or it is not. *)
  Definition ticks (e : sexpr) (t : nat) : Prop :=
    exists k, upace_of env e = Some k /\ active rho k (Z.of_nat t).
  Definition waits (e : sexpr) (t : nat) : Prop :=
    exists k, upace_of env e = Some k /\ ~ active rho k (Z.of_nat t).

  Inductive usem : sexpr -> nat -> val -> Prop :=
  | us_int : forall z t, usem (XLit (SLInt z)) t (VS (Defined (SInt z)))
  | us_float : forall f t, usem (XLit (SLFloat f)) t (VS (Defined (SFloat f)))
  | us_bool : forall b t, usem (XLit (SLBool b)) t (VS (Defined (SBool b)))
  | us_var : forall x t n, In x locals -> rho t x = Some n -> usem (XVar x) t (VS n)
  | us_global : forall x t s, ~ In x locals -> glob x = Some s -> usem (XVar x) t (VS (Defined s))
  | us_paren : forall l b t vs, usems l t vs -> usem (XParen l b) t (tuple_val vs)
  (** A call has received its arguments since instant 0. *)
  | us_call : forall f l b t args v, length args = S t ->
      (forall k w, nth_error args k = Some w -> usem (XParen l b) k w) ->
      F f args v -> usem (XCall f l b) t v
  | us_neg : forall e t w v, usem e t w -> val_un mode Neg w = Ok v -> usem (XNeg e) t v
  | us_not : forall e t w v, usem e t w -> val_un mode Not w = Ok v -> usem (XNot e) t v
  (** [pre e]: absent when the clock of [e] is not active; otherwise the last
      value of [e], nil if there is none yet. *)
  | us_pre_off : forall e t w, waits e t -> usem e t w -> usem (XPre e) t (all_nil w)
  | us_pre_last : forall e t v, ticks e t -> last_present (usem e) t v -> usem (XPre e) t v
  | us_pre_none : forall e t w, ticks e t -> never_present (usem e) t -> usem e t w -> usem (XPre e) t (all_nil w)
  | us_if : forall c a b t vc va vb v, usem c t vc -> usem a t va -> usem b t vb ->
      val_ifx vc va vb = Ok v -> usem (XIf c a b) t v
  | us_merge : forall c a b t vc va vb v, usem c t vc -> usem a t va -> usem b t vb ->
      val_merge vc va vb = Ok v -> usem (XMerge c a b) t v
  | us_bin : forall e l t w v, usem e t w -> ubins w l t v -> usem (XBin e l) t v
  | us_clock : forall e l t w v, usem e t w -> uclocks w l t v -> usem (XClock e l) t v
  | us_cmp1 : forall e t v, usem e t v -> usem (XCmp e []) t v
  | us_cmp2 : forall op a b t va vb v, usem a t va -> usem b t vb ->
      val_cmp op va vb = Ok v -> usem (XCmp a [(op, b)]) t v
  (** [e fby a fby ...] is [e fby (a fby ...)]: absent when the clock of the
      rest is not active; otherwise the last value of the rest, or [e] if there
      is none yet. *)
  | us_fby_one : forall e t v, usem e t v -> usem (XFby e []) t v
  | us_fby_off : forall e a l t w, waits (XFby a l) t -> usem e t w -> usem (XFby e (a :: l)) t (all_nil w)
  | us_fby_first : forall e a l t v, ticks (XFby a l) t -> never_present (usem (XFby a l)) t ->
      usem e t v -> usem (XFby e (a :: l)) t v
  | us_fby_last : forall e a l t v, ticks (XFby a l) t -> last_present (usem (XFby a l)) t v ->
      usem (XFby e (a :: l)) t v
  (** [e -> a -> ...] is [e -> (a -> ...)]: absent when [e] is; the first
      present value of [e]; then the rest. *)
  | us_then_one : forall e t v, usem e t v -> usem (XThen e []) t v
  | us_then_absent : forall e a l t w, usem e t w -> absent_val w -> usem (XThen e (a :: l)) t (all_nil w)
  | us_then_first : forall e a l t v, usem e t v -> present_val v -> never_present (usem e) t ->
      usem (XThen e (a :: l)) t v
  | us_then_later : forall e a l t w k w' v, usem e t w -> present_val w ->
      k < t -> usem e k w' -> present_val w' ->
      usem (XThen a l) t v -> usem (XThen e (a :: l)) t v
  with usems : list sexpr -> nat -> list val -> Prop :=
  | usems_nil : forall t, usems [] t []
  | usems_cons : forall e l t v vs, usem e t v -> usems l t vs -> usems (e :: l) t (v :: vs)
  with ubins : val -> list (binop * sexpr) -> nat -> val -> Prop :=
  | ubins_nil : forall w t, ubins w [] t w
  | ubins_cons : forall w op e l t v w' r, usem e t v -> val_bin mode op w v = Ok w' ->
      ubins w' l t r -> ubins w ((op, e) :: l) t r
  with uclocks : val -> list (bool * sexpr) -> nat -> val -> Prop :=
  | uclocks_nil : forall w t, uclocks w [] t w
  | uclocks_cons : forall w pos e l t v w' r, usem e t v -> val_when pos v w = Ok w' ->
      uclocks w' l t r -> uclocks w ((pos, e) :: l) t r.

  Definition ustmt_holds (T : nat) (i : sstmt) : Prop :=
    match i with
    | XDef t e => exists v, usem e T v /\ smatches (rho T) t v
    | XAssert e => usem e T (VS (Defined (SBool true)))
    end.
End UniversalSem.

(** ** Nodes and programs, in which every node has its own mode. *)
Section UProgramSem.
  Variable mode : ovf.
  Variable glob : ident -> option scalar.
  Variable nodes : list (bool * snode).

  (** Meaning of a node compiled with [#[universal_pre]], on present inputs. *)
  Definition unode_meaning (F : ident -> list val -> val -> Prop) (sn : snode) (ins outs : list val) : Prop :=
    length outs = length ins /\
    exists rho : nat -> ident -> option nillable,
      forall T v o, nth_error ins T = Some v -> nth_error outs T = Some o ->
        (declared (s_inputs sn) = [] \/ row (rho T) (declared (s_inputs sn)) v) /\
        (forall i, In i (s_defs sn) -> ustmt_holds mode glob (node_vars sn) (declared_pace sn) rho F T i) /\
        row (rho T) (declared (s_outputs sn)) o.

  Fixpoint mdenotes (n : nat) (f : ident) (ins outs : list val) : Prop :=
    match n with
    | 0 => False
    | S n => exists universal sn pouts,
        In (universal, sn) nodes /\ s_name sn = f /\
        (let F := fun g args v => exists os, mdenotes n g args (os ++ [v]) in
         let present_ins := filter (fun v => negb (first_is_nil v)) ins in
         if (universal : bool) then unode_meaning F sn present_ins pouts
         else node_meaning mode glob F (no_input (map snd nodes)) sn present_ins pouts) /\
        outs = weave (absent_row (declared (s_outputs sn))) ins pouts
    end.

  Definition mmeans (f : ident) (ins outs : list val) : Prop := exists n, mdenotes n f ins outs.
End UProgramSem.

(** The nodes of a source program, and whether they are compiled with
    [#[universal_pre]]. *)
Definition moded_nodes (p : sprog) : list (bool * snode) :=
  flat_map (fun d => match snd d with
    | XNode sn => [(existsb (fun a => String.eqb (a_action a) "universal_pre") (fst d), sn)]
    | _ => [] end) p.
