(** * Reference clock calculus of source expressions (default mode).

    The clock of an expression says at which instants of its node it has a
    value. *)
From Coq Require Import String List ZArith Bool.
From Verif Require Import Model.Base Model.Scalar Model.Value Model.Ast Model.Interp Model.Surface Spec.ProgramSem.
Import ListNotations.

Inductive pace : Type :=
| Free                            (* constants: a value at any instant, fits any clock *)
| Base                            (* a value at every instant *)
| On (pos : bool) (x : ident).    (* a value when [x] is [pos]: [when x] and [whenot x] *)

Definition slow (k : pace) : bool := match k with On _ _ => true | _ => false end.

(** The clock of an operation on values of clocks [a] and [b]. *)
Definition meet (a b : pace) : option pace :=
  match a, b with
  | Free, k | k, Free => Some k
  | Base, Base => Some Base
  | On p x, On q y => if Bool.eqb p q && String.eqb x y then Some a else None
  | _, _ => None
  end.

(** Values of clocks [a] and [b] are available at the same instants. *)
Definition same_pace (a b : pace) : bool :=
  match a, b with
  | On p x, On q y => Bool.eqb p q && String.eqb x y
  | On _ _, _ | _, On _ _ => false
  | _, _ => true
  end.

Definition pbind {A B} (o : option A) (f : A -> option B) : option B := match o with Some a => f a | None => None end.

Section Pace.
  (** The declared clock of the variables of the node; other names are
      constants. *)
  Variable env : ident -> option pace.

  Definition pace_var (x : ident) : pace := match env x with Some k => k | None => Free end.
  (** The variable that drives a clock. *)
  Fixpoint driver (e : sexpr) : option ident :=
    match e with
    | XVar x => match env x with Some _ => Some x | None => None end
    | XBin e [] | XCmp e [] | XClock e [] | XFby e [] | XThen e [] => driver e
    | _ => None
    end.
  (** The components of a tuple are available at the same instants. *)
  Definition uniform (l : list (option pace)) : option pace :=
    match l with
    | [] => Some Free
    | k0 :: _ => pbind k0 (fun g =>
        if forallb (fun k => match k with Some k => same_pace g k | None => false end) l then Some g else None)
    end.
  Definition meets (l : list (option pace)) (k : option pace) : option pace :=
    fold_left (fun acc k => pbind acc (fun a => pbind k (meet a))) l k.
  Definition sample (k : option pace) (p : bool * sexpr) : option pace :=
    pbind k (fun a => pbind (driver (snd p)) (fun x =>
      pbind (meet a (pace_var x)) (fun _ => Some (On (fst p) x)))).
  Definition never_slow (k : option pace) : bool := match k with Some k => negb (slow k) | None => false end.

  (** The clock of an expression, if it is consistent. *)
  Fixpoint pace_of (e : sexpr) : option pace :=
    match e with
    | XLit _ => Some Free
    | XVar x => Some (pace_var x)
    | XParen l _ | XCall _ l _ => uniform (map pace_of l)
    | XNeg e | XNot e => pace_of e
    | XPre e => if never_slow (pace_of e) then pace_of e else None
    | XIf c a b => meets [pace_of a; pace_of b] (pace_of c)
    | XMerge c a b =>
        pbind (driver c) (fun x =>
        pbind (pace_of a) (fun ka => pbind (meet ka (On true x)) (fun _ =>
        pbind (pace_of b) (fun kb => pbind (meet kb (On false x)) (fun _ => Some (pace_var x))))))
    | XBin e l => meets (map (fun p => pace_of (snd p)) l) (pace_of e)
    | XCmp e l => meets (map (fun p => pace_of (snd p)) l) (pace_of e)
    | XClock e l => fold_left sample l (pace_of e)
    | XFby e l | XThen e l =>
        match l with
        | [] => pace_of e
        | _ => if forallb (fun e => never_slow (pace_of e)) l && never_slow (pace_of e) then pace_of e else None
        end
    end.

  (** An [if] with a constant condition is present as soon as the branch that
      is taken is: its two branches must be available at the same instants. *)
  Fixpoint steady (e : sexpr) : bool :=
    match e with
    | XLit _ | XVar _ => true
    | XParen l _ | XCall _ l _ => forallb steady l
    | XNeg e | XNot e | XPre e => steady e
    | XIf c a b =>
        steady c && steady a && steady b &&
        match pace_of c, pace_of a, pace_of b with
        | Some (On _ _), _, _ => true
        | _, Some ka, Some kb => same_pace ka kb
        | _, _, _ => true
        end
    | XMerge c a b => steady c && steady a && steady b
    | XBin e l => steady e && forallb (fun p => steady (snd p)) l
    | XCmp e l => steady e && forallb (fun p => steady (snd p)) l
    | XClock e l => steady e && forallb (fun p => steady (snd p)) l
    | XFby e l | XThen e l => steady e && forallb steady l
    end.

  (** The clock of a pattern. *)
  Fixpoint pace_target (t : starget) : option pace :=
    match t with
    | TVar x => env x
    | TTuple l _ => uniform (map pace_target l)
    end.
  (** The pattern has no variable, up to parentheses. *)
  Fixpoint binds_nothing (t : starget) : bool :=
    match t with
    | TVar _ => false
    | TTuple [] _ => true
    | TTuple [t] false => binds_nothing t
    | _ => false
    end.
  Definition paced_stmt (i : sstmt) : Prop :=
    match i with
    | XAssert e => exists k, pace_of e = Some k /\ slow k = false
    | XDef t e => exists k kt, pace_of e = Some k /\ pace_target t = Some kt /\
        (binds_nothing t = true \/ same_pace kt k = true)
    end.
End Pace.

(** ** Declared clocks *)
Definition declared_clocks (l : sdecls) : list (ident * clock) :=
  flat_map (fun '(xs, (_, c)) => map (fun x => (x, c)) xs) l.
Definition clock_pace (c : clock) : pace :=
  match c with CImplicit => Base | CAdaptative => Free | CExplicit pos x => On pos x end.
Definition declared_pace (sn : snode) (x : ident) : option pace :=
  match lookup x (declared_clocks (s_inputs sn ++ s_outputs sn ++ s_locals sn)) with
  | Some c => Some (clock_pace c)
  | None => None
  end.

(** The clocks of a node are consistent. *)
Definition node_paced (sn : snode) : Prop :=
  (forall x c, In (x, c) (declared_clocks (s_inputs sn ++ s_outputs sn)) -> slow (clock_pace c) = false) /\
  (forall i, In i (s_defs sn) -> paced_stmt (declared_pace sn) i).
(** The source syntax writes no other clock. *)
Definition plain_clocks (sn : snode) : Prop :=
  forall x c, In (x, c) (declared_clocks (s_inputs sn ++ s_outputs sn ++ s_locals sn)) -> c <> CAdaptative.

(** ** Instants at which an expression is defined *)

(** The clock [k] is active at instant [t]. *)
Definition active (rho : nat -> ident -> option nillable) (k : pace) (t : Z) : Prop :=
  match k with
  | Free | Base => True
  | On pos x => (0 <= t)%Z /\ rho (Z.to_nat t) x = Some (Defined (SBool pos))
  end.

Definition all_of {A} (P : A -> Prop) :=
  fix go (l : list A) : Prop := match l with [] => True | a :: l => P a /\ go l end.
Definition all_from {A} (P : Z -> A -> Prop) :=
  fix go (i : Z) (l : list A) : Prop := match l with [] => True | a :: l => P i a /\ go (i + 1)%Z l end.

(** At instant [n] and all later ones, [e] does not look at its variables
    before instant 0.  If [strict], nor at the results of its calls, and
    neither do the arguments that the calls have received since instant 0. *)
Fixpoint ready (strict : bool) (vars : list ident) (n : Z) (e : sexpr) : Prop :=
  match e with
  | XLit _ => True
  | XVar x => In x vars -> (0 <= n)%Z
  | XParen l _ => all_of (ready strict vars n) l
  | XCall _ l _ => if strict then (0 <= n)%Z /\ all_of (ready strict vars 0) l else all_of (ready strict vars n) l
  | XNeg e | XNot e => ready strict vars n e
  | XPre e => ready strict vars (n - 1) e
  | XIf a b c | XMerge a b c => ready strict vars n a /\ ready strict vars n b /\ ready strict vars n c
  | XBin e l => ready strict vars n e /\ all_of (fun p => ready strict vars n (snd p)) l
  | XCmp e l => ready strict vars n e /\ all_of (fun p => ready strict vars n (snd p)) l
  | XClock e l => ready strict vars n e /\ all_of (fun p => ready strict vars n (snd p)) l
  | XFby e l => ready strict vars n e /\ all_of (ready strict vars 0) l
  | XThen e l => ready strict vars n e /\ all_from (ready strict vars) 1 l
  end.

(** Every component is defined, and acceptable for [S]. *)
Inductive full (S : scalar -> Prop) : val -> Prop :=
| full_scalar : forall s, S s -> full S (VS (Defined s))
| full_tuple : forall l, l <> [] -> Forall (full S) l -> full S (VT l).
(** Every component is absent. *)
Inductive empty : val -> Prop :=
| empty_scalar : empty (VS Nil)
| empty_tuple : forall l, l <> [] -> Forall empty l -> empty (VT l).

(** Not-a-number is not comparable, and the result of such a comparison is
    nil.  [tame floats e]: there is no comparison in [e] if there are floating
    point numbers, and no floating point literal if there are not. *)
Fixpoint tame (floats : bool) (e : sexpr) : bool :=
  match e with
  | XLit (SLFloat _) => floats
  | XLit _ | XVar _ => true
  | XParen l _ | XCall _ l _ => forallb (tame floats) l
  | XNeg e | XNot e | XPre e => tame floats e
  | XIf a b c | XMerge a b c => tame floats a && tame floats b && tame floats c
  | XBin e l => tame floats e && forallb (fun p => tame floats (snd p)) l
  | XCmp e [] => tame floats e
  | XCmp e l => negb floats && tame floats e && forallb (fun p => tame floats (snd p)) l
  | XClock e l => tame floats e && forallb (fun p => tame floats (snd p)) l
  | XFby e l | XThen e l => tame floats e && forallb (tame floats) l
  end.
Definition allowed (floats : bool) (s : scalar) : Prop :=
  match s with SFloat _ => floats = true | _ => True end.

Definition stmt_expr (i : sstmt) : sexpr := match i with XDef _ e | XAssert e => e end.
(** The expressions of the node never look before their first instant, have
    steady conditions, and no comparison of floating point numbers. *)
Definition clear (floats : bool) (sn : snode) : Prop :=
  forall i, In i (s_defs sn) ->
    ready true (node_vars sn) 0 (stmt_expr i) /\ steady (declared_pace sn) (stmt_expr i) = true /\ tame floats (stmt_expr i) = true.

(** ** Subexpressions *)
Definition parts (e : sexpr) : list sexpr :=
  match e with
  | XLit _ | XVar _ => []
  | XParen l _ | XCall _ l _ => l
  | XNeg e | XNot e | XPre e => [e]
  | XIf a b c | XMerge a b c => [a; b; c]
  | XBin e l => e :: map snd l
  | XCmp e l => e :: map snd l
  | XClock e l => e :: map snd l
  | XFby e l | XThen e l => e :: l
  end.
Inductive within (a : sexpr) : sexpr -> Prop :=
| wi_here : within a a
| wi_part : forall c e, In c (parts e) -> within a c -> within a e.
(** [a] is an operand of the temporal operator [e]. *)
Definition temporal_operand (a e : sexpr) : Prop :=
  match e with
  | XPre b => a = b
  | XFby b l | XThen b l => l <> [] /\ In a (b :: l)
  | _ => False
  end.
(** No node is called in [e]. *)
Definition call_free (e : sexpr) : Prop := forall f l b, ~ within (XCall f l b) e.
(** No node is called in the operand of a [pre] or after a [->]. *)
Definition calls_undelayed (e : sexpr) : Prop :=
  forall a b, within b e -> match b with XPre c => a = c | XThen _ l => In a l | _ => False end -> call_free a.
