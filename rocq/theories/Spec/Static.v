(** * Which programs are accepted: the static rules of the language. *)
From Coq Require Import String List ZArith Bool Arith Permutation.
From Verif Require Import Model.Base Model.Scalar Model.Value Model.Ast Model.Interp Model.Options Model.Surface
  Spec.OrderSpec Spec.ProgramSem Spec.SourceCausal Spec.TypeSpec Spec.ClockSpec Spec.RangeSpec Spec.AttrSpec Spec.ConstSpec Spec.CrashSpec.
Import ListNotations.
Local Open Scope string_scope.
Local Open Scope list_scope.

(** ** Types *)
(** Type parameters, types of the inputs and of the outputs of a node. *)
Definition interface : Type := (list ident * (list base * list base))%type.

Section Typed.
  Variables vars consts : ident -> option base.
  Variable nodes : ident -> option interface.

  Definition name_type (x : ident) : option base :=
    match vars x with Some b => Some b | None => consts x end.

  Inductive typed : sexpr -> ty -> Prop :=
  | t_bool : forall b, typed (XLit (SLBool b)) (TSingle BBool)
  | t_int : forall z, typed (XLit (SLInt z)) (TSingle BInt)
  | t_float : forall f, typed (XLit (SLFloat f)) (TSingle BFloat)
  | t_var : forall x b, name_type x = Some b -> typed (XVar x) (TSingle b)
  | t_paren : forall e t, typed e t -> typed (XParen [e] false) t
  | t_tuple : forall l b ts, (forall e, l = [e] -> b = true) -> Forall2 typed l ts -> typed (XParen l b) (TMult ts)
  | t_call : forall f l b params ins outs sigma, nodes f = Some (params, (ins, outs)) -> NoDup params ->
      typed (XParen l b) (tuple_ty (map (inst_base sigma) ins)) ->
      typed (XCall f l b) (tuple_ty (map (inst_base sigma) outs))
  | t_neg : forall e b, typed e (TSingle b) -> un_type Neg b -> typed (XNeg e) (TSingle b)
  | t_not : forall e b, typed e (TSingle b) -> un_type Not b -> typed (XNot e) (TSingle b)
  | t_pre : forall e t, typed e t -> typed (XPre e) t
  | t_if : forall c a b t, typed c (TSingle BBool) -> typed a t -> typed b t -> typed (XIf c a b) t
  | t_merge : forall c a b t, typed c (TSingle BBool) -> typed a t -> typed b t -> typed (XMerge c a b) t
  | t_bin0 : forall e t, typed e t -> typed (XBin e []) t
  | t_bin : forall e l b, l <> [] -> typed e (TSingle b) ->
      Forall (fun p => bin_type (fst p) b /\ typed (snd p) (TSingle b)) l -> typed (XBin e l) (TSingle b)
  | t_cmp0 : forall e t, typed e t -> typed (XCmp e []) t
  | t_cmp : forall e op e' b, typed e (TSingle b) -> typed e' (TSingle b) -> cmp_type op b ->
      typed (XCmp e [(op, e')]) (TSingle BBool)
  | t_clock : forall e l t, typed e t -> Forall (fun p => typed (snd p) (TSingle BBool)) l -> typed (XClock e l) t
  | t_fby : forall e l t, typed e t -> Forall (fun e => typed e t) l -> typed (XFby e l) t
  | t_then : forall e l t, typed e t -> Forall (fun e => typed e t) l -> typed (XThen e l) t.

  (** Left hand sides; parentheses around one pattern change nothing. *)
  Inductive pattern_typed : starget -> ty -> Prop :=
  | p_var : forall x b, vars x = Some b -> pattern_typed (TVar x) (TSingle b)
  | p_paren : forall p t, pattern_typed p t -> pattern_typed (TTuple [p] false) t
  | p_tuple : forall l b ts, (forall p, l = [p] -> b = true) -> Forall2 pattern_typed l ts -> pattern_typed (TTuple l b) (TMult ts).

  Definition stmt_typed (i : sstmt) : Prop :=
    match i with
    | XDef p e => exists t, pattern_typed p t /\ typed e t
    | XAssert e => typed e (TSingle BBool)
    end.
End Typed.

(** ** Clocks *)
(** The clock of an expression as it is checked, in both modes.  In default mode
    this is [pace_of], except that [fby] and [->] have the clock of their first
    operand whatever the clocks of the others are. *)
Section Checked.
  Variable universal : bool.
  Variable env : ident -> option pace.
  Fixpoint checked_pace (e : sexpr) : option pace :=
    match e with
    | XLit _ => Some Free
    | XVar x => Some (pace_var env x)
    | XParen l _ | XCall _ l _ => uniform (map checked_pace l)
    | XNeg e | XNot e => checked_pace e
    | XPre e => if universal || never_slow (checked_pace e) then checked_pace e else None
    | XIf c a b => meets [checked_pace a; checked_pace b] (checked_pace c)
    | XMerge c a b =>
        pbind (driver env c) (fun x =>
        pbind (checked_pace a) (fun ka => pbind (meet ka (On true x)) (fun _ =>
        pbind (checked_pace b) (fun kb => pbind (meet kb (On false x)) (fun _ => Some (pace_var env x))))))
    | XBin e l => meets (map (fun p => checked_pace (snd p)) l) (checked_pace e)
    | XCmp e l => meets (map (fun p => checked_pace (snd p)) l) (checked_pace e)
    | XClock e l => fold_left (sample env) l (checked_pace e)
    | XFby e l | XThen e l =>
        if universal then uniform (rev (checked_pace e :: map checked_pace l))
        else fold_right (fun e k => pbind (checked_pace e) (fun _ => k)) (checked_pace e) l
    end.
  Definition stmt_paced (i : sstmt) : Prop :=
    match i with
    | XAssert e => exists k, checked_pace e = Some k /\ slow k = false
    | XDef t e => exists k kt, checked_pace e = Some k /\ pace_target env t = Some kt /\
        (binds_nothing t = true \/ same_pace kt k = true)
    end.
End Checked.

(** ** Past values *)
(** With [#[universal_pre]], [pre] is only accepted on the right of [->]: one
    more [->] for each nested [pre]. *)
Fixpoint covered (n : nat) (e : sexpr) : Prop :=
  match e with
  | XLit _ | XVar _ => True
  | XParen l _ | XCall _ l _ => all_of (covered n) l
  | XNeg e | XNot e => covered n e
  | XPre e => match n with 0 => False | S n => covered n e end
  | XIf a b c | XMerge a b c => covered n a /\ covered n b /\ covered n c
  | XBin e l => covered n e /\ all_of (fun p => covered n (snd p)) l
  | XCmp e l => covered n e /\ all_of (fun p => covered n (snd p)) l
  | XClock e l => covered n e /\ all_of (fun p => covered n (snd p)) l
  | XFby e l => covered n e /\ all_of (covered n) l
  | XThen e l => covered n e /\
      (fix go (i : nat) (l : list sexpr) : Prop :=
         match l with [] => True | e :: l => covered i e /\ go (S i) l end) (S n) l
  end.
Definition past_ok (universal : bool) (vars : list ident) (e : sexpr) : Prop :=
  if universal then covered 0 e else ready false vars 0 e.

(** ** Declarations *)
(** Variables with their type and clock, in the order of the declarations. *)
Definition variables (l : sdecls) : list (ident * (base * clock)) :=
  flat_map (fun '(xs, bc) => map (fun x => (x, bc)) xs) l.
Definition types (l : sdecls) : list base := map (fun v => fst (snd v)) (variables l).

(** No two variables have the same name, and the clock of a variable is a
    boolean declared before it. *)
Definition well_declared (l : sdecls) : Prop :=
  NoDup (declared l) /\
  forall before x b pos y after, variables l = before ++ (x, (b, CExplicit pos y)) :: after ->
    exists c, In (y, (BBool, c)) before.
(** Inputs and outputs have a value at every instant. *)
Definition always (l : sdecls) : Prop :=
  forall x b c, In (x, (b, c)) (variables l) -> slow (clock_pace c) = false.
(** All the type variables are parameters, all the parameters occur in the inputs. *)
Definition well_parametrised (params : list ident) (ins others : sdecls) : Prop :=
  (forall t, In (BOther t) (types (ins ++ others)) -> In t params) /\
  (forall t, In t params -> In (BOther t) (types ins)).
(** A node that is run has neither inputs nor outputs. *)
Definition runnable (executed : Prop) (ins outs : sdecls) : Prop :=
  executed -> declared (ins ++ outs) = [].

(** What can be computed before the program runs. *)
Fixpoint constant_expr (e : sexpr) : Prop :=
  match e with
  | XLit _ | XVar _ => True
  | XParen [e] false | XNeg e | XNot e => constant_expr e
  | XIf a b c => constant_expr a /\ constant_expr b /\ constant_expr c
  | XBin e l => constant_expr e /\ all_of (fun p => constant_expr (snd p)) l
  | XCmp e l => constant_expr e /\ all_of (fun p => constant_expr (snd p)) l
  | XClock e [] | XFby e [] | XThen e [] => constant_expr e
  | XParen _ _ | XCall _ _ _ | XPre _ | XMerge _ _ _ | XClock _ _ | XFby _ _ | XThen _ _ => False
  end.

Definition attribute_is (x : string) (a : list attribute) : Prop := In x (map a_action a).
Definition attributes_ok (a : sattrdecl) : Prop :=
  exists es, Forall2 means (fst a) es /\ Forall countable es /\ Forall (applies (snd a)) es.

(** ** Programs *)
Definition constant_of (a : sattrdecl) : list (ident * base) :=
  match snd a with XConst x t _ | XExtConst x t => [(x, t)] | _ => [] end.
Definition interface_of (a : sattrdecl) : list (ident * interface) :=
  match snd a with
  | XNode sn => [(s_name sn, (type_params (fst a), (types (s_inputs sn), types (s_outputs sn))))]
  | XExtNode x i o => [(x, (type_params (fst a), (types i, types o)))]
  | _ => []
  end.

Definition node_ok (p : sprog) (a : list attribute) (sn : snode) : Prop :=
  let universal := existsb (String.eqb "universal_pre") (map a_action a) in
  let all := s_inputs sn ++ s_outputs sn ++ s_locals sn in
  let var_type x := option_map fst (lookup x (variables all)) in
  let const_type x := lookup x (flat_map constant_of p) in
  let node_type f := lookup f (flat_map interface_of p) in
  runnable (attribute_is "main" a \/ attribute_is "test" a) (s_inputs sn) (s_outputs sn) /\
  well_parametrised (type_params a) (s_inputs sn) (s_outputs sn ++ s_locals sn) /\
  well_declared all /\ always (s_inputs sn ++ s_outputs sn) /\
  solvable sn /\
  forall i, In i (s_defs sn) ->
    stmt_typed var_type const_type node_type i /\
    stmt_paced universal (declared_pace sn) i /\
    past_ok universal (node_vars sn) (right_side i).

Definition decl_ok (p : sprog) (a : sattrdecl) : Prop :=
  attributes_ok a /\ small_literals (snd a) /\
  match snd a with
  | XConst x t e => constant_expr e /\
      typed (fun _ => None) (fun x => lookup x (flat_map constant_of p)) (fun _ => None) e (TSingle t)
  | XNode sn => node_ok p (fst a) sn
  | XExtConst x t => True
  | XExtNode x i o =>
      runnable (attribute_is "main" (fst a)) i o /\ well_parametrised (type_params (fst a)) i o /\
      well_declared (i ++ o) /\ always (i ++ o)
  end.

(** Constants and nodes are in separate name spaces. *)
Inductive entity : Type := Constant (x : ident) | Node (x : ident).
Definition introduces (d : sdecl) : entity :=
  match d with
  | XConst x _ _ | XExtConst x _ => Constant x
  | XNode sn => Node (s_name sn)
  | XExtNode x _ _ => Node x
  end.
(** The names in the expressions of a node are constants, unless they are its variables. *)
Definition mentions (d : sdecl) (n : entity) : Prop :=
  exists e, In e (expressions d) /\
    match n with
    | Constant x => In x (names e) /\ match d with XNode sn => ~ In x (node_vars sn) | _ => True end
    | Node f => In f (callees e)
    end.
Definition follows (p : sprog) (i j : nat) : Prop :=
  exists a b, nth_error p i = Some a /\ nth_error p j = Some b /\ mentions (snd a) (introduces (snd b)).
Inductive follows_plus (p : sprog) : nat -> nat -> Prop :=
| fp_one : forall i j, follows p i j -> follows_plus p i j
| fp_more : forall i j k, follows p i j -> follows_plus p j k -> follows_plus p i k.

(** Every declaration obeys the rules, no name is declared twice, and no
    declaration depends on itself. *)
Definition well_formed (p : sprog) : Prop :=
  (forall a, In a p -> decl_ok p a) /\
  NoDup (map (fun a => introduces (snd a)) p) /\
  forall i, ~ follows_plus p i i.

(** The same program, up to the order of its declarations and of the equations
    of each node. *)
Definition rewritten (p q : sprog) : Prop :=
  exists p', Permutation p p' /\ Forall2 (fun a b => fst a = fst b /\ same_decl a b) p' q.
