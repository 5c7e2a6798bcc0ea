(** * Type checking: [/repo/chandeliers-san/src/typecheck.rs].

    Equality of names and types ignores positions (chandeliers-san/src/sp.rs:43,
    chandeliers-err/src/transparent.rs:107). *)
From Coq Require Import String List ZArith Bool Arith.
From Verif Require Import Model.Base Model.Scalar Model.Ast Model.Errors Model.Options Model.Interp.
Import ListNotations.

Definition base_eqb (a b : base) : bool :=
  match a, b with
  | BInt, BInt | BFloat, BFloat | BBool, BBool => true
  | BOther x, BOther y => String.eqb x y
  | _, _ => false
  end.

(** typecheck.rs:13-23: generic parameters, inputs and outputs of a node. *)
Record fsig : Type := mkSig { g_params : list ident; g_ins : list base; g_outs : list base }.

(** typecheck.rs:53-71 [TyCtx], read-only part; blocks are indexed by the
    number of the call site. *)
Record tctx : Type := mkTctx {
  c_global : list (ident * base);
  c_vars : list (ident * base);
  c_blocks : list fsig
}.

(** [TyCtx], the part that is filled while checking: types of registers and
    instances of the generics of the blocks.  Latest first.  It is only read
    once the whole node has been accepted, hence the part written by an
    expression that failed is not kept. *)
Record tyst : Type := mkTyst {
  y_regs : list (nat * ty);
  y_gens : list (nat * list base)
}.
Definition tyst0 : tyst := mkTyst [] [].

Fixpoint lookup_nat {A} (n : nat) (l : list (nat * A)) : option A :=
  match l with
  | [] => None
  | (m, a) :: l => if n =? m then Some a else lookup_nat n l
  end.

(** typecheck.rs:761-784 [TyUnifier]: [UIdentity] for [Identity] and [Null],
    which do not differ on the operations used with them; [UMapping] is the
    list of the generics with their current image. *)
Inductive unifier : Type :=
| UIdentity
| UMapping (m : list (ident * option base)).

(** typecheck.rs:796-812 [from_generics] *)
Fixpoint from_generics (l : list ident) : out unifier :=
  match l with
  | [] => done (UMapping [])
  | g :: l =>
      u <~ from_generics l;;
      match u with
      | UMapping m => if existsb (String.eqb g) l then Abort else done (UMapping ((g, None) :: m))
      | UIdentity => done UIdentity
      end
  end.

(** typecheck.rs:847-912 [require_identical] *)
Definition require_identical (u : unifier) (l r : base) : out unifier :=
  match l with
  | BInt | BFloat | BBool => if base_eqb l r then done u else fail ETypeMismatch
  | BOther x =>
      match u with
      | UMapping m =>
          match lookup x m with
          | None => Abort                                         (* unimplemented!() *)
          | Some None =>
              done (UMapping (map (fun '(y, o) => (y, if String.eqb x y then Some r else o)) m))
          | Some (Some v) => if base_eqb v r then done u else fail EUnsatGeneric
          end
      | UIdentity => if base_eqb l r then done u else fail ETypeMismatch
      end
  end.

(** typecheck.rs:957-1008 [identical]. In a tuple every component is compared,
    even after a mismatch; the unifier keeps what the failed ones learned only
    for the sake of further diagnostics, here it is dropped with them. *)
Fixpoint identical (u : unifier) (a b : ty) {struct a} : out unifier :=
  match a, b with
  | TSingle l, TSingle r => require_identical u l r
  | TMult ts, TMult us =>
      if length ts =? length us then
        r <~ (fix go (u : unifier) (ts us : list ty) {struct ts} : out (option unifier) :=
           match ts, us with
           | t :: ts, v :: us =>
               r <~ attempt (identical u t v);;
               match r with
               | Some u => go u ts us
               | None => _ <~ go u ts us;; done None
               end
           | _, _ => done (Some u)
           end) u ts us;;
        need r
      else fail ETypeMismatch
  | _, _ => fail ETypeMismatch
  end.

(** typecheck.rs:1014-1021 [is_primitive] *)
Definition is_primitive (t : ty) : out base :=
  match t with TSingle b => done b | TMult _ => fail EScalarNotTuple end.

(** typecheck.rs:739-750 [is_bool] *)
Definition is_bool (b : base) : out unit :=
  match b with BBool => done tt | _ => fail EBoolRequired end.

(** typecheck.rs:597-650 *)
Definition bin_accepts (op : binop) (l r : base) : out unit :=
  if base_eqb l r then
    match op, l with
    | (Add | Mul | Sub | Div), (BInt | BFloat) => done tt
    | Rem, BInt => done tt
    | (BitAnd | BitOr | BitXor), (BInt | BBool) => done tt
    | _, _ => fail EBinopMismatch
    end
  else fail EBinopMismatch.

(** typecheck.rs:652-681 *)
Definition un_accepts (op : unop) (b : base) : out unit :=
  match op, b with
  | Neg, (BInt | BFloat) => done tt
  | Not, (BInt | BBool) => done tt
  | _, _ => fail EUnopMismatch
  end.

(** typecheck.rs:683-728 *)
Definition cmp_accepts (op : cmpop) (l r : base) : out unit :=
  if base_eqb l r then
    match op, l with
    | (Le | Ge | Lt | Gt), (BInt | BBool | BFloat) => done tt
    | (Ne | Eq), (BInt | BBool) => done tt
    | _, _ => fail EBinopMismatch
    end
  else fail EBinopMismatch.

(** typecheck.rs:1026-1049 [as_flat_tytuple] *)
Definition flat (l : list base) : ty :=
  match l with
  | [b] => TSingle b
  | l => TMult (map TSingle l)
  end.

(** typecheck.rs:193-219 [instantiate] *)
Fixpoint instances (m : list (ident * option base)) : out (list base) :=
  match m with
  | [] => done []
  | (_, None) :: _ => Abort
  | (_, Some b) :: m => l <~ instances m;; done (b :: l)
  end.

(** typecheck.rs:822-840 [image], 919-950 [substitute]; called after
    [instantiate], when no image is missing. *)
Definition subst_base (m : list (ident * option base)) (b : base) : base :=
  match b with
  | BOther x => match lookup x m with Some (Some v) => v | _ => b end
  | b => b
  end.
Fixpoint subst_ty (m : list (ident * option base)) (t : ty) : ty :=
  match t with
  | TSingle b => TSingle (subst_base m b)
  | TMult l => TMult (map (subst_ty m) l)
  end.

(** A value computed without [?], with the state it leads to. *)
Definition next_st {A} (r : option (A * tyst)) (s : tyst) : tyst :=
  match r with Some (_, s) => s | None => s end.
Definition primitive (x : out (ty * tyst)) : out (base * tyst) :=
  '(t, s) <~ x;; b <~ is_primitive t;; done (b, s).

(** typecheck.rs:529-544 *)
Definition lit_base (l : lit) : base :=
  match l with LInt _ => BInt | LFloat _ => BFloat | LBool _ => BBool end.

Section Expr.
  Variable ctx : tctx.

  (** typecheck.rs:330-467 *)
  Fixpoint tc (e : expr) (s : tyst) {struct e} : out (ty * tyst) :=
    match e with
    | ELit l => done (TSingle (lit_base l), s)
    | EVar x _ =>                                               (* typecheck.rs:93-113 *)
        match lookup x (c_vars ctx) with Some b => done (TSingle b, s) | None => fail EVarNotFound end
    | EGlobal x =>                                              (* typecheck.rs:142-162 *)
        match lookup x (c_global ctx) with Some b => done (TSingle b, s) | None => fail EVarNotFound end
    | ETuple l =>
        '(ts, s) <~ (fix go (l : list expr) (s : tyst) {struct l} : out (list ty * tyst) :=
           match l with
           | [] => done ([], s)
           | e :: l => '(t, s) <~ tc e s;; '(ts, s) <~ go l s;; done (t :: ts, s)
           end) l s;;
        done (TMult ts, s)
    | EPre e | EParen e => tc e s
    | EBin op a b =>
        l <~ attempt (primitive (tc a s));;
        r <~ attempt (primitive (tc b (next_st l s)));;
        '(l, _) <~ need l;;
        '(r, s) <~ need r;;
        _ <~ bin_accepts op l r;;
        done (TSingle l, s)
    | EUn op a =>
        '(b, s) <~ primitive (tc a s);;
        _ <~ un_accepts op b;;
        done (TSingle b, s)
    | ECmp op a b =>
        l <~ attempt (primitive (tc a s));;
        r <~ attempt (primitive (tc b (next_st l s)));;
        '(l, _) <~ need l;;
        '(r, s) <~ need r;;
        _ <~ cmp_accepts op l r;;
        done (TSingle BBool, s)
    | ELater _ a b | EFlip _ a b =>
        l <~ attempt (tc a s);;
        r <~ attempt (tc b (next_st l s));;
        '(l, _) <~ need l;;
        '(r, s) <~ need r;;
        _ <~ identical UIdentity l r;;
        done (l, s)
    | EIf c a b =>
        c <~ attempt (primitive (tc c s));;
        y <~ attempt (tc a (next_st c s));;
        n <~ attempt (tc b (next_st y (next_st c s)));;
        '(c, _) <~ need c;;
        _ <~ is_bool c;;
        '(y, _) <~ need y;;
        '(n, s) <~ need n;;
        _ <~ identical UIdentity y n;;
        done (y, s)
    | ESub _ id args =>
        match nth_error (c_blocks ctx) id with
        | None => Abort
        | Some f =>
            '(actual, s) <~ tc args s;;
            u <~ from_generics (g_params f);;
            u <~ identical u (flat (g_ins f)) actual;;
            match u with
            | UMapping m =>
                inst <~ instances m;;
                done (subst_ty m (flat (g_outs f)), mkTyst (y_regs s) ((id, inst) :: y_gens s))
            | UIdentity => Abort                                   (* not returned by from_generics *)
            end
        end
    | EClock _ inner act =>
        a <~ attempt (primitive (tc act s));;
        '(t, s) <~ tc inner (next_st a s);;
        '(a, _) <~ need a;;
        _ <~ is_bool a;;
        done (t, s)
    | EMerge c a b =>
        '(c, s) <~ tc c s;;
        '(x, s) <~ tc a s;;
        '(y, s) <~ tc b s;;
        c <~ is_primitive c;;
        _ <~ is_bool c;;
        _ <~ identical UIdentity x y;;
        done (x, s)
    | EFetch id init next =>
        '(t, s) <~ tc next s;;
        s <~ match init with
             | Some i => '(ti, s) <~ tc i s;; _ <~ identical UIdentity t ti;; done s
             | None => done s
             end;;
        done (t, mkTyst ((id, t) :: y_regs s) (y_gens s))
    end.

  (** Name for the local loop of [ETuple]. *)
  Fixpoint tcs (l : list expr) (s : tyst) : out (list ty * tyst) :=
    match l with
    | [] => done ([], s)
    | e :: l => '(t, s) <~ tc e s;; '(ts, s) <~ tcs l s;; done (t :: ts, s)
    end.

  (** typecheck.rs:567-594 *)
  Fixpoint tc_target (t : vartuple) : out ty :=
    match t with
    | VTSingle x =>
        match lookup x (c_vars ctx) with Some b => done (TSingle b) | None => fail EVarNotFound end
    | VTMult l => ts <~ omap tc_target l;; done (TMult ts)
    end.

  (** typecheck.rs:300-325 *)
  Definition tc_stmt (i : stmt) (s : tyst) : out tyst :=
    match i with
    | SLet t e =>
        t <~ attempt (tc_target t);;
        r <~ attempt (tc e s);;
        t <~ need t;;
        '(r, s) <~ need r;;
        _ <~ identical UIdentity t r;;
        done s
    | SAssert e =>
        '(b, s) <~ primitive (tc e s);;
        _ <~ is_bool b;;
        done s
    | SUpdate _ _ | SInit _ _ _ => done s
    end.

  (** typecheck.rs:1225-1229 *)
  Fixpoint tc_stmts (l : list stmt) (s : tyst) : out (option tyst) :=
    match l with
    | [] => done (Some s)
    | i :: l =>
        r <~ attempt (tc_stmt i s);;
        match r with
        | Some s => tc_stmts l s
        | None => _ <~ tc_stmts l s;; done None
        end
    end.
End Expr.

(** typecheck.rs:469-526 *)
Fixpoint is_const (e : expr) : out unit :=
  match e with
  | ELit _ | EVar _ _ | EGlobal _ => done tt
  | EBin _ a b | ECmp _ a b =>
      l <~ attempt (is_const a);; r <~ attempt (is_const b);;
      _ <~ need l;; need r
  | EParen e | EUn _ e => is_const e
  | EIf c a b =>
      c <~ attempt (is_const c);; y <~ attempt (is_const a);; n <~ attempt (is_const b);;
      _ <~ need c;; _ <~ need y;; need n
  | ETuple _ | EPre _ | ELater _ _ _ | EFetch _ _ _ | EFlip _ _ _ | ESub _ _ _ | EMerge _ _ _ | EClock _ _ _ =>
      fail ENotConst
  end.

(** typecheck.rs:1402-1426 [ty::Clock] *)
Definition tc_clock (vars : list (ident * base)) (c : clock) : out unit :=
  match c with
  | CImplicit | CAdaptative => done tt
  | CExplicit _ x =>
      match lookup x vars with
      | Some b => is_bool b
      | None => fail ETyVarNotFound
      end
  end.

(** typecheck.rs:1184-1211: declare the variables in order. *)
Fixpoint tc_vars (l : list tyvar) (vars : list (ident * base)) : out (bool * list (ident * base)) :=
  match l with
  | [] => done (true, vars)
  | v :: l =>
      fresh <~ match lookup (v_name v) vars with
               | Some _ => r <~ attempt (fail (A := unit) EDeclTwice);; done false
               | None => done true
               end;;
      ok <~ attempt (tc_clock vars (v_clk v));;
      '(rest, vars) <~ tc_vars l ((v_name v, v_base v) :: vars);;
      done (fresh && match ok with Some _ => true | None => false end && rest, vars)
  end.

(** typecheck.rs:1147-1182: generic parameters, for a node and (without locals)
    for an extern node. *)
Definition tc_declared (declared : list ident) (v : tyvar) : out unit :=
  match v_base v with
  | BOther t => if existsb (String.eqb t) declared then done tt else fail EUndeclaredGeneric
  | _ => done tt
  end.
Definition is_used (ins : list tyvar) (g : ident) : bool :=
  existsb (fun v => base_eqb (v_base v) (BOther g)) ins.
Definition tc_generics (declared : list ident) (ins others : list tyvar) : out unit :=
  _ <~ each (tc_declared declared) ins;;
  _ <~ each (tc_declared declared) others;;
  each (fun g => if is_used ins g then done tt else fail EUnusedGeneric) declared.

(** typecheck.rs:1128-1145, 1293-1310 *)
Definition tc_executable (exec : bool) (ins outs : list tyvar) : out unit :=
  match exec, ins, outs with
  | false, _, _ => done tt
  | true, [], [] => done tt
  | true, _, _ => fail EExecutableNodeSig
  end.

Definition is_set {A} (o : option A) : bool := match o with Some _ => true | None => false end.

(** typecheck.rs:1252-1274 [signature] *)
Definition node_sig (o : node_opts) (nd : node) : fsig :=
  mkSig (o_generics o) (map v_base (n_inputs nd)) (map v_base (n_outputs nd)).
Definition ext_sig (o : ext_node_opts) (ins outs : list tyvar) : fsig :=
  mkSig (oe_generics o) (map v_base ins) (map v_base outs).

Fixpoint tc_blocks (funs : list (ident * fsig)) (l : list ident) : out (list fsig) :=
  match l with
  | [] => done []
  | f :: l =>
      match lookup f funs with
      | Some g => gs <~ tc_blocks funs l;; done (g :: gs)
      | None => fail EFunNotFound
      end
  end.

(** typecheck.rs:1110-1244. The result is the node with the types of its
    registers, and the instances of the generics of its blocks. *)
Definition tc_node (globals : list (ident * base)) (funs : list (ident * fsig)) (o : node_opts) (nd : node)
  : out (node * list (option (list base))) :=
  _ <~ tc_executable (is_set (o_main o) || is_set (o_test o)) (n_inputs nd) (n_outputs nd);;
  _ <~ tc_generics (o_generics o) (n_inputs nd) (n_outputs nd ++ n_locals nd);;
  '(ok, vars) <~ tc_vars (n_inputs nd ++ n_outputs nd ++ n_locals nd) [];;
  _ <~ scope_close ok;;
  blocks <~ tc_blocks funs (n_blocks nd);;
  s <~ tc_stmts (mkTctx globals vars blocks) (n_stmts nd) tyst0;;
  s <~ need s;;
  done (mkNode (n_name nd) (n_inputs nd) (n_outputs nd) (n_locals nd) (n_blocks nd) (n_stmts nd)
          (map (fun id => lookup_nat id (y_regs s)) (seq 0 (length (n_regs nd)))) (n_flips nd),
        map (fun id => lookup_nat id (y_gens s)) (seq 0 (length (n_blocks nd)))).

(** typecheck.rs:1275-1368 *)
Definition tc_ext_node (o : ext_node_opts) (ins outs : list tyvar) : out unit :=
  _ <~ tc_executable (is_set (oe_main o)) ins outs;;
  _ <~ tc_generics (oe_generics o) ins outs;;
  '(ok, _) <~ tc_vars (ins ++ outs) [];;
  scope_close ok.

(** typecheck.rs:1428-1450 *)
Definition tc_const (globals : list (ident * base)) (t : base) (e : expr) : out unit :=
  _ <~ is_const e;;
  '(r, _) <~ tc (mkTctx globals [] []) e tyst0;;
  _ <~ identical UIdentity (TSingle t) r;;
  done tt.

(** typecheck.rs:1483-1556: the signature of a declaration is recorded whether
    or not it was accepted.  The result keeps the declarations (a refused one is
    returned unchanged) and whether all were accepted. *)
Fixpoint tc_decls (globals : list (ident * base)) (funs : list (ident * fsig)) (l : list decl)
  : out (bool * list decl) :=
  match l with
  | [] => done (true, [])
  | d :: l =>
      r <~ attempt (match d with
                    | DConst o x t e => _ <~ tc_const globals t e;; done d
                    | DNode o nd => '(nd, _) <~ tc_node globals funs o nd;; done (DNode o nd)
                    | DExtConst o x t => done d
                    | DExtNode o x i o' => _ <~ tc_ext_node o i o';; done d
                    end);;
      '(globals, funs) <~
        match d with
        | DConst _ x t _ | DExtConst _ x t =>
            match lookup x globals with Some _ => Abort | None => done ((x, t) :: globals, funs) end
        | DNode o nd =>
            match lookup (n_name nd) funs with
            | Some _ => Abort
            | None => done (globals, (n_name nd, node_sig o nd) :: funs)
            end
        | DExtNode o x i o' =>
            match lookup x funs with
            | Some _ => Abort
            | None => done (globals, (x, ext_sig o i o') :: funs)
            end
        end;;
      '(ok, ds) <~ tc_decls globals funs l;;
      done (is_set r && ok, (match r with Some d => d | None => d end) :: ds)
  end.

Definition typecheck (l : list decl) : out (list decl) :=
  '(ok, l) <~ tc_decls [] [] l;;
  _ <~ scope_close ok;;
  done l.
