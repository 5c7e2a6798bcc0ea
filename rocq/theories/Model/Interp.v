(** * Meaning of the generated step functions.

    The code generator [/repo/chandeliers-san/src/codegen/mod.rs] turns every
    node into a struct and a [step] method whose body is a sequence of macro
    calls of [/repo/chandeliers-sem/src/candle.rs].  This file executes exactly
    that sequence of operations on the analysis AST. *)
From Coq Require Import String List ZArith Bool Arith.
From Verif Require Import Model.Base Model.Scalar Model.Value Model.History Model.Register Model.Ast.
Import ListNotations.

(** Association lists keyed by names; the most recent binding comes first
    (Rust [let] shadowing). *)
Fixpoint lookup {A} (x : ident) (l : list (ident * A)) : option A :=
  match l with
  | [] => None
  | (y, a) :: l => if String.eqb x y then Some a else lookup x l
  end.

Definition store := list (ident * nillable).

(** codegen/mod.rs:497-510: the fields of the generated struct.
    Simplification: [__clock] is an unbounded number (Rust: [usize]). *)
Inductive inst : Type :=
| Inst (clock : nat) (hists : list (ident * hist)) (regs : list register)
       (flips : list bool) (subs : list inst).

Definition i_clock (i : inst) := let 'Inst c _ _ _ _ := i in c.
Definition i_hists (i : inst) := let 'Inst _ h _ _ _ := i in h.
Definition i_regs (i : inst) := let 'Inst _ _ r _ _ := i in r.
Definition i_flips (i : inst) := let 'Inst _ _ _ f _ := i in f.
Definition i_subs (i : inst) := let 'Inst _ _ _ _ s := i in s.

(** The part of the state an expression can modify. *)
Record estate : Type := mkEs { es_flips : list bool; es_subs : list inst }.

Definition lit_scalar (l : lit) : scalar :=
  match l with LInt z => SInt z | LFloat f => SFloat f | LBool b => SBool b end.

(** codegen/mod.rs:1089-1092 [Tuple => ( elems ).embed()]: the empty tuple is
    [Defined(())], a single element is just parenthesised. *)
Definition tuple_val (l : list val) : val :=
  match l with
  | [] => VS (Defined SUnit)
  | [v] => v
  | l => VT l
  end.

(** Same tree structure (rustc: same tuple type up to scalars). *)
Fixpoint same_shapeb (a b : val) : bool :=
  match a, b with
  | VS _, VS _ => true
  | VT l, VT l' =>
      (fix go l l' := match l, l' with
         | [], [] => true
         | a :: l, b :: l' => same_shapeb a b && go l l'
         | _, _ => false end) l l'
  | _, _ => false
  end.

Section Eval.
  Variable mode : ovf.
  Variable glob : ident -> option scalar.     (* global constants *)
  Variable clk : nat.                         (* self.__clock *)
  Variable hists : list (ident * hist).       (* history fields *)
  Variable call : nat -> inst -> val -> res (val * inst).   (* step of block [id] *)
  Variable nilout : nat -> res val.           (* all-nil outputs of block [id] *)

  (** codegen/mod.rs:1077-1165 [ToTokens for Expr], through the macros of
      candle.rs.  [regs] and [st] are the registers and the local variables at
      this point of the step. *)
  Section Expr.
    Variable regs : list register.
    Variable st : store.

    Fixpoint eval (e : expr) (s : estate) {struct e} : res (val * estate) :=
      match e with
      | ELit l => Ok (VS (Defined (lit_scalar l)), s)
      | EVar x 0 =>                                   (* candle.rs:236-239 *)
          n <- of_option PUnbound (lookup x st);; Ok (VS n, s)
      | EVar x (S d) =>          (* candle.rs:240-243; no history field: nothing is stored *)
          h <- of_option PPast (lookup x hists);;
          n <- ago h (S d);; Ok (VS n, s)
      | EGlobal x =>                                  (* codegen/mod.rs:941-946 *)
          g <- of_option PUnbound (glob x);; Ok (VS (Defined g), s)
      | ETuple l =>
          '(vs, s) <- (fix evals (l : list expr) (s : estate) : res (list val * estate) :=
             match l with
             | [] => Ok ([], s)
             | e :: l =>
                 '(v, s) <- eval e s;;
                 '(vs, s) <- evals l s;;
                 Ok (v :: vs, s)
             end) l s;;
          Ok (tuple_val vs, s)
      | EPre e => eval e s                            (* codegen/mod.rs:1088 *)
      | EParen e => eval e s
      | EBin op a b =>                                (* candle.rs:371 *)
          '(x, s) <- eval a s;; '(y, s) <- eval b s;;
          r <- val_bin mode op x y;; Ok (r, s)
      | EUn op a =>
          '(x, s) <- eval a s;; r <- val_un mode op x;; Ok (r, s)
      | ECmp op a b =>
          '(x, s) <- eval a s;; '(y, s) <- eval b s;;
          r <- val_cmp op x y;; Ok (r, s)
      | EClock pos inner activate =>                  (* candle.rs:466-492 *)
          '(b, s) <- eval activate s;; '(x, s) <- eval inner s;;
          r <- val_when pos b x;; Ok (r, s)
      | ELater delay before after =>                  (* candle.rs:305-314 *)
          '(rhs, s) <- eval after s;;
          if delay <? clk then Ok (rhs, s) else eval before s
      | EFetch id _ _ =>                              (* codegen/mod.rs:1135 *)
          r <- of_option PType (nth_error regs id);; Ok (reg_get r, s)
      | EFlip id initial continued =>                 (* codegen/mod.rs:1138-1162 *)
          '(i, s) <- eval initial s;;
          '(c, s) <- eval continued s;;
          f <- of_option PType (nth_error (es_flips s) id);;
          let '(v, f) := flip_instant f i c in
          Ok (v, mkEs (set_nth id f (es_flips s)) (es_subs s))
      | EIf c y n =>                                  (* candle.rs:350-361 *)
          '(yes, s) <- eval y s;; '(no, s) <- eval n s;; '(b, s) <- eval c s;;
          r <- val_ifx b yes no;; Ok (r, s)
      | EMerge switch on off =>                       (* candle.rs:499-511: $b is evaluated twice *)
          '(b, s) <- eval switch s;; '(x, s) <- eval on s;; '(y, s) <- eval off s;;
          '(b, s) <- eval switch s;;
          r <- val_merge b x y;; Ok (r, s)
      | ESub delay id args =>                         (* candle.rs:328-340 *)
          if delay <=? clk then
            '(a, s) <- eval args s;;
            sub <- of_option PType (nth_error (es_subs s) id);;
            '(v, sub) <- call id sub a;;
            Ok (v, mkEs (es_flips s) (set_nth id sub (es_subs s)))
          else
            v <- nilout id;; Ok (v, s)
      end.

    (** Name for the local loop of [ETuple]. *)
    Fixpoint evals (l : list expr) (s : estate) : res (list val * estate) :=
      match l with
      | [] => Ok ([], s)
      | e :: l =>
          '(v, s) <- eval e s;;
          '(vs, s) <- evals l s;;
          Ok (v :: vs, s)
      end.
  End Expr.

  (** codegen/mod.rs:1047-1070: destructuring of a value by a [let] pattern. *)
  Fixpoint bind_target (t : vartuple) (v : val) (st : store) {struct t} : res store :=
    match t with
    | VTSingle x => match v with VS n => Ok ((x, n) :: st) | VT _ => Panic PType end
    | VTMult [] => Ok st
    | VTMult [t] => bind_target t v st
    | VTMult l =>
        match v with
        | VS _ => Panic PType
        | VT vs =>
            (fix go (l : list vartuple) (vs : list val) (st : store) : res store :=
               match l, vs with
               | [], [] => Ok st
               | t :: l, v :: vs => st <- bind_target t v st;; go l vs st
               | _, _ => Panic PType
               end) l vs st
        end
    end.

  (** State of the execution of a step. *)
  Record sstate : Type := mkSs { ss_store : store; ss_regs : list register; ss_es : estate }.

  (** codegen/mod.rs:1009-1045 [ToTokens for Statement]. A register operation
      on a value of another tuple structure is a rustc type error. *)
  Definition exec (s : stmt) (ss : sstate) : res sstate :=
    let '(mkSs st regs es) := ss in
    match s with
    | SLet t e =>
        '(v, es) <- eval regs st e es;;
        st <- bind_target t v st;;
        Ok (mkSs st regs es)
    | SAssert e =>
        '(v, es) <- eval regs st e es;;
        _ <- val_truth v;;
        Ok (mkSs st regs es)
    | SUpdate id e =>
        r <- of_option PType (nth_error regs id);;
        '(v, es) <- eval regs st e es;;
        if same_shapeb v (r_inner r) then
          Ok (mkSs st (set_nth id (reg_schedule r v) regs) es)
        else Panic PType
    | SInit id value c =>
        c <- of_option PType c;;
        r <- of_option PType (nth_error regs id);;
        '(cv, es) <- eval regs st c es;;
        n <- as_scalar cv;;
        r <- reg_with_clock r n;;
        match value with
        | None => Ok (mkSs st (set_nth id r regs) es)
        | Some e =>
            '(v, es) <- eval (set_nth id r regs) st e es;;
            if same_shapeb v (r_inner r) then
              Ok (mkSs st (set_nth id (reg_try_initialize r v) regs) es)
            else Panic PType
        end
    end.

  Fixpoint execs (l : list stmt) (ss : sstate) : res sstate :=
    match l with
    | [] => Ok ss
    | s :: l => ss <- exec s ss;; execs l ss
    end.
End Eval.

(** The all-nil value of a list of declared variables (codegen/mod.rs:118-131
    [as_ty(EmbeddedTy)]: one variable is not a tuple, none is [()]). *)
Definition vars_nil (l : list tyvar) : val :=
  match l with
  | [] => VS Nil
  | [_] => VS Nil
  | l => VT (map (fun _ => VS Nil) l)
  end.

(** codegen/mod.rs:780-786 [as_assignment_target] applied to the inputs. *)
Definition bind_inputs (l : list tyvar) (v : val) : res store :=
  match l with
  | [] => Ok []
  | l => bind_target (VTMult (map (fun x => VTSingle (v_name x)) l)) v []
  end.

Definition var_value (st : store) (x : tyvar) : res val :=
  n <- of_option PUnbound (lookup (v_name x) st);; Ok (VS n).

(** codegen/mod.rs:739-754 [as_values], then [embed] *)
Definition read_outputs (l : list tyvar) (st : store) : res val :=
  vs <- mapM (var_value st) l;; Ok (tuple_val vs).

(** codegen/mod.rs:606-608 [update!] of a strictly positive variable *)
Definition update_var (st : store) (hs : list (ident * hist)) (x : tyvar) : res (list (ident * hist)) :=
  if v_depth x =? 0 then Ok hs
  else
    n <- of_option PUnbound (lookup (v_name x) st);;
    Ok (map (fun '(y, h) => (y, if String.eqb (v_name x) y then update h n else h)) hs).

Fixpoint update_vars (st : store) (hs : list (ident * hist)) (l : list tyvar) : res (list (ident * hist)) :=
  match l with
  | [] => Ok hs
  | x :: l => hs <- update_var st hs x;; update_vars st hs l
  end.

Definition all_vars (nd : node) : list tyvar := n_inputs nd ++ n_outputs nd ++ n_locals nd.

(** codegen/mod.rs:588-616: the generated [step] method. *)
Definition node_step (mode : ovf) (glob : ident -> option scalar)
    (call : nat -> inst -> val -> res (val * inst)) (nilout : nat -> res val)
    (nd : node) (i : inst) (inputs : val) : res (val * inst) :=
  if first_is_nil inputs then Ok (vars_nil (n_outputs nd), i)     (* implicit_clock! *)
  else
    let 'Inst clk hists regs flips subs := i in
    st <- bind_inputs (n_inputs nd) inputs;;
    ss <- execs mode glob clk hists call nilout (n_stmts nd) (mkSs st regs (mkEs flips subs));;
    let '(mkSs st regs (mkEs flips subs)) := ss in
    hists <- update_vars st hists (all_vars nd);;
    out <- read_outputs (n_outputs nd) st;;
    Ok (out, Inst (S clk) hists (map reg_commit regs) flips subs).

(** The nodes of a program, latest first: a node can only call nodes that come
    after it in this list (the dependency order computed by the causality
    pass, reversed). *)
Definition prog := list node.

Fixpoint find_node (p : prog) (f : ident) : option (node * prog) :=
  match p with
  | [] => None
  | nd :: p => if String.eqb f (n_name nd) then Some (nd, p) else find_node p f
  end.

Definition nil_outputs (p : prog) (f : ident) : res val :=
  '(nd, _) <- of_option PType (find_node p f);; Ok (vars_nil (n_outputs nd)).

Section Prog.
  Variable mode : ovf.
  Variable glob : ident -> option scalar.

  (** One step of an instance of node [f]. *)
  Fixpoint step (p : prog) (f : ident) (i : inst) (v : val) {struct p} : res (val * inst) :=
    match p with
    | [] => Panic PType
    | nd :: p =>
        if String.eqb f (n_name nd) then
          node_step mode glob
            (fun id i v => match nth_error (n_blocks nd) id with
                           | Some g => step p g i v
                           | None => Panic PType
                           end)
            (fun id => g <- of_option PType (nth_error (n_blocks nd) id);; nil_outputs p g)
            nd i v
        else step p f i v
    end.

  (** Run an instance on a sequence of inputs. *)
  Fixpoint run (p : prog) (f : ident) (i : inst) (ins : list val) : res (list val * inst) :=
    match ins with
    | [] => Ok ([], i)
    | v :: ins =>
        '(o, i) <- step p f i v;;
        '(os, i) <- run p f i ins;;
        Ok (o :: os, i)
    end.
End Prog.

(** Shape of the values of a type (codegen/mod.rs:108-120 [DefinedTy]: a
    [Multiple] always gets a trailing comma, so a singleton is a real 1-tuple). *)
Fixpoint ty_shape (t : ty) : val :=
  match t with
  | TSingle _ => VS Nil
  | TMult [] => VS Nil
  | TMult l => VT (map ty_shape l)
  end.

(** codegen/mod.rs:566-579 [Default]: initial instance of node [f]. *)
Definition init_hists (nd : node) : list (ident * hist) :=
  flat_map (fun x => match v_depth x with 0 => [] | S d => [(v_name x, empty_hist d)] end) (all_vars nd).

Fixpoint init_inst (p : prog) (f : ident) {struct p} : res inst :=
  match p with
  | [] => Panic PType
  | nd :: p =>
      if String.eqb f (n_name nd) then
        regs <- mapM (fun t => t <- of_option PType t;; Ok (reg_default (ty_shape t))) (n_regs nd);;
        subs <- mapM (init_inst p) (n_blocks nd);;
        Ok (Inst 0 (init_hists nd) regs (repeat flip_default (n_flips nd)) subs)
      else init_inst p f
  end.

(** codegen/options.rs:144-176 [fn_main] and 185-218 [fn_test]:
    [if nb_iter == 0 { loop { body } } else { for _ in 1..=nb_iter { body } }]
    where [body] is [sys.step(().embed()).trusted()]. *)
Definition main_body (mode : ovf) (glob : ident -> option scalar) (p : prog) (f : ident)
    (i : inst) : res inst :=
  '(o, i) <- step mode glob p f i (VS (Defined SUnit));;
  _ <- trusted o;;
  Ok i.

Fixpoint main_for (mode : ovf) (glob : ident -> option scalar) (p : prog) (f : ident)
    (n : nat) (i : inst) : res inst :=
  match n with
  | 0 => Ok i
  | S n => i <- main_body mode glob p f i;; main_for mode glob p f n i
  end.

(** [None]: still running after [fuel] iterations of the infinite loop. *)
Fixpoint main_forever (mode : ovf) (glob : ident -> option scalar) (p : prog) (f : ident)
    (fuel : nat) (i : inst) : option (res inst) :=
  match fuel with
  | 0 => None
  | S fuel =>
      match main_body mode glob p f i with
      | Ok i => main_forever mode glob p f fuel i
      | Panic e => Some (Panic e)
      end
  end.

Definition main_fn (mode : ovf) (glob : ident -> option scalar) (p : prog) (f : ident)
    (nb_iter fuel : nat) : option (res inst) :=
  match init_inst p f with
  | Panic e => Some (Panic e)
  | Ok i =>
      if nb_iter =? 0 then main_forever mode glob p f fuel i
      else Some (main_for mode glob p f nb_iter i)
  end.
