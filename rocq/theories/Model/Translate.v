(** * From the source AST to the analysis AST:
    [/repo/chandeliers-syn/src/translate/mod.rs]. *)
From Coq Require Import String List ZArith Bool.
From Verif Require Import Model.Base Model.Scalar Model.Ast Model.Errors Model.Options Model.Surface.
Import ListNotations.

(** mod.rs:440-460 [ExprCtx], without its read-only parts.  Only the number of
    registers and flips matters. *)
Record tst : Type := mkT {
  t_blocks : list ident;
  t_stmts : list stmt;
  t_regs : nat;
  t_flips : nat
}.
Definition tst0 : tst := mkT [] [] 0 0.

Definition add_block (f : ident) (s : tst) : tst := mkT (t_blocks s ++ [f]) (t_stmts s) (t_regs s) (t_flips s).
Definition add_stmt (i : stmt) (s : tst) : tst := mkT (t_blocks s) (t_stmts s ++ [i]) (t_regs s) (t_flips s).
Definition new_reg (s : tst) : tst := mkT (t_blocks s) (t_stmts s) (S (t_regs s)) (t_flips s).
Definition new_flip (s : tst) : tst := mkT (t_blocks s) (t_stmts s) (t_regs s) (S (t_flips s)).

(** mod.rs:1769-1796 *)
Definition tr_lit (l : slit) : out expr :=
  match l with
  | SLBool b => done (ELit (LBool b))
  | SLInt z => if in_i64 z then done (ELit (LInt z)) else Abort
  | SLFloat f => done (ELit (LFloat f))
  | SLOther => fail EUnhandledLitType
  end.

(** mod.rs:1738-1766 *)
Definition tr_var (locals : list ident) (x : ident) (d : nat) : expr :=
  if existsb (String.eqb x) locals then EVar x d else EGlobal x.

Section Chains.
  (** [f e d s] translates the operand [e] at depth [d]. *)
  Variable f : sexpr -> nat -> tst -> out (expr * tst).

  (** mod.rs:1633-1637: the elements of a parenthesised list, in order. *)
  Definition tr_elems :=
    fix go (l : list sexpr) (d : nat) (s : tst) {struct l} : out (list expr * tst) :=
      match l with
      | [] => done ([], s)
      | e :: l =>
          '(e, s) <~ f e d s;;
          '(l, s) <~ go l d s;;
          done (e :: l, s)
      end.

  (** mod.rs:992-1052 [left_associative], after the first element *)
  Definition tr_left {O : Type} (compose : O -> expr -> expr -> expr) :=
    fix go (acc : expr) (l : list (O * sexpr)) (d : nat) (s : tst) {struct l} : out (expr * tst) :=
      match l with
      | [] => done (acc, s)
      | (op, e) :: l =>
          '(e, s) <~ f e d s;;
          go (compose op acc e) l d s
      end.

  (** mod.rs:1057-1104 [right_associative]: the elements are converted from the
      last to the first; element number [i] is converted at depth
      [bump d i].  The result is the composition of the elements of [l], the first
      of which has number [i]; [None] if [l] is empty. *)
  Definition tr_right (bump : nat -> nat -> nat)
      (compose : nat -> nat -> expr -> expr -> tst -> expr * tst) :=
    fix go (i : nat) (l : list sexpr) (d : nat) (s : tst) {struct l} : out (option expr * tst) :=
      match l with
      | [] => done (None, s)
      | e :: l =>
          '(acc, s) <~ go (S i) l d s;;
          '(e, s) <~ f e (bump d i) s;;
          match acc with
          | None => done (Some e, s)
          | Some after => let '(r, s) := compose d i e after s in done (Some r, s)
          end
      end.
End Chains.

(** mod.rs:1295-1329: [fby] with registers *)
Definition fby_registers (d i : nat) (before after : expr) (s : tst) : expr * tst :=
  let id := t_regs s in
  let s := new_reg s in
  let s := add_stmt (SUpdate id after) s in
  let s := add_stmt (SInit id (Some before) None) s in
  (EFetch id (Some before) after, s).

(** mod.rs:1425-1440: [->] with flips *)
Definition then_flips (d i : nat) (before after : expr) (s : tst) : expr * tst :=
  (EFlip (t_flips s) before after, new_flip s).

(** mod.rs:1340-1353, 1456-1470: [fby] and [->] with [Later] *)
Definition later (d i : nat) (before after : expr) (s : tst) : expr * tst :=
  (ELater (d + i) before after, s).

(** mod.rs:1640-1649: the result of a parenthesised list *)
Definition paren (es : list expr) (trailing : bool) : expr :=
  match es, trailing with
  | [e], false => EParen e
  | _, _ => ETuple es
  end.

(** mod.rs:918-1796: expressions. [u] is [use_registers], [locals] is
    [shadow_glob]. *)
Fixpoint tr (u : bool) (locals : list ident) (e : sexpr) (d : nat) (s : tst) {struct e} : out (expr * tst) :=
  match e with
  | XLit l => e <~ tr_lit l;; done (e, s)
  | XVar x => done (tr_var locals x d, s)
  | XParen l t =>
      '(es, s) <~ tr_elems (tr u locals) l d s;;
      done (paren es t, s)
  | XCall f l t =>                                           (* mod.rs:1652-1678 *)
      '(es, s) <~ tr_elems (tr u locals) l d s;;
      done (ESub d (length (t_blocks s)) (paren es t), add_block f s)
  | XNeg e => '(e, s) <~ tr u locals e d s;; done (EUn Neg e, s)
  | XNot e => '(e, s) <~ tr u locals e d s;; done (EUn Not e, s)
  | XPre e =>                                                (* mod.rs:1359-1404 *)
      if u then
        let id := t_regs s in
        let s := new_reg s in
        '(e, s) <~ tr u locals e d s;;
        let s := add_stmt (SUpdate id e) s in
        let s := add_stmt (SInit id None None) s in
        done (EFetch id None e, s)
      else
        '(e, s) <~ tr u locals e (S d) s;; done (EPre e, s)
  | XIf c y n =>                                             (* mod.rs:932-947 *)
      '(c, s) <~ tr u locals c d s;;
      '(y, s) <~ tr u locals y d s;;
      '(n, s) <~ tr u locals n d s;;
      done (EIf c y n, s)
  | XMerge c a b =>                                          (* mod.rs:1721-1736 *)
      '(c, s) <~ tr u locals c d s;;
      '(a, s) <~ tr u locals a d s;;
      '(b, s) <~ tr u locals b d s;;
      done (EMerge c a b, s)
  | XBin e l =>
      '(e, s) <~ tr u locals e d s;;
      tr_left (tr u locals) EBin e l d s
  | XClock e l =>
      '(e, s) <~ tr u locals e d s;;
      tr_left (tr u locals) EClock e l d s
  | XCmp e l =>                                              (* mod.rs:1191-1253 *)
      '(lhs, s) <~ tr u locals e d s;;
      match l with
      | [] => done (lhs, s)
      | [(op, e1)] =>
          '(rhs, s) <~ tr u locals e1 d s;;
          done (ECmp op lhs rhs, s)
      | (_, e1) :: (_, e2) :: _ =>
          '(_, s) <~ tr u locals e1 d s;;
          '(_, s) <~ tr u locals e2 d s;;
          fail ECmpNotAssociative
      end
  | XFby e l =>                                              (* mod.rs:1276-1357 *)
      let bump := if u then fun d _ => d else fun d i => d + i in
      let compose := if u then fby_registers else later in
      '(acc, s) <~ tr_right (tr u locals) bump compose 1 l d s;;
      '(e, s) <~ tr u locals e (bump d 0) s;;
      match acc with
      | None => done (e, s)
      | Some after => done (compose d 0 e after s)
      end
  | XThen e l =>                                             (* mod.rs:1407-1475 *)
      let compose := if u then then_flips else later in
      '(acc, s) <~ tr_right (tr u locals) (fun d _ => d) compose 1 l d s;;
      '(e, s) <~ tr u locals e d s;;
      match acc with
      | None => done (e, s)
      | Some after => done (compose d 0 e after s)
      end
  end.

(** mod.rs:868-916 *)
Fixpoint tr_target (t : starget) : vartuple :=
  match t with
  | TVar x => VTSingle x
  | TTuple l trailing =>
      match map tr_target l, trailing with
      | [v], false => v
      | vs, _ => VTMult vs
      end
  end.

(** mod.rs:816-866 *)
Definition tr_stmt (u : bool) (locals : list ident) (i : sstmt) (s : tst) : out tst :=
  match i with
  | XAssert e => '(e, s) <~ tr u locals e 0 s;; done (add_stmt (SAssert e) s)
  | XDef t e => '(e, s) <~ tr u locals e 0 s;; done (add_stmt (SLet (tr_target t) e) s)
  end.

Fixpoint tr_stmts (u : bool) (locals : list ident) (l : list sstmt) (s : tst) : out tst :=
  match l with
  | [] => done s
  | i :: l => s <~ tr_stmt u locals i s;; tr_stmts u locals l s
  end.

(** mod.rs:614-684 *)
Definition tr_decls (l : sdecls) : list tyvar :=
  flat_map (fun '(xs, (b, c)) => map (fun x => mkVar x b c 0) xs) l.

(** mod.rs:529-580 *)
Definition tr_node (o : node_opts) (nd : snode) : out node :=
  let inputs := tr_decls (s_inputs nd) in
  let outputs := tr_decls (s_outputs nd) in
  let locals := tr_decls (s_locals nd) in
  let names := map v_name (inputs ++ outputs ++ locals) in
  s <~ tr_stmts (o_universal o) names (s_defs nd) tst0;;
  done (mkNode (s_name nd) inputs outputs locals (t_blocks s) (t_stmts s)
          (repeat None (t_regs s)) (t_flips s)).

(** mod.rs:345-438, 582-612 *)
Definition tr_decl (o : decl_opts) (d : sdecl) : out decl :=
  match d with
  | XConst x t e =>
      o <~ for_const o;;
      '(e, s) <~ tr false [] e 0 tst0;;
      match t_stmts s, t_blocks s with
      | [], [] => done (DConst o x t e)
      | _, _ => fail ENotConst
      end
  | XNode nd => o <~ for_node o;; nd <~ tr_node o nd;; done (DNode o nd)
  | XExtConst x t => o <~ for_ext_const o;; done (DExtConst o x t)
  | XExtNode x i o' => o <~ for_ext_node o;; done (DExtNode o x (tr_decls i) (tr_decls o'))
  end.

Definition tr_attrdecl (a : sattrdecl) : out decl :=
  o <~ with_attrs no_opts (fst a);; tr_decl o (snd a).

(** mod.rs:307-323 *)
Definition tr_prog (p : sprog) : out (list decl) := omap tr_attrdecl p.
