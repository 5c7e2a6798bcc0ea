(** * Which parentheses only make the grouping of operators explicit. *)
From Coq Require Import String List ZArith Bool.
From Verif Require Import Model.Base Model.Scalar Model.Value Model.Ast Model.Errors Model.Options Model.Surface
  Model.Interp Model.Constexpr Model.Trace Model.Pipeline.
Import ListNotations.

(** [a op1 b op2 c] is [(a op1 b) op2 c]. *)
Definition group_left {O : Type} (mk : sexpr -> list (O * sexpr) -> sexpr) (e : sexpr) (l : list (O * sexpr)) : sexpr :=
  fold_left (fun a p => mk a [p]) l e.
(** [a op b op c] is [a op (b op c)]. *)
Fixpoint group_right (mk : sexpr -> list sexpr -> sexpr) (e : sexpr) (l : list sexpr) : sexpr :=
  match l with
  | [] => e
  | b :: l => mk e [group_right mk b l]
  end.

(** The tree of an expression: parentheses around one expression are dropped, each arithmetic operator, [when] and [fby]
    has two operands.  Comparisons and arrows are left as they are. *)
Fixpoint grouped (e : sexpr) : sexpr :=
  let sub {A} (p : A * sexpr) := (fst p, grouped (snd p)) in
  match e with
  | XLit _ | XVar _ => e
  | XParen l t => match l, t with [e], false => grouped e | _, _ => XParen (map grouped l) t end
  | XCall f l t => XCall f (map grouped l) t
  | XNeg e => XNeg (grouped e)
  | XNot e => XNot (grouped e)
  | XPre e => XPre (grouped e)
  | XIf c y n => XIf (grouped c) (grouped y) (grouped n)
  | XMerge c a b => XMerge (grouped c) (grouped a) (grouped b)
  | XBin e l => group_left XBin (grouped e) (map sub l)
  | XCmp e l => XCmp (grouped e) (map sub l)
  | XClock e l => group_left XClock (grouped e) (map sub l)
  | XFby e l => group_right XFby (grouped e) (map grouped l)
  | XThen e l => XThen (grouped e) (map grouped l)
  end.

Fixpoint grouped_target (t : starget) : starget :=
  match t with
  | TVar x => t
  | TTuple l b => match l, b with [t], false => grouped_target t | _, _ => TTuple (map grouped_target l) b end
  end.
Definition grouped_stmt (i : sstmt) : sstmt :=
  match i with
  | XDef t e => XDef (grouped_target t) (grouped e)
  | XAssert e => XAssert (grouped e)
  end.
Definition grouped_decl (d : sdecl) : sdecl :=
  match d with
  | XConst x t e => XConst x t (grouped e)
  | XNode nd => XNode (mkSNode (s_name nd) (s_inputs nd) (s_outputs nd) (s_locals nd) (map grouped_stmt (s_defs nd)))
  | d => d
  end.
Definition grouped_prog (p : sprog) : sprog := map (fun a => (fst a, grouped_decl (snd a))) p.

(** No clock is written between parentheses: neither [b] in [x when b] nor [b] in [merge b x y]. *)
Fixpoint enclosed (e : sexpr) : Prop :=
  match e with
  | XParen [_] false => True
  | XBin e [] | XCmp e [] | XClock e [] | XFby e [] | XThen e [] => enclosed e
  | _ => False
  end.
Fixpoint open_clocks (e : sexpr) : Prop :=
  let all l := fold_right (fun e P => open_clocks e /\ P) True l in
  let alls {A} (l : list (A * sexpr)) := fold_right (fun p P => open_clocks (snd p) /\ P) True l in
  match e with
  | XLit _ | XVar _ => True
  | XParen l _ | XCall _ l _ => all l
  | XNeg e | XNot e | XPre e => open_clocks e
  | XIf c a b => open_clocks c /\ open_clocks a /\ open_clocks b
  | XMerge c a b => ~ enclosed c /\ open_clocks c /\ open_clocks a /\ open_clocks b
  | XBin e l => open_clocks e /\ alls l
  | XCmp e l => open_clocks e /\ alls l
  | XClock e l => (forall p, In p l -> ~ enclosed (snd p)) /\ open_clocks e /\ alls l
  | XFby e l | XThen e l => open_clocks e /\ all l
  end.
Definition open_stmt (i : sstmt) : Prop :=
  match i with XDef _ e | XAssert e => open_clocks e end.
Definition open_prog (p : sprog) : Prop :=
  forall a, In a p -> match snd a with XNode nd => Forall open_stmt (s_defs nd) | _ => True end.

(** Two compiled programs that cannot be told apart by running them: constants, initial states, outputs, failures
    and traces are the same. *)
Definition indistinguishable (P Q : list decl) : Prop :=
  (forall ext, constants ext P = constants ext Q) /\
  (forall f, init_inst (nodes_of P) f = init_inst (nodes_of Q) f) /\
  (forall mode glob f i ins, run mode glob (nodes_of P) f i ins = run mode glob (nodes_of Q) f i ins) /\
  (forall fshow mode glob f i ins,
     trun fshow mode glob (tnodes_of P) f i ins = trun fshow mode glob (tnodes_of Q) f i ins).

(** The same diagnostics, and code for both or for none. *)
Definition same_outcome (a b : compiled) : Prop :=
  match a, b with
  | Crashed, Crashed => True
  | Expanded None es, Expanded None es' => es = es'
  | Expanded (Some P) ws, Expanded (Some Q) ws' => ws = ws' /\ indistinguishable P Q
  | _, _ => False
  end.
