(** * How far in the past a variable is read. *)
From Coq Require Import String List ZArith Bool Arith.
From Verif Require Import Model.Base Model.Ast Model.Surface.
Import ListNotations.

(** [under k x e n]: in the source expression [e], some occurrence of [x] is [n]
    instants in the past, when each [pre] goes [k] instants back and the operand
    number [i] (from 0) of a chain of [fby] counts for [i] times [pre]. *)
Inductive under (k : nat) (x : ident) : sexpr -> nat -> Prop :=
| un_var : under k x (XVar x) 0
| un_paren : forall l t e n, In e l -> under k x e n -> under k x (XParen l t) n
| un_call : forall f l t e n, In e l -> under k x e n -> under k x (XCall f l t) n
| un_neg : forall e n, under k x e n -> under k x (XNeg e) n
| un_not : forall e n, under k x e n -> under k x (XNot e) n
| un_pre : forall e n, under k x e n -> under k x (XPre e) (k + n)
| un_if : forall c y m e n, In e [c; y; m] -> under k x e n -> under k x (XIf c y m) n
| un_merge : forall c y m e n, In e [c; y; m] -> under k x e n -> under k x (XMerge c y m) n
| un_bin : forall a l e n, In e (a :: map snd l) -> under k x e n -> under k x (XBin a l) n
| un_cmp : forall a l e n, In e (a :: map snd l) -> under k x e n -> under k x (XCmp a l) n
| un_clock : forall a l e n, In e (a :: map snd l) -> under k x e n -> under k x (XClock a l) n
| un_fby : forall a l i e n, nth_error (a :: l) i = Some e -> under k x e n -> under k x (XFby a l) (k * i + n)
| un_then : forall a l e n, In e (a :: l) -> under k x e n -> under k x (XThen a l) n.

(** The right-hand sides and assertions of a node. *)
Definition source_exprs (sn : snode) : list sexpr :=
  map (fun i => match i with XDef _ e => e | XAssert e => e end) (s_defs sn).
