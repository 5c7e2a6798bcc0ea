(** * Simplifications of expressions. *)
From Coq Require Import ZArith List.
From Verif Require Import Model.Base Model.Scalar Model.Ast Model.Surface.
Import ListNotations.

(** Neutral operands. *)
Definition neutral_right (op : binop) (l : slit) : Prop :=
  In (op, l) [(Add, SLInt 0%Z); (Sub, SLInt 0%Z); (Mul, SLInt 1%Z); (Div, SLInt 1%Z);
              (BitAnd, SLBool true); (BitOr, SLBool false); (BitXor, SLBool false)].
Definition neutral_left (op : binop) (l : slit) : Prop :=
  In (op, l) [(Add, SLInt 0%Z); (Mul, SLInt 1%Z);
              (BitAnd, SLBool true); (BitOr, SLBool false); (BitXor, SLBool false)].

Inductive simpler : sexpr -> sexpr -> Prop :=
| si_right : forall op l e, neutral_right op l -> simpler (XBin e [(op, XLit l)]) e
| si_left : forall op l e, neutral_left op l -> simpler (XBin (XLit l) [(op, e)]) e
| si_not : forall e, simpler (XNot (XNot e)) e
| si_neg : forall e, simpler (XNeg (XNeg e)) e
| si_if_true : forall a b, simpler (XIf (XLit (SLBool true)) a b) a
| si_if_false : forall a b, simpler (XIf (XLit (SLBool false)) a b) b
| si_then_left : forall a b c, simpler (XThen (XThen a [b]) [c]) (XThen a [c])
| si_then_right : forall a b c, simpler (XThen a [XThen b [c]]) (XThen a [c]).
