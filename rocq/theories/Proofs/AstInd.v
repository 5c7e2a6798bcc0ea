(** Induction principles for the nested syntax trees. *)
From Coq Require Import List.
From Verif Require Import Model.Base Model.Scalar Model.Value Model.Ast.
Import ListNotations.

Definition OptForall {A} (P : A -> Prop) (o : option A) : Prop :=
  match o with Some a => P a | None => True end.

Section expr_ind.
  Variable P : expr -> Prop.
  Hypothesis HLit : forall l, P (ELit l).
  Hypothesis HVar : forall x d, P (EVar x d).
  Hypothesis HGlobal : forall x, P (EGlobal x).
  Hypothesis HTuple : forall l, Forall P l -> P (ETuple l).
  Hypothesis HPre : forall e, P e -> P (EPre e).
  Hypothesis HParen : forall e, P e -> P (EParen e).
  Hypothesis HBin : forall op a b, P a -> P b -> P (EBin op a b).
  Hypothesis HUn : forall op a, P a -> P (EUn op a).
  Hypothesis HCmp : forall op a b, P a -> P b -> P (ECmp op a b).
  Hypothesis HClock : forall pos a b, P a -> P b -> P (EClock pos a b).
  Hypothesis HLater : forall d a b, P a -> P b -> P (ELater d a b).
  Hypothesis HFetch : forall id i n, OptForall P i -> P n -> P (EFetch id i n).
  Hypothesis HFlip : forall id a b, P a -> P b -> P (EFlip id a b).
  Hypothesis HIf : forall a b c, P a -> P b -> P c -> P (EIf a b c).
  Hypothesis HMerge : forall a b c, P a -> P b -> P c -> P (EMerge a b c).
  Hypothesis HSub : forall d id a, P a -> P (ESub d id a).
  Fixpoint expr_ind' (e : expr) : P e :=
    match e with
    | ELit l => HLit l
    | EVar x d => HVar x d
    | EGlobal x => HGlobal x
    | ETuple l => HTuple l ((fix go l : Forall P l :=
        match l with [] => Forall_nil _ | e :: l => Forall_cons e (expr_ind' e) (go l) end) l)
    | EPre e => HPre e (expr_ind' e)
    | EParen e => HParen e (expr_ind' e)
    | EBin op a b => HBin op a b (expr_ind' a) (expr_ind' b)
    | EUn op a => HUn op a (expr_ind' a)
    | ECmp op a b => HCmp op a b (expr_ind' a) (expr_ind' b)
    | EClock pos a b => HClock pos a b (expr_ind' a) (expr_ind' b)
    | ELater d a b => HLater d a b (expr_ind' a) (expr_ind' b)
    | EFetch id i n => HFetch id i n
        (match i as o return OptForall P o with Some e => expr_ind' e | None => I end) (expr_ind' n)
    | EFlip id a b => HFlip id a b (expr_ind' a) (expr_ind' b)
    | EIf a b c => HIf a b c (expr_ind' a) (expr_ind' b) (expr_ind' c)
    | EMerge a b c => HMerge a b c (expr_ind' a) (expr_ind' b) (expr_ind' c)
    | ESub d id a => HSub d id a (expr_ind' a)
    end.
End expr_ind.

Section vartuple_ind.
  Variable P : vartuple -> Prop.
  Hypothesis HS : forall x, P (VTSingle x).
  Hypothesis HT : forall l, Forall P l -> P (VTMult l).
  Fixpoint vartuple_ind' (v : vartuple) : P v :=
    match v with
    | VTSingle x => HS x
    | VTMult l => HT l ((fix go l : Forall P l :=
        match l with [] => Forall_nil _ | v :: l => Forall_cons v (vartuple_ind' v) (go l) end) l)
    end.
End vartuple_ind.

Section ty_ind.
  Variable P : ty -> Prop.
  Hypothesis HS : forall x, P (TSingle x).
  Hypothesis HT : forall l, Forall P l -> P (TMult l).
  Fixpoint ty_ind' (v : ty) : P v :=
    match v with
    | TSingle x => HS x
    | TMult l => HT l ((fix go l : Forall P l :=
        match l with [] => Forall_nil _ | v :: l => Forall_cons v (ty_ind' v) (go l) end) l)
    end.
End ty_ind.
