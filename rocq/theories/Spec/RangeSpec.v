(** * Values whose scalars all have a property; 64-bit integers. *)
From Coq Require Import String List ZArith Bool.
From Verif Require Import Model.Base Model.Scalar Model.Value Model.Ast Model.Surface.
Import ListNotations.

Definition scalar_range (s : scalar) : Prop :=
  match s with SInt z => (- 2 ^ 63 <= z < 2 ^ 63)%Z | _ => True end.

(** Any component may be nil. *)
Fixpoint every (P : scalar -> Prop) (v : val) : Prop :=
  match v with
  | VS Nil => True
  | VS (Defined s) => P s
  | VT l => fold_right (fun v Q => every P v /\ Q) True l
  end.
Definition in_range (v : val) : Prop := every scalar_range v.

(** What the operators make of scalars with property [P] has property [P]. *)
Record closed_under (mode : ovf) (P : scalar -> Prop) : Prop := mkClosedUnder {
  cu_unit : P SUnit;
  cu_bool : forall b, P (SBool b);
  cu_un : forall op a s, P a -> scalar_un mode op a = Ok s -> P s;
  cu_bin : forall op a b s, P a -> P b -> scalar_bin mode op a b = Ok s -> P s
}.

(** The integer literals of an expression. *)
Fixpoint literals (e : sexpr) : list Z :=
  match e with
  | XLit (SLInt z) => [z]
  | XLit _ | XVar _ => []
  | XParen l _ | XCall _ l _ => flat_map literals l
  | XNeg e | XNot e | XPre e => literals e
  | XIf a b c | XMerge a b c => literals a ++ literals b ++ literals c
  | XBin e l => literals e ++ flat_map (fun p => literals (snd p)) l
  | XCmp e l => literals e ++ flat_map (fun p => literals (snd p)) l
  | XClock e l => literals e ++ flat_map (fun p => literals (snd p)) l
  | XFby e l | XThen e l => literals e ++ flat_map literals l
  end.

(** The literals of an expression. *)
Definition literal_value (l : slit) : list scalar :=
  match l with SLBool b => [SBool b] | SLInt z => [SInt z] | SLFloat f => [SFloat f] | SLOther => [] end.
Fixpoint literal_values (e : sexpr) : list scalar :=
  match e with
  | XLit l => literal_value l
  | XVar _ => []
  | XParen l _ | XCall _ l _ => flat_map literal_values l
  | XNeg e | XNot e | XPre e => literal_values e
  | XIf a b c | XMerge a b c => literal_values a ++ literal_values b ++ literal_values c
  | XBin e l => literal_values e ++ flat_map (fun p => literal_values (snd p)) l
  | XCmp e l => literal_values e ++ flat_map (fun p => literal_values (snd p)) l
  | XClock e l => literal_values e ++ flat_map (fun p => literal_values (snd p)) l
  | XFby e l | XThen e l => literal_values e ++ flat_map literal_values l
  end.
