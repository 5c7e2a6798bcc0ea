(** * What a run needs beyond a meaning (default mode).

    The reference meaning of a chain [a -> b -> c] or [a fby b fby c] only uses
    one operand at each instant.  The generated code is less lazy: it drops the
    operands that were used before, but also evaluates all those that are to be
    used later.  [settled e t]: every operand that is evaluated with [e] at
    instant [t], used or not, has a value. *)
From Coq Require Import String List ZArith Bool.
From Verif Require Import Model.Base Model.Scalar Model.Value Model.Ast Model.Interp Model.Surface
  Spec.StepSpec Spec.SurfaceSem Spec.ProgramSem.
Import ListNotations.

Section Settled.
  Variable mode : ovf.
  Variable glob : ident -> option scalar.
  Variable locals : list ident.
  Variable rho : nat -> ident -> option nillable.
  Variable F : ident -> list val -> val -> Prop.
  Variable N : ident -> val -> Prop.
  Notation has_value e t := (exists v, sem mode glob locals rho F N e t v).

  Fixpoint settled (e : sexpr) (t : Z) : Prop :=
    match e with
    | XLit _ | XVar _ => True
    | XParen l _ => (fix all l := match l with [] => True | e :: l => settled e t /\ all l end) l
    (* A callee is not stepped before instant 0. *)
    | XCall _ l _ => (0 <= t)%Z -> (fix all l := match l with [] => True | e :: l => settled e t /\ all l end) l
    | XNeg e | XNot e => settled e t
    | XPre e => settled e (t - 1)
    | XIf a b c | XMerge a b c => settled a t /\ settled b t /\ settled c t
    | XBin e l => settled e t /\ (fix all l := match l with [] => True | (_, e) :: l => settled e t /\ all l end) l
    | XCmp e l => settled e t /\ (fix all l := match l with [] => True | (_, e) :: l => settled e t /\ all l end) l
    | XClock e l => settled e t /\ (fix all l := match l with [] => True | (_, e) :: l => settled e t /\ all l end) l
    (* The operands from the one in use on; operand [k] of [fby] is read [k]
       instants late. *)
    | XThen e l =>
        (position (length l) t <= 0 -> settled e t /\ has_value e t) /\
        (fix tail k l' := match l' with
         | [] => True
         | e :: l' => (position (length l) t <= k -> settled e t /\ has_value e t) /\ tail (S k) l'
         end) 1 l
    | XFby e l =>
        (position (length l) t <= 0 -> settled e t /\ has_value e t) /\
        (fix tail k l' := match l' with
         | [] => True
         | e :: l' => (position (length l) t <= k -> settled e (t - Z.of_nat k) /\ has_value e (t - Z.of_nat k)) /\ tail (S k) l'
         end) 1 l
    end.

  Definition stmt_settled (T : nat) (i : sstmt) : Prop :=
    match i with XDef _ e | XAssert e => settled e (Z.of_nat T) end.
End Settled.

Section SettledProgram.
  Variable mode : ovf.
  Variable glob : ident -> option scalar.
  Variable nodes : list snode.

  (** [node_meaning], with settled streams. *)
  Definition node_settles (F : ident -> list val -> val -> Prop) (N : ident -> val -> Prop)
      (sn : snode) (ins outs : list val) : Prop :=
    length outs = length ins /\
    exists rho : nat -> ident -> option nillable,
      forall T v o, nth_error ins T = Some v -> nth_error outs T = Some o ->
        (declared (s_inputs sn) = [] \/ row (rho T) (declared (s_inputs sn)) v) /\
        (forall i, In i (s_defs sn) -> sstmt_holds mode glob (node_vars sn) rho F N T i /\
                                       stmt_settled mode glob (node_vars sn) rho F N T i) /\
        row (rho T) (declared (s_outputs sn)) o.

  (** [denotes], with settled streams in all the callees as well. *)
  Fixpoint settles (n : nat) (f : ident) (ins outs : list val) : Prop :=
    match n with
    | 0 => False
    | S n => exists sn pouts,
        In sn nodes /\ s_name sn = f /\
        node_settles (fun g args v => exists os, settles n g args (os ++ [v])) (no_input nodes)
          sn (filter (fun v => negb (first_is_nil v)) ins) pouts /\
        outs = weave (absent_row (declared (s_outputs sn))) ins pouts
    end.

  Definition means_strictly (f : ident) (ins outs : list val) : Prop := exists n, settles n f ins outs.
End SettledProgram.

(** No [->] and no [fby]. *)
Fixpoint unchained (e : sexpr) : Prop :=
  match e with
  | XLit _ | XVar _ => True
  | XParen l _ | XCall _ l _ => (fix all l := match l with [] => True | e :: l => unchained e /\ all l end) l
  | XNeg e | XNot e | XPre e => unchained e
  | XIf a b c | XMerge a b c => unchained a /\ unchained b /\ unchained c
  | XBin e l => unchained e /\ (fix all l := match l with [] => True | (_, e) :: l => unchained e /\ all l end) l
  | XCmp e l => unchained e /\ (fix all l := match l with [] => True | (_, e) :: l => unchained e /\ all l end) l
  | XClock e l => unchained e /\ (fix all l := match l with [] => True | (_, e) :: l => unchained e /\ all l end) l
  | XFby _ _ | XThen _ _ => False
  end.
Definition stmt_body (i : sstmt) : sexpr := match i with XDef _ e | XAssert e => e end.
