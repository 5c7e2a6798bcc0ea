(** Inversion of the error monad, and induction on source expressions. *)
From Coq Require Import String List ZArith Bool.
From Verif Require Import Model.Base Model.Scalar Model.Ast Model.Errors Model.Surface.
Import ListNotations.

Lemma result_obind : forall {A B} (x : out A) (f : A -> out B),
  result (obind x f) = match result x with Some a => result (f a) | None => None end.
Proof. intros A B [[a|] es ws|] f; simpl; auto. destruct (f a); auto. Qed.

Lemma obind_some : forall {A B} (x : out A) (f : A -> out B) b,
  result (obind x f) = Some b -> exists a, result x = Some a /\ result (f a) = Some b.
Proof. intros A B x f b. rewrite result_obind. destruct (result x); [eauto|discriminate]. Qed.

Lemma attempt_some : forall {A} (x : out A) o, result (attempt x) = Some o -> result x = o.
Proof. intros A [r es ws|] o H; inversion H; auto. Qed.

Lemma need_some : forall {A} (o : option A) a, result (need o) = Some a -> o = Some a.
Proof. auto. Qed.

Ltac inv_out :=
  repeat match goal with
  | H : result (obind ?x _) = Some _ |- _ =>
      let a := fresh "r" in let E := fresh "E" in
      apply obind_some in H; destruct H as (a & E & H)
  | H : result (attempt _) = Some _ |- _ => apply attempt_some in H
  | H : result (need _) = Some _ |- _ => apply need_some in H; subst
  | H : result (done _) = Some _ |- _ => inversion H; subst; clear H
  | H : result (fail _) = Some _ |- _ => discriminate H
  | H : result Abort = Some _ |- _ => discriminate H
  | H : Some _ = Some _ |- _ => inversion H; subst; clear H
  | H : None = Some _ |- _ => discriminate H
  | H : result (let '(_, _) := ?p in _) = Some _ |- _ => first [is_var p; destruct p | destruct p eqn:?]
  | p : (_ * _)%type |- _ => destruct p
  end.

Section sexpr_ind.
  Variable P : sexpr -> Prop.
  Hypothesis HLit : forall l, P (XLit l).
  Hypothesis HVar : forall x, P (XVar x).
  Hypothesis HParen : forall l b, Forall P l -> P (XParen l b).
  Hypothesis HCall : forall f l b, Forall P l -> P (XCall f l b).
  Hypothesis HNeg : forall e, P e -> P (XNeg e).
  Hypothesis HNot : forall e, P e -> P (XNot e).
  Hypothesis HPre : forall e, P e -> P (XPre e).
  Hypothesis HIf : forall c a b, P c -> P a -> P b -> P (XIf c a b).
  Hypothesis HMerge : forall c a b, P c -> P a -> P b -> P (XMerge c a b).
  Hypothesis HBin : forall e l, P e -> Forall (fun p => P (snd p)) l -> P (XBin e l).
  Hypothesis HCmp : forall e l, P e -> Forall (fun p => P (snd p)) l -> P (XCmp e l).
  Hypothesis HClock : forall e l, P e -> Forall (fun p => P (snd p)) l -> P (XClock e l).
  Hypothesis HFby : forall e l, P e -> Forall P l -> P (XFby e l).
  Hypothesis HThen : forall e l, P e -> Forall P l -> P (XThen e l).
  Fixpoint sexpr_ind' (e : sexpr) : P e :=
    let all := fix go l : Forall P l :=
        match l with [] => Forall_nil _ | e :: l => Forall_cons e (sexpr_ind' e) (go l) end in
    match e with
    | XLit l => HLit l
    | XVar x => HVar x
    | XParen l b => HParen l b (all l)
    | XCall f l b => HCall f l b (all l)
    | XNeg e => HNeg e (sexpr_ind' e)
    | XNot e => HNot e (sexpr_ind' e)
    | XPre e => HPre e (sexpr_ind' e)
    | XIf c a b => HIf c a b (sexpr_ind' c) (sexpr_ind' a) (sexpr_ind' b)
    | XMerge c a b => HMerge c a b (sexpr_ind' c) (sexpr_ind' a) (sexpr_ind' b)
    | XBin e l => HBin e l (sexpr_ind' e) ((fix go l : Forall (fun p => P (snd p)) l :=
        match l with [] => Forall_nil _ | p :: l => Forall_cons p (sexpr_ind' (snd p)) (go l) end) l)
    | XCmp e l => HCmp e l (sexpr_ind' e) ((fix go l : Forall (fun p => P (snd p)) l :=
        match l with [] => Forall_nil _ | p :: l => Forall_cons p (sexpr_ind' (snd p)) (go l) end) l)
    | XClock e l => HClock e l (sexpr_ind' e) ((fix go l : Forall (fun p => P (snd p)) l :=
        match l with [] => Forall_nil _ | p :: l => Forall_cons p (sexpr_ind' (snd p)) (go l) end) l)
    | XFby e l => HFby e l (sexpr_ind' e) (all l)
    | XThen e l => HThen e l (sexpr_ind' e) (all l)
    end.
End sexpr_ind.
