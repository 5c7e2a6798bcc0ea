(** * Bounded histories: [/repo/chandeliers-sem/src/time_travel.rs]. *)
From Coq Require Import List Arith.
From Verif Require Import Model.Base Model.Scalar Model.Value.
Import ListNotations.

(** time_travel.rs:30-43 the types [O<T>] and [S<N, T>], as one inductive:
    the capacity is the number of constructors. *)
Inductive hist : Type :=
| HO (current : nillable)
| HS (current : nillable) (previous : hist).

(** time_travel.rs:109-144 [Ago::ago] *)
Fixpoint ago (h : hist) (dt : nat) : res nillable :=
  match h with
  | HO cur =>
      match dt with
      | 0 => Panic PPast
      | 1 => Ok cur
      | _ => Panic PPast
      end
  | HS cur prev =>
      match dt with
      | 0 => Panic PPast
      | 1 => Ok cur
      | S dt' => ago prev dt'
      end
  end.

(** time_travel.rs:152-172 [Downcast::downcast] of an [HS cur prev]: drops the
    oldest value. *)
Fixpoint downcast (cur : nillable) (prev : hist) : hist :=
  match prev with
  | HO _ => HO cur
  | HS cur' prev' => HS cur (downcast cur' prev')
  end.

(** time_travel.rs:186-201 [Extend::extend] *)
Fixpoint extend (h : hist) (new : nillable) : hist :=
  match h with
  | HO cur => HS new (HO cur)
  | HS cur prev => HS new (extend prev cur)
  end.

(** time_travel.rs:220-240 [Update::update] *)
Definition update (h : hist) (new : nillable) : hist :=
  match h with
  | HO _ => HO new
  | HS cur prev => HS new (downcast cur prev)
  end.

(** [#derive(Default)] (time_travel.rs:30,38) at the type chosen by
    candle.rs:125-190 [ty!(base + ... +)] with [S n] plus signs: [S n] stored
    values, all nil. *)
Fixpoint empty_hist (n : nat) : hist :=
  match n with
  | 0 => HO Nil
  | S n => HS Nil (empty_hist n)
  end.

(** time_travel.rs:244-258 [IntoHistory] *)
Definition into_history (s : scalar) : hist := HO (Defined s).
Definition empty_history : hist := HO Nil.
