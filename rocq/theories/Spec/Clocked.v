(** * Specification of the temporal operators on clocked streams.

    A clocked stream is a list of instants, each either absent ([None]) or
    present with a value.  The operators are specified position by position,
    by looking at the last earlier present instant. *)
From Coq Require Import List.
Import ListNotations.

(** The last present value of a list of instants. *)
Definition last_present {A} (l : list (option A)) : option A :=
  fold_left (fun acc o => match o with Some a => Some a | None => acc end) l None.

(** [a fby b] at position [k], where position [j] of [l] holds the values of
    the two operands at instant [j] if the instant is present. *)
Definition fby_at {A} (l : list (option (A * A))) (k : nat) : option A :=
  match nth k l None with
  | None => None
  | Some (init, _) =>
      match last_present (firstn k l) with
      | None => Some init
      | Some (_, next) => Some next
      end
  end.

(** [pre b] at position [k]; the outer option is presence, the inner one is
    [None] at the first present instant (nil). *)
Definition pre_at {A} (l : list (option A)) (k : nat) : option (option A) :=
  match nth k l None with
  | None => None
  | Some _ => Some (last_present (firstn k l))
  end.

(** [a -> b] at position [k]. *)
Definition arrow_at {A} (l : list (option (A * A))) (k : nat) : option A :=
  match nth k l None with
  | None => None
  | Some (a, b) =>
      match last_present (firstn k l) with
      | None => Some a
      | Some _ => Some b
      end
  end.
