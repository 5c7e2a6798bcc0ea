(** * Diagnostics: [/repo/chandeliers-err/src/lib.rs:88-190].

    A compiler pass runs with a mutable error accumulator [EAccum] and returns
    an [Option]; it may also abort ([abort!], [unimplemented!], failed
    [consistency!]: a panic of the macro).  Messages and source positions are
    not modelled, only the kind of each diagnostic. *)
From Coq Require Import List Bool.
Import ListNotations.

(** The error constructors of chandeliers-err/src/error.rs that the modelled
    passes use. *)
Inductive error : Type :=
| ECmpNotAssociative | EUnhandledLitType | ENotConst | EInapplicableAttribute | EMalformedAttribute
| ECausality
| EVarNotFound | ETyVarNotFound | EFunNotFound | EBinopMismatch | EUnopMismatch | EBoolRequired
| ETypeMismatch | EScalarNotTuple | EUnsatGeneric | EExecutableNodeSig | EUndeclaredGeneric | EUnusedGeneric
| EDeclTwice
| EClkTooSlow | EClkNotComparable | EClkNotIdentical | ENotAClock
| ENotPositive | EShallowPre
| EWarnDuplicate | EWarnConflict.

(** Result of a pass: [Out r es ws]: the returned [Option], the errors and the
    warnings pushed meanwhile. *)
Inductive out (A : Type) : Type :=
| Out (r : option A) (errs warns : list error)
| Abort.
Arguments Out {A} r errs warns.
Arguments Abort {A}.

Definition done {A} (a : A) : out A := Out (Some a) [] [].

(** lib.rs:124-127 [EAccum::error] *)
Definition fail {A} (e : error) : out A := Out None [e] [].

(** lib.rs:130-132 [EAccum::warning] *)
Definition warn (e : error) : out unit := Out (Some tt) [] [e].

(** Sequencing with [?]. *)
Definition obind {A B} (x : out A) (f : A -> out B) : out B :=
  match x with
  | Abort => Abort
  | Out None es ws => Out None es ws
  | Out (Some a) es ws =>
      match f a with
      | Abort => Abort
      | Out r es' ws' => Out r (es ++ es') (ws ++ ws')
      end
  end.

(** Sequencing without [?]: the option is kept as a value. *)
Definition attempt {A} (x : out A) : out (option A) :=
  match x with
  | Abort => Abort
  | Out r es ws => Out (Some r) es ws
  end.

(** [o?] on a kept option. *)
Definition need {A} (o : option A) : out A := Out o [] [].

Notation "x <~ e ;; f" := (obind e (fun x => f))
  (at level 61, e at next level, right associativity).
Notation "' pat <~ e ;; f" := (obind e (fun x => match x with pat => f end))
  (at level 61, pat pattern, e at next level, right associativity).

(** [for x in l { f(x)?; }] *)
Fixpoint each {A} (f : A -> out unit) (l : list A) : out unit :=
  match l with
  | [] => done tt
  | a :: l => _ <~ f a;; each f l
  end.

(** [l.map(|x| f(x)).collect()] stopping at the first failure. *)
Definition omap {A B} (f : A -> out B) :=
  fix omap (l : list A) : out (list B) :=
    match l with
    | [] => done []
    | a :: l => b <~ f a;; bs <~ omap l;; done (b :: bs)
    end.

(** lib.rs:155-190 [EAccumScope]: run all the computations, then fail if one
    of them failed. *)
Fixpoint scope_all {A} (f : A -> out unit) (l : list A) : out bool :=
  match l with
  | [] => done true
  | a :: l =>
      r <~ attempt (f a);;
      ok <~ scope_all f l;;
      done (match r with Some _ => ok | None => false end)
  end.

Definition scope_close (ok : bool) : out unit := if ok then done tt else Out None [] [].
Definition scope {A} (f : A -> out unit) (l : list A) : out unit :=
  ok <~ scope_all f l;; scope_close ok.

(** The value produced, if any. *)
Definition result {A} (x : out A) : option A :=
  match x with
  | Abort => None
  | Out r _ _ => r
  end.

(** The errors recorded along the way. *)
Definition recorded {A} (x : out A) : list error :=
  match x with
  | Abort => []
  | Out _ es _ => es
  end.
