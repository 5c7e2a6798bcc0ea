(** * Registers and flips: [/repo/chandeliers-sem/src/registers.rs]. *)
From Coq Require Import List Bool.
From Verif Require Import Model.Base Model.Scalar Model.Value.
Import ListNotations.

(** registers.rs:8-28 [Flip]; [Default] is [true]; [tas] returns the old value
    and clears it. *)
Definition flip_default : bool := true.
Definition tas (f : bool) : bool * bool := (f, false).

(** registers.rs:31-36 [Register] *)
Record register : Type := mkReg {
  r_inner : val;
  r_next : val;
  r_on_clock : bool
}.

(** registers.rs:38-50 [Default] at a type of the shape of [shape]. *)
Definition reg_default (shape : val) : register :=
  mkReg (all_nil shape) (all_nil shape) false.

(** registers.rs:53-61 [schedule] *)
Definition reg_schedule (r : register) (t : val) : register :=
  if first_is_nil t then r else mkReg (r_inner r) t (r_on_clock r).

(** registers.rs:63-66 [with_clock] *)
Definition reg_with_clock (r : register) (clk : nillable) : res register :=
  b <- nil_is clk (Defined (SBool true));;
  Ok (mkReg (r_inner r) (r_next r) b).

(** registers.rs:68-77 [try_initialize] *)
Definition reg_try_initialize (r : register) (t : val) : register :=
  if first_is_nil (r_inner r) then mkReg t (r_next r) (r_on_clock r) else r.

(** registers.rs:79-86 [commit] *)
Definition reg_commit (r : register) : register :=
  mkReg (r_next r) (r_next r) (r_on_clock r).

(** registers.rs:88-99 [get] *)
Definition reg_get (r : register) : val :=
  if r_on_clock r then r_inner r else all_nil (r_inner r).

(** What the generated step function does with one register during one instant
    (codegen/mod.rs:1027-1041 [InitRegister], 1135-1137 [FetchRegister],
    [UpdateRegister], and 609 [commit]); [init] is absent for [pre]. *)
Definition reg_instant (r : register) (clk : nillable) (init : option val) (next : val)
  : res (val * register) :=
  r1 <- reg_with_clock r clk;;
  let r2 := match init with Some v => reg_try_initialize r1 v | None => r1 end in
  let out := reg_get r2 in
  let r3 := reg_schedule r2 next in
  Ok (out, reg_commit r3).

(** codegen/mod.rs:1138-1162 [Flip], once both operands are evaluated *)
Definition flip_instant (f : bool) (initial continued : val) : val * bool :=
  if first_is_nil initial then (all_nil initial, f)
  else let '(b, f') := tas f in (if b then initial else continued, f').
