(** * Claims about floating point numbers (C01, C02, C35, C40).

    These theorems speak of real numbers: they rest on the axioms of the
    standard library for [R] that [Print Assumptions] lists. *)
From Coq Require Import String List ZArith Bool Reals Lra.
From Coq Require Import Floats.SpecFloat.
From Flocq Require Import Core.
From Verif Require Import Model.Base Model.Scalar Model.Value Model.Cast Model.Ast Model.Errors Model.Interp Model.Surface Model.Pipeline
  Spec.ProgramSem Spec.SourceCausal Spec.RangeSpec Spec.FloatSpec Proofs.Floats Proofs.FloatRuns.
Import ListNotations.

(** ** C01 *)
(** On finite operands [+], [-], [*] and [/] give the float that is closest to
    the exact result, the even one of two; beyond the largest float, an
    infinity of the sign of the exact result. *)
Theorem c01_float : forall m op x y r s, binary64 x -> binary64 y -> is_finite x -> is_finite y ->
  exact op x y = Some (r, s) ->
  exists f, nil_bin m op (Defined (SFloat x)) (Defined (SFloat y)) = Ok (Defined (SFloat f)) /\ binary64 f /\ correctly_rounded r s f.
Proof. exact float_rounded. Qed.
Print Assumptions c01_float.

(** No other float is closer. *)
Theorem c01_float_closest : forall r s f, correctly_rounded r s f -> is_finite f ->
  forall g, binary64 g -> is_finite g -> (Rabs (value f - r) <= Rabs (value g - r))%R.
Proof. exact float_nearest. Qed.
Print Assumptions c01_float_closest.

(** Infinities, NaN and divisions by zero follow the tables of [special]; no
    operation panics. *)
Theorem c01_float_special : forall m op x y f, op = Add \/ op = Sub \/ op = Mul \/ op = Div -> special op x y f ->
  nil_bin m op (Defined (SFloat x)) (Defined (SFloat y)) = Ok (Defined (SFloat f)).
Proof. exact float_special. Qed.
Print Assumptions c01_float_special.

(** Together these are all the operands. *)
Theorem c01_float_cases : forall op x y, op = Add \/ op = Sub \/ op = Mul \/ op = Div ->
  (exists f, special op x y f) \/ is_finite x /\ is_finite y /\ exists r s, exact op x y = Some (r, s).
Proof. exact float_cases. Qed.
Print Assumptions c01_float_cases.

Theorem c01_float_neg : forall m x, exists f, nil_un m Neg (Defined (SFloat x)) = Ok (Defined (SFloat f)) /\
  value f = (- value x)%R /\ (x <> S754_nan -> sign f = negb (sign x)) /\ (is_finite x <-> is_finite f) /\ (x = S754_nan <-> f = S754_nan) /\
  (binary64 x -> binary64 f).
Proof. exact float_negated. Qed.
Print Assumptions c01_float_neg.

(** 1.5 + 2^-60 is rounded to 1.5, and the largest float doubled is infinite. *)
Definition c01_x := S754_finite false 6755399441055744 (-52).
Definition c01_y := S754_finite false 4503599627370496 (-112).
Definition c01_max := S754_finite false 9007199254740991 971.
Example c01_ex_float : binary64 c01_x /\ binary64 c01_y /\ is_finite c01_x /\ is_finite c01_y /\
  (exists r s, exact Add c01_x c01_y = Some (r, s)) /\ value c01_x = (3 / 2)%R /\
  nil_bin Checked Add (Defined (SFloat c01_x)) (Defined (SFloat c01_y)) = Ok (Defined (SFloat c01_x)).
Proof.
  repeat split; auto; [eexists _, _; reflexivity|]. unfold value, c01_x. rewrite <- bpow_powerRZ. cbn. lra.
Qed.
Example c01_ex_overflow : binary64 c01_max /\ is_finite c01_max /\
  nil_bin Checked Add (Defined (SFloat c01_max)) (Defined (SFloat c01_max)) = Ok (Defined (SFloat (S754_infinity false))) /\
  special Div c01_x (S754_zero true) (S754_infinity true).
Proof. repeat split; auto. Qed.

(** ** C02 *)
(** The six comparisons are the order of the numbers and infinities. *)
Theorem c02_float_order : forall x y c, binary64 x -> binary64 y -> float_order x y c ->
  do_cmp Lt (Defined (SFloat x)) (Defined (SFloat y)) = Ok (Defined (SBool (match c with Datatypes.Lt => true | _ => false end))) /\
  do_cmp Le (Defined (SFloat x)) (Defined (SFloat y)) = Ok (Defined (SBool (match c with Datatypes.Gt => false | _ => true end))) /\
  do_cmp Gt (Defined (SFloat x)) (Defined (SFloat y)) = Ok (Defined (SBool (match c with Datatypes.Gt => true | _ => false end))) /\
  do_cmp Ge (Defined (SFloat x)) (Defined (SFloat y)) = Ok (Defined (SBool (match c with Datatypes.Lt => false | _ => true end))) /\
  do_cmp Eq (Defined (SFloat x)) (Defined (SFloat y)) = Ok (Defined (SBool (match c with Datatypes.Eq => true | _ => false end))) /\
  do_cmp Ne (Defined (SFloat x)) (Defined (SFloat y)) = Ok (Defined (SBool (match c with Datatypes.Eq => false | _ => true end))).
Proof. exact float_compared. Qed.
Print Assumptions c02_float_order.

Theorem c02_float_trichotomy : forall x y, binary64 x -> binary64 y -> x <> S754_nan -> y <> S754_nan ->
  exists c, float_order x y c /\ forall c', float_order x y c' -> c' = c.
Proof. exact float_order_total. Qed.
Print Assumptions c02_float_trichotomy.

(** With a NaN the order comparisons are nil, [=] is false and [<>] true. *)
Theorem c02_unordered : forall x y, x = S754_nan \/ y = S754_nan ->
  (forall op, op = Lt \/ op = Le \/ op = Gt \/ op = Ge -> do_cmp op (Defined (SFloat x)) (Defined (SFloat y)) = Ok Nil) /\
  do_cmp Eq (Defined (SFloat x)) (Defined (SFloat y)) = Ok (Defined (SBool false)) /\
  do_cmp Ne (Defined (SFloat x)) (Defined (SFloat y)) = Ok (Defined (SBool true)).
Proof. exact float_unordered. Qed.
Print Assumptions c02_unordered.

Example c02_ex_float : float_order c01_y c01_x Datatypes.Lt /\ float_order (S754_zero true) (S754_zero false) Datatypes.Eq /\
  float_order c01_max (S754_infinity false) Datatypes.Lt.
Proof.
  repeat split. cbn [float_order value c01_x c01_y]. rewrite <- !bpow_powerRZ.
  replace (-112)%Z with (-60 + -52)%Z by reflexivity. rewrite bpow_plus.
  assert (A : (bpow radix2 (-60) < 1)%R) by (apply (bpow_lt radix2 (-60) 0); reflexivity).
  assert (B : (0 < bpow radix2 (-60))%R) by apply bpow_gt_0.
  assert (C : (0 < bpow radix2 (-52))%R) by apply bpow_gt_0.
  rewrite !Rmult_1_l, <- Rmult_assoc. apply Rmult_lt_compat_r; lra.
Qed.

(** ** C35 *)
(** Every integer is converted to the closest float. *)
Theorem c35_float_of_int_rounded : forall z, exists f,
  float_of_int (Defined (SInt z)) = Defined (SFloat f) /\ binary64 f /\ correctly_rounded (IZR z) false f.
Proof. exact int_to_float. Qed.
Print Assumptions c35_float_of_int_rounded.

(** 2^53 + 1 is not a float: of the two closest ones, 2^53 has the even mantissa. *)
Example c35_ex_rounded : float_of_int (Defined (SInt (2 ^ 53 + 1))) = float_of_int (Defined (SInt (2 ^ 53))) /\
  float_of_int (Defined (SInt (2 ^ 53 + 1))) <> float_of_int (Defined (SInt (2 ^ 53 + 2))).
Proof. split; [reflexivity|discriminate]. Qed.

(** ** C40 *)
(** The floats that a compiled program computes are 64-bit floats. *)
Theorem c40_floats : forall mode glob, (forall x s, glob x = Some s -> float_range s) ->
  forall p l, result (pipeline p) = Some l ->
  (forall sn i s, In sn (source_nodes p) -> In i (s_defs sn) -> In s (literal_values (right_side i)) -> float_range s) ->
  forall f i ins outs i', init_inst (nodes_of l) f = Ok i -> run mode glob (nodes_of l) f i ins = Ok (outs, i') ->
  Forall (every float_range) ins -> Forall (every float_range) outs.
Proof. exact run_floats. Qed.
Print Assumptions c40_floats.

Local Open Scope string_scope.
(**
<<
node third(x : float) returns (y : float); let y = x fby y / 3.0; tel
>> *)
Definition three := S754_finite false 6755399441055744 (-51).
Definition third_prog : sprog :=
  [([], XNode (mkSNode "third" [(["x"], (BFloat, CImplicit))] [(["y"], (BFloat, CImplicit))] []
     [XDef (TVar "y") (XFby (XVar "x") [XParen [XBin (XVar "y") [(Div, XLit (SLFloat three))]] false])]))].
Definition one := S754_finite false 4503599627370496 (-52).
Definition one_third := S754_finite false 6004799503160661 (-54).
Example c40_ex_floats : 
  (forall sn i s, In sn (source_nodes third_prog) -> In i (s_defs sn) -> In s (literal_values (right_side i)) -> float_range s) /\
  exists l i i', result (pipeline third_prog) = Some l /\ init_inst (nodes_of l) "third" = Ok i /\
  run Checked (fun _ => None) (nodes_of l) "third" i (repeat (VS (Defined (SFloat one))) 2) = Ok (map (fun f => VS (Defined (SFloat f))) [one; one_third], i').
Proof.
  split.
  - intros sn i s [<-|[]] [<-|[]] J. cbn in J. destruct J as [<-|[]]. reflexivity.
  - eexists _, _, _. split; [vm_compute; reflexivity|]. split; [vm_compute; reflexivity|]. vm_compute. reflexivity.
Qed.
