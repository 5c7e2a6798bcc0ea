(** * Claims about the run-time library (C01-C06, C31, C35). *)
From Coq Require Import List ZArith Bool Lia.
From Coq Require Import Floats.SpecFloat.
From Verif Require Import Model.Base Model.Scalar Model.Value Model.History Model.Register Model.Cast
  Spec.Clocked Spec.RuntimeSpec Proofs.RuntimeProofs Proofs.RegisterProofs Proofs.RuntimeProofs2 Proofs.CastProofs.
Import ListNotations.

(** ** C01 *)

(** Nil is produced exactly by a nil operand. *)
Theorem c01_binary_nil : forall m op a b,
  nil_bin m op a b = Ok Nil <-> a = Nil \/ b = Nil.
Proof. exact nil_bin_nil_iff. Qed.
Print Assumptions c01_binary_nil.

Theorem c01_unary_nil : forall m op a, nil_un m op a = Ok Nil <-> a = Nil.
Proof. exact nil_un_nil_iff. Qed.
Print Assumptions c01_unary_nil.

(** So is the result of a comparison. *)
Theorem c01_compare_nil : forall op a b, a = Nil \/ b = Nil -> do_cmp op a b = Ok Nil.
Proof. exact cmp_with_nil. Qed.
Print Assumptions c01_compare_nil.

(** A conditional takes the branch that its condition selects, and is nil
    everywhere when the condition is. *)
Theorem c01_conditional : forall yes no,
  (forall b, val_ifx (VS (Defined (SBool b))) yes no = Ok (if b then yes else no)) /\
  (exists v, val_ifx (VS Nil) yes no = Ok v /\ ~ has_defined v /\ same_shape yes v).
Proof. exact choices. Qed.
Print Assumptions c01_conditional.

(** Checked builds: the exact result, or an overflow panic when it does not fit. *)
Theorem c01_int_checked : forall op x y z,
  int_exact op x y = Some z ->
  nil_bin Checked op (Defined (SInt x)) (Defined (SInt y)) =
  if ((- 2 ^ 63 <=? z) && (z <? 2 ^ 63))%Z then Ok (Defined (SInt z)) else Panic POverflow.
Proof. exact int_checked. Qed.
Print Assumptions c01_int_checked.

(** Release builds: the unique 64-bit number congruent to the exact result. *)
Theorem c01_int_wrapping : forall op x y z,
  int_exact op x y = Some z ->
  exists r,
    nil_bin Wrapping op (Defined (SInt x)) (Defined (SInt y)) = Ok (Defined (SInt r)) /\
    (- 2 ^ 63 <= r < 2 ^ 63)%Z /\ ((r - z) mod 2 ^ 64 = 0)%Z.
Proof. exact int_wrapping. Qed.
Print Assumptions c01_int_wrapping.

(** Division and remainder: truncated division, and exactly two panics. *)
Theorem c01_int_division : forall m x y,
  (y <> 0)%Z -> ~ (x = - 2 ^ 63 /\ y = -1)%Z ->
  exists q r,
    nil_bin m Div (Defined (SInt x)) (Defined (SInt y)) = Ok (Defined (SInt q)) /\
    nil_bin m Rem (Defined (SInt x)) (Defined (SInt y)) = Ok (Defined (SInt r)) /\
    (x = y * q + r /\ Z.abs r < Z.abs y /\ 0 <= r * x)%Z.
Proof. exact int_division. Qed.
Print Assumptions c01_int_division.

Theorem c01_division_panics : forall m op x y, op = Div \/ op = Rem ->
  (nil_bin m op (Defined (SInt x)) (Defined (SInt y)) = Panic PDivZero <-> y = 0%Z) /\
  (nil_bin m op (Defined (SInt x)) (Defined (SInt y)) = Panic POverflow <->
     (x = - 2 ^ 63 /\ y = -1)%Z).
Proof. exact division_panics. Qed.
Print Assumptions c01_division_panics.

(** Bitwise operators act bit by bit (two's complement). *)
Theorem c01_int_bitwise : forall m op x y,
  op = BitAnd \/ op = BitOr \/ op = BitXor ->
  exists r, nil_bin m op (Defined (SInt x)) (Defined (SInt y)) = Ok (Defined (SInt r)) /\
    forall i, Z.testbit r i =
      match op with
      | BitAnd => Z.testbit x i && Z.testbit y i
      | BitOr => Z.testbit x i || Z.testbit y i
      | _ => xorb (Z.testbit x i) (Z.testbit y i)
      end.
Proof. exact int_bitwise. Qed.
Print Assumptions c01_int_bitwise.

Theorem c01_int_not : forall m x, exists r, nil_un m Not (Defined (SInt x)) = Ok (Defined (SInt r)) /\
  forall i, (0 <= i)%Z -> Z.testbit r i = negb (Z.testbit x i).
Proof. exact int_not. Qed.
Print Assumptions c01_int_not.

(** Boolean operators. *)
Theorem c01_bool : forall m x y,
  nil_bin m BitAnd (Defined (SBool x)) (Defined (SBool y)) = Ok (Defined (SBool (x && y))) /\
  nil_bin m BitOr (Defined (SBool x)) (Defined (SBool y)) = Ok (Defined (SBool (x || y))) /\
  nil_bin m BitXor (Defined (SBool x)) (Defined (SBool y)) = Ok (Defined (SBool (xorb x y))) /\
  nil_un m Not (Defined (SBool x)) = Ok (Defined (SBool (negb x))).
Proof. exact bool_ops. Qed.
Print Assumptions c01_bool.

(** Negation panics in checked builds exactly on the least integer. *)
Theorem c01_neg : forall x, (- 2 ^ 63 <= x < 2 ^ 63)%Z ->
  (x <> - 2 ^ 63 -> forall m, nil_un m Neg (Defined (SInt x)) = Ok (Defined (SInt (- x))))%Z /\
  nil_un Checked Neg (Defined (SInt (- 2 ^ 63)%Z)) = Panic POverflow /\
  nil_un Wrapping Neg (Defined (SInt (- 2 ^ 63)%Z)) = Ok (Defined (SInt (- 2 ^ 63)%Z)).
Proof. exact int_neg. Qed.
Print Assumptions c01_neg.

(** Operators never leave the payload range. *)
Theorem c01_binary_range : forall m op x y z,
  (- 2 ^ 63 <= x < 2 ^ 63)%Z -> (- 2 ^ 63 <= y < 2 ^ 63)%Z ->
  nil_bin m op (Defined (SInt x)) (Defined (SInt y)) = Ok (Defined (SInt z)) ->
  (- 2 ^ 63 <= z < 2 ^ 63)%Z.
Proof. exact binary_range. Qed.
Print Assumptions c01_binary_range.

Example c01_ex1 : nil_bin Checked Add (Defined (SInt (2 ^ 63 - 1))) (Defined (SInt 1)) = Panic POverflow.
Proof. reflexivity. Qed.
Example c01_ex2 :
  nil_bin Wrapping Add (Defined (SInt (2 ^ 63 - 1))) (Defined (SInt 1)) = Ok (Defined (SInt (- 2 ^ 63))).
Proof. reflexivity. Qed.
Example c01_ex3 :
  nil_bin Checked Div (Defined (SInt (-7))) (Defined (SInt 2)) = Ok (Defined (SInt (-3))) /\
  nil_bin Checked Rem (Defined (SInt (-7))) (Defined (SInt 2)) = Ok (Defined (SInt (-1))).
Proof. split; reflexivity. Qed.
Example c01_ex4 : nil_bin Checked Div Nil (Defined (SInt 0)) = Ok Nil.
Proof. reflexivity. Qed.

(** ** C02 *)

(** On integers and booleans every comparison is the boolean of the order. *)
Theorem c02_total : forall a b c, scalar_order a b c ->
  do_cmp Lt (Defined a) (Defined b) = Ok (Defined (SBool (match c with Datatypes.Lt => true | _ => false end))) /\
  do_cmp Le (Defined a) (Defined b) = Ok (Defined (SBool (match c with Datatypes.Gt => false | _ => true end))) /\
  do_cmp Gt (Defined a) (Defined b) = Ok (Defined (SBool (match c with Datatypes.Gt => true | _ => false end))) /\
  do_cmp Ge (Defined a) (Defined b) = Ok (Defined (SBool (match c with Datatypes.Lt => false | _ => true end))) /\
  do_cmp Eq (Defined a) (Defined b) = Ok (Defined (SBool (match c with Datatypes.Eq => true | _ => false end))) /\
  do_cmp Ne (Defined a) (Defined b) = Ok (Defined (SBool (match c with Datatypes.Eq => false | _ => true end))).
Proof. exact cmp_total. Qed.
Print Assumptions c02_total.

(** Every pair of integers or of booleans is ordered in exactly one way. *)
Theorem c02_trichotomy : forall a b,
  (exists x y, a = SInt x /\ b = SInt y) \/ (exists x y, a = SBool x /\ b = SBool y) ->
  exists c, scalar_order a b c /\ forall c', scalar_order a b c' -> c' = c.
Proof. exact order_trichotomy. Qed.
Print Assumptions c02_trichotomy.

(** A nil operand makes every comparison nil. *)
Theorem c02_nil_operand : forall op a b, a = Nil \/ b = Nil -> do_cmp op a b = Ok Nil.
Proof. exact cmp_nil_operand. Qed.
Print Assumptions c02_nil_operand.

(** On floats the four order comparisons are nil exactly with a NaN operand,
    otherwise mutually consistent. *)
Theorem c02_float : forall x y,
  ((x = S754_nan \/ y = S754_nan) <->
     forall op, op = Lt \/ op = Le \/ op = Gt \/ op = Ge ->
       do_cmp op (Defined (SFloat x)) (Defined (SFloat y)) = Ok Nil) /\
  (x <> S754_nan -> y <> S754_nan ->
    exists lt le,
      do_cmp Lt (Defined (SFloat x)) (Defined (SFloat y)) = Ok (Defined (SBool lt)) /\
      do_cmp Le (Defined (SFloat x)) (Defined (SFloat y)) = Ok (Defined (SBool le)) /\
      do_cmp Gt (Defined (SFloat x)) (Defined (SFloat y)) = Ok (Defined (SBool (negb le))) /\
      do_cmp Ge (Defined (SFloat x)) (Defined (SFloat y)) = Ok (Defined (SBool (negb lt))) /\
      (lt = true -> le = true)).
Proof. exact cmp_float. Qed.
Print Assumptions c02_float.

(** [a < b] is [b > a] and [a <= b] is [b >= a], on all values. *)
Theorem c02_flip : forall a b,
  do_cmp Lt a b = do_cmp Gt b a /\ do_cmp Le a b = do_cmp Ge b a.
Proof. exact cmp_flip. Qed.
Print Assumptions c02_flip.

Example c02_ex1 : do_cmp Le (Defined (SInt 3)) (Defined (SInt 3)) = Ok (Defined (SBool true)).
Proof. reflexivity. Qed.
Example c02_ex2 : do_cmp Lt (Defined (SFloat S754_nan)) (Defined (SFloat S754_nan)) = Ok Nil.
Proof. reflexivity. Qed.
Example c02_ex3 : scalar_order (SInt 2) (SInt 5) Datatypes.Lt.
Proof. constructor. reflexivity. Qed.

(** ** C03 *)
Theorem c03_trusted_embed : forall p, trusted (embed p) = Ok p.
Proof. exact trusted_embed. Qed.
Print Assumptions c03_trusted_embed.

Theorem c03_embed_trusted : forall v p, trusted v = Ok p -> embed p = v.
Proof. exact embed_trusted. Qed.
Print Assumptions c03_embed_trusted.

Theorem c03_trusted_panics : forall v, trusted v = Panic PUnwrapNil <-> has_nil v.
Proof. exact trusted_panic_iff. Qed.
Print Assumptions c03_trusted_panics.

(** No other panic is possible. *)
Theorem c03_trusted_total : forall v, (exists p, trusted v = Ok p) \/ trusted v = Panic PUnwrapNil.
Proof. exact trusted_total. Qed.
Print Assumptions c03_trusted_total.

Example c03_ex :
  trusted (embed (PT [PS (SInt 3); PT [PS (SBool true); PS SUnit]])) =
    Ok (PT [PS (SInt 3); PT [PS (SBool true); PS SUnit]]) /\
  trusted (VT [VS (Defined (SInt 3)); VT [VS Nil; VS (Defined SUnit)]]) = Panic PUnwrapNil.
Proof. split; reflexivity. Qed.

(** ** C04 *)
Theorem c04_history : forall n pushed k,
  ago (fold_left update pushed (empty_hist n)) k =
  if (Nat.leb 1 k && Nat.leb k (S n))%bool then Ok (nth (k - 1) (rev pushed) Nil) else Panic PPast.
Proof. exact ago_after_pushes. Qed.
Print Assumptions c04_history.

(** Extending keeps every stored value, one step further in the past. *)
Theorem c04_extend : forall h v k,
  ago (extend h v) 1 = Ok v /\ ago (extend h v) (S (S k)) = ago h (S k).
Proof. exact ago_extend. Qed.
Print Assumptions c04_extend.

Example c04_ex :
  ago (fold_left update [Defined (SInt 10); Defined (SInt 11); Defined (SInt 12)] (empty_hist 1)) 2
    = Ok (Defined (SInt 11)) /\
  ago (fold_left update [Defined (SInt 10); Defined (SInt 11); Defined (SInt 12)] (empty_hist 1)) 3
    = Panic PPast /\
  ago (fold_left update [Defined (SInt 10)] (empty_hist 4)) 5 = Ok Nil.
Proof. repeat split; reflexivity. Qed.

(** ** C05 *)
Theorem c05_register_fby : forall shape, shape_ok shape = true -> forall instants inputs,
  Forall2 (fby_instant (all_nil shape)) instants inputs ->
  exists outs,
    reg_run (reg_default shape) inputs = Ok outs /\ length outs = length instants /\
    forall k, k < length instants ->
      nth k outs (all_nil shape) = or_nil (all_nil shape) (fby_at instants k).
Proof. exact register_fby. Qed.
Print Assumptions c05_register_fby.

Theorem c05_register_pre : forall shape, shape_ok shape = true -> forall instants inputs,
  Forall2 (pre_instant (all_nil shape)) instants inputs ->
  exists outs,
    reg_run (reg_default shape) inputs = Ok outs /\ length outs = length instants /\
    forall k, k < length instants ->
      nth k outs (all_nil shape) =
      or_nil (all_nil shape) (match pre_at instants k with Some o => o | None => None end).
Proof. exact register_pre. Qed.
Print Assumptions c05_register_pre.

Definition vint (z : Z) : val := VS (Defined (SInt z)).
Definition clk_on : nillable := Defined (SBool true).
Definition clk_off : nillable := Defined (SBool false).

(** Three active instants interleaved with two absent ones. *)
Example c05_ex :
  Forall2 (fby_instant (VS Nil))
    [None; Some (vint 1, vint 10); None; Some (vint 2, vint 20); Some (vint 3, vint 30)]
    [(clk_off, Some (VS Nil), VS Nil); (clk_on, Some (vint 1), vint 10); (Nil, Some (VS Nil), VS Nil);
     (clk_on, Some (vint 2), vint 20); (clk_on, Some (vint 3), vint 30)] /\
  reg_run (reg_default (vint 0))
    [(clk_off, Some (VS Nil), VS Nil); (clk_on, Some (vint 1), vint 10); (Nil, Some (VS Nil), VS Nil);
     (clk_on, Some (vint 2), vint 20); (clk_on, Some (vint 3), vint 30)]
  = Ok [VS Nil; vint 1; VS Nil; vint 10; vint 20].
Proof. exact register_example. Qed.

(** ** C06 *)
Theorem c06_flip : forall operands k d, k < length operands ->
  nth k (flip_run flip_default operands) d =
  match arrow_at (map flip_means operands) k with
  | Some v => v
  | None => all_nil (fst (nth k operands (d, d)))
  end.
Proof. exact flip_arrow. Qed.
Print Assumptions c06_flip.

Example c06_ex :
  flip_run flip_default [(VS Nil, VS Nil); (vint 1, vint 10); (VS Nil, VS Nil); (vint 2, vint 20)]
  = [VS Nil; vint 1; VS Nil; vint 20].
Proof. reflexivity. Qed.

(** ** C31 *)
Theorem c31_merge_when : forall b x,
  exists on off,
    val_when true (VS (Defined (SBool b))) x = Ok on /\
    val_when false (VS (Defined (SBool b))) x = Ok off /\
    val_merge (VS (Defined (SBool b))) on off = Ok x /\
    on = (if b then x else all_nil x) /\ off = (if b then all_nil x else x).
Proof. exact merge_when. Qed.
Print Assumptions c31_merge_when.

Theorem c31_nil_clock : forall pos x y,
  val_when pos (VS Nil) x = Ok (all_nil x) /\ val_merge (VS Nil) x y = Ok (all_nil x).
Proof. exact nil_clock. Qed.
Print Assumptions c31_nil_clock.

(** [all_nil] really is entirely nil: it has the same shape and no defined leaf. *)
Theorem c31_all_nil : forall x, ~ has_defined (all_nil x) /\ same_shape x (all_nil x).
Proof. exact all_nil_spec. Qed.
Print Assumptions c31_all_nil.

Example c31_ex :
  val_merge (VS (Defined (SBool false))) (VT [VS Nil; VS Nil]) (VT [vint 1; vint 2]) = Ok (VT [vint 1; vint 2]).
Proof. reflexivity. Qed.

(** ** C35 *)
Theorem c35_nil : 
  float_of_int Nil = Nil /\ int_of_float Nil = Nil /\ std_ceil Nil = Nil /\ std_floor Nil = Nil.
Proof. repeat split. Qed.
Print Assumptions c35_nil.

Theorem c35_int_of_float_range : forall f, exists z,
  int_of_float (Defined (SFloat f)) = Defined (SInt z) /\ (- 2 ^ 63 <= z < 2 ^ 63)%Z.
Proof. exact int_of_float_range. Qed.
Print Assumptions c35_int_of_float_range.

(** Truncation towards zero, clamped to the range. *)
Theorem c35_int_of_float : forall f t, truncation f t ->
  int_of_float (Defined (SFloat f)) = Defined (SInt (Z.max (- 2 ^ 63) (Z.min (2 ^ 63 - 1) t))).
Proof. exact int_of_float_value. Qed.
Print Assumptions c35_int_of_float.

Theorem c35_truncation : forall f, match f with S754_infinity _ | S754_nan => False | _ => True end -> exists t, truncation f t.
Proof. exact truncation_spec. Qed.
Print Assumptions c35_truncation.

Theorem c35_int_of_special : 
  int_of_float (Defined (SFloat S754_nan)) = Defined (SInt 0) /\
  int_of_float (Defined (SFloat (S754_infinity false))) = Defined (SInt (2 ^ 63 - 1)) /\
  int_of_float (Defined (SFloat (S754_infinity true))) = Defined (SInt (- 2 ^ 63)).
Proof. repeat split. Qed.
Print Assumptions c35_int_of_special.

(** Integers below 2^53 are converted exactly. *)
Theorem c35_float_of_int : forall z, (Z.abs z < 2 ^ 53)%Z -> exists g,
  float_of_int (Defined (SInt z)) = Defined (SFloat g) /\ compared eq z g.
Proof. exact float_of_int_value. Qed.
Print Assumptions c35_float_of_int.

(** The integers just below and just above *)
Theorem c35_floor : forall f, valid_binary 53 1024 f = true ->
  match f with
  | S754_infinity _ | S754_nan => std_floor (Defined (SFloat f)) = Defined (SFloat f)
  | _ => exists g z, std_floor (Defined (SFloat f)) = Defined (SFloat g) /\ compared eq z g /\ compared Z.le z f /\ compared Z.gt (z + 1)%Z f
  end.
Proof. exact floor_spec. Qed.
Print Assumptions c35_floor.

Theorem c35_ceil : forall f, valid_binary 53 1024 f = true ->
  match f with
  | S754_infinity _ | S754_nan => std_ceil (Defined (SFloat f)) = Defined (SFloat f)
  | _ => exists g z, std_ceil (Defined (SFloat f)) = Defined (SFloat g) /\ compared eq z g /\ compared Z.ge z f /\ compared Z.lt (z - 1)%Z f
  end.
Proof. exact ceil_spec. Qed.
Print Assumptions c35_ceil.

(** The sign is kept, also when the result is zero. *)
Theorem c35_sign : forall f, valid_binary 53 1024 f = true ->
  (exists g, std_floor (Defined (SFloat f)) = Defined (SFloat g) /\ sign_bit g = sign_bit f) /\
  (exists g, std_ceil (Defined (SFloat f)) = Defined (SFloat g) /\ sign_bit g = sign_bit f).
Proof. exact rounded_sign. Qed.
Print Assumptions c35_sign.
Example c35_ex_sign : (* -0.5 and 0.5 *)
  std_ceil (Defined (SFloat (S754_finite true 4503599627370496 (-53)))) = Defined (SFloat (S754_zero true)) /\
  std_floor (Defined (SFloat (S754_finite false 4503599627370496 (-53)))) = Defined (SFloat (S754_zero false)).
Proof. split; vm_compute; reflexivity. Qed.

Example c35_ex_floor : (* -2.5 *)
  let f := S754_finite true 5629499534213120 (-51) in
  valid_binary 53 1024 f = true /\ truncation f (-2) /\ ~ truncation f (-3) /\
  (exists g, std_floor (Defined (SFloat f)) = Defined (SFloat g) /\ compared eq (-3)%Z g) /\
  (exists g, std_ceil (Defined (SFloat f)) = Defined (SFloat g) /\ compared eq (-2)%Z g).
Proof.
  split; [reflexivity|]. split; [right; cbn; lia|]. split; [intros [H|H]; cbn in H; lia|].
  split; eexists; split; vm_compute; reflexivity.
Qed.

Example c35_ex1 : (* 2.5 = 5 * 2^-1 *)
  int_of_float (Defined (SFloat (S754_finite true 5 (-1)))) = Defined (SInt (-2)) /\
  int_of_float (Defined (SFloat (S754_infinity false))) = Defined (SInt (2 ^ 63 - 1)) /\
  int_of_float (Defined (SFloat S754_nan)) = Defined (SInt 0).
Proof. repeat split; reflexivity. Qed.
Example c35_ex2 :
  int_of_float (float_of_int (Defined (SInt 12345))) = Defined (SInt 12345).
Proof. vm_compute. reflexivity. Qed.
