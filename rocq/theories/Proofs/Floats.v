(** * Floating point operators are correctly rounded. *)
From Coq Require Import ZArith Bool Reals Lra Psatz.
From Coq Require Import Floats.SpecFloat.
From Flocq Require Import Core IEEE754.BinarySingleNaN.
From Verif Require Import Model.Base Model.Scalar Model.Value Model.Cast Spec.FloatSpec.

#[local] Instance hprec : FLX.Prec_gt_0 53. Proof. reflexivity. Qed.
#[local] Instance hmax : Prec_lt_emax 53 1024. Proof. reflexivity. Qed.
Local Notation bf := (binary_float 53 1024).

Lemma nearest_even_equiv : forall s m l, SpecFloat.round_nearest_even m l = choice_mode mode_NE s m l.
Proof.
  intros s m l. destruct l as [|c]; [reflexivity|]. destruct c; [|reflexivity..].
  simpl. unfold Round.cond_incr. now case Z.even.
Qed.
Lemma round_aux_equiv : forall sx mx ex lx,
  SpecFloat.binary_round_aux 53 1024 sx mx ex lx = binary_round_aux 53 1024 mode_NE sx mx ex lx.
Proof.
  intros. unfold SpecFloat.binary_round_aux, binary_round_aux.
  set (a := shr_fexp _ _ _). case a as [mrs' e']; simpl. now rewrite (nearest_even_equiv sx).
Qed.
Lemma round_equiv : forall s m e, SpecFloat.binary_round 53 1024 s m e = binary_round 53 1024 mode_NE s m e.
Proof.
  intros. unfold SpecFloat.binary_round, binary_round, shl_align_fexp.
  set (mez := shl_align _ _ _); case mez as [mz ez]. apply round_aux_equiv.
Qed.
Lemma normalize_equiv : forall m e z,
  SpecFloat.binary_normalize 53 1024 m e z = B2SF (binary_normalize 53 1024 hprec hmax mode_NE m e z).
Proof.
  intros m e z. destruct m as [|p|p]; [reflexivity|..]; simpl; rewrite B2SF_SF2B; apply round_equiv.
Qed.

(** ** Floats of both libraries *)
Definition up (f : spec_float) (V : binary64 f) : bf := SF2B f V.
Lemma up_down : forall f V, B2SF (up f V) = f.
Proof. intros. apply B2SF_SF2B. Qed.
Lemma of_bf : forall f, binary64 f -> exists x : bf, B2SF x = f.
Proof. intros f V. exists (up f V). apply up_down. Qed.

Lemma bpow_powerRZ : forall e, bpow radix2 e = powerRZ 2 e.
Proof. intros e. apply (bpow_powerRZ radix2). Qed.
Lemma value_bf : forall x : bf, value (B2SF x) = B2R x.
Proof.
  intros [s|s| |s m e B]; try reflexivity. simpl. unfold F2R. simpl Fnum. simpl Fexp. rewrite bpow_powerRZ.
  destruct s; simpl cond_Zopp; [change (Z.neg m) with (- Z.pos m)%Z; rewrite opp_IZR|]; lra.
Qed.
Lemma finite_bf : forall x : bf, is_finite (B2SF x) <-> BinarySingleNaN.is_finite x = true.
Proof. intros [s|s| |s m e B]; simpl; split; auto; discriminate. Qed.
Lemma sign_bf : forall x : bf, sign (B2SF x) = Bsign x.
Proof. intros [s|s| |s m e B]; reflexivity. Qed.
Lemma valid_bf : forall x : bf, binary64 (B2SF x).
Proof. intros x. apply valid_binary_B2SF. Qed.
Lemma nearest_bf : forall r, round radix2 (SpecFloat.fexp 53 1024) (round_mode mode_NE) r = nearest r.
Proof. reflexivity. Qed.
Lemma sign_value : forall f, value f <> 0%R -> sign f = Rlt_bool (value f) 0.
Proof.
  intros [s|s| |s m e] N; try (elim N; reflexivity). simpl in *.
  assert (P : (0 < powerRZ 2 e)%R) by (apply powerRZ_lt; lra).
  assert (M : (0 < IZR (Z.pos m))%R) by (apply IZR_lt; reflexivity).
  assert (MP : (0 < IZR (Z.pos m) * powerRZ 2 e)%R) by (apply Rmult_lt_0_compat; auto).
  destruct s; symmetry; [apply Rlt_bool_true|apply Rlt_bool_false]; lra.
Qed.
Lemma nearest_0 : nearest 0 = 0%R.
Proof. unfold nearest. apply round_0. auto with typeclass_instances. Qed.
Lemma large_nonzero : forall r, Rlt_bool (Rabs (nearest r)) (powerRZ 2 1024) = false -> r <> 0%R.
Proof.
  intros r E ->. rewrite nearest_0, Rabs_R0, Rlt_bool_true in E; [discriminate|]. apply powerRZ_lt. lra.
Qed.
Lemma neg_mult : forall a b, a <> 0%R -> b <> 0%R -> Rlt_bool (a * b) 0 = xorb (Rlt_bool a 0) (Rlt_bool b 0).
Proof.
  intros a b Na Nb. destruct (Rlt_bool_spec a 0) as [A|A], (Rlt_bool_spec b 0) as [B|B]; simpl; [apply Rlt_bool_false|apply Rlt_bool_true|apply Rlt_bool_true|apply Rlt_bool_false]; nra.
Qed.
Lemma neg_inv : forall a, a <> 0%R -> Rlt_bool (/ a) 0 = Rlt_bool a 0.
Proof.
  intros a N. destruct (Rlt_bool_spec a 0) as [A|A].
  - apply Rlt_bool_true. apply Rinv_lt_0_compat. auto.
  - apply Rlt_bool_false. apply Rlt_le, Rinv_0_lt_compat. lra.
Qed.

(** ** The operators *)
Lemma add_bf : forall x y : bf, SFadd 53 1024 (B2SF x) (B2SF y) = B2SF (Bplus mode_NE x y).
Proof.
  intros [sx|sx| |sx mx ex Bx] [sy|sy| |sy my ey By]; [now (trivial || simpl; case Bool.eqb)..|]. apply normalize_equiv.
Qed.
Lemma sub_bf : forall x y : bf, SFsub 53 1024 (B2SF x) (B2SF y) = B2SF (Bminus mode_NE x y).
Proof.
  intros [sx|sx| |sx mx ex Bx] [sy|sy| |sy my ey By]; [now (trivial || simpl; case Bool.eqb)..|].
  simpl. unfold Zminus. rewrite <- cond_Zopp_negb. apply normalize_equiv.
Qed.
Lemma mul_bf : forall x y : bf, SFmul 53 1024 (B2SF x) (B2SF y) = B2SF (Bmult mode_NE x y).
Proof.
  intros [sx|sx| |sx mx ex Bx] [sy|sy| |sy my ey By]; [now trivial..|]. simpl. rewrite B2SF_SF2B. apply round_aux_equiv.
Qed.
Lemma div_bf : forall x y : bf, SFdiv 53 1024 (B2SF x) (B2SF y) = B2SF (Bdiv mode_NE x y).
Proof.
  intros [sx|sx| |sx mx ex Bx] [sy|sy| |sy my ey By]; [now (trivial || simpl; case Bool.eqb)..|].
  simpl. rewrite B2SF_SF2B. set (melz := SFdiv_core_binary _ _ _ _ _ _). case melz as [[mz ez] lz]. apply round_aux_equiv.
Qed.

Definition fop (op : binop) (x y : spec_float) : option spec_float :=
  match op with
  | Add => Some (SFadd 53 1024 x y)
  | Sub => Some (SFsub 53 1024 x y)
  | Mul => Some (SFmul 53 1024 x y)
  | Div => Some (SFdiv 53 1024 x y)
  | _ => None
  end.
Lemma bin_fop : forall m op x y,
  nil_bin m op (Defined (SFloat x)) (Defined (SFloat y)) =
  match fop op x y with Some f => Ok (Defined (SFloat f)) | None => Panic PType end.
Proof. intros m [] x y; reflexivity. Qed.

Lemma fop_valid : forall op x y f, fop op x y = Some f -> binary64 x -> binary64 y -> binary64 f.
Proof.
  intros op x y f E Vx Vy. destruct (of_bf x Vx) as (a & <-), (of_bf y Vy) as (b & <-).
  destruct op; inversion E; subst f; clear E; rewrite ?add_bf, ?sub_bf, ?mul_bf, ?div_bf; apply valid_bf.
Qed.

Lemma rounded_intro : forall (z : bf) r s,
  (if Rlt_bool (Rabs (nearest r)) (powerRZ 2 1024)
   then B2R z = nearest r /\ BinarySingleNaN.is_finite z = true /\ (B2R z = 0%R -> Bsign z = s)
   else B2SF z = S754_infinity (Rlt_bool r 0)) -> correctly_rounded r s (B2SF z).
Proof.
  intros z r s H. unfold correctly_rounded. destruct (Rlt_bool _ _); auto.
  destruct H as (A & B & C). rewrite value_bf, sign_bf. rewrite finite_bf. auto.
Qed.

Lemma sum_sign : forall (x y : bf), Bsign x = Bsign y -> (B2R x + B2R y <> 0)%R -> Bsign x = Rlt_bool (B2R x + B2R y) 0.
Proof.
  intros x y E N.
  assert (S : forall z : bf, if Bsign z then (B2R z <= 0)%R else (0 <= B2R z)%R).
  { intros z. destruct (Req_dec (B2R z) 0) as [Z|Z]; [rewrite Z; destruct (Bsign z); lra|].
    rewrite <- (sign_bf z). rewrite sign_value by (rewrite value_bf; auto). rewrite value_bf.
    destruct (Rlt_bool_spec (B2R z) 0); lra. }
  pose proof (S x) as Sx. pose proof (S y) as Sy. rewrite <- E in Sy. destruct (Bsign x); symmetry; [apply Rlt_bool_true|apply Rlt_bool_false]; lra.
Qed.
Lemma bopp_sign : forall y : bf, is_nan y = false -> Bsign (Bopp y) = negb (Bsign y).
Proof. intros [s|s| |s m e B]; simpl; auto; discriminate. Qed.

Lemma fop_rounded : forall op x y r s f, binary64 x -> binary64 y -> is_finite x -> is_finite y ->
  exact op x y = Some (r, s) -> fop op x y = Some f -> correctly_rounded r s f.
Proof.
  intros op x y r s f Vx Vy Fx Fy E F. destruct (of_bf x Vx) as (a & <-), (of_bf y Vy) as (b & <-).
  apply finite_bf in Fx, Fy.
  destruct op; simpl in E, F; try discriminate; injection F as <-; rewrite ?add_bf, ?sub_bf, ?mul_bf, ?div_bf; apply rounded_intro.
  - injection E as <- <-. rewrite !value_bf, !sign_bf.
    pose proof (Bplus_correct 53 1024 _ _ mode_NE a b Fx Fy) as H. rewrite nearest_bf, bpow_powerRZ in H.
    destruct (Rlt_bool _ _) eqn:L.
    + destruct H as (A & B & C). split; auto. split; auto. intros _. rewrite C.
      destruct (Rcompare_spec (B2R a + B2R b) 0) as [R|R|R].
      * rewrite Req_bool_false by lra. symmetry. apply Rlt_bool_true. auto.
      * rewrite Req_bool_true by auto. reflexivity.
      * rewrite Req_bool_false by lra. symmetry. apply Rlt_bool_false. lra.
    + destruct H as (A & B). rewrite A. unfold binary_overflow. simpl. f_equal. apply sum_sign; auto. apply large_nonzero; auto.
  - injection E as <- <-. rewrite !value_bf, !sign_bf.
    pose proof (Bmult_correct 53 1024 _ _ mode_NE a b) as H. rewrite nearest_bf, bpow_powerRZ in H.
    destruct (Rlt_bool _ _) eqn:L.
    + destruct H as (A & B & C). rewrite Fx, Fy in B. split; auto. split; auto. intros _. apply C. destruct (Bmult mode_NE a b); auto; discriminate.
    + rewrite H. unfold binary_overflow. simpl. f_equal. apply large_nonzero in L.
      assert (Na : value (B2SF a) <> 0%R) by (rewrite value_bf; intros Z; rewrite Z in L; lra).
      assert (Nb : value (B2SF b) <> 0%R) by (rewrite value_bf; intros Z; rewrite Z in L; lra).
      rewrite <- !sign_bf, !sign_value by auto. rewrite !value_bf in *. rewrite neg_mult; auto.
  - injection E as <- <-. rewrite !value_bf, !sign_bf.
    pose proof (Bminus_correct 53 1024 _ _ mode_NE a b Fx Fy) as H. rewrite nearest_bf, bpow_powerRZ in H.
    destruct (Rlt_bool _ _) eqn:L.
    + destruct H as (A & B & C). split; auto. split; auto. intros _. rewrite C.
      destruct (Rcompare_spec (B2R a - B2R b) 0) as [R|R|R].
      * rewrite Req_bool_false by lra. symmetry. apply Rlt_bool_true. auto.
      * rewrite Req_bool_true by auto. reflexivity.
      * rewrite Req_bool_false by lra. symmetry. apply Rlt_bool_false. lra.
    + destruct H as (A & B). rewrite A. unfold binary_overflow. simpl. f_equal. unfold Rminus. rewrite <- (B2R_Bopp _ _ b). apply sum_sign.
      * rewrite bopp_sign; auto; destruct b; auto; discriminate.
      * rewrite B2R_Bopp. apply large_nonzero; auto.
  - rewrite value_bf in E. destruct (Req_bool_spec (B2R b) 0) as [Z|Z]; [discriminate|]. injection E as <- <-. rewrite !value_bf, !sign_bf.
    pose proof (Bdiv_correct 53 1024 _ _ mode_NE a b Z) as H. rewrite nearest_bf, bpow_powerRZ in H.
    destruct (Rlt_bool _ _) eqn:L.
    + destruct H as (A & B & C). rewrite Fx in B. split; auto. split; auto. intros _. apply C. destruct (Bdiv mode_NE a b); auto; discriminate.
    + rewrite H. unfold binary_overflow. simpl. f_equal. apply large_nonzero in L.
      assert (Na : value (B2SF a) <> 0%R) by (rewrite value_bf; intros W; rewrite W in L; lra).
      assert (Nb : value (B2SF b) <> 0%R) by (rewrite value_bf; auto).
      rewrite <- !sign_bf, !sign_value by auto. rewrite !value_bf in *. unfold Rdiv. rewrite neg_mult; auto.
      * rewrite neg_inv; auto.
      * apply Rinv_neq_0_compat. auto.
Qed.

Lemma float_rounded : forall m op x y r s, binary64 x -> binary64 y -> is_finite x -> is_finite y ->
  exact op x y = Some (r, s) ->
  exists f, nil_bin m op (Defined (SFloat x)) (Defined (SFloat y)) = Ok (Defined (SFloat f)) /\ binary64 f /\ correctly_rounded r s f.
Proof.
  intros m op x y r s Vx Vy Fx Fy E. rewrite bin_fop. destruct (fop op x y) as [f|] eqn:F.
  - exists f. split; auto. split; [exact (fop_valid _ _ _ _ F Vx Vy)|]. exact (fop_rounded _ _ _ _ _ _ Vx Vy Fx Fy E F).
  - destruct op; discriminate.
Qed.

Lemma float_nearest : forall r s f, correctly_rounded r s f -> is_finite f ->
  forall g, binary64 g -> is_finite g -> (Rabs (value f - r) <= Rabs (value g - r))%R.
Proof.
  intros r s f C Ff g Vg Fg. unfold correctly_rounded in C. destruct (Rlt_bool _ _); [|subst f; destruct Ff].
  destruct C as (_ & V & _). rewrite V. unfold nearest.
  assert (N : Rnd_N_pt (generic_format radix2 (FLT_exp (-1074) 53)) r (round radix2 (FLT_exp (-1074) 53) ZnearestE r)).
  { apply round_N_pt. auto with typeclass_instances. }
  apply N. destruct (of_bf g Vg) as (b & <-). rewrite value_bf. apply (generic_format_B2R 53 1024).
Qed.

(** ** Order *)
Lemma order_bf : forall (x y : bf) c, float_order (B2SF x) (B2SF y) c <-> SFcompare (B2SF x) (B2SF y) = Some c.
Proof.
  intros x y c.
  destruct (BinarySingleNaN.is_finite x) eqn:Fx, (BinarySingleNaN.is_finite y) eqn:Fy.
  - pose proof (Bcompare_correct 53 1024 x y Fx Fy) as H. unfold Bcompare in H. rewrite H.
    assert (O : float_order (B2SF x) (B2SF y) c <-> match c with Datatypes.Lt => (B2R x < B2R y)%R | Datatypes.Eq => B2R x = B2R y | Datatypes.Gt => (B2R x > B2R y)%R end).
    { rewrite <- !value_bf. destruct x, y; try discriminate; reflexivity. }
    rewrite O. destruct (Rcompare_spec (B2R x) (B2R y)), c; split; intros; try discriminate; try reflexivity; try assumption; exfalso; lra.
  - destruct x as [s|s| |s m e B], y as [t|t| |t n g D]; try discriminate; simpl; try destruct t; split; intros; try contradiction; try discriminate; congruence.
  - destruct x as [s|s| |s m e B], y as [t|t| |t n g D]; try discriminate; simpl; try destruct s; split; intros; try contradiction; try discriminate; congruence.
  - destruct x as [s|s| |s m e B], y as [t|t| |t n g D]; try discriminate; simpl; try destruct s; try destruct t; simpl; split; intros; try contradiction; try discriminate; congruence.
Qed.

Lemma float_order_total : forall x y, binary64 x -> binary64 y -> x <> S754_nan -> y <> S754_nan ->
  exists c, float_order x y c /\ forall c', float_order x y c' -> c' = c.
Proof.
  intros x y Vx Vy Nx Ny. destruct (of_bf x Vx) as (a & <-), (of_bf y Vy) as (b & <-).
  assert (E : exists c, SFcompare (B2SF a) (B2SF b) = Some c).
  { destruct a as [s|s| |s m e B]; [..|elim Nx; reflexivity|]; destruct b as [t|t| |t n g D]; try (elim Ny; reflexivity); simpl; eauto;
      repeat match goal with |- context [match ?x with _ => _ end] => destruct x end; eauto. }
  destruct E as (c & E). exists c. split; [apply order_bf; auto|]. intros c' H. apply order_bf in H. congruence.
Qed.

Lemma float_compared : forall x y c, binary64 x -> binary64 y -> float_order x y c ->
  do_cmp Lt (Defined (SFloat x)) (Defined (SFloat y)) = Ok (Defined (SBool (match c with Datatypes.Lt => true | _ => false end))) /\
  do_cmp Le (Defined (SFloat x)) (Defined (SFloat y)) = Ok (Defined (SBool (match c with Datatypes.Gt => false | _ => true end))) /\
  do_cmp Gt (Defined (SFloat x)) (Defined (SFloat y)) = Ok (Defined (SBool (match c with Datatypes.Gt => true | _ => false end))) /\
  do_cmp Ge (Defined (SFloat x)) (Defined (SFloat y)) = Ok (Defined (SBool (match c with Datatypes.Lt => false | _ => true end))) /\
  do_cmp Eq (Defined (SFloat x)) (Defined (SFloat y)) = Ok (Defined (SBool (match c with Datatypes.Eq => true | _ => false end))) /\
  do_cmp Ne (Defined (SFloat x)) (Defined (SFloat y)) = Ok (Defined (SBool (match c with Datatypes.Eq => false | _ => true end))).
Proof.
  intros x y c Vx Vy O. destruct (of_bf x Vx) as (a & <-), (of_bf y Vy) as (b & <-). apply order_bf in O.
  unfold do_cmp, cmp_ord, cmp_eq, nil_cmp, nil_eq, scalar_cmp, scalar_eq, SFeqb. rewrite O. destruct c; repeat split.
Qed.
Lemma float_unordered : forall x y, x = S754_nan \/ y = S754_nan ->
  (forall op, op = Lt \/ op = Le \/ op = Gt \/ op = Ge -> do_cmp op (Defined (SFloat x)) (Defined (SFloat y)) = Ok Nil) /\
  do_cmp Eq (Defined (SFloat x)) (Defined (SFloat y)) = Ok (Defined (SBool false)) /\
  do_cmp Ne (Defined (SFloat x)) (Defined (SFloat y)) = Ok (Defined (SBool true)).
Proof.
  intros x y N. assert (E : SFcompare x y = None) by (destruct N as [-> | ->]; [|destruct x]; reflexivity).
  unfold do_cmp, cmp_ord, cmp_eq, nil_cmp, nil_eq, scalar_cmp, scalar_eq, SFeqb. rewrite E. repeat split.
  intros op [-> |[-> |[-> | ->]]]; reflexivity.
Qed.

(** ** Conversion and negation *)
Lemma int_to_float : forall z, exists f,
  float_of_int (Defined (SInt z)) = Defined (SFloat f) /\ binary64 f /\ correctly_rounded (IZR z) false f.
Proof.
  intros z. exists (i64_to_f64 z). split; auto. unfold i64_to_f64, f64_prec, f64_emax. rewrite normalize_equiv. split; [apply valid_bf|].
  apply rounded_intro. pose proof (binary_normalize_correct 53 1024 hprec hmax mode_NE z 0 false) as H. cbv zeta in H.
  assert (E : F2R (Float radix2 z 0) = IZR z) by (unfold F2R; simpl; lra). rewrite E in H.
  rewrite nearest_bf, bpow_powerRZ in H. destruct (Rlt_bool _ _); auto.
  destruct H as (A & B & C). split; auto. split; auto. intros Z. rewrite C.
  destruct (Rcompare_spec (IZR z) 0) as [L|L|L]; auto. exfalso.
  rewrite A in Z. assert (G : generic_format radix2 (FLT_exp (-1074) 53) (-1)).
  { apply generic_format_FLT. exists (Float radix2 (-1) 0); simpl; [unfold F2R; simpl; lra|reflexivity|discriminate]. }
  assert (M : (nearest (IZR z) <= -1)%R).
  { unfold nearest. apply round_le_generic; auto with typeclass_instances. apply IZR_le. apply lt_IZR in L. lia. }
  rewrite Z in M. lra.
Qed.
Lemma float_negated : forall m x, exists f, nil_un m Neg (Defined (SFloat x)) = Ok (Defined (SFloat f)) /\
  value f = (- value x)%R /\ (x <> S754_nan -> sign f = negb (sign x)) /\ (is_finite x <-> is_finite f) /\ (x = S754_nan <-> f = S754_nan) /\
  (binary64 x -> binary64 f).
Proof.
  intros m x. exists (SFopp x). split; auto. destruct x as [s|s| |s n e]; simpl; repeat split; auto; try discriminate; try lra; try congruence.
  destruct s; simpl; lra.
Qed.

Lemma float_special : forall m op x y f, op = Add \/ op = Sub \/ op = Mul \/ op = Div -> special op x y f ->
  nil_bin m op (Defined (SFloat x)) (Defined (SFloat y)) = Ok (Defined (SFloat f)).
Proof.
  intros m op x y f O S. rewrite bin_fop. destruct O as [-> |[-> |[-> | ->]]];
    destruct x as [s|s| |s n e], y as [t|t| |t n' e']; simpl in S; try contradiction; subst f; simpl; try reflexivity;
    try (destruct s, t; reflexivity); destruct t; reflexivity.
Qed.
(** Every pair of operands is covered. *)
Lemma float_cases : forall op x y, op = Add \/ op = Sub \/ op = Mul \/ op = Div ->
  (exists f, special op x y f) \/ is_finite x /\ is_finite y /\ exists r s, exact op x y = Some (r, s).
Proof.
  intros op x y O.
  destruct O as [-> |[-> |[-> | ->]]]; destruct x as [s|s| |s n e], y as [t|t| |t n' e']; simpl; eauto 10.
  - right. split; auto. split; auto. destruct (Req_bool_spec (value (S754_finite t n' e')) 0) as [Z|Z]; simpl in Z.
    + exfalso. assert (P : (0 < powerRZ 2 e')%R) by (apply powerRZ_lt; lra).
      assert (M : (0 < IZR (Z.pos n'))%R) by (apply IZR_lt; reflexivity).
      assert (MP : (0 < IZR (Z.pos n') * powerRZ 2 e')%R) by (apply Rmult_lt_0_compat; auto). destruct t; lra.
    + simpl. rewrite Req_bool_false by auto. eauto.
  - right. split; auto. split; auto. destruct (Req_bool_spec (value (S754_finite t n' e')) 0) as [Z|Z]; simpl in Z.
    + exfalso. assert (P : (0 < powerRZ 2 e')%R) by (apply powerRZ_lt; lra).
      assert (M : (0 < IZR (Z.pos n'))%R) by (apply IZR_lt; reflexivity).
      assert (MP : (0 < IZR (Z.pos n') * powerRZ 2 e')%R) by (apply Rmult_lt_0_compat; auto). destruct t; lra.
    + simpl. rewrite Req_bool_false by auto. eauto.
Qed.
