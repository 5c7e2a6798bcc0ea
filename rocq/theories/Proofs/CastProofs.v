(** Conversions between integers and floats. *)
From Coq Require Import ZArith Bool Lia Floats.SpecFloat.
From Verif Require Import Model.Base Model.Scalar Model.Value Model.Cast Spec.RuntimeSpec Proofs.RuntimeProofs2.
Local Open Scope Z_scope.

Lemma digits_bounds : forall m, 2 ^ (Z.pos (digits2_pos m) - 1) <= Z.pos m < 2 ^ Z.pos (digits2_pos m).
Proof.
  assert (S : forall p, 2 ^ Z.pos (Pos.succ p) = 2 * 2 ^ Z.pos p).
  { intros p. rewrite Pos2Z.inj_succ, Z.pow_succ_r; lia. }
  assert (S' : forall p, 2 ^ (Z.pos (Pos.succ p) - 1) = 2 * 2 ^ (Z.pos p - 1)).
  { intros p. rewrite Pos2Z.inj_succ. replace (Z.succ (Z.pos p) - 1) with (Z.succ (Z.pos p - 1)) by lia. rewrite Z.pow_succ_r; lia. }
  induction m as [m IH|m IH|]; cbn [digits2_pos]; [| |cbn; lia]; rewrite S, S'; lia.
Qed.

Lemma shift_succ : forall d m, shift_pos (Pos.succ d) m = xO (shift_pos d m).
Proof. intros d m. unfold shift_pos. apply Pos.iter_succ. Qed.
Lemma shift_value : forall d m, Z.pos (shift_pos d m) = Z.pos m * 2 ^ Z.pos d.
Proof.
  intros d m. induction d as [|d IH] using Pos.peano_ind; [cbn; lia|].
  rewrite Pos2Z.inj_succ, Z.pow_succ_r, shift_succ by lia. lia.
Qed.
Lemma shift_digits : forall d m, Z.pos (digits2_pos (shift_pos d m)) = Z.pos (digits2_pos m) + Z.pos d.
Proof.
  intros d m. induction d as [|d IH] using Pos.peano_ind; [cbn; lia|]. rewrite shift_succ. cbn [digits2_pos]. lia.
Qed.

(** A mantissa that fits is kept. *)
Lemma round_fits : forall s m e, Z.pos (digits2_pos m) + e - 53 = e -> -1074 <= e <= 971 ->
  binary_round_aux 53 1024 s (Z.pos m) e loc_Exact = S754_finite s m e.
Proof.
  intros s m e D E. unfold binary_round_aux, shr_fexp, fexp, emin. cbn [Zdigits2 shr_record_of_loc].
  replace (Z.max (Z.pos (digits2_pos m) + e - 53) (3 - 1024 - 53) - e) with 0 by lia. cbn [shr shr_m loc_of_shr_record round_nearest_even Zdigits2].
  replace (Z.max (Z.pos (digits2_pos m) + e - 53) (3 - 1024 - 53) - e) with 0 by lia. cbn [shr shr_m].
  destruct (Z.leb_spec e (1024 - 53)); [auto|lia].
Qed.

Lemma round_small : forall s m, Z.pos m < 2 ^ 53 ->
  exists m' e, binary_round 53 1024 s m 0 = S754_finite s m' e /\ e <= 0 /\ Z.pos m' = Z.pos m * 2 ^ (- e).
Proof.
  intros s m B. pose proof (digits_bounds m) as [D1 D2].
  assert (D : Z.pos (digits2_pos m) <= 53).
  { destruct (Z.leb_spec (Z.pos (digits2_pos m)) 53); auto. exfalso.
    pose proof (Z.pow_le_mono_r 2 53 (Z.pos (digits2_pos m) - 1) ltac:(lia) ltac:(lia)). lia. }
  unfold binary_round, shl_align, fexp, emin.
  replace (Z.max (Z.pos (digits2_pos m) + 0 - 53) (3 - 1024 - 53) - 0) with (Z.pos (digits2_pos m) - 53) by lia.
  replace (Z.max (Z.pos (digits2_pos m) + 0 - 53) (3 - 1024 - 53)) with (Z.pos (digits2_pos m) - 53) by lia.
  destruct (Z.pos (digits2_pos m) - 53) as [|p|p] eqn:E; [| lia |].
  - exists m, 0. rewrite round_fits by lia. split; auto. lia.
  - exists (shift_pos p m), (Z.neg p). rewrite round_fits by (rewrite ?shift_digits; lia). split; auto. split; [lia|].
    apply shift_value.
Qed.

Lemma normalize_small : forall z s, Z.abs z < 2 ^ 53 -> compared eq z (binary_normalize 53 1024 z 0 s).
Proof.
  intros z s B. destruct z as [|m|m]; cbn [binary_normalize].
  - reflexivity.
  - destruct (round_small false m) as (m' & e & -> & E & V); [lia|]. unfold compared. destruct (Z.leb_spec 0 e).
    + replace e with 0 in * by lia. cbn in *. lia.
    + lia.
  - destruct (round_small true m) as (m' & e & -> & E & V); [lia|]. unfold compared. destruct (Z.leb_spec 0 e).
    + replace e with 0 in * by lia. cbn in *. lia.
    + rewrite <- !Pos2Z.opp_pos. lia.
Qed.

(** Valid floats *)
Lemma valid_mantissa : forall s m e, valid_binary 53 1024 (S754_finite s m e) = true -> Z.pos m < 2 ^ 53.
Proof.
  intros s m e H. cbn [valid_binary] in H. unfold bounded, canonical_mantissa, fexp, emin in H. apply andb_prop in H. destruct H as [H _].
  apply Zeq_bool_eq in H. pose proof (digits_bounds m) as [_ D].
  pose proof (Z.pow_le_mono_r 2 (Z.pos (digits2_pos m)) 53 ltac:(lia) ltac:(lia)). lia.
Qed.

Definition finite (f : spec_float) : bool := match f with S754_zero _ | S754_finite _ _ _ => true | _ => false end.

Lemma floor_value : forall f, valid_binary 53 1024 f = true -> finite f = true -> exists g z,
  std_floor (Defined (SFloat f)) = Defined (SFloat g) /\ compared eq z g /\ compared Z.le z f /\ compared Z.gt (z + 1) f.
Proof.
  intros f V F. destruct f as [s|s| |s m e]; try discriminate F.
  - exists (S754_zero s), 0. cbn. repeat split; lia.
  - exists (f64_floor (S754_finite s m e)). apply valid_mantissa in V. cbn [std_floor nmap on_float f64_floor].
    unfold f64_prec, f64_emax. destruct (Z.leb_spec 0 e).
    + exists ((if s then Z.neg m else Z.pos m) * 2 ^ e). unfold compared. destruct (Z.leb_spec 0 e); [|lia]. repeat split; lia.
    + set (v := if s then Z.neg m else Z.pos m). exists (v / 2 ^ (- e)).
      assert (P : 2 <= 2 ^ (- e)) by (pose proof (Z.pow_le_mono_r 2 1 (- e)); lia).
      pose proof (Z.div_mod v (2 ^ (- e)) ltac:(lia)). pose proof (Z.mod_pos_bound v (2 ^ (- e)) ltac:(lia)).
      assert (Z.abs v < 2 ^ 53) by (unfold v; destruct s; lia).
      split; auto. split; [apply normalize_small; apply Z.abs_lt; split; nia|]. unfold compared. fold v. destruct (Z.leb_spec 0 e); [lia|].
      split; nia.
Qed.

Lemma ceil_value : forall f, valid_binary 53 1024 f = true -> finite f = true -> exists g z,
  std_ceil (Defined (SFloat f)) = Defined (SFloat g) /\ compared eq z g /\ compared Z.ge z f /\ compared Z.lt (z - 1) f.
Proof.
  intros f V F. destruct f as [s|s| |s m e]; try discriminate F.
  - exists (S754_zero s), 0. cbn. repeat split; lia.
  - exists (f64_ceil (S754_finite s m e)). apply valid_mantissa in V. cbn [std_ceil nmap on_float f64_ceil].
    unfold f64_prec, f64_emax. destruct (Z.leb_spec 0 e).
    + exists ((if s then Z.neg m else Z.pos m) * 2 ^ e). unfold compared. destruct (Z.leb_spec 0 e); [|lia]. repeat split; lia.
    + set (v := if s then Z.neg m else Z.pos m). exists (- (- v / 2 ^ (- e))).
      assert (P : 2 <= 2 ^ (- e)) by (pose proof (Z.pow_le_mono_r 2 1 (- e)); lia).
      pose proof (Z.div_mod (- v) (2 ^ (- e)) ltac:(lia)). pose proof (Z.mod_pos_bound (- v) (2 ^ (- e)) ltac:(lia)).
      assert (Z.abs v < 2 ^ 53) by (unfold v; destruct s; lia).
      split; auto. split; [apply normalize_small; apply Z.abs_lt; split; nia|]. unfold compared. fold v. destruct (Z.leb_spec 0 e); [lia|].
      split; nia.
Qed.

Lemma float_of_int_value : forall z, Z.abs z < 2 ^ 53 -> exists g,
  float_of_int (Defined (SInt z)) = Defined (SFloat g) /\ compared eq z g.
Proof. intros z B. exists (i64_to_f64 z). split; auto. apply normalize_small. auto. Qed.

(** Truncation *)
Lemma truncation_mag : forall s m e t, truncation (S754_finite s m e) t -> t = if s then - trunc_mag m e else trunc_mag m e.
Proof.
  intros s m e t H. unfold truncation, compared, trunc_mag in *. destruct (Z.leb_spec 0 e).
  - destruct s, H as [H|H]; nia.
  - assert (P : 2 <= 2 ^ (- e)) by (pose proof (Z.pow_le_mono_r 2 1 (- e)); lia).
    pose proof (Z.div_mod (Z.pos m) (2 ^ (- e)) ltac:(lia)). pose proof (Z.mod_pos_bound (Z.pos m) (2 ^ (- e)) ltac:(lia)).
    destruct s, H as [H|H]; nia.
Qed.

Lemma int_of_float_value : forall f t, truncation f t ->
  int_of_float (Defined (SFloat f)) = Defined (SInt (Z.max (- 2 ^ 63) (Z.min (2 ^ 63 - 1) t))).
Proof.
  intros f t H. destruct f as [s|s| |s m e].
  - destruct H as [H|[]]. cbn in H. subst. reflexivity.
  - destruct H as [[]|[]].
  - destruct H as [[]|[]].
  - apply truncation_mag in H. cbn [int_of_float nmap on_float f64_to_i64]. rewrite <- H. f_equal. f_equal. unfold saturate, i64_min, i64_max.
    destruct (Z.ltb_spec t (- 2 ^ 63)), (Z.ltb_spec (2 ^ 63 - 1) t); lia.
Qed.

Lemma truncation_exists : forall f, finite f = true -> exists t, truncation f t.
Proof.
  intros f F. destruct f as [s|s| |s m e]; try discriminate F.
  - exists 0. left. reflexivity.
  - exists (if s then - trunc_mag m e else trunc_mag m e). unfold truncation, compared, trunc_mag. destruct (Z.leb_spec 0 e).
    + left. destruct s; lia.
    + assert (P : 2 <= 2 ^ (- e)) by (pose proof (Z.pow_le_mono_r 2 1 (- e)); lia).
      pose proof (Z.div_mod (Z.pos m) (2 ^ (- e)) ltac:(lia)). pose proof (Z.mod_pos_bound (Z.pos m) (2 ^ (- e)) ltac:(lia)).
      set (q := Z.pos m / 2 ^ (- e)) in *. destruct (Z.eq_dec (Z.pos m mod 2 ^ (- e)) 0); [left; destruct s; nia|].
      right. destruct s; repeat split; nia.
Qed.

Lemma truncation_spec : forall f, match f with S754_infinity _ | S754_nan => False | _ => True end -> exists t, truncation f t.
Proof. intros f H. apply truncation_exists. destruct f; auto; destruct H. Qed.
Lemma floor_spec : forall f, valid_binary 53 1024 f = true ->
  match f with
  | S754_infinity _ | S754_nan => std_floor (Defined (SFloat f)) = Defined (SFloat f)
  | _ => exists g z, std_floor (Defined (SFloat f)) = Defined (SFloat g) /\ compared eq z g /\ compared Z.le z f /\ compared Z.gt (z + 1) f
  end.
Proof. intros f V. destruct f; auto; apply floor_value; auto. Qed.
Lemma ceil_spec : forall f, valid_binary 53 1024 f = true ->
  match f with
  | S754_infinity _ | S754_nan => std_ceil (Defined (SFloat f)) = Defined (SFloat f)
  | _ => exists g z, std_ceil (Defined (SFloat f)) = Defined (SFloat g) /\ compared eq z g /\ compared Z.ge z f /\ compared Z.lt (z - 1) f
  end.
Proof. intros f V. destruct f; auto; apply ceil_value; auto. Qed.

(** Signs *)
Lemma normalize_sign : forall z (s : bool), Z.abs z < 2 ^ 53 -> (if s then z <= 0 else 0 <= z) -> sign_bit (binary_normalize 53 1024 z 0 s) = Some s.
Proof.
  intros z s B S. destruct z as [|m|m]; cbn [binary_normalize].
  - reflexivity.
  - destruct s; [lia|]. destruct (round_small false m) as (m' & e & -> & _); [lia|]. reflexivity.
  - destruct s; [|lia]. destruct (round_small true m) as (m' & e & -> & _); [lia|]. reflexivity.
Qed.
Lemma rounded_sign : forall f, valid_binary 53 1024 f = true ->
  (exists g, std_floor (Defined (SFloat f)) = Defined (SFloat g) /\ sign_bit g = sign_bit f) /\
  (exists g, std_ceil (Defined (SFloat f)) = Defined (SFloat g) /\ sign_bit g = sign_bit f).
Proof.
  intros f V. destruct f as [s|s| |s m e]; try (split; eexists; split; reflexivity).
  apply valid_mantissa in V. split; (eexists; split; [reflexivity|]); cbn [f64_floor f64_ceil]; unfold f64_prec, f64_emax;
    (destruct (Z.leb_spec 0 e); [reflexivity|]);
    assert (P : 2 <= 2 ^ (- e)) by (pose proof (Z.pow_le_mono_r 2 1 (- e)); lia); set (v := if s then Z.neg m else Z.pos m);
    assert (Z.abs v < 2 ^ 53) by (unfold v; destruct s; lia); assert (if s then v < 0 else 0 < v) by (unfold v; destruct s; lia).
  - pose proof (Z.div_mod v (2 ^ (- e)) ltac:(lia)). pose proof (Z.mod_pos_bound v (2 ^ (- e)) ltac:(lia)).
    apply normalize_sign; [apply Z.abs_lt; split; nia|]. destruct s; nia.
  - pose proof (Z.div_mod (- v) (2 ^ (- e)) ltac:(lia)). pose proof (Z.mod_pos_bound (- v) (2 ^ (- e)) ltac:(lia)).
    apply normalize_sign; [apply Z.abs_lt; split; nia|]. destruct s; nia.
Qed.
