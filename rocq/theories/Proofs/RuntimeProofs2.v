(** More proofs about the run-time library. *)
From Coq Require Import List ZArith Bool Lia.
From Coq Require Import Floats.SpecFloat.
From Verif Require Import Model.Base Model.Scalar Model.Value Model.History Model.Register Model.Cast
  Spec.Clocked Spec.RuntimeSpec Proofs.RuntimeProofs Proofs.RegisterProofs.
Import ListNotations.

Lemma in_i64_bool : forall z, in_i64 z = ((- 2 ^ 63 <=? z) && (z <? 2 ^ 63))%Z.
Proof.
  intros z. apply eq_iff_eq_true. rewrite in_i64_spec, andb_true_iff, Z.leb_le, Z.ltb_lt. tauto.
Qed.

Lemma int_checked : forall op x y z,
  int_exact op x y = Some z ->
  nil_bin Checked op (Defined (SInt x)) (Defined (SInt y)) =
  if ((- 2 ^ 63 <=? z) && (z <? 2 ^ 63))%Z then Ok (Defined (SInt z)) else Panic POverflow.
Proof.
  intros op x y z H. rewrite <- in_i64_bool.
  destruct op; inversion H; subst; cbn [nil_bin scalar_bin]; unfold i64_result;
    destruct (in_i64 _); reflexivity.
Qed.

Lemma int_wrapping : forall op x y z,
  int_exact op x y = Some z ->
  exists r,
    nil_bin Wrapping op (Defined (SInt x)) (Defined (SInt y)) = Ok (Defined (SInt r)) /\
    (- 2 ^ 63 <= r < 2 ^ 63)%Z /\ ((r - z) mod 2 ^ 64 = 0)%Z.
Proof.
  intros op x y z H. destruct (i64_result_wrapping z) as (r & E & R).
  exists r. split; auto.
  destruct op; inversion H; subst; cbn [nil_bin scalar_bin]; rewrite E; reflexivity.
Qed.

Lemma int_division : forall m x y,
  (y <> 0)%Z -> ~ (x = - 2 ^ 63 /\ y = -1)%Z ->
  exists q r,
    nil_bin m Div (Defined (SInt x)) (Defined (SInt y)) = Ok (Defined (SInt q)) /\
    nil_bin m Rem (Defined (SInt x)) (Defined (SInt y)) = Ok (Defined (SInt r)) /\
    (x = y * q + r /\ Z.abs r < Z.abs y /\ 0 <= r * x)%Z.
Proof.
  intros m x y Hy Hn. destruct (i64_div_spec m x y Hy Hn) as (q & r & Eq & Er & H).
  exists q, r. cbn [nil_bin scalar_bin]. rewrite Eq, Er. auto.
Qed.

Lemma division_panics : forall m op x y, op = Div \/ op = Rem ->
  (nil_bin m op (Defined (SInt x)) (Defined (SInt y)) = Panic PDivZero <-> y = 0%Z) /\
  (nil_bin m op (Defined (SInt x)) (Defined (SInt y)) = Panic POverflow <->
     (x = - 2 ^ 63 /\ y = -1)%Z).
Proof.
  intros m op x y H. destruct (i64_div_panic m x y) as (A & B & C & D).
  assert (L : forall (r : res scalar) p, (z <- r;; Ok (Defined z)) = Panic p <-> r = Panic p).
  { intros [s|q] p; simpl; split; intros E; inversion E; auto. }
  destruct H as [-> | ->]; cbn [nil_bin scalar_bin]; rewrite !L; auto.
Qed.

Lemma int_bitwise : forall m op x y,
  op = BitAnd \/ op = BitOr \/ op = BitXor ->
  exists r, nil_bin m op (Defined (SInt x)) (Defined (SInt y)) = Ok (Defined (SInt r)) /\
    forall i, Z.testbit r i =
      match op with
      | BitAnd => Z.testbit x i && Z.testbit y i
      | BitOr => Z.testbit x i || Z.testbit y i
      | _ => xorb (Z.testbit x i) (Z.testbit y i)
      end.
Proof.
  intros m op x y [-> | [-> | ->]]; eexists; (split; [reflexivity|]); intros i;
    auto using Z.land_spec, Z.lor_spec, Z.lxor_spec.
Qed.

Lemma bool_ops : forall m x y,
  nil_bin m BitAnd (Defined (SBool x)) (Defined (SBool y)) = Ok (Defined (SBool (x && y))) /\
  nil_bin m BitOr (Defined (SBool x)) (Defined (SBool y)) = Ok (Defined (SBool (x || y))) /\
  nil_bin m BitXor (Defined (SBool x)) (Defined (SBool y)) = Ok (Defined (SBool (xorb x y))) /\
  nil_un m Not (Defined (SBool x)) = Ok (Defined (SBool (negb x))).
Proof. repeat split. Qed.

Lemma int_neg : forall x, (- 2 ^ 63 <= x < 2 ^ 63)%Z ->
  (x <> - 2 ^ 63 -> forall m, nil_un m Neg (Defined (SInt x)) = Ok (Defined (SInt (- x))))%Z /\
  nil_un Checked Neg (Defined (SInt (- 2 ^ 63)%Z)) = Panic POverflow /\
  nil_un Wrapping Neg (Defined (SInt (- 2 ^ 63)%Z)) = Ok (Defined (SInt (- 2 ^ 63)%Z)).
Proof.
  intros x Hx. repeat split; auto.
  intros Hn m. cbn [nil_un scalar_un]. unfold i64_result.
  rewrite (proj2 (in_i64_spec (- x))) by lia. reflexivity.
Qed.

Lemma binary_range : forall m op x y z,
  (- 2 ^ 63 <= x < 2 ^ 63)%Z -> (- 2 ^ 63 <= y < 2 ^ 63)%Z ->
  nil_bin m op (Defined (SInt x)) (Defined (SInt y)) = Ok (Defined (SInt z)) ->
  (- 2 ^ 63 <= z < 2 ^ 63)%Z.
Proof.
  intros m op x y z Hx Hy H. unfold nil_bin in H.
  destruct (scalar_bin m op (SInt x) (SInt y)) as [s|] eqn:E; simpl in H; inversion H; subst.
  apply in_i64_spec. change (wf_scalar (SInt z) = true).
  eapply scalar_bin_wf; [| |exact E]; apply in_i64_spec; auto.
Qed.

Lemma cmp_total : forall a b c, scalar_order a b c ->
  do_cmp Lt (Defined a) (Defined b) = Ok (Defined (SBool (match c with Datatypes.Lt => true | _ => false end))) /\
  do_cmp Le (Defined a) (Defined b) = Ok (Defined (SBool (match c with Datatypes.Gt => false | _ => true end))) /\
  do_cmp Gt (Defined a) (Defined b) = Ok (Defined (SBool (match c with Datatypes.Gt => true | _ => false end))) /\
  do_cmp Ge (Defined a) (Defined b) = Ok (Defined (SBool (match c with Datatypes.Lt => false | _ => true end))) /\
  do_cmp Eq (Defined a) (Defined b) = Ok (Defined (SBool (match c with Datatypes.Eq => true | _ => false end))) /\
  do_cmp Ne (Defined a) (Defined b) = Ok (Defined (SBool (match c with Datatypes.Eq => false | _ => true end))).
Proof.
  intros a b c H. destruct H as [x y c H| | |bb].
  - assert (E : (x ?= y)%Z = c).
    { destruct c; [apply Z.compare_eq_iff|apply Z.compare_lt_iff|apply Z.compare_gt_iff]; auto; lia. }
    assert (Q : (x =? y)%Z = match c with Datatypes.Eq => true | _ => false end).
    { destruct c; lia. }
    unfold do_cmp, cmp_ord, cmp_eq, nil_cmp, nil_eq, scalar_cmp, scalar_eq. cbn [bind]. rewrite E, Q.
    destruct c; repeat split.
  - repeat split.
  - repeat split.
  - destruct bb; repeat split.
Qed.

Lemma order_trichotomy : forall a b,
  (exists x y, a = SInt x /\ b = SInt y) \/ (exists x y, a = SBool x /\ b = SBool y) ->
  exists c, scalar_order a b c /\ forall c', scalar_order a b c' -> c' = c.
Proof.
  intros a b [(x & y & -> & ->)|(x & y & -> & ->)].
  - exists (x ?= y)%Z. split.
    + constructor. destruct (x ?= y)%Z eqn:E.
      * apply Z.compare_eq_iff; auto.
      * apply Z.compare_lt_iff; auto.
      * apply Z.compare_gt_iff in E; lia.
    + intros c' H. inversion H; subst.
      destruct c'; symmetry; [apply Z.compare_eq_iff|apply Z.compare_lt_iff|apply Z.compare_gt_iff]; auto; lia.
  - exists (bool_compare x y). destruct x, y; simpl; (split; [constructor|]);
      intros c' H; inversion H; reflexivity.
Qed.

Lemma cmp_nil_operand : forall op a b, a = Nil \/ b = Nil -> do_cmp op a b = Ok Nil.
Proof.
  intros op a b [-> | ->]; destruct op; try reflexivity; destruct a; reflexivity.
Qed.

Lemma cmp_float : forall x y,
  ((x = S754_nan \/ y = S754_nan) <->
     forall op, op = Lt \/ op = Le \/ op = Gt \/ op = Ge ->
       do_cmp op (Defined (SFloat x)) (Defined (SFloat y)) = Ok Nil) /\
  (x <> S754_nan -> y <> S754_nan ->
    exists lt le,
      do_cmp Lt (Defined (SFloat x)) (Defined (SFloat y)) = Ok (Defined (SBool lt)) /\
      do_cmp Le (Defined (SFloat x)) (Defined (SFloat y)) = Ok (Defined (SBool le)) /\
      do_cmp Gt (Defined (SFloat x)) (Defined (SFloat y)) = Ok (Defined (SBool (negb le))) /\
      do_cmp Ge (Defined (SFloat x)) (Defined (SFloat y)) = Ok (Defined (SBool (negb lt))) /\
      (lt = true -> le = true)).
Proof.
  intros x y. pose proof (SFcompare_none x y) as N. split.
  - rewrite <- N. split.
    + intros E op [-> | [-> | [-> | ->]]];
      unfold do_cmp, cmp_ord, nil_cmp, scalar_cmp; cbn [bind]; rewrite E; reflexivity.
    + intros H. specialize (H Lt (or_introl eq_refl)).
      unfold do_cmp, cmp_ord, nil_cmp, scalar_cmp in H; cbn [bind] in H.
      destruct (SFcompare x y) as [[]|]; auto; discriminate H.
  - intros Hx Hy. destruct (SFcompare x y) as [c|] eqn:E; [|tauto].
    exists (comparison_eqb c Datatypes.Lt), (negb (comparison_eqb c Datatypes.Gt)).
    unfold do_cmp, cmp_ord, nil_cmp, scalar_cmp; cbn [bind]. rewrite E.
    destruct c; repeat split; auto; discriminate.
Qed.

Lemma cmp_flip : forall a b,
  do_cmp Lt a b = do_cmp Gt b a /\ do_cmp Le a b = do_cmp Ge b a.
Proof.
  intros [a|] [b|]; try (split; reflexivity).
  unfold do_cmp, cmp_ord, nil_cmp.
  destruct a as [x|x|x|], b as [y|y|y|]; try (split; reflexivity); unfold scalar_cmp; cbn [bind].
  - rewrite (Z.compare_antisym x y). destruct (x ?= y)%Z; split; reflexivity.
  - rewrite (SFcompare_swap x y). destruct (SFcompare x y) as [[]|]; split; reflexivity.
  - rewrite (bool_compare_swap x y). destruct (bool_compare x y); split; reflexivity.
Qed.

Lemma trusted_total : forall v, (exists p, trusted v = Ok p) \/ trusted v = Panic PUnwrapNil.
Proof.
  induction v using val_ind'.
  - destruct n; simpl; eauto.
  - rewrite trusted_VT.
    assert (H' : (exists ps, mapM trusted l = Ok ps) \/ mapM trusted l = Panic PUnwrapNil).
    { induction H; simpl; eauto.
      destruct H as [(p & ->)| ->]; simpl; auto.
      destruct IHForall as [(ps & ->)| ->]; simpl; eauto. }
    destruct H' as [(ps & ->)| ->]; simpl; eauto.
Qed.

Lemma ago_extend : forall h v k,
  ago (extend h v) 1 = Ok v /\ ago (extend h v) (S (S k)) = ago h (S k).
Proof.
  intros h v k. rewrite !ago_hlist, hlist_extend. simpl. auto.
Qed.

Lemma register_example :
  let vint z := VS (Defined (SInt z)) in
  let clk_on := Defined (SBool true) in
  let clk_off := Defined (SBool false) in
  Forall2 (fby_instant (VS Nil))
    [None; Some (vint 1%Z, vint 10%Z); None; Some (vint 2%Z, vint 20%Z); Some (vint 3%Z, vint 30%Z)]
    [(clk_off, Some (VS Nil), VS Nil); (clk_on, Some (vint 1%Z), vint 10%Z); (Nil, Some (VS Nil), VS Nil);
     (clk_on, Some (vint 2%Z), vint 20%Z); (clk_on, Some (vint 3%Z), vint 30%Z)] /\
  reg_run (reg_default (vint 0%Z))
    [(clk_off, Some (VS Nil), VS Nil); (clk_on, Some (vint 1%Z), vint 10%Z); (Nil, Some (VS Nil), VS Nil);
     (clk_on, Some (vint 2%Z), vint 20%Z); (clk_on, Some (vint 3%Z), vint 30%Z)]
  = Ok [VS Nil; vint 1%Z; VS Nil; vint 10%Z; vint 20%Z].
Proof.
  intros. split; [|reflexivity].
  repeat constructor; simpl; auto; eexists; repeat split; auto.
Qed.

Lemma merge_when : forall b x,
  exists on off,
    val_when true (VS (Defined (SBool b))) x = Ok on /\
    val_when false (VS (Defined (SBool b))) x = Ok off /\
    val_merge (VS (Defined (SBool b))) on off = Ok x /\
    on = (if b then x else all_nil x) /\ off = (if b then all_nil x else x).
Proof. intros [] x; do 2 eexists; repeat split. Qed.

Lemma nil_clock : forall pos x y,
  val_when pos (VS Nil) x = Ok (all_nil x) /\ val_merge (VS Nil) x y = Ok (all_nil x).
Proof. split; reflexivity. Qed.

Lemma all_nil_spec : forall x, ~ has_defined (all_nil x) /\ same_shape x (all_nil x).
Proof.
  induction x using val_ind'; split; simpl.
  - intros H. inversion H.
  - constructor.
  - intros D. inversion D as [|l' v I N]; subst. apply in_map_iff in I as (w & <- & I).
    rewrite Forall_forall in H. destruct (H w I); auto.
  - constructor. induction H; simpl; constructor; auto. apply H.
Qed.

Local Open Scope Z_scope.
Lemma saturate_range : forall z, - 2 ^ 63 <= saturate z < 2 ^ 63.
Proof.
  intros z. unfold saturate, i64_min, i64_max.
  destruct (z <? - 2 ^ 63) eqn:E; [lia|]. destruct (2 ^ 63 - 1 <? z) eqn:E2; lia.
Qed.

Lemma int_of_float_range : forall f, exists z,
  int_of_float (Defined (SFloat f)) = Defined (SInt z) /\ - 2 ^ 63 <= z < 2 ^ 63.
Proof.
  intros f. exists (f64_to_i64 f). split; auto.
  destruct f as [s|s| |s m e]; simpl f64_to_i64.
  - lia.
  - destruct s; unfold i64_min, i64_max; lia.
  - lia.
  - apply saturate_range.
Qed.

Lemma int_of_float_exact : forall s m e z,
  int_of_float (Defined (SFloat (S754_finite s m e))) = Defined (SInt z) ->
  - 2 ^ 63 < z < 2 ^ 63 - 1 ->
  (if s then z <= 0 else 0 <= z) /\
  (if 0 <=? e then Z.abs z = Z.pos m * 2 ^ e
   else Z.abs z * 2 ^ (- e) <= Z.pos m < (Z.abs z + 1) * 2 ^ (- e)).
Proof.
  intros s m e z H R. cbn in H. injection H as <-.
  assert (N : 0 <= trunc_mag m e).
  { unfold trunc_mag. destruct (Z.leb_spec 0 e).
    - pose proof (Z.pow_nonneg 2 e). nia.
    - apply Z.div_pos; [lia|]. apply Z.pow_pos_nonneg; lia. }
  assert (S : saturate (if s then - trunc_mag m e else trunc_mag m e) =
              if s then - trunc_mag m e else trunc_mag m e).
  { revert R. unfold saturate, i64_min, i64_max.
    destruct (_ <? - 2 ^ 63) eqn:E; [lia|]. destruct (2 ^ 63 - 1 <? _) eqn:E2; [lia|auto]. }
  rewrite S in *. split; [destruct s; lia|].
  assert (A : Z.abs (if s then - trunc_mag m e else trunc_mag m e) = trunc_mag m e) by (destruct s; lia).
  rewrite A. unfold trunc_mag. destruct (Z.leb_spec 0 e); auto.
  assert (P : 0 < 2 ^ (- e)) by (apply Z.pow_pos_nonneg; lia).
  pose proof (Z.div_mod (Z.pos m) (2 ^ (- e)) ltac:(lia)).
  pose proof (Z.mod_pos_bound (Z.pos m) (2 ^ (- e)) P). nia.
Qed.

Lemma cmp_with_nil : forall op a b, a = Nil \/ b = Nil -> do_cmp op a b = Ok Nil.
Proof. intros op a b [->| ->]; [|destruct a]; destruct op; reflexivity. Qed.

Lemma choices : forall yes no,
  (forall b, val_ifx (VS (Defined (SBool b))) yes no = Ok (if b then yes else no)) /\
  (exists v, val_ifx (VS Nil) yes no = Ok v /\ ~ has_defined v /\ same_shape yes v).
Proof.
  intros yes no. split; [intros []; reflexivity|]. exists (all_nil yes). split; [reflexivity|]. apply all_nil_spec.
Qed.
