(** Proofs about the run-time library (nillable values, histories, registers). *)
From Coq Require Import List ZArith Bool Lia.
From Coq Require Import Floats.SpecFloat.
From Verif Require Import Model.Base Model.Scalar Model.Value Model.History Model.Register Model.Cast
  Spec.RuntimeSpec.
Import ListNotations.

(** ** Induction over nested values *)
Section val_ind.
  Variable P : val -> Prop.
  Hypothesis HS : forall n, P (VS n).
  Hypothesis HT : forall l, Forall P l -> P (VT l).
  Fixpoint val_ind' (v : val) : P v :=
    match v with
    | VS n => HS n
    | VT l => HT l ((fix go l : Forall P l :=
        match l with [] => Forall_nil _ | v :: l => Forall_cons v (val_ind' v) (go l) end) l)
    end.
End val_ind.

Section plain_ind.
  Variable P : plain -> Prop.
  Hypothesis HS : forall n, P (PS n).
  Hypothesis HT : forall l, Forall P l -> P (PT l).
  Fixpoint plain_ind' (v : plain) : P v :=
    match v with
    | PS n => HS n
    | PT l => HT l ((fix go l : Forall P l :=
        match l with [] => Forall_nil _ | v :: l => Forall_cons v (plain_ind' v) (go l) end) l)
    end.
End plain_ind.

(** ** C01: strict operators *)
Lemma nil_bin_nil_iff : forall m op a b,
  nil_bin m op a b = Ok Nil <-> a = Nil \/ b = Nil.
Proof.
  intros m op [x|] [y|]; simpl; split; intros H; auto;
    try (destruct H as [H|H]; discriminate H).
  destruct (scalar_bin m op x y); discriminate H.
Qed.

Lemma nil_un_nil_iff : forall m op a, nil_un m op a = Ok Nil <-> a = Nil.
Proof.
  intros m op [x|]; simpl; split; intros H; auto; try discriminate.
  destruct (scalar_un m op x); discriminate H.
Qed.

Local Open Scope Z_scope.

Lemma in_i64_spec : forall z, in_i64 z = true <-> - 2 ^ 63 <= z < 2 ^ 63.
Proof.
  intros z. unfold in_i64, i64_min, i64_max. rewrite andb_true_iff, !Z.leb_le. lia.
Qed.

Lemma wrap64_range : forall z, - 2 ^ 63 <= wrap64 z < 2 ^ 63.
Proof.
  intros z. unfold wrap64. pose proof (Z.mod_pos_bound (z + 2 ^ 63) (2 ^ 64)). lia.
Qed.

Lemma wrap64_cong : forall z, (wrap64 z - z) mod 2 ^ 64 = 0.
Proof.
  intros z. unfold wrap64.
  rewrite (Z.mod_eq (z + 2 ^ 63) (2 ^ 64)) by lia.
  replace (z + 2 ^ 63 - 2 ^ 64 * ((z + 2 ^ 63) / 2 ^ 64) - 2 ^ 63 - z)
    with ((- ((z + 2 ^ 63) / 2 ^ 64)) * 2 ^ 64) by ring.
  apply Z.mod_mul. lia.
Qed.

Lemma i64_result_checked : forall z,
  i64_result Checked z =
  if in_i64 z then Ok (SInt z) else Panic POverflow.
Proof. reflexivity. Qed.

Lemma i64_result_wrapping : forall z, exists r,
  i64_result Wrapping z = Ok (SInt r) /\ - 2 ^ 63 <= r < 2 ^ 63 /\ (r - z) mod 2 ^ 64 = 0.
Proof.
  intros z. unfold i64_result. destruct (in_i64 z) eqn:E.
  - exists z. apply in_i64_spec in E. rewrite Z.sub_diag. auto.
  - exists (wrap64 z). auto using wrap64_range, wrap64_cong.
Qed.

Lemma i64_result_inv : forall m z s, i64_result m z = Ok s -> wf_scalar s = true.
Proof.
  unfold i64_result. intros m z s H. destruct (in_i64 z) eqn:E.
  - inversion H; subst; auto.
  - destruct m; inversion H; subst. simpl. apply in_i64_spec, wrap64_range.
Qed.


(** A number lies in the signed 64-bit range iff shifting it right by 63 leaves
    only its sign. *)
Lemma range_shiftr : forall z,
  (- 2 ^ 63 <= z < 2 ^ 63) <-> (Z.shiftr z 63 = 0 \/ Z.shiftr z 63 = -1).
Proof.
  intros z. rewrite Z.shiftr_div_pow2 by lia.
  pose proof (Z.div_mod z (2 ^ 63)). pose proof (Z.mod_pos_bound z (2 ^ 63)). lia.
Qed.

Lemma bitop_range : forall (f : Z -> Z -> Z) x y,
  (forall a b n, Z.shiftr (f a b) n = f (Z.shiftr a n) (Z.shiftr b n)) ->
  (forall a b, (a = 0 \/ a = -1) -> (b = 0 \/ b = -1) -> (f a b = 0 \/ f a b = -1)) ->
  - 2 ^ 63 <= x < 2 ^ 63 -> - 2 ^ 63 <= y < 2 ^ 63 -> - 2 ^ 63 <= f x y < 2 ^ 63.
Proof.
  intros f x y Hs Hf Hx Hy. apply range_shiftr. apply range_shiftr in Hx, Hy.
  rewrite Hs. auto.
Qed.

Lemma quot_range : forall x y, y <> 0 -> ~ (x = - 2 ^ 63 /\ y = -1) ->
  - 2 ^ 63 <= x < 2 ^ 63 -> - 2 ^ 63 <= Z.quot x y < 2 ^ 63.
Proof.
  intros x y Hy Hn Hx.
  assert (Habs : Z.abs (Z.quot x y) <= Z.abs x).
  { rewrite <- Z.quot_abs by lia. apply Z.quot_le_upper_bound; nia. }
  destruct (Z.eq_dec (Z.quot x y) (2 ^ 63)) as [E|E]; [|lia].
  exfalso. apply Hn.
  assert (Z.abs x = 2 ^ 63) by lia.
  assert (x = - 2 ^ 63) by lia. subst x. split; auto.
  pose proof (Z.quot_rem (- 2 ^ 63) y Hy) as Q. rewrite E in Q.
  pose proof (Z.rem_bound_abs (- 2 ^ 63) y Hy).
  destruct (Z.eq_dec y (-1)); auto. exfalso.
  assert (y <= -2 \/ y >= 1) as [|] by lia; nia.
Qed.

Lemma rem_range : forall x y, y <> 0 ->
  - 2 ^ 63 <= x < 2 ^ 63 -> - 2 ^ 63 <= Z.rem x y < 2 ^ 63.
Proof.
  intros x y Hy Hx.
  destruct (Z.le_ge_cases 0 x).
  - pose proof (Z.rem_nonneg x y Hy H). pose proof (Z.rem_le x y). 
    assert (Z.rem x y <= x).
    { rewrite <- (Z.rem_opp_r x y) in * by auto.
      destruct (Z.le_ge_cases 0 y); [rewrite Z.rem_opp_r by auto|];
      apply Z.rem_le; lia. }
    lia.
  - pose proof (Z.rem_nonpos x y Hy ltac:(lia)).
    assert (Z.rem (- x) y <= - x).
    { destruct (Z.le_ge_cases 0 y); [|rewrite <- (Z.rem_opp_r (-x) y) by auto];
      apply Z.rem_le; lia. }
    rewrite Z.rem_opp_l in H1 by auto. lia.
Qed.

Lemma scalar_bin_wf : forall m op a b r,
  wf_scalar a = true -> wf_scalar b = true ->
  scalar_bin m op a b = Ok r -> wf_scalar r = true.
Proof.
  intros m op a b r Ha Hb H.
  destruct a as [x|x|x|], b as [y|y|y|]; try discriminate H.
  - simpl in Ha, Hb. rewrite in_i64_spec in Ha, Hb.
    destruct op; simpl in H.
    + eapply i64_result_inv; eauto.
    + eapply i64_result_inv; eauto.
    + eapply i64_result_inv; eauto.
    + unfold i64_div in H. destruct (y =? 0) eqn:E; [discriminate|].
      destruct ((x =? i64_min) && (y =? -1)) eqn:E2; [discriminate|].
      inversion H; subst; simpl. apply in_i64_spec. apply quot_range; auto.
      * lia.
      * intros [-> ->]. discriminate E2.
    + unfold i64_rem in H. destruct (y =? 0) eqn:E; [discriminate|].
      destruct ((x =? i64_min) && (y =? -1)) eqn:E2; [discriminate|].
      inversion H; subst; simpl. apply in_i64_spec. apply rem_range; auto. lia.
    + inversion H; subst; simpl. apply in_i64_spec. apply bitop_range; auto.
      * intros; apply Z.shiftr_land.
      * intros ? ? [-> | ->] [-> | ->]; auto.
    + inversion H; subst; simpl. apply in_i64_spec. apply bitop_range; auto.
      * intros; apply Z.shiftr_lor.
      * intros ? ? [-> | ->] [-> | ->]; auto.
    + inversion H; subst; simpl. apply in_i64_spec. apply bitop_range; auto.
      * intros; apply Z.shiftr_lxor.
      * intros ? ? [-> | ->] [-> | ->]; auto.
  - destruct op; inversion H; subst; auto.
  - destruct op; inversion H; subst; auto.
Qed.

Lemma scalar_un_wf : forall m op a r,
  wf_scalar a = true -> scalar_un m op a = Ok r -> wf_scalar r = true.
Proof.
  intros m op a r Ha H. destruct op, a as [x|x|x|]; try discriminate H;
    inversion H; subst; auto.
  - eapply i64_result_inv; eauto.
  - simpl in Ha |- *. rewrite in_i64_spec in *. unfold Z.lnot. lia.
Qed.

Lemma int_not : forall m x, exists r, nil_un m Not (Defined (SInt x)) = Ok (Defined (SInt r)) /\
  forall i, (0 <= i)%Z -> Z.testbit r i = negb (Z.testbit x i).
Proof. intros m x. eexists. split; [reflexivity|]. intros i I. apply Z.lnot_spec. auto. Qed.

(** Truncated division *)
Lemma i64_div_spec : forall m x y, y <> 0 -> ~ (x = - 2 ^ 63 /\ y = -1) ->
  exists q r,
    i64_div m x y = Ok (SInt q) /\ i64_rem m x y = Ok (SInt r) /\
    x = y * q + r /\ Z.abs r < Z.abs y /\ 0 <= r * x.
Proof.
  intros m x y Hy Hn. exists (Z.quot x y), (Z.rem x y).
  unfold i64_div, i64_rem.
  assert (E1 : (y =? 0) = false) by lia.
  assert (E2 : (x =? i64_min) && (y =? -1) = false).
  { apply andb_false_iff. unfold i64_min. destruct (Z.eq_dec y (-1)); [|right; lia].
    left. apply Z.eqb_neq. intros E. apply Hn; auto. }
  rewrite E1, E2. repeat split; auto.
  - apply Z.quot_rem; auto.
  - apply Z.rem_bound_abs; auto.
  - apply Z.rem_sign_mul; auto.
Qed.

Lemma i64_div_panic : forall m x y,
  (i64_div m x y = Panic PDivZero <-> y = 0) /\
  (i64_rem m x y = Panic PDivZero <-> y = 0) /\
  (i64_div m x y = Panic POverflow <-> x = - 2 ^ 63 /\ y = -1) /\
  (i64_rem m x y = Panic POverflow <-> x = - 2 ^ 63 /\ y = -1).
Proof.
  intros m x y. unfold i64_div, i64_rem.
  destruct (Z.eqb_spec y 0) as [->|Hy].
  - repeat split; intros; try discriminate; try lia; auto.
  - destruct ((x =? i64_min) && (y =? -1)) eqn:E.
    + apply andb_true_iff in E. unfold i64_min in E. rewrite !Z.eqb_eq in E.
      repeat split; intros; try discriminate; try lia; auto; tauto.
    + assert (~ (x = - 2 ^ 63 /\ y = -1)).
      { intros [-> ->]. discriminate E. }
      repeat split; intros; try discriminate; try lia; tauto.
Qed.

(** ** C02: comparisons *)
Lemma SFcompare_swap : forall a b,
  SFcompare b a = option_map CompOpp (SFcompare a b).
Proof.
  intros a b. destruct a as [[]|[]| |[] m e], b as [[]|[]| |[] m' e']; simpl; auto.
  - rewrite (Z.compare_antisym e e'). destruct (e ?= e') eqn:E; simpl; auto.
    pose proof (Pos.compare_antisym m m') as A.
    change (Pos.compare_cont Datatypes.Eq m' m) with (m' ?= m)%positive.
    change (Pos.compare_cont Datatypes.Eq m m') with (m ?= m')%positive.
    rewrite A. destruct (m ?= m')%positive; auto.
  - rewrite (Z.compare_antisym e e'). destruct (e ?= e') eqn:E; simpl; auto.
    pose proof (Pos.compare_antisym m m') as A.
    change (Pos.compare_cont Datatypes.Eq m' m) with (m' ?= m)%positive.
    change (Pos.compare_cont Datatypes.Eq m m') with (m ?= m')%positive.
    rewrite A. destruct (m ?= m')%positive; auto.
Qed.

Lemma SFcompare_none : forall a b,
  SFcompare a b = None <-> a = S754_nan \/ b = S754_nan.
Proof.
  intros a b. split.
  - destruct a as [[]|[]| |[] m e], b as [[]|[]| |[] m' e']; simpl; auto; intros H;
      try discriminate H.
    all: destruct (e ?= e'); discriminate H.
  - intros [-> | ->]; auto. destruct a as [[]|[]| |[] m e]; auto.
Qed.

Lemma bool_compare_swap : forall a b, bool_compare b a = CompOpp (bool_compare a b).
Proof. intros [] []; reflexivity. Qed.

Local Close Scope Z_scope.

(** ** C03: embed and trusted *)

(** The local [fix] of [trusted] is [mapM trusted]. *)
Lemma trusted_VT : forall l, trusted (VT l) = bind (mapM trusted l) (fun ps => Ok (PT ps)).
Proof.
  intros l. cbn [trusted].
  match goal with |- bind (?f l) _ = _ =>
    assert (E : forall l, f l = mapM trusted l) end.
  { clear. induction l as [|a l IH]; simpl; auto. destruct (trusted a); simpl; auto. rewrite IH. auto. }
  rewrite E. auto.
Qed.

Lemma trusted_embed : forall p, trusted (embed p) = Ok p.
Proof.
  induction p using plain_ind'; [reflexivity|].
  change (embed (PT l)) with (VT (map embed l)). rewrite trusted_VT.
  assert (E : mapM trusted (map embed l) = Ok l).
  { induction H; simpl; auto. rewrite H. simpl. rewrite IHForall. auto. }
  rewrite E. auto.
Qed.

Lemma embed_trusted : forall v p, trusted v = Ok p -> embed p = v.
Proof.
  induction v using val_ind'; intros p E.
  - destruct n; simpl in E; inversion E; auto.
  - rewrite trusted_VT in E. destruct (mapM trusted l) as [ps|] eqn:M; inversion E; subst; clear E.
    simpl. f_equal. revert ps M. induction H; simpl; intros ps M.
    + inversion M; auto.
    + destruct (trusted x) eqn:T; simpl in M; [|discriminate].
      destruct (mapM trusted l) eqn:M'; simpl in M; inversion M; subst.
      simpl. f_equal; auto.
Qed.

Lemma trusted_panic_iff : forall v, trusted v = Panic PUnwrapNil <-> has_nil v.
Proof.
  induction v using val_ind'.
  - destruct n; simpl; split; intros E; try discriminate; auto using has_nil_here.
    inversion E.
  - rewrite trusted_VT. split.
    + intros E. destruct (mapM trusted l) as [ps|] eqn:M; simpl in E; inversion E; subst; clear E.
      assert (exists v, In v l /\ has_nil v) as (v & I & N).
      { revert M. induction H; simpl; intros M; [discriminate|].
        destruct (trusted x) eqn:T; simpl in M.
        - destruct (mapM trusted l) eqn:M'; simpl in M; inversion M; subst.
          destruct IHForall as (v & I & N); auto. exists v; auto.
        - inversion M; subst. exists x. split; auto. apply H; auto. }
      econstructor; eauto.
    + intros E. inversion E as [|l' v I N]; subst; clear E.
      assert (M : mapM trusted l = Panic PUnwrapNil).
      { revert I. induction H; simpl; intros I; [destruct I|].
        destruct I as [->|I].
        - rewrite (proj2 H); auto.
        - destruct (trusted x) as [p|q] eqn:T; simpl.
          + rewrite IHForall; auto.
          + assert (q = PUnwrapNil) as ->; auto.
            clear -T. revert q T. induction x using val_ind'; intros q T.
            * destruct n; simpl in T; inversion T; auto.
            * rewrite trusted_VT in T. destruct (mapM trusted l) eqn:M; simpl in T; inversion T; subst; clear T.
              revert q M. induction H; simpl; intros q M; [discriminate|].
              destruct (trusted x) eqn:T; simpl in M.
              -- destruct (mapM trusted l) eqn:M'; simpl in M; inversion M; subst. eauto.
              -- inversion M; subst. eauto. }
      rewrite M. auto.
Qed.

(** ** C04: histories refine lists of pushed values *)
Fixpoint hlist (h : hist) : list nillable :=
  match h with HO c => [c] | HS c p => c :: hlist p end.

Lemma hlist_nonempty : forall h, hlist h <> [].
Proof. destruct h; discriminate. Qed.

Lemma ago_hlist : forall h k,
  ago h (S k) = match nth_error (hlist h) k with Some v => Ok v | None => Panic PPast end.
Proof.
  induction h as [c|c p IH]; intros [|k]; simpl; auto.
  destruct k; auto.
Qed.

Lemma ago_zero : forall h, ago h 0 = Panic PPast.
Proof. destruct h; auto. Qed.

Lemma hlist_downcast : forall p c, hlist (downcast c p) = removelast (c :: hlist p).
Proof.
  induction p as [c'|c' p IH]; intros c; [reflexivity|].
  simpl downcast. simpl hlist. rewrite IH. 
  pose proof (hlist_nonempty p). destruct (hlist p); [congruence|]. reflexivity.
Qed.

Lemma hlist_update : forall h v, hlist (update h v) = removelast (v :: hlist h).
Proof.
  intros [c|c p] v; [reflexivity|].
  simpl update. simpl hlist. rewrite hlist_downcast. reflexivity.
Qed.

Lemma hlist_extend : forall h v, hlist (extend h v) = v :: hlist h.
Proof.
  induction h as [c|c p IH]; intros v; simpl; auto. rewrite IH. auto.
Qed.

Lemma length_removelast : forall {A} (l : list A), length (removelast l) = pred (length l).
Proof.
  induction l as [|a l IH]; auto. simpl. destruct l; auto. simpl in *. rewrite IH. auto.
Qed.

Lemma hlist_empty : forall n, hlist (empty_hist n) = repeat Nil (S n).
Proof. induction n; simpl in *; auto. rewrite IHn. auto. Qed.

Lemma nth_error_removelast : forall {A} (l : list A) k,
  nth_error (removelast l) k = if Nat.ltb (S k) (length l) then nth_error l k else None.
Proof.
  induction l as [|a l IH]; intros k; [destruct k; auto|].
  destruct l as [|b l]; [destruct k as [|k]; simpl; auto; destruct k; auto|].
  change (removelast (a :: b :: l)) with (a :: removelast (b :: l)).
  destruct k as [|k]; [reflexivity|].
  simpl nth_error at 1. rewrite IH. reflexivity.
Qed.

Lemma hist_after : forall n pushed,
  hlist (fold_left update pushed (empty_hist n)) = firstn (S n) (rev pushed ++ repeat Nil (S n)).
Proof.
  intros n pushed. induction pushed as [|v pushed IH] using rev_ind.
  - simpl fold_left. rewrite hlist_empty. cbn [rev app].
    symmetry. apply firstn_all2. rewrite repeat_length. auto.
  - rewrite fold_left_app. simpl fold_left. rewrite hlist_update, IH.
    rewrite rev_app_distr. cbn [rev app].
    rewrite (firstn_cons n). 
    assert (L : length (rev pushed ++ repeat Nil (S n)) >= S n).
    { rewrite app_length, repeat_length. lia. }
    revert L. generalize (rev pushed ++ repeat Nil (S n)). intros l L.
    clear -L. revert v l L. induction n; intros v l L.
    + destruct l; [simpl in L; lia|]. reflexivity.
    + destruct l as [|w l]; [simpl in L; lia|].
      rewrite (firstn_cons (S n)). 
      change (removelast (v :: w :: firstn (S n) l)) with (v :: removelast (w :: firstn (S n) l)).
      rewrite IHn by (simpl in L; lia). rewrite (firstn_cons n). reflexivity.
Qed.

Lemma ago_after_pushes : forall n pushed k,
  ago (fold_left update pushed (empty_hist n)) k =
  if (Nat.leb 1 k && Nat.leb k (S n))%bool then Ok (nth (k - 1) (rev pushed) Nil) else Panic PPast.
Proof.
  intros n pushed [|k]; [apply ago_zero|].
  rewrite ago_hlist, hist_after.
  replace (S k - 1) with k by lia.
  change (Nat.leb 1 (S k)) with true. cbn [andb].
  destruct (Nat.leb_spec (S k) (S n)) as [L|L].
  - assert (E : forall m (l : list nillable), k < m -> nth_error (firstn m l) k = nth_error l k).
    { clear. induction k; intros [|m] [|a l] L; simpl; auto; try lia. apply IHk; lia. }
    rewrite E by lia.
    destruct (Nat.lt_ge_cases k (length (rev pushed))) as [Lt|Ge].
    + rewrite nth_error_app1 by auto. rewrite (nth_error_nth' _ Nil) by auto. auto.
    + rewrite nth_error_app2 by auto. rewrite (nth_overflow (rev pushed)) by auto.
      rewrite (nth_error_nth' _ Nil) by (rewrite repeat_length; lia).
      rewrite nth_repeat. auto.
  - match goal with |- match ?x with _ => _ end = _ => assert (x = None) as -> end; auto.
    apply nth_error_None. rewrite firstn_length. lia.
Qed.
