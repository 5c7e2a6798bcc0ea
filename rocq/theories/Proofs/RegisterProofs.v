(** Registers and flips implement the clocked temporal operators. *)
From Coq Require Import List ZArith Bool Lia.
From Verif Require Import Model.Base Model.Scalar Model.Value Model.Register Spec.Clocked Spec.RuntimeSpec
  Proofs.RuntimeProofs.
Import ListNotations.

Lemma all_nil_idem : forall v, all_nil (all_nil v) = all_nil v.
Proof.
  induction v using val_ind'; simpl; auto. f_equal. rewrite map_map.
  induction H; simpl; auto. rewrite H, IHForall. auto.
Qed.

Lemma last_present_app : forall {A} (l : list (option A)) o,
  last_present (l ++ [o]) = match o with Some a => Some a | None => last_present l end.
Proof.
  intros. unfold last_present. rewrite fold_left_app. reflexivity.
Qed.

Lemma reg_with_clock_present : forall r b clk, clk_means b clk ->
  reg_with_clock r clk = Ok (mkReg (r_inner r) (r_next r) b).
Proof.
  intros r [] clk H; simpl in H.
  - subst. reflexivity.
  - destruct H as [-> | ->]; reflexivity.
Qed.

Lemma first_is_nil_all_nil : forall v, shape_ok v = true -> first_is_nil (all_nil v) = true.
Proof.
  induction v using val_ind'; simpl; auto.
  destruct l as [|v l]; simpl; [discriminate|]. inversion H; subst; auto.
Qed.

Section Run.
  Variable shape : val.
  Hypothesis shape_fine : shape_ok shape = true.
  Let nilv := all_nil shape.

  Lemma nilv_first : first_is_nil nilv = true.
  Proof. apply first_is_nil_all_nil; auto. Qed.

  Lemma nilv_nil : all_nil nilv = nilv.
  Proof. apply all_nil_idem. Qed.

  Definition reg_inv (last : option val) (r : register) : Prop :=
    r_inner r = or_nil nilv last /\ r_next r = or_nil nilv last /\
    match last with Some v => first_is_nil v = false /\ all_nil v = nilv | None => True end.

  Lemma fby_step : forall done o i r last,
    reg_inv (option_map snd (last_present done)) r -> last = last_present done ->
    fby_instant nilv o i ->
    exists out r',
      reg_instant r (fst (fst i)) (snd (fst i)) (snd i) = Ok (out, r') /\
      out = or_nil nilv (match o with
                         | None => None
                         | Some (a, _) => match last with None => Some a | Some (_, b) => Some b end
                         end) /\
      reg_inv (option_map snd (last_present (done ++ [o]))) r'.
  Proof.
    intros done o [[clk init] next] r last (I1 & I2 & I3) -> (C & (v & -> & V) & N).
    cbn [fst snd]. unfold reg_instant. rewrite (reg_with_clock_present _ _ _ C).
    cbn [bind]. unfold reg_try_initialize, reg_get, reg_schedule. cbn [r_inner r_next r_on_clock].
    rewrite I1, I2. rewrite last_present_app.
    destruct o as [[a b]|]; cbn [is_some fst_o snd_o option_map fst snd operand_means] in *.
    - destruct V as (-> & Va & Sa), N as (-> & Nb & Sb).
      destruct (last_present done) as [[a' b']|]; cbn [option_map snd or_nil] in *.
      + destruct I3 as [I3 I4]. rewrite I3, Nb. cbn.
        eexists _, _; split; [reflexivity|]. split; [reflexivity|]. repeat split; auto.
      + rewrite nilv_first, Nb. cbn.
        eexists _, _; split; [reflexivity|]. split; [reflexivity|]. repeat split; auto.
    - subst v next. rewrite nilv_first.
      destruct (last_present done) as [[a' b']|]; cbn [option_map snd or_nil] in *.
      + destruct I3 as [I3 I4]. rewrite I3. cbn.
        eexists _, _; split; [reflexivity|]. split; [exact I4|]. repeat split; auto.
      + rewrite nilv_first. cbn.
        eexists _, _; split; [reflexivity|]. split; [apply nilv_nil|]. repeat split; auto.
  Qed.

  Lemma fby_run : forall todo is done r,
    reg_inv (option_map snd (last_present done)) r ->
    Forall2 (fby_instant nilv) todo is ->
    exists outs, reg_run r is = Ok outs /\ length outs = length todo /\
      forall k, k < length todo ->
        nth k outs nilv = or_nil nilv (fby_at (done ++ todo) (length done + k)).
  Proof.
    intros todo is done r I F. revert done r I. induction F as [|o i todo is Ho F IH]; intros done r I.
    - exists []. simpl. repeat split; auto. intros; lia.
    - destruct (fby_step done o i r _ I eq_refl Ho) as (out & r' & E & Eo & I').
      destruct (IH _ _ I') as (outs & Er & L & N).
      exists (out :: outs). destruct i as [[clk init] next]. cbn [fst snd] in E.
      cbn [reg_run]. rewrite E. cbn [bind]. rewrite Er. cbn [bind].
      split; [reflexivity|]. split; [simpl; auto|].
      intros [|k] Hk.
      + cbn [nth]. rewrite Nat.add_0_r. unfold fby_at.
        rewrite app_nth2, Nat.sub_diag by lia. cbn [nth].
        rewrite firstn_app, firstn_all, Nat.sub_diag. cbn [firstn]. rewrite app_nil_r.
        rewrite Eo. destruct o as [[a b]|]; auto.
      + cbn [nth]. rewrite N by (simpl in Hk; lia).
        rewrite <- app_assoc. rewrite app_length. cbn [length].
        replace (length done + 1 + k) with (length done + S k) by lia. reflexivity.
  Qed.

  Lemma reg_default_inv : reg_inv None (reg_default shape).
  Proof. repeat split; auto. Qed.

  Lemma register_fby : forall instants inputs,
    Forall2 (fby_instant nilv) instants inputs ->
    exists outs, reg_run (reg_default shape) inputs = Ok outs /\ length outs = length instants /\
      forall k, k < length instants -> nth k outs nilv = or_nil nilv (fby_at instants k).
  Proof.
    intros instants inputs F.
    destruct (fby_run instants inputs [] (reg_default shape) reg_default_inv F) as (outs & E & L & N).
    exists outs. auto.
  Qed.

  (** pre *)
  Lemma pre_run : forall todo is done r,
    reg_inv (last_present done) r ->
    Forall2 (pre_instant nilv) todo is ->
    exists outs, reg_run r is = Ok outs /\ length outs = length todo /\
      forall k, k < length todo ->
        nth k outs nilv = or_nil nilv (match pre_at (done ++ todo) (length done + k) with
                                       | Some o => o | None => None end).
  Proof.
    intros todo is done r I F. revert done r I. induction F as [|o i todo is Ho F IH]; intros done r I.
    - exists []. simpl. repeat split; auto. intros; lia.
    - destruct i as [[clk init] next]. destruct Ho as (C & -> & N).
      assert (exists out r', reg_instant r clk None next = Ok (out, r') /\
        out = or_nil nilv (match o with None => None | Some _ => last_present done end) /\
        reg_inv (last_present (done ++ [o])) r') as (out & r' & E & Eo & I').
      { destruct I as (I1 & I2 & I3). unfold reg_instant. rewrite (reg_with_clock_present _ _ _ C).
        cbn [bind]. unfold reg_try_initialize, reg_get, reg_schedule. cbn [r_inner r_next r_on_clock].
        rewrite I1, I2. rewrite last_present_app.
        destruct o as [b|]; cbn [is_some operand_means] in *.
        - destruct N as (-> & Nb & Sb). rewrite Nb. cbn. eexists _, _; split; [reflexivity|].
          split; [reflexivity|]. repeat split; auto.
        - subst next. rewrite nilv_first. cbn. eexists _, _; split; [reflexivity|].
          split.
          + destruct (last_present done); cbn; [apply I3|apply nilv_nil].
          + repeat split; auto. }
      destruct (IH _ _ I') as (outs & Er & L & Nn).
      exists (out :: outs). cbn [reg_run]. rewrite E. cbn [bind]. rewrite Er. cbn [bind].
      split; [reflexivity|]. split; [simpl; auto|].
      intros [|k] Hk.
      + cbn [nth]. rewrite Nat.add_0_r. unfold pre_at.
        rewrite app_nth2, Nat.sub_diag by lia. cbn [nth].
        rewrite firstn_app, firstn_all, Nat.sub_diag. cbn [firstn]. rewrite app_nil_r.
        rewrite Eo. destruct o; auto.
      + cbn [nth]. rewrite Nn by (simpl in Hk; lia).
        rewrite <- app_assoc. rewrite app_length. cbn [length].
        replace (length done + 1 + k) with (length done + S k) by lia. reflexivity.
  Qed.

  Lemma register_pre : forall instants inputs,
    Forall2 (pre_instant nilv) instants inputs ->
    exists outs, reg_run (reg_default shape) inputs = Ok outs /\ length outs = length instants /\
      forall k, k < length instants ->
        nth k outs nilv = or_nil nilv (match pre_at instants k with Some o => o | None => None end).
  Proof.
    intros instants inputs F.
    destruct (pre_run instants inputs [] (reg_default shape) reg_default_inv F) as (outs & E & L & N).
    exists outs. auto.
  Qed.
End Run.

Lemma flip_run_gen : forall l done f,
  f = negb (is_some (last_present (map flip_means done))) ->
  forall k d, k < length l ->
    nth k (flip_run f l) d =
    match arrow_at (map flip_means (done ++ l)) (length done + k) with
    | Some v => v
    | None => all_nil (fst (nth k l (d, d)))
    end.
Proof.
  induction l as [|[a b] l IH]; intros done f Hf k d Hk; [simpl in Hk; lia|].
  cbn [flip_run]. unfold flip_instant.
  assert (Hat : forall x, arrow_at (map flip_means (done ++ (a, b) :: l)) (length done + 0) = x <->
     match flip_means (a, b) with None => None | Some (a, b) =>
       if is_some (last_present (map flip_means done)) then Some b else Some a end = x).
  { intros x. rewrite Nat.add_0_r. unfold arrow_at. rewrite map_app. cbn [map].
    rewrite app_nth2 by (rewrite map_length; lia). rewrite map_length, Nat.sub_diag. cbn [nth].
    rewrite firstn_app, map_length, Nat.sub_diag. cbn [firstn]. rewrite app_nil_r.
    rewrite firstn_all2 by (rewrite map_length; lia).
    destruct (flip_means (a, b)) as [[? ?]|]; [|tauto].
    destruct (last_present (map flip_means done)); simpl; tauto. }
  assert (Hnext : forall f', f' = negb (is_some (last_present (map flip_means (done ++ [(a, b)])))) ->
    forall k, k < length l ->
    nth k (flip_run f' l) d =
    match arrow_at (map flip_means (done ++ (a, b) :: l)) (length done + S k) with
    | Some v => v | None => all_nil (fst (nth k l (d, d))) end).
  { intros f' Hf' k' Hk'. rewrite (IH (done ++ [(a, b)]) f' Hf' k' d Hk').
    rewrite <- app_assoc, app_length. cbn [length app].
    replace (length done + 1 + k') with (length done + S k') by lia. reflexivity. }
  rewrite map_app in Hnext. cbn [map] in Hnext. rewrite last_present_app in Hnext.
  assert (Fm : flip_means (a, b) = if first_is_nil a then None else Some (a, b)) by reflexivity.
  rewrite Fm in Hnext. rewrite Fm in Hat.
  destruct (first_is_nil a) eqn:Fa.
  - destruct k as [|k]; cbn [nth fst].
    + rewrite (proj2 (Hat None) eq_refl). auto.
    + apply Hnext; auto. simpl in Hk; lia.
  - unfold tas. destruct k as [|k]; cbn [nth fst].
    + erewrite (proj2 (Hat _)); [|reflexivity]. subst f.
      destruct (last_present (map flip_means done)); auto.
    + apply Hnext; auto. simpl in Hk; lia.
Qed.

Lemma flip_arrow : forall l k d, k < length l ->
  nth k (flip_run flip_default l) d =
  match arrow_at (map flip_means l) k with
  | Some v => v
  | None => all_nil (fst (nth k l (d, d)))
  end.
Proof.
  intros l k d H. apply (flip_run_gen l [] flip_default eq_refl k d H).
Qed.
