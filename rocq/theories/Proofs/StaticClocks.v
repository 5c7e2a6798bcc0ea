(** The clock check accepts exactly the expressions that have a clock. *)
From Coq Require Import String List ZArith Bool Arith Lia Permutation.
From Verif Require Import Model.Base Model.Scalar Model.Value Model.Ast Model.Errors Model.Interp Model.Options Model.Surface Model.Translate
  Model.Typecheck Model.Clockcheck Spec.ProgramSem Spec.ClockSpec Spec.SourceCausal Spec.Static
  Proofs.AstInd Proofs.OutBasics Proofs.TranslateSem Proofs.TranslateStruct Proofs.NodeWf Proofs.ProgramProofs Proofs.Paces Proofs.UniClock.
Import ListNotations.

Lemma result_try : forall {A B} (x : out A) (f : option A -> out B), result (f None) = None ->
  result (obind (attempt x) f) = pbind (result x) (fun a => result (f (Some a))).
Proof.
  intros A B [[a|] es ws|] f H; cbn; auto.
  - destruct (f (Some a)) as [[b|] es' ws'|]; auto.
  - destruct (f None) as [[b|] es' ws'|]; auto.
Qed.
Lemma result_bind : forall {A B} (x : out A) (f : A -> out B), result (obind x f) = pbind (result x) (fun a => result (f a)).
Proof. intros. rewrite result_obind. destruct (result x); auto. Qed.
Lemma implicit_result : forall k, result (is_implicit (kk k)) = if slow k then None else Some tt.
Proof. intros [| |[|] x]; reflexivity. Qed.
Lemma identical_result : forall a b, result (clk_identical (kk a) (kk b)) = if same_pace a b then Some tt else None.
Proof. intros [| |[|] x] [| |[|] y]; cbn; auto; destruct (String.eqb x y); auto. Qed.
Lemma refine_result : forall a b, result (refine (kk a) (kk b)) = option_map kk (meet a b).
Proof. intros [| |[|] x] [| |[|] y]; cbn; auto; destruct (String.eqb x y); auto. Qed.

Local Ltac none := repeat first [reflexivity | progress cbn [need result fail] | match goal with |- result (match ?q with (_, _) => _ end) = None => destruct q end
  | match goal with |- pbind ?x _ = None => destruct x; cbn [pbind] end | (rewrite result_try by none) | (rewrite result_bind; match goal with |- pbind ?x _ = _ => destruct x; cbn [pbind] end)].

Section Paced.
  Variable local : list (ident * clock).
  Variable u : bool.
  Variable locals : list ident.
  Variable env : ident -> option pace.
  Hypothesis Hin : forall x, In x locals -> exists c, lookup x local = Some c /\ env x = Some (clock_pace c).
  Hypothesis Hout : forall x, ~ In x locals -> env x = None.
  Notation of := (checked_pace u env).

  (** The clock found for [e'], whatever is known of the registers. *)
  Definition runs (e' : expr) (o : option pace) : Prop :=
    forall ks, match o with
               | Some k => exists ks', result (kc local e' ks) = Some (kk k, ks')
               | None => result (kc local e' ks) = None
               end.
  Definition beats (e : sexpr) : Prop := forall d s e' s', result (tr u locals e d s) = Some (e', s') -> runs e' (of e).
  Local Ltac run H ks := let X := fresh in pose proof (H ks) as X; cbv beta in X;
    match type of X with match ?o with _ => _ end =>
      let k := fresh "k" in let ks' := fresh "ks" in let E := fresh "R" in
      destruct o as [k|]; [destruct X as (ks' & E)|rename X into E]; rewrite E; clear E; cbn [pbind option_map knext]; auto end.

  Lemma beats_elems : forall l, Forall beats l -> forall d s es s',
    result (tr_elems (tr u locals) l d s) = Some (es, s') -> Forall2 runs es (map of l).
  Proof. induction 1 as [|e l H _ IH]; intros d s es s' E; cbn in E; inv_out; constructor; eauto. Qed.
  Lemma runs_kcs : forall g es os, Forall2 runs es os -> forall ks,
    if forallb (fun k => match k with Some k => same_pace g k | None => false end) os
    then exists ks', result (kcs local (kk g) es ks) = Some ks' else result (kcs local (kk g) es ks) = None.
  Proof.
    induction 1 as [|e o es os H _ IH]; intros ks; [cbn; eauto|]. cbn [kcs forallb].
    rewrite result_bind. run H ks; [|reflexivity]. rewrite result_bind, identical_result. destruct (same_pace g k); cbn [pbind andb]; [apply IH|reflexivity].
  Qed.
  Lemma runs_tuple : forall es os, Forall2 runs es os -> runs (ETuple es) (uniform os).
  Proof.
    intros es os H ks. rewrite kc_tuple. destruct H as [|e o es os H Hs]; [cbn; eauto|]. cbn [uniform].
    rewrite result_bind. pose proof (H ks) as X. destruct o as [g|]; cbn [pbind]; [destruct X as (ks' & E)|]; [|rewrite X; auto]. rewrite E. cbn [pbind].
    pose proof (runs_kcs g (e :: es) (Some g :: os) ltac:(constructor; auto) ks') as F. rewrite result_bind.
    destruct (forallb _ _); [destruct F as (ks2 & F)|]; rewrite F; cbn; eauto.
  Qed.
  Lemma runs_paren : forall es os b, Forall2 runs es os -> runs (paren es b) (uniform os).
  Proof.
    intros es os b H. pose proof (runs_tuple _ _ H) as T. unfold paren.
    destruct es as [|e [|e' es]]; auto. destruct b; auto.
    inversion H as [|x o y os' A B]; subst. inversion B; subst. intros ks. cbn [kc uniform]. specialize (A ks).
    destruct o as [k|]; cbn; auto. rewrite same_pace_refl. cbn. auto.
  Qed.
  Lemma runs_pair : forall a b oa ob, runs a oa -> runs b ob ->
    forall ks, match pbind oa (fun x => pbind ob (meet x)) with
      | Some k => exists ks', result (l <~ attempt (kc local a ks);;
        r <~ attempt (kc local b (knext l ks));;
        '(l, _) <~ need l;;
        '(r, s) <~ need r;;
        k <~ refine l r;;
        done (k, s)) = Some (kk k, ks')
      | None => result (l <~ attempt (kc local a ks);;
        r <~ attempt (kc local b (knext l ks));;
        '(l, _) <~ need l;;
        '(r, s) <~ need r;;
        k <~ refine l r;;
        done (k, s)) = None
      end.
  Proof.
    intros a b oa ob A B ks. rewrite !result_try by none. run A ks.
    rewrite !result_try by none. run B ks0.
    rewrite !result_bind. cbn [need result done pbind]. rewrite !result_bind. cbn [need result done pbind]. rewrite !result_bind, refine_result. destruct (meet k k0); cbn; eauto.
  Qed.
  Lemma runs_bin : forall op a b oa ob, runs a oa -> runs b ob -> runs (EBin op a b) (pbind oa (fun x => pbind ob (meet x))).
  Proof. intros op a b oa ob A B ks. exact (runs_pair a b oa ob A B ks). Qed.
  Lemma runs_cmp : forall op a b oa ob, runs a oa -> runs b ob -> runs (ECmp op a b) (pbind oa (fun x => pbind ob (meet x))).
  Proof. intros op a b oa ob A B ks. exact (runs_pair a b oa ob A B ks). Qed.
  Lemma runs_later : forall d a b oa ob, runs a oa -> runs b ob -> runs (ELater d a b) (pbind ob (fun _ => oa)).
  Proof.
    intros d a b oa ob A B ks. cbn [kc]. rewrite result_try by none. specialize (A ks). destruct oa as [x|].
    - destruct A as (ks1 & A). rewrite A. cbn [pbind knext]. rewrite result_try by none. specialize (B ks1). destruct ob as [y|]; cbn [pbind].
      + destruct B as (ks2 & B). rewrite B. cbn [pbind]. rewrite result_bind. cbn [need result done pbind]. rewrite result_bind. cbn [need result done pbind].
        exists ks2. destruct x as [| |[|] ?], y as [| |[|] ?]; reflexivity.
      + rewrite B. reflexivity.
    - rewrite A. destruct ob; reflexivity.
  Qed.
  Lemma runs_flip : forall i a b oa ob, runs a oa -> runs b ob -> runs (EFlip i a b) (pbind ob (fun y => pbind oa (fun x => if same_pace y x then Some y else None))).
  Proof.
    intros i a b oa ob A B ks. cbn [kc]. rewrite result_try by none. specialize (A ks). destruct oa as [x|].
    - destruct A as (ks1 & A). rewrite A. cbn [pbind knext]. rewrite result_try by none. specialize (B ks1). destruct ob as [y|]; cbn [pbind].
      + destruct B as (ks2 & B). rewrite B. cbn [pbind]. rewrite result_bind. cbn [need result done pbind]. rewrite result_bind. cbn [need result done pbind].
        rewrite result_bind, identical_result. destruct (same_pace y x); cbn; eauto.
      + rewrite B. reflexivity.
    - rewrite A. destruct ob; reflexivity.
  Qed.
  Lemma runs_fetch : forall i a b oa ob, runs a oa -> runs b ob -> runs (EFetch i (Some a) b) (pbind ob (fun y => pbind oa (fun x => if same_pace y x then Some y else None))).
  Proof.
    intros i a b oa ob A B ks. cbn [kc]. rewrite result_bind. specialize (B ks). destruct ob as [y|]; cbn [pbind]; [|rewrite B; reflexivity].
    destruct B as (ks1 & B). rewrite B. cbn [pbind]. rewrite !result_bind. specialize (A ks1). destruct oa as [x|]; cbn [pbind]; [|rewrite A; reflexivity].
    destruct A as (ks2 & A). rewrite A. cbn [pbind]. rewrite result_bind, identical_result. destruct (same_pace y x); cbn; eauto.
  Qed.
  Lemma runs_fetch0 : forall i b ob, runs b ob -> runs (EFetch i None b) ob.
  Proof.
    intros i b ob B ks. cbn [kc]. rewrite result_bind. specialize (B ks). destruct ob as [y|]; [|rewrite B; reflexivity]. destruct B as (ks1 & B). rewrite B. cbn. eauto.
  Qed.

  (** The variable that drives a clock. *)
  Lemma tr_drives : forall e d s e' s', result (tr u locals e d s) = Some (e', s') ->
    forall pos, result (as_clock e' pos) = option_map (fun x => kk (On pos x)) (driver env e).
  Proof.
    assert (G : forall O (compose : O -> expr -> expr -> expr), (forall op a b pos, result (as_clock (compose op a b) pos) = None) ->
      forall l acc d s e' s', result (tr_left (tr u locals) compose acc l d s) = Some (e', s') -> forall pos,
      result (as_clock acc pos) = None -> result (as_clock e' pos) = None).
    { intros O compose Hc. induction l as [|[op e] l IH]; intros acc d s e' s' E pos H; cbn in E; inv_out; auto. eapply IH; eauto. }
    assert (Gl : forall O (compose : O -> expr -> expr -> expr), (forall op a b pos, result (as_clock (compose op a b) pos) = None) ->
      forall op a l acc d s e' s', result (tr_left (tr u locals) compose acc ((op, a) :: l) d s) = Some (e', s') -> forall pos,
      result (as_clock e' pos) = None).
    { intros O compose Hc op a l acc d s e' s' E pos. cbn in E. inv_out. eapply (G _ _ Hc); eauto. }
    intros e. induction e using sexpr_ind'; intros d s e' s' E pos; cbn [tr] in E.
    - inv_out. destruct l; unfold tr_lit in E0; try destruct (in_i64 _); inv_out; reflexivity.
    - inv_out. cbn [driver]. destruct (in_dec string_dec x locals) as [I|I].
      + rewrite (tr_var_local locals) by auto. destruct (Hin x I) as (c & _ & ->). destruct pos; reflexivity.
      + rewrite (tr_var_global locals) by auto. rewrite (Hout x I). reflexivity.
    - inv_out. unfold paren. destruct l0 as [|? [|? ?]]; try destruct b; reflexivity.
    - inv_out. reflexivity.
    - inv_out. reflexivity.
    - inv_out. reflexivity.
    - destruct u; inv_out; reflexivity.
    - inv_out. reflexivity.
    - inv_out. reflexivity.
    - inv_out. destruct l as [|[op a] l]; [cbn in E; inv_out; eapply IHe; eauto|]. cbn [driver]. eapply Gl; [|exact E]. reflexivity.
    - inv_out. destruct l as [|[op a] [|[op' b] l]]; cbn [driver]; inv_out; [eapply IHe; eauto|reflexivity].
    - inv_out. destruct l as [|[op a] l]; [cbn in E; inv_out; eapply IHe; eauto|]. cbn [driver]. eapply Gl; [|exact E]. reflexivity.
    - cbv zeta in E. apply obind_some in E. destruct E as ((o, s1) & E1 & E). apply obind_some in E. destruct E as ((e1, s2) & E2 & E). destruct l as [|a l]; cbn [driver].
      + cbn in E1. inv_out. eapply IHe; eauto.
      + cbn in E1. inv_out. destruct o0; [destruct (_ _ _ _ _ _)|]; destruct u; cbn in *; inv_out; reflexivity.
    - cbv zeta in E. apply obind_some in E. destruct E as ((o, s1) & E1 & E). apply obind_some in E. destruct E as ((e1, s2) & E2 & E). destruct l as [|a l]; cbn [driver].
      + cbn in E1. inv_out. eapply IHe; eauto.
      + cbn in E1. inv_out. destruct o0; [destruct (_ _ _ _ _ _)|]; destruct u; cbn in *; inv_out; reflexivity.
  Qed.
  Lemma drives_pace : forall e x, driver env e = Some x -> of e = Some (pace_var env x) /\ env x <> None.
  Proof.
    assert (U : forall k, uniform [k] = k) by (intros [k|]; cbn; auto; rewrite same_pace_refl; auto).
    intros e. induction e using sexpr_ind'; intros y D; cbn [driver] in D; try discriminate.
    - destruct (env x) eqn:E; [|discriminate]. inversion D; subst. cbn. split; auto. congruence.
    - destruct l as [|[? ?] ?]; [|discriminate]. cbn [checked_pace map meets fold_left]. auto.
    - destruct l as [|[? ?] ?]; [|discriminate]. cbn [checked_pace map meets fold_left]. auto.
    - destruct l as [|[? ?] ?]; [|discriminate]. cbn [checked_pace fold_left]. auto.
    - destruct l; [|discriminate]. cbn [checked_pace map rev app fold_right]. rewrite U. destruct u; auto.
    - destruct l; [|discriminate]. cbn [checked_pace map rev app fold_right]. rewrite U. destruct u; auto.
  Qed.

  Lemma beats_bins : forall l, Forall (fun p => beats (snd p)) l -> forall acc o d s r s', runs acc o ->
    result (tr_left (tr u locals) EBin acc l d s) = Some (r, s') ->
    runs r (meets (map (fun p => of (snd p)) l) o).
  Proof.
    induction 1 as [|[op e] l H _ IH]; intros acc o d s r s' A E; cbn in E; inv_out; auto.
    cbn [map meets fold_left snd]. eapply IH; [|exact E]. apply runs_bin; eauto.
  Qed.
  Lemma beats_clocks : forall l, Forall (fun p => beats (snd p)) l -> forall acc o d s r s', runs acc o ->
    result (tr_left (tr u locals) EClock acc l d s) = Some (r, s') ->
    runs r (fold_left (sample env) l o).
  Proof.
    induction 1 as [|[pos e] l H _ IH]; intros acc o d s r s' A E; cbn in E; inv_out; auto.
    cbn [fold_left]. eapply IH; [|exact E]. intros ks. cbn [kc]. unfold sample. cbn [fst snd] in *.
    rewrite result_bind. specialize (A ks). destruct o as [a|]; cbn [pbind]; [|rewrite A; reflexivity]. destruct A as (ks1 & A). rewrite A. cbn [pbind].
    rewrite result_bind. pose proof (tr_drives _ _ _ _ _ E0 pos) as Dr. pose proof (H _ _ _ _ E0 ks1) as B. destruct (driver env e) as [x|] eqn:D.
    - destruct (drives_pace _ _ D) as [P _]. rewrite P in B. destruct B as (ks2 & B). rewrite B. cbn [pbind]. rewrite result_bind, Dr. cbn [option_map pbind].
      rewrite result_bind, refine_result. destruct (meet a (pace_var env x)); cbn; eauto.
    - destruct (of e); [destruct B as (ks2 & B)|]; rewrite B; cbn [pbind]; auto. rewrite result_bind, Dr. reflexivity.
  Qed.

  Definition chained (e : sexpr) (l : list sexpr) : option pace :=
    if u then uniform (rev (of e :: map of l)) else fold_right (fun e k => pbind (of e) (fun _ => k)) (of e) l.
  Lemma uniform_last : forall m k, m <> [] -> uniform (m ++ [k]) = pbind (uniform m) (fun y => pbind k (fun x => if same_pace y x then Some y else None)).
  Proof.
    intros [|k0 m] k N; [congruence|]. cbn [app uniform]. destruct k0 as [g|]; cbn [pbind]; auto.
    change (Some g :: m ++ [k]) with ((Some g :: m) ++ [k]). rewrite forallb_app. cbn [forallb]. rewrite Bool.andb_true_r.
    destruct (same_pace g g && forallb _ m); cbn [pbind andb]; auto. destruct k; reflexivity.
  Qed.
  Lemma chained_more : forall e a l, chained e (a :: l) =
    if u then pbind (chained a l) (fun y => pbind (of e) (fun x => if same_pace y x then Some y else None)) else pbind (chained a l) (fun _ => of e).
  Proof.
    intros e a l. unfold chained. destruct u.
    - cbn [map rev]. apply uniform_last. intros X. apply app_eq_nil in X. destruct X; discriminate.
    - assert (G : forall (f : sexpr -> option pace) (l : list sexpr) (x y : option pace), pbind x (fun _ : pace => fold_right (fun e k => pbind (f e) (fun _ => k)) y l) =
        pbind (fold_right (fun e k => pbind (f e) (fun _ => k)) x l) (fun _ => y)).
      { intros f. induction l0 as [|b l0 IH]; intros x y; cbn [fold_right]; auto. destruct (f b); cbn [pbind]; auto. destruct x; auto. }
      cbn [fold_right]. apply G.
  Qed.
  Lemma chained_one : forall e, chained e [] = of e.
  Proof. intros e. unfold chained. destruct u; auto. cbn. destruct (checked_pace true env e); cbn; auto. rewrite same_pace_refl. auto. Qed.


  Lemma beats_right : forall bump compose,
    (forall d i a b oa ob s, runs a oa -> runs b ob -> runs (fst (compose d i a b s))
      (if u then pbind ob (fun y => pbind oa (fun x => if same_pace y x then Some y else None)) else pbind ob (fun _ => oa))) ->
    forall l, Forall beats l -> forall i d s o s', result (tr_right (tr u locals) bump compose i l d s) = Some (o, s') ->
    match l with
    | [] => o = None
    | e :: l => exists r, o = Some r /\ runs r (chained e l)
    end.
  Proof.
    intros bump compose C. induction 1 as [|e l H _ IH]; intros i d s o s' E; cbn in E.
    - inv_out. auto.
    - apply obind_some in E. destruct E as ((o0, s1) & E0 & E). apply obind_some in E. destruct E as ((e1, s2) & E1 & E).
      specialize (IH _ _ _ _ _ E0). pose proof (H _ _ _ _ E1) as He. destruct l as [|a l].
      + subst o0. cbn in E. inv_out. eexists. split; [reflexivity|]. rewrite chained_one. auto.
      + destruct IH as (r & -> & Hr). pose proof (C d i _ _ _ _ s2 He Hr) as X. destruct (compose d i e1 r s2) as [r' s3]. cbn in E. inversion E; subst. eexists. split; [reflexivity|].
        rewrite chained_more. exact X.
  Qed.
  Lemma beats_chain : forall bump compose,
    (forall d i a b oa ob s, runs a oa -> runs b ob -> runs (fst (compose d i a b s))
      (if u then pbind ob (fun y => pbind oa (fun x => if same_pace y x then Some y else None)) else pbind ob (fun _ => oa))) ->
    forall e l, beats e -> Forall beats l -> forall d s r s',
    result ('(acc, s) <~ tr_right (tr u locals) bump compose 1 l d s;;
            '(e, s) <~ tr u locals e (bump d 0) s;;
            match acc with
            | None => done (e, s)
            | Some after => done (compose d 0 e after s)
            end) = Some (r, s') -> runs r (chained e l).
  Proof.
    intros bump compose C e l He Hl d s r s' E.
    assert (R : result (tr_right (tr u locals) bump compose 0 (e :: l) d s) = Some (Some r, s')).
    { apply obind_some in E. destruct E as ((o0, s1) & E0 & E). apply obind_some in E. destruct E as ((e1, s2) & E1 & E). cbn.
      rewrite result_bind. fold (tr_right (tr u locals) bump compose). rewrite E0. cbn [pbind]. rewrite result_bind, E1. cbn [pbind]. destruct o0 as [a|]; [|cbn in *; inversion E; auto].
      destruct (compose d 0 e1 a s2). cbn in *. inversion E; auto. }
    apply (beats_right _ _ C) in R; [|constructor; auto]. destruct R as (r' & Er & R). inversion Er; subst. auto.
  Qed.
End Paced.

Lemma tr_beats : forall local u locals env,
  (forall x, In x locals -> exists c, lookup x local = Some c /\ env x = Some (clock_pace c)) ->
  (forall x, ~ In x locals -> env x = None) -> forall e, beats local u locals env e.
Proof.
  intros local u locals env Hin Hout e. induction e using sexpr_ind'; intros d s e' s' E; cbn [tr] in E.
  - inv_out. destruct l; unfold tr_lit in E0; try destruct (in_i64 _); inv_out; intros ks; cbn; eauto.
  - inv_out. intros ks. cbn [checked_pace]. unfold pace_var. destruct (in_dec string_dec x locals) as [I|I].
    + rewrite (tr_var_local locals) by auto. destruct (Hin x I) as (c & E & ->). cbn [kc]. rewrite E. cbn. rewrite kk_clock. eauto.
    + rewrite (tr_var_global locals) by auto. rewrite (Hout x I). cbn. eauto.
  - inv_out. cbn [checked_pace]. apply runs_paren. eapply beats_elems; eauto.
  - inv_out. cbn [checked_pace]. intros ks. cbn [kc]. apply runs_paren. eapply beats_elems; eauto.
  - inv_out. intros ks. cbn [kc checked_pace]. eapply IHe; eauto.
  - inv_out. intros ks. cbn [kc checked_pace]. eapply IHe; eauto.
  - destruct u; cbn [checked_pace orb].
    + cbv zeta in E. apply obind_some in E. destruct E as ((e1, s1) & E1 & E). inv_out. apply runs_fetch0. eapply IHe; eauto.
    + inv_out. intros ks. cbn [kc]. pose proof (IHe _ _ _ _ E0 ks) as X. rewrite result_bind. destruct (checked_pace false env e) as [k|]; cbn [never_slow]; [|rewrite X; reflexivity].
      destruct X as (ks1 & X). rewrite X. cbn [pbind]. rewrite result_bind, implicit_result. destruct (slow k); cbn; eauto.
  - inv_out. intros ks. cbn [kc checked_pace meets fold_left].
    rewrite !result_try by none. pose proof (IHe1 _ _ _ _ E0 ks) as X1. destruct (checked_pace u env e1) as [k1|]; [|rewrite X1; reflexivity].
    destruct X1 as (ks1 & X1). rewrite X1. cbn [pbind knext]. rewrite !result_try by none.
    pose proof (IHe2 _ _ _ _ E1 ks1) as X2. destruct (checked_pace u env e2) as [k2|]; [|rewrite X2; reflexivity].
    destruct X2 as (ks2 & X2). rewrite X2. cbn [pbind knext]. rewrite !result_try by none.
    pose proof (IHe3 _ _ _ _ E2 ks2) as X3. destruct (checked_pace u env e3) as [k3|]; [|rewrite X3; destruct (meet k1 k2); reflexivity].
    destruct X3 as (ks3 & X3). rewrite X3. cbn [pbind]. do 3 (rewrite result_bind; cbn [need result done pbind]).
    rewrite result_bind, refine_result. destruct (meet k1 k2) as [k|]; cbn [option_map pbind]; auto. rewrite result_bind, refine_result. destruct (meet k k3); cbn; eauto.
  - inv_out. intros ks. cbn [kc checked_pace]. pose proof (tr_drives local u locals env Hin Hout _ _ _ _ _ E0) as Dr.
    rewrite !result_try by none. rewrite Dr. destruct (driver env e1) as [x|] eqn:D; cbn [option_map pbind]; auto.
    rewrite !result_try by none. rewrite Dr. cbn [option_map pbind]. destruct (drives_pace u env _ _ D) as [P _].
    rewrite !result_try by none. pose proof (IHe1 _ _ _ _ E0 ks) as X1. rewrite P in X1.
    destruct X1 as (ks1 & X1). rewrite X1. cbn [pbind knext]. rewrite !result_try by none.
    pose proof (IHe2 _ _ _ _ E1 ks1) as X2. destruct (checked_pace u env e2) as [k2|]; [|rewrite X2; reflexivity].
    destruct X2 as (ks2 & X2). rewrite X2. cbn [pbind knext]. rewrite !result_try by none.
    pose proof (IHe3 _ _ _ _ E2 ks2) as X3. destruct (checked_pace u env e3) as [k3|]; [|rewrite X3; destruct (meet k2 (On true x)); reflexivity].
    destruct X3 as (ks3 & X3). rewrite X3. cbn [pbind]. do 4 (rewrite result_bind; cbn [need result done pbind]).
    rewrite result_bind, refine_result. destruct (meet k2 (On true x)); cbn [option_map pbind]; auto.
    rewrite result_bind; cbn [need result done pbind]. rewrite result_bind, refine_result. destruct (meet k3 (On false x)); cbn; eauto.
  - inv_out. cbn [checked_pace]. eapply beats_bins; eauto.
  - inv_out. cbn [checked_pace]. destruct l as [|[op a] [|[op' b] l]]; inv_out.
    + cbn. eauto.
    + cbn [map meets fold_left snd]. inversion H; subst. apply runs_cmp; eauto.
  - inv_out. cbn [checked_pace]. eapply beats_clocks; eauto.
  - change (checked_pace u env (XFby e l)) with (chained u env e l). eapply (beats_chain local u locals env (if u then fun d _ => d else fun d i => d + i)); eauto.
    intros d0 i a b oa ob s0 A B. destruct u; [apply runs_fetch|apply runs_later]; auto.
  - change (checked_pace u env (XThen e l)) with (chained u env e l). eapply (beats_chain local u locals env (fun d _ => d)); eauto.
    intros d0 i a b oa ob s0 A B. destruct u; [apply runs_flip|apply runs_later]; auto.
Qed.
