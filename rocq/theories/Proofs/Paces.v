(** The clock check accepts a default-mode expression, without recording an
    error, exactly when the expression has a clock in the reference calculus. *)
From Coq Require Import String List ZArith Bool Arith Lia.
From Verif Require Import Model.Base Model.Scalar Model.Value Model.Ast Model.Errors Model.Interp Model.Surface Model.Translate
  Model.Typecheck Model.Clockcheck Spec.ClockSpec Proofs.AstInd Proofs.OutBasics Proofs.TranslateSem Proofs.TranslateStruct Proofs.NodeWf.
Import ListNotations.

(** The result, if no error is recorded. *)
Definition clean {A} (x : out A) : option A :=
  match x with Out (Some a) [] _ => Some a | _ => None end.

Lemma clean_obind : forall {A B} (x : out A) (f : A -> out B), clean (obind x f) = pbind (clean x) (fun a => clean (f a)).
Proof.
  intros A B [[a|] [|e es] ws|] f; cbn; auto; destruct (f a) as [[b|] es' ws'|]; auto.
Qed.

Lemma clean_try : forall {A B} (x : out A) (f : option A -> out B), clean (f None) = None ->
  clean (obind (attempt x) f) = pbind (clean x) (fun a => clean (f (Some a))).
Proof.
  intros A B [[a|] [|e es] ws|] f H; cbn; auto.
  - destruct (f (Some a)) as [[b|] es' ws'|]; auto.
  - destruct (f (Some a)) as [[b|] es' ws'|]; auto.
  - destruct (f None) as [[b|] [|] ws'|]; auto.
  - destruct (f None) as [[b|] es' ws'|]; auto.
Qed.

Lemma clean_skip : forall {A B} (x : out A) (y : out B), clean y = None -> clean (obind x (fun _ => y)) = None.
Proof. intros A B x y H. rewrite clean_obind. destruct (clean x); auto. Qed.

Definition kk (k : pace) : clk :=
  match k with Free => KAdaptative | Base => KImplicit | On true x => KOn x | On false x => KOff x end.

Lemma kk_clock : forall c, kk (clock_pace c) = into_clk c.
Proof. intros [[|] x| |]; reflexivity. Qed.
Lemma clean_implicit : forall k, clean (is_implicit (kk k)) = if slow k then None else Some tt.
Proof. intros [| |[|] x]; reflexivity. Qed.
Lemma clean_identical : forall a b, clean (clk_identical (kk a) (kk b)) = if same_pace a b then Some tt else None.
Proof. intros [| |[|] x] [| |[|] y]; cbn; auto; destruct (String.eqb x y); auto. Qed.
Lemma clean_refine : forall a b, clean (refine (kk a) (kk b)) = option_map kk (meet a b).
Proof. intros [| |[|] x] [| |[|] y]; cbn; auto; destruct (String.eqb x y); auto. Qed.
Lemma same_pace_refl : forall k, same_pace k k = true.
Proof. intros [| |p x]; cbn; auto. rewrite Bool.eqb_reflx, String.eqb_refl. auto. Qed.

Section Paced.
  Variable local : list (ident * clock).
  Variable locals : list ident.
  Variable env : ident -> option pace.
  Hypothesis Hin : forall x, In x locals -> exists c, lookup x local = Some c /\ env x = Some (clock_pace c).
  Hypothesis Hout : forall x, ~ In x locals -> env x = None.

  Definition has (e' : expr) (o : option pace) : Prop :=
    forall ks, clean (kc local e' ks) = option_map (fun k => (kk k, ks)) o.
  Definition paced (e : sexpr) : Prop := forall d s e' s',
    result (tr false locals e d s) = Some (e', s') -> has e' (pace_of env e).

  Lemma paced_elems : forall l, Forall paced l -> forall d s es s',
    result (tr_elems (tr false locals) l d s) = Some (es, s') -> Forall2 has es (map (pace_of env) l).
  Proof.
    induction 1 as [|e l H _ IH]; intros d s es s' E; cbn in E; inv_out; constructor; eauto.
  Qed.

  Lemma has_kcs : forall g es os, Forall2 has es os -> forall ks,
    clean (kcs local (kk g) es ks) =
    if forallb (fun k => match k with Some k => same_pace g k | None => false end) os then Some ks else None.
  Proof.
    induction 1 as [|e o es os H _ IH]; intros ks; [reflexivity|]. cbn [kcs forallb].
    rewrite clean_obind, H. destruct o as [k|]; cbn [option_map pbind andb]; auto.
    rewrite clean_obind, clean_identical. destruct (same_pace g k); cbn [pbind]; auto.
  Qed.

  Lemma has_tuple : forall es os, Forall2 has es os -> has (ETuple es) (uniform os).
  Proof.
    intros es os H ks. rewrite kc_tuple. destruct H as [|e o es os H Hs]; [reflexivity|].
    rewrite clean_obind, H. cbn [uniform]. destruct o as [g|]; cbn [pbind option_map]; auto.
    rewrite clean_obind, (has_kcs g (e :: es) (Some g :: os)) by (constructor; auto).
    destruct (forallb _ _); reflexivity.
  Qed.

  Lemma has_paren : forall es os b, Forall2 has es os -> has (paren es b) (uniform os).
  Proof.
    intros es os b H. pose proof (has_tuple _ _ H) as T. unfold paren.
    destruct es as [|e [|e' es]]; auto. destruct b; auto.
    inversion H as [|x o y os' A B]; subst. inversion B; subst. intros ks. cbn [kc uniform]. rewrite A.
    destruct o as [k|]; cbn; auto. rewrite same_pace_refl. reflexivity.
  Qed.

  Local Ltac none := repeat first [reflexivity | progress cbn [need clean] | match goal with |- clean (match ?q with (_, _) => _ end) = None => destruct q end | (rewrite clean_obind; match goal with |- pbind ?x _ = _ => destruct x; cbn [pbind] end)].

  Lemma has_pair : forall a b oa ob (f : clk -> clk -> out clk) g,
    has a oa -> has b ob -> (forall x y, clean (f (kk x) (kk y)) = option_map kk (g x y)) ->
    forall ks, clean (l <~ attempt (kc local a ks);;
        r <~ attempt (kc local b (knext l ks));;
        '(l, _) <~ need l;;
        '(r, s) <~ need r;;
        k <~ f l r;;
        done (k, s)) = option_map (fun k => (kk k, ks)) (pbind oa (fun x => pbind ob (g x))).
  Proof.
    intros a b oa ob f g A B F ks. rewrite clean_try by none. rewrite A. destruct oa as [x|]; cbn [option_map pbind]; auto.
    rewrite clean_try by none. cbn [knext]. rewrite B. destruct ob as [y|]; cbn [option_map pbind]; auto.
    rewrite clean_obind. cbn [need clean pbind]. rewrite clean_obind. cbn [need clean pbind].
    rewrite clean_obind, F. destruct (g x y); reflexivity.
  Qed.

  Lemma has_bin : forall op a b oa ob, has a oa -> has b ob -> has (EBin op a b) (pbind oa (fun x => pbind ob (meet x))).
  Proof. intros op a b oa ob A B ks. cbn [kc]. apply has_pair; auto. apply clean_refine. Qed.
  Lemma has_cmp : forall op a b oa ob, has a oa -> has b ob -> has (ECmp op a b) (pbind oa (fun x => pbind ob (meet x))).
  Proof. intros op a b oa ob A B ks. cbn [kc]. apply has_pair; auto. apply clean_refine. Qed.

  Lemma has_later : forall d a b oa ob, has a oa -> has b ob ->
    has (ELater d a b) (if never_slow oa && never_slow ob then oa else None).
  Proof.
    intros d a b oa ob A B ks. cbn [kc]. rewrite clean_try by none. rewrite A.
    destruct oa as [x|]; cbn [option_map pbind never_slow andb]; auto.
    rewrite clean_try by none. cbn [knext]. rewrite B.
    destruct ob as [y|]; cbn [option_map pbind never_slow]; [|rewrite Bool.andb_false_r; reflexivity].
    rewrite clean_obind. cbn [need clean pbind]. rewrite clean_obind. cbn [need clean pbind].
    assert (At : forall k, clean (attempt (is_implicit (kk k))) = if slow k then None else Some (Some tt)) by (intros [| |[|] z]; reflexivity).
    rewrite clean_obind, At. destruct (slow x); cbn [pbind negb andb]; auto.
    rewrite clean_obind, At. destruct (slow y); reflexivity.
  Qed.

  (** The variable that drives a clock. *)
  Lemma tr_driver : forall e d s e' s', result (tr false locals e d s) = Some (e', s') ->
    forall pos, clean (as_clock e' pos) = option_map (fun x => kk (On pos x)) (driver env e).
  Proof.
    intros e. induction e using sexpr_ind'; intros d s e' s' E pos; cbn [tr] in E.
    - inv_out. destruct l; unfold tr_lit in E0; try destruct (in_i64 _); inv_out; reflexivity.
    - inv_out. cbn [driver]. destruct (in_dec string_dec x locals) as [I|I].
      + rewrite (tr_var_local locals) by auto. destruct (Hin x I) as (c & _ & ->). destruct pos; reflexivity.
      + rewrite (tr_var_global locals) by auto. rewrite (Hout x I). reflexivity.
    - inv_out. unfold paren. destruct l0 as [|? [|? ?]]; try destruct b; reflexivity.
    - inv_out. reflexivity.
    - inv_out. reflexivity.
    - inv_out. reflexivity.
    - inv_out. reflexivity.
    - inv_out. reflexivity.
    - inv_out. reflexivity.
    - inv_out. destruct l as [|[op a] l]; [cbn in E; inv_out; eapply IHe; eauto|]. cbn [driver].
      assert (G : forall l acc d s e' s', result (tr_left (tr false locals) EBin acc l d s) = Some (e', s') ->
        (forall pos, clean (as_clock acc pos) = None) -> clean (as_clock e' pos) = None).
      { clear. induction l as [|[op e] l IH]; intros acc d s e' s' E H; cbn in E; inv_out; auto. eapply IH; eauto. }
      cbn in E. inv_out. eapply G; eauto.
    - inv_out. destruct l as [|[op a] [|[op' b] l]]; cbn [driver]; inv_out; [eapply IHe; eauto|reflexivity].
    - inv_out. destruct l as [|[op a] l]; [cbn in E; inv_out; eapply IHe; eauto|]. cbn [driver].
      assert (G : forall l acc d s e' s', result (tr_left (tr false locals) EClock acc l d s) = Some (e', s') ->
        (forall pos, clean (as_clock acc pos) = None) -> clean (as_clock e' pos) = None).
      { clear. induction l as [|[op e] l IH]; intros acc d s e' s' E H; cbn in E; inv_out; auto. eapply IH; eauto. }
      cbn in E. inv_out. eapply G; eauto.
    - inv_out. destruct l as [|a l]; cbn [driver].
      + cbn in E0. inv_out. eapply IHe; eauto.
      + cbn in E0. inv_out. destruct o0; cbn in E0; inv_out; reflexivity.
    - inv_out. destruct l as [|a l]; cbn [driver].
      + cbn in E0. inv_out. eapply IHe; eauto.
      + cbn in E0. inv_out. destruct o0; cbn in E0; inv_out; reflexivity.
  Qed.

  Lemma driver_pace : forall e x, driver env e = Some x -> pace_of env e = Some (pace_var env x) /\ env x <> None.
  Proof.
    intros e. induction e using sexpr_ind'; intros y D; cbn [driver] in D; try discriminate.
    - destruct (env x) eqn:E; [|discriminate]. inversion D; subst. cbn. split; auto. congruence.
    - destruct l as [|[? ?] ?]; [|discriminate]. cbn [pace_of map meets fold_left]. auto.
    - destruct l as [|[? ?] ?]; [|discriminate]. cbn [pace_of map meets fold_left]. auto.
    - destruct l as [|[? ?] ?]; [|discriminate]. cbn [pace_of fold_left]. auto.
    - destruct l; [|discriminate]. cbn [pace_of]. auto.
    - destruct l; [|discriminate]. cbn [pace_of]. auto.
  Qed.

  Lemma meets_none : forall l, meets l None = None.
  Proof. induction l as [|a l IH]; auto. Qed.
  Lemma samples_none : forall l, fold_left (sample env) l None = None.
  Proof. induction l as [|a l IH]; auto. Qed.

  Lemma paced_bins : forall l, Forall (fun p => paced (snd p)) l -> forall acc o d s r s', has acc o ->
    result (tr_left (tr false locals) EBin acc l d s) = Some (r, s') ->
    has r (meets (map (fun p => pace_of env (snd p)) l) o).
  Proof.
    induction 1 as [|[op e] l H _ IH]; intros acc o d s r s' A E; cbn in E; inv_out; auto.
    cbn [map meets fold_left snd]. eapply IH; [|exact E]. apply has_bin; eauto.
  Qed.

  Lemma paced_clocks : forall l, Forall (fun p => paced (snd p)) l -> forall acc o d s r s', has acc o ->
    result (tr_left (tr false locals) EClock acc l d s) = Some (r, s') ->
    has r (fold_left (sample env) l o).
  Proof.
    induction 1 as [|[pos e] l H _ IH]; intros acc o d s r s' A E; cbn in E; inv_out; auto.
    cbn [fold_left]. eapply IH; [|exact E]. intros ks. cbn [kc]. unfold sample. cbn [fst snd] in *.
    rewrite clean_obind, A. destruct o as [a|]; cbn [option_map pbind]; auto.
    rewrite clean_obind. pose proof (tr_driver _ _ _ _ _ E0 pos) as Dr.
    rewrite (H _ _ _ _ E0 ks). destruct (driver env e) as [x|] eqn:D.
    - destruct (driver_pace _ _ D) as [-> _]. cbn [option_map pbind]. rewrite clean_obind, Dr. cbn [option_map pbind].
      rewrite clean_obind, clean_refine. destruct (meet a (pace_var env x)); reflexivity.
    - destruct (pace_of env e); cbn [option_map pbind]; auto. rewrite clean_obind, Dr. reflexivity.
  Qed.

  Definition chain_pace (e : sexpr) (l : list sexpr) : option pace :=
    match l with
    | [] => pace_of env e
    | _ => if forallb (fun e => never_slow (pace_of env e)) l && never_slow (pace_of env e) then pace_of env e else None
    end.

  Lemma chain_slow : forall e l, never_slow (chain_pace e l) = forallb (fun e => never_slow (pace_of env e)) (e :: l).
  Proof.
    intros e l. destruct l as [|a l]; cbn [chain_pace]; [cbn [forallb]; rewrite Bool.andb_true_r; auto|].
    cbn [forallb]. destruct (forallb _ l), (never_slow (pace_of env a)), (never_slow (pace_of env e)) eqn:E; cbn [andb never_slow]; auto.
  Qed.

  Lemma paced_right : forall bump l, Forall paced l -> forall i d s o s',
    result (tr_right (tr false locals) bump later i l d s) = Some (o, s') ->
    match l with
    | [] => o = None
    | e :: l => exists r, o = Some r /\ has r (chain_pace e l)
    end.
  Proof.
    intros bump. induction 1 as [|e l H _ IH]; intros i d s o s' E; cbn in E; inv_out; auto.
    specialize (IH _ _ _ _ _ E0). destruct l as [|a l].
    - subst o0. cbn in E. inv_out. eexists. split; [reflexivity|]. cbn [chain_pace]. eauto.
    - destruct IH as (r & -> & Hr). cbn in E. inv_out. eexists. split; [reflexivity|].
      pose proof (has_later (d + i) _ _ _ _ (H _ _ _ _ E1) Hr) as L. rewrite chain_slow in L.
      rewrite Bool.andb_comm in L. exact L.
  Qed.

  Lemma paced_chain : forall bump e l, paced e -> Forall paced l -> forall d s r s',
    result ('(acc, s) <~ tr_right (tr false locals) bump later 1 l d s;;
            '(e, s) <~ tr false locals e (bump d 0) s;;
            match acc with
            | None => done (e, s)
            | Some after => done (later d 0 e after s)
            end) = Some (r, s') -> has r (chain_pace e l).
  Proof.
    intros bump e l He Hl d s r s' E.
    assert (R : result (tr_right (tr false locals) bump later 0 (e :: l) d s) = Some (Some r, s')).
    { cbn. inv_out. rewrite result_obind, E0. rewrite result_obind, E1. destruct o; cbn in *; inv_out; auto. }
    apply paced_right in R; [|constructor; auto]. destruct R as (r' & Er & R). inversion Er; subst. auto.
  Qed.

  Lemma tr_paced : forall e, paced e.
  Proof.
    intros e. induction e using sexpr_ind'; intros d s e' s' E; cbn [tr] in E.
    - inv_out. destruct l; unfold tr_lit in E0; try destruct (in_i64 _); inv_out; intros ks; reflexivity.
    - inv_out. intros ks. cbn [pace_of]. unfold pace_var. destruct (in_dec string_dec x locals) as [I|I].
      + rewrite (tr_var_local locals) by auto. destruct (Hin x I) as (c & E & ->). cbn [kc]. rewrite E. cbn. rewrite kk_clock. reflexivity.
      + rewrite (tr_var_global locals) by auto. rewrite (Hout x I). reflexivity.
    - inv_out. cbn [pace_of]. apply has_paren. eapply paced_elems; eauto.
    - inv_out. cbn [pace_of]. intros ks. cbn [kc]. apply has_paren. eapply paced_elems; eauto.
    - inv_out. intros ks. cbn [kc pace_of]. eapply IHe; eauto.
    - inv_out. intros ks. cbn [kc pace_of]. eapply IHe; eauto.
    - inv_out. intros ks. cbn [kc pace_of]. rewrite clean_obind, (IHe _ _ _ _ E0).
      destruct (pace_of env e) as [k|]; cbn [option_map pbind never_slow]; auto.
      rewrite clean_obind, clean_implicit. destruct (slow k); reflexivity.
    - inv_out. intros ks. cbn [kc pace_of meets fold_left].
      rewrite clean_try by none. rewrite (IHe1 _ _ _ _ E0). destruct (pace_of env e1) as [x|]; cbn [option_map pbind]; auto.
      rewrite clean_try by none. cbn [knext]. rewrite (IHe2 _ _ _ _ E1).
      destruct (pace_of env e2) as [y|]; cbn [option_map pbind]; auto.
      rewrite clean_try by none. cbn [knext]. rewrite (IHe3 _ _ _ _ E2).
      destruct (pace_of env e3) as [z|]; cbn [option_map pbind].
      + do 3 (rewrite clean_obind; cbn [need clean pbind]).
        rewrite clean_obind, clean_refine. destruct (meet x y) as [k|]; cbn [option_map pbind]; auto.
        rewrite clean_obind, clean_refine. destruct (meet k z); reflexivity.
      + destruct (meet x y); reflexivity.
    - inv_out. intros ks. cbn [kc pace_of]. pose proof (tr_driver _ _ _ _ _ E0) as Dr.
      rewrite clean_try by none. rewrite Dr. destruct (driver env e1) as [x|] eqn:D; cbn [option_map pbind]; auto.
      rewrite clean_try by none. rewrite Dr. cbn [option_map pbind].
      destruct (driver_pace _ _ D) as [P _].
      rewrite clean_try by none. rewrite (IHe1 _ _ _ _ E0), P. cbn [option_map pbind].
      rewrite clean_try by none. cbn [knext]. rewrite (IHe2 _ _ _ _ E1).
      destruct (pace_of env e2) as [y|]; cbn [option_map pbind]; auto.
      rewrite clean_try by none. cbn [knext]. rewrite (IHe3 _ _ _ _ E2).
      destruct (pace_of env e3) as [z|]; cbn [option_map pbind].
      + do 4 (rewrite clean_obind; cbn [need clean pbind]).
        rewrite clean_obind, clean_refine. destruct (meet y (On true x)); cbn [option_map pbind]; auto.
        rewrite clean_obind; cbn [need clean pbind].
        rewrite clean_obind, clean_refine. destruct (meet z (On false x)); reflexivity.
      + destruct (meet y (On true x)); reflexivity.
    - inv_out. cbn [pace_of]. eapply paced_bins; eauto.
    - inv_out. cbn [pace_of]. destruct l as [|[op a] [|[op' b] l]]; inv_out.
      + cbn. eauto.
      + cbn [map meets fold_left snd]. inversion H; subst. apply has_cmp; eauto.
    - inv_out. cbn [pace_of]. eapply paced_clocks; eauto.
    - change (pace_of env (XFby e l)) with (chain_pace e l). exact (paced_chain (fun d i => d + i) e l IHe H d s e' s' E).
    - change (pace_of env (XThen e l)) with (chain_pace e l). exact (paced_chain (fun d _ => d) e l IHe H d s e' s' E).
  Qed.
End Paced.
