(** Parentheses that make the grouping of operators explicit change nothing. *)
From Coq Require Import String List ZArith Bool Arith.
From Verif Require Import Model.Base Model.Scalar Model.Value Model.Ast Model.Errors Model.Options Model.Surface Model.Interp
  Model.Translate Model.Constexpr Model.Trace Model.Pipeline Spec.GroupSpec Proofs.OutBasics Proofs.Stripped.
Import ListNotations.

Definition sts (s : tst) : tst := mkT (t_blocks s) (map sst (t_stmts s)) (t_regs s) (t_flips s).
Definition gx (r : expr * tst) : expr * tst := (sx (fst r), sts (snd r)).
Definition gl (r : list expr * tst) : list expr * tst := (map sx (fst r), sts (snd r)).
Definition go_ (r : option expr * tst) : option expr * tst := (option_map sx (fst r), sts (snd r)).

Lemma obind_assoc : forall {A B C} (x : out A) (f : A -> out B) (g : B -> out C),
  obind (obind x f) g = obind x (fun a => obind (f a) g).
Proof.
  intros A B C [[a|] es ws|] f g; simpl; auto. destruct (f a) as [[b|] es' ws'|]; simpl; auto.
  destruct (g b) as [[c|] es'' ws''|]; simpl; auto; rewrite !app_assoc; auto.
Qed.
Lemma obind_done : forall {A B} (a : A) (f : A -> out B), obind (done a) f = f a.
Proof. intros A B a f. simpl. destruct (f a); auto. Qed.
Lemma obind_ret : forall {A} (x : out A), obind x done = x.
Proof. intros A [[a|] es ws|]; simpl; rewrite ?app_nil_r; auto. Qed.

(** ** Chains *)
Lemma tr_group_left : forall {O} u locals (mk : sexpr -> list (O * sexpr) -> sexpr) comp,
  (forall e l d s, tr u locals (mk e l) d s = '(a, s) <~ tr u locals e d s;; tr_left (tr u locals) comp a l d s) ->
  forall l e d s, tr u locals (group_left mk e l) d s = tr u locals (mk e l) d s.
Proof.
  intros O u locals mk comp H. induction l as [|[op b] l IH]; intros e d s.
  - rewrite H. simpl. transitivity (obind (tr u locals e d s) done); [rewrite obind_ret; auto|].
    apply obind_ext; [auto|]. intros [a s1]. auto.
  - change (group_left mk e ((op, b) :: l)) with (group_left mk (mk e [(op, b)]) l). rewrite IH, !H, obind_assoc.
    apply obind_ext; [auto|]. intros [a s1].
    change (tr_left (tr u locals) comp a ((op, b) :: l) d s1)
      with ('(e, s) <~ tr u locals b d s1;; tr_left (tr u locals) comp (comp op a e) l d s).
    change (tr_left (tr u locals) comp a [(op, b)] d s1)
      with ('(e, s) <~ tr u locals b d s1;; done (comp op a e, s)).
    rewrite obind_assoc. apply obind_ext; [auto|]. intros [c s2]. rewrite obind_done. auto.
Qed.

Lemma tr_right_cons : forall f bump compose i e l d s,
  tr_right f bump compose i (e :: l) d s =
  ('(acc, s) <~ tr_right f bump compose (S i) l d s;;
   '(e, s) <~ f e (bump d i) s;;
   match acc with
   | None => done (Some e, s)
   | Some after => let '(r, s) := compose d i e after s in done (Some r, s)
   end).
Proof. auto. Qed.
Lemma tr_fby_cons : forall u locals e l d s,
  tr u locals (XFby e l) d s =
  (let bump := if u then fun d _ => d else fun d i => d + i in
   let compose := if u then fby_registers else later in
   '(acc, s) <~ tr_right (tr u locals) bump compose 1 l d s;;
   '(e, s) <~ tr u locals e (bump d 0) s;;
   match acc with
   | None => done (e, s)
   | Some after => done (compose d 0 e after s)
   end).
Proof. auto. Qed.
Lemma tr_right_shift : forall u locals l i d s,
  tr_right (tr u locals) (if u then fun d _ => d else fun d i => d + i) (if u then fby_registers else later) (S i) l d s =
  tr_right (tr u locals) (if u then fun d _ => d else fun d i => d + i) (if u then fby_registers else later) i l
    (if u then d else S d) s.
Proof.
  intros u locals. induction l as [|e l IH]; intros i d s; auto. rewrite !tr_right_cons, IH.
  apply obind_ext; [auto|]. intros [acc s1]. destruct u.
  - apply obind_ext; [auto|]. intros [e' s2]. auto.
  - replace (S d + i) with (d + S i) by (rewrite <- Nat.add_succ_comm; auto).
    apply obind_ext; [auto|]. intros [e' s2]. destruct acc; auto. unfold later.
    replace (S d + i) with (d + S i) by (rewrite <- Nat.add_succ_comm; auto). auto.
Qed.
Lemma tr_group_right : forall u locals l e d s,
  tr u locals (group_right XFby e l) d s = tr u locals (XFby e l) d s.
Proof.
  intros u locals. induction l as [|b l IH]; intros e d s.
  - rewrite tr_fby_cons. cbn zeta. cbn [tr_right]. rewrite obind_done.
    transitivity (obind (tr u locals e d s) done); [rewrite obind_ret; auto|].
    apply obind_ext; [destruct u; rewrite ?Nat.add_0_r; auto|]. intros [a s1]; auto.
  - change (group_right XFby e (b :: l)) with (XFby e [group_right XFby b l]). rewrite !tr_fby_cons. cbn zeta.
    rewrite !tr_right_cons. cbn [tr_right]. rewrite obind_done, IH, tr_fby_cons. cbn zeta.
    rewrite (tr_right_shift u locals l 1 d s).
    replace ((if u then fun d _ => d else fun d i => d + i) d 1) with (if u then d else S d)
      by (destruct u; [auto|rewrite Nat.add_1_r; auto]).
    rewrite !obind_assoc. apply obind_ext; [auto|]. intros [acc s1]. cbn beta iota.
    replace ((if u then fun d _ => d else fun d i => d + i) (if u then d else S d) 0) with (if u then d else S d)
      by (destruct u; rewrite ?Nat.add_0_r; auto).
    rewrite !obind_assoc. apply obind_ext; [auto|]. intros [e1 s2]. cbn beta iota. destruct acc as [after|].
    2:{ rewrite !obind_done. auto. }
    replace ((if u then fby_registers else later) (if u then d else S d) 0 e1 after s2)
      with ((if u then fby_registers else later) d 1 e1 after s2)
      by (destruct u; auto; unfold later; rewrite Nat.add_1_r, Nat.add_0_r; auto).
    destruct ((if u then fby_registers else later) d 1 e1 after s2) as [r s3]. rewrite !obind_done. auto.
Qed.

(** ** The translation *)
Section Tr.
  Variable u : bool.
  Variable locals : list ident.
  Local Notation T := (tr u locals).
  Definition alike (e e' : sexpr) : Prop :=
    forall d s s', sts s = sts s' -> rmap gx (T e d s) = rmap gx (T e' d s').

  Ltac both := eapply (rmap_rel gx gx); [eauto|]; intros [? ?] [? ?] E; injection E; clear E; intros ? ?.

  Lemma elems_alike : forall l l', Forall2 alike l l' -> forall d s s', sts s = sts s' ->
    rmap gl (tr_elems T l d s) = rmap gl (tr_elems T l' d s').
  Proof.
    intros l l' H. induction H as [|e e' l l' A _ IH]; intros d s s' E.
    - simpl. unfold gl. simpl. rewrite E. auto.
    - change (tr_elems T (e :: l) d s) with ('(e, s) <~ T e d s;; '(l, s) <~ tr_elems T l d s;; done (e :: l, s)).
      change (tr_elems T (e' :: l') d s') with ('(e, s) <~ T e' d s';; '(l, s) <~ tr_elems T l' d s;; done (e :: l, s)).
      apply (rmap_rel gx gl); [auto|]. intros [a s1] [a' s1'] E1. injection E1 as E1 E2 Ea Eb Ec.
      apply (rmap_rel gl gl). { apply IH. unfold sts; congruence. } intros [b s2] [b' s2'] E3. injection E3 as E3 E4 E5 E6 E7.
      simpl. unfold gl, sts in *. simpl in *. congruence.
  Qed.
  Lemma sx_paren : forall es es' t, map sx es = map sx es' -> sx (paren es t) = sx (paren es' t).
  Proof.
    intros [|a [|b l]] [|a' [|b' l']] t E; try discriminate; auto.
    - injection E as E. destruct t; simpl; congruence.
    - simpl. simpl in E. congruence.
  Qed.
  Lemma left_alike : forall {O} (comp : O -> expr -> expr -> expr) l l',
    (forall o a b a' b', sx a = sx a' -> sx b = sx b' -> sx (comp o a b) = sx (comp o a' b')) ->
    Forall2 (fun p p' => fst p = fst p' /\ alike (snd p) (snd p')) l l' -> forall a a' d s s', sx a = sx a' -> sts s = sts s' ->
    rmap gx (tr_left T comp a l d s) = rmap gx (tr_left T comp a' l' d s').
  Proof.
    intros O comp l l' C H. induction H as [|[o e] [o' e'] l l' [A1 A2] _ IH]; intros a a' d s s' Ea Es.
    - simpl. unfold gx. simpl. congruence.
    - simpl in A1, A2. subst o'.
      change (tr_left T comp a ((o, e) :: l) d s) with ('(e, s) <~ T e d s;; tr_left T comp (comp o a e) l d s).
      change (tr_left T comp a' ((o, e') :: l') d s') with ('(e, s) <~ T e' d s';; tr_left T comp (comp o a' e) l' d s).
      apply (rmap_rel gx gx); [auto|]. intros [b s1] [b' s1'] E1. injection E1 as E1 E2 E3 E4 E5.
      apply IH; auto. unfold sts. congruence.
  Qed.
  Definition steady_compose (compose : nat -> nat -> expr -> expr -> tst -> expr * tst) : Prop :=
    forall d i a b a' b' s s', sx a = sx a' -> sx b = sx b' -> sts s = sts s' -> gx (compose d i a b s) = gx (compose d i a' b' s').
  Lemma right_alike : forall bump compose, steady_compose compose -> forall l l', Forall2 alike l l' -> forall i d s s', sts s = sts s' ->
    rmap go_ (tr_right T bump compose i l d s) = rmap go_ (tr_right T bump compose i l' d s').
  Proof.
    intros bump compose C l l' H. induction H as [|e e' l l' A _ IH]; intros i d s s' E.
    - simpl. unfold go_. simpl. congruence.
    - rewrite !tr_right_cons. apply (rmap_rel go_ go_); [auto|]. intros [acc s1] [acc' s1'] E1. injection E1 as E1 E2 E3 E4 E5.
      apply (rmap_rel gx go_). { apply A. unfold sts. congruence. }
      intros [b s2] [b' s2'] E6. injection E6 as E6 E7 E8 E9 E10.
      assert (Es : sts s2 = sts s2') by (unfold sts; congruence).
      destruct acc as [x|], acc' as [x'|]; try discriminate.
      + injection E1 as E1. specialize (C d i b x b' x' s2 s2' E6 E1 Es).
        destruct (compose d i b x s2) as [r s3], (compose d i b' x' s2') as [r' s3']. unfold gx in C. simpl in C.
        injection C as C1 C2 C3 C4 C5. simpl. unfold go_, sts. simpl. congruence.
      + simpl. unfold go_. simpl. congruence.
  Qed.
  Lemma fby_steady : steady_compose fby_registers.
  Proof.
    intros d i a b a' b' s s' Ea Eb Es. injection Es as E1 E2 E3 E4. unfold fby_registers, gx, sts. simpl.
    rewrite !map_app. simpl. congruence.
  Qed.
  Lemma later_steady : steady_compose later.
  Proof. intros d i a b a' b' s s' Ea Eb Es. unfold later, gx. simpl. congruence. Qed.
  Lemma then_steady : steady_compose then_flips.
  Proof. intros d i a b a' b' s s' Ea Eb Es. injection Es as E1 E2 E3 E4. unfold then_flips, gx, sts. simpl. congruence. Qed.

End Tr.

Lemma map_alike : forall u locals l, Forall (fun e => alike u locals e (grouped e)) l -> Forall2 (alike u locals) l (map grouped l).
Proof. intros u locals l H. induction H; simpl; constructor; auto. Qed.
Lemma sub_alike : forall {O} u locals (l : list (O * sexpr)), Forall (fun p => alike u locals (snd p) (grouped (snd p))) l ->
  Forall2 (fun p p' => fst p = fst p' /\ alike u locals (snd p) (snd p')) l (map (fun p => (fst p, grouped (snd p))) l).
Proof. intros O u locals l H. induction H; simpl; constructor; auto. Qed.

Lemma tr_grouped : forall u locals e, alike u locals e (grouped e).
Proof.
  intros u locals.
  induction e using sexpr_ind'; intros d s s' Es.
  - simpl. apply (rmap_rel (fun x => x) gx); [rewrite !rmap_id; auto|]. intros a a' ->. unfold gx. simpl. congruence.
  - simpl. unfold gx. simpl. congruence.
  - destruct l as [|e [|e2 l]].
    + simpl. unfold gx. simpl. congruence.
    + inversion H as [|? ? H1 _]; subst. destruct b.
      * cbn [grouped map]. apply (rmap_rel gl gx).
        { apply elems_alike; auto. }
        intros [es s1] [es' s1'] E1. injection E1 as E1 E2 E3 E4 E5. simpl. unfold gx, sts. simpl.
        rewrite (sx_paren es es') by auto. congruence.
      * cbn [grouped]. rewrite <- (H1 d s s' Es). cbn [tr tr_elems]. rewrite obind_assoc, !rmap_obind.
        transitivity (obind (tr u locals e d s) (fun r => done (gx r))).
        { apply obind_ext; [auto|]. intros [a s1]. auto. }
        destruct (tr u locals e d s) as [[r|] es ws|]; simpl; rewrite ?app_nil_r; auto.
    + cbn [grouped]. apply (rmap_rel gl gx).
      { apply elems_alike; auto. apply (map_alike u locals (e :: e2 :: l)). auto. }
      intros [es s1] [es' s1'] E1. injection E1 as E1 E2 E3 E4 E5. simpl. unfold gx, sts. simpl.
      rewrite (sx_paren es es') by auto. congruence.
  - cbn [grouped]. apply (rmap_rel gl gx).
    { apply elems_alike; auto. apply map_alike. auto. }
    intros [es s1] [es' s1'] E1. injection E1 as E1 E2 E3 E4 E5. simpl. unfold gx, sts. simpl.
    rewrite (sx_paren es es') by auto. congruence.
  - cbn [grouped]. apply (rmap_rel gx gx); [auto|]. intros [a s1] [a' s1'] E1. injection E1 as E1 E2 E3 E4 E5.
    simpl. unfold gx, sts. simpl. congruence.
  - cbn [grouped]. apply (rmap_rel gx gx); [auto|]. intros [a s1] [a' s1'] E1. injection E1 as E1 E2 E3 E4 E5.
    simpl. unfold gx, sts. simpl. congruence.
  - cbn [grouped]. cbn [tr]. injection Es as E1 E2 E3 E4. destruct u.
    + apply (rmap_rel gx gx). { specialize (IHe d (new_reg s) (new_reg s')). apply IHe. unfold sts; simpl; congruence. }
      intros [a s1] [a' s1'] E5. injection E5 as E5 E6 E7 E8 E9. simpl. unfold gx, sts. simpl. rewrite !map_app. simpl. congruence.
    + apply (rmap_rel gx gx). { specialize (IHe (S d) s s'). apply IHe. unfold sts; simpl; congruence. }
      intros [a s1] [a' s1'] E5. injection E5 as E5 E6 E7 E8 E9. simpl. unfold gx, sts. simpl. congruence.
  - cbn [grouped]. apply (rmap_rel gx gx); [auto|]. intros [a s1] [a' s1'] E1. injection E1 as E1 E2 E3 E4 E5.
    apply (rmap_rel gx gx). { apply IHe2. unfold sts; congruence. } intros [b s2] [b' s2'] F1. injection F1 as F1 F2 F3 F4 F5.
    apply (rmap_rel gx gx). { apply IHe3. unfold sts; congruence. } intros [c s3] [c' s3'] G1. injection G1 as G1 G2 G3 G4 G5.
    simpl. unfold gx, sts. simpl. congruence.
  - cbn [grouped]. apply (rmap_rel gx gx); [auto|]. intros [a s1] [a' s1'] E1. injection E1 as E1 E2 E3 E4 E5.
    apply (rmap_rel gx gx). { apply IHe2. unfold sts; congruence. } intros [b s2] [b' s2'] F1. injection F1 as F1 F2 F3 F4 F5.
    apply (rmap_rel gx gx). { apply IHe3. unfold sts; congruence. } intros [c s3] [c' s3'] G1. injection G1 as G1 G2 G3 G4 G5.
    simpl. unfold gx, sts. simpl. congruence.
  - cbn [grouped]. rewrite (tr_group_left u locals XBin EBin) by auto.
    apply (rmap_rel gx gx); [apply IHe; auto|]. intros [a s1] [a' s1'] E1. injection E1 as E1 E2 E3 E4 E5.
    apply left_alike; auto; [|apply sub_alike; auto|unfold sts; congruence]. intros. simpl. congruence.
  - cbn [grouped]. apply (rmap_rel gx gx); [apply IHe; auto|]. intros [a s1] [a' s1'] E1. injection E1 as E1 E2 E3 E4 E5.
    destruct l as [|[o1 e1] [|[o2 e2] l]]; simpl map.
    + simpl. unfold gx, sts. simpl. congruence.
    + inversion H as [|? ? H1 _]; subst. simpl in H1. apply (rmap_rel gx gx). { apply H1. unfold sts; congruence. }
      intros [b s2] [b' s2'] F1. injection F1 as F1 F2 F3 F4 F5. simpl. unfold gx, sts. simpl. congruence.
    + inversion H as [|? ? H1 H2]; subst. inversion H2 as [|? ? H3 _]; subst. simpl in H1, H3.
      apply (rmap_rel gx gx). { apply H1. unfold sts; congruence. }
      intros [b s2] [b' s2'] F1. injection F1 as F1 F2 F3 F4 F5.
      apply (rmap_rel gx gx). { apply H3. unfold sts; congruence. }
      intros [c s3] [c' s3'] G1. auto.
  - cbn [grouped]. rewrite (tr_group_left u locals XClock EClock) by auto.
    apply (rmap_rel gx gx); [apply IHe; auto|]. intros [a s1] [a' s1'] E1. injection E1 as E1 E2 E3 E4 E5.
    apply left_alike; auto; [|apply sub_alike; auto|unfold sts; congruence]. intros. simpl. congruence.
  - cbn [grouped]. rewrite tr_group_right, !tr_fby_cons. cbn zeta.
    apply (rmap_rel go_ gx). { apply right_alike; auto; [|apply map_alike; auto]. destruct u; [apply fby_steady|apply later_steady]. }
    intros [acc s1] [acc' s1'] E1. injection E1 as E1 E2 E3 E4 E5.
    apply (rmap_rel gx gx). { apply IHe. unfold sts; congruence. } intros [b s2] [b' s2'] F1. injection F1 as F1 F2 F3 F4 F5.
    destruct acc as [x|], acc' as [x'|]; try discriminate.
    + injection E1 as E1. simpl. f_equal. f_equal.
      destruct u; [apply fby_steady|apply later_steady]; auto; unfold sts; congruence.
    + simpl. unfold gx, sts. simpl. congruence.
  - cbn [grouped]. cbn [tr].
    apply (rmap_rel go_ gx). { apply right_alike; auto; [|apply map_alike; auto]. destruct u; [apply then_steady|apply later_steady]. }
    intros [acc s1] [acc' s1'] E1. injection E1 as E1 E2 E3 E4 E5.
    apply (rmap_rel gx gx). { apply IHe. unfold sts; congruence. } intros [b s2] [b' s2'] F1. injection F1 as F1 F2 F3 F4 F5.
    destruct acc as [x|], acc' as [x'|]; try discriminate.
    + injection E1 as E1. simpl. f_equal. f_equal.
      destruct u; [apply then_steady|apply later_steady]; auto; unfold sts; congruence.
    + simpl. unfold gx, sts. simpl. congruence.
Qed.

(** ** Programs *)
Section starget_ind.
  Variable P : starget -> Prop.
  Hypothesis HV : forall x, P (TVar x).
  Hypothesis HT : forall l b, Forall P l -> P (TTuple l b).
  Fixpoint starget_ind' (t : starget) : P t :=
    match t with
    | TVar x => HV x
    | TTuple l b => HT l b ((fix go l : Forall P l :=
        match l with [] => Forall_nil _ | t :: l => Forall_cons t (starget_ind' t) (go l) end) l)
    end.
End starget_ind.
Lemma tr_target_grouped : forall t, tr_target (grouped_target t) = tr_target t.
Proof.
  induction t using starget_ind'; auto. cbn [grouped_target].
  assert (M : map tr_target (map grouped_target l) = map tr_target l).
  { induction H as [|t l E _ IH]; simpl; auto. rewrite E, IH. auto. }
  destruct l as [|t [|t2 l]], b; auto; try (cbn [tr_target]; rewrite M; auto; fail).
  inversion H; subst. simpl. auto.
Qed.
Lemma tr_stmts_grouped : forall u locals l s s', sts s = sts s' ->
  rmap sts (tr_stmts u locals l s) = rmap sts (tr_stmts u locals (map grouped_stmt l) s').
Proof.
  intros u locals. induction l as [|i l IH]; intros s s' E; simpl; [congruence|].
  apply (rmap_rel sts sts); [|auto]. destruct i as [t e|e]; simpl.
  - apply (rmap_rel gx sts); [apply tr_grouped; auto|]. intros [a s1] [a' s1'] E1. injection E1 as E1 E2 E3 E4 E5.
    simpl. unfold sts, add_stmt. simpl. rewrite !map_app, tr_target_grouped. simpl. congruence.
  - apply (rmap_rel gx sts); [apply tr_grouped; auto|]. intros [a s1] [a' s1'] E1. injection E1 as E1 E2 E3 E4 E5.
    simpl. unfold sts, add_stmt. simpl. rewrite !map_app. simpl. congruence.
Qed.
Lemma tr_decl_grouped : forall o d, rmap sdc (tr_decl o d) = rmap sdc (tr_decl o (grouped_decl d)).
Proof.
  intros o [x t e|nd|x t|x i o']; cbn [tr_decl grouped_decl]; auto.
  - apply (rmap_rel (fun x => x) sdc); [auto|]. intros o1 o2 ->.
    apply (rmap_rel gx sdc); [apply tr_grouped; auto|]. intros [a s1] [a' s1'] E1. injection E1 as E1 E2 E3 E4 E5.
    rewrite <- E2. destruct (t_stmts s1), (t_stmts s1'); simpl in E3; try discriminate; auto. destruct (t_blocks s1); auto.
    simpl. congruence.
  - apply (rmap_rel (fun x => x) sdc); [auto|]. intros o1 o2 ->.
    apply (rmap_rel snd_ sdc).
    + unfold tr_node. simpl. apply (rmap_rel sts snd_); [apply tr_stmts_grouped; auto|].
      intros s s' E. injection E as E1 E2 E3 E4. simpl. unfold snd_. simpl. congruence.
    + intros a a' E. simpl. congruence.
Qed.
Lemma tr_prog_grouped : forall p, rmap (map sdc) (tr_prog p) = rmap (map sdc) (tr_prog (grouped_prog p)).
Proof.
  induction p as [|[l d] p IH]; auto.
  change (tr_prog ((l, d) :: p)) with (b <~ tr_attrdecl (l, d);; bs <~ tr_prog p;; done (b :: bs)).
  change (tr_prog (grouped_prog ((l, d) :: p)))
    with (b <~ tr_attrdecl (l, grouped_decl d);; bs <~ tr_prog (grouped_prog p);; done (b :: bs)).
  apply (rmap_rel sdc (map sdc)).
  - unfold tr_attrdecl. simpl. apply (rmap_rel (fun x => x) sdc); [auto|]. intros o o' ->. apply tr_decl_grouped.
  - intros a a' E. apply (rmap_rel (map sdc) (map sdc)); [auto|]. intros b b' E'. simpl. congruence.
Qed.

(** ** Drivers of clocks *)
Definition all_open (l : list sexpr) : Prop := fold_right (fun e P => open_clocks e /\ P) True l.
Lemma all_open_spec : forall l, all_open l <-> Forall open_clocks l.
Proof. induction l as [|e l IH]; simpl; split; intros H; auto; [constructor|inversion H; subst]; tauto. Qed.
Lemma alls_open_spec : forall {A} (l : list (A * sexpr)),
  fold_right (fun p P => open_clocks (snd p) /\ P) True l <-> Forall (fun p => open_clocks (snd p)) l.
Proof. induction l as [|e l IH]; simpl; split; intros H; auto; [constructor|inversion H; subst]; tauto. Qed.

Definition cl (s : tst) : Prop := Forall clear_stmt (t_stmts s).
Section Open.
  Variable u : bool.
  Variable locals : list ident.
  Local Notation T := (tr u locals).
  Definition clears (e : sexpr) : Prop := forall d s r s', cl s -> result (T e d s) = Some (r, s') -> clear r /\ cl s'.

  Lemma elems_clear : forall l, Forall clears l -> forall d s r s', cl s -> result (tr_elems T l d s) = Some (r, s') ->
    Forall clear r /\ cl s'.
  Proof.
    intros l H. induction H as [|e l A _ IH]; intros d s r s' C R.
    - inversion R; subst. auto.
    - change (tr_elems T (e :: l) d s) with ('(e, s) <~ T e d s;; '(l, s) <~ tr_elems T l d s;; done (e :: l, s)) in R.
      apply obind_some in R. destruct R as ([a s1] & R1 & R). apply obind_some in R. destruct R as ([b s2] & R2 & R).
      inversion R; subst. destruct (A _ _ _ _ C R1) as [A1 A2]. destruct (IH _ _ _ _ A2 R2). auto.
  Qed.
  Lemma paren_clear : forall es t, Forall clear es -> clear (paren es t).
  Proof.
    intros es t H. assert (X : clear (ETuple es)) by (simpl; induction H; simpl; auto).
    unfold paren. destruct es as [|a [|b l]]; auto. destruct t; auto. inversion H; auto.
  Qed.
  Lemma left_clear : forall {O} (comp : O -> expr -> expr -> expr) (Q : expr -> Prop) l,
    (forall o a b, clear a -> Q b -> clear b -> clear (comp o a b)) ->
    Forall (fun p => clears (snd p)) l ->
    (forall p, In p l -> forall d s r s', result (T (snd p) d s) = Some (r, s') -> Q r) ->
    forall a d s r s', clear a -> cl s -> result (tr_left T comp a l d s) = Some (r, s') -> clear r /\ cl s'.
  Proof.
    intros O comp Q l C H. induction H as [|[o e] l A _ IH]; intros HQ a d s r s' Ca Cs R.
    - inversion R; subst. auto.
    - change (tr_left T comp a ((o, e) :: l) d s) with ('(e, s) <~ T e d s;; tr_left T comp (comp o a e) l d s) in R.
      apply obind_some in R. destruct R as ([b s1] & R1 & R). destruct (A _ _ _ _ Cs R1) as [A1 A2].
      apply IH in R; auto.
      + intros p Hp. apply HQ. right. auto.
      + apply C; auto. exact (HQ (o, e) (or_introl eq_refl) d s b s1 R1).
  Qed.
  Definition tame (compose : nat -> nat -> expr -> expr -> tst -> expr * tst) : Prop :=
    forall d i a b s, clear a -> clear b -> cl s -> clear (fst (compose d i a b s)) /\ cl (snd (compose d i a b s)).
  Lemma right_clear : forall bump compose, tame compose -> forall l, Forall clears l -> forall i d s r s', cl s ->
    result (tr_right T bump compose i l d s) = Some (r, s') -> match r with Some r => clear r | None => True end /\ cl s'.
  Proof.
    intros bump compose C l H. induction H as [|e l A _ IH]; intros i d s r s' Cs R.
    - inversion R; subst. auto.
    - rewrite tr_right_cons in R. apply obind_some in R. destruct R as ([acc s1] & R1 & R).
      apply obind_some in R. destruct R as ([b s2] & R2 & R). destruct (IH _ _ _ _ _ Cs R1) as [I1 I2].
      destruct (A _ _ _ _ I2 R2) as [A1 A2]. destruct acc as [x|].
      + pose proof (C d i b x s2 A1 I1 A2) as [X Y]. destruct (compose d i b x s2) as [y s3]. inversion R; subst. auto.
      + inversion R; subst. auto.
  Qed.
  Lemma fby_tame : tame fby_registers.
  Proof.
    intros d i a b s A B C. unfold fby_registers, cl in *. simpl. split; auto.
    apply Forall_app; split; [|repeat constructor]. apply Forall_app; split; [auto|repeat constructor].
  Qed.
  Lemma later_tame : tame later.
  Proof. intros d i a b s A B C. simpl. auto. Qed.
  Lemma then_tame : tame then_flips.
  Proof. intros d i a b s A B C. simpl. auto. Qed.
End Open.

Lemma left_head : forall {O} u locals (comp : O -> expr -> expr -> expr) l,
  (forall o a b, drives (comp o a b)) -> forall a d s r s',
  l <> [] \/ drives a -> result (tr_left (tr u locals) comp a l d s) = Some (r, s') -> drives r.
Proof.
  intros O u locals comp l C. induction l as [|[o e] l IH]; intros a d s r s' N R.
  - inversion R; subst. tauto.
  - change (tr_left (tr u locals) comp a ((o, e) :: l) d s)
      with ('(e, s) <~ tr u locals e d s;; tr_left (tr u locals) comp (comp o a e) l d s) in R.
    apply obind_some in R. destruct R as ([b s1] & R1 & R). eapply IH; eauto.
Qed.
Lemma not_enclosed : forall u locals e d s r s', ~ enclosed e -> result (tr u locals e d s) = Some (r, s') -> drives r.
Proof.
  intros u locals. induction e using sexpr_ind'; intros d s r s' N R.
  - destruct l; simpl in R; inv_out; simpl; auto. destruct (in_i64 z); inv_out; simpl; auto.
  - cbn [tr] in R. inversion R; subst. unfold tr_var; match goal with |- context[if ?b then _ else _] => destruct b end; simpl; auto.
  - cbn [tr] in R. apply obind_some in R. destruct R as ([es s1] & R1 & R). inversion R; subst.
    destruct l as [|e [|e2 l]].
    + inversion R1; subst. simpl. auto.
    + destruct b; [|simpl in N; tauto]. unfold paren. destruct es as [|? [|]]; simpl; auto.
    + cbn [tr_elems] in R1. inv_out. simpl. auto.
  - cbn [tr] in R. apply obind_some in R. destruct R as ([es s1] & R1 & R). inversion R; subst. simpl. auto.
  - cbn [tr] in R. apply obind_some in R. destruct R as ([es s1] & R1 & R). inversion R; subst. simpl. auto.
  - cbn [tr] in R. apply obind_some in R. destruct R as ([es s1] & R1 & R). inversion R; subst. simpl. auto.
  - cbn [tr] in R. destruct u; apply obind_some in R; destruct R as ([es s1] & R1 & R); inversion R; subst; simpl; auto.
  - cbn [tr] in R. inv_out. simpl. auto.
  - cbn [tr] in R. inv_out. simpl. auto.
  - change (tr u locals (XBin e l) d s) with ('(a, s) <~ tr u locals e d s;; tr_left (tr u locals) EBin a l d s) in R.
    apply obind_some in R. destruct R as ([a s1] & R1 & R). eapply left_head; eauto; [simpl; auto|].
    destruct l; [right|left; discriminate]. eapply IHe; eauto.
  - cbn [tr] in R. apply obind_some in R. destruct R as ([a s1] & R1 & R). destruct l as [|[o e1] [|[o2 e2] l]].
    + inversion R; subst. eapply IHe; eauto.
    + apply obind_some in R. destruct R as ([b s2] & R2 & R). inversion R; subst. simpl. auto.
    + inv_out.
  - change (tr u locals (XClock e l) d s) with ('(a, s) <~ tr u locals e d s;; tr_left (tr u locals) EClock a l d s) in R.
    apply obind_some in R. destruct R as ([a s1] & R1 & R). eapply left_head; eauto; [simpl; auto|].
    destruct l; [right|left; discriminate]. eapply IHe; eauto.
  - rewrite tr_fby_cons in R. cbn zeta in R. apply obind_some in R. destruct R as ([acc s1] & R1 & R).
    apply obind_some in R. destruct R as ([a s2] & R2 & R). destruct acc as [x|].
    + destruct u; inversion R; subst; simpl; auto.
    + inversion R; subst. destruct l as [|b l].
      * simpl in N. eapply IHe; eauto.
      * rewrite tr_right_cons in R1. apply obind_some in R1. destruct R1 as ([acc' s3] & R3 & R1).
        apply obind_some in R1. destruct R1 as ([b' s4] & R4 & R1). destruct acc'; [|discriminate].
        destruct ((if u then fby_registers else later) d 1 b' e0 s4). discriminate.
  - cbn [tr] in R. apply obind_some in R. destruct R as ([acc s1] & R1 & R).
    apply obind_some in R. destruct R as ([a s2] & R2 & R). destruct acc as [x|].
    + destruct u; inversion R; subst; simpl; auto.
    + inversion R; subst. destruct l as [|b l].
      * simpl in N. eapply IHe; eauto.
      * rewrite tr_right_cons in R1. apply obind_some in R1. destruct R1 as ([acc' s3] & R3 & R1).
        apply obind_some in R1. destruct R1 as ([b' s4] & R4 & R1). destruct acc'; [|discriminate].
        destruct ((if u then then_flips else later) d 1 b' e0 s4). discriminate.
Qed.

Lemma forall_imp_in : forall {A} (P Q : A -> Prop) l, Forall (fun a => P a -> Q a) l -> Forall P l -> Forall Q l.
Proof. intros A P Q l H. induction H; intros F; inversion F; subst; constructor; auto. Qed.

Lemma open_clear : forall u locals e, open_clocks e -> clears u locals e.
Proof.
  intros u locals. induction e using sexpr_ind'; intros O d s r s' C R.
  - destruct l; simpl in R; inv_out; simpl; auto. destruct (in_i64 z); inv_out; simpl; auto.
  - cbn [tr] in R. inversion R; subst. unfold tr_var; match goal with |- context[if ?b then _ else _] => destruct b end; simpl; auto.
  - cbn [tr] in R. apply obind_some in R. destruct R as ([es s1] & R1 & R). inversion R; subst.
    apply elems_clear in R1; auto; [|eapply forall_imp_in; [apply H|apply all_open_spec; exact O]].
    destruct R1. split; auto. apply paren_clear; auto.
  - cbn [tr] in R. apply obind_some in R. destruct R as ([es s1] & R1 & R). inversion R; subst.
    apply elems_clear in R1; auto; [|eapply forall_imp_in; [apply H|apply all_open_spec; exact O]].
    destruct R1. split; auto. simpl. apply paren_clear; auto.
  - cbn [tr] in R. apply obind_some in R. destruct R as ([es s1] & R1 & R). inversion R; subst. simpl. eapply IHe; eauto.
  - cbn [tr] in R. apply obind_some in R. destruct R as ([es s1] & R1 & R). inversion R; subst. simpl. eapply IHe; eauto.
  - cbn [tr] in R. destruct u; apply obind_some in R; destruct R as ([es s1] & R1 & R); inversion R; subst.
    + apply IHe in R1; auto. destruct R1 as [X Y]. simpl. split; auto. unfold cl in *. simpl.
      apply Forall_app; split; [|repeat constructor]. apply Forall_app; split; [auto|repeat constructor].
    + apply IHe in R1; auto.
  - cbn [tr] in R. destruct O as (O1 & O2 & O3).
    apply obind_some in R. destruct R as ([a s1] & R1 & R). apply obind_some in R. destruct R as ([b s2] & R2 & R).
    apply obind_some in R. destruct R as ([c s3] & R3 & R). inversion R; subst.
    apply IHe1 in R1; auto. destruct R1. apply IHe2 in R2; auto. destruct R2. apply IHe3 in R3; auto. destruct R3. simpl. auto.
  - cbn [tr] in R. destruct O as (O0 & O1 & O2 & O3).
    apply obind_some in R. destruct R as ([a s1] & R1 & R). apply obind_some in R. destruct R as ([b s2] & R2 & R).
    apply obind_some in R. destruct R as ([c s3] & R3 & R). inversion R; subst. pose proof (not_enclosed _ _ _ _ _ _ _ O0 R1) as D.
    apply IHe1 in R1; auto. destruct R1. apply IHe2 in R2; auto. destruct R2. apply IHe3 in R3; auto. destruct R3. simpl. auto.
  - change (tr u locals (XBin e l) d s) with ('(a, s) <~ tr u locals e d s;; tr_left (tr u locals) EBin a l d s) in R.
    destruct O as [O1 O2]. apply obind_some in R. destruct R as ([a s1] & R1 & R). apply IHe in R1; auto. destruct R1 as [X Y].
    apply (left_clear u locals EBin (fun _ => True)) in R; auto; [simpl; auto|].
    eapply forall_imp_in; [apply H|]. apply alls_open_spec. exact O2.
  - destruct O as [O1 O2]. cbn [tr] in R. apply obind_some in R. destruct R as ([a s1] & R1 & R).
    apply IHe in R1; auto. destruct R1 as [X Y]. destruct l as [|[o e1] [|[o2 e2] l]].
    + inversion R; subst. auto.
    + apply obind_some in R. destruct R as ([b s2] & R2 & R). inversion R; subst.
      inversion H as [|? ? H1 _]; subst. simpl in H1, O2. apply H1 in R2; try tauto. destruct R2. simpl. auto.
    + inv_out.
  - change (tr u locals (XClock e l) d s) with ('(a, s) <~ tr u locals e d s;; tr_left (tr u locals) EClock a l d s) in R.
    destruct O as (O0 & O1 & O2). apply obind_some in R. destruct R as ([a s1] & R1 & R). apply IHe in R1; auto. destruct R1 as [X Y].
    apply (left_clear u locals EClock drives) in R; auto; [simpl; auto| |].
    + eapply forall_imp_in; [apply H|]. apply alls_open_spec. exact O2.
    + intros p Hp d' t r' t' R2. eapply not_enclosed; [apply O0; eauto|eauto].
  - destruct O as [O1 O2]. rewrite tr_fby_cons in R. cbn zeta in R. apply obind_some in R. destruct R as ([acc s1] & R1 & R).
    apply obind_some in R. destruct R as ([a s2] & R2 & R).
    assert (TM : tame (if u then fby_registers else later)) by (destruct u; [apply fby_tame|apply later_tame]).
    apply right_clear in R1; auto; [|eapply forall_imp_in; [apply H|apply all_open_spec; exact O2]].
    destruct R1 as [X Y]. apply IHe in R2; auto. destruct R2 as [Z W]. destruct acc as [x|].
    + pose proof (TM d 0 a x s2 Z X W) as [F1 F2]. inversion R as [E]. rewrite E in F1, F2. auto.
    + inversion R; subst. auto.
  - destruct O as [O1 O2]. cbn [tr] in R. apply obind_some in R. destruct R as ([acc s1] & R1 & R).
    apply obind_some in R. destruct R as ([a s2] & R2 & R).
    assert (TM : tame (if u then then_flips else later)) by (destruct u; [apply then_tame|apply later_tame]).
    apply right_clear in R1; auto; [|eapply forall_imp_in; [apply H|apply all_open_spec; exact O2]].
    destruct R1 as [X Y]. apply IHe in R2; auto. destruct R2 as [Z W]. destruct acc as [x|].
    + pose proof (TM d 0 a x s2 Z X W) as [F1 F2]. inversion R as [E]. rewrite E in F1, F2. auto.
    + inversion R; subst. auto.
Qed.

Lemma open_stmts_clear : forall u locals l, Forall open_stmt l -> forall s s', cl s ->
  result (tr_stmts u locals l s) = Some s' -> cl s'.
Proof.
  intros u locals l H. induction H as [|i l O _ IH]; intros s s' C R.
  - inversion R; subst. auto.
  - simpl in R. apply obind_some in R. destruct R as (s1 & R1 & R). apply IH in R; auto. clear R.
    destruct i as [t e|e]; simpl in R1, O; apply obind_some in R1; destruct R1 as ([a s2] & R2 & R1); inversion R1; subst;
      apply (open_clear u locals e O) in R2; auto; destruct R2; unfold cl in *; simpl;
      apply Forall_app; split; auto.
Qed.
Lemma open_prog_clear : forall p l, open_prog p -> result (tr_prog p) = Some l -> Forall clear_decl l.
Proof.
  induction p as [|[at_ d] p IH]; intros l O R.
  - inversion R; constructor.
  - change (tr_prog ((at_, d) :: p)) with (b <~ tr_attrdecl (at_, d);; bs <~ tr_prog p;; done (b :: bs)) in R.
    apply obind_some in R. destruct R as (b & R1 & R). apply obind_some in R. destruct R as (bs & R2 & R).
    inversion R; subst. constructor.
    2:{ apply IH; auto. intros a I. apply O. right. auto. }
    specialize (O _ (or_introl eq_refl)). simpl in O. unfold tr_attrdecl in R1. simpl in R1.
    apply obind_some in R1. destruct R1 as (o & _ & R1). destruct d as [x t e|nd|x t|x i o']; cbn [tr_decl] in R1; inv_out; simpl; auto.
    + destruct (t_stmts t0); [destruct (t_blocks t0)|]; inv_out; simpl; auto.
    + match goal with H : result (tr_node _ _) = Some _ |- _ => unfold tr_node in H end. inv_out. simpl. eapply open_stmts_clear; eauto. constructor.
Qed.

(** What [grouped] returns has open clocks. *)
Lemma grouped_not_enclosed : forall e, ~ enclosed (grouped e).
Proof.
  assert (L : forall {O} (mk : sexpr -> list (O * sexpr) -> sexpr) l e,
    (forall a p, ~ enclosed (mk a [p])) -> ~ enclosed e -> ~ enclosed (group_left mk e l)).
  { intros O mk. induction l as [|p l IH]; intros e M N; simpl; auto. }
  induction e using sexpr_ind'; simpl; auto.
  - destruct l as [|e [|e2 l]]; simpl; auto. destruct b; simpl; auto. inversion H; auto.
  - destruct l; simpl; auto.
  - destruct l; simpl; auto.
  - destruct l; simpl; auto.
Qed.
Lemma map_open : forall l, Forall (fun e => open_clocks (grouped e)) l -> all_open (map grouped l).
Proof. intros l H. induction H; simpl; auto. Qed.
Lemma sub_open : forall {A} (l : list (A * sexpr)), Forall (fun p => open_clocks (grouped (snd p))) l ->
  fold_right (fun p P => open_clocks (snd p) /\ P) True (map (fun p => (fst p, grouped (snd p))) l).
Proof. intros A l H. induction H; simpl; auto. Qed.
Lemma grouped_open : forall e, open_clocks (grouped e).
Proof.
  induction e using sexpr_ind'; cbn [grouped]; try (simpl; auto; fail).
  - destruct l as [|e [|e2 l]]; [simpl; auto| |].
    + destruct b; inversion H; subst; simpl; auto.
    + exact (map_open (e :: e2 :: l) H).
  - exact (map_open l H).
  - simpl. repeat split; auto. apply grouped_not_enclosed.
  - pose proof (sub_open l H) as X. revert X. generalize (map (fun p => (fst p, grouped (snd p))) l) as m.
    assert (G : forall m e, open_clocks e -> fold_right (fun p P => open_clocks (snd p) /\ P) True m -> open_clocks (group_left XBin e m)).
    { induction m as [|p m IH]; intros a A M; simpl in *; auto. apply IH; [|tauto]. simpl. tauto. }
    intros m X. apply G; auto.
  - split; auto. exact (sub_open l H).
  - assert (N : forall p, In p (map (fun p => (fst p, grouped (snd p))) l) -> ~ enclosed (snd p)).
    { intros p I. apply in_map_iff in I. destruct I as (q & <- & _). apply grouped_not_enclosed. }
    pose proof (sub_open l H) as X. revert X N. generalize (map (fun p => (fst p, grouped (snd p))) l) as m.
    assert (G : forall m e, open_clocks e -> fold_right (fun p P => open_clocks (snd p) /\ P) True m ->
                (forall p, In p m -> ~ enclosed (snd p)) -> open_clocks (group_left XClock e m)).
    { induction m as [|p m IH]; intros a A M N; simpl in *; auto. apply IH; [|tauto|auto]. simpl. split; [|tauto].
      intros q [<-|[]]. auto. }
    intros m X N. apply G; auto.
  - pose proof (map_open l H) as X. revert X. generalize (map grouped l) as m.
    assert (G : forall m e, open_clocks e -> all_open m -> open_clocks (group_right XFby e m)).
    { induction m as [|p m IH]; intros a A M; simpl in *; auto. repeat split; auto. apply IH; tauto. }
    intros m X. apply G; auto.
  - split; auto. exact (map_open l H).
Qed.
Lemma grouped_prog_open : forall p, open_prog (grouped_prog p).
Proof.
  intros p a I. unfold grouped_prog in I. apply in_map_iff in I. destruct I as ([l d] & <- & _). simpl.
  destruct d; simpl; auto. apply Forall_forall. intros i J. apply in_map_iff in J. destruct J as (j & <- & _).
  destruct j; apply grouped_open.
Qed.

(** ** Outcomes *)
Lemma indist : forall P Q, map sdc P = map sdc Q -> indistinguishable P Q.
Proof.
  intros P Q E. split; [|split; [|split]]; intros.
  - rewrite <- (constants_s ext P), E. apply constants_s.
  - rewrite <- (init_s (nodes_of P)), <- nodes_of_s, E, nodes_of_s. apply init_s.
  - rewrite <- (run_s _ _ (nodes_of P)), <- nodes_of_s, E, nodes_of_s. apply run_s.
  - rewrite <- (trun_s _ _ _ (tnodes_of P)), <- tnodes_of_s, E, tnodes_of_s. apply trun_s.
Qed.
Definition agreeing (p : sprog) : Prop :=
  forall l, result (tr_prog p) = Some l -> analyse (map sdc l) = rmap (map sdc) (analyse l).
Lemma pipeline_agree : forall p q, grouped_prog p = grouped_prog q -> agreeing p -> agreeing q ->
  rmap (map sdc) (pipeline p) = rmap (map sdc) (pipeline q).
Proof.
  intros p q E Ap Aq. unfold pipeline.
  assert (T : rmap (map sdc) (tr_prog p) = rmap (map sdc) (tr_prog q)).
  { rewrite tr_prog_grouped, E, <- tr_prog_grouped. auto. }
  unfold agreeing in *. destruct (tr_prog p) as [[l|] es ws|], (tr_prog q) as [[l'|] es' ws'|]; simpl in T; try discriminate; auto.
  - injection T as T T2 T3. subst. specialize (Ap l eq_refl). specialize (Aq l' eq_refl). simpl.
    rewrite T in Ap. rewrite Ap in Aq. destruct (analyse l) as [r a b|], (analyse l') as [r' a' b'|]; simpl in *; congruence.
Qed.
Lemma open_agreeing : forall p, open_prog p -> agreeing p.
Proof. intros p O l R. apply analyse_s. eapply open_prog_clear; eauto. Qed.
Lemma accepted_agreeing : forall p P ws, compile p = Expanded (Some P) ws -> agreeing p.
Proof.
  intros p P ws H l R. unfold compile, pipeline in H. 
  destruct (tr_prog p) as [[l'|] es' ws'|]; simpl in H, R; try discriminate.
  - inversion R; subst. destruct (analyse l) as [[Q|] a b|] eqn:A; try discriminate.
    + rewrite <- A. eapply analyse_accepted_s. rewrite A. simpl. eauto.
    + destruct (es' ++ a); discriminate.
Qed.
Lemma outcome_agree : forall p q, grouped_prog p = grouped_prog q -> agreeing p -> agreeing q ->
  same_outcome (compile p) (compile q).
Proof.
  intros p q E Ap Aq. pose proof (pipeline_agree p q E Ap Aq) as H. unfold compile.
  destruct (pipeline p) as [[P|] es ws|], (pipeline q) as [[Q|] es' ws'|]; simpl in H; try discriminate; simpl; auto.
  - injection H as H H2 H3. subst. split; auto. apply indist. auto.
  - injection H as -> ->. destruct es'; simpl; auto.
Qed.

Theorem regrouped_open : forall p q, grouped_prog p = grouped_prog q -> open_prog p -> open_prog q ->
  same_outcome (compile p) (compile q).
Proof. intros p q E P Q. apply outcome_agree; auto using open_agreeing. Qed.
Theorem regrouped_accepted : forall p q P Q ws ws', grouped_prog p = grouped_prog q ->
  compile p = Expanded (Some P) ws -> compile q = Expanded (Some Q) ws' -> ws = ws' /\ indistinguishable P Q.
Proof.
  intros p q P Q ws ws' E HP HQ. pose proof (outcome_agree p q E (accepted_agreeing _ _ _ HP) (accepted_agreeing _ _ _ HQ)) as H.
  rewrite HP, HQ in H. auto.
Qed.
Lemma grouped_twice_expr : forall e, grouped (grouped e) = grouped e.
Proof.
  assert (L : forall {O} (mk : sexpr -> list (O * sexpr) -> sexpr),
    (forall a p, grouped (mk a [p]) = mk (grouped a) [(fst p, grouped (snd p))]) ->
    forall l e, grouped e = e -> Forall (fun p => grouped (snd p) = snd p) l -> grouped (group_left mk e l) = group_left mk e l).
  { intros O mk M. induction l as [|[o b] l IH]; intros e E F; simpl; auto. inversion F as [|? ? F1 F2]; subst.
    apply IH; auto. rewrite M. simpl in *. congruence. }
  assert (M : forall l, Forall (fun e => grouped (grouped e) = grouped e) l -> map grouped (map grouped l) = map grouped l).
  { intros l H. induction H; simpl; congruence. }
  assert (S : forall {A} (l : list (A * sexpr)), Forall (fun p => grouped (grouped (snd p)) = grouped (snd p)) l ->
     map (fun p => (fst p, grouped (snd p))) (map (fun p => (fst p, grouped (snd p))) l) = map (fun p => (fst p, grouped (snd p))) l).
  { intros A l H. induction H; simpl; congruence. }
  induction e using sexpr_ind'; cbn [grouped]; try (congruence).
  - destruct l as [|e [|e2 l]]; auto.
    + inversion H; subst. destruct b; auto. cbn [grouped map]. congruence.
    + cbn [grouped map]. f_equal. apply (M (e :: e2 :: l)). auto.
  - f_equal. auto.
  - apply L; auto. apply Forall_map. rewrite Forall_forall in *. simpl. auto.
  - f_equal; auto.
  - apply L; auto. apply Forall_map. rewrite Forall_forall in *. simpl. auto.
  - assert (G : forall m e, grouped e = e -> Forall (fun e => grouped e = e) m -> grouped (group_right XFby e m) = group_right XFby e m).
    { induction m as [|b m IHm]; intros a A F; auto. inversion F; subst. cbn [group_right grouped map].
      rewrite A, IHm by auto. auto. }
    apply G; auto. apply Forall_map. auto.
  - f_equal; auto.
Qed.
Lemma grouped_twice_target : forall t, grouped_target (grouped_target t) = grouped_target t.
Proof.
  assert (M : forall l, Forall (fun e => grouped_target (grouped_target e) = grouped_target e) l ->
    map grouped_target (map grouped_target l) = map grouped_target l).
  { intros l H. induction H; simpl; congruence. }
  induction t using starget_ind'; auto. cbn [grouped_target]. destruct l as [|t [|t2 l]]; auto.
  - inversion H; subst. destruct b; auto. cbn [grouped_target map]. congruence.
  - cbn [grouped_target map]. f_equal. apply (M (t :: t2 :: l)). auto.
Qed.
Lemma grouped_twice : forall p, grouped_prog (grouped_prog p) = grouped_prog p.
Proof.
  intros p. unfold grouped_prog. rewrite map_map. apply map_ext. intros [l d]. simpl. f_equal.
  destruct d; simpl; rewrite ?grouped_twice_expr; auto. do 2 f_equal. rewrite map_map. apply map_ext.
  intros [t e|e]; simpl; rewrite ?grouped_twice_target, grouped_twice_expr; auto.
Qed.
Theorem ungrouped_accepted : forall p P ws, compile p = Expanded (Some P) ws ->
  exists Q, compile (grouped_prog p) = Expanded (Some Q) ws /\ indistinguishable P Q.
Proof.
  intros p P ws H.
  pose proof (outcome_agree p (grouped_prog p) (eq_sym (grouped_twice p)) (accepted_agreeing _ _ _ H)
                (open_agreeing _ (grouped_prog_open p))) as S.
  rewrite H in S. destruct (compile (grouped_prog p)) as [[Q|] ws'|]; simpl in S; try tauto. destruct S as [-> S]. eauto.
Qed.
