(** The temporal operators along the runs of a program. *)
From Coq Require Import String List ZArith Bool Arith Lia Permutation.
From Verif Require Import Model.Base Model.Scalar Model.Value Model.Ast Model.Errors Model.Options Model.Interp Model.Surface Model.Translate
  Model.Causality Model.Pipeline Spec.StepSpec Spec.SurfaceSem Spec.ProgramSem Spec.ClockSpec Spec.UniversalSem Spec.ChainSpec Spec.OrderSpec Spec.RunSpec
  Proofs.OutBasics Proofs.StepProofs Proofs.Chains Proofs.TranslateSem Proofs.PipelineProofs Proofs.ProgramProofs Proofs.Unique Proofs.UniProgram.
Import ListNotations.
Local Notation answers := RunSpec.answers.

Lemma moded_source : forall p, map snd (moded_nodes p) = source_nodes p.
Proof. unfold moded_nodes, source_nodes. induction p as [|(a, d) p IH]; auto. cbn. rewrite map_app, IH. destruct d; auto. Qed.
Lemma moded_in : forall p u sn, In (u, sn) (moded_nodes p) -> In sn (source_nodes p).
Proof. intros. rewrite <- moded_source. apply in_map_iff. exists (u, sn). auto. Qed.

Lemma moded_unique : forall p l, result (pipeline p) = Some l ->
  forall u u' sn sn', In (u, sn) (moded_nodes p) -> In (u', sn') (moded_nodes p) -> s_name sn = s_name sn' -> (u, sn) = (u', sn').
Proof.
  intros p l H u u' sn sn' I J E. pose proof (pipeline_names _ _ H) as N. clear H.
  match type of N with NoDup ?x => assert (M : x = map (fun q => s_name (snd q)) (moded_nodes p)) end.
  { unfold moded_nodes. clear. induction p as [|(a, x) p IH]; simpl; auto. rewrite map_app, IH. destruct x; auto. }
  rewrite M in N. clear M. induction (moded_nodes p) as [|c m IH]; [destruct I|].
  simpl in N. inversion N as [|? ? X Y]; subst. simpl in I, J.
  destruct I as [->|I], J as [->|J]; auto; exfalso; apply X; cbn; [rewrite E|rewrite <- E]; apply in_map_iff; [exists (u', sn')|exists (u, sn)]; auto.
Qed.

Lemma present_filter : forall ins, (forall v, In v ins -> ~ lacking v) -> filter (fun v => negb (first_is_nil v)) ins = ins.
Proof.
  induction ins as [|v l IH]; intros H; auto. cbn. destruct (first_is_nil v) eqn:E.
  - exfalso. apply (H v); [left; auto|]. apply first_lacking. auto.
  - cbn. f_equal. apply IH. intros w I. apply H. right. auto.
Qed.
Lemma present_weave : forall w ins outs, (forall v, In v ins -> ~ lacking v) -> length outs = length ins -> weave w ins outs = outs.
Proof.
  induction ins as [|v l IH]; intros outs H L; destruct outs as [|o outs]; try discriminate; auto. cbn [weave]. destruct (first_is_nil v) eqn:E.
  - exfalso. apply (H v); [left; auto|]. apply first_lacking. auto.
  - f_equal. apply IH; auto. intros x I. apply H. right. auto.
Qed.

Section Run.
  Variable mode : ovf.
  Variable glob : ident -> option scalar.
  Variable p : sprog.
  Variable l : list decl.
  Hypothesis Hp : result (pipeline p) = Some l.
  Variable sn : snode.
  Variables (i i' : inst) (ins outs : list val).
  Hypothesis Hin : forall v, In v ins -> ~ lacking v.
  Hypothesis Hinit : init_inst (nodes_of l) (s_name sn) = Ok i.
  Hypothesis Hrun : run mode glob (nodes_of l) (s_name sn) i ins = Ok (outs, i').

  Lemma run_streams : forall u, In (u, sn) (moded_nodes p) -> exists rho F, carried sn ins outs rho /\ answers mode glob p F /\
    forall T d, T < length ins -> In d (s_defs sn) ->
      if u then ustmt_holds mode glob (node_vars sn) (declared_pace sn) rho F T d
      else sstmt_holds mode glob (node_vars sn) rho F (no_input (source_nodes p)) T d.
  Proof.
    intros u Iu. destruct (moded_program_sound _ _ _ _ _ _ _ _ _ Hp Hinit Hrun) as (n & D). destruct n as [|n]; [destruct D|].
    cbn [mdenotes] in D. destruct D as (u' & sn' & po & I & E & M & Eo). cbn zeta in M.
    injection (moded_unique _ _ Hp _ _ _ _ I Iu E) as -> ->. rewrite (present_filter _ Hin) in M.
    assert (L : length po = length ins) by (destruct u; apply M).
    rewrite (present_weave _ _ _ Hin L) in Eo. subst po. set (F := fun g args v => exists os, mdenotes mode glob (moded_nodes p) n g args (os ++ [v])) in *.
    assert (A : answers mode glob p F) by (intros f args v (os & Dn); exists os, n; auto).
    assert (At : forall T, T < length ins -> exists v w, nth_error ins T = Some v /\ nth_error outs T = Some w).
    { intros T K. assert (A1 : nth_error ins T <> None) by (apply nth_error_Some; auto).
      assert (B : nth_error outs T <> None) by (apply nth_error_Some; lia).
      destruct (nth_error ins T), (nth_error outs T); try congruence. eauto. }
    destruct u; destruct M as (_ & rho & H); exists rho, F; (split; [split; auto; intros T v o E1 E2; destruct (H _ _ _ E1 E2) as (? & ? & ?); auto|split; auto]);
      intros T d K Id; destruct (At T K) as (v & o & E1 & E2); destruct (H _ _ _ E1 E2) as (_ & X & _); specialize (X d Id); auto.
    rewrite moded_source in X. auto.
  Qed.

  (** ** Default mode *)
  Theorem run_then : In (false, sn) (moded_nodes p) -> exists rho F, carried sn ins outs rho /\ answers mode glob p F /\
    forall x e es, In (XDef (TVar x) (XThen e es)) (s_defs sn) -> forall T, T < length ins ->
    exists e' n, nth_error (e :: es) (Nat.min T (length es)) = Some e' /\
      sem mode glob (node_vars sn) rho F (no_input (source_nodes p)) e' (Z.of_nat T) (VS n) /\ rho T x = Some n.
  Proof.
    intros D. destruct (run_streams _ D) as (rho & F & C & A & H). exists rho, F. split; auto. split; auto.
    intros x e es I T K. destruct (H T _ K I) as (v & S & M). inversion M; subst. apply sem_then_iff in S. destruct S as (e' & E & S).
    exists e', n. split; auto. rewrite <- E. f_equal. unfold position. lia.
  Qed.
  Theorem run_fby : In (false, sn) (moded_nodes p) -> exists rho F, carried sn ins outs rho /\ answers mode glob p F /\
    forall x e es, In (XDef (TVar x) (XFby e es)) (s_defs sn) -> forall T, T < length ins ->
    exists e' n, nth_error (e :: es) (Nat.min T (length es)) = Some e' /\
      sem mode glob (node_vars sn) rho F (no_input (source_nodes p)) e' (Z.of_nat (T - Nat.min T (length es))) (VS n) /\ rho T x = Some n.
  Proof.
    intros D. destruct (run_streams _ D) as (rho & F & C & A & H). exists rho, F. split; auto. split; auto.
    intros x e es I T K. destruct (H T _ K I) as (v & S & M). inversion M; subst. apply sem_fby_iff in S. destruct S as (e' & E & S).
    assert (P : position (length es) (Z.of_nat T) = Nat.min T (length es)) by (unfold position; lia). rewrite P in *.
    exists e', n. split; auto. replace (Z.of_nat (T - Nat.min T (length es))) with (Z.of_nat T - Z.of_nat (Nat.min T (length es)))%Z by lia. auto.
  Qed.
  Lemma sem_pres : forall locals rho F N n e t v, sem mode glob locals rho F N (pres n e) t v -> sem mode glob locals rho F N e (t - Z.of_nat n) v.
  Proof.
    intros locals rho F N. induction n as [|n IH]; intros e t v X; cbn [pres] in X.
    - replace (t - Z.of_nat 0)%Z with t by lia. auto.
    - apply sem_pre_iff in X. apply IH in X. replace (t - Z.of_nat (S n))%Z with (t - 1 - Z.of_nat n)%Z by lia. auto.
  Qed.
  Theorem run_pre : In (false, sn) (moded_nodes p) -> exists rho F, carried sn ins outs rho /\ answers mode glob p F /\
    forall x a es, In (XDef (TVar x) (XThen a es)) (s_defs sn) ->
    forall T n e, T < length ins -> nth_error (a :: es) (Nat.min T (length es)) = Some (pres n e) ->
    exists m, sem mode glob (node_vars sn) rho F (no_input (source_nodes p)) e (Z.of_nat T - Z.of_nat n) (VS m) /\ rho T x = Some m.
  Proof.
    intros D. destruct (run_then D) as (rho & F & C & A & H). exists rho, F. split; auto. split; auto.
    intros x a es I T n e K E. destruct (H x a es I T K) as (e' & m & E' & X & R). rewrite E in E'. injection E' as <-. apply sem_pres in X. eauto.
  Qed.

  (** ** With registers *)
  Lemma nil_scalar : forall w n, VS n = all_nil w -> n = Nil.
  Proof. intros [a|a] n E; inversion E; auto. Qed.
  Theorem run_register_pre : In (true, sn) (moded_nodes p) -> exists rho F, carried sn ins outs rho /\ answers mode glob p F /\
    forall x e, In (XDef (TVar x) (XPre e)) (s_defs sn) -> forall T, T < length ins ->
    let value := usem mode glob (node_vars sn) (declared_pace sn) rho F e in
    exists n, rho T x = Some n /\
      (waits (declared_pace sn) rho e T /\ n = Nil \/
       ticks (declared_pace sn) rho e T /\ (never_present value T /\ n = Nil \/ last_present value T (VS n))).
  Proof.
    intros D. destruct (run_streams _ D) as (rho & F & C & A & H). exists rho, F. split; auto. split; auto.
    intros x e I T K. destruct (H T _ K I) as (v & S & M). inversion M as [? n Rx| | |]; subst. exists n. split; auto.
    inversion S; subst; auto; match goal with X : all_nil ?w = VS n |- _ => symmetry in X; apply nil_scalar in X end; auto.
  Qed.
  Theorem run_register_fby : In (true, sn) (moded_nodes p) -> exists rho F, carried sn ins outs rho /\ answers mode glob p F /\
    forall x a b, In (XDef (TVar x) (XFby a [b])) (s_defs sn) -> forall T, T < length ins ->
    let value := usem mode glob (node_vars sn) (declared_pace sn) rho F in
    exists n, rho T x = Some n /\
      (waits (declared_pace sn) rho b T /\ n = Nil \/
       ticks (declared_pace sn) rho b T /\ (never_present (value b) T /\ value a T (VS n) \/ last_present (value b) T (VS n))).
  Proof.
    intros D. destruct (run_streams _ D) as (rho & F & C & A & H). exists rho, F. split; auto. split; auto.
    intros x a b I T K. destruct (H T _ K I) as (v & S & M). inversion M as [? n Rx| | |]; subst. exists n. split; auto.
    assert (One : forall t w, usem mode glob (node_vars sn) (declared_pace sn) rho F (XFby b []) t w -> usem mode glob (node_vars sn) (declared_pace sn) rho F b t w).
    { intros t w U. inversion U; auto. }
    assert (Pace : upace_of (declared_pace sn) (XFby b []) = upace_of (declared_pace sn) b).
    { cbn. destruct (upace_of (declared_pace sn) b) as [[| |q y]|]; auto. cbn. rewrite eqb_reflx, String.eqb_refl. auto. }
    unfold waits, ticks in *. inversion S; subst; rewrite <- Pace; auto.
    - match goal with X : all_nil ?w = VS n |- _ => symmetry in X; apply nil_scalar in X end. auto.
    - right. split; auto. left. split; auto. match goal with X : never_present _ T |- _ => intros j Lj; destruct (X j Lj) as (w & Uw & Aw) end. eauto.
    - right. split; auto. right. match goal with X : last_present _ T _ |- _ => destruct X as (k & Lk & Uk & Pk & Q) end.
      exists k. repeat split; auto. intros j L1 L2. destruct (Q j L1 L2) as (w & Uw & Aw). eauto.
  Qed.
  Theorem run_flip : In (true, sn) (moded_nodes p) -> exists rho F, carried sn ins outs rho /\ answers mode glob p F /\
    forall x a b, In (XDef (TVar x) (XThen a [b])) (s_defs sn) -> forall T, T < length ins ->
    let value := usem mode glob (node_vars sn) (declared_pace sn) rho F in
    exists n, rho T x = Some n /\
      ((exists w, value a T w /\ lacking w) /\ n = Nil \/
       (exists w, value a T w /\ ~ lacking w) /\
         ((forall T', T' < T -> exists w, value a T' w /\ lacking w) /\ value a T (VS n) \/
          (exists T' w, T' < T /\ value a T' w /\ ~ lacking w) /\ value b T (VS n))).
  Proof.
    intros D. destruct (run_streams _ D) as (rho & F & C & A & H). exists rho, F. split; auto. split; auto.
    intros x a b I T K. destruct (H T _ K I) as (v & S & M). inversion M as [? n Rx| | |]; subst. exists n. split; auto.
    assert (Ab : forall w, absent_val w -> lacking w) by (intros w; apply first_lacking).
    assert (Pr : forall w, present_val w -> ~ lacking w) by (unfold present_val; intros w X Y; apply first_lacking in Y; congruence).
    inversion S; subst.
    - left. match goal with X : all_nil ?w = VS n |- _ => symmetry in X; apply nil_scalar in X end. eauto.
    - right. split; [eauto|]. left. split; auto. match goal with X : never_present _ T |- _ => intros j Lj; destruct (X j Lj) as (w & Uw & Aw) end. eauto.
    - right. split; [eauto|]. right. split; [eauto 10|]. match goal with X : usem _ _ _ _ _ _ (XThen b []) _ _ |- _ => inversion X; auto end.
  Qed.
End Run.

Theorem distinct_calls : forall p l nd, result (pipeline p) = Some l -> In nd (nodes_of l) ->
  NoDup (flat_map calls_of (flat_map computed (n_stmts nd))).
Proof.
  intros p l nd H I. destruct (compiled_ids _ _ _ H I) as (P & _). eapply Permutation_NoDup; [symmetry; exact P|]. apply seq_NoDup.
Qed.
