(** Proofs about exported nodes and extern declarations of nodes. *)
From Coq Require Import String List ZArith Bool Arith Lia.
From Coq Require Import Floats.SpecFloat.
From Verif Require Import Model.Base Model.Scalar Model.Value Model.History Model.Register Model.Ast Model.Interp Model.Options
  Model.Causality Model.Names Model.Codegen Model.Trace
  Spec.StepSpec Spec.ProgramSem Spec.TraceSpec Proofs.AstInd Proofs.InterpBasics Proofs.Reorder Proofs.TraceText Proofs.Traces.
Import ListNotations.

Definition singles (l : list tyvar) : list vartuple := map (fun y => VTSingle (v_name y)) l.

(** The loop of [bind_target]. *)
Fixpoint bind_all (l : list tyvar) (vs : list val) (st : store) : res store :=
  match l, vs with
  | [], [] => Ok st
  | x :: l, VS n :: vs => bind_all l vs ((v_name x, n) :: st)
  | _, _ => Panic PType
  end.
Lemma bind_mult : forall l v st, 2 <= length l ->
  bind_target (VTMult (singles l)) v st = match v with VS _ => Panic PType | VT vs => bind_all l vs st end.
Proof.
  intros l v st L. destruct l as [|a [|b l]]; [simpl in L; lia|simpl in L; lia|].
  cbn [singles map bind_target]. destruct v as [|vs]; auto.
  assert (G : forall l vs st, (fix go (l : list vartuple) (vs : list val) (st : store) : res store :=
             match l, vs with
             | [], [] => Ok st
             | t :: l, v :: vs => st <- bind_target t v st;; go l vs st
             | _, _ => Panic PType
             end) (singles l) vs st = bind_all l vs st).
  { clear. induction l as [|a l IH]; intros [|v vs] st; simpl; auto. destruct v; simpl; auto. }
  apply (G (a :: b :: l)).
Qed.

Lemma bind_one : forall a v st, bind_target (VTMult (singles [a])) v st = match v with VS n => Ok ((v_name a, n) :: st) | VT _ => Panic PType end.
Proof. reflexivity. Qed.

Lemma bind_all_shape : forall l l' vs st st', length l = length l' ->
  (forall e, bind_all l vs st = Panic e -> bind_all l' vs st' = Panic e).
Proof.
  induction l as [|a l IH]; intros [|a' l'] vs st st' L e E; try discriminate; destruct vs as [|[n|] vs]; simpl in *; try congruence.
  eapply IH; [|exact E]. congruence.
Qed.

Lemma inputs_shape : forall l l' v e, length l = length l' -> bind_inputs l v = Panic e -> bind_inputs l' v = Panic e.
Proof.
  intros l l' v e L E. unfold bind_inputs in *. destruct l as [|a [|b l]]; destruct l' as [|a' [|b' l']]; try discriminate; auto.
  - change (bind_target (VTMult (singles [a])) v [] = Panic e) in E. change (bind_target (VTMult (singles [a'])) v [] = Panic e).
    rewrite bind_one in *. destruct v; auto; discriminate.
  - change (bind_target (VTMult (singles (a :: b :: l))) v [] = Panic e) in E. change (bind_target (VTMult (singles (a' :: b' :: l'))) v [] = Panic e).
    rewrite bind_mult in *; try (simpl; lia). destruct v; auto. eapply bind_all_shape; [|exact E]. auto.
Qed.

(** Binding the answer and reading it back. *)
Definition ext_bind (outs : list tyvar) (v : val) (st : store) : res store :=
  match outs with [] => Ok st | outs => bind_target (VTMult (singles outs)) v st end.

Lemma bind_all_ok : forall l ns st, length l = length ns -> NoDup (map v_name l) ->
  exists st', bind_all l (map VS ns) st = Ok st' /\ mapM (var_value st') l = Ok (map VS ns) /\ (forall x, ~ In x (map v_name l) -> lookup x st' = lookup x st).
Proof.
  induction l as [|a l IH]; intros [|n ns] st L N; try discriminate; [eexists; repeat split|].
  inversion N; subst. simpl in L. destruct (IH ns ((v_name a, n) :: st)) as (st' & E & M & K); auto. exists st'. simpl. split; auto. split.
  - assert (E0 : lookup (v_name a) st' = Some n). { rewrite K; auto. simpl. rewrite String.eqb_refl. auto. }
    unfold var_value at 1. rewrite E0. cbn [of_option bind]. rewrite M. auto.
  - intros x J. rewrite K; [|tauto]. simpl. destruct (String.eqb_spec x (v_name a)); auto. subst. exfalso. auto.
Qed.

Lemma ext_bind_ok : forall outs ns st, length outs = length ns -> NoDup (map v_name outs) ->
  exists st', ext_bind outs (tuple_val (map VS ns)) st = Ok st' /\ read_outputs outs st' = Ok (tuple_val (map VS ns)) /\
    (forall x, ~ In x (map v_name outs) -> lookup x st' = lookup x st) /\
    (forall x, In x (map v_name outs) -> lookup x st' <> None).
Proof.
  intros outs ns st L N.
  assert (B : forall outs vs st', mapM (var_value st') outs = Ok vs -> forall x, In x (map v_name outs) -> lookup x st' <> None).
  { clear. induction outs as [|a outs IH]; intros vs st' M x I; [destruct I|]. cbn [mapM] in M. inv_ok.
    destruct I as [<-|I]; [|eapply IH; eauto]. unfold var_value in E. inv_ok. congruence. }
  destruct (bind_all_ok outs ns st L N) as (st' & E & M & K).
  exists st'. split; [|split; [|split; [auto|eapply B; eauto]]].
  - destruct outs as [|a [|b outs]]; destruct ns as [|n [|m ns]]; try discriminate; auto.
    unfold ext_bind. rewrite bind_mult by (simpl; lia). auto.
  - unfold read_outputs. rewrite M. auto.
Qed.

Lemma forall2_length : forall {A B} (R : A -> B -> Prop) l l', Forall2 R l l' -> length l = length l'.
Proof. induction 1; simpl; congruence. Qed.

Section Wrap.
  Variables (fshow : spec_float -> string) (mode : ovf) (glob : ident -> option scalar).

  Lemma tstep_answer : forall p f o nd i v l r i', traced p f = Some (o, nd) -> first_is_nil v = false ->
    tstep fshow mode glob p f i v = (l, Ok (r, i')) ->
    exists ns, length (n_outputs nd) = length ns /\ r = tuple_val (map VS ns).
  Proof.
    induction p as [|(o', nd') p IH]; intros f o nd i v l r i' F V H; [discriminate|]. cbn [traced] in F. cbn [tstep] in H.
    destruct (String.eqb f (n_name nd')); [|eauto]. inversion F; subst. clear F IH. unfold tnode_step in H. rewrite V in H. destruct i as [clk hists regs flips subs].
    apply tbind_ok in H. destruct H as (o1 & st & o2 & _ & H & ->).
    apply tbind_ok in H. destruct H as (o3 & u & o4 & _ & H & ->).
    apply tbind_ok in H. destruct H as (body & (st', regs', (flips', subs')) & o6 & _ & H & ->).
    apply tbind_ok in H. destruct H as (o7 & u' & o8 & _ & H & ->).
    apply tbind_ok in H. destruct H as (o9 & h & o10 & _ & H & ->).
    apply tbind_ok in H. destruct H as (o11 & out & o12 & E3 & H & ->). apply lift_ok in E3. destruct E3 as [_ E3]. inversion H; subst.
    apply row_outputs in E3. destruct E3 as (ns & E & ->). exists ns. split; auto. apply forall2_length in E. rewrite map_length in E. auto.
  Qed.

  Lemma tstep_inputs : forall p f o nd i v e, traced p f = Some (o, nd) -> first_is_nil v = false ->
    bind_inputs (n_inputs nd) v = Panic e -> tstep fshow mode glob p f i v = ([], Panic e).
  Proof.
    induction p as [|(o', nd') p IH]; intros f o nd i v e F V H; [discriminate|]. cbn [traced] in F. cbn [tstep].
    destruct (String.eqb f (n_name nd')); [|eauto]. inversion F; subst. unfold tnode_step. rewrite V, H. destruct i. auto.
  Qed.

  Lemma export_same : forall p f o nd i v, traced p f = Some (o, nd) ->
    export_step fshow mode glob p f (n_outputs nd) i v = tstep fshow mode glob p f i v.
  Proof.
    intros p f o nd i v F. unfold export_step. destruct (first_is_nil v) eqn:V; auto. rewrite (tstep_absent _ _ _ _ _ _ _ _ _ F V). auto.
  Qed.

  Section Ext.
    Variables (p : tprog) (f : ident) (o1 : option trace_opt) (nd : node).
    Hypothesis F : traced p f = Some (o1, nd).
    Variables (o : option trace_opt) (x : ident) (ins outs : list tyvar).
    Hypothesis Lins : length ins = length (n_inputs nd).
    Hypothesis Louts : length outs = length (n_outputs nd).
    Hypothesis N : NoDup (map v_name (ins ++ outs)).
    Hypothesis P : ext_printable o ins outs.
    Notation wrapped := (ext_step fshow (export_step fshow mode glob p f (n_outputs nd)) o x ins outs).

    Lemma vars_nil_length : forall l l' : list tyvar, length l = length l' -> vars_nil l = vars_nil l'.
    Proof.
      intros l l' L. destruct l as [|a [|b l]]; destruct l' as [|a' [|b' l']]; try discriminate; auto.
      unfold vars_nil. f_equal. simpl in *. do 2 f_equal. assert (L' : length l = length l') by congruence. clear -L'.
      revert l' L'. induction l as [|a l IH]; intros [|b l'] L; simpl in *; try discriminate; auto. f_equal. auto.
    Qed.

    Lemma wrapped_step : forall i clk v,
      snd (wrapped (i, clk) v) =
        ('(r, i') <- snd (tstep fshow mode glob p f i v);; Ok (r, (i', if first_is_nil v then clk else S clk))) /\
      (o = None -> fst (wrapped (i, clk) v) = fst (tstep fshow mode glob p f i v)).
    Proof.
      intros i clk v. unfold ext_step. rewrite (export_same _ _ _ _ _ _ F). destruct (first_is_nil v) eqn:V.
      - rewrite (tstep_absent _ _ _ _ _ _ _ _ _ F V). simpl. rewrite (vars_nil_length outs (n_outputs nd)); auto.
      - destruct (bind_inputs ins v) as [st|e] eqn:B.
        2:{ rewrite (tstep_inputs _ _ _ _ _ _ e F V); [auto|]. apply (inputs_shape ins); auto. }
        cbn [lift tbind].
        assert (T1 : exists l, trace fshow o true "[ext] " x clk st ins ins = (l, Ok tt) /\ (o = None -> l = [])).
        { destruct o as [(file, (ifmt, ofmt))|]; [|exists []; auto]. destruct P as [P1 _].
          destruct (trace_prints fshow file ifmt ofmt true "[ext] " x clk st ins ins) as (s & T); auto.
          - intros y J. apply (inputs_bound _ _ _ B). apply in_map. auto.
          - eexists. split; [exact T|discriminate]. }
        destruct T1 as (l1 & T1 & Z1). cbv zeta. rewrite T1. cbn [tbind]. clear T1.
        destruct (tstep fshow mode glob p f i v) as [l [(r, i')|e]] eqn:Tr.
        2:{ cbn [tbind snd fst bind app]. split; auto. intros Ho. rewrite Z1; auto. }
        destruct (tstep_answer _ _ _ _ _ _ _ _ _ F V Tr) as (ns & Lns & ->).
        assert (No : NoDup (map v_name outs)). { rewrite map_app in N. clear -N. induction (map v_name ins); simpl in N; auto. inversion N; auto. }
        destruct (ext_bind_ok outs ns st) as (st' & E & Rd & K1 & K2); [congruence|auto|].
        cbn [tbind].
        change (match outs with [] => Ok st | _ :: _ => bind_target (VTMult (map (fun y => VTSingle (v_name y)) outs)) (tuple_val (map VS ns)) st end)
          with (ext_bind outs (tuple_val (map VS ns)) st).
        rewrite E. cbn [lift tbind].
        assert (T2 : exists l, trace fshow o false "[ext] " x clk st' outs (ins ++ outs) = (l, Ok tt) /\ (o = None -> l = [])).
        { destruct o as [(file, (ifmt, ofmt))|]; [|exists []; auto]. destruct P as [_ P2].
          destruct (trace_prints fshow file ifmt ofmt false "[ext] " x clk st' outs (ins ++ outs)) as (s & T); auto.
          - intros y J. destruct (in_dec string_dec (v_name y) (map v_name outs)) as [I|I]; [apply K2; auto|].
            rewrite K1 by auto. apply in_app_iff in J. destruct J as [J|J]; [|exfalso; apply I; apply in_map; auto].
            apply (inputs_bound _ _ _ B). apply in_map. auto.
          - eexists. split; [exact T|discriminate]. }
        destruct T2 as (l2 & T2 & Z2). rewrite T2. cbn [tbind]. rewrite Rd. cbn [tbind lift tret fst snd bind app]. split; auto.
        intros Ho. rewrite Z1, Z2; auto. rewrite !app_nil_r. auto.
    Qed.

    Theorem wrapped_run : forall vs i clk,
      snd (iterate wrapped (i, clk) vs) =
        ('(rs, i') <- snd (trun fshow mode glob p f i vs);; Ok (rs, (i', clk + actives vs))) /\
      (o = None -> fst (iterate wrapped (i, clk) vs) = fst (trun fshow mode glob p f i vs)).
    Proof.
      induction vs as [|v vs IH]; intros i clk.
      - cbn. rewrite Nat.add_0_r. auto.
      - cbn [iterate trun]. destruct (wrapped_step i clk v) as [W1 W2].
        destruct (wrapped (i, clk) v) as [l1 [(r, (i1, clk1))|e]]; destruct (tstep fshow mode glob p f i v) as [l [(r', i')|e']];
          cbn [snd bind fst] in W1, W2; try discriminate; inversion W1; subst.
        + cbn [tbind]. destruct (IH i' (if first_is_nil v then clk else S clk)) as [V1 V2].
          destruct (iterate wrapped _ vs) as [l2 [(rs, (i2, clk2))|e2]]; destruct (trun fshow mode glob p f i' vs) as [l3 [(rs', i3)|e3]];
            cbn [snd bind fst] in V1, V2; try discriminate; inversion V1; subst; cbn [tbind snd fst bind tret].
          * split; [|intros Ho; rewrite W2, V2; auto]. do 3 f_equal. unfold actives. cbn [filter]. destruct (first_is_nil v); cbn [negb length]; auto; lia.
          * split; auto. intros Ho. rewrite W2, V2; auto.
        + cbn [tbind snd fst bind]. auto.
    Qed.
  End Ext.
End Wrap.

(** What a traced extern declaration prints, around any computation. *)
Theorem ext_step_lines : forall fshow (St : Type) (inner : St -> val -> tres (val * St)) o x ins outs s clk v l r s' clk',
  NoDup (map v_name ins) -> first_is_nil v = false ->
  ext_step fshow inner (Some o) x ins outs (s, clk) v = (l, Ok (r, (s', clk'))) ->
  ext_lines fshow o x ins outs clk v r (fst (inner s v)) l /\ clk' = S clk.
Proof.
  intros fshow St inner (file, (ifmt, ofmt)) x ins outs s clk v l r s' clk' N V H. unfold ext_step in H. rewrite V in H.
  apply tbind_ok in H. destruct H as (o1 & st & o2 & E1 & H & ->). apply lift_ok in E1. destruct E1 as [-> E1].
  apply tbind_ok in H. destruct H as (o3 & u & o4 & T1 & H & ->).
  apply tbind_ok in H. destruct H as (body & (w, s1) & o6 & X & H & ->). rewrite X. cbn [fst].
  apply tbind_ok in H. destruct H as (o7 & st' & o8 & E2 & H & ->). apply lift_ok in E2. destruct E2 as [-> E2].
  apply tbind_ok in H. destruct H as (o9 & u' & o10 & T2 & H & ->).
  apply tbind_ok in H. destruct H as (o11 & out & o12 & E3 & H & ->). apply lift_ok in E3. destruct E3 as [-> E3].
  inversion H; subst. split; [|reflexivity].
  apply trace_shown in T1. destruct T1 as (first & -> & T1). apply trace_shown in T2. destruct T2 as (last & -> & T2).
  rewrite app_nil_r. cbn [app].
  exists first, last, (fun x => lookup x st), (fun x => lookup x st'). split; auto.
  split; [apply matches_inputs; auto|]. split; auto. split; [|split; [apply row_outputs; auto|auto]].
  intros y J. destruct outs as [|a outs]; [inversion E2; auto|].
  destruct (bind_target_prefix (fun _ => None) 0 (fun _ _ _ => Panic PType) (fun _ => Panic PType) _ _ _ _ E2) as (b & -> & B & _). rewrite lookup_app2.
  destruct (lookup y b) eqn:L; auto. exfalso. apply J.
  assert (I : In y (map fst b)) by (clear -L; induction b as [|(k, n') b IH]; simpl in *; [discriminate|]; destruct (String.eqb_spec y k); auto). apply B in I. revert I. clear.
  change (In y (flat_map target_vars (map (fun y => VTSingle (v_name y)) (a :: outs))) -> In y (map v_name (a :: outs))).
  generalize (a :: outs) as l. induction l as [|b l IH]; simpl; auto. intros [->|I]; auto.
Qed.
