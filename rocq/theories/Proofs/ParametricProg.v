(** Nodes and programs do not look at values of generic types. *)
From Coq Require Import String List ZArith Bool Arith Lia.
From Verif Require Import Model.Base Model.Scalar Model.Value Model.History Model.Register Model.Ast Model.Errors Model.Interp Model.Options Model.Surface
  Model.Translate Model.Typecheck Model.Causality Model.Pipeline Model.Extern
  Spec.RuntimeSpec Spec.StepSpec Spec.CausalitySpec Spec.OrderSpec Spec.ProgramSem Spec.TypeSpec Spec.SafetySpec Spec.ExternSem Spec.GenericSpec
  Proofs.AstInd Proofs.InterpBasics Proofs.OutBasics Proofs.RuntimeProofs Proofs.CoreProofs Proofs.CoreNode Proofs.Unify Proofs.TypeEval Proofs.TypeExec Proofs.TypeProg
  Proofs.TypePipeline Proofs.ExternTypes Proofs.Wrappers Proofs.ExternBasics Proofs.Parametric.
Import ListNotations.

(** ** Rows *)
Lemma rel_flat_mult : forall R l v w, rel R (flat l) v w -> rel R (TMult (map TSingle l)) v w.
Proof. intros R [|b [|b' l]] v w H; auto. apply rl_single. exact H. Qed.
Lemma rels_singles : forall R l vs ws, rels R (map TSingle l) vs ws <-> exists ns ms, vs = map VS ns /\ ws = map VS ms /\ all_stand R l ns ms.
Proof.
  intros R. induction l as [|b l IH]; intros vs ws; split.
  - intros H. inversion H; subst. exists [], []. repeat split; auto. constructor.
  - intros (ns & ms & -> & -> & H). inversion H; subst. constructor.
  - intros H. inversion H as [|? ? ? ? ? ? A B]; subst. inversion A; subst. apply IH in B. destruct B as (ns & ms & -> & -> & B).
    exists (n :: ns), (m :: ms). repeat split; auto. constructor; auto.
  - intros (ns & ms & -> & -> & H). inversion H; subst. cbn. constructor; [constructor; auto|]. apply IH. eauto 6.
Qed.
Lemma rel_flat : forall R l v w, rel R (flat l) v w <-> row_stands R l v w.
Proof.
  intros R l v w. destruct l as [|b [|b' l]].
  - cbn. split; [intros H; inversion H; subst; eauto|]. intros (n & -> & ->). constructor.
  - cbn. split.
    + intros H. inversion H; subst. exists [n], [m]. repeat split; auto. constructor; auto. constructor.
    + intros (ns & ms & -> & -> & H). inversion H as [|? ? ? ? ? ? A B]; subst. inversion B; subst. cbn. constructor. auto.
  - change (flat (b :: b' :: l)) with (TMult (map TSingle (b :: b' :: l))). unfold row_stands. split.
    + intros H. assert (K : exists vs ws, v = VT vs /\ w = VT ws /\ rels R (map TSingle (b :: b' :: l)) vs ws).
      { inversion H; subst. do 2 eexists. repeat split. constructor; eauto. }
      destruct K as (vs & ws & -> & -> & K). apply rels_singles in K. destruct K as (ns & ms & -> & -> & K). exists ns, ms.
      inversion K as [|? ? ? ? ? ? A B]; subst. inversion B; subst. repeat split; auto.
    + intros (ns & ms & -> & -> & K). apply rel_tuple_val. apply rels_singles. eauto 6.
Qed.

Definition inst_of (R : relation) (s : ident -> base) : relation := fun x => stands R (s x).
Lemma stands_inst : forall R s b x y, stands R (inst_base s b) x y <-> stands (inst_of R s) b x y.
Proof. intros R s [] x y; reflexivity. Qed.
Lemma nstands_inst : forall R s b n m, nstands R (inst_base s b) n m <-> nstands (inst_of R s) b n m.
Proof. intros R s b [x|] [y|]; cbn; try reflexivity. apply stands_inst. Qed.
Lemma all_inst : forall R s l ns ms, all_stand R (map (inst_base s) l) ns ms <-> all_stand (inst_of R s) l ns ms.
Proof.
  intros R s. induction l as [|b l IH]; intros ns ms; split; intros H; inversion H; subst; cbn [map]; constructor; try (apply nstands_inst; auto); try (apply IH; auto).
Qed.
Lemma rel_inst : forall R s l v w, rel R (inst_type s l) v w <-> rel (inst_of R s) (flat (map v_base l)) v w.
Proof.
  intros R s l v w. unfold inst_type. rewrite !rel_flat. unfold row_stands. destruct l as [|a l]; cbn [map]; [reflexivity|].
  split; intros (ns & ms & A & B & C); exists ns, ms; repeat split; auto; apply (all_inst R s (v_base a :: map v_base l)); auto.
Qed.

Lemma rel_vars_nil : forall R l, rel R (flat (map v_base l)) (vars_nil l) (vars_nil l).
Proof.
  intros R l. destruct l as [|a [|b l]]; cbn; try (constructor; cbn; auto; fail). constructor; [constructor; cbn; auto|].
  constructor; [constructor; cbn; auto|]. induction l; cbn; constructor; auto. constructor. cbn. auto.
Qed.

(** ** Instances *)
Definition sub_rel (good : ident -> relation -> inst -> inst -> Prop) (nd : node) (sg : list (ident -> base)) (R : relation) (id : nat) (a b : inst) : Prop :=
  forall g s, nth_error (n_blocks nd) id = Some g -> nth_error sg id = Some s -> good g (inst_of R s) a b.
Definition node_rel (gl : ident -> option base) (F : signature) (good : ident -> relation -> inst -> inst -> Prop)
    (nd : node) (sg : list (ident -> base)) (R : relation) (i j : inst) : Prop :=
  let 'Inst clk hists regs flips subs := i in
  let 'Inst clk' hists' regs' flips' subs' := j in
  clk = clk' /\ hists_rel R (node_ctx gl F nd sg) hists hists' /\ regs_rel R (node_ctx gl F nd sg) regs regs' /\ flips = flips' /\
  forall id, opt2 (sub_rel good nd sg R id) (nth_error subs id) (nth_error subs' id).

Fixpoint inst_rel (gl : ident -> option base) (P : list tnode) (f : ident) (R : relation) (i j : inst) : Prop :=
  match P with
  | [] => False
  | (d, sg) :: P =>
      if String.eqb f (item_name d) then
        match d with
        | INode nd => node_rel gl (sig_of P) (inst_rel gl P) nd sg R i j
        | IExt _ ins _ => exists past past' clk, i = ext_inst past clk /\ j = ext_inst past' clk /\
            Forall2 (rel R (flat (map v_base ins))) past past'
        end
      else inst_rel gl P f R i j
  end.

Lemma update_rel : forall R b h h' n n', Forall2 (nstands R b) (hlist h) (hlist h') -> nstands R b n n' ->
  Forall2 (nstands R b) (hlist (update h n)) (hlist (update h' n')).
Proof.
  intros R b h h' n n' H N. rewrite !hlist_update. assert (K : Forall2 (nstands R b) (n :: hlist h) (n' :: hlist h')) by (constructor; auto).
  revert K. generalize (n :: hlist h) (n' :: hlist h'). clear. induction 1 as [|x y l l' A B IH]; [constructor|].
  cbn. destruct B; constructor; auto.
Qed.

Lemma lookup_known : forall v l, In v l -> exists b, lookup (v_name v) (map (fun v => (v_name v, v_base v)) l) = Some b.
Proof.
  induction l as [|w l IH]; intros J; [destruct J|]. cbn. destruct (String.eqb_spec (v_name v) (v_name w)); eauto.
  destruct J as [->|J]; [congruence|auto].
Qed.

Section Steps.
  Variable mode : ovf.
  Variable glob : ident -> option scalar.
  Variable gl : ident -> option base.
  Hypothesis Hgl : forall x b, gl x = Some b -> concrete b.

  Lemma node_step_rel : forall (F : signature) (good : ident -> relation -> inst -> inst -> Prop) call nilc,
    (forall g ins outs, F g = Some (ins, outs) -> nilc g = Ok (vars_nil outs) /\
       forall R i j v w, good g R i j -> rel R (flat (map v_base ins)) v w ->
         alike (fun a b => rel R (flat (map v_base outs)) (fst a) (fst b) /\ good g R (snd a) (snd b)) (call g i v) (call g j w)) ->
    forall nd sg R i j v w, loose_node gl F nd sg -> node_rel gl F good nd sg R i j -> rel R (in_type nd) v w ->
    let st := node_step mode glob (fun id i v => match nth_error (n_blocks nd) id with Some g => call g i v | None => Panic PType end)
            (fun id => g <- of_option PType (nth_error (n_blocks nd) id);; nilc g) nd in
    alike (fun a b => rel R (out_type nd) (fst a) (fst b) /\ node_rel gl F good nd sg R (snd a) (snd b)) (st i v) (st j w).
  Proof.
    intros F good call nilc IH nd sg R [clk hists regs flips subs] [clk' hists' regs' flips' subs'] v w W I V.
    destruct I as (<- & Hh & Hr & <- & Hs). destruct W as [W1 W2 W3 W4 W5]. cbn zeta. unfold node_step.
    rewrite (rel_first_nil _ _ _ _ V). destruct (first_is_nil w).
    { apply alike_ok. cbn [fst snd]. split; [apply rel_vars_nil|]. cbn. auto 8. }
    set (G := node_ctx gl F nd sg) in *.
    eapply (alike_bind (store_rel R G)).
    { unfold bind_inputs. unfold in_type in V. destruct (n_inputs nd) as [|a l] eqn:Ei.
      - cbn. intros x b X. cbn. auto.
      - rewrite <- Ei in *. eapply bind_rel; [|apply rel_flat_mult; exact V|intros x b X; cbn; auto].
        constructor. assert (Sub : forall x, In x (n_inputs nd) -> In x (all_vars nd)) by (intros; unfold all_vars; apply in_or_app; auto).
        revert Sub. generalize (n_inputs nd). clear -W3. induction l; cbn [map]; intros Sub; constructor.
        + constructor. cbn. apply var_types_in; auto. apply Sub; cbn; auto.
        + apply IHl. intros; apply Sub; cbn; auto. }
    intros st st' S0.
    assert (HC : forall id tin tout, x_blocks G id = Some (tin, tout) ->
      (forall i j v w, sub_rel good nd sg R id i j -> rel R tin v w ->
         alike (answer_rel R (sub_rel good nd sg R) id tout) (match nth_error (n_blocks nd) id with Some g => call g i v | None => Panic PType end)
           (match nth_error (n_blocks nd) id with Some g => call g j w | None => Panic PType end)) /\
      alike (rel R tout) (g <- of_option PType (nth_error (n_blocks nd) id);; nilc g) (g <- of_option PType (nth_error (n_blocks nd) id);; nilc g)).
    { intros id tin tout X. cbn in X. unfold block_types in X.
      destruct (nth_error (n_blocks nd) id) as [g|] eqn:Eg; [|discriminate].
      destruct (nth_error sg id) as [s|] eqn:Es; [|discriminate].
      destruct (F g) as [[ins outs]|] eqn:Ef; [|discriminate]. inversion X; subst. destruct (IH _ _ _ Ef) as [IH1 IH2]. split.
      - intros i j v1 w1 So T1. eapply alike_weaken; [apply IH2; [apply (So g s); auto|apply rel_inst; exact T1]|].
        intros [o i'] [o' j'] [A B]. split; [apply rel_inst; exact A|]. intros g' s' Eg' Es'.
        assert (g' = g) by congruence. assert (s' = s) by congruence. subst. exact B.
      - cbn [of_option bind]. rewrite IH1. cbn. apply rel_inst. apply rel_vars_nil. }
    eapply alike_bind.
    { apply (execs_rel mode glob clk hists hists' _ _ R G (sub_rel good nd sg R)) with (l := n_stmts nd) (a := mkSs st regs (mkEs flips subs)) (b := mkSs st' regs' (mkEs flips subs')); auto.
      split; [|split]; cbn; auto. split; auto. }
    intros [st1 regs1 [flips1 subs1]] [st2 regs2 [flips2 subs2]] (K1 & K2 & K3 & K4). cbn [ss_store ss_regs ss_es es_flips es_subs] in *. subst flips2.
    eapply (alike_bind (hists_rel R G)).
    { assert (Kn : forall x, In x (all_vars nd) -> exists b, x_vars G (v_name x) = Some b) by (intros x J; apply lookup_known; auto).
      revert Hh Kn. clear - K1. intros Hh. revert hists hists' Hh. induction (all_vars nd) as [|x l IHl]; intros hs hs' Hh Kn; cbn [update_vars]; auto.
      eapply (alike_bind (hists_rel R G)); [|intros; apply IHl; auto; intros; apply Kn; cbn; auto].
      unfold update_var. destruct (v_depth x =? 0); [exact Hh|]. destruct (Kn x) as (b & Xb); [cbn; auto|].
      eapply alike_bind; [apply alike_option, (K1 _ _ Xb)|]. intros n m N. cbn. intros y c Xc. rewrite !lookup_map_update. specialize (Hh _ _ Xc).
      destruct (lookup y hs), (lookup y hs'); cbn in *; try tauto. destruct (String.eqb_spec (v_name x) y); auto.
      apply update_rel; auto. subst. congruence. }
    intros hs hs' Hh'. unfold read_outputs.
    eapply (alike_bind (rel R (out_type nd))).
    { eapply (alike_bind (rels R (map TSingle (map v_base (n_outputs nd))))).
      - assert (Sub : forall x, In x (n_outputs nd) -> In x (all_vars nd)) by (intros; unfold all_vars; rewrite !in_app_iff; auto).
        revert Sub. generalize (n_outputs nd). clear -K1 W3. induction l as [|x l IHl]; intros Sub; cbn [mapM map]; [constructor|].
        eapply (alike_bind (rel R (TSingle (v_base x)))).
        + unfold var_value. eapply alike_bind; [apply alike_option, (K1 _ (v_base x))|intros; constructor; auto].
          cbn. apply var_types_in; auto. apply Sub; cbn; auto.
        + intros a b A. eapply alike_bind; [apply IHl; intros; apply Sub; cbn; auto|]. intros. constructor; auto.
      - intros vs ws A. cbn. apply rel_flat. apply rels_singles in A. destruct A as (ns & ms & -> & -> & A). unfold row_stands.
        destruct (map v_base (n_outputs nd)); [inversion A; subst; exists (Defined SUnit); auto|eauto 6]. }
    intros o o' O. apply alike_ok. cbn [fst snd]. split; auto. cbn. split; auto. split; auto. split; auto.
    intros id t X. specialize (K2 _ _ X). rewrite !nth_error_map. destruct (nth_error regs1 id), (nth_error regs2 id); cbn in *; try tauto.
    destruct K2 as (A & B & C). repeat split; auto.
  Qed.

  Variable ext : ident -> behaviour.
  Variable X : ident -> list tyvar -> list tyvar -> Prop.
  Hypothesis Hext : forall x ins outs, X x ins outs -> forall R past past' v v',
    Forall2 (rel R (flat (map v_base ins))) past past' -> rel R (flat (map v_base ins)) v v' ->
    alike (rel R (flat (map v_base outs))) (ext x past v) (ext x past' v').

  Lemma all_length : forall R l ns ms, all_stand R l ns ms -> length ns = length l /\ length ms = length l.
  Proof. induction 1; cbn; split; auto; destruct IHall_stand; congruence. Qed.
  Lemma rel_rows : forall R (l : list tyvar) v w, l <> [] -> rel R (flat (map v_base l)) v w ->
    exists ns ms, v = tuple_val (map VS ns) /\ w = tuple_val (map VS ms) /\ length l = length ns /\ length l = length ms.
  Proof.
    intros R l v w Ne H. apply rel_flat in H. destruct l as [|a l]; [tauto|]. destruct H as (ns & ms & -> & -> & H). exists ns, ms.
    destruct (all_length _ _ _ _ H) as [A B]. change (v_base a :: map v_base l) with (map v_base (a :: l)) in *. rewrite map_length in *. auto.
  Qed.
  Lemma inputs_bind : forall R ins v w, NoDup (map v_name ins) -> rel R (flat (map v_base ins)) v w ->
    exists st st', bind_inputs ins v = Ok st /\ bind_inputs ins w = Ok st'.
  Proof.
    intros R ins v w N H. unfold bind_inputs. destruct ins as [|a l]; [eauto|].
    destruct (rel_rows R (a :: l) v w) as (ns & ms & -> & -> & L1 & L2); [congruence|auto|].
    destruct (ext_bind_ok (a :: l) ns [] L1 N) as (st & E & _). destruct (ext_bind_ok (a :: l) ms [] L2 N) as (st' & E' & _). exists st, st'. split; [exact E|exact E'].
  Qed.

  Lemma ext_rel : forall x ins outs R past past' clk v w, NoDup (map v_name ins) -> NoDup (map v_name outs) -> X x ins outs ->
    Forall2 (rel R (flat (map v_base ins))) past past' -> rel R (flat (map v_base ins)) v w ->
    alike (fun a b => rel R (flat (map v_base outs)) (fst a) (fst b) /\
        exists past past' clk, snd a = ext_inst past clk /\ snd b = ext_inst past' clk /\ Forall2 (rel R (flat (map v_base ins))) past past')
      (xext (ext x) x ins outs (ext_inst past clk) v) (xext (ext x) x ins outs (ext_inst past' clk) w).
  Proof.
    intros x ins outs R past past' clk v w Ni No Xx Tp Tv. destruct (first_is_nil w) eqn:W.
    - rewrite !xext_absent by (auto; rewrite (rel_first_nil _ _ _ _ Tv); auto). apply alike_ok. cbn [fst snd]. split; [apply rel_vars_nil|]. eauto 8.
    - rewrite !xext_present by (auto; rewrite (rel_first_nil _ _ _ _ Tv); auto).
      destruct (inputs_bind _ _ _ _ Ni Tv) as (st & st' & -> & ->). cbn [bind].
      eapply alike_bind; [eapply Hext; eauto|]. intros o o' To.
      assert (Nx : Forall2 (rel R (flat (map v_base ins))) (past ++ [v]) (past' ++ [w])) by (apply Forall2_app; auto).
      destruct outs as [|a outs].
      + cbn. split; [constructor|]. eauto 8.
      + destruct (rel_rows R (a :: outs) o o') as (ns & ms & -> & -> & L1 & L2); [congruence|auto|].
        destruct (ext_bind_ok (a :: outs) ns st L1 No) as (s1 & -> & E1 & _). destruct (ext_bind_ok (a :: outs) ms st' L2 No) as (s2 & -> & E2 & _).
        cbn [bind]. rewrite E1, E2. cbn [bind]. apply alike_ok. cbn [fst snd]. split; auto. eauto 8.
  Qed.

  Lemma step_rel : forall P, loose_prog gl X P -> forall f R i j v w d, find_item (plain P) f = Some d ->
    inst_rel gl P f R i j -> rel R (flat (map v_base (item_inputs d))) v w ->
    alike (fun a b => rel R (flat (map v_base (item_outputs d))) (fst a) (fst b) /\ inst_rel gl P f R (snd a) (snd b))
      (xstep mode glob ext (plain P) f i v) (xstep mode glob ext (plain P) f j w).
  Proof.
    induction P as [|[d sg] P IH]; intros T f R i j v w d0 Ef I V; [discriminate|].
    assert (Tp : loose_prog gl X P) by (destruct d; cbn in T; tauto). specialize (IH Tp).
    cbn [plain map fst find_item] in Ef. cbn [inst_rel] in *. cbn [plain map fst xstep]. destruct (String.eqb f (item_name d)) eqn:E; [|eapply IH; eauto].
    inversion Ef; subst d0. destruct d as [nd|x ins outs]; cbn [item_inputs item_outputs] in *.
    - destruct T as [Tn _]. apply (node_step_rel (sig_of P) (inst_rel gl P) (xstep mode glob ext (plain P)) (xnil_outputs (plain P))); auto.
      intros g ins outs Q. unfold sig_of in Q. destruct (find_item (plain P) g) as [d|] eqn:Fd; [|discriminate]. inversion Q; subst.
      split; [unfold xnil_outputs; rewrite Fd; reflexivity|]. intros R' i' j' v' w' Gd Tv. eapply IH; eauto.
    - destruct T as (Ni & No & Xx & _). destruct I as (past & past' & clk & -> & -> & A). apply ext_rel; auto.
  Qed.

  Lemma run_rel : forall P f d R, loose_prog gl X P -> find_item (plain P) f = Some d ->
    forall ins ins', Forall2 (rel R (flat (map v_base (item_inputs d)))) ins ins' -> forall i j, inst_rel gl P f R i j ->
    alike (fun a b => Forall2 (rel R (flat (map v_base (item_outputs d)))) (fst a) (fst b))
      (xrun mode glob ext (plain P) f i ins) (xrun mode glob ext (plain P) f j ins').
  Proof.
    intros P f d R T Ef ins ins' F. induction F as [|v w ins ins' V F IH]; intros i j I; cbn [xrun]; [constructor|].
    eapply alike_bind; [eapply step_rel; eauto|]. intros [o i1] [o' j1] [A B]. cbn in A, B.
    eapply alike_bind; [apply IH; eauto|]. intros [os i2] [os' j2] C. cbn in *. constructor; auto.
  Qed.

  Lemma init_rel : forall P, loose_prog gl X P -> forall f d, find_item (plain P) f = Some d ->
    exists i, xinit (plain P) f = Ok i /\ forall R, inst_rel gl P f R i i.
  Proof.
    induction P as [|[d sg] P IH]; intros T f d0 Ef; [discriminate|].
    assert (Tp : loose_prog gl X P) by (destruct d; cbn in T; tauto). specialize (IH Tp).
    cbn [plain map fst find_item xinit] in *. destruct (String.eqb f (item_name d)) eqn:E.
    - clear Ef. destruct d as [nd|x ins outs]; cbn [item_name] in E.
      2:{ exists (ext_inst [] 0). split; auto. intros R. cbn [inst_rel]. cbn [item_name]. rewrite E. exists [], [], 0. auto. }
      destruct T as [Tn _]. destruct Tn as [W1 W2 W3 W4 W5].
      assert (Rg : exists regs, mapM (fun t => t <- of_option PType t;; Ok (reg_default (ty_shape t))) (n_regs nd) = Ok regs /\
        forall id t, nth_error (n_regs nd) id = Some (Some t) -> nth_error regs id = Some (reg_default (ty_shape t))).
      { clear -W2. induction W2 as [|o l (t & ->) _ (regs & E & K)]; [exists []; split; auto; intros [|]; discriminate|].
        exists (reg_default (ty_shape t) :: regs). cbn [mapM of_option bind]. cbn [of_option bind] in E. rewrite E. cbn [bind]. split; auto.
        intros [|id] t' E'; cbn in E'; [inversion E'; subst; auto|]. cbn. auto. }
      destruct Rg as (regs & -> & Rg). cbn [bind].
      assert (Sb : exists subs, mapM (xinit (plain P)) (n_blocks nd) = Ok subs /\
        forall id g sub, nth_error (n_blocks nd) id = Some g -> nth_error subs id = Some sub -> forall R, inst_rel gl P g R sub sub).
      { clear -IH W5. induction (n_blocks nd) as [|g l IHl]; [exists []; cbn; split; auto; intros [|]; discriminate|].
        destruct IHl as (subs & E & K); [intros; apply W5; cbn; auto|].
        destruct (W5 g) as (ins & outs & Ef); [cbn; auto|]. unfold sig_of in Ef. destruct (find_item (plain P) g) as [d'|] eqn:Fd; [|discriminate].
        destruct (IH _ _ Fd) as (i & Ei & Ki).
        exists (i :: subs). cbn [mapM]. rewrite Ei. cbn [bind]. rewrite E. cbn. split; auto.
        intros [|id] g' sub Eg Es; cbn in Eg, Es; [inversion Eg; inversion Es; subst; auto|eauto]. }
      destruct Sb as (subs & Es & Sb). unfold plain in *. rewrite Es. cbn [bind]. eexists. split; [reflexivity|]. intros R.
      cbn [inst_rel item_name]. rewrite E. split; auto. split; [|split; [|split; auto]].
      + intros x b Xb. assert (Lk : forall l x, lookup x (flat_map (fun x => match v_depth x with 0 => [] | S d => [(v_name x, empty_hist d)] end) l) = None \/
          exists d, lookup x (flat_map (fun x => match v_depth x with 0 => [] | S d => [(v_name x, empty_hist d)] end) l) = Some (empty_hist d)).
        { induction l as [|w l IHl]; intros y; cbn; auto. destruct (v_depth w); cbn; auto. destruct (String.eqb y (v_name w)); eauto. }
        unfold init_hists. destruct (Lk (all_vars nd) x) as [->|(n & ->)]; cbn [opt2]; auto.
        rewrite hlist_empty. generalize (S n). induction n0; cbn; constructor; cbn; auto.
      + intros id t Xr. cbn in Xr. destruct (nth_error (n_regs nd) id) as [o|] eqn:Eo; [|discriminate]. subst o.
        rewrite (Rg _ _ Eo). cbn. split; [|split; auto]; cbn; apply rel_all_nil, rel_default.
      + intros id. destruct (nth_error subs id) as [sub|] eqn:En; cbn [opt2]; auto. intros g s Eg Es'. eapply Sb; eauto.
    - destruct (IH _ _ Ef) as (i & Ei & Ki). exists i. split; auto. intros R. cbn [inst_rel]. rewrite E. auto.
  Qed.
End Steps.

Lemma alike_iff : forall {A B} (Q Q' : A -> B -> Prop) x y, (forall a b, Q a b <-> Q' a b) -> alike Q x y -> alike Q' x y.
Proof. intros A B Q Q' x y E H. eapply alike_weaken; [exact H|]. intros. apply E. auto. Qed.
Lemma forall2_iff : forall {A B} (Q Q' : A -> B -> Prop) l m, (forall a b, Q a b -> Q' a b) -> Forall2 Q l m -> Forall2 Q' l m.
Proof. induction 2; constructor; auto. Qed.

Theorem generic_blind : forall mode glob ext p l, result (pipeline p) = Some l -> constants_ok p glob -> externs_blind p ext ->
  forall sn, In sn (source_nodes p) -> forall R ins ins', Forall2 (row_stands R (bases (s_inputs sn))) ins ins' ->
  alike (Forall2 (row_stands R (bases (s_outputs sn)))) (xoutputs mode glob ext (items_of l) (s_name sn) ins) (xoutputs mode glob ext (items_of l) (s_name sn) ins').
Proof.
  intros mode glob ext p l H Co Xo sn Is R ins ins' Fr.
  destruct (accepted_loose_prog _ _ H) as (gl & Q & EQ & TQ & Gl).
  destruct (found_item _ _ H _ Is) as (nd & Fi & Ti & To). rewrite <- EQ in *.
  change (flat (map v_base (n_inputs nd)) = flat (bases (s_inputs sn))) in Ti. change (flat (map v_base (n_outputs nd)) = flat (bases (s_outputs sn))) in To.
  assert (Hgl : forall x b, gl x = Some b -> concrete b).
  { intros x b E. destruct (Co _ _ (Gl _ _ E)) as (s & _ & K). destruct b; cbn; auto.
    pose proof (K (fun _ => TInt)) as K1. pose proof (K (fun _ => TBool)) as K2. cbn in K1, K2. congruence. }
  assert (Hx : forall x ins outs, declared_extern p x ins outs -> forall R past past' v v',
    Forall2 (rel R (flat (map v_base ins))) past past' -> rel R (flat (map v_base ins)) v v' ->
    alike (rel R (flat (map v_base outs))) (ext x past v) (ext x past' v')).
  { intros x i o (a & si & so & J & -> & ->) R' past past' v v' Fp V. rewrite !declared_bases in *. fold (bases si) in Fp, V. fold (bases so).
    eapply alike_iff; [intros; symmetry; apply rel_flat|]. eapply (Xo _ _ _ _ J); [|apply rel_flat; auto].
    eapply forall2_iff; [|exact Fp]. intros; apply rel_flat; auto. }
  destruct (init_rel glob gl (declared_extern p) Q TQ _ _ Fi) as (i & Ei & Oi).
  pose proof (run_rel mode glob gl Hgl ext (declared_extern p) Hx Q (s_name sn) (INode nd) R TQ Fi ins ins') as Rn.
  cbn [item_inputs item_outputs] in Rn. rewrite Ti, To in Rn.
  specialize (Rn ltac:(eapply forall2_iff; [|exact Fr]; intros; apply rel_flat; auto) i i (Oi R)).
  unfold xoutputs. rewrite Ei. cbn [bind]. eapply alike_bind; [exact Rn|]. intros [os i1] [os' i2] A. cbn in *.
  eapply forall2_iff; [|exact A]. intros; apply rel_flat; auto.
Qed.
