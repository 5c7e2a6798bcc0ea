(** Well-typed programs start and run without structural errors. *)
From Coq Require Import String List ZArith Bool Arith Lia.
From Verif Require Import Model.Base Model.Scalar Model.Value Model.History Model.Register Model.Ast Model.Interp Model.Typecheck Model.Causality Model.Extern
  Spec.RuntimeSpec Spec.StepSpec Spec.CausalitySpec Spec.OrderSpec Spec.TypeSpec Proofs.AstInd Proofs.InterpBasics Proofs.RuntimeProofs Proofs.CoreProofs Proofs.CoreNode Proofs.TypeEval Proofs.TypeExec Proofs.Wrappers Proofs.ExternBasics.
Import ListNotations.

(** A node with, for each of its call sites, the types given to the type
    variables of the node called; or an extern node. *)
Definition tnode : Type := item * list (ident -> base).
Definition plain (P : list tnode) : list item := map fst P.

Definition item_inputs (d : item) : list tyvar := match d with INode nd => n_inputs nd | IExt _ i _ => i end.
(** The inputs and outputs of what a name refers to. *)
Definition signature : Type := ident -> option (list tyvar * list tyvar).
Definition sig_of (P : list tnode) : signature := fun f =>
  match find_item (plain P) f with Some d => Some (item_inputs d, item_outputs d) | None => None end.

Definition in_type (nd : node) : ty := flat (map v_base (n_inputs nd)).
Definition out_type (nd : node) : ty := flat (map v_base (n_outputs nd)).
Definition inst_type (s : ident -> base) (l : list tyvar) : ty := flat (map (inst_base s) (map v_base l)).

Definition block_types (F : signature) (nd : node) (sg : list (ident -> base)) (id : nat) : option (ty * ty) :=
  match nth_error (n_blocks nd) id, nth_error sg id with
  | Some g, Some s =>
      match F g with
      | Some (ins, outs) => Some (inst_type s ins, inst_type s outs)
      | None => None
      end
  | _, _ => None
  end.
Definition var_types (nd : node) : list (ident * base) := map (fun v => (v_name v, v_base v)) (all_vars nd).
Definition node_ctx (gl : ident -> option base) (F : signature) (nd : node) (sg : list (ident -> base)) : context :=
  mkCtx (fun x => lookup x (var_types nd)) gl (block_types F nd sg)
    (fun id => match nth_error (n_regs nd) id with Some t => t | None => None end).

Fixpoint now_ordered (bound : list ident) (l : list stmt) : Prop :=
  match l with
  | [] => True
  | s :: l => (forall x, In (x, 0) (flat_map vars_of (computed s)) -> In x bound) /\ now_ordered (targets s ++ bound) l
  end.

Record typed_node (gl : ident -> option base) (F : signature) (nd : node) (sg : list (ident -> base)) : Prop := mkTn {
  tn_stmts : Forall (stmt_typed (node_ctx gl F nd sg)) (n_stmts nd);
  tn_now : now_ordered (map v_name (n_inputs nd)) (n_stmts nd);
  tn_past : forall s x d, In s (n_stmts nd) -> In (x, S d) (flat_map vars_of (computed s)) ->
    exists v, In v (all_vars nd) /\ v_name v = x /\ S d <= v_depth v;
  tn_flips : Forall (fun id => id < n_flips nd) (flat_map flips_of (flat_map computed (n_stmts nd)));
  tn_regs : Forall (fun o => exists t, o = Some t /\ no_single t) (n_regs nd);
  tn_names : NoDup (map v_name (all_vars nd));
  tn_defs : forall v, In v (n_outputs nd ++ n_locals nd) -> In (v_name v) (flat_map targets (n_stmts nd));
  tn_blocks : length sg = length (n_blocks nd);
  tn_found : forall g, In g (n_blocks nd) -> exists ins outs, F g = Some (ins, outs)
}.

(** What remains when the statements may read variables too early. *)
Record loose_node (gl : ident -> option base) (F : signature) (nd : node) (sg : list (ident -> base)) : Prop := mkLn {
  ln_stmts : Forall (stmt_typed (node_ctx gl F nd sg)) (n_stmts nd);
  ln_regs : Forall (fun o => exists t, o = Some t) (n_regs nd);
  ln_names : NoDup (map v_name (all_vars nd));
  ln_blocks : length sg = length (n_blocks nd);
  ln_found : forall g, In g (n_blocks nd) -> exists ins outs, F g = Some (ins, outs)
}.

Fixpoint prog_of (W : signature -> node -> list (ident -> base) -> Prop) (X : ident -> list tyvar -> list tyvar -> Prop) (P : list tnode) : Prop :=
  match P with
  | [] => True
  | (INode nd, sg) :: P => W (sig_of P) nd sg /\ prog_of W X P
  | (IExt x ins outs, _) :: P => NoDup (map v_name ins) /\ NoDup (map v_name outs) /\ X x ins outs /\ prog_of W X P
  end.
Definition typed_prog (gl : ident -> option base) := prog_of (typed_node gl).
Definition loose_prog (gl : ident -> option base) := prog_of (loose_node gl).

(** ** Types of tuples of variables *)
Lemma flat_mult : forall theta l v, of_type theta (flat l) v <-> of_type theta (TMult (map TSingle l)) v.
Proof. intros theta [|b [|b' l]] v; reflexivity. Qed.

Lemma of_type_flat : forall theta l v, of_type theta (flat l) v <->
  match l with
  | [] => exists n, v = VS n /\ fits TUnit n
  | [b] => exists n, v = VS n /\ fits (kind_of theta b) n
  | _ => exists ns, v = VT (map VS ns) /\ Forall2 (fun b n => fits (kind_of theta b) n) l ns
  end.
Proof.
  intros theta l v. rewrite flat_mult, of_type_mult. destruct l as [|b [|b' l]]; try reflexivity.
  cbn [map]. change (TSingle b :: TSingle b' :: map TSingle l) with (map TSingle (b :: b' :: l)). generalize (b :: b' :: l). clear.
  intros l. split; intros (vs & -> & F).
  - assert (K : exists ns, vs = map VS ns /\ Forall2 (fun b n => fits (kind_of theta b) n) l ns).
    { revert vs F. induction l as [|b l IH]; intros vs F; inversion F as [|? ? ? ? Hb F']; subst; [exists []; auto|]. destruct Hb as (n & -> & Fn).
      destruct (IH _ F') as (ns & -> & K). exists (n :: ns). split; auto. }
    destruct K as (ns & -> & K). eauto.
  - exists (map VS vs). split; auto. clear -F. induction F; cbn [map]; constructor; auto. exists y. auto.
Qed.

Lemma kind_inst : forall theta s b, kind_of theta (inst_base s b) = kind_of (fun x => kind_of theta (s x)) b.
Proof. intros theta s []; reflexivity. Qed.

Lemma of_inst_type : forall theta s l v,
  of_type theta (inst_type s l) v <-> of_type (fun x => kind_of theta (s x)) (flat (map v_base l)) v.
Proof.
  intros theta s l v. unfold inst_type. rewrite !of_type_flat.
  assert (G : forall bs ns, Forall2 (fun b n => fits (kind_of theta b) n) (map (inst_base s) bs) ns <->
              Forall2 (fun b n => fits (kind_of (fun x => kind_of theta (s x)) b) n) bs ns).
  { induction bs as [|b bs IH]; intros ns; split; intros F; inversion F; subst; cbn [map]; constructor; auto;
      try (rewrite <- kind_inst; auto); try (rewrite kind_inst; auto); apply IH; auto. }
  destruct l as [|a [|b l]]; cbn [map]; [reflexivity|rewrite kind_inst; reflexivity|].
  specialize (G (v_base a :: v_base b :: map v_base l)). cbn [map] in G. 
  split; intros (ns & -> & F); exists ns; split; auto; apply G; auto.
Qed.

Lemma nil_type : forall theta l, of_type theta (flat (map v_base l)) (vars_nil l).
Proof.
  intros theta l. apply of_type_flat. destruct l as [|a [|b l]]; cbn [map vars_nil]; try (exists Nil; cbn; auto; fail).
  exists (map (fun _ => Nil) (a :: b :: l)). split; [cbn; rewrite map_map; auto|].
  change (v_base a :: v_base b :: map v_base l) with (map v_base (a :: b :: l)). generalize (a :: b :: l). clear.
  induction l; cbn [map]; constructor; cbn; auto.
Qed.

(** ** Histories *)
Lemma lookup_map_update : forall x y n (hs : list (ident * hist)),
  lookup x (map (fun '(z, h) => (z, if String.eqb y z then update h n else h)) hs) =
  match lookup x hs with Some h => Some (if String.eqb y x then update h n else h) | None => None end.
Proof.
  intros x y n hs. induction hs as [|[z h] hs IH]; cbn; auto.
  destruct (String.eqb_spec x z); auto. subst. auto.
Qed.

Lemma update_length : forall h n, length (hlist (update h n)) = length (hlist h).
Proof. intros. rewrite hlist_update, length_removelast. auto. Qed.
Lemma in_removelast : forall {A} (l : list A) x, In x (removelast l) -> In x l.
Proof. induction l as [|a l IH]; intros x J; auto. cbn in J. destruct l as [|b l]; [destruct J|]. destruct J as [J|J]; [left; auto|right; apply IH; auto]. Qed.

Definition grown (st : store) (hs hs' : list (ident * hist)) : Prop := forall x,
  match lookup x hs, lookup x hs' with
  | Some h, Some h' => length (hlist h') = length (hlist h) /\ (forall n, In n (hlist h') -> In n (hlist h) \/ lookup x st = Some n)
  | None, None => True
  | _, _ => False
  end.
Lemma grown_refl : forall st hs, grown st hs hs.
Proof. intros st hs x. destruct (lookup x hs); auto. Qed.
Lemma grown_trans : forall st a b c, grown st a b -> grown st b c -> grown st a c.
Proof.
  intros st a b c H K x. specialize (H x); specialize (K x).
  destruct (lookup x a), (lookup x b), (lookup x c); try tauto. destruct H as [H1 H2], K as [K1 K2].
  split; [congruence|]. intros n J. destruct (K2 _ J); auto.
Qed.

Lemma update_vars_safe : forall st l hs, (forall v, In v l -> exists n, lookup (v_name v) st = Some n) ->
  exists hs', update_vars st hs l = Ok hs' /\ grown st hs hs'.
Proof.
  intros st. induction l as [|v l IH]; intros hs B; cbn [update_vars].
  - exists hs. split; auto. apply grown_refl.
  - unfold update_var. destruct (v_depth v =? 0).
    + cbn [bind]. apply IH. intros; apply B; cbn; auto.
    + destruct (B v) as (n & L); [cbn; auto|]. rewrite L. cbn [of_option bind].
      destruct (IH (map (fun '(y, h) => (y, if String.eqb (v_name v) y then update h n else h)) hs)) as (hs' & E & K).
      { intros; apply B; cbn; auto. }
      exists hs'. split; auto. eapply grown_trans; [|exact K]. intros x. rewrite lookup_map_update.
      destruct (lookup x hs) as [h|]; auto. destruct (String.eqb_spec (v_name v) x); auto. subst.
      split; [apply update_length|]. intros m J. rewrite hlist_update in J. apply in_removelast in J. destruct J; subst; auto.
Qed.

(** ** Instances *)
Definition stored_ok (theta : ident -> sty) (G : context) (nd : node) (hists : list (ident * hist)) : Prop :=
  (forall v d, In v (all_vars nd) -> v_depth v = S d -> exists h, lookup (v_name v) hists = Some h /\ length (hlist h) = S d) /\
  hists_ok hists theta G.

Definition node_ok (gl : ident -> option base) (F : signature) (good : ident -> (ident -> sty) -> inst -> Prop)
    (nd : node) (sg : list (ident -> base)) (theta : ident -> sty) (i : inst) : Prop :=
  let 'Inst clk hists regs flips subs := i in
  stored_ok theta (node_ctx gl F nd sg) nd hists /\
  regs_ok theta (node_ctx gl F nd sg) regs /\
  length flips = n_flips nd /\
  length subs = length (n_blocks nd) /\
  forall id g s sub, nth_error (n_blocks nd) id = Some g -> nth_error sg id = Some s -> nth_error subs id = Some sub ->
    good g (fun x => kind_of theta (s x)) sub.

Fixpoint inst_ok (gl : ident -> option base) (P : list tnode) (f : ident) (theta : ident -> sty) (i : inst) : Prop :=
  match P with
  | [] => False
  | (d, sg) :: P =>
      if String.eqb f (item_name d) then
        match d with
        | INode nd => node_ok gl (sig_of P) (inst_ok gl P) nd sg theta i
        | IExt _ ins _ => exists past clk, i = ext_inst past clk /\
            Forall (of_type theta (flat (map v_base ins))) past /\ Forall (fun v => first_is_nil v = false) past
        end
      else inst_ok gl P f theta i
  end.

Section Steps.
  Variable mode : ovf.
  Variable glob : ident -> option scalar.
  Variable gl : ident -> option base.
  Hypothesis Hgl : forall x b, gl x = Some b -> exists s, glob x = Some s /\ forall theta, sty_of s = kind_of theta b.

  Lemma in_var_types : forall nd x b, lookup x (var_types nd) = Some b -> exists v, In v (all_vars nd) /\ v_name v = x /\ v_base v = b.
  Proof.
    intros nd x b. unfold var_types. induction (all_vars nd) as [|v l IH]; cbn; [discriminate|].
    destruct (String.eqb_spec x (v_name v)); [intros E; inversion E; subst; eauto|]. intros E. destruct (IH E) as (w & A & B). eauto.
  Qed.
  Lemma var_types_in : forall nd v, NoDup (map v_name (all_vars nd)) -> In v (all_vars nd) -> lookup (v_name v) (var_types nd) = Some (v_base v).
  Proof.
    intros nd v. unfold var_types. induction (all_vars nd) as [|w l IH]; cbn; [tauto|]. intros N [->|J].
    - rewrite String.eqb_refl. auto.
    - inversion N; subst. destruct (String.eqb_spec (v_name v) (v_name w)) as [E|]; auto.
      exfalso. apply H1. rewrite <- E. apply in_map; auto.
  Qed.

  Lemma node_types : forall (F : signature) (good : ident -> (ident -> sty) -> inst -> Prop) call nilc,
    (forall g ins outs, F g = Some (ins, outs) -> nilc g = Ok (vars_nil outs) /\
       forall theta i v, good g theta i -> of_type theta (flat (map v_base ins)) v ->
         safe (call g i v) (fun '(o, i') => of_type theta (flat (map v_base outs)) o /\ good g theta i')) ->
    forall nd sg theta i v, typed_node gl F nd sg -> node_ok gl F good nd sg theta i -> of_type theta (in_type nd) v ->
    safe (node_step mode glob (fun id i v => match nth_error (n_blocks nd) id with Some g => call g i v | None => Panic PType end)
            (fun id => g <- of_option PType (nth_error (n_blocks nd) id);; nilc g) nd i v)
      (fun '(o, i') => of_type theta (out_type nd) o /\ node_ok gl F good nd sg theta i').
  Proof.
    intros F good call nilc IH nd sg theta [clk hists regs flips subs] v W I V. 
    destruct I as ([H1 H2] & R & Lf & Ls & Sb). destruct W as [W1 W2 W3 W4 W5 W6 W7 W8 W9].
    unfold node_step.
    set (G := node_ctx gl F nd sg) in *.
    destruct (first_is_nil v).
    { apply safe_ok. split; [apply nil_type|]. split; [split; auto|]. split; auto. }
    set (sub_ok := fun id sub => id < length (n_blocks nd) /\
      forall g s, nth_error (n_blocks nd) id = Some g -> nth_error sg id = Some s -> good g (fun x => kind_of theta (s x)) sub).
    assert (HG : globals_ok glob theta G).
    { intros x b E. destruct (Hgl _ _ E) as (s & A & B). eauto. }
    assert (HC : calls_ok (fun id i v => match nth_error (n_blocks nd) id with Some g => call g i v | None => Panic PType end)
      (fun id => g <- of_option PType (nth_error (n_blocks nd) id);; nilc g) theta G sub_ok).
    { intros id tin tout X. cbn in X. unfold block_types in X.
      destruct (nth_error (n_blocks nd) id) as [g|] eqn:Eg; [|discriminate].
      destruct (nth_error sg id) as [s|] eqn:Es; [|discriminate].
      destruct (F g) as [[ins outs]|] eqn:Ef; [|discriminate]. inversion X; subst. destruct (IH _ _ _ Ef) as [IH1 IH2]. split.
      - intros j w [Sl So] Tw. eapply safe_weaken; [eapply IH2; eauto|].
        + apply of_inst_type in Tw. exact Tw.
        + intros [o j'] [A B]. split; [apply of_inst_type; exact A|]. split; auto. intros g' s' Eg' Es'.
          assert (g' = g) by congruence. assert (s' = s) by congruence. subst. exact B.
      - cbn [of_option bind]. rewrite IH1. cbn. apply of_inst_type. apply nil_type. }
    assert (Bi : safe (bind_inputs (n_inputs nd) v) (fun st => store_ok theta G st /\ forall x, In x (map v_name (n_inputs nd)) -> exists n, lookup x st = Some n)).
    { unfold bind_inputs. unfold in_type in V. destruct (n_inputs nd) as [|a l] eqn:Ei.
      - cbn. split; [intros x n b E; discriminate|tauto].
      - rewrite <- Ei in *. assert (T : target_type G (VTMult (map (fun x => VTSingle (v_name x)) (n_inputs nd))) (TMult (map TSingle (map v_base (n_inputs nd))))).
        { constructor. assert (Sub : forall x, In x (n_inputs nd) -> In x (all_vars nd)) by (intros; unfold all_vars; apply in_or_app; auto).
          revert Sub. generalize (n_inputs nd). clear -W6. induction l; cbn [map]; intros Sub; constructor.
          - constructor. cbn. apply var_types_in; auto. apply Sub; cbn; auto.
          - apply IHl. intros; apply Sub; cbn; auto. }
        eapply safe_weaken; [eapply (bind_types theta G _ _ _ _ T)|].
        + apply flat_mult. exact V.
        + intros x n b E; discriminate.
        + intros st [A B]. split; auto. intros x J. apply B. left.
          clear -J. cbn. induction (n_inputs nd); cbn in *; auto. destruct J; auto. }
    eapply safe_bind; [exact Bi|]. clear Bi. intros st [S1 S2].
    assert (Or : ordered hists (map v_name (n_inputs nd)) (n_stmts nd)).
    { revert W2 W3. clear -H1. generalize (map v_name (n_inputs nd)). induction (n_stmts nd) as [|s l IHl]; intros bound O Pa; cbn; auto.
      destruct O as [O1 O2]. split; [|apply IHl; auto; intros s0 x d J K; apply (Pa s0 x d); cbn; auto].
      intros x [|d] J; [apply O1; auto|]. destruct (Pa s x d) as (w & Jw & E & Le); [cbn; auto|auto|].
      destruct (v_depth w) as [|dw] eqn:Ed; [lia|]. destruct (H1 _ _ Jw Ed) as (h & L & Lh). exists h. subst. split; auto. lia. }
    eapply safe_bind.
    { eapply (execs_types mode glob clk hists _ _ theta G (n_flips nd) sub_ok HG H2 HC (n_stmts nd) (map v_name (n_inputs nd))); auto.
      constructor; cbn [ss_store ss_regs ss_es]; auto. split; [auto|]. cbn [es_subs]. split.
      - intros id [tin tout] X. cbn in X. unfold block_types in X. destruct (nth_error (n_blocks nd) id) as [g|] eqn:Eg; [|discriminate].
        destruct (nth_error subs id) as [sub|] eqn:E; eauto. apply nth_error_None in E. apply nth_error_some_lt in Eg. lia.
      - intros id sub E. split; [rewrite <- Ls; eapply nth_error_some_lt; eauto|]. intros g s Eg Es. eapply Sb; eauto. }
    intros [st' regs' [flips' subs']] (bound & [K1 K2 K3 K4] & KB). cbn [ss_store ss_regs ss_es] in *.
    assert (All : forall x, In x (all_vars nd) -> exists n, lookup (v_name x) st' = Some n).
    { intros x J. apply K2. apply KB. unfold all_vars in J. apply in_app_or in J. destruct J as [J|J]; [left; apply in_map; auto|right; auto]. }
    destruct (update_vars_safe st' (all_vars nd) hists All) as (hists' & -> & Gr). cbn [bind].
    assert (Ro : forall l, (forall x, In x l -> In x (all_vars nd)) -> exists ns, mapM (var_value st') l = Ok (map VS ns) /\
      Forall2 (fun b n => fits (kind_of theta b) n) (map v_base l) ns).
    { clear -K1 All W6. induction l as [|x l IHl]; intros Sub; [exists []; cbn; auto|].
      destruct IHl as (ns & E & Fl); [intros; apply Sub; cbn; auto|]. destruct (All x) as (n & L); [apply Sub; cbn; auto|].
      exists (n :: ns). cbn [mapM map]. unfold var_value at 1. rewrite L. cbn [of_option bind]. rewrite E. cbn. split; auto. constructor; auto.
      apply (K1 (v_name x) n); auto. cbn. apply var_types_in; auto. apply Sub; cbn; auto. }
    destruct (Ro (n_outputs nd)) as (ns & Eo & Fo); [intros x J; unfold all_vars; rewrite !in_app_iff; auto|].
    unfold read_outputs. rewrite Eo. cbn [bind]. apply safe_ok. split.
    - unfold out_type. apply flat_mult. apply of_type_tuple. clear -Fo. induction Fo; cbn [map]; constructor; auto. exists y. auto.
    - destruct K4 as (K4 & K5 & K6). cbn [es_flips es_subs] in *. split; [|split; [|split; [auto|split]]].
      + split.
        * intros w d J E. destruct (H1 _ _ J E) as (h & L & Lh). specialize (Gr (v_name w)). rewrite L in Gr.
          destruct (lookup (v_name w) hists') as [h'|]; [|tauto]. exists h'. split; auto. destruct Gr. congruence.
        * intros x h b n L X J. specialize (Gr x). rewrite L in Gr. destruct (lookup x hists) as [h0|] eqn:L0; [|tauto].
          destruct Gr as [_ Gr]. destruct (Gr _ J) as [J'|J']; [eapply H2; eauto|eapply K1; eauto].
      + intros id t X. destruct (K3 _ _ X) as (r & E & [A B]). exists (reg_commit r). split; [apply map_nth_error; auto|]. split; auto.
      + apply Nat.le_antisymm.
        * destruct (le_lt_dec (length subs') (length (n_blocks nd))); auto.
          destruct (nth_error subs' (length (n_blocks nd))) as [sub|] eqn:E; [|apply nth_error_None in E; lia].
          destruct (K6 _ _ E). lia.
        * destruct (le_lt_dec (length (n_blocks nd)) (length subs')); auto.
          destruct (nth_error (n_blocks nd) (length subs')) as [g|] eqn:Eg; [|apply nth_error_None in Eg; lia].
          destruct (nth_error sg (length subs')) as [s|] eqn:Es; [|apply nth_error_None in Es; lia].
          destruct (W9 g) as (ins & outs & Ef); [eapply nth_error_In; eauto|].
          destruct (K5 (length subs') (inst_type s ins, inst_type s outs)) as (sub & E).
          { cbn. unfold block_types. rewrite Eg, Es, Ef. auto. }
          apply nth_error_some_lt in E. lia.
      + intros id g s sub Eg Es E. destruct (K6 _ _ E) as [_ Q]. eapply Q; eauto.
  Qed.

  Variable ext : ident -> behaviour.
  Variable X : ident -> list tyvar -> list tyvar -> Prop.
  Hypothesis Hext : forall x ins outs, X x ins outs -> forall theta past v,
    Forall (of_type theta (flat (map v_base ins))) past -> Forall (fun v => first_is_nil v = false) past ->
    of_type theta (flat (map v_base ins)) v -> first_is_nil v = false ->
    safe (ext x past v) (of_type theta (flat (map v_base outs))).

  Lemma flat_tuple_val : forall theta l v, l <> [] -> of_type theta (flat (map v_base l)) v ->
    exists ns, v = tuple_val (map VS ns) /\ length l = length ns.
  Proof.
    intros theta l v Ne V. apply of_type_flat in V. destruct l as [|a [|b l]]; [tauto| |]; cbn [map] in V.
    - destruct V as (n & -> & _). exists [n]. auto.
    - destruct V as (ns & -> & V). exists ns. pose proof (forall2_length _ _ _ V) as Q. cbn [length] in Q. rewrite map_length in Q. split; auto.
      destruct ns as [|n [|m ns]]; try discriminate. reflexivity.
  Qed.

  Lemma ext_types : forall x ins outs theta past clk v, NoDup (map v_name ins) -> NoDup (map v_name outs) -> X x ins outs ->
    Forall (of_type theta (flat (map v_base ins))) past -> Forall (fun v => first_is_nil v = false) past ->
    of_type theta (flat (map v_base ins)) v ->
    safe (xext (ext x) x ins outs (ext_inst past clk) v) (fun '(o, i') => of_type theta (flat (map v_base outs)) o /\
      exists past clk, i' = ext_inst past clk /\ Forall (of_type theta (flat (map v_base ins))) past /\ Forall (fun v => first_is_nil v = false) past).
  Proof.
    intros x ins outs theta past clk v Ni No Xx Tp Pp Tv. destruct (first_is_nil v) eqn:V.
    - rewrite xext_absent by auto. apply safe_ok. split; [apply nil_type|eauto].
    - rewrite xext_present by auto. 
      assert (B : exists st, bind_inputs ins v = Ok st).
      { unfold bind_inputs. destruct ins as [|a l]; [eauto|].
        destruct (flat_tuple_val theta (a :: l) v) as (ns & -> & L); [congruence|auto|].
        destruct (ext_bind_ok (a :: l) ns [] L Ni) as (st & E & _). exists st. exact E. }
      destruct B as (st & ->). cbn [bind].
      eapply safe_bind; [eapply Hext; eauto|]. intros w Tw.
      assert (Nx : Forall (of_type theta (flat (map v_base ins))) (past ++ [v]) /\ Forall (fun v => first_is_nil v = false) (past ++ [v])).
      { split; apply Forall_app; auto. }
      destruct Nx as [N1 N2]. destruct outs as [|a outs].
      + cbn. split; [|eauto]. exists (Defined SUnit). cbn. auto.
      + destruct (flat_tuple_val theta (a :: outs) w) as (ns & -> & L); [congruence|auto|].
        destruct (ext_bind_ok (a :: outs) ns st L No) as (st' & -> & E & _). cbn [bind]. rewrite E. cbn [bind]. apply safe_ok. split; eauto.
  Qed.

  Definition steps_ok (P : list tnode) : Prop := forall f theta i v d, find_item (plain P) f = Some d ->
    inst_ok gl P f theta i -> of_type theta (flat (map v_base (item_inputs d))) v ->
    safe (xstep mode glob ext (plain P) f i v) (fun '(o, i') => of_type theta (flat (map v_base (item_outputs d))) o /\ inst_ok gl P f theta i').

  Lemma step_types : forall P, typed_prog gl X P -> steps_ok P.
  Proof.
    induction P as [|[d sg] P IH]; intros T f theta i v d0 Ef I V; [discriminate|].
    assert (Tp : typed_prog gl X P) by (destruct d; cbn in T; tauto). specialize (IH Tp).
    cbn [plain map fst find_item] in Ef. cbn [inst_ok] in *. cbn [plain map fst xstep]. destruct (String.eqb f (item_name d)) eqn:E; [|eapply IH; eauto].
    inversion Ef; subst d0. destruct d as [nd|x ins outs]; cbn [item_inputs item_outputs] in *.
    - destruct T as [Tn _]. apply (node_types (sig_of P) (inst_ok gl P) (xstep mode glob ext (plain P)) (xnil_outputs (plain P))); auto.
      intros g ins outs Q. unfold sig_of in Q. destruct (find_item (plain P) g) as [d|] eqn:Fd; [|discriminate]. inversion Q; subst.
      split; [unfold xnil_outputs; rewrite Fd; reflexivity|]. intros theta' i' v' Gd Tv. eapply IH; eauto.
    - destruct T as (Ni & No & Xx & _). destruct I as (past & clk & -> & A & B). apply ext_types; auto.
  Qed.

  Lemma run_types : forall P f d theta, typed_prog gl X P -> find_item (plain P) f = Some d ->
    forall ins i, inst_ok gl P f theta i -> Forall (of_type theta (flat (map v_base (item_inputs d)))) ins ->
    safe (xrun mode glob ext (plain P) f i ins) (fun '(os, i') => Forall (of_type theta (flat (map v_base (item_outputs d)))) os /\ inst_ok gl P f theta i').
  Proof.
    intros P f d theta T Ef. induction ins as [|v ins IH]; intros i I F; cbn [xrun].
    - apply safe_ok. auto.
    - inversion F; subst. eapply safe_bind; [eapply step_types; eauto|]. intros [o i1] [A B].
      eapply safe_bind; [apply IH; eauto|]. intros [os i2] [C D]. apply safe_ok. auto.
  Qed.

  Lemma init_types : forall P, typed_prog gl X P -> forall f d, find_item (plain P) f = Some d ->
    exists i, xinit (plain P) f = Ok i /\ forall theta, inst_ok gl P f theta i.
  Proof.
    induction P as [|[d sg] P IH]; intros T f d0 Ef; [discriminate|].
    assert (Tp : typed_prog gl X P) by (destruct d; cbn in T; tauto). specialize (IH Tp).
    cbn [plain map fst find_item xinit] in *. destruct (String.eqb f (item_name d)) eqn:E.
    - clear Ef. destruct d as [nd|x ins outs]; cbn [item_name] in E.
      2:{ exists (ext_inst [] 0). split; auto. intros theta. cbn [inst_ok]. cbn [item_name]. rewrite E. exists [], 0. auto. }
      destruct T as [Tn _]. destruct Tn as [W1 W2 W3 W4 W5 W6 W7 W8 W9].
      assert (Rg : exists regs, mapM (fun t => t <- of_option PType t;; Ok (reg_default (ty_shape t))) (n_regs nd) = Ok regs /\
        forall id t, nth_error (n_regs nd) id = Some (Some t) -> nth_error regs id = Some (reg_default (ty_shape t))).
      { clear -W5. induction W5 as [|o l (t & -> & N) _ (regs & E & K)]; [exists []; split; auto; intros [|]; discriminate|].
        exists (reg_default (ty_shape t) :: regs). cbn [mapM of_option bind]. cbn [of_option bind] in E. rewrite E. cbn [bind]. split; auto.
        intros [|id] t' E'; cbn in E'; [inversion E'; subst; auto|]. cbn. auto. }
      destruct Rg as (regs & -> & Rg). cbn [bind].
      assert (Sb : exists subs, mapM (xinit (plain P)) (n_blocks nd) = Ok subs /\ length subs = length (n_blocks nd) /\
        forall id g sub, nth_error (n_blocks nd) id = Some g -> nth_error subs id = Some sub -> forall theta, inst_ok gl P g theta sub).
      { clear -IH W9. induction (n_blocks nd) as [|g l IHl]; [exists []; cbn; split; auto; split; auto; intros [|]; discriminate|].
        destruct IHl as (subs & E & L & K); [intros; apply W9; cbn; auto|].
        destruct (W9 g) as (ins & outs & Ef); [cbn; auto|]. unfold sig_of in Ef. destruct (find_item (plain P) g) as [d'|] eqn:Fd; [|discriminate].
        destruct (IH _ _ Fd) as (i & Ei & Ki).
        exists (i :: subs). cbn [mapM]. rewrite Ei. cbn [bind]. rewrite E. cbn. split; auto. split; auto.
        intros [|id] g' sub Eg Es; cbn in Eg, Es; [inversion Eg; inversion Es; subst; auto|eauto]. }
      destruct Sb as (subs & Es & Ls & Sb). unfold plain in *. rewrite Es. cbn [bind]. eexists. split; [reflexivity|]. intros theta.
      cbn [inst_ok item_name]. rewrite E. split; [|split; [|split; [apply repeat_length|split; [auto|]]]].
      + assert (Lk : forall l x, lookup x (flat_map (fun x => match v_depth x with 0 => [] | S d => [(v_name x, empty_hist d)] end) l) = None \/
          exists d, lookup x (flat_map (fun x => match v_depth x with 0 => [] | S d => [(v_name x, empty_hist d)] end) l) = Some (empty_hist d)).
        { induction l as [|w l IHl]; intros x; cbn; auto. destruct (v_depth w); cbn; auto. destruct (String.eqb x (v_name w)); eauto. }
        split.
        * unfold init_hists. revert W6. generalize (all_vars nd). clear. induction l as [|w l IHl]; intros N v d J Ed; [destruct J|].
          inversion N; subst. cbn [flat_map]. destruct J as [->|J].
          -- rewrite Ed. cbn. rewrite String.eqb_refl. eexists. split; eauto. rewrite hlist_empty, repeat_length. auto.
          -- destruct (IHl H2 v d J Ed) as (h & L & Lh). exists h. split; auto. destruct (v_depth w); auto. cbn.
             destruct (String.eqb_spec (v_name v) (v_name w)) as [E'|]; auto. exfalso. apply H1. rewrite <- E'. apply in_map; auto.
        * intros x h b n L Xh J. destruct (Lk (all_vars nd) x) as [K|(d & K)]; unfold init_hists in L; rewrite K in L; [discriminate|].
          inversion L; subst. rewrite hlist_empty in J. apply repeat_spec in J. subst. cbn. auto.
      + intros id t Xr. cbn in Xr. destruct (nth_error (n_regs nd) id) as [o|] eqn:Eo; [|discriminate]. subst o.
        rewrite Forall_forall in W5. destruct (W5 (Some t)) as (t' & Et & N); [eapply nth_error_In; eauto|]. inversion Et; subst.
        exists (reg_default (ty_shape t')). split; [auto|]. split; cbn; apply default_type; auto.
      + intros id g s sub Eg Es' E'. eapply Sb; eauto.
    - destruct (IH _ _ Ef) as (i & Ei & Ki). exists i. split; auto. intros theta. cbn [inst_ok]. rewrite E. auto.
  Qed.
End Steps.
