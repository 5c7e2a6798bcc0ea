(** A program with extern nodes and the nodes that they stand for. *)
From Coq Require Import String List ZArith Bool Arith Lia Permutation.
From Coq Require Import Floats.SpecFloat.
From Verif Require Import Model.Base Model.Scalar Model.Value Model.History Model.Register Model.Ast Model.Errors Model.Interp Model.Options Model.Surface
  Model.Causality Model.Translate Model.Typecheck Model.Clockcheck Model.Positivity Model.Pipeline Model.Trace Model.Extern
  Spec.StepSpec Spec.SurfaceSem Spec.ProgramSem Spec.UniversalSem Spec.ExternSem Spec.Static Spec.BehaviourSpec Spec.LinkSpec Spec.SafetySpec
  Proofs.AstInd Proofs.OutBasics Proofs.InterpBasics Proofs.StepProofs Proofs.CoreProofs Proofs.CoreNode Proofs.NodeWf Proofs.ProgramProofs Proofs.UniProgram Proofs.PipelineProofs
  Proofs.Wrappers Proofs.DeclOrder Proofs.DeclRuns Proofs.Traces Proofs.StaticTypes Proofs.StaticNode Proofs.StaticNames Proofs.StaticProgram Proofs.CausalityProofs Proofs.DeepIds Proofs.TypeInfer Proofs.TypeNode Proofs.Link Proofs.ExternBasics Proofs.Externs.
Import ListNotations.

(** ** Related computations *)
Definition rr {A B} (Q : A -> B -> Prop) (x : res A) (y : res B) : Prop :=
  match x, y with Ok a, Ok b => Q a b | Panic e, Panic e' => e = e' | _, _ => False end.
Lemma rr_bind : forall {A B A' B'} (Q : A -> B -> Prop) (Q' : A' -> B' -> Prop) x y f g,
  rr Q x y -> (forall a b, Q a b -> rr Q' (f a) (g b)) -> rr Q' (bind x f) (bind y g).
Proof. intros A B A' B' Q Q' [a|e] [b|e'] f g H K; cbn in *; auto; tauto. Qed.
Lemma rr_same : forall {A A' B'} (Q' : A' -> B' -> Prop) (x : res A) f g, (forall a, rr Q' (f a) (g a)) -> rr Q' (bind x f) (bind x g).
Proof. intros A A' B' Q' [a|e] f g K; cbn in *; auto. Qed.
Lemma set_nth_length : forall {A} n (a : A) l, length (set_nth n a l) = length l.
Proof. induction n; intros a [|b l]; cbn; auto. Qed.
Lemma set_nth_get : forall {A} n (a : A) l k, nth_error (set_nth n a l) k = if Nat.eqb n k then (match nth_error l k with Some _ => Some a | None => None end) else nth_error l k.
Proof. induction n; intros a [|b l] [|k]; cbn; auto; try (destruct (Nat.eqb n k); auto; fail). Qed.

Section Rel.
  Variable mode : ovf.
  Variable glob : ident -> option scalar.
  Variables call call' : nat -> inst -> val -> res (val * inst).
  Variables nilout nilout' : nat -> res val.
  Variable R : nat -> inst -> inst -> Prop.
  Definition answer_rel (id : nat) (a b : val * inst) : Prop := fst a = fst b /\ R id (snd a) (snd b).
  Hypothesis C : forall id i j v, R id i j -> rr (answer_rel id) (call id i v) (call' id j v).
  Hypothesis N : forall id, nilout id = nilout' id.

  Definition subs_rel (s s' : list inst) : Prop :=
    length s = length s' /\ forall id a b, nth_error s id = Some a -> nth_error s' id = Some b -> R id a b.
  Definition es_rel (s s' : estate) : Prop := es_flips s = es_flips s' /\ subs_rel (es_subs s) (es_subs s').
  Definition ev_rel {A} (a b : A * estate) : Prop := fst a = fst b /\ es_rel (snd a) (snd b).

  Lemma subs_set : forall s s' id a b, subs_rel s s' -> R id a b -> subs_rel (set_nth id a s) (set_nth id b s').
  Proof.
    intros s s' id a b [L H] Ra. split; [rewrite !set_nth_length; auto|]. intros k x y. rewrite !set_nth_get.
    destruct (Nat.eqb_spec id k); [|apply H]. subst. destruct (nth_error s k), (nth_error s' k); try discriminate. intros X Y. inversion X; inversion Y; subst. auto.
  Qed.
  Lemma subs_get : forall s s' id, subs_rel s s' -> rr (R id) (of_option PType (nth_error s id)) (of_option PType (nth_error s' id)).
  Proof.
    intros s s' id [L H]. destruct (nth_error s id) as [a|] eqn:E, (nth_error s' id) as [b|] eqn:E'; cbn; eauto.
    - apply nth_error_None in E'. assert (id < length s) by (apply nth_error_Some; congruence). lia.
    - apply nth_error_None in E. assert (id < length s') by (apply nth_error_Some; congruence). lia.
  Qed.

  Lemma eval_rel : forall clk hists regs st e s s', es_rel s s' ->
    rr ev_rel (eval mode glob clk hists call nilout regs st e s) (eval mode glob clk hists call' nilout' regs st e s').
  Proof.
    intros clk hists regs st.
    assert (D : forall e, (forall s s', es_rel s s' -> rr ev_rel (eval mode glob clk hists call nilout regs st e s) (eval mode glob clk hists call' nilout' regs st e s')) ->
      forall s s' B (Q : B -> B -> Prop) f g, es_rel s s' -> (forall v s s', es_rel s s' -> rr Q (f (v, s)) (g (v, s'))) ->
      rr Q (bind (eval mode glob clk hists call nilout regs st e s) f) (bind (eval mode glob clk hists call' nilout' regs st e s') g)).
    { intros e He s s' B Q f g Es K. eapply rr_bind; [apply He; exact Es|]. intros [v s1] [v' s1'] [X Y]. cbn in X, Y. subst v'. apply K. auto. }
    induction e using expr_ind'; intros s s' Es; try (lazymatch goal with |- context [ETuple _] => fail | _ => cbn [eval] end; repeat (apply D; [assumption|assumption|]; clear s s' Es; intros ? s s' Es)).
    - cbn. split; auto.
    - destruct d; cbn [eval]; repeat (apply rr_same; intros); cbn; split; auto.
    - apply rr_same. intros. split; auto.
    - rewrite !eval_tuple. eapply (rr_bind ev_rel); [|intros [v s1] [v' s1'] [X Y]; cbn in *; subst; split; auto].
      revert s s' Es. induction H as [|e l He H IH]; intros s s' Es; cbn [evals]; [split; auto|].
      apply D; auto. clear s s' Es. intros v s s' Es. eapply rr_bind; [apply IH; exact Es|].
      intros [vs s1] [vs' s1'] [X Y]. cbn in *. subst. split; auto.
    - apply IHe. auto.
    - apply IHe. auto.
    - apply rr_same. intros. split; auto.
    - apply rr_same. intros. split; auto.
    - apply rr_same. intros. split; auto.
    - apply rr_same. intros. split; auto.
    - destruct (d <? clk); [split; auto|]. apply IHe1. auto.
    - apply rr_same. intros. split; auto.
    - destruct Es as [Ef Es]. rewrite Ef. apply rr_same. intros f. destruct (flip_instant f v v0). split; auto. split; cbn; auto.
    - apply rr_same. intros. split; auto.
    - apply rr_same. intros. split; auto.
    - destruct (d <=? clk).
      + apply D; auto. clear s s' Es. intros v s s' [Ef Es]. eapply rr_bind; [apply subs_get; exact Es|]. intros i j Rij.
        eapply rr_bind; [apply C; exact Rij|]. intros [o i'] [o' j'] [X Y]. cbn in *. subst. split; auto. split; cbn; auto. apply subs_set; auto.
      + rewrite N. apply rr_same. intros. split; auto.
  Qed.

  Definition ss_rel (a b : sstate) : Prop := ss_store a = ss_store b /\ ss_regs a = ss_regs b /\ es_rel (ss_es a) (ss_es b).

  Lemma exec_rel : forall clk hists s a b, ss_rel a b -> rr ss_rel (exec mode glob clk hists call nilout s a) (exec mode glob clk hists call' nilout' s b).
  Proof.
    intros clk hists s [st regs es] [st' regs' es'] (E1 & E2 & Es). cbn in E1, E2, Es. subst st' regs'.
    assert (D : forall regs e s s' (Q : sstate -> sstate -> Prop) f g, es_rel s s' -> (forall v s s', es_rel s s' -> rr Q (f (v, s)) (g (v, s'))) ->
      rr Q (bind (eval mode glob clk hists call nilout regs st e s) f) (bind (eval mode glob clk hists call' nilout' regs st e s') g)).
    { intros regs0 e s0 s0' Q f g H K. eapply rr_bind; [apply eval_rel; exact H|]. intros [v s1] [v' s1'] [X Y]. cbn in X, Y. subst v'. apply K. auto. }
    destruct s as [t e|e|id v k|id e]; cbn [exec].
    - apply D; auto. intros v s s' H. apply rr_same. intros. split; auto.
    - apply D; auto. intros v s s' H. apply rr_same. intros. split; auto.
    - apply rr_same. intros c. apply rr_same. intros r. apply D; auto. intros cv s s' H. apply rr_same. intros n. apply rr_same. intros r'.
      destruct v as [e|]; [|split; auto]. apply D; auto. intros v s1 s1' H1. destruct (same_shapeb v (r_inner r')); [split; auto|reflexivity].
    - apply rr_same. intros r. apply D; auto. intros v s s' H. destruct (same_shapeb v (r_inner r)); [split; auto|reflexivity].
  Qed.
  Lemma execs_rel : forall clk hists l a b, ss_rel a b -> rr ss_rel (execs mode glob clk hists call nilout l a) (execs mode glob clk hists call' nilout' l b).
  Proof. induction l as [|s l IH]; intros a b H; cbn [execs]; auto. eapply rr_bind; [apply exec_rel; exact H|]. intros. apply IH. auto. Qed.

  Definition inst_rel (i j : inst) : Prop :=
    match i, j with Inst c h r f s, Inst c' h' r' f' s' => c = c' /\ h = h' /\ r = r' /\ f = f' /\ subs_rel s s' end.
  Lemma node_step_rel : forall nd i j v, inst_rel i j ->
    rr (fun a b => fst a = fst b /\ inst_rel (snd a) (snd b)) (node_step mode glob call nilout nd i v) (node_step mode glob call' nilout' nd j v).
  Proof.
    intros nd [c h r f s] [c' h' r' f' s'] v (-> & -> & -> & -> & S). unfold node_step. destruct (first_is_nil v); [cbn; auto 10|].
    apply rr_same. intros st. eapply rr_bind; [apply execs_rel; split; [|split; [|split]]; cbn; auto|].
    intros [st1 r1 [f1 s1]] [st2 r2 [f2 s2]] (X & Y & Z & W). cbn in X, Y, Z, W. subst. apply rr_same. intros hs. apply rr_same. intros o. cbn. auto 8.
  Qed.
End Rel.

(** ** Calls refer to what is declared before *)
Definition icalled (d : decl) : list (ident * list ident) :=
  match d with DNode _ nd => [(n_name nd, n_blocks nd)] | DExtNode _ x _ _ => [(x, [])] | _ => [] end.
Definition item_blocks (d : item) : list ident := match d with INode nd => n_blocks nd | IExt _ _ _ => [] end.
Fixpoint chain (ks : list ident) (l : list (ident * list ident)) : Prop :=
  match l with [] => True | (x, bs) :: l => ~ In x ks /\ incl bs ks /\ chain (x :: ks) l end.
Fixpoint stacked (l : list (ident * list ident)) : Prop :=
  match l with [] => True | (x, bs) :: l => ~ In x (map fst l) /\ incl bs (map fst l) /\ stacked l end.

Lemma chain_app : forall l1 l2 ks, chain ks (l1 ++ l2) -> chain ks l1 /\ chain (rev (map fst l1) ++ ks) l2.
Proof.
  induction l1 as [|[x bs] l1 IH]; intros l2 ks H; cbn in *; auto. destruct H as (A & B & H). destruct (IH _ _ H) as (C & D). rewrite <- app_assoc. auto.
Qed.
Lemma chain_stacked : forall l, chain [] l -> stacked (rev l).
Proof.
  induction l as [|[x bs] l IH] using rev_ind; intros H; [exact I|]. apply chain_app in H. destruct H as (A & B). rewrite rev_app_distr. cbn in *.
  rewrite app_nil_r, <- map_rev in B. destruct B as (B & C & _). auto.
Qed.
Lemma tc_icalled : forall g f d d', result (tc_one g f d) = Some d' -> icalled d' = icalled d.
Proof.
  intros g f d d' H. destruct d; cbn [tc_one] in H; try (inversion H; auto; fail); apply obind_some in H; destruct H as (r & T & Q); try (inversion Q; auto; fail).
  destruct r as [nd' gens]. inversion Q; subst. unfold tc_node in T. inv_out. reflexivity.
Qed.
Lemma tc_resolved : forall g f o nd d', result (tc_one g f (DNode o nd)) = Some d' -> incl (n_blocks nd) (map fst f).
Proof.
  intros g f o nd d' H. cbn [tc_one] in H. apply obind_some in H. destruct H as ((nd', gens) & H & _). unfold tc_node in H.
  apply obind_some in H. destruct H as (u1 & _ & H). apply obind_some in H. destruct H as (u2 & _ & H).
  apply obind_some in H. destruct H as ((ok, vars) & _ & H). apply obind_some in H. destruct H as (u3 & _ & H).
  apply obind_some in H. destruct H as (bl & T & _). pose proof (proj1 (blocks_fit _ _) (ex_intro _ _ T)) as B.
  intros g' J. destruct (B _ J) as (s & L). clear - L. induction f as [|[y s'] f IH]; cbn in *; [discriminate|]. destruct (String.eqb_spec g' y); auto.
Qed.
Lemma lookup_fresh : forall {A} x (l : list (ident * A)), lookup x l = None -> ~ In x (map fst l).
Proof. intros A x l. induction l as [|[y a] l IH]; cbn; intros H; auto. destruct (String.eqb_spec x y); [discriminate|]. intros [J|J]; [congruence|]. exact (IH H J). Qed.

Lemma tc_chain : forall l g f l', result (tc_decls g f l) = Some (true, l') -> chain (map fst f) (flat_map icalled l').
Proof.
  induction l as [|d l IH]; intros g f l' H; [inversion H; exact I|]. rewrite tc_decls_one in H.
  apply obind_some in H. destruct H as (r & E & H). apply obind_some in H. destruct H as ((g', f') & X & H). apply obind_some in H. destruct H as ((ok, ds') & T & H).
  apply attempt_some in E. inversion H as [[A B]]. subst l'. destruct r as [d'|]; [|discriminate]. cbn in A. subst ok.
  cbn [flat_map]. specialize (IH _ _ _ T). rewrite (tc_icalled _ _ _ _ E). destruct d as [o x t e|o nd|o x t|o x i o'].
  - destruct (lookup x g); inversion X; subst. auto.
  - destruct (lookup (n_name nd) f) eqn:L; inversion X; subst. split; [apply lookup_fresh; auto|]. split; [eapply tc_resolved; eauto|auto].
  - destruct (lookup x g); inversion X; subst. auto.
  - destruct (lookup x f) eqn:L; inversion X; subst. split; [apply lookup_fresh; auto|]. split; [intros ? []|auto].
Qed.

Definition key (d : item) : ident * list ident := (item_name d, item_blocks d).
Lemma items_keys : forall l, map key (items_of l) = rev (flat_map icalled l).
Proof.
  intros l. unfold items_of. rewrite map_rev. f_equal. induction l as [|d l IH]; auto. cbn [flat_map]. rewrite map_app, IH. destruct d; auto.
Qed.
Lemma accepted_stacked : forall p l, result (pipeline p) = Some l -> stacked (map key (items_of l)).
Proof.
  intros p l H. unfold pipeline, analyse in H. apply obind_some in H. destruct H as (l0 & E0 & H). apply obind_some in H. destruct H as (l1 & E1 & H).
  apply obind_some in H. destruct H as (l2 & E2 & H). apply obind_some in H. destruct H as (l3 & E3 & E4).
  unfold typecheck in E2. apply obind_some in E2. destruct E2 as ((ok, l2') & T & E2). apply obind_some in E2. destruct E2 as (u & S & E2). inversion E2; subst l2'.
  destruct ok; [|discriminate]. apply tc_chain in T. rewrite items_keys. apply chain_stacked.
  unfold clockcheck, positivity in *. apply omap_result in E3. apply omap_result in E4.
  assert (E : flat_map icalled l = flat_map icalled l2); [|rewrite E; exact T].
  transitivity (flat_map icalled l3); [symmetry; eapply forall2_flat_eq; [exact E4|]|symmetry; eapply forall2_flat_eq; [exact E3|]].
  - intros d d' X. destruct d; cbn [pos_decl] in X; try (inversion X; auto; fail). apply obind_some in X. destruct X as (nd' & K & X). inversion X; subst.
    unfold pos_node in K. apply obind_some in K. destruct K as (m & _ & K). inversion K. reflexivity.
  - intros d d' X. destruct d; cbn [kc_decl] in X; try (inversion X; auto; fail); apply obind_some in X; destruct X as (nd' & K & X); inversion X; subst; auto.
    unfold kc_node in K. inv_out. reflexivity.
Qed.

(** ** Extern nodes and what they stand for *)
Definition plain_items (L : list item) : prog := flat_map (fun d => match d with INode nd => [nd] | IExt _ _ _ => [] end) L.
Lemma plain_items_of : forall l, plain_items (items_of l) = nodes_of l.
Proof.
  intros l. unfold plain_items, items_of, nodes_of. rewrite !flat_map_concat_map.
  induction l as [|d l IH]; auto. rewrite <- !flat_map_concat_map in *. cbn [flat_map]. rewrite !rev_app_distr, flat_map_app, IH. f_equal. destruct d; auto.
Qed.
Lemma plain_items_names : forall L f, In f (map n_name (plain_items L)) -> In f (map item_name L).
Proof.
  intros L f J. apply in_map_iff in J. destruct J as (nd & <- & J). unfold plain_items in J. apply in_flat_map in J. destruct J as (d & J & K).
  destruct d; cbn in K; [|tauto]. destruct K as [<-|[]]. apply in_map_iff. exists (INode nd0). auto.
Qed.

Section Linked.
  Variable mode : ovf.
  Variable glob : ident -> option scalar.
  Variable P : prog.
  Notation ext := (answers_of mode glob P).

  Definition stands (d : item) : Prop :=
    match d with
    | INode _ => True
    | IExt x ins outs => NoDup (map v_name outs) /\ exists nd r, find_node P x = Some (nd, r) /\
        length ins = length (n_inputs nd) /\ length outs = length (n_outputs nd)
    end.

  Fixpoint corresponds (L : list item) (f : ident) (i j : inst) : Prop :=
    match L with
    | [] => False
    | d :: L => if String.eqb f (item_name d) then
        match d with
        | INode nd => inst_rel (fun id a b => match nth_error (n_blocks nd) id with Some g => corresponds L g a b | None => False end) i j
        | IExt x _ _ => exists past clk j0 os, i = ext_inst past clk /\ init_inst P x = Ok j0 /\ run mode glob P x j0 past = Ok (os, j)
        end
      else corresponds L f i j
    end.

  Lemma skip_plain : forall L x, ~ In x (map item_name L) ->
    find_node (plain_items L ++ P) x = find_node P x.
  Proof.
    induction L as [|d L IH]; intros x J; cbn; auto. cbn in J. destruct d as [nd|y i o]; cbn in *; [|auto].
    destruct (String.eqb_spec x (n_name nd)); [exfalso; auto|auto].
  Qed.
  Lemma skip_step : forall L x i v, ~ In x (map item_name L) -> step mode glob (plain_items L ++ P) x i v = step mode glob P x i v.
  Proof. intros L x i v J. rewrite !step_find, (skip_plain _ _ J). auto. Qed.
  Lemma skip_init : forall L x, ~ In x (map item_name L) -> init_inst (plain_items L ++ P) x = init_inst P x.
  Proof. intros L x J. rewrite !init_find, (skip_plain _ _ J). auto. Qed.
  Lemma skip_nil : forall L x, ~ In x (map item_name L) -> nil_outputs (plain_items L ++ P) x = nil_outputs P x.
  Proof. intros L x J. unfold nil_outputs. rewrite (skip_plain _ _ J). auto. Qed.

  Lemma names_keys : forall L, map fst (map key L) = map item_name L.
  Proof. intros L. rewrite map_map. auto. Qed.

  Lemma linked_nil : forall L, stacked (map key L) -> Forall stands L -> forall f, In f (map item_name L) ->
    xnil_outputs L f = nil_outputs (plain_items L ++ P) f.
  Proof.
    induction L as [|d L IH]; intros St Sd f J; [destruct J|]. inversion Sd as [|? ? S1 S2]; subst. cbn [map stacked key] in St. destruct St as (A & B & St).
    rewrite names_keys in A. unfold xnil_outputs. cbn [find_item]. destruct (String.eqb_spec f (item_name d)) as [->|Ne].
    - cbn [of_option bind]. destruct d as [nd|x i o]; cbn [item_name item_outputs plain_items flat_map app] in *.
      + unfold nil_outputs. cbn [find_node]. rewrite String.eqb_refl. auto.
      + change (nil_outputs (plain_items L ++ P) x) with (nil_outputs (plain_items L ++ P) x). rewrite skip_nil by auto. destruct S1 as (_ & nd & r & F & _ & L2).
        unfold nil_outputs. rewrite F. cbn. f_equal. apply vars_nil_length. auto.
    - destruct J as [J|J]; [congruence|]. etransitivity; [apply IH; auto|]. destruct d as [nd|x i o]; cbn [plain_items flat_map app item_name] in *; auto.
      unfold nil_outputs. cbn [find_node]. destruct (String.eqb_spec f (n_name nd)); [congruence|auto].
  Qed.

  Lemma step_answer : forall f nd r i v o i', find_node P f = Some (nd, r) -> first_is_nil v = false -> step mode glob P f i v = Ok (o, i') ->
    exists ns, length (n_outputs nd) = length ns /\ o = tuple_val (map VS ns).
  Proof.
    intros f nd r [clk hists regs flips subs] v o i' F V H. rewrite step_find, F in H. unfold node_step in H. rewrite V in H.
    apply bind_ok in H. destruct H as (st & _ & H). apply bind_ok in H. destruct H as ([st' regs' [flips' subs']] & _ & H).
    apply bind_ok in H. destruct H as (h & _ & H). apply bind_ok in H. destruct H as (out & E & H). inversion H; subst.
    apply row_outputs in E. destruct E as (ns & E & ->). exists ns. split; auto. apply forall2_length in E. rewrite map_length in E. auto.
  Qed.
  Lemma step_inputs : forall f nd r i v e, find_node P f = Some (nd, r) -> first_is_nil v = false -> bind_inputs (n_inputs nd) v = Panic e ->
    step mode glob P f i v = Panic e.
  Proof. intros f nd r [clk hists regs flips subs] v e F V H. rewrite step_find, F. unfold node_step. rewrite V, H. auto. Qed.

  Lemma ext_linked : forall x ins outs nd r, NoDup (map v_name outs) -> find_node P x = Some (nd, r) ->
    length ins = length (n_inputs nd) -> length outs = length (n_outputs nd) ->
    forall past clk j0 os j v, init_inst P x = Ok j0 -> run mode glob P x j0 past = Ok (os, j) ->
    rr (fun a b => fst a = fst b /\ exists past clk os, snd a = ext_inst past clk /\ run mode glob P x j0 past = Ok (os, snd b))
      (xext (ext x) x ins outs (ext_inst past clk) v) (step mode glob P x j v).
  Proof.
    intros x ins outs nd r N F Li Lo past clk j0 os j v I R. destruct (first_is_nil v) eqn:V.
    - rewrite xext_absent by auto. rewrite step_find, F. unfold node_step. rewrite V. cbn. split; [apply vars_nil_length; auto|]. eauto.
    - rewrite xext_present by auto. destruct (bind_inputs ins v) as [st|e] eqn:B.
      + cbn [bind]. unfold answers_of at 1. rewrite I. cbn [bind]. rewrite R. cbn [bind].
        destruct (step mode glob P x j v) as [[o j']|e] eqn:E; [|reflexivity]. cbn [bind].
        destruct (step_answer _ _ _ _ _ _ _ F V E) as (ns & Ln & ->). destruct (ext_bind_ok outs ns st ltac:(congruence) N) as (st' & B' & Ro & _).
        rewrite B'. cbn [bind]. rewrite Ro. cbn. split; auto. exists (past ++ [v]), (S clk). 
        rewrite run_iter in R |- *. eexists. split; auto. eapply iter_snoc; eauto.
      + rewrite (step_inputs _ _ _ _ _ e F V); [reflexivity|]. eapply inputs_shape; [|exact B]. auto.
  Qed.

  Lemma linked_step : forall L, stacked (map key L) -> Forall stands L -> forall f i j v, corresponds L f i j ->
    rr (fun a b => fst a = fst b /\ corresponds L f (snd a) (snd b)) (xstep mode glob ext L f i v) (step mode glob (plain_items L ++ P) f j v).
  Proof.
    induction L as [|d L IH]; intros St Sd f i j v C; [destruct C|]. inversion Sd as [|? ? S1 S2]; subst. cbn [map stacked key] in St. destruct St as (A & B & St).
    rewrite names_keys in A, B. cbn [corresponds xstep] in *. destruct (String.eqb_spec f (item_name d)) as [->|Ne].
    - destruct d as [nd|x ins outs]; cbn [item_name plain_items flat_map app] in *.
      + cbn [step]. rewrite String.eqb_refl. apply node_step_rel; auto.
        * intros id a b w Rab. destruct (nth_error (n_blocks nd) id) as [g|] eqn:G; [|destruct Rab]. unfold answer_rel. rewrite G. apply IH; auto.
        * intros id. destruct (nth_error (n_blocks nd) id) as [g|] eqn:G; auto. cbn [of_option bind]. apply linked_nil; auto. apply B. cbn. eapply nth_error_In; eauto.
      + change (flat_map _ L) with (plain_items L). rewrite skip_step by auto. destruct S1 as (N & nd & r & F & Li & Lo). destruct C as (past & clk & j0 & os & -> & I & R).
        pose proof (ext_linked x ins outs nd r N F Li Lo past clk j0 os j v I R) as H.
        destruct (xext _ _ _ _ _ _) as [[o i']|e], (step _ _ P x j v) as [[o' j']|e']; cbn in *; auto. destruct H as (Q & past' & clk' & os' & -> & R').
        split; auto. exists past', clk', j0, os'. auto.
    - assert (E : step mode glob (plain_items (d :: L) ++ P) f j v = step mode glob (plain_items L ++ P) f j v).
      { destruct d as [nd|x ins outs]; auto. cbn [plain_items flat_map app step]. cbn [item_name] in Ne. destruct (String.eqb_spec f (n_name nd)); [congruence|auto]. }
      rewrite E. apply IH; auto.
  Qed.

  Lemma linked_run : forall L, stacked (map key L) -> Forall stands L -> forall f ins i j, corresponds L f i j ->
    rr (fun a b => fst a = fst b) (xrun mode glob ext L f i ins) (run mode glob (plain_items L ++ P) f j ins).
  Proof.
    intros L St Sd f. induction ins as [|v ins IH]; intros i j C; [reflexivity|]. cbn [xrun run]. eapply rr_bind; [apply linked_step; eauto|].
    intros [o i'] [o' j'] [Q C']. cbn in Q, C'. subst o'. eapply rr_bind; [apply IH; exact C'|]. intros [os i1] [os' j1] Q. cbn in *. congruence.
  Qed.

  (** The library itself can be initialised. *)
  Hypothesis Pi : forall x nd r, find_node P x = Some (nd, r) -> exists i, init_inst P x = Ok i.

  Lemma linked_init : forall L, stacked (map key L) -> Forall stands L -> forall f, In f (map item_name L) ->
    rr (corresponds L f) (xinit L f) (init_inst (plain_items L ++ P) f).
  Proof.
    induction L as [|d L IH]; intros St Sd f J; [destruct J|]. inversion Sd as [|? ? S1 S2]; subst. cbn [map stacked key] in St. destruct St as (A & B & St).
    rewrite names_keys in A, B. cbn [xinit]. assert (Co : forall i j, corresponds (d :: L) f i j = if String.eqb f (item_name d) then _ else _) by reflexivity.
    destruct (String.eqb_spec f (item_name d)) as [->|Ne].
    - destruct d as [nd|x ins outs]; cbn [item_name plain_items flat_map app] in *.
      + cbn [init_inst]. rewrite String.eqb_refl. apply rr_same. intros regs.
        apply (rr_bind (fun s s' => subs_rel (fun id a b => match nth_error (n_blocks nd) id with Some g => corresponds L g a b | None => False end) s s')).
        * assert (G : forall bs, incl bs (map item_name L) -> rr (subs_rel (fun id a b => match nth_error bs id with Some g => corresponds L g a b | None => False end)) (mapM (xinit L) bs) (mapM (init_inst (plain_items L ++ P)) bs)); [|exact (G _ B)].
          clear - IH St S2. induction bs as [|g bs IHb]; intros Hb; cbn [mapM].
          { split; auto. intros [|id] a b; discriminate. }
          eapply rr_bind; [apply IH; auto; apply Hb; cbn; auto|]. intros a b Rab. eapply rr_bind; [apply IHb; intros y Jy; apply Hb; cbn; auto|].
          intros s s' [Ls Hs]. cbn [rr]. split; [cbn; auto|]. intros [|id] a' b' X Y; cbn in *; [inversion X; inversion Y; subst; auto|apply Hs; auto].
        * intros s s' Ss. cbn. rewrite String.eqb_refl. cbn. auto 8.
      + change (flat_map _ L) with (plain_items L). rewrite skip_init by auto. destruct S1 as (N & nd & r & F & Li & Lo). destruct (Pi _ _ _ F) as (j0 & Ej). rewrite Ej.
        cbn. rewrite String.eqb_refl. exists [], 0, j0, []. auto.
    - destruct J as [J|J]; [congruence|].
      assert (E : init_inst (plain_items (d :: L) ++ P) f = init_inst (plain_items L ++ P) f).
      { destruct d as [nd|x ins outs]; auto. cbn [plain_items flat_map app init_inst]. cbn [item_name] in Ne. destruct (String.eqb_spec f (n_name nd)); [congruence|auto]. }
      rewrite E. specialize (IH St S2 f J). destruct (xinit L f), (init_inst (plain_items L ++ P) f); cbn in *; auto.
      destruct (String.eqb_spec f (item_name d)); [congruence|auto].
  Qed.
End Linked.

(** ** Every node of an accepted program has an initial state *)
Lemma regs_known : forall o sn nd, compiled_node o sn nd -> Forall (fun t => t <> None) (n_regs nd).
Proof.
  intros o sn nd C. destruct C as (nd0 & nd1 & nd2 & nd3 & globals & funs & gens & H0 & H1 & H2 & H3 & H4).
  pose proof (tr_node_deep _ _ _ H0) as [Dr _]. destruct (node_stmts_perm _ _ H1) as [Pm E1].
  set (stmts := n_stmts nd1) in *. clearbody stmts. subst nd1.
  unfold tc_node in H2. cbn [n_inputs n_outputs n_locals n_stmts n_name n_blocks n_regs n_flips] in H2.
  apply obind_some in H2. destruct H2 as (u1 & X1 & Y2).
  apply obind_some in Y2. destruct Y2 as (u2 & X2 & Y2).
  apply obind_some in Y2. destruct Y2 as ((ok, vars) & X3 & Y2).
  apply obind_some in Y2. destruct Y2 as (u3 & X4 & Y2).
  apply obind_some in Y2. destruct Y2 as (bl & Xb & Y2).
  apply obind_some in Y2. destruct Y2 as (sr & Xs & Y2). apply obind_some in Y2. destruct Y2 as (sr' & Xn & Y2).
  apply need_some in Xn. destruct sr as [s|]; [injection Xn as <-|discriminate Xn]. inversion Y2; subst nd2 gens; clear Y2.
  assert (E : n_regs nd = map (fun id => lookup_nat id (y_regs s)) (seq 0 (length (n_regs nd0)))).
  { unfold kc_node in H3. cbn [n_inputs n_outputs n_locals n_stmts n_name n_blocks n_regs n_flips] in H3.
    apply obind_some in H3. destruct H3 as (u4 & X5 & Y3). apply obind_some in Y3. destruct Y3 as (ksr & Xk & Y3).
    apply obind_some in Y3. destruct Y3 as (ks & Xn' & Y3).
    apply obind_some in Y3. destruct Y3 as (final & Xf & Y3). inversion Y3; subst nd3; clear Y3.
    destruct (pos_node_all _ _ H4) as (m & Hm & End). rewrite End. reflexivity. }
  pose proof (stmts_record _ _ _ _ Xs) as [Rr _]. cbn [tyst0 y_regs map fst] in Rr. rewrite app_nil_r in Rr.
  rewrite (Permutation_flat_map deep_regs (Permutation_flat_map stmt_exprs (perm_sourced _ _ Pm))), Dr in Rr.
  rewrite E. apply Forall_forall. intros t J. apply in_map_iff in J. destruct J as (id & <- & J).
  apply (Permutation_in _ (Permutation_sym Rr)) in J. clear - J. induction (y_regs s) as [|[k t] l IH]; cbn in *; [tauto|].
  destruct (Nat.eqb_spec id k); [discriminate|]. apply IH. destruct J; [congruence|auto].
Qed.

Lemma init_items : forall p L, stacked (map key L) -> Forall (from_decl p) L -> forall f, In f (map item_name L) -> exists i, xinit L f = Ok i.
Proof.
  intros p. induction L as [|d L IH]; intros St Src f J; [destruct J|]. inversion Src as [|? ? S1 S2]; subst. cbn [map stacked key] in St. destruct St as (A & B & St).
  rewrite names_keys in A, B. cbn [xinit]. destruct (String.eqb_spec f (item_name d)) as [->|Ne].
  - destruct d as [nd|x ins outs]; [|eauto]. destruct S1 as (o & a & sn & C & _). apply regs_known in C.
    assert (R : exists regs, mapM (fun t => t <- of_option PType t;; Ok (reg_default (ty_shape t))) (n_regs nd) = Ok regs).
    { clear - C. induction C as [|t l Ht _ (regs & E)]; [exists []; auto|]. destruct t as [t|]; [|congruence].
      exists (reg_default (ty_shape t) :: regs). cbn [mapM of_option bind] in *. rewrite E. auto. }
    assert (S : exists subs, mapM (xinit L) (n_blocks nd) = Ok subs).
    { cbn [item_blocks] in B. clear - IH B St S2. induction (n_blocks nd) as [|g l IHl]; [exists []; auto|].
      destruct IHl as (subs & E); [intros y Jy; apply B; cbn; auto|]. destruct (IH St S2 g) as (i & Ei); [apply B; cbn; auto|].
      exists (i :: subs). cbn [mapM]. rewrite Ei. cbn [bind]. rewrite E. auto. }
    destruct R as (regs & ->), S as (subs & ->). cbn [bind]. eauto.
  - destruct J as [J|J]; [congruence|]. eauto.
Qed.

(** Every node and extern node of the source is there. *)
Lemma items_declared : forall p l, result (pipeline p) = Some l -> forall f, In f (map item_name (items_of l)) <-> exists a, In a p /\ introduces (snd a) = Node f.
Proof.
  intros p l H f. rewrite <- names_keys, items_keys, map_rev, <- in_rev.
  destruct (accepted_code _ _ H) as (m & c & T & _ & _ & C & P).
  assert (Q1 : In f (map fst (flat_map icalled l)) <-> In f (map fst (flat_map icalled c))).
  { split; intros J; apply in_map_iff in J; destruct J as (k & Q & J); apply in_map_iff; exists k; split; auto; apply in_flat_map in J; destruct J as (d & J & K);
      apply in_flat_map; exists d; split; auto; [eapply Permutation_in; [apply Permutation_sym|]; eauto|eapply Permutation_in; eauto]. }
  rewrite Q1. clear Q1 P H l.
  assert (E : map fst (flat_map icalled c) = flat_map (fun a => match introduces (snd a) with Node f => [f] | _ => [] end) p).
  { revert T C. generalize (consts m) (funs m). intros g h T. revert c. induction T as [|a d p m Ta T IH]; intros c C; inversion C as [|? d4 ? c' Cd Cc]; subst; auto.
    cbn [flat_map]. rewrite map_app, (IH _ Cc). f_equal. destruct Cd as (d2 & d3 & Tc & K & Po). destruct Ta as (d0 & Ta & Da).
    destruct (tr_becomes _ _ _ Ta Da) as (_ & _ & B & _).
    assert (Q : icalled d4 = icalled d).
    { transitivity (icalled d3); [|transitivity (icalled d2); [|eapply tc_icalled; eauto]].
      - destruct d3; cbn [pos_decl] in Po; try (inversion Po; auto; fail). apply obind_some in Po. destruct Po as (nd' & X & Po). inversion Po; subst.
        unfold pos_node in X. apply obind_some in X. destruct X as (mm & _ & X). inversion X. reflexivity.
      - destruct d2; cbn [kc_decl] in K; try (inversion K; auto; fail); apply obind_some in K; destruct K as (nd' & X & K); inversion K; subst; auto.
        unfold kc_node in X. inv_out. reflexivity. }
    rewrite Q. pose proof (becomes_provides _ _ B) as Pr. destruct d; cbn in Pr |- *; destruct (introduces (snd a)); cbn in Pr; inversion Pr; subst; auto. }
  rewrite E. split.
  - intros J. apply in_flat_map in J. destruct J as (a & J & K). exists a. split; auto. destruct (introduces (snd a)); cbn in K; [tauto|]. destruct K as [->|[]]. auto.
  - intros (a & J & K). apply in_flat_map. exists a. rewrite K. cbn. auto.
Qed.

Theorem accepted_init : forall p l, result (pipeline p) = Some l -> forall a f, In a p -> introduces (snd a) = Node f -> exists i, xinit (items_of l) f = Ok i.
Proof.
  intros p l H a f J Q. eapply init_items; [eapply accepted_stacked; eauto|apply pipeline_items; eauto|]. apply (items_declared _ _ H). eauto.
Qed.

(** ** Separate compilation *)
Lemma types_length : forall l, length (types l) = length (declared l).
Proof. induction l as [|[xs [b c]] l IH]; auto. unfold types, declared, variables in *. cbn [flat_map fst snd]. rewrite map_app, !app_length, !map_length. rewrite map_length in IH. auto. Qed.

Lemma closed_items : forall p l, result (pipeline p) = Some l -> closed p -> items_of l = map INode (nodes_of l).
Proof.
  intros p l H Cl. apply items_closed. intros o x i o' J. destruct (extern_source _ _ _ _ _ _ H J) as (_ & a & si & so & K & _). exact (Cl _ _ _ _ K).
Qed.

Theorem linked_outputs : forall lib imp cli l1 l2 l, (forall e, In e imp -> imports lib e) -> apart lib cli -> closed lib -> closed cli ->
  result (pipeline lib) = Some l1 -> result (pipeline (imp ++ cli)) = Some l2 -> result (pipeline (lib ++ cli)) = Some l ->
  forall mode glob a f, In a (imp ++ cli) -> introduces (snd a) = Node f -> forall ins,
  xoutputs mode glob (answers_of mode glob (nodes_of l1)) (items_of l2) f ins = outputs mode glob (nodes_of l) f ins.
Proof.
  intros lib imp cli l1 l2 l Im Ap Cl Cc H1 H2 H mode glob a f Ja Qa ins.
  destruct (linked_behaviour _ _ _ _ _ Im Ap H1 H2) as (l' & H' & _ & Be). assert (l' = l) by congruence. subst l'. clear H'.
  pose proof (accepted_stacked _ _ H2) as St. pose proof (pipeline_items _ _ H2) as Src.
  assert (Sd : Forall (stands (nodes_of l1)) (items_of l2)).
  { apply Forall_forall. intros d Jd. rewrite Forall_forall in Src. specialize (Src _ Jd). destruct d as [nd|x iv ov]; [exact I|]. destruct Src as (N & at_ & i & o & K & -> & ->).
    split; [rewrite map_app in N; clear - N; induction (map v_name (tr_decls i)); auto; inversion N; auto|].
    apply in_app_iff in K. destruct K as [K|K]; [|exfalso; exact (Cc _ _ _ _ K)].
    destruct (Im _ K) as (_ & b & Jb & _ & Qi). destruct b as [bt bd]. unfold interface_of in Qi. cbn [fst snd] in Qi.
    destruct bd as [| sn | |y i' o']; try discriminate; [|exfalso; exact (Cl _ _ _ _ Jb)]. inversion Qi as [[Q1 Q2 Q3 Q4]].
    assert (F : exists nd r, find_node (nodes_of l1) (s_name sn) = Some (nd, r)).
    { pose proof (proj2 (items_declared _ _ H1 (s_name sn)) (ex_intro _ (bt, XNode sn) (conj Jb eq_refl))) as J. rewrite (closed_items _ _ H1 Cl), map_map in J. cbn [item_name] in J.
      clear - J. induction (nodes_of l1) as [|n P IH]; [destruct J|]. cbn [find_node]. destruct (String.eqb_spec (s_name sn) (n_name n)); [eauto|]. destruct J; [congruence|auto]. }
    destruct F as (nd & r & F). exists nd, r. split; auto. pose proof (find_node_in _ _ _ _ F) as [Jn Qn].
    destruct (pipeline_nodes _ _ H1 _ Jn) as (opt & at2 & sn2 & dd & J2 & _ & _ & C). destruct (compiled_passed _ _ _ C) as (nd0 & stmts & Pa).
    destruct (passed_names _ _ _ _ _ Pa) as (N1 & N2 & N3 & N4 & N5).
    assert (E2 : sn2 = sn).
    { assert (W : well_formed lib) by (apply accepted_well_formed; eauto). destruct W as (_ & W & _). assert (E : introduces (snd (at2, XNode sn2)) = introduces (snd (bt, XNode sn))) by (cbn; congruence).
      clear - W J2 Jb E. induction lib as [|c p IH]; [destruct Jb|]. cbn in W. inversion W as [|? ? W1 W2]; subst. destruct J2 as [->|J2], Jb as [Jb|Jb].
      - congruence.
      - exfalso. apply W1. rewrite E. apply (in_map (fun a => introduces (snd a))). auto.
      - exfalso. apply W1. subst c. rewrite <- E. apply (in_map (fun a => introduces (snd a))). auto.
      - auto. }
    subst sn2. split; rewrite <- (map_length v_name), tr_decls_names, <- types_length; [rewrite Q3|rewrite Q4]; rewrite types_length; [rewrite <- N1|rewrite <- N2]; rewrite map_length; auto. }
  assert (Pi : forall x nd r, find_node (nodes_of l1) x = Some (nd, r) -> exists i, init_inst (nodes_of l1) x = Ok i).
  { intros x nd r F. pose proof (find_node_in _ _ _ _ F) as [Jn Qn].
    assert (J : In x (map item_name (items_of l1))) by (rewrite (closed_items _ _ H1 Cl), map_map; apply in_map_iff; exists nd; auto).
    destruct (init_items lib _ (accepted_stacked _ _ H1) (pipeline_items _ _ H1) _ J) as (i & E). rewrite (closed_items _ _ H1 Cl), xinit_closed in E. eauto. }
  destruct Be as (Bi & _ & Br & _). unfold xoutputs, outputs. rewrite Bi. rewrite <- (plain_items_of l2).
  pose proof (linked_init mode glob (nodes_of l1) Pi _ St Sd f (proj2 (items_declared _ _ H2 f) (ex_intro _ a (conj Ja Qa)))) as Li.
  destruct (xinit (items_of l2) f) as [i|e], (init_inst (plain_items (items_of l2) ++ nodes_of l1) f) as [j|e']; cbn [rr bind] in *; try tauto; try congruence.
  rewrite Br, <- (plain_items_of l2). pose proof (linked_run mode glob (nodes_of l1) _ St Sd f ins _ _ Li) as R.
  unfold rr in R. set (x := xrun _ _ _ _ _ _ _) in *. set (y := run mode glob (plain_items (items_of l2) ++ nodes_of l1) f j ins) in *.
  destruct x as [[os x]|e], y as [[os2 y]|e2]; cbn [bind fst] in *; subst; tauto.
Qed.

Theorem closed_outputs : forall mode glob ext p l, result (pipeline p) = Some l -> closed p -> forall f ins,
  xoutputs mode glob ext (items_of l) f ins = outputs mode glob (nodes_of l) f ins.
Proof.
  intros mode glob ext p l H Cl f ins. unfold xoutputs, outputs. rewrite (closed_items _ _ H Cl), xinit_closed.
  destruct (init_inst (nodes_of l) f) as [i|]; cbn [bind]; auto. rewrite xrun_iter, run_iter. 
  rewrite (iter_ext _ (step mode glob (nodes_of l) f)); auto. intros. apply xstep_closed.
Qed.
