(** The call sites, flips and registers created by the translation. *)
From Coq Require Import String List ZArith Bool Arith Lia Permutation.
From Verif Require Import Model.Base Model.Scalar Model.Value Model.Ast Model.Errors Model.Interp Model.Options Model.Surface Model.Translate
  Spec.StepSpec Spec.CausalitySpec Spec.CoreSem Spec.TranslateSpec Proofs.AstInd Proofs.OutBasics Proofs.CoreProofs.
Import ListNotations.

Local Arguments seq : simpl never.

(** The statements that come from a source statement. *)
Definition sourced (i : stmt) : bool :=
  match i with SUpdate _ _ | SInit _ _ _ => false | _ => true end.

(** What has been created between two states: the expressions [es], to be
    placed in the program, and the statements [st], already placed. *)
Record created (s s' : tst) (es : list expr) (ls : list stmt) (bl : list ident) (st : list stmt) (nr nf : nat) : Prop := mkCreated {
  cr_blocks : t_blocks s' = t_blocks s ++ bl;
  cr_stmts : t_stmts s' = t_stmts s ++ st;
  cr_regs : t_regs s' = t_regs s + nr;
  cr_flips : t_flips s' = t_flips s + nf;
  cr_calls : Permutation (flat_map calls_of (es ++ flat_map stmt_exprs st)) (seq (length (t_blocks s)) (length bl));
  cr_flip_ids : Permutation (flat_map flips_of (es ++ flat_map stmt_exprs st)) (seq (t_flips s) nf);
  cr_reads : Permutation (map fst (flat_map reads_of (es ++ flat_map stmt_exprs st))) (seq (t_regs s) nr);
  cr_inits : Permutation (flat_map stmt_inits st) (seq (t_regs s) nr);
  cr_updates : Permutation (flat_map stmt_updates st) (seq (t_regs s) nr);
  cr_sourced : filter sourced st = ls;
  cr_fetch : forall id i n, In (id, (i, n)) (flat_map reads_of (es ++ flat_map stmt_exprs st)) ->
    In (SUpdate id n) st /\ In (SInit id i None) st;
  cr_update_occurs : forall id n, In (SUpdate id n) st -> exists i e,
    In e (es ++ flat_map stmt_exprs ls) /\ occurs (EFetch id i n) e;
  cr_init_occurs : forall id i c, In (SInit id i c) st -> exists n e,
    In e (es ++ flat_map stmt_exprs ls) /\ occurs (EFetch id i n) e
}.

Lemma occurs_trans : forall a b c, occurs a b -> occurs b c -> occurs a c.
Proof. intros a b c H K. induction K; auto. eapply occ_child; eauto. Qed.
Definition covers (es es' : list expr) : Prop := forall e, In e es -> exists e', In e' es' /\ occurs e e'.
Lemma covers_in : forall x es es' ls, covers es es' ->
  (exists e, In e (es ++ ls) /\ occurs x e) -> exists e, In e (es' ++ ls) /\ occurs x e.
Proof.
  intros x es es' ls C (e & I & O). apply in_app_iff in I. destruct I as [I|I].
  - apply C in I. destruct I as (e' & I & O'). exists e'. rewrite in_app_iff. split; auto. eapply occurs_trans; eauto.
  - exists e. rewrite in_app_iff. auto.
Qed.
Lemma covers_child : forall e, covers (children e) [e].
Proof. intros e x I. exists e. split; simpl; auto. eapply occ_child; eauto. constructor. Qed.

Definition pieces (s s' : tst) (es : list expr) (ls : list stmt) : Prop := exists bl st nr nf, created s s' es ls bl st nr nf.
Notation piece s s' es := (pieces s s' es []).

Lemma piece_nil : forall s, piece s s [].
Proof.
  intros s. exists [], [], 0, 0. split; simpl; rewrite ?app_nil_r, ?Nat.add_0_r; auto. all: intros; contradiction.
Qed.

Lemma perm_mid : forall {A} (a b c d : list A), Permutation ((a ++ b) ++ c ++ d) ((a ++ c) ++ b ++ d).
Proof.
  intros. rewrite <- !app_assoc. apply Permutation_app_head. rewrite !app_assoc. apply Permutation_app_tail.
  apply Permutation_app_comm.
Qed.

Lemma pieces_app : forall s s1 s2 es es' ls ls', pieces s s1 es ls -> pieces s1 s2 es' ls' -> pieces s s2 (es ++ es') (ls ++ ls').
Proof.
  intros s s1 s2 es es' ls ls' (bl & st & nr & nf & C) (bl' & st' & nr' & nf' & C').
  exists (bl ++ bl'), (st ++ st'), (nr + nr'), (nf + nf').
  assert (M : forall (X : Type) (f : expr -> list X), Permutation (flat_map f ((es ++ es') ++ flat_map stmt_exprs (st ++ st')))
     (flat_map f (es ++ flat_map stmt_exprs st) ++ flat_map f (es' ++ flat_map stmt_exprs st'))).
  { intros X f. rewrite !flat_map_app. apply perm_mid. }
  split.
  - rewrite (cr_blocks _ _ _ _ _ _ _ _ C'), (cr_blocks _ _ _ _ _ _ _ _ C), app_assoc. auto.
  - rewrite (cr_stmts _ _ _ _ _ _ _ _ C'), (cr_stmts _ _ _ _ _ _ _ _ C), app_assoc. auto.
  - rewrite (cr_regs _ _ _ _ _ _ _ _ C'), (cr_regs _ _ _ _ _ _ _ _ C). lia.
  - rewrite (cr_flips _ _ _ _ _ _ _ _ C'), (cr_flips _ _ _ _ _ _ _ _ C). lia.
  - rewrite M, app_length, seq_app. apply Permutation_app; [apply C|].
    pose proof (cr_calls _ _ _ _ _ _ _ _ C') as P. rewrite (cr_blocks _ _ _ _ _ _ _ _ C), app_length in P. auto.
  - rewrite M, seq_app. apply Permutation_app; [apply C|].
    pose proof (cr_flip_ids _ _ _ _ _ _ _ _ C') as P. rewrite (cr_flips _ _ _ _ _ _ _ _ C) in P. auto.
  - rewrite (Permutation_map _ (M _ _)), map_app, seq_app. apply Permutation_app; [apply C|].
    pose proof (cr_reads _ _ _ _ _ _ _ _ C') as P. rewrite (cr_regs _ _ _ _ _ _ _ _ C) in P. auto.
  - rewrite flat_map_app, seq_app. apply Permutation_app; [apply C|].
    pose proof (cr_inits _ _ _ _ _ _ _ _ C') as P. rewrite (cr_regs _ _ _ _ _ _ _ _ C) in P. auto.
  - rewrite flat_map_app, seq_app. apply Permutation_app; [apply C|].
    pose proof (cr_updates _ _ _ _ _ _ _ _ C') as P. rewrite (cr_regs _ _ _ _ _ _ _ _ C) in P. auto.
  - rewrite filter_app. f_equal; [apply C|apply C'].
  - intros id i n H. eapply Permutation_in in H; [|apply M]. apply in_app_iff in H. rewrite !in_app_iff.
    destruct H as [H|H]; [apply C in H|apply C' in H]; tauto.
  - intros id n I. apply in_app_iff in I. rewrite flat_map_app.
    destruct I as [I|I]; [apply C in I|apply C' in I]; destruct I as (i & e & I & O); exists i, e; split; auto;
      rewrite !in_app_iff in *; tauto.
  - intros id n c I. apply in_app_iff in I. rewrite flat_map_app.
    destruct I as [I|I]; [apply C in I|apply C' in I]; destruct I as (i & e & I & O); exists i, e; split; auto;
      rewrite !in_app_iff in *; tauto.
Qed.

Lemma piece_app : forall s s1 s2 es es', piece s s1 es -> piece s1 s2 es' -> piece s s2 (es ++ es').
Proof. intros s s1 s2 es es' A B. apply (pieces_app _ _ _ _ _ _ _ A B). Qed.

(** Same call sites, flips and registers. *)
Lemma piece_perm : forall s s' es es', piece s s' es ->
  Permutation (flat_map calls_of es) (flat_map calls_of es') ->
  Permutation (flat_map flips_of es) (flat_map flips_of es') ->
  Permutation (flat_map reads_of es) (flat_map reads_of es') ->
  covers es es' ->
  piece s s' es'.
Proof.
  intros s s' es es' (bl & st & nr & nf & C) H1 H2 H3 H4. exists bl, st, nr, nf.
  split; try apply C.
  - rewrite flat_map_app, <- H1, <- flat_map_app. apply C.
  - rewrite flat_map_app, <- H2, <- flat_map_app. apply C.
  - rewrite flat_map_app, map_app, <- H3, <- map_app, <- flat_map_app. apply C.
  - intros id i n H. eapply (cr_fetch _ _ _ _ _ _ _ _ C). rewrite flat_map_app in *.
    eapply Permutation_in; [|exact H]. apply Permutation_app_tail. symmetry. auto.
  - intros id n I. apply C in I. destruct I as (i & I). exists i. eapply covers_in; eauto.
  - intros id i c I. apply C in I. destruct I as (n & I). exists n. eapply covers_in; eauto.
Qed.

Lemma piece_sub : forall s s' e f d, piece s s' [e] ->
  piece s (add_block f s') [ESub d (length (t_blocks s')) e].
Proof.
  intros s s' e f d (bl & st & nr & nf & C). exists (bl ++ [f]), st, nr, nf. destruct C. simpl in *. split; auto.
  - simpl. rewrite cr_blocks0, app_assoc. auto.
  - simpl. rewrite app_length. simpl. rewrite Nat.add_1_r, seq_S. rewrite cr_blocks0, app_length.
    rewrite cr_calls0. rewrite Permutation_app_comm. auto.
  - intros id n I. apply cr_update_occurs0 in I. destruct I as (i & I). exists i.
    refine (covers_in _ (children (ESub d (length (t_blocks s')) e)) [ESub d (length (t_blocks s')) e] [] (covers_child (ESub d (length (t_blocks s')) e)) I).
  - intros id i c I. apply cr_init_occurs0 in I. destruct I as (n & I). exists n.
    refine (covers_in _ (children (ESub d (length (t_blocks s')) e)) [ESub d (length (t_blocks s')) e] [] (covers_child (ESub d (length (t_blocks s')) e)) I).
Qed.

Lemma piece_flip : forall s s' a b, piece s s' [a; b] -> piece s (new_flip s') [EFlip (t_flips s') a b].
Proof.
  intros s s' a b (bl & st & nr & nf & C). exists bl, st, nr, (S nf). destruct C. simpl in *.
  split; simpl; rewrite ?app_nil_r, <- ?app_assoc; auto; try lia.
  - rewrite seq_S, <- cr_flips0. rewrite cr_flip_ids0. rewrite Permutation_app_comm. auto.
  - intros id n I. apply cr_update_occurs0 in I. destruct I as (i & I). exists i.
    refine (covers_in _ (children (EFlip (t_flips s') a b)) [EFlip (t_flips s') a b] [] (covers_child (EFlip (t_flips s') a b)) I).
  - intros id i c I. apply cr_init_occurs0 in I. destruct I as (n & I). exists n.
    refine (covers_in _ (children (EFlip (t_flips s') a b)) [EFlip (t_flips s') a b] [] (covers_child (EFlip (t_flips s') a b)) I).
Qed.

Definition opt_list {A} (o : option A) : list A := match o with Some a => [a] | None => [] end.

(** The register allocated before its operands. *)
Lemma piece_fetch_before : forall s s' i n, piece (new_reg s) s' (opt_list i ++ [n]) ->
  piece s (add_stmt (SInit (t_regs s) i None) (add_stmt (SUpdate (t_regs s) n) s')) [EFetch (t_regs s) i n].
Proof.
  intros s s' i n (bl & st & nr & nf & C). destruct C. simpl in *.
  exists bl, (st ++ [SUpdate (t_regs s) n; SInit (t_regs s) i None]), (S nr), nf.
  assert (M : forall (X : Type) (f : expr -> list X), Permutation (flat_map f (flat_map stmt_exprs (st ++ [SUpdate (t_regs s) n; SInit (t_regs s) i None])))
     (flat_map f ((opt_list i ++ [n]) ++ flat_map stmt_exprs st))).
  { intros X f. rewrite !flat_map_app. rewrite Permutation_app_comm. apply Permutation_app_tail.
    destruct i; simpl; rewrite ?app_nil_r; auto using Permutation_app_comm. }
  split; simpl; auto.
  - rewrite <- !app_assoc, cr_stmts0. rewrite <- app_assoc. auto.
  - lia.
  - rewrite M. auto.
  - rewrite M. auto.
  - apply perm_skip. rewrite (Permutation_map _ (M _ _)). auto.
  - rewrite flat_map_app. simpl. rewrite Permutation_app_comm. simpl. apply perm_skip. auto.
  - rewrite flat_map_app. simpl. rewrite Permutation_app_comm. simpl. apply perm_skip. auto.
  - rewrite filter_app, cr_sourced0. auto.
  - intros id i' n' [H|H].
    + inversion H; subst. rewrite !in_app_iff. simpl. auto.
    + eapply Permutation_in in H; [|apply M]. apply cr_fetch0 in H. rewrite !in_app_iff. tauto.
  - intros id n' I. apply in_app_iff in I. destruct I as [I|[I|[I|[]]]]; [|inversion I; subst|discriminate].
    + apply cr_update_occurs0 in I. destruct I as (i' & I). exists i'.
      refine (covers_in _ (children (EFetch (t_regs s) i n)) [EFetch (t_regs s) i n] [] (covers_child (EFetch (t_regs s) i n)) _). destruct i; exact I.
    + exists i. eexists. split; [left; reflexivity|constructor].
  - intros id i' c I. apply in_app_iff in I. destruct I as [I|[I|[I|[]]]]; [|discriminate|inversion I; subst].
    + apply cr_init_occurs0 in I. destruct I as (n' & I). exists n'.
      refine (covers_in _ (children (EFetch (t_regs s) i n)) [EFetch (t_regs s) i n] [] (covers_child (EFetch (t_regs s) i n)) _). destruct i; exact I.
    + exists n. eexists. split; [left; reflexivity|constructor].
Qed.

(** The register allocated after its operands. *)
Lemma piece_fetch_after : forall s s' i n, piece s s' (opt_list i ++ [n]) ->
  piece s (add_stmt (SInit (t_regs s') i None) (add_stmt (SUpdate (t_regs s') n) (new_reg s'))) [EFetch (t_regs s') i n].
Proof.
  intros s s' i n (bl & st & nr & nf & C). destruct C. simpl in *.
  exists bl, (st ++ [SUpdate (t_regs s') n; SInit (t_regs s') i None]), (S nr), nf.
  assert (M : forall (X : Type) (f : expr -> list X), Permutation (flat_map f (flat_map stmt_exprs (st ++ [SUpdate (t_regs s') n; SInit (t_regs s') i None])))
     (flat_map f ((opt_list i ++ [n]) ++ flat_map stmt_exprs st))).
  { intros X f. rewrite !flat_map_app. rewrite Permutation_app_comm. apply Permutation_app_tail.
    destruct i; simpl; rewrite ?app_nil_r; auto using Permutation_app_comm. }
  split; simpl; auto.
  - rewrite <- !app_assoc, cr_stmts0. rewrite <- app_assoc. auto.
  - lia.
  - rewrite M. auto.
  - rewrite M. auto.
  - rewrite (Permutation_map _ (M _ _)), cr_reads0. rewrite seq_S, cr_regs0. rewrite Permutation_app_comm. auto.
  - rewrite flat_map_app. simpl. rewrite cr_inits0, seq_S, cr_regs0. auto.
  - rewrite flat_map_app. simpl. rewrite cr_updates0, seq_S, cr_regs0. auto.
  - rewrite filter_app, cr_sourced0. auto.
  - intros id i' n' [H|H].
    + inversion H; subst. rewrite !in_app_iff. simpl. auto.
    + eapply Permutation_in in H; [|apply M]. apply cr_fetch0 in H. rewrite !in_app_iff. tauto.
  - intros id n' I. apply in_app_iff in I. destruct I as [I|[I|[I|[]]]]; [|inversion I; subst|discriminate].
    + apply cr_update_occurs0 in I. destruct I as (i' & I). exists i'.
      refine (covers_in _ (children (EFetch (t_regs s') i n)) [EFetch (t_regs s') i n] [] (covers_child (EFetch (t_regs s') i n)) _). destruct i; exact I.
    + exists i. eexists. split; [left; reflexivity|constructor].
  - intros id i' c I. apply in_app_iff in I. destruct I as [I|[I|[I|[]]]]; [|discriminate|inversion I; subst].
    + apply cr_init_occurs0 in I. destruct I as (n' & I). exists n'.
      refine (covers_in _ (children (EFetch (t_regs s') i n)) [EFetch (t_regs s') i n] [] (covers_child (EFetch (t_regs s') i n)) _). destruct i; exact I.
    + exists n. eexists. split; [left; reflexivity|constructor].
Qed.

Section Pieces.
  Variable f : sexpr -> nat -> tst -> out (expr * tst).
  Definition piecewise (e : sexpr) : Prop := forall d s r s', result (f e d s) = Some (r, s') -> piece s s' [r].

  Lemma tr_elems_piece : forall l, Forall piecewise l -> forall d s r s',
    result (tr_elems f l d s) = Some (r, s') -> piece s s' r.
  Proof.
    induction 1 as [|e l H _ IH]; intros d s r s' E; cbn in E; inv_out; [apply piece_nil|].
    change (e0 :: l0) with ([e0] ++ l0). eapply piece_app; eauto.
  Qed.

  Lemma tr_left_piece : forall O (compose : O -> expr -> expr -> expr),
    (forall op a b, calls_of (compose op a b) = calls_of a ++ calls_of b) ->
    (forall op a b, flips_of (compose op a b) = flips_of a ++ flips_of b) ->
    (forall op a b, reads_of (compose op a b) = reads_of a ++ reads_of b) ->
    (forall op a b, children (compose op a b) = [a; b]) ->
    forall l, Forall (fun p => piecewise (snd p)) l -> forall s0 acc d s r s', piece s0 s [acc] ->
    result (tr_left f compose acc l d s) = Some (r, s') -> piece s0 s' [r].
  Proof.
    intros O compose C1 C2 C3 C4. induction 1 as [|[op e] l H _ IH]; intros s0 acc d s r s' P E; cbn in E; inv_out; auto.
    eapply IH; [|exact E]. apply H in E0. pose proof (piece_app _ _ _ _ _ P E0) as Q.
    eapply piece_perm; [exact Q| | | |simpl; rewrite <- (C4 op acc e0); apply covers_child]; simpl; rewrite ?C1, ?C2, ?C3, ?app_nil_r; auto.
  Qed.

  Lemma tr_right_piece : forall bump compose,
    (forall d i a b s0 s r s', piece s0 s [b; a] -> compose d i a b s = (r, s') -> piece s0 s' [r]) ->
    forall l, Forall piecewise l -> forall i d s r s',
    result (tr_right f bump compose i l d s) = Some (r, s') -> piece s s' (opt_list r).
  Proof.
    intros bump compose C. induction 1 as [|e l H _ IH]; intros i d s r s' E; cbn in E; inv_out; [apply piece_nil|].
    apply IH in E0. apply H in E1. pose proof (piece_app _ _ _ _ _ E0 E1) as Q.
    destruct o; simpl in Q.
    - destruct (compose d i e0 e1 t0) as [x y] eqn:Ec. inv_out. simpl. eapply C; eauto.
    - inv_out. auto.
  Qed.
End Pieces.

Ltac cov := let x := fresh in let I := fresh in intros x I; simpl in I;
  repeat match goal with H : _ \/ _ |- _ => destruct H as [H|H] end; try subst x; try contradiction;
  first [ eexists; split; [left; reflexivity|constructor; fail]
        | eexists; split; [left; reflexivity|eapply occ_child; [|constructor]; simpl; tauto]
        | eexists; split; [|constructor]; simpl; tauto ].

Lemma later_piece : forall d i a b s0 s r s', piece s0 s [b; a] -> later d i a b s = (r, s') -> piece s0 s' [r].
Proof.
  intros d i a b s0 s r s' P E. inversion E; subst.
  eapply piece_perm; [exact P| | | |cov]; simpl; rewrite ?app_nil_r; apply Permutation_app_comm.
Qed.
Lemma fby_registers_piece : forall d i a b s0 s r s', piece s0 s [b; a] -> fby_registers d i a b s = (r, s') -> piece s0 s' [r].
Proof.
  intros d i a b s0 s r s' P E. inversion E; subst. apply (piece_fetch_after s0 s (Some a) b).
  eapply piece_perm; [exact P| | | |cov]; simpl; rewrite ?app_nil_r; apply Permutation_app_comm.
Qed.
Lemma then_flips_piece : forall d i a b s0 s r s', piece s0 s [b; a] -> then_flips d i a b s = (r, s') -> piece s0 s' [r].
Proof.
  intros d i a b s0 s r s' P E. inversion E; subst. apply piece_flip.
  eapply piece_perm; [exact P| | | |cov]; simpl; rewrite ?app_nil_r; apply Permutation_app_comm.
Qed.

Ltac same P := eapply piece_perm; [exact P| | | |cov]; simpl; rewrite ?app_nil_r, ?app_assoc; auto.

Lemma paren_piece : forall s s' es b, piece s s' es -> piece s s' [paren es b].
Proof.
  intros s s' es b P. unfold paren. destruct es as [|e [|e' es]]; try destruct b; same P.
Qed.

Lemma tr_piece : forall u locals e, piecewise (tr u locals) e.
Proof.
  intros u locals e. induction e using sexpr_ind'; intros d s r s' E; cbn [tr] in E.
  - inv_out. assert (P := piece_nil s'). destruct l; unfold tr_lit in E0; try destruct (in_i64 _); inv_out; same P.
  - inv_out. assert (P := piece_nil s'). unfold tr_var. destruct (existsb _ _); same P.
  - inv_out. apply paren_piece. eapply tr_elems_piece; eauto.
  - inv_out. apply piece_sub. apply paren_piece. eapply tr_elems_piece; eauto.
  - inv_out. assert (P := IHe _ _ _ _ E0). same P.
  - inv_out. assert (P := IHe _ _ _ _ E0). same P.
  - destruct u; inv_out.
    + apply (piece_fetch_before s t None e0). apply IHe in E0. auto.
    + assert (P := IHe _ _ _ _ E0). same P.
  - inv_out. apply IHe1 in E0. apply IHe2 in E1. apply IHe3 in E2.
    pose proof (piece_app _ _ _ _ _ (piece_app _ _ _ _ _ E0 E1) E2) as P. same P.
  - inv_out. apply IHe1 in E0. apply IHe2 in E1. apply IHe3 in E2.
    pose proof (piece_app _ _ _ _ _ (piece_app _ _ _ _ _ E0 E1) E2) as P. same P.
  - inv_out. eapply tr_left_piece; [| | | |eauto|eapply IHe; eauto|exact E]; auto.
  - inv_out. destruct l as [|[op e1] [|[op' e2] l]]; inv_out; eauto.
    inversion H; subst. cbn [snd] in *. apply IHe in E0.
    match goal with X : piecewise _ e1 |- _ => apply X in E1 end.
    pose proof (piece_app _ _ _ _ _ E0 E1) as P. same P.
  - inv_out. eapply tr_left_piece; [| | | |eauto|eapply IHe; eauto|exact E]; auto.
  - inv_out. assert (G : piece s t (opt_list o)).
    { destruct u; (eapply tr_right_piece; [|exact H|exact E0]); [apply fby_registers_piece|apply later_piece]. }
    apply IHe in E1. pose proof (piece_app _ _ _ _ _ G E1) as P.
    destruct o; simpl in P; [|inv_out; auto].
    destruct u; [eapply (fby_registers_piece d 0)|eapply (later_piece d 0)]; eauto; cbn in E; inv_out; reflexivity.
  - inv_out. assert (G : piece s t (opt_list o)).
    { destruct u; (eapply tr_right_piece; [|exact H|exact E0]); [apply then_flips_piece|apply later_piece]. }
    apply IHe in E1. pose proof (piece_app _ _ _ _ _ G E1) as P.
    destruct o; simpl in P; [|inv_out; auto].
    destruct u; [eapply (then_flips_piece d 0)|eapply (later_piece d 0)]; eauto; cbn in E; inv_out; reflexivity.
Qed.

(** A source statement. *)
Lemma piece_stmt : forall s s' e i, piece s s' [e] -> stmt_exprs i = [e] -> sourced i = true ->
  pieces s (add_stmt i s') [] [i].
Proof.
  intros s s' e i (bl & st & nr & nf & C) He Hs. destruct C.
  exists bl, (st ++ [i]), nr, nf. simpl in *.
  assert (M : forall (X : Type) (f : expr -> list X), Permutation (flat_map f (flat_map stmt_exprs (st ++ [i])))
     (f e ++ flat_map f (flat_map stmt_exprs st))).
  { intros X f. rewrite !flat_map_app. simpl. rewrite He. simpl. rewrite app_nil_r. apply Permutation_app_comm. }
  assert (I0 : stmt_inits i = [] /\ stmt_updates i = []) by (destruct i; try discriminate; auto). destruct I0 as [I1 I2].
  split; simpl; auto.
  - rewrite cr_stmts0, app_assoc. auto.
  - rewrite M. auto.
  - rewrite M. auto.
  - rewrite (Permutation_map _ (M _ _)). auto.
  - rewrite flat_map_app. simpl. rewrite I1, !app_nil_r. auto.
  - rewrite flat_map_app. simpl. rewrite I2, !app_nil_r. auto.
  - rewrite filter_app, cr_sourced0. simpl. rewrite Hs. auto.
  - intros id i' n' H. eapply Permutation_in in H; [|apply M]. apply cr_fetch0 in H. rewrite !in_app_iff. tauto.
  - intros id n I. rewrite He. apply in_app_iff in I. destruct I as [I|[I|[]]]; [|subst i; discriminate].
    apply cr_update_occurs0 in I. auto.
  - intros id n c I. rewrite He. apply in_app_iff in I. destruct I as [I|[I|[]]]; [|subst i; discriminate].
    apply cr_init_occurs0 in I. auto.
Qed.

(** [i'] is the translation of [i], and the blocks it refers to are among
    [blocks]. *)
Definition translates (u : bool) (locals : list ident) (blocks : list ident) (i : sstmt) (i' : stmt) : Prop :=
  exists s s' e' bl,
    match i with
    | XAssert e => result (tr u locals e 0 s) = Some (e', s') /\ i' = SAssert e'
    | XDef t e => result (tr u locals e 0 s) = Some (e', s') /\ i' = SLet (tr_target t) e'
    end /\ blocks = t_blocks s' ++ bl.

Lemma translates_grow : forall u locals blocks bl i i', translates u locals blocks i i' -> translates u locals (blocks ++ bl) i i'.
Proof.
  intros u locals blocks bl i i' (s & s' & e' & bl' & H & ->). exists s, s', e', (bl' ++ bl). split; auto. apply eq_sym, app_assoc.
Qed.

Lemma tr_stmt_pieces : forall u locals i s s', result (tr_stmt u locals i s) = Some s' ->
  exists i', pieces s s' [] [i'] /\ translates u locals (t_blocks s') i i'.
Proof.
  intros u locals i s s' H. destruct i; cbn [tr_stmt] in H; inv_out.
  - exists (SLet (tr_target target) e). split.
    + eapply piece_stmt; [eapply tr_piece; eauto|auto|auto].
    + exists s, t, e, []. simpl. rewrite app_nil_r. auto.
  - exists (SAssert e0). split.
    + eapply piece_stmt; [eapply tr_piece; eauto|auto|auto].
    + exists s, t, e0, []. simpl. rewrite app_nil_r. auto.
Qed.

Lemma tr_stmts_pieces : forall u locals l s s', result (tr_stmts u locals l s) = Some s' ->
  exists ls, pieces s s' [] ls /\ Forall2 (translates u locals (t_blocks s')) l ls.
Proof.
  induction l as [|i l IH]; intros s s' H; cbn [tr_stmts] in H; inv_out.
  - exists []. split; [apply piece_nil|constructor].
  - rename r into s1. apply IH in H. destruct H as (ls & P & Q). apply tr_stmt_pieces in E. destruct E as (i' & P' & Q').
    exists (i' :: ls). split; [apply (pieces_app _ _ _ _ _ _ _ P' P)|]. constructor; auto.
    destruct P as (bl & st & nr & nf & C). rewrite (cr_blocks _ _ _ _ _ _ _ _ C). apply translates_grow. auto.
Qed.

(** The result of the translation of a node. *)
Record translated (u : bool) (sn : snode) (nd : node) : Prop := mkTranslated {
  td_name : n_name nd = s_name sn;
  td_inputs : n_inputs nd = tr_decls (s_inputs sn);
  td_outputs : n_outputs nd = tr_decls (s_outputs sn);
  td_locals : n_locals nd = tr_decls (s_locals sn);
  td_calls : Permutation (flat_map calls_of (flat_map stmt_exprs (n_stmts nd))) (seq 0 (length (n_blocks nd)));
  td_flips : Permutation (flat_map flips_of (flat_map stmt_exprs (n_stmts nd))) (seq 0 (n_flips nd));
  td_reads : Permutation (map fst (flat_map reads_of (flat_map stmt_exprs (n_stmts nd)))) (seq 0 (length (n_regs nd)));
  td_inits : Permutation (flat_map stmt_inits (n_stmts nd)) (seq 0 (length (n_regs nd)));
  td_updates : Permutation (flat_map stmt_updates (n_stmts nd)) (seq 0 (length (n_regs nd)));
  td_fetch : forall id i n, In (id, (i, n)) (flat_map reads_of (flat_map stmt_exprs (n_stmts nd))) ->
    In (SUpdate id n) (n_stmts nd) /\ In (SInit id i None) (n_stmts nd);
  td_update_occurs : forall id n, In (SUpdate id n) (n_stmts nd) -> exists i e,
    In e (flat_map stmt_exprs (filter sourced (n_stmts nd))) /\ occurs (EFetch id i n) e;
  td_init_occurs : forall id i c, In (SInit id i c) (n_stmts nd) -> exists n e,
    In e (flat_map stmt_exprs (filter sourced (n_stmts nd))) /\ occurs (EFetch id i n) e;
  td_sourced : Forall2 (translates u (map v_name (all_vars nd)) (n_blocks nd)) (s_defs sn) (filter sourced (n_stmts nd))
}.

Lemma tr_node_translated : forall o sn nd, result (tr_node o sn) = Some nd -> translated (o_universal o) sn nd.
Proof.
  intros o sn nd H. unfold tr_node in H. inv_out. rename r into s.
  apply tr_stmts_pieces in E. destruct E as (ls & (bl & st & nr & nf & C) & Q). destruct C. simpl in *. subst.
  split; simpl; auto; rewrite ?cr_stmts0, ?cr_blocks0, ?cr_flips0, ?repeat_length, ?cr_regs0; auto.
Qed.
