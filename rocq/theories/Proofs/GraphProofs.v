(** Correctness of the scheduler. *)
From Coq Require Import List Arith Bool Lia Permutation.
From Verif Require Import Model.Base Model.Graph Spec.GraphSpec Proofs.InterpBasics Proofs.Tarjan.
Import ListNotations.

Lemma existsb_eqb : forall k l, existsb (Nat.eqb k) l = true <-> In k l.
Proof.
  intros. rewrite existsb_exists. split.
  - intros (a & J & E). apply Nat.eqb_eq in E. subst. auto.
  - intros J. exists k. split; auto. apply Nat.eqb_refl.
Qed.

(** ** The constraint tables *)
(** [tables l provider cs]: [l] are the (provided, required) pairs of uids of the
    objects number [id0, id0+1, ...]; the tables describe them. *)
Section Tables.
  Variable nb : nat.
  Variable by_ext : list nat.

  Definition prov (provider : list (option nat)) (p : nat) : option nat :=
    match nth_error provider p with Some (Some k) => Some k | _ => None end.
  Definition cstr (cs : list (list nat)) (p : nat) : list nat :=
    match nth_error cs p with Some l => l | None => [] end.

  Lemma add_requires_ok : forall p rs cs cs', add_requires p rs cs = inl cs' ->
    length cs' = length cs /\ ~ In p rs /\
    forall q, cstr cs' q = if p =? q then cstr cs q ++ rs else cstr cs q.
  Proof.
    induction rs as [|r rs IH]; intros cs cs' H; simpl in H.
    - inversion H; subst. repeat split; auto. intros q. rewrite app_nil_r. destruct (p =? q); auto.
    - destruct (Nat.eqb_spec r p) as [|N]; [discriminate|].
      destruct (nth_error cs p) as [l|] eqn:E; [|discriminate].
      apply IH in H. destruct H as (A & B & C). rewrite set_nth_length in A. repeat split; auto.
      + simpl. intros [->|J]; auto.
      + intros q. rewrite C. unfold cstr. destruct (Nat.eqb_spec p q) as [->|Nq].
        * rewrite nth_error_set_nth_eq by eauto using nth_error_some_lt. rewrite E, <- app_assoc. auto.
        * rewrite nth_error_set_nth_neq by auto. auto.
  Qed.

  Lemma add_requires_err : forall p rs cs e, p < length cs -> add_requires p rs cs = inr e ->
    e = GraphUnitDependsOnItself /\ In p rs.
  Proof.
    induction rs as [|r rs IH]; intros cs e L H; simpl in H; [discriminate|].
    destruct (Nat.eqb_spec r p) as [->|N]; [inversion H; simpl; auto|].
    destruct (nth_error cs p) eqn:E; [|apply nth_error_None in E; lia].
    apply IH in H; [|rewrite set_nth_length; auto]. simpl. tauto.
  Qed.

  Lemma prov_set : forall provider p k q, p < length provider ->
    prov (set_nth p (Some k) provider) q = if p =? q then Some k else prov provider q.
  Proof.
    intros. unfold prov. destruct (Nat.eqb_spec p q) as [->|N].
    - rewrite nth_error_set_nth_eq; auto.
    - rewrite nth_error_set_nth_neq; auto.
  Qed.

  Definition mem (p : nat) (l : list nat) : bool := existsb (Nat.eqb p) l.
  Lemma mem_in : forall p l, mem p l = true <-> In p l.
  Proof. intros; apply existsb_eqb. Qed.
  Lemma mem_not : forall p l, mem p l = false <-> ~ In p l.
  Proof. intros. rewrite <- mem_in. destruct (mem p l); intuition congruence. Qed.

  Lemma add_provides_ok : forall id rs ps provider cs provider' cs',
    add_provides by_ext id rs ps provider cs = inl (provider', cs') ->
    length provider' = length provider /\ length cs' = length cs /\
    NoDup ps /\ (forall p, In p ps -> ~ In p by_ext /\ prov provider p = None /\ ~ In p rs /\ p < length provider) /\
    (forall q, prov provider' q = if mem q ps then Some id else prov provider q) /\
    (forall q, cstr cs' q = if mem q ps then cstr cs q ++ rs else cstr cs q).
  Proof.
    induction ps as [|p ps IH]; intros provider cs provider' cs' H; simpl in H.
    - inversion H; subst. simpl. repeat split; auto; try tauto. constructor.
    - destruct (existsb (Nat.eqb p) by_ext) eqn:X; [discriminate|].
      assert (Np : ~ In p by_ext) by (rewrite <- existsb_eqb; congruence).
      destruct (nth_error provider p) as [[k|]|] eqn:E; try discriminate.
      assert (Lp : p < length provider) by eauto using nth_error_some_lt.
      destruct (add_requires p rs cs) as [cs1|] eqn:R; [|discriminate].
      apply add_requires_ok in R. destruct R as (R1 & R2 & R3).
      apply IH in H. destruct H as (A & B & C & D & F & G).
      rewrite set_nth_length in A.
      assert (Nps : ~ In p ps).
      { intros J. destruct (D p J) as (_ & Q & _). rewrite prov_set, Nat.eqb_refl in Q by auto. discriminate. }
      repeat split; auto; try congruence.
      + constructor; auto.
      + destruct H as [<-|J]; auto. apply D; auto.
      + destruct H as [<-|J].
        * unfold prov. rewrite E. auto.
        * destruct (D p0 J) as (_ & Q & _). rewrite prov_set in Q by auto. destruct (p =? p0); [discriminate|auto].
      + destruct H as [<-|J]; auto. apply D; auto.
      + destruct H as [<-|J]; auto. destruct (D p0 J) as (_ & _ & _ & L). rewrite set_nth_length in L. auto.
      + intros q. rewrite F, prov_set by auto. simpl. rewrite (Nat.eqb_sym p q).
        destruct (Nat.eqb_spec q p) as [->|N]; simpl; auto. destruct (mem p ps); auto.
      + intros q. rewrite G, R3. simpl. rewrite (Nat.eqb_sym p q).
        destruct (Nat.eqb_spec q p) as [->|N]; simpl; auto.
        rewrite (proj2 (mem_not p ps)); auto.
  Qed.

  Definition decl_twice_in (ps : list nat) (provider : list (option nat)) : Prop :=
    ~ NoDup ps \/ exists p, In p ps /\ (In p by_ext \/ prov provider p <> None).

  Lemma add_provides_err : forall id rs ps provider cs e,
    (forall p, In p ps -> p < length provider) -> length cs = length provider ->
    add_provides by_ext id rs ps provider cs = inr e ->
    (e = GraphUnitDeclTwice /\ decl_twice_in ps provider) \/
    (e = GraphUnitDependsOnItself /\ exists p, In p ps /\ In p rs).
  Proof.
    induction ps as [|p ps IH]; intros provider cs e L Lc H; simpl in H; [discriminate|].
    destruct (existsb (Nat.eqb p) by_ext) eqn:X.
    { inversion H. left. split; auto. right. exists p. split; [simpl; auto|]. left. apply existsb_eqb. auto. }
    destruct (nth_error provider p) as [[k|]|] eqn:E.
    - inversion H. left. split; auto. right. exists p. simpl. split; auto. right. unfold prov. rewrite E. discriminate.
    - assert (Lp : p < length provider) by eauto using nth_error_some_lt.
      destruct (add_requires p rs cs) as [cs1|] eqn:R.
      + apply add_requires_ok in R. destruct R as (R1 & R2 & R3).
        apply IH in H.
        * destruct H as [[-> H]|[-> (q & J & K)]].
          -- left. split; auto. destruct H as [H|(q & J & K)].
             ++ left. intros ND. inversion ND; auto.
             ++ destruct (Nat.eq_dec p q) as [<-|N]; [left; intros ND; inversion ND; auto|].
                right. exists q. simpl. split; auto. rewrite prov_set in K by auto.
                rewrite (proj2 (Nat.eqb_neq p q)) in K; auto.
          -- right. split; auto. exists q. simpl. auto.
        * intros q J. rewrite set_nth_length. apply L. simpl; auto.
        * rewrite set_nth_length. lia.
      + apply add_requires_err in R; [|lia]. destruct R as [-> R]. inversion H; subst.
        right. split; auto. exists p. simpl. auto.
    - apply nth_error_None in E. specialize (L p (or_introl eq_refl)). lia.
  Qed.

  (** The owner of a unit. *)
  Definition owner (id0 : nat) (l : list (list nat * list nat)) (p k : nat) : Prop :=
    exists ps rs, nth_error l (k - id0) = Some (ps, rs) /\ id0 <= k /\ In p ps.

  Lemma add_objects_ok : forall l id provider cs provider' cs',
    length cs = length provider ->
    add_objects by_ext id l provider cs = inl (provider', cs') ->
    length provider' = length provider /\ length cs' = length provider /\
    NoDup (concat (map fst l)) /\
    (forall p, In p (concat (map fst l)) -> ~ In p by_ext /\ prov provider p = None) /\
    (forall k ps rs p, nth_error l k = Some (ps, rs) -> In p ps ->
        ~ In p rs /\ prov provider' p = Some (id + k) /\ cstr cs' p = cstr cs p ++ rs) /\
    (forall p, ~ In p (concat (map fst l)) -> prov provider' p = prov provider p /\ cstr cs' p = cstr cs p).
  Proof.
    induction l as [|(ps, rs) l IH]; intros id provider cs provider' cs' Lc H; simpl in H.
    - inversion H; subst. simpl. split; auto. split; auto. split; [constructor|]. split; [tauto|]. split; [|auto].
      intros [|k]; discriminate.
    - destruct (add_provides by_ext id rs ps provider cs) as [[pr1 cs1]|] eqn:A; [|discriminate].
      apply add_provides_ok in A. destruct A as (A1 & A2 & A3 & A4 & A5 & A6).
      apply IH in H; [|lia]. destruct H as (B1 & B2 & B3 & B4 & B5 & B6).
      assert (Disj : forall p, In p ps -> ~ In p (concat (map fst l))).
      { intros p J K. destruct (B4 p K) as [_ Q]. rewrite A5 in Q. rewrite (proj2 (mem_in p ps)) in Q; auto. discriminate. }
      simpl. split; [lia|]. split; [lia|]. split; [|split; [|split]].
      + apply nodup_app; auto.
      + intros p J. apply in_app_iff in J. destruct J as [J|J].
        * destruct (A4 p J) as (? & ? & _). auto.
        * destruct (B4 p J) as [? Q]. split; auto. rewrite A5 in Q. destruct (mem p ps); [discriminate|auto].
      + intros [|k] ps' rs' p E J; simpl in E.
        * inversion E; subst ps' rs'. destruct (A4 p J) as (_ & _ & ? & _).
          destruct (B6 p (Disj p J)) as [Q1 Q2]. rewrite Q1, Q2, A5, A6.
          rewrite (proj2 (mem_in p ps) J), Nat.add_0_r. auto.
        * assert (K : In p (concat (map fst l))).
          { apply in_concat. exists ps'. split; auto. apply in_map_iff. exists (ps', rs'). split; auto. eapply nth_error_In; eauto. }
          destruct (B5 k ps' rs' p E J) as (C1 & C2 & C3). split; auto. rewrite C2, C3, A6.
          rewrite (proj2 (mem_not p ps)).
          -- split; auto. f_equal. lia.
          -- intros J'. eapply Disj; eauto.
      + intros p N. rewrite in_app_iff in N. destruct (B6 p) as [Q1 Q2]; [tauto|].
        rewrite Q1, Q2, A5, A6. rewrite (proj2 (mem_not p ps)); tauto.
  Qed.

  Lemma add_objects_err : forall l id provider cs e,
    (forall p, In p (concat (map fst l)) -> p < length provider) -> length cs = length provider ->
    add_objects by_ext id l provider cs = inr e ->
    (e = GraphUnitDeclTwice /\
       (~ NoDup (concat (map fst l)) \/
        exists p, In p (concat (map fst l)) /\ (In p by_ext \/ prov provider p <> None))) \/
    (e = GraphUnitDependsOnItself /\ exists k ps rs p, nth_error l k = Some (ps, rs) /\ In p ps /\ In p rs).
  Proof.
    induction l as [|(ps, rs) l IH]; intros id provider cs e L Lc H; simpl in H; [discriminate|].
    destruct (add_provides by_ext id rs ps provider cs) as [[pr1 cs1]|e'] eqn:A.
    - apply add_provides_ok in A. destruct A as (A1 & A2 & A3 & A4 & A5 & A6).
      apply IH in H.
      + destruct H as [[-> H]|[-> (k & ps' & rs' & p & H)]].
        * left. split; auto. simpl. destruct H as [H|(p & J & K)].
          -- left. intros ND. apply H. clear - ND. induction ps; simpl in *; auto. inversion ND; auto.
          -- destruct (mem p ps) eqn:M.
             ++ left. intros ND. apply mem_in in M. clear - ND M J. induction ps as [|q ps IH]; simpl in *; [tauto|].
                inversion ND; subst. destruct M as [->|M]; auto. apply H1. apply in_app_iff; auto.
             ++ right. exists p. rewrite in_app_iff. split; auto. rewrite A5, M in K. auto.
        * right. split; auto. exists (S k), ps', rs', p. auto.
      + intros p J. rewrite A1. apply L. simpl. apply in_app_iff; auto.
      + lia.
    - inversion H; subst e'. apply add_provides_err in A; auto.
      + destruct A as [[-> A]|[-> (p & J & K)]].
        * left. split; auto. simpl. destruct A as [A|(p & J & K)].
          -- left. intros ND. apply A. clear - ND. induction ps; simpl in *; constructor; inversion ND; subst; auto.
             intros J. apply H1. apply in_app_iff; auto.
          -- right. exists p. rewrite in_app_iff. auto.
        * right. split; auto. exists 0, ps, rs, p. auto.
      + intros p J. apply L. simpl. apply in_app_iff; auto.
  Qed.
End Tables.

(** ** Taking the objects *)
(** Positions of the objects, in the order they are taken. *)
Fixpoint take_pos (provider : list (option nat)) (us : list nat) (taken : list nat) : list nat :=
  match us with
  | [] => []
  | u :: us =>
      match prov provider u with
      | Some k => if mem k taken then take_pos provider us taken
                  else k :: take_pos provider us (k :: taken)
      | None => take_pos provider us taken
      end
  end.

Lemma take_pos_in : forall provider us taken k,
  In k (take_pos provider us taken) <-> (~ In k taken /\ exists u, In u us /\ prov provider u = Some k).
Proof.
  induction us as [|u us IH]; intros taken k; simpl.
  - split; [tauto|]. intros (_ & u & [] & _).
  - destruct (prov provider u) as [j|] eqn:E.
    + destruct (mem j taken) eqn:M.
      * rewrite IH. split; intros (A & w & B & C); split; auto; [exists w; auto|].
        destruct B as [<-|B]; eauto. exfalso. apply A. apply mem_in. congruence.
      * simpl. rewrite IH. simpl. apply mem_not in M. split.
        -- intros [<-|(A & w & B & C)]; [split; auto; exists u; auto|]. split; [tauto|]. exists w; auto.
        -- intros (A & w & [<-|B] & C); [left; congruence|].
           destruct (Nat.eq_dec j k); auto. right. split; [intuition congruence|]. eauto.
    + rewrite IH. split; intros (A & w & B & C); split; auto; exists w; auto.
      destruct B as [<-|B]; [congruence|auto].
Qed.

Lemma take_pos_nodup : forall provider us taken, NoDup (take_pos provider us taken).
Proof.
  induction us as [|u us IH]; intros taken; simpl; [constructor|].
  destruct (prov provider u) as [j|]; auto. destruct (mem j taken); auto.
  constructor; auto. rewrite take_pos_in. simpl. tauto.
Qed.

(** Where a position first appears: there is a unit it provides, and everything
    before it in the result is provided before that unit. *)
Lemma take_pos_split : forall provider us taken l1 k l2,
  take_pos provider us taken = l1 ++ k :: l2 ->
  exists us1 u us2, us = us1 ++ u :: us2 /\ prov provider u = Some k /\
    forall w j, In w us1 -> prov provider w = Some j -> In j l1 \/ In j taken.
Proof.
  induction us as [|u us IH]; intros taken l1 k l2 H; simpl in H.
  - destruct l1; discriminate.
  - destruct (prov provider u) as [j|] eqn:E.
    + destruct (mem j taken) eqn:M.
      * destruct (IH _ _ _ _ H) as (us1 & v & us2 & -> & A & B). exists (u :: us1), v, us2. split; [auto|split; [auto|]].
        intros w i [<-|J] F; eauto. right. apply mem_in. congruence.
      * destruct l1 as [|a l1]; simpl in H; inversion H; subst.
        -- exists [], u, us. split; [auto|split; [auto|]]. intros w j [].
        -- destruct (IH _ _ _ _ H2) as (us1 & v & us2 & -> & A & B). exists (u :: us1), v, us2. split; [auto|split; [auto|]].
           intros w i [<-|J] F; simpl; [left; left; congruence|].
           destruct (B _ _ J F) as [|[|]]; auto.
    + destruct (IH _ _ _ _ H) as (us1 & v & us2 & -> & A & B). exists (u :: us1), v, us2. split; [auto|split; [auto|]].
      intros w i [<-|J] F; eauto. congruence.
Qed.

Section Take.
  Context {Obj : Type}.
  Variable objs : list Obj.

  (** [unused] after the positions in [taken] have been removed. *)
  Definition unused_at (taken : list nat) (unused : list (option Obj)) : Prop :=
    forall k, nth_error unused k =
      match nth_error objs k with
      | None => None
      | Some o => if mem k taken then Some None else Some (Some o)
      end.

  Lemma unused_set : forall taken unused k, unused_at taken unused ->
    k < length objs -> unused_at (k :: taken) (set_nth k None unused).
  Proof.
    intros taken unused k H L j. simpl.
    assert (Lu : k < length unused).
    { apply nth_error_Some. rewrite H. destruct (nth_error objs k) eqn:E; [destruct (mem k taken); discriminate|].
      apply nth_error_None in E. lia. }
    rewrite (Nat.eqb_sym j k). destruct (Nat.eqb_spec k j) as [<-|N].
    - rewrite nth_error_set_nth_eq by auto. destruct (nth_error objs k) eqn:E; auto. apply nth_error_None in E. lia.
    - rewrite nth_error_set_nth_neq by auto. apply H.
  Qed.

  Lemma take_ok : forall provider scc unused taken out unused' out',
    (forall u k, prov provider u = Some k -> k < length objs) ->
    unused_at taken unused ->
    take_objects Obj provider scc unused out = inl (unused', out') ->
    (forall c, In c scc -> exists u, c = [u]) /\
    exists os, out' = out ++ os /\
      map Some os = map (nth_error objs) (take_pos provider (concat scc) taken) /\
      unused_at (rev (take_pos provider (concat scc) taken) ++ taken) unused'.
  Proof.
    induction scc as [|c scc IH]; intros unused taken out unused' out' Lk U H; simpl in H.
    - inversion H; subst. split; [intros c []|]. exists []. rewrite app_nil_r. auto.
    - destruct c as [|u [|? ?]]; try discriminate. simpl in H.
      assert (Hp : nth_error provider u = Some (prov provider u) \/
                   (prov provider u = None /\ nth_error provider u = None)).
      { unfold prov. destruct (nth_error provider u) as [[?|]|]; auto. }
      assert (Go : match prov provider u with
                   | Some k => match nth_error unused k with
                     | Some (Some o) => take_objects Obj provider scc (set_nth k None unused) (out ++ [o])
                     | Some None => take_objects Obj provider scc unused out
                     | None => inr GraphAbort end
                   | None => take_objects Obj provider scc unused out
                   end = inl (unused', out')).
      { destruct Hp as [E|[E1 E2]].
        - rewrite E in H. destruct (prov provider u) as [k|]; auto.
        - rewrite E2 in H. rewrite E1. auto. }
      clear H Hp. simpl concat. cbn [take_pos].
      destruct (prov provider u) as [k|] eqn:E.
      + pose proof (U k) as Uk. pose proof (Lk u k E) as L.
        destruct (nth_error objs k) as [o|] eqn:Eo; [|apply nth_error_None in Eo; lia].
        destruct (mem k taken) eqn:M; rewrite Uk in Go.
        * destruct (IH _ _ _ _ _ Lk U Go) as (A & os & B & C & D). split.
          -- intros c [<-|J]; eauto.
          -- exists os. auto.
        * destruct (IH _ _ _ _ _ Lk (unused_set _ _ _ U L) Go) as (A & os & B & C & D). split.
          -- intros c [<-|J]; eauto.
          -- exists (o :: os). rewrite B, <- app_assoc. simpl. split; auto. split.
             ++ rewrite Eo. f_equal. auto.
             ++ rewrite <- app_assoc. auto.
      + destruct (IH _ _ _ _ _ Lk U Go) as (A & os & B & C & D). split.
        * intros c [<-|J]; eauto.
        * exists os. auto.
  Qed.

  Lemma take_err : forall provider scc unused taken out e,
    (forall u k, prov provider u = Some k -> k < length objs) ->
    (forall c, In c scc -> c <> []) ->
    unused_at taken unused ->
    take_objects Obj provider scc unused out = inr e ->
    e = GraphCycle /\ exists c, In c scc /\ 1 < length c.
  Proof.
    induction scc as [|c scc IH]; intros unused taken out e Lk Ne U H; simpl in H; [discriminate|].
    assert (Rec : forall unused taken out, unused_at taken unused ->
      take_objects Obj provider scc unused out = inr e -> e = GraphCycle /\ exists c', In c' (c :: scc) /\ 1 < length c').
    { intros un ta ou U' H'. destruct (IH _ _ _ _ Lk (fun c J => Ne c (or_intror J)) U' H') as (A & c' & B & C).
      split; auto. exists c'. simpl. auto. }
    destruct (1 <? length c) eqn:L1.
    { apply Nat.ltb_lt in L1. inversion H. split; auto. exists c. simpl. auto. }
    destruct c as [|u c]; [exfalso; apply (Ne []); simpl; auto|].
    destruct (nth_error provider (last (u :: c) 0)) as [[k|]|] eqn:E; eauto.
    assert (L : k < length objs). { eapply Lk. unfold prov. rewrite E. auto. }
    pose proof (U k) as Uk. destruct (nth_error objs k) as [o|] eqn:Eo; [|apply nth_error_None in Eo; lia].
    rewrite Uk in H. destruct (mem k taken); [eauto|].
    eapply Rec; [apply unused_set; eauto|eauto].
  Qed.

  Lemma flatten_unused : forall unused taken, unused_at taken unused ->
    map Some (flatten_opt Obj unused) = map (nth_error objs) (filter (fun k => negb (mem k taken)) (seq 0 (length objs))).
  Proof.
    assert (G : forall l unused d taken,
      length unused = length l ->
      (forall k, k < length l -> nth_error unused k = if mem (d + k) taken then Some None else option_map Some (nth_error l k)) ->
      map Some (flatten_opt Obj unused) =
      map (fun k => nth_error l (k - d)) (filter (fun k => negb (mem k taken)) (seq d (length l)))).
    { induction l as [|o l IH]; intros [|u unused] d taken L H; simpl in L; try discriminate; auto.
      pose proof (H 0 ltac:(simpl; lia)) as H0. simpl in H0. rewrite Nat.add_0_r in H0.
      assert (IH' : map Some (flatten_opt Obj unused) =
         map (fun k => nth_error (o :: l) (k - d)) (filter (fun k => negb (mem k taken)) (seq (S d) (length l)))).
      { rewrite (IH unused (S d) taken); [|lia|].
        - apply map_ext_in. intros k J. apply filter_In in J. destruct J as [J _]. apply in_seq in J.
          replace (k - d) with (S (k - S d)) by lia. auto.
        - intros k Lk. specialize (H (S k) ltac:(simpl; lia)). simpl in H. rewrite H. rewrite <- plus_n_Sm. auto. }
      simpl. destruct (mem d taken); simpl; inversion H0; subst; simpl; auto.
      rewrite Nat.sub_diag. simpl. f_equal. auto. }
    intros unused taken U.
    rewrite (G objs unused 0 taken).
    - apply map_ext. intros k. rewrite Nat.sub_0_r. auto.
    - assert (A : forall n, n < length unused <-> n < length objs).
      { intros n. rewrite <- !nth_error_Some. rewrite U. destruct (nth_error objs n); [|tauto]. destruct (mem n taken); intuition discriminate. }
      pose proof (A (length unused)). pose proof (A (length objs)). lia.
    - intros k L. rewrite U. simpl. destruct (nth_error objs k) eqn:E; auto.
      apply nth_error_None in E. lia.
  Qed.
End Take.

(** ** Interning *)
Section Sched.
  Context {Obj Unit : Type}.
  Variable unit_eqb : Unit -> Unit -> bool.
  Hypothesis eqb_spec : forall a b, unit_eqb a b = true <-> a = b.
  Variables provides requires : Obj -> list Unit.

  (** [k] is the uid of [u]. *)
  Definition uid_of (atoms : list Unit) (k : nat) (u : Unit) : Prop := nth_error atoms k = Some u.

  Lemma index_of_some : forall u l k, index_of Unit unit_eqb u l = Some k -> uid_of l k u.
  Proof.
    unfold uid_of. induction l as [|w l IH]; intros k H; simpl in H; [discriminate|].
    destruct (unit_eqb u w) eqn:E.
    - inversion H; subst. apply eqb_spec in E. subst. auto.
    - destruct (index_of Unit unit_eqb u l); [|discriminate]. inversion H; subst. simpl. auto.
  Qed.
  Lemma index_of_none : forall u l, index_of Unit unit_eqb u l = None -> ~ In u l.
  Proof.
    induction l as [|w l IH]; intros H; simpl in *; auto.
    destruct (unit_eqb u w) eqn:E; [discriminate|].
    destruct (index_of Unit unit_eqb u l); [discriminate|]. intros [->|J]; [|apply IH; auto].
    rewrite (proj2 (eqb_spec u u) eq_refl) in E. discriminate.
  Qed.

  Lemma nth_error_app_l : forall {A} (l l' : list A) k a, nth_error l k = Some a -> nth_error (l ++ l') k = Some a.
  Proof. intros. rewrite nth_error_app1; eauto using nth_error_some_lt. Qed.

  Lemma nodup_snoc : forall {A} (l : list A) a, NoDup l -> ~ In a l -> NoDup (l ++ [a]).
  Proof. intros. apply nodup_app; auto. - constructor; [intros []|constructor]. - intros b J [<-|[]]; auto. Qed.

  Lemma intern_ok : forall u atoms k atoms', NoDup atoms ->
    intern Unit unit_eqb u atoms = (k, atoms') ->
    NoDup atoms' /\ uid_of atoms' k u /\ exists more, atoms' = atoms ++ more.
  Proof.
    intros u atoms k atoms' ND H. unfold intern in H.
    destruct (index_of Unit unit_eqb u atoms) eqn:E; inversion H; subst.
    - split; auto. split; [apply index_of_some; auto|]. exists []. rewrite app_nil_r. auto.
    - split; [apply nodup_snoc; auto; apply index_of_none; auto|]. split; [|eauto].
      unfold uid_of. rewrite nth_error_app2 by lia. rewrite Nat.sub_diag. auto.
  Qed.

  Lemma interns_ok : forall us atoms ks atoms', NoDup atoms ->
    interns Unit unit_eqb us atoms = (ks, atoms') ->
    NoDup atoms' /\ Forall2 (uid_of atoms') ks us /\ exists more, atoms' = atoms ++ more.
  Proof.
    induction us as [|u us IH]; intros atoms ks atoms' ND H; simpl in H.
    - inversion H; subst. split; auto. split; [constructor|]. exists []. rewrite app_nil_r. auto.
    - destruct (intern Unit unit_eqb u atoms) as [k at1] eqn:E1.
      destruct (interns Unit unit_eqb us at1) as [ks' at2] eqn:E2. inversion H; subst.
      apply intern_ok in E1; auto. destruct E1 as (A1 & B1 & m1 & ->).
      apply IH in E2; auto. destruct E2 as (A2 & B2 & m2 & ->).
      split; auto. split.
      + constructor; auto. apply nth_error_app_l; auto.
      + exists (m1 ++ m2). rewrite app_assoc. auto.
  Qed.

  Lemma uid_more : forall atoms more ks us, Forall2 (uid_of atoms) ks us -> Forall2 (uid_of (atoms ++ more)) ks us.
  Proof. induction 1; constructor; auto. apply nth_error_app_l; auto. Qed.
  Lemma uid_more2 : forall atoms more kss uss, Forall2 (Forall2 (uid_of atoms)) kss uss ->
    Forall2 (Forall2 (uid_of (atoms ++ more))) kss uss.
  Proof. induction 1; constructor; auto. apply uid_more; auto. Qed.

  Record Gok (ext : list Unit) (objs : list Obj) (g : graph Obj Unit) : Prop := mkGok {
    k_nodup : NoDup (g_atomics _ _ g);
    k_elems : g_elements _ _ g = objs;
    k_prov : Forall2 (Forall2 (uid_of (g_atomics _ _ g))) (g_provide _ _ g) (map provides objs);
    k_req : Forall2 (Forall2 (uid_of (g_atomics _ _ g))) (g_require _ _ g) (map requires objs);
    k_ext : Forall2 (uid_of (g_atomics _ _ g)) (g_by_ext _ _ g) (rev ext);
    k_for : Forall2 (uid_of (g_atomics _ _ g)) (g_for_ext _ _ g) (flat_map provides objs) }.

  Lemma ext_gok : forall ext pre g, Gok pre [] g ->
    Gok (pre ++ ext) [] (fold_left (fun g u => already_provided Obj Unit unit_eqb u g) ext g).
  Proof.
    induction ext as [|u ext IH]; intros pre g G; simpl.
    - rewrite app_nil_r. auto.
    - replace (pre ++ u :: ext) with ((pre ++ [u]) ++ ext) by (rewrite <- app_assoc; auto).
      apply IH. destruct G. unfold already_provided.
      destruct (intern Unit unit_eqb u (g_atomics Obj Unit g)) as [k at1] eqn:E.
      apply intern_ok in E; auto. destruct E as (A & B & m & ->).
      constructor; simpl; auto using uid_more, uid_more2.
      rewrite rev_app_distr. simpl. constructor; auto using uid_more.
  Qed.

  Lemma insert_gok : forall objs ext pre g, Gok ext pre g ->
    Gok ext (pre ++ objs) (fold_left (fun g o => insert Obj Unit unit_eqb provides requires o g) objs g).
  Proof.
    induction objs as [|o objs IH]; intros ext pre g G; simpl.
    - rewrite app_nil_r. auto.
    - replace (pre ++ o :: objs) with ((pre ++ [o]) ++ objs) by (rewrite <- app_assoc; auto).
      apply IH. destruct G. unfold insert.
      destruct (interns Unit unit_eqb (provides o) (g_atomics Obj Unit g)) as [ps at1] eqn:E1.
      destruct (interns Unit unit_eqb (requires o) at1) as [rs at2] eqn:E2.
      apply interns_ok in E1; auto. destruct E1 as (A1 & B1 & m1 & ->).
      apply interns_ok in E2; auto. destruct E2 as (A2 & B2 & m2 & ->).
      constructor; simpl; auto using uid_more, uid_more2.
      + congruence.
      + rewrite map_app. apply Forall2_app; auto using uid_more2. repeat constructor; auto using uid_more.
      + rewrite map_app. apply Forall2_app; auto using uid_more2. repeat constructor; auto.
      + rewrite flat_map_app. simpl. rewrite app_nil_r. apply Forall2_app; auto using uid_more.
  Qed.

  Lemma uid_fun : forall atoms k u u', uid_of atoms k u -> uid_of atoms k u' -> u = u'.
  Proof. unfold uid_of. congruence. Qed.
  Lemma uid_inj : forall atoms k k' u, NoDup atoms -> uid_of atoms k u -> uid_of atoms k' u -> k = k'.
  Proof.
    unfold uid_of. intros atoms k k' u ND A B. rewrite NoDup_nth_error in ND. apply ND.
    - eauto using nth_error_some_lt.
    - congruence.
  Qed.

  Lemma uids_in : forall atoms ks us k u, NoDup atoms -> Forall2 (uid_of atoms) ks us ->
    uid_of atoms k u -> (In k ks <-> In u us).
  Proof.
    intros atoms ks us k u ND F A. induction F as [|k' u' ks us E F IH]; simpl; [tauto|].
    rewrite IH. split; intros [H|H]; auto; left; subst.
    - eapply uid_fun; eauto.
    - eapply uid_inj; eauto.
  Qed.

  Lemma uids_nodup : forall atoms ks us, NoDup atoms -> Forall2 (uid_of atoms) ks us -> (NoDup ks <-> NoDup us).
  Proof.
    intros atoms ks us ND F. induction F as [|k u ks us E F IH]; [split; constructor|].
    split; intros H; inversion H; subst; constructor; try tauto.
    - rewrite <- (uids_in _ _ _ _ _ ND F E). auto.
    - rewrite (uids_in _ _ _ _ _ ND F E). auto.
  Qed.

  Lemma uids_exist : forall atoms ks us u, Forall2 (uid_of atoms) ks us -> In u us -> exists k, In k ks /\ uid_of atoms k u.
  Proof.
    induction 1 as [|k u' ks us E F IH]; intros J; [destruct J|]. destruct J as [<-|J].
    - exists k. simpl. auto.
    - destruct (IH J) as (k' & A & B). exists k'. simpl. auto.
  Qed.
  Lemma uids_exist' : forall atoms ks us k, Forall2 (uid_of atoms) ks us -> In k ks -> exists u, In u us /\ uid_of atoms k u.
  Proof.
    induction 1 as [|k' u' ks us E F IH]; intros J; [destruct J|]. destruct J as [<-|J].
    - exists u'. simpl. auto.
    - destruct (IH J) as (u & A & B). exists u. simpl. auto.
  Qed.

  Lemma Forall2_concat : forall {A B} (R : A -> B -> Prop) l l', Forall2 (Forall2 R) l l' -> Forall2 R (concat l) (concat l').
  Proof. induction 1; simpl; [constructor|]. apply Forall2_app; auto. Qed.

  Lemma Forall2_length : forall {A B} (R : A -> B -> Prop) l l', Forall2 R l l' -> length l = length l'.
  Proof. induction 1; simpl; auto. Qed.
  Lemma Forall2_nth : forall {A B} (R : A -> B -> Prop) l l' k a, Forall2 R l l' ->
    nth_error l k = Some a -> exists b, nth_error l' k = Some b /\ R a b.
  Proof.
    intros A B R l l' k a F. revert k. induction F; intros [|k] E; simpl in *; try discriminate; eauto.
    inversion E; subst. eauto.
  Qed.
  Lemma Forall2_nth' : forall {A B} (R : A -> B -> Prop) l l' k b, Forall2 R l l' ->
    nth_error l' k = Some b -> exists a, nth_error l k = Some a /\ R a b.
  Proof.
    intros A B R l l' k a F. revert k. induction F; intros [|k] E; simpl in *; try discriminate; eauto.
    inversion E; subst. eauto.
  Qed.
  Lemma nth_combine : forall {A B} (l : list A) (l' : list B) k a b,
    nth_error (combine l l') k = Some (a, b) <-> nth_error l k = Some a /\ nth_error l' k = Some b.
  Proof.
    induction l as [|x l IH]; intros [|y l'] [|k] a b; simpl;
      try (split; [discriminate|intros [? ?]; discriminate]).
    - split; [intros H; inversion H; auto|intros [H1 H2]; congruence].
    - apply IH.
  Qed.

  Lemma must_ok : forall must ext objs g, Gok ext objs g ->
    match must_provide_all Obj Unit unit_eqb must g with
    | inl g' => Gok ext objs g' /\ complete provides objs must
    | inr e => e = GraphUnitUndeclared /\ ~ complete provides objs must
    end.
  Proof.
    induction must as [|u must IH]; intros ext objs g G; simpl.
    - split; auto. intros u [].
    - unfold must_provide. destruct (intern Unit unit_eqb u (g_atomics Obj Unit g)) as [k at1] eqn:E.
      pose proof G as G'. destruct G'.
      apply intern_ok in E; auto. destruct E as (A & B & m & ->).
      assert (I : existsb (Nat.eqb k) (g_for_ext Obj Unit g) = true <-> In u (flat_map provides objs)).
      { rewrite existsb_eqb. apply (uids_in (g_atomics Obj Unit g ++ m)); auto using uid_more. }
      destruct (existsb (Nat.eqb k) (g_for_ext Obj Unit g)).
      + set (g1 := mkGraph _ _ _ _ _ _ _ _). assert (G1 : Gok ext objs g1).
        { constructor; simpl; auto using uid_more, uid_more2. }
        specialize (IH ext objs g1 G1).
        destruct (must_provide_all Obj Unit unit_eqb must g1).
        * destruct IH as [IH1 IH2]. split; auto. intros w [<-|J]; auto. tauto.
        * destruct IH as [-> IH]. split; auto. intros C. apply IH. intros w J. apply C. simpl; auto.
      + split; auto. intros C. assert (false = true) by (apply I; apply C; simpl; auto). discriminate.
  Qed.

  (** ** The scheduling itself *)
  Section Final.
    Variables (ext : list Unit) (objs : list Obj) (g : graph Obj Unit).
    Hypothesis G : Gok ext objs g.
    Let atoms := g_atomics _ _ g.
    Let nb := length atoms.
    Let pairs := combine (g_provide _ _ g) (g_require _ _ g).

    Lemma pair_nth : forall k ps rs, nth_error pairs k = Some (ps, rs) ->
      exists o, nth_error objs k = Some o /\ Forall2 (uid_of atoms) ps (provides o) /\ Forall2 (uid_of atoms) rs (requires o).
    Proof.
      intros k ps rs H. apply nth_combine in H. destruct H as [A B].
      destruct (Forall2_nth _ _ _ _ _ (k_prov _ _ _ G) A) as (b & E & F).
      destruct (Forall2_nth _ _ _ _ _ (k_req _ _ _ G) B) as (b' & E' & F').
      rewrite nth_error_map in E, E'. destruct (nth_error objs k) as [o|]; [|discriminate].
      inversion E; inversion E'; subst. eauto.
    Qed.
    Lemma obj_pair : forall k o, nth_error objs k = Some o ->
      exists ps rs, nth_error pairs k = Some (ps, rs) /\ Forall2 (uid_of atoms) ps (provides o) /\ Forall2 (uid_of atoms) rs (requires o).
    Proof.
      intros k o H.
      destruct (Forall2_nth' _ _ _ k (provides o) (k_prov _ _ _ G)) as (ps & E & F).
      { rewrite nth_error_map, H. auto. }
      destruct (Forall2_nth' _ _ _ k (requires o) (k_req _ _ _ G)) as (rs & E' & F').
      { rewrite nth_error_map, H. auto. }
      exists ps, rs. split; auto. apply nth_combine. auto.
    Qed.

    Lemma fst_pairs : map fst pairs = g_provide _ _ g.
    Proof.
      unfold pairs. pose proof (Forall2_length _ _ _ (k_prov _ _ _ G)) as L1. pose proof (Forall2_length _ _ _ (k_req _ _ _ G)) as L2.
      rewrite map_length in L1, L2. rewrite <- L2 in L1. revert L1. clear.
      generalize (g_provide _ _ g), (g_require _ _ g).
      induction l as [|a l IH]; intros [|b l'] L1; simpl in *; auto; try discriminate.
      f_equal. apply IH. lia.
    Qed.

    Lemma concat_prov : Forall2 (uid_of atoms) (concat (map fst pairs)) (flat_map provides objs).
    Proof. rewrite fst_pairs, flat_map_concat_map. apply Forall2_concat. apply (k_prov _ _ _ G). Qed.

    Lemma uid_lt : forall k u, uid_of atoms k u -> k < nb.
    Proof. unfold uid_of. intros. unfold nb. eauto using nth_error_some_lt. Qed.

    Lemma sa_iff : single_assignment provides objs ext <->
      NoDup (concat (map fst pairs)) /\ forall p, In p (concat (map fst pairs)) -> ~ In p (g_by_ext _ _ g).
    Proof.
      pose proof concat_prov as CP. pose proof (k_nodup _ _ _ G) as ND. fold atoms in ND.
      unfold single_assignment. rewrite (uids_nodup _ _ _ ND CP).
      split; intros [A B]; split; auto.
      - intros p J K. destruct (uids_exist' _ _ _ _ CP J) as (u & Ju & Eu).
        apply (B u); auto. pose proof (proj1 (uids_in _ _ _ _ _ ND (k_ext _ _ _ G) Eu) K) as K'.
        apply in_rev. auto.
      - intros u J K. destruct (uids_exist _ _ _ _ CP K) as (p & Jp & Ep).
        apply (B p); auto. apply (uids_in _ _ _ _ _ ND (k_ext _ _ _ G) Ep). apply in_rev in J. auto.
    Qed.

    Lemma nth_repeat_lt : forall {A} (a : A) n k, k < n -> nth_error (repeat a n) k = Some a.
    Proof. induction n; intros [|k] H; simpl; auto; try lia. apply IHn. lia. Qed.
    Lemma nth_repeat : forall {A} (a : A) n k, nth_error (repeat a n) k = Some a \/ nth_error (repeat a n) k = None.
    Proof.
      intros. destruct (Nat.lt_ge_cases k n).
      - left. apply nth_repeat_lt; auto.
      - right. apply nth_error_None. rewrite repeat_length. auto.
    Qed.
    Lemma prov_none : forall n p, prov (repeat None n) p = None.
    Proof. intros. unfold prov. destruct (nth_repeat (@None nat) n p) as [-> | ->]; auto. Qed.
    Lemma cstr_nil : forall n p, cstr (repeat [] n) p = [].
    Proof. intros. unfold cstr. destruct (nth_repeat (@nil nat) n p) as [-> | ->]; auto. Qed.

    (** What the tables say once they are built. *)
    Definition built (provider : list (option nat)) (cs : list (list nat)) : Prop :=
      length cs = nb /\
      (forall p k, prov provider p = Some k <->
         exists o u, nth_error objs k = Some o /\ uid_of atoms p u /\ In u (provides o)) /\
      (forall p r, In r (cstr cs p) <->
         exists k o u w, nth_error objs k = Some o /\ uid_of atoms p u /\ In u (provides o) /\
           uid_of atoms r w /\ In w (requires o)) /\
      (forall k o u, nth_error objs k = Some o -> In u (provides o) -> ~ In u (requires o)) /\
      single_assignment provides objs ext.

    Lemma tables_built : forall provider cs,
      add_objects (g_by_ext _ _ g) 0 pairs (repeat None nb) (repeat [] nb) = inl (provider, cs) ->
      built provider cs.
    Proof.
      intros provider cs H.
      apply add_objects_ok in H; [|rewrite !repeat_length; auto].
      rewrite repeat_length in H. destruct H as (A & B & C & D & E & F).
      pose proof (k_nodup _ _ _ G) as ND. fold atoms in ND.
      assert (Own : forall p, In p (concat (map fst pairs)) -> exists k ps rs, nth_error pairs k = Some (ps, rs) /\ In p ps).
      { intros p J. apply in_concat in J. destruct J as (ps & J & K). apply in_map_iff in J.
        destruct J as ((ps', rs) & <- & J). apply In_nth_error in J. destruct J as (k & J). eauto. }
      split; auto. split; [|split; [|split]].
      - intros p k. split.
        + intros P. destruct (in_dec Nat.eq_dec p (concat (map fst pairs))) as [J|J].
          * destruct (Own p J) as (k' & ps & rs & N & K). destruct (E _ _ _ _ N K) as (_ & Q & _).
            simpl in Q. assert (k' = k) by congruence. subst.
            destruct (pair_nth _ _ _ N) as (o & No & F1 & F2).
            destruct (uids_exist' _ _ _ _ F1 K) as (u & Ju & Eu). eauto.
          * destruct (F p J) as [Q _]. rewrite prov_none in Q. congruence.
        + intros (o & u & No & Eu & Ju). destruct (obj_pair _ _ No) as (ps & rs & N & F1 & F2).
          assert (K : In p ps) by (apply (uids_in _ _ _ _ _ ND F1 Eu); auto).
          destruct (E _ _ _ _ N K) as (_ & Q & _). auto.
      - intros p r. split.
        + intros R. destruct (in_dec Nat.eq_dec p (concat (map fst pairs))) as [J|J].
          * destruct (Own p J) as (k & ps & rs & N & K). destruct (E _ _ _ _ N K) as (_ & _ & Q).
            rewrite cstr_nil in Q. simpl in Q. rewrite Q in R.
            destruct (pair_nth _ _ _ N) as (o & No & F1 & F2).
            destruct (uids_exist' _ _ _ _ F1 K) as (u & Ju & Eu).
            destruct (uids_exist' _ _ _ _ F2 R) as (w & Jw & Ew). exists k, o, u, w. auto.
          * destruct (F p J) as [_ Q]. rewrite cstr_nil in Q. rewrite Q in R. destruct R.
        + intros (k & o & u & w & No & Eu & Ju & Ew & Jw). destruct (obj_pair _ _ No) as (ps & rs & N & F1 & F2).
          assert (K : In p ps) by (apply (uids_in _ _ _ _ _ ND F1 Eu); auto).
          destruct (E _ _ _ _ N K) as (_ & _ & Q). rewrite cstr_nil in Q. simpl in Q. rewrite Q.
          apply (uids_in _ _ _ _ _ ND F2 Ew); auto.
      - intros k o u No Ju Jw. destruct (obj_pair _ _ No) as (ps & rs & N & F1 & F2).
        destruct (uids_exist _ _ _ _ F1 Ju) as (p & Jp & Ep). destruct (E _ _ _ _ N Jp) as (Q & _).
        apply Q. apply (uids_in _ _ _ _ _ ND F2 Ep); auto.
      - apply sa_iff. split; auto. intros p J. apply D; auto.
    Qed.

    Lemma tables_error : forall e,
      add_objects (g_by_ext _ _ g) 0 pairs (repeat None nb) (repeat [] nb) = inr e ->
      (e = GraphUnitDeclTwice /\ ~ single_assignment provides objs ext) \/
      (e = GraphUnitDependsOnItself /\ exists i, depends_on provides requires objs i i).
    Proof.
      intros e H. pose proof concat_prov as CP. pose proof (k_nodup _ _ _ G) as ND. fold atoms in ND.
      apply add_objects_err in H; rewrite ?repeat_length; auto.
      - destruct H as [[-> H]|[-> (k & ps & rs & p & N & J & K)]].
        + left. split; auto. rewrite sa_iff. intros [S1 S2]. destruct H as [H|(p & J & [K|K])]; auto.
          * eapply S2; eauto.
          * apply K. apply prov_none.
        + right. split; auto. destruct (pair_nth _ _ _ N) as (o & No & F1 & F2).
          destruct (uids_exist' _ _ _ _ F1 J) as (u & Ju & Eu).
          exists k, o, o, u. repeat split; auto. apply (uids_in _ _ _ _ _ ND F2 Eu); auto.
      - intros p J. destruct (uids_exist' _ _ _ _ CP J) as (u & _ & Eu). eapply uid_lt; eauto.
    Qed.

    Variables (provider : list (option nat)) (cs : list (list nat)).
    Hypothesis B : built provider cs.

    Lemma edge_iff : forall p r, edge cs p r <-> In r (cstr cs p).
    Proof.
      intros p r. unfold edge, cstr. split.
      - intros (l & -> & J). auto.
      - destruct (nth_error cs p) as [l|]; [eauto|intros []].
    Qed.

    Lemma edge_target : forall p r, edge cs p r -> r < length cs.
    Proof.
      intros p r E. apply edge_iff in E. destruct B as (L & _ & C & _). rewrite L.
      apply C in E. destruct E as (_ & _ & _ & w & _ & _ & _ & Ew & _). eapply uid_lt; eauto.
    Qed.

    Lemma edge_irrefl : forall p, ~ edge cs p p.
    Proof.
      intros p E. apply edge_iff in E. destruct B as (L & _ & C & D & _). apply C in E.
      destruct E as (k & o & u & w & No & Eu & Ju & Ew & Jw).
      assert (u = w) by (eapply uid_fun; eauto). subst. eapply D; eauto.
    Qed.

    Lemma prov_lt : forall u k, prov provider u = Some k -> k < length objs.
    Proof.
      intros u k P. destruct B as (_ & C & _). apply C in P. destruct P as (o & w & N & _). eauto using nth_error_some_lt.
    Qed.

    (** A dependency between objects is an edge from every unit of the first. *)
    Lemma dep_edge : forall i j p, depends_on provides requires objs i j -> prov provider p = Some i ->
      exists r, prov provider r = Some j /\ edge cs p r.
    Proof.
      intros i j p (oi & oj & u & Ni & Nj & Ri & Pj) P. destruct B as (_ & C & D & _).
      apply C in P. destruct P as (o & w & N & Ew & Jw). rewrite Ni in N. inversion N; subst o.
      destruct (obj_pair _ _ Nj) as (ps & rs & _ & F1 & _).
      destruct (uids_exist _ _ _ _ F1 Pj) as (r & Jr & Er).
      exists r. split.
      - apply C. exists oj, u. auto.
      - apply edge_iff. apply D. exists i, oi, w, u. auto.
    Qed.

    Lemma edge_dep : forall p r i j, edge cs p r -> prov provider p = Some i -> prov provider r = Some j ->
      depends_on provides requires objs i j.
    Proof.
      intros p r i j E Pi Pj. apply edge_iff in E. pose proof B as (_ & C & D & _ & SA).
      apply D in E. destruct E as (k & o & u & w & N & Eu & Ju & Ew & Jw).
      assert (prov provider p = Some k) by (apply C; eauto). assert (k = i) by congruence. subst.
      apply C in Pj. destruct Pj as (oj & w' & Nj & Ew' & Jw').
      assert (w = w') by (eapply uid_fun; eauto). subst. exists o, oj, w'. auto.
    Qed.

    Lemma reach_dep : forall p r i j, reach cs p r -> p <> r -> prov provider p = Some i -> prov provider r = Some j ->
      depends_plus provides requires objs i j.
    Proof.
      intros p r i j R. revert i. induction R as [u|u v w E R IH]; intros i N Pi Pj; [congruence|].
      destruct (Nat.eq_dec v w) as [->|Nv].
      - apply dp_one. eapply edge_dep; eauto.
      - inversion R; subst; [congruence|]. 
        apply edge_iff in H. destruct B as (_ & C & D & _). pose proof H as H'. apply D in H'.
        destruct H' as (k & o & a & b & No & Ea & Ja & _).
        assert (Pv : prov provider v = Some k) by (apply C; eauto).
        eapply dp_more; [eapply (edge_dep u v); eauto|]. apply IH; auto.
    Qed.

    Definition nothing (k : nat) : bool :=
      match nth_error objs k with Some o => match provides o with [] => true | _ => false end | None => true end.

    Lemma filter_perm_split : forall (f : nat -> bool) l, Permutation l (filter f l ++ filter (fun x => negb (f x)) l).
    Proof.
      induction l as [|a l IH]; simpl; auto. destruct (f a); simpl.
      - constructor. auto.
      - apply Permutation_cons_app. auto.
    Qed.

    Lemma scheduled_pos : forall scc unused out,
      sccs cs = Some scc ->
      take_objects Obj provider scc (map Some objs) [] = inl (unused, out) ->
      let ord1 := take_pos provider (concat scc) [] in
      let ord := ord1 ++ filter nothing (seq 0 (length objs)) in
        reordering objs ord (out ++ flatten_opt Obj unused) /\
        respects_dependencies provides requires objs ord /\
        (forall i, In i ord1 -> nothing i = false).
    Proof.
      intros scc unused out S T.
      destruct (sccs_ok cs edge_target) as (scc' & S' & Perm & Comps). rewrite S in S'. inversion S'; subst scc'. clear S'.
      assert (U0 : unused_at objs [] (map Some objs)).
      { intros k. rewrite nth_error_map. simpl. destruct (nth_error objs k); auto. }
      destruct (take_ok objs _ _ _ _ _ _ _ prov_lt U0 T) as (Single & os & -> & Eos & U). simpl in *.
      set (us := concat scc) in *. set (ord1 := take_pos provider us []) in *. rewrite app_nil_r in U.
      assert (In1 : forall k, In k ord1 <-> k < length objs /\ nothing k = false).
      { intros k. unfold ord1. rewrite take_pos_in. simpl. destruct B as (L & C & _). split.
        - intros (_ & u & Ju & P). split; [eapply prov_lt; eauto|]. apply C in P. destruct P as (o & w & N & _ & J).
          unfold nothing. rewrite N. destruct (provides o); [destruct J|auto].
        - intros (Lk & N). split; auto. unfold nothing in N. destruct (nth_error objs k) as [o|] eqn:No; [|discriminate].
          destruct (provides o) as [|w ws] eqn:Po; [discriminate|].
          destruct (obj_pair _ _ No) as (ps & rs & _ & F1 & _). rewrite Po in F1. inversion F1; subst.
          exists x. split.
          + eapply Permutation_in; [apply Permutation_sym; exact Perm|]. apply in_seq. rewrite L. simpl. split; [lia|].
            eapply uid_lt; eauto.
          + apply C. exists o, w. rewrite Po. simpl. auto. }
      assert (Tail : filter (fun k => negb (mem k (rev ord1))) (seq 0 (length objs)) = filter nothing (seq 0 (length objs))).
      { apply filter_ext_in. intros k J. apply in_seq in J. destruct (mem k (rev ord1)) eqn:M; simpl.
        - apply mem_in in M. apply in_rev in M. apply In1 in M. symmetry. apply M.
        - apply mem_not in M. destruct (nothing k) eqn:N; auto. exfalso. apply M. apply -> in_rev. apply In1. split; auto. lia. }
      fold us ord1. set (ord := ord1 ++ filter nothing (seq 0 (length objs))).
      assert (Po : Permutation ord (seq 0 (length objs))).
      { unfold ord. eapply Permutation_trans; [|apply Permutation_sym; apply (filter_perm_split (fun k => negb (nothing k)))].
        apply Permutation_app.
        - apply NoDup_Permutation.
          + apply take_pos_nodup.
          + apply NoDup_filter. apply seq_NoDup.
          + intros k. rewrite In1, filter_In, in_seq. rewrite negb_true_iff. split; intros [? ?]; split; auto; lia.
        - rewrite (filter_ext (fun x => negb (negb (nothing x))) nothing); [apply Permutation_refl|].
          intros a. apply negb_involutive. }
      split; [|split].
      - split; auto. unfold ord. rewrite !map_app, Eos. f_equal.
        rewrite (flatten_unused objs unused _ U), Tail. auto.
      - intros k1 k2 i j N1 N2 Le D.
        assert (NDo : NoDup ord).
        { eapply Permutation_NoDup; [apply Permutation_sym; exact Po|apply seq_NoDup]. }
        assert (Lj : j < length objs). { destruct D as (_ & oj & _ & _ & N & _). eauto using nth_error_some_lt. }
        assert (Jj : In j ord1).
        { apply In1. split; auto. destruct D as (_ & oj & u & _ & N & _ & J). unfold nothing. rewrite N.
          destruct (provides oj); [destruct J|auto]. }
        (* j is in the first part, hence so is i *)
        assert (K2 : k2 < length ord1).
        { destruct (Nat.lt_ge_cases k2 (length ord1)); auto. exfalso.
          unfold ord in N2. rewrite nth_error_app2 in N2 by auto. apply nth_error_In in N2. apply filter_In in N2.
          apply In1 in Jj. destruct N2, Jj. congruence. }
        assert (N1' : nth_error ord1 k1 = Some i). { unfold ord in N1. rewrite nth_error_app1 in N1 by lia. auto. }
        apply nth_error_split in N1'. destruct N1' as (l1 & l2 & E1 & Ll).
        destruct (take_pos_split provider us [] l1 i l2 E1) as (us1 & p & us2 & Eus & Pp & Before).
        destruct (dep_edge i j p D Pp) as (r & Pr & Er).
        assert (Jr : In r us1).
        { (* the component of p is [p], and r is in an earlier one *)
          assert (X : forall scc, (forall c, In c scc -> exists u, c = [u]) -> forall us1 us2, concat scc = us1 ++ p :: us2 ->
             exists pre post, scc = pre ++ [p] :: post /\ concat pre = us1).
          { clear. induction scc as [|c scc IH]; intros H us1 us2 E; simpl in E.
            - destruct us1; discriminate.
            - destruct (H c (or_introl eq_refl)) as (u & ->). simpl in E. destruct us1 as [|a us1]; simpl in E; inversion E; subst.
              + exists [], scc. auto.
              + destruct (IH (fun c J => H c (or_intror J)) us1 us2 H2) as (pre & post & -> & <-).
                exists ([a] :: pre), post. auto. }
          destruct (X scc Single us1 us2 Eus) as (pre & post & Es & Ep).
          destruct (Comps pre [p] post Es) as (_ & _ & Cl).
          destruct (Cl p r (or_introl eq_refl) Er) as [[->|[]]|J]; [|rewrite Ep in J; auto].
          exfalso. eapply edge_irrefl; eauto. }
        destruct (Before r j Jr Pr) as [J|[]].
        apply In_nth_error in J. destruct J as (k & Nk).
        assert (k < length l1) by eauto using nth_error_some_lt.
        assert (k = k2); [|lia].
        rewrite NoDup_nth_error in NDo. apply NDo.
        + unfold ord. rewrite app_length. lia.
        + rewrite N2. unfold ord. rewrite nth_error_app1 by lia. rewrite E1. rewrite nth_error_app1 by lia. auto.
      - intros i J. apply In1 in J. tauto.
    Qed.

    Lemma scheduled : forall scc unused out,
      sccs cs = Some scc ->
      take_objects Obj provider scc (map Some objs) [] = inl (unused, out) ->
      exists ord1, let ord := ord1 ++ filter nothing (seq 0 (length objs)) in
        reordering objs ord (out ++ flatten_opt Obj unused) /\
        respects_dependencies provides requires objs ord /\
        (forall i, In i ord1 -> nothing i = false).
    Proof. intros scc unused out S T. eexists. exact (scheduled_pos _ _ _ S T). Qed.

    Lemma schedule_cycle : forall scc e,
      sccs cs = Some scc -> take_objects Obj provider scc (map Some objs) [] = inr e ->
      e = GraphCycle /\ exists i, depends_plus provides requires objs i i.
    Proof.
      intros scc e S T.
      destruct (sccs_ok cs edge_target) as (scc' & S' & Perm & Comps). rewrite S in S'. inversion S'; subst scc'. clear S'.
      assert (U0 : unused_at objs [] (map Some objs)).
      { intros k. rewrite nth_error_map. simpl. destruct (nth_error objs k); auto. }
      assert (Ne : forall c, In c scc -> c <> []).
      { intros c J. apply in_split in J. destruct J as (pre & post & E). apply (Comps pre c post E). }
      destruct (take_err objs _ _ _ _ _ _ prov_lt Ne U0 T) as (-> & c & Jc & Lc).
      split; auto.
      apply in_split in Jc. destruct Jc as (pre & post & Es). destruct (Comps pre c post Es) as (_ & Conn & _).
      assert (ND : NoDup c).
      { assert (NoDup (concat scc)).
        { eapply Permutation_NoDup; [apply Permutation_sym; exact Perm|apply seq_NoDup]. }
        rewrite Es, concat_app in H. simpl in H. clear - H.
        induction (concat pre); simpl in H; [|inversion H; auto].
        induction c; simpl in H; constructor; inversion H; subst; auto. intros J. apply H2. apply in_app_iff; auto. }
      destruct c as [|a [|b c]]; simpl in Lc; try lia.
      assert (Nab : a <> b). { inversion ND; subst. simpl in H1. intuition. }
      assert (R1 : reach cs a b) by (apply Conn; simpl; auto).
      assert (R2 : reach cs b a) by (apply Conn; simpl; auto).
      assert (P : forall x y, reach cs x y -> x <> y -> exists k, prov provider x = Some k).
      { intros x y R N. inversion R; subst; [congruence|]. apply edge_iff in H.
        destruct B as (_ & C & D & _). apply D in H. destruct H as (k & o & u & w & No & Eu & Ju & _).
        exists k. apply C. eauto. }
      destruct (P a b R1 Nab) as (i & Pa). destruct (P b a R2 (not_eq_sym Nab)) as (j & Pb).
      exists i.
      assert (Tr : forall i j k, depends_plus provides requires objs i j -> depends_plus provides requires objs j k -> depends_plus provides requires objs i k).
      { clear. induction 1; intros; eauto using dp_more. }
      eapply Tr; [eapply (reach_dep a b); eauto|eapply (reach_dep b a); eauto].
    Qed.
  End Final.

  Lemma respects_acyclic : forall objs ord out, reordering objs ord out ->
    respects_dependencies provides requires objs ord -> acyclic provides requires objs.
  Proof.
    intros objs ord out [P _] R.
    assert (Pos : forall i, i < length objs -> exists k, nth_error ord k = Some i).
    { intros i L. apply In_nth_error. eapply Permutation_in; [apply Permutation_sym; exact P|]. apply in_seq. lia. }
    assert (ND : NoDup ord). { eapply Permutation_NoDup; [apply Permutation_sym; exact P|apply seq_NoDup]. }
    assert (Dec : forall i j, depends_plus provides requires objs i j ->
      exists ki kj, nth_error ord ki = Some i /\ nth_error ord kj = Some j /\ kj < ki).
    { assert (One : forall i j, depends_on provides requires objs i j ->
        exists ki kj, nth_error ord ki = Some i /\ nth_error ord kj = Some j /\ kj < ki).
      { intros i j D. pose proof D as (oi & oj & u & Ni & Nj & _).
        destruct (Pos i) as (ki & Ki); [eauto using nth_error_some_lt|].
        destruct (Pos j) as (kj & Kj); [eauto using nth_error_some_lt|].
        exists ki, kj. repeat split; auto. destruct (Nat.lt_ge_cases kj ki) as [|Le]; auto.
        exfalso. exact (R ki kj i j Ki Kj Le D). }
      induction 1 as [i j D|i j k D _ IH]; auto.
      destruct (One i j D) as (ki & kj & A & B & C). destruct IH as (kj' & kk & A' & B' & C').
      assert (kj = kj'). { rewrite NoDup_nth_error in ND. apply ND; [eauto using nth_error_some_lt|congruence]. }
      exists ki, kk. repeat split; auto. lia. }
    intros i D. destruct (Dec i i D) as (k & k' & A & B & C).
    assert (k = k'). { rewrite NoDup_nth_error in ND. apply ND; [eauto using nth_error_some_lt|congruence]. }
    lia.
  Qed.

  Definition provides_nothing (objs : list Obj) (k : nat) : bool :=
    match nth_error objs k with Some o => match provides o with [] => true | _ => false end | None => true end.

  Theorem schedule_full : forall ext objs must,
    match schedule Obj Unit unit_eqb provides requires ext objs must with
    | inl out =>
        single_assignment provides objs ext /\ complete provides objs must /\
        exists ord1, let ord := ord1 ++ filter (provides_nothing objs) (seq 0 (length objs)) in
          reordering objs ord out /\ respects_dependencies provides requires objs ord /\
          (forall i, In i ord1 -> provides_nothing objs i = false)
    | inr GraphUnitDeclTwice => ~ single_assignment provides objs ext
    | inr GraphUnitUndeclared => ~ complete provides objs must
    | inr GraphUnitDependsOnItself => exists i, depends_on provides requires objs i i
    | inr GraphCycle => ~ acyclic provides requires objs
    | inr GraphAbort => False
    end.
  Proof.
    intros ext objs must. unfold schedule.
    assert (G0 : Gok [] [] (graph_empty Obj Unit)) by (constructor; simpl; constructor).
    pose proof (insert_gok objs _ _ _ (ext_gok ext _ _ G0)) as G. simpl in G.
    set (g0 := fold_left _ objs _) in *. 
    pose proof (must_ok must ext objs g0 G) as M.
    destruct (must_provide_all Obj Unit unit_eqb must g0) as [g|e].
    2:{ destruct M as [-> M]. auto. }
    destruct M as [G1 Cm]. clear G. unfold scheduling. rewrite (k_elems _ _ _ G1).
    destruct (add_objects _ _ _ _ _) as [[provider cs]|e] eqn:A.
    2:{ destruct (tables_error ext objs g G1 e A) as [[-> H]|[-> H]]; auto. }
    pose proof (tables_built ext objs g G1 provider cs A) as B.
    destruct (sccs_ok cs (edge_target ext objs g provider cs B)) as (scc & S & _). rewrite S.
    destruct (take_objects Obj provider scc (map Some objs) []) as [[unused out]|e] eqn:T.
    - split; [apply B|]. split; auto. eapply scheduled; eauto.
    - destruct (schedule_cycle ext objs g provider cs B scc e S T) as [-> (i & H)].
      intros Ac. eapply Ac; eauto.
  Qed.
End Sched.
