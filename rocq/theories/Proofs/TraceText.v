(** Proofs about the text of traces. *)
From Coq Require Import String Ascii List ZArith Bool Arith Lia.
From Coq Require Import Floats.SpecFloat DecimalFacts DecimalPos DecimalNat.
From Verif Require Import Model.Base Model.Scalar Model.Value Model.Ast Model.Interp Model.Options Model.Names Model.Codegen Model.Trace
  Spec.ProgramSem Spec.TraceSpec Proofs.InterpBasics.
Import ListNotations.
Local Open Scope string_scope.

Lemma shown_ext : forall env env' s t, (forall x, env x = env' x) -> shown env s t -> shown env' s t.
Proof.
  induction 2; [apply shown_end|apply shown_char|apply shown_open|apply shown_close|apply shown_var]; auto. congruence.
Qed.

Lemma append_assoc : forall a b c, ((a ++ b) ++ c = a ++ b ++ c)%string.
Proof. induction a as [|x a IH]; intros; simpl; auto. rewrite IH. auto. Qed.

(** Names have no brace. *)
Lemma letter_brace : forall c, letter_or_digit c = true -> c <> "{"%char /\ c <> "}"%char.
Proof. intros c H. split; intros ->; discriminate. Qed.
Lemma ident_chars : forall x, is_ident x = true -> all_chars letter_or_digit x = true.
Proof.
  intros [|c s] H; [discriminate|]. simpl in *. apply andb_true_iff in H. destruct H as [A B]. rewrite B, andb_true_r.
  unfold letter_or_digit. rewrite A. auto.
Qed.

Section Text.
  Variable env : list (ident * string).
  Notation look := (fun x => lookup x env).

  (** The text between braces. *)
  Lemma format_hole : forall x a s, all_chars letter_or_digit x = true ->
    format env (Some a) (x ++ "}" ++ s) = format env (Some (a ++ x)) ("}" ++ s).
  Proof.
    induction x as [|c x IH]; intros a s H.
    - simpl. assert (E : (a ++ "" = a)%string) by (clear; induction a; simpl; congruence). rewrite E. auto.
    - simpl in H. apply andb_true_iff in H. destruct H as [H1 H2]. apply letter_brace in H1. destruct H1 as [_ B].
      cbn [String.append format]. destruct (Ascii.eqb_spec c "}"); [contradiction|].
      change (format env (Some (a ++ String c "")%string) (x ++ "}" ++ s) = format env (Some (a ++ String c x)%string) ("}" ++ s)).
      rewrite IH; auto. rewrite append_assoc. auto.
  Qed.

  Lemma shown_format : forall s t, shown look s t -> format env None s = Some t.
  Proof.
    induction 1; auto.
    - cbn [format]. destruct (Ascii.eqb_spec c "{"); [contradiction|]. destruct (Ascii.eqb_spec c "}"); [contradiction|].
      rewrite IHshown. auto.
    - simpl. rewrite IHshown. auto.
    - simpl. rewrite IHshown. auto.
    - destruct x as [|c x]; [discriminate|]. pose proof (ident_chars _ H) as C. pose proof H as J.
      assert (B : c <> "{"%char). { simpl in C. apply andb_true_iff in C. destruct C as [C _]. apply letter_brace in C. tauto. }
      change ("{" ++ String c x ++ "}" ++ s)%string with (String "{" (String c (x ++ "}" ++ s))).
      cbn [format]. rewrite Ascii.eqb_refl. destruct (Ascii.eqb_spec c "{"); [contradiction|].
      change (format env (Some "") (String c x ++ "}" ++ s) = Some (v ++ t)%string).
      rewrite format_hole; auto. cbn [String.append format]. rewrite Ascii.eqb_refl, J. cbv beta in H0. rewrite H0, IHshown. auto.
  Qed.

  Lemma format_shown : forall n s, String.length s <= n -> 
    (forall t, format env None s = Some t -> shown look s t) /\
    (forall a t, format env (Some a) s = Some t ->
       exists x s' v t', s = (x ++ "}" ++ s')%string /\ is_ident (a ++ x) = true /\ look (a ++ x)%string = Some v /\
         t = (v ++ t')%string /\ shown look s' t').
  Proof.
    induction n as [|n IH]; intros s L.
    - destruct s; [|simpl in L; lia]. split; [|discriminate]. intros t H. inversion H. constructor.
    - split.
      + intros t H. destruct s as [|c s]; [inversion H; constructor|]. cbn [format] in H. simpl in L.
        destruct (Ascii.eqb_spec c "{").
        * subst. destruct s as [|c' s]; [discriminate|]. simpl in L. destruct (Ascii.eqb_spec c' "{").
          -- subst. destruct (format env None s) eqn:E; [|discriminate]. inversion H; subst.
             apply (shown_open look s s0). apply (proj1 (IH s ltac:(lia))). auto.
          -- destruct (proj2 (IH (String c' s) ltac:(simpl; lia)) _ _ H) as (x & s' & v & t' & E & I & V & -> & Sh).
             rewrite E. apply (shown_var look x v s' t'); auto.
        * destruct (Ascii.eqb_spec c "}").
          -- subst. destruct s as [|c' s]; [discriminate|]. simpl in L. destruct (Ascii.eqb_spec c' "}"); [|discriminate].
             subst. destruct (format env None s) eqn:E; [|discriminate]. inversion H; subst.
             apply (shown_close look s s0). apply (proj1 (IH s ltac:(lia))). auto.
          -- destruct (format env None s) eqn:E; [|discriminate]. inversion H; subst. constructor; auto. apply (proj1 (IH s ltac:(lia))). auto.
      + intros a t H. destruct s as [|c s]; [discriminate|]. cbn [format] in H. simpl in L. destruct (Ascii.eqb_spec c "}").
        * subst. destruct (is_ident a) eqn:I; [|discriminate]. destruct (lookup a env) eqn:V; [|discriminate].
          destruct (format env None s) eqn:E; [|discriminate]. inversion H; subst.
          assert (Z : (a ++ "" = a)%string) by (clear; induction a; simpl; congruence).
          exists "", s, s0, s1. rewrite Z. repeat split; auto. apply (proj1 (IH s ltac:(lia))). auto.
        * destruct (proj2 (IH s ltac:(lia)) _ _ H) as (x & s' & v & t' & -> & I & V & -> & Sh).
          exists (String c x), s', v, t'. rewrite append_assoc in I, V. repeat split; auto.
  Qed.

  Theorem format_iff : forall s t, format env None s = Some t <-> shown look s t.
  Proof. split; [apply (proj1 (format_shown (String.length s) s (le_n _)))|apply shown_format]. Qed.
End Text.

Lemma shown_fun : forall env s t t', (exists l, forall x, env x = lookup x l) -> shown env s t -> shown env s t' -> t = t'.
Proof.
  intros env s t t' (l & E) A B. apply (shown_ext _ (fun x => lookup x l)) in A; auto. apply (shown_ext _ (fun x => lookup x l)) in B; auto.
  apply format_iff in A. apply format_iff in B. congruence.
Qed.

(** Only the names matter for a format to be accepted. *)
Lemma shown_names : forall env s t, shown env s t -> forall env', (forall x, env x <> None -> env' x <> None) -> exists t', shown env' s t'.
Proof.
  induction 1; intros env' E.
  - eexists. constructor.
  - destruct (IHshown _ E). eexists. constructor; eauto.
  - destruct (IHshown _ E). eexists. apply shown_open; eauto.
  - destruct (IHshown _ E). eexists. apply shown_close; eauto.
  - destruct (IHshown _ E). destruct (env' x) eqn:V; [|exfalso; apply (E x); congruence].
    eexists. eapply shown_var; eauto.
Qed.

Lemma acceptable_shown : forall names s env, acceptable names s -> (forall x, In x names -> env x <> None) -> exists t, shown env s t.
Proof.
  intros names s env (t & H) E. apply (shown_names _ _ _ H). intros x N. apply E.
  destruct (existsb (String.eqb x) names) eqn:X; [|congruence]. apply existsb_exists in X. destruct X as (y & I & Y). apply String.eqb_eq in Y. subst. auto.
Qed.

(** ** The names in scope *)
Lemma lookup_app2 : forall {A} x (b st : list (ident * A)), lookup x (b ++ st)%list = match lookup x b with Some v => Some v | None => lookup x st end.
Proof. induction b as [|(y, v) b IH]; intros st; simpl; auto. destruct (String.eqb x y); auto. Qed.

Lemma existsb_names : forall x l, existsb (String.eqb x) l = true <-> In x l.
Proof.
  intros x l. rewrite existsb_exists. split.
  - intros (y & I & E). apply String.eqb_eq in E. subst. auto.
  - intros I. exists x. split; auto. apply String.eqb_refl.
Qed.

Lemma acceptable_check : forall names s, (exists t, format (map (fun x => (x, ""%string)) names) None s = Some t) -> acceptable names s.
Proof.
  intros names s (t & H). apply format_iff in H. exists t. eapply shown_ext; [|exact H]. intros x. simpl. clear.
  induction names as [|y names IH]; simpl; auto. destruct (String.eqb x y); simpl; auto.
Qed.

Section Scope.
  Variable fshow : spec_float -> string.

  Lemma trace_env_ok : forall prefix name clk st l env, trace_env fshow prefix name clk st l = Ok env ->
    forall x, lookup x env = scope fshow prefix name clk (fun x => lookup x st) (map v_name l) x.
  Proof.
    intros prefix name clk st l env H x. unfold trace_env in H. inv_ok. 
    rewrite <- !app_assoc, lookup_app2. cbn [app]. unfold scope.
    match goal with |- match ?t with Some _ => _ | None => _ end = _ =>
      assert (G : t = if existsb (String.eqb x) (map v_name l) then option_map (show fshow) (lookup x st) else None) end.
    { revert r E. induction l as [|v l IH]; intros r E; cbn [mapM] in E; inv_ok; [auto|].
      cbn [rev map existsb]. rewrite lookup_app2, (IH _ E1). cbn [lookup]. destruct (String.eqb_spec x (v_name v)).
      - subst. rewrite E2. cbn. destruct (existsb _ _); auto.
      - cbn [orb]. destruct (existsb _ _); auto. destruct (lookup x st); auto. }
    rewrite G. destruct (existsb (String.eqb x) (map v_name l)) eqn:X.
    - destruct (lookup x st) eqn:V; auto. exfalso. clear G. apply existsb_names in X. revert r E. induction l as [|v l IH]; intros r E; [destruct X|].
      cbn [mapM] in E. inv_ok. destruct X as [<-|X]; [congruence|]. eapply IH; eauto.
    - cbn [lookup]. reflexivity.
  Qed.

  Lemma trace_env_total : forall prefix name clk st l, (forall x, In x l -> lookup (v_name x) st <> None) ->
    exists env, trace_env fshow prefix name clk st l = Ok env.
  Proof.
    intros prefix name clk st l H. unfold trace_env.
    assert (G : exists vs, mapM (fun v => n <- of_option PUnbound (lookup (v_name v) st);; Ok (v_name v, show fshow n)) l = Ok vs).
    { induction l as [|v l IH]; [eexists; reflexivity|]. cbn [mapM]. destruct (lookup (v_name v) st) eqn:E; [|exfalso; apply (H v); simpl; auto].
      cbn [of_option bind]. destruct IH as (vs & ->); [intros; apply H; simpl; auto|]. eexists. reflexivity. }
    destruct G as (vs & ->). eexists. reflexivity.
  Qed.

  Lemma scope_known : forall prefix name clk st vars x, (forall y, In y vars -> st y <> None) ->
    In x (special ++ vars)%list -> scope fshow prefix name clk st vars x <> None.
  Proof.
    intros prefix name clk st vars x H I. unfold scope. destruct (existsb (String.eqb x) vars) eqn:X.
    - apply existsb_names in X. apply H in X. destruct (st x); [discriminate|congruence].
    - apply in_app_iff in I. destruct I as [I|I]; [|apply existsb_names in I; congruence].
      destruct I as [<-|[<-|[<-|[]]]]; discriminate.
  Qed.
End Scope.

(** ** The default format *)
Section Default.
  Variable fshow : spec_float -> string.
  Variables (prefix : string) (name : ident) (clk : nat) (value : ident -> option nillable) (vars : list ident).
  Notation env := (scope fshow prefix name clk value vars).

  Lemma shown_plain : forall a s t, all_chars (fun c => negb (Ascii.eqb c "{") && negb (Ascii.eqb c "}"))%bool a = true ->
    shown env s t -> shown env (a ++ s) (a ++ t).
  Proof.
    induction a as [|c a IH]; intros s t H S; auto. simpl in H. apply andb_true_iff in H. destruct H as [H1 H2].
    apply andb_true_iff in H1. destruct H1 as [B C]. cbn [String.append]. constructor; auto.
    - intros ->. discriminate.
    - intros ->. discriminate.
  Qed.

  Lemma ident_plain : forall x, is_ident x = true -> all_chars (fun c => negb (Ascii.eqb c "{") && negb (Ascii.eqb c "}"))%bool x = true.
  Proof.
    intros x H. apply ident_chars in H. induction x as [|c x IH]; auto. simpl in *. apply andb_true_iff in H. destruct H as [A B].
    rewrite IH, andb_true_r; auto. apply letter_brace in A. destruct A as [A1 A2].
    destruct (Ascii.eqb_spec c "{"); [contradiction|]. destruct (Ascii.eqb_spec c "}"); [contradiction|]. auto.
  Qed.

  (** ["x={x}"] for each variable *)
  Lemma shown_fields : forall (l : list tyvar) ns s t,
    (forall x, In x l -> is_ident (v_name x) = true /\ In (v_name x) vars) ->
    Forall2 (fun x n => value (v_name x) = Some n) l ns ->
    shown env s t ->
    shown env (String.concat ", " (map (fun v => v_name v ++ "={" ++ v_name v ++ "}") l) ++ s)
              (String.concat ", " (map (fun '(v, n) => v_name v ++ "=" ++ show fshow n) (combine l ns)) ++ t).
  Proof.
    intros l ns s t H F. revert s t H. induction F as [|x n l ns E F IH]; intros s t H S; [exact S|].
    assert (One : forall s t, shown env s t ->
      shown env ((v_name x ++ "={" ++ v_name x ++ "}") ++ s) ((v_name x ++ "=" ++ show fshow n) ++ t)).
    { clear s t S. intros s t S. destruct (H x (or_introl eq_refl)) as [I K]. rewrite !append_assoc.
      apply shown_plain; [apply ident_plain; auto|].
      change (shown env (String "=" ("{" ++ v_name x ++ "}" ++ s)) (String "=" (show fshow n ++ t))).
      constructor; [discriminate|discriminate|]. apply shown_var; auto. unfold scope.
      assert (X : existsb (String.eqb (v_name x)) vars = true) by (apply existsb_names; auto). rewrite X, E. auto. }
    destruct F as [|x' n' l ns E' F].
    - cbn [map combine String.concat]. apply One. auto.
    - set (fa := fun v : tyvar => v_name v ++ "={" ++ v_name v ++ "}") in *.
      set (fb := fun '((v, n) : tyvar * nillable) => v_name v ++ "=" ++ show fshow n) in *.
      change (shown env ((fa x ++ ", " ++ String.concat ", " (map fa (x' :: l))) ++ s)
                ((fb (x, n) ++ ", " ++ String.concat ", " (map fb (combine (x' :: l) (n' :: ns)))) ++ t)).
      rewrite (append_assoc (fa x)), (append_assoc (fb (x, n))), !(append_assoc ", "). apply One.
      apply shown_plain; [reflexivity|]. apply IH; auto. intros y J. apply H. simpl in *. tauto.
  Qed.

  Theorem default_text : forall arrow l ns, (arrow = "<-" \/ arrow = "->") ->
    (forall x, In x l -> is_ident (v_name x) = true /\ In (v_name x) vars) ->
    Forall2 (fun x n => value (v_name x) = Some n) l ns ->
    (forall x, In x special -> ~ In x vars) ->
    shown env (format_string arrow TfDefault l)
      (prefix ++ name ++ " " ++ arrow ++ " (" ++
       String.concat ", " (map (fun '(v, n) => v_name v ++ "=" ++ show fshow n) (combine l ns)) ++ ")" ++ newline).
  Proof.
    intros arrow l ns A H F N. unfold format_string, fmt_strings.
    assert (K : forall x v, In x special -> env x = Some v -> forall s t, shown env s t -> shown env ("{" ++ x ++ "}" ++ s) (v ++ t)).
    { intros x v I E s t S. apply shown_var; auto. destruct I as [<-|[<-|[<-|[]]]]; reflexivity. }
    assert (Ns : forall x, In x special -> existsb (String.eqb x) vars = false).
    { intros x I. destruct (existsb (String.eqb x) vars) eqn:X; auto. apply existsb_names in X. exfalso. eapply N; eauto. }
    rewrite !append_assoc.
    apply (K "_ext" prefix); [simpl; auto|unfold scope; rewrite Ns by (simpl; auto); reflexivity|].
    apply (K "_this" name); [simpl; auto|unfold scope; rewrite Ns by (simpl; auto); reflexivity|].
    apply shown_plain with (a := " "); [reflexivity|]. apply shown_plain; [destruct A; subst; reflexivity|].
    apply shown_plain with (a := " ("); [reflexivity|]. apply shown_fields; auto.
    apply shown_plain with (a := ")"); [reflexivity|]. apply (shown_plain newline "" ""); [reflexivity|constructor].
  Qed.
End Default.

(** ** Text of values *)
Lemma number_digit : forall c s k acc, Z.of_nat (nat_of_ascii c) = (48 + k)%Z -> (0 <= k <= 9)%Z -> number acc (String c s) = number (10 * acc + k) s.
Proof.
  intros c s k acc E K. cbn [number]. rewrite E. replace (48 + k - 48)%Z with k by lia.
  destruct (Z.leb_spec 0 k), (Z.leb_spec k 9); try lia. reflexivity.
Qed.
Lemma number_acc : forall d acc, number (Zpos acc) (DecimalString.NilEmpty.string_of_uint d) = Some (Zpos (Pos.of_uint_acc d acc)).
Proof.
  induction d; intros acc; [reflexivity| | | | | | | | | |]; cbn [DecimalString.NilEmpty.string_of_uint Pos.of_uint_acc];
    [erewrite (number_digit _ _ 0)|erewrite (number_digit _ _ 1)|erewrite (number_digit _ _ 2)|erewrite (number_digit _ _ 3)
    |erewrite (number_digit _ _ 4)|erewrite (number_digit _ _ 5)|erewrite (number_digit _ _ 6)|erewrite (number_digit _ _ 7)
    |erewrite (number_digit _ _ 8)|erewrite (number_digit _ _ 9)]; try reflexivity; try lia;
    rewrite <- IHd; f_equal; lia.
Qed.
Lemma number_uint : forall d, number 0 (DecimalString.NilEmpty.string_of_uint d) = Some (Z.of_N (Pos.of_uint d)).
Proof.
  induction d; [reflexivity|exact IHd| | | | | | | | |];
    cbn [DecimalString.NilEmpty.string_of_uint number Pos.of_uint Z.of_N]; rewrite <- number_acc; reflexivity.
Qed.
Lemma written_pos : forall p, written_nat (DecimalString.NilEmpty.string_of_uint (Pos.to_uint p)) (Zpos p).
Proof.
  intros p. split; [|split].
  - rewrite number_uint. rewrite DecimalPos.Unsigned.of_to. reflexivity.
  - pose proof (DecimalPos.Unsigned.to_uint_nonnil p). destruct (Pos.to_uint p); cbn; congruence.
  - intros s' E. pose proof (DecimalPos.Unsigned.to_of (Pos.to_uint p)) as K. rewrite DecimalPos.Unsigned.of_to in K. cbn [N.to_uint] in K.
    destruct (Pos.to_uint p) as [|d|d|d|d|d|d|d|d|d|d]; try discriminate. cbn in E. inversion E; subst.
    cbn in K. destruct d; try reflexivity; exfalso; symmetry in K; unfold Decimal.unorm in K; cbn [Decimal.nzhead] in K;
      try discriminate K.
    destruct (Decimal.nzhead d) as [|d'|d'|d'|d'|d'|d'|d'|d'|d'|d'] eqn:Z; try discriminate K.
    exact (DecimalFacts.nzhead_nonzero _ _ Z).
Qed.
Theorem int_text : forall fshow z, written_int (show fshow (Defined (SInt z))) z.
Proof.
  intros fshow z. unfold written_int. destruct z as [|p|p]; cbn [Z.ltb Z.compare show show_scalar Z.to_int DecimalString.NilEmpty.string_of_int].
  - split; [reflexivity|]. split; [discriminate|]. intros s' E. inversion E. reflexivity.
  - apply written_pos.
  - eexists. split; [reflexivity|]. apply written_pos.
Qed.
Lemma nat_uint_acc : forall d acc, Nat.of_uint_acc d (Pos.to_nat acc) = Pos.to_nat (Pos.of_uint_acc d acc).
Proof.
  induction d; intros acc; [reflexivity| | | | | | | | | |]; cbn [Nat.of_uint_acc Pos.of_uint_acc];
    rewrite <- IHd; f_equal; rewrite Nat.tail_mul_spec; lia.
Qed.
Lemma nat_uint : forall d, Nat.of_uint d = N.to_nat (Pos.of_uint d).
Proof.
  intros d. unfold Nat.of_uint. induction d; [reflexivity|exact IHd| | | | | | | | |];
    cbn [Nat.of_uint_acc Pos.of_uint N.to_nat]; rewrite <- nat_uint_acc; reflexivity.
Qed.
Theorem nat_text : forall n, written_nat (decimal n) (Z.of_nat n).
Proof.
  intros n. unfold decimal. destruct n as [|n]; [split; [reflexivity|split; [discriminate|]]; intros s' E; inversion E; reflexivity|].
  replace (Nat.to_uint (S n)) with (Pos.to_uint (Pos.of_succ_nat n)); [exact (written_pos _)|].
  pose proof (DecimalNat.Unsigned.to_of (Pos.to_uint (Pos.of_succ_nat n))) as K.
  rewrite nat_uint, DecimalPos.Unsigned.of_to in K. cbn [N.to_nat] in K. rewrite SuccNat2Pos.id_succ in K. rewrite K.
  pose proof (DecimalPos.Unsigned.to_of (Pos.to_uint (Pos.of_succ_nat n))) as J. rewrite DecimalPos.Unsigned.of_to in J. exact J.
Qed.
