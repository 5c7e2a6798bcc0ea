(** What a program with extern nodes does depends on its declarations only. *)
From Coq Require Import String List ZArith Bool Arith Lia.
From Verif Require Import Model.Base Model.Scalar Model.Value Model.Register Model.Ast Model.Errors Model.Interp Model.Options Model.Surface Model.Translate
  Model.Pipeline Model.Extern
  Spec.StepSpec Spec.SurfaceSem Spec.ProgramSem Spec.SettledSem Spec.SafetySpec Spec.ExternSem Spec.ExternSettled Spec.SourceCausal Spec.ConstSpec Spec.CrashSpec Spec.Static
  Proofs.AstInd Proofs.OutBasics Proofs.Settled Proofs.ProgramProofs Proofs.Exact Proofs.StaticProgram Proofs.Link Proofs.Extension Proofs.ExternExact Proofs.Observe.
Import ListNotations.

(** ** The nodes that an expression calls *)
Section Calls.
  Variable mode : ovf.
  Variable glob : ident -> option scalar.
  Variable L : list ident.
  Variable rho : nat -> ident -> option nillable.
  Variables F F' : ident -> list val -> val -> Prop.
  Variables N N' : ident -> val -> Prop.
  Variable P : ident -> Prop.
  Hypothesis FF : forall g, P g -> forall args v, F g args v -> F' g args v.
  Hypothesis NN : forall g, P g -> forall v, N g v -> N' g v.

  Definition on (e : sexpr) : Prop := forall x, In x (callees e) -> P x.
  Definition ons (l : list sexpr) : Prop := forall e, In e l -> on e.
  Definition onp {O} (l : list (O * sexpr)) : Prop := forall p, In p l -> on (snd p).

  Lemma on_list : forall l, (forall x, In x (flat_map callees l) -> P x) -> ons l.
  Proof. intros l A e J x K. apply A, in_flat_map. eauto. Qed.
  Lemma on_pairs : forall O (l : list (O * sexpr)), (forall x, In x (flat_map (fun p => callees (snd p)) l) -> P x) -> onp l.
  Proof. intros O l A e J x K. apply A, in_flat_map. eauto. Qed.
  Lemma on_call : forall f l b, on (XCall f l b) -> P f /\ on (XParen l b).
  Proof. intros f l b H. split; [apply H; cbn; auto|]. intros x J. apply H. cbn in *. auto. Qed.
  Lemma on_three : forall a b c, on (XIf a b c) -> on a /\ on b /\ on c.
  Proof. intros a b c H. repeat split; intros x J; apply H; cbn; rewrite !in_app_iff; auto. Qed.
  Lemma on_bin : forall e l, on (XBin e l) -> on e /\ onp l.
  Proof. intros e l H. split; [|apply on_pairs]; intros x J; apply H; cbn; rewrite in_app_iff; auto. Qed.
  Lemma on_cmp : forall e l, on (XCmp e l) -> on e /\ onp l.
  Proof. intros e l H. split; [|apply on_pairs]; intros x J; apply H; cbn; rewrite in_app_iff; auto. Qed.
  Lemma on_clock : forall e l, on (XClock e l) -> on e /\ onp l.
  Proof. intros e l H. split; [|apply on_pairs]; intros x J; apply H; cbn; rewrite in_app_iff; auto. Qed.
  Lemma on_chain : forall e l k e', on (XThen e l) -> nth_error (e :: l) k = Some e' -> on e'.
  Proof.
    intros e l k e' H J x X. apply nth_error_In in J. apply H. cbn. rewrite in_app_iff. destruct J as [<-|J]; auto. right. apply in_flat_map. eauto.
  Qed.

  Lemma sem_on : forall e t v, sem mode glob L rho F N e t v -> on e -> sem mode glob L rho F' N' e t v.
  Proof.
    apply (sem_mut mode glob L rho F N
      (fun e t v => on e -> sem mode glob L rho F' N' e t v)
      (fun l t vs => ons l -> sems mode glob L rho F' N' l t vs)
      (fun w l t v => onp l -> bins mode glob L rho F' N' w l t v)
      (fun w l t v => onp l -> clocks mode glob L rho F' N' w l t v)); intros.
    - constructor.
    - constructor.
    - constructor.
    - apply sem_var; auto.
    - apply sem_past; auto.
    - apply sem_global; auto.
    - apply sem_paren. apply H0. apply on_list. auto.
    - match goal with H : on _ |- _ => apply on_call in H; destruct H end. apply sem_call_past; auto.
    - match goal with H : on _ |- _ => apply on_call in H; destruct H end. eapply sem_call; eauto.
    - eapply sem_neg; eauto.
    - eapply sem_not; eauto.
    - apply sem_pre. auto.
    - match goal with H : on _ |- _ => apply on_three in H; destruct H as (C1 & C2 & C3) end. eapply sem_if; eauto.
    - match goal with H : on _ |- _ => apply (on_three c a b) in H; destruct H as (C1 & C2 & C3) end. eapply sem_merge; eauto.
    - match goal with H : on _ |- _ => apply on_bin in H; destruct H end. eapply sem_bin; eauto.
    - match goal with H : on _ |- _ => apply on_clock in H; destruct H end. eapply sem_clock; eauto.
    - match goal with H : on _ |- _ => apply on_cmp in H; destruct H end. eapply sem_cmp1; eauto.
    - match goal with H : on _ |- _ => apply on_cmp in H; destruct H as [C1 C2] end. eapply sem_cmp2; eauto. apply H2. apply (C2 (op, b)). left. auto.
    - eapply sem_fby; eauto. apply H1. eapply on_chain; eauto.
    - eapply sem_then; eauto. apply H1. eapply on_chain; eauto.
    - constructor.
    - constructor; [apply H0; match goal with H : ons _ |- _ => apply H; left; auto end|]. apply H2. intros e0 J. match goal with H : ons _ |- _ => apply H; right; auto end.
    - constructor.
    - econstructor; eauto; [apply H0; match goal with H : onp _ |- _ => apply (H (op, e)); left; auto end|]. apply H3. intros p J. match goal with H : onp _ |- _ => apply H; right; auto end.
    - constructor.
    - econstructor; eauto; [apply H0; match goal with H : onp _ |- _ => apply (H (pos, e)); left; auto end|]. apply H3. intros p J. match goal with H : onp _ |- _ => apply H; right; auto end.
  Qed.

  Lemma settled_on : forall e t, on e -> settled mode glob L rho F N e t -> settled mode glob L rho F' N' e t.
  Proof.
    set (Q := fun e => forall t, on e -> settled mode glob L rho F N e t -> settled mode glob L rho F' N' e t).
    assert (A : forall l, Forall Q l -> forall t, ons l -> all_settled mode glob L rho F N l t -> all_settled mode glob L rho F' N' l t).
    { induction 1; intros t C B; cbn in *; auto. destruct B. split; [apply H; auto; apply C; left; auto|]. apply IHForall; auto. intros e J. apply C. right. auto. }
    assert (B : forall O (l : list (O * sexpr)), Forall (fun p => Q (snd p)) l -> forall t, onp l -> pairs_settled mode glob L rho F N l t ->
      pairs_settled mode glob L rho F' N' l t).
    { induction 1 as [|[op e] l H _ IH]; intros t C B; cbn in *; auto. destruct B. split; [apply H; auto; apply (C (op, e)); left; auto|].
      apply IH; auto. intros p J. apply C. right. auto. }
    assert (K : forall e l, Q e -> Forall Q l -> forall k e', nth_error (e :: l) k = Some e' -> Q e').
    { intros e l He Hl k e' Hk. apply nth_error_In in Hk. destruct Hk as [<-|Hk]; auto. rewrite Forall_forall in Hl. auto. }
    intros e. change (Q e). induction e using sexpr_ind'; intros t C.
    - exact (fun _ => Logic.I).
    - exact (fun _ => Logic.I).
    - rewrite !st_paren. apply A; auto. apply on_list. auto.
    - rewrite !st_call. intros X T. apply A; auto. apply on_list. apply on_call in C. apply C.
    - apply IHe. exact C.
    - apply IHe. exact C.
    - apply (IHe (t - 1)%Z). exact C.
    - apply on_three in C. destruct C as (C1 & C2 & C3). cbn. intros (B1 & B2 & B3). auto.
    - apply (on_three e1 e2 e3) in C. destruct C as (C1 & C2 & C3). cbn. intros (B1 & B2 & B3). auto.
    - rewrite !st_bin. apply on_bin in C. destruct C. intros [B1 B2]. split; auto.
    - rewrite !st_cmp. apply on_cmp in C. destruct C. intros [B1 B2]. split; auto.
    - rewrite !st_clock. apply on_clock in C. destruct C. intros [B1 B2]. split; auto.
    - rewrite !st_fby. intros X k e' J G. destruct (X k e' J G) as (B1 & v & B2).
      assert (C' := on_chain _ _ _ _ C J). split; [eapply K; eauto|]. exists v. apply sem_on; auto.
    - rewrite !st_then. intros X k e' J G. destruct (X k e' J G) as (B1 & v & B2).
      assert (C' := on_chain _ _ _ _ C J). split; [eapply K; eauto|]. exists v. apply sem_on; auto.
  Qed.

  Lemma stmt_on : forall T s, on (right_side s) ->
    sstmt_holds mode glob L rho F N T s /\ stmt_settled mode glob L rho F N T s ->
    sstmt_holds mode glob L rho F' N' T s /\ stmt_settled mode glob L rho F' N' T s.
  Proof.
    intros T [t e|e] O [H S]; cbn in *; (split; [|apply settled_on; auto]).
    - destruct H as (v & H1 & H2). exists v. split; [apply sem_on; auto|auto].
    - apply sem_on; auto.
  Qed.
End Calls.

Section Sub.
  Variable mode : ovf.
  Variable glob : ident -> option scalar.
  Variable ext : ident -> behaviour.
  Variables p q : sprog.
  Variables l m : list decl.
  Hypothesis I : incl p q.
  Hypothesis Hp : result (pipeline p) = Some l.
  Hypothesis Hq : result (pipeline q) = Some m.

  Lemma sub_silence : forall g, (exists a, In a p /\ introduces (snd a) = Node g) -> forall v, silence p g v <-> silence q g v.
  Proof.
    intros g (c & Jc & Ec) v. split.
    - intros [(a & sn & J & E)|(a & i & o & J & E)]; [left|right]; eauto 6.
    - intros [(a & sn & J & <- & ->)|(a & i & o & J & ->)]; [left|right].
      + assert (c = (a, XNode sn)) as -> by (apply (only_decl q m _ _ Hq); auto). eauto.
      + assert (c = (a, XExtNode g i o)) as -> by (apply (only_decl q m _ _ Hq); auto). eauto.
  Qed.

  Lemma sub_settles : forall n g, (exists a, In a p /\ introduces (snd a) = Node g) ->
    forall ins outs, xsettles mode glob ext p n g ins outs <-> xsettles mode glob ext q n g ins outs.
  Proof.
    assert (W : well_formed p) by (apply accepted_well_formed; eauto).
    assert (Cal : forall a sn s x, In (a, XNode sn) p -> In s (s_defs sn) -> In x (callees (right_side s)) -> exists b, In b p /\ introduces (snd b) = Node x).
    { intros a sn s x J Js Jx. eapply (mentions_declared p (a, XNode sn) (Node x)); auto. exists (right_side s). split; auto. cbn. apply in_map_iff. exists s. split; auto. }
    induction n as [|n IH]; intros g (c & Jc & Ec) ins outs.
    - cbn. split; intros [(a & i & o & po & J & R)|[]]; left; exists a, i, o, po; (split; [|exact R]); [auto|].
      assert (c = (a, XExtNode g i o)) as -> by (apply (only_decl q m _ _ Hq); auto). auto.
    - cbn [xsettles]. split; (intros [(a & i & o & po & J & R)|(a & sn & po & J & E & M & R)]; [left; exists a, i, o, po; (split; [|exact R])|right; exists a, sn, po]).
      + auto.
      + split; [auto|]. split; [auto|]. split; [|exact R]. destruct M as (Len & rho & M). split; [exact Len|]. exists rho. intros T v y Hv Hy. destruct (M T v y Hv Hy) as (A & B & C).
        split; [exact A|]. split; [|exact C]. intros s Js. eapply (stmt_on _ _ _ _ _ _ _ _ (fun x => exists b, In b p /\ introduces (snd b) = Node x)); [| |intros x X; eapply Cal; eauto|apply B; auto].
        * intros x X args w (os & S). exists os. apply (IH x X). exact S.
        * intros x X w. apply sub_silence. exact X.
      + assert (c = (a, XExtNode g i o)) as -> by (apply (only_decl q m _ _ Hq); auto). auto.
      + assert (c = (a, XNode sn)) as -> by (apply (only_decl q m _ _ Hq); auto; cbn; congruence).
        split; [auto|]. split; [auto|]. split; [|exact R]. destruct M as (Len & rho & M). split; [exact Len|]. exists rho. intros T v y Hv Hy. destruct (M T v y Hv Hy) as (A & B & C).
        split; [exact A|]. split; [|exact C]. intros s Js. eapply (stmt_on _ _ _ _ _ _ _ _ (fun x => exists b, In b p /\ introduces (snd b) = Node x)); [| |intros x X; eapply Cal; eauto|apply B; auto].
        * intros x X args w (os & S). exists os. apply (IH x X). exact S.
        * intros x X w. apply sub_silence. exact X.
  Qed.
End Sub.

Theorem extern_extended : forall mode glob ext p q l m, incl p q ->
  result (pipeline p) = Some l -> result (pipeline q) = Some m -> default_mode q ->
  (forall x t, constant q x t -> glob x <> None) -> ordinary ext ->
  forall a f, In a p -> introduces (snd a) = Node f ->
  forall ins outs, xoutputs mode glob ext (items_of l) f ins = Ok outs <-> xoutputs mode glob ext (items_of m) f ins = Ok outs.
Proof.
  intros mode glob ext p q l m I Hp Hq D K X a f J E ins outs.
  assert (D' : default_mode p) by (intros b sn Jb; apply (D b sn); auto).
  assert (K' : forall x t, constant p x t -> glob x <> None) by (intros x t (b & [(e & Jb)|Jb]); apply (K x t); exists b; eauto).
  rewrite (extern_exact mode glob ext p l Hp D' K' X), (extern_exact mode glob ext q m Hq D K X).
  split; intros (n & S); exists n; eapply (sub_settles mode glob ext p q l m I Hp Hq n f); eauto.
Qed.
