(** Redundant parentheses in the analysis AST: every pass treats [EParen e] as [e], except for the drivers of clocks. *)
From Coq Require Import String List ZArith Bool Arith Permutation.
From Verif Require Import Model.Base Model.Scalar Model.Value Model.Ast Model.Errors Model.Options Model.Interp
  Model.Graph Model.Causality Model.Typecheck Model.Clockcheck Model.Positivity Model.Constexpr Model.Trace Model.Pipeline
  Proofs.AstInd Proofs.OutBasics Proofs.CausalityProofs Proofs.ExternBasics.
From Verif Require Proofs.NodeWf Proofs.Positive Proofs.TypeInfer Proofs.InterpBasics.
Import ListNotations.

Fixpoint sx (e : expr) : expr :=
  match e with
  | ELit _ | EVar _ _ | EGlobal _ => e
  | ETuple l => ETuple (map sx l)
  | EPre e => EPre (sx e)
  | EParen e => sx e
  | EBin o a b => EBin o (sx a) (sx b)
  | EUn o a => EUn o (sx a)
  | ECmp o a b => ECmp o (sx a) (sx b)
  | EClock p a b => EClock p (sx a) (sx b)
  | ELater d a b => ELater d (sx a) (sx b)
  | EFetch id i n => EFetch id (option_map sx i) (sx n)
  | EFlip id a b => EFlip id (sx a) (sx b)
  | EIf c a b => EIf (sx c) (sx a) (sx b)
  | EMerge c a b => EMerge (sx c) (sx a) (sx b)
  | ESub d id a => ESub d id (sx a)
  end.
Definition sst (i : stmt) : stmt :=
  match i with
  | SLet t e => SLet t (sx e)
  | SAssert e => SAssert (sx e)
  | SInit id v c => SInit id (option_map sx v) c
  | SUpdate id e => SUpdate id (sx e)
  end.
Definition snd_ (nd : node) : node :=
  mkNode (n_name nd) (n_inputs nd) (n_outputs nd) (n_locals nd) (n_blocks nd) (map sst (n_stmts nd)) (n_regs nd) (n_flips nd).
Definition sdc (d : decl) : decl :=
  match d with
  | DConst o x t e => DConst o x t (sx e)
  | DNode o nd => DNode o (snd_ nd)
  | d => d
  end.

(** ** The monads *)
Definition rmap {A B} (f : A -> B) (x : out A) : out B :=
  match x with Abort => Abort | Out r es ws => Out (option_map f r) es ws end.

Lemma obind_ext : forall {A B} (x x' : out A) (f f' : A -> out B),
  x = x' -> (forall a, f a = f' a) -> obind x f = obind x' f'.
Proof. intros A B x x' f f' <- H. destruct x as [[a|] es ws|]; simpl; auto. rewrite H; auto. Qed.
Lemma obind_rmap : forall {A B C} (g : A -> B) (x : out A) (f : B -> out C), obind (rmap g x) f = obind x (fun a => f (g a)).
Proof. intros A B C g [[a|] es ws|] f; simpl; auto. Qed.
Lemma rmap_obind : forall {A B C} (g : B -> C) (x : out A) (f : A -> out B),
  rmap g (obind x f) = obind x (fun a => rmap g (f a)).
Proof. intros A B C g [[a|] es ws|] f; simpl; auto. destruct (f a); auto. Qed.
Lemma rmap_rel : forall {A B C D} (g : A -> C) (h : B -> D) (x x' : out A) (f f' : A -> out B),
  rmap g x = rmap g x' -> (forall a a', g a = g a' -> rmap h (f a) = rmap h (f' a')) ->
  rmap h (obind x f) = rmap h (obind x' f').
Proof.
  intros A B C D g h x x' f f' E H. destruct x as [[a|] es ws|], x' as [[a'|] es' ws'|]; simpl in E; try discriminate; auto.
  - inversion E; subst. specialize (H a a' H1). simpl.
    destruct (f a), (f' a'); simpl in *; inversion H; subst; auto.
  - simpl. congruence.
Qed.
Lemma rmap_id : forall {A} (x : out A), rmap (fun a => a) x = x.
Proof. intros A [[a|] es ws|]; auto. Qed.
Lemma bind_ext : forall {A B} (x x' : res A) (f f' : A -> res B),
  x = x' -> (forall a, f a = f' a) -> bind x f = bind x' f'.
Proof. intros A B x x' f f' <- H. destruct x; simpl; auto. Qed.
Lemma tbind_ext : forall {A B} (x x' : tres A) (f f' : A -> tres B),
  x = x' -> (forall a, f a = f' a) -> tbind x f = tbind x' f'.
Proof. intros A B [o x] x' f f' <- H. unfold tbind. destruct x; auto. rewrite H; auto. Qed.

(** ** Scheduling *)
Lemma map_set_nth : forall {A B} (f : A -> B) l n a, map f (set_nth n a l) = set_nth n (f a) (map f l).
Proof. induction l as [|x l IH]; intros [|n] a; simpl; auto. rewrite IH; auto. Qed.

Section Sched.
  Variables Obj Unit : Type.
  Variable eqb : Unit -> Unit -> bool.
  Variables provides requires : Obj -> list Unit.
  Variable f : Obj -> Obj.
  Hypothesis Hp : forall o, provides (f o) = provides o.
  Hypothesis Hr : forall o, requires (f o) = requires o.

  Let gmap (g : graph Obj Unit) : graph Obj Unit :=
    mkGraph _ _ (map f (g_elements _ _ g)) (g_atomics _ _ g) (g_provide _ _ g) (g_require _ _ g) (g_by_ext _ _ g) (g_for_ext _ _ g).
  Definition smap {A B E} (h : A -> B) (x : A + E) : B + E := match x with inl a => inl (h a) | inr e => inr e end.

  Lemma already_map : forall u g, already_provided Obj Unit eqb u (gmap g) = gmap (already_provided Obj Unit eqb u g).
  Proof. intros u g. unfold already_provided. simpl. destruct (intern _ eqb u (g_atomics _ _ g)); auto. Qed.
  Lemma insert_map : forall o g,
    insert Obj Unit eqb provides requires (f o) (gmap g) = gmap (insert Obj Unit eqb provides requires o g).
  Proof.
    intros o g. unfold insert. rewrite Hp, Hr. simpl.
    destruct (interns _ eqb (provides o) (g_atomics _ _ g)) as [a b]. destruct (interns _ eqb (requires o) b).
    unfold gmap. simpl. rewrite map_app. auto.
  Qed.
  Lemma must_map : forall us g,
    must_provide_all Obj Unit eqb us (gmap g) = smap gmap (must_provide_all Obj Unit eqb us g).
  Proof.
    induction us as [|u us IH]; intros g; simpl; auto. unfold must_provide. simpl.
    destruct (intern _ eqb u (g_atomics _ _ g)) as [k at_]. destruct (existsb (Nat.eqb k) (g_for_ext _ _ g)); simpl; auto.
    apply (IH (mkGraph _ _ (g_elements _ _ g) at_ (g_provide _ _ g) (g_require _ _ g) (g_by_ext _ _ g) (g_for_ext _ _ g))).
  Qed.
  Lemma take_map : forall provider scc unused out,
    take_objects Obj provider scc (map (option_map f) unused) (map f out) =
    smap (fun '(u, o) => (map (option_map f) u, map f o)) (take_objects Obj provider scc unused out).
  Proof.
    intros provider scc. induction scc as [|c scc IH]; intros unused out; simpl; auto.
    destruct (1 <? length c); simpl; auto. destruct c as [|n c]; simpl; auto.
    match goal with |- context[nth_error provider ?k] => destruct (nth_error provider k) as [[prov|]|] end; simpl; auto.
    rewrite nth_error_map. destruct (nth_error unused prov) as [[o|]|]; simpl; auto.
    rewrite <- IH, map_set_nth, map_app. auto.
  Qed.
  Lemma flatten_map : forall l, flatten_opt Obj (map (option_map f) l) = map f (flatten_opt Obj l).
  Proof. induction l as [|[o|] l IH]; simpl; auto. rewrite IH; auto. Qed.

  Lemma schedule_map : forall ext objs must,
    schedule Obj Unit eqb provides requires ext (map f objs) must =
    smap (map f) (schedule Obj Unit eqb provides requires ext objs must).
  Proof.
    intros ext objs must. unfold schedule.
    set (g0 := fold_left _ ext _).
    assert (E0 : g0 = gmap g0).
    { unfold g0. generalize (graph_empty Obj Unit), (eq_refl : graph_empty Obj Unit = gmap (graph_empty Obj Unit)).
      induction ext as [|u ext IH]; intros g E; simpl; auto. apply IH. rewrite <- already_map, <- E. auto. }
    rewrite E0 at 1. clearbody g0. clear E0.
    assert (E : fold_left (fun g o => insert Obj Unit eqb provides requires o g) (map f objs) (gmap g0) =
                gmap (fold_left (fun g o => insert Obj Unit eqb provides requires o g) objs g0)).
    { revert g0. induction objs as [|o objs IH]; intros g0; simpl; auto. rewrite insert_map. apply IH. }
    rewrite E. clear E. set (g := fold_left _ objs g0). clearbody g. rewrite must_map.
    destruct (must_provide_all Obj Unit eqb must g) as [g'|e]; simpl; auto.
    unfold scheduling. simpl.
    destruct (add_objects _ _ _ _ _) as [[provider cs]|e]; simpl; auto.
    destruct (sccs cs) as [scc|]; simpl; auto.
    replace (map Some (map f (g_elements _ _ g'))) with (map (option_map f) (map Some (g_elements _ _ g'))).
    2:{ rewrite !map_map. auto. }
    change (@nil Obj) with (map f []) at 1. rewrite take_map.
    destruct (take_objects _ _ _ _ _) as [[u o]|e]; simpl; auto. rewrite flatten_map, map_app. auto.
  Qed.
End Sched.

Lemma flat_map_sx : forall {B} (g : expr -> list B) l, Forall (fun e => g (sx e) = g e) l -> flat_map g (map sx l) = flat_map g l.
Proof. intros B g l H. induction H as [|e l E _ IH]; simpl; auto. rewrite E, IH; auto. Qed.
Lemma requires_sx : forall e, expr_requires (sx e) = expr_requires e.
Proof.
  induction e using expr_ind'; simpl; auto; try congruence.
  apply flat_map_sx. auto.
Qed.
Lemma provides_sst : forall i, stmt_provides (sst i) = stmt_provides i.
Proof. destruct i; auto. Qed.
Lemma requires_sst : forall i, stmt_requires (sst i) = stmt_requires i.
Proof. destruct i as [t e|e|id v c|id e]; simpl; rewrite ?requires_sx; auto. destruct v; simpl; rewrite ?requires_sx; auto. Qed.
Lemma provides_sdc : forall d, decl_provides (sdc d) = decl_provides d.
Proof. destruct d; auto. Qed.
Lemma requires_sdc : forall d, decl_requires (sdc d) = decl_requires d.
Proof.
  destruct d as [o x t e|o nd|o x t|o x i o']; simpl; rewrite ?requires_sx; auto. f_equal.
  induction (n_stmts nd) as [|i l IH]; simpl; auto. rewrite requires_sst, IH; auto.
Qed.

Lemma decls_causality_s : forall l, decls_causality (map sdc l) = smap (map sdc) (decls_causality l).
Proof.
  induction l as [|d l IH]; simpl; auto. rewrite IH.
  assert (E : decl_causality (sdc d) = smap sdc (decl_causality d)).
  { destruct d as [o x t e|o nd|o x t|o x i o']; simpl; auto. unfold node_causality. simpl.
    rewrite (schedule_map _ _ _ _ _ sst provides_sst requires_sst).
    destruct (schedule _ _ _ _ _ _ _ _); simpl; auto. }
  rewrite E. destruct (decl_causality d); simpl; auto. destruct (decls_causality l); auto.
Qed.
Lemma causality_s : forall l, causality (map sdc l) = rmap (map sdc) (causality l).
Proof.
  intros l. unfold causality, prog_causality. rewrite decls_causality_s. destruct (decls_causality l) as [l'|[]]; simpl; auto.
  rewrite (schedule_map _ _ _ _ _ sdc provides_sdc requires_sdc).
  destruct (schedule _ _ _ _ _ _ _ _) as [r|[]]; simpl; auto.
Qed.

(** ** Types *)
Ltac obs := repeat match goal with
  | |- obind _ _ = obind _ _ => apply obind_ext; [try congruence|intros]
  | |- context[match ?p with (_, _) => _ end] => is_var p; destruct p
  | H : forall s, _ = _ |- attempt _ = attempt _ => rewrite H; reflexivity
  end.

Lemma tcs_map : forall ctx l, Forall (fun e => forall s, tc ctx (sx e) s = tc ctx e s) l -> forall s,
  tcs ctx (map sx l) s = tcs ctx l s.
Proof.
  intros ctx l H. induction H as [|e l E _ IH]; intros s; simpl; auto.
  apply obind_ext; [apply E|]. intros [t s1]. apply obind_ext; [apply IH|]. auto.
Qed.
Lemma tc_sx : forall ctx e s, tc ctx (sx e) s = tc ctx e s.
Proof.
  intros ctx e. induction e using expr_ind'; intros s; auto.
  - change (sx (ETuple l)) with (ETuple (map sx l)). rewrite !TypeInfer.tc_tuple.
    apply obind_ext; [|auto]. apply tcs_map. auto.
  - exact (IHe s).
  - exact (IHe s).
  - cbn [sx tc]. rewrite IHe1. apply obind_ext; [reflexivity|]. intros l. rewrite IHe2. reflexivity.
  - cbn [sx tc]. rewrite IHe. reflexivity.
  - cbn [sx tc]. rewrite IHe1. apply obind_ext; [reflexivity|]. intros l. rewrite IHe2. reflexivity.
  - cbn [sx tc]. rewrite IHe2. apply obind_ext; [reflexivity|]. intros l. rewrite IHe1. reflexivity.
  - cbn [sx tc]. rewrite IHe1. apply obind_ext; [reflexivity|]. intros l. rewrite IHe2. reflexivity.
  - cbn [sx tc]. rewrite IHe. apply obind_ext; [reflexivity|]. intros [t s1]. destruct i as [i|]; simpl; auto.
    simpl in H. rewrite H. reflexivity.
  - cbn [sx tc]. rewrite IHe1. apply obind_ext; [reflexivity|]. intros l. rewrite IHe2. reflexivity.
  - cbn [sx tc]. rewrite IHe1. apply obind_ext; [reflexivity|]. intros l. rewrite IHe2.
    apply obind_ext; [reflexivity|]. intros y. rewrite IHe3. reflexivity.
  - cbn [sx tc]. rewrite IHe1. apply obind_ext; [reflexivity|]. intros [l s1]. rewrite IHe2.
    apply obind_ext; [reflexivity|]. intros [y s2]. rewrite IHe3. reflexivity.
  - cbn [sx tc]. destruct (nth_error (c_blocks ctx) id); auto. rewrite IHe. reflexivity.
Qed.
Lemma is_const_sx : forall e, is_const (sx e) = is_const e.
Proof. induction e using expr_ind'; simpl; auto; rewrite ?IHe, ?IHe1, ?IHe2, ?IHe3; auto. Qed.
Lemma tc_stmts_s : forall ctx l s, tc_stmts ctx (map sst l) s = tc_stmts ctx l s.
Proof.
  intros ctx l. induction l as [|i l IH]; intros s; simpl; auto.
  apply obind_ext.
  - f_equal. destruct i as [t e|e|id v c|id e]; simpl; auto; rewrite tc_sx; auto.
  - intros [s1|]; auto. apply obind_ext; auto.
Qed.
Lemma tc_node_s : forall g fs o nd, tc_node g fs o (snd_ nd) = rmap (fun r => (snd_ (fst r), snd r)) (tc_node g fs o nd).
Proof.
  intros g fs o nd. unfold tc_node. cbn [snd_ n_inputs n_outputs n_locals n_blocks n_stmts n_regs n_flips n_name].
  rewrite rmap_obind. apply obind_ext; [auto|]. intros _. rewrite rmap_obind. apply obind_ext; [auto|]. intros _.
  rewrite rmap_obind. apply obind_ext; [auto|]. intros [ok vars]. rewrite rmap_obind. apply obind_ext; [auto|]. intros _.
  rewrite rmap_obind. apply obind_ext; [auto|]. intros bs. rewrite rmap_obind.
  apply obind_ext; [apply tc_stmts_s|]. intros s. rewrite rmap_obind. apply obind_ext; [auto|]. auto.
Qed.
Lemma attempt_rmap : forall {A B} (g : A -> B) (x : out A), attempt (rmap g x) = rmap (option_map g) (attempt x).
Proof. intros A B g [[a|] es ws|]; auto. Qed.
Lemma tc_decls_s : forall l g fs,
  tc_decls g fs (map sdc l) = rmap (fun r => (fst r, map sdc (snd r))) (tc_decls g fs l).
Proof.
  induction l as [|d l IH]; intros g fs; auto. simpl map. cbn [tc_decls].
  rewrite rmap_obind.
  transitivity (obind (rmap (option_map sdc) (attempt (match d with
                    | DConst o x t e => _ <~ tc_const g t e;; done d
                    | DNode o nd => '(nd, _) <~ tc_node g fs o nd;; done (DNode o nd)
                    | DExtConst o x t => done d
                    | DExtNode o x i o' => _ <~ tc_ext_node o i o';; done d
                    end)))
     (fun r => '(globals, funs) <~
        match d with
        | DConst _ x t _ | DExtConst _ x t =>
            match lookup x g with Some _ => Abort | None => done ((x, t) :: g, fs) end
        | DNode o nd =>
            match lookup (n_name nd) fs with
            | Some _ => Abort
            | None => done (g, (n_name nd, node_sig o nd) :: fs)
            end
        | DExtNode o x i o' =>
            match lookup x fs with
            | Some _ => Abort
            | None => done (g, (x, ext_sig o i o') :: fs)
            end
        end;;
      '(ok, ds) <~ tc_decls globals funs (map sdc l);;
      done (is_set r && ok, (match r with Some d => d | None => sdc d end) :: ds))).
  - apply obind_ext.
    + rewrite <- attempt_rmap. f_equal. destruct d as [o x t e|o nd|o x t|o x i o']; simpl.
      * rewrite rmap_obind. apply obind_ext; [|auto]. unfold tc_const. rewrite is_const_sx, tc_sx. auto.
      * rewrite tc_node_s, obind_rmap, rmap_obind. apply obind_ext; [auto|]. intros [nd' x]. auto.
      * auto.
      * rewrite rmap_obind. apply obind_ext; auto.
    + intros r. apply obind_ext; [|auto]. destruct d; auto.
  - rewrite obind_rmap. apply obind_ext; [auto|]. intros r. rewrite rmap_obind. apply obind_ext; [auto|]. intros [g' fs'].
    rewrite IH, obind_rmap, rmap_obind. apply obind_ext; [auto|]. intros [ok ds]. destruct r; simpl; auto.
Qed.
Lemma typecheck_s : forall l, typecheck (map sdc l) = rmap (map sdc) (typecheck l).
Proof.
  intros l. unfold typecheck. rewrite tc_decls_s, obind_rmap, rmap_obind. apply obind_ext; [auto|].
  intros [ok ds]. simpl. rewrite rmap_obind. apply obind_ext; auto.
Qed.

(** ** Depths *)
Lemma poss_map : forall l, Forall (fun e => forall cur m, Positivity.pos (sx e) cur m = Positivity.pos e cur m) l -> forall cur m,
  poss (map sx l) cur m = poss l cur m.
Proof.
  intros l H. induction H as [|e l E _ IH]; intros cur m; simpl; auto. rewrite E. apply obind_ext; auto.
Qed.
Lemma pos_sx : forall e cur m, Positivity.pos (sx e) cur m = Positivity.pos e cur m.
Proof.
  induction e using expr_ind'; intros cur m; auto.
  - change (sx (ETuple l)) with (ETuple (map sx l)). rewrite !Positive.pos_tuple. apply poss_map. auto.
  - exact (IHe cur m).
  - exact (IHe cur m).
  - cbn [sx Positivity.pos]. rewrite IHe1. apply obind_ext; auto.
  - exact (IHe cur m).
  - cbn [sx Positivity.pos]. rewrite IHe1. apply obind_ext; auto.
  - cbn [sx Positivity.pos]. rewrite IHe2. apply obind_ext; auto.
  - cbn [sx Positivity.pos]. rewrite IHe1. apply obind_ext; auto.
  - cbn [sx Positivity.pos]. destruct i as [i|]; simpl.
    + simpl in H. rewrite H. apply obind_ext; auto.
    + destruct cur; auto.
  - cbn [sx Positivity.pos]. rewrite IHe1. apply obind_ext; auto.
  - cbn [sx Positivity.pos]. rewrite IHe1. apply obind_ext; [auto|]. intros m1. rewrite IHe2. apply obind_ext; auto.
  - cbn [sx Positivity.pos]. rewrite IHe1. apply obind_ext; [auto|]. intros m1. rewrite IHe2. apply obind_ext; auto.
  - exact (IHe cur m).
Qed.
Lemma pos_stmts_s : forall l m, pos_stmts (map sst l) m = pos_stmts l m.
Proof.
  induction l as [|i l IH]; intros m; simpl; auto. apply obind_ext; [|auto].
  destruct i; simpl; auto; apply pos_sx.
Qed.
Lemma omap_s : forall {A B} (f : A -> out B) (ga : A -> A) (gb : B -> B) l,
  (forall a, In a l -> f (ga a) = rmap gb (f a)) -> omap f (map ga l) = rmap (map gb) (omap f l).
Proof.
  intros A B f ga gb l H. induction l as [|a l IH]; auto.
  change (omap f (map ga (a :: l))) with (b <~ f (ga a);; bs <~ omap f (map ga l);; done (b :: bs)).
  change (omap f (a :: l)) with (b <~ f a;; bs <~ omap f l;; done (b :: bs)).
  rewrite H by (left; auto). rewrite obind_rmap, rmap_obind. apply obind_ext; [auto|]. intros b.
  rewrite IH by (intros; apply H; right; auto). rewrite obind_rmap, rmap_obind. apply obind_ext; auto.
Qed.
Lemma positivity_s : forall l, positivity (map sdc l) = rmap (map sdc) (positivity l).
Proof.
  intros l. apply omap_s. intros [o x t e|o nd|o x t|o x i o'] _; simpl; auto.
  unfold pos_node. cbn [snd_ n_inputs n_outputs n_locals n_blocks n_stmts n_regs n_flips n_name].
  rewrite pos_stmts_s, !rmap_obind. destruct (pos_stmts (n_stmts nd) []) as [[m|] es ws|]; simpl; auto.
Qed.

(** ** Clocks *)
Definition drives (e : expr) : Prop := match e with EParen _ => False | _ => True end.
Fixpoint clear (e : expr) : Prop :=
  match e with
  | ELit _ | EVar _ _ | EGlobal _ => True
  | ETuple l => fold_right (fun e P => clear e /\ P) True l
  | EPre e | EParen e | EUn _ e | ESub _ _ e => clear e
  | EBin _ a b | ECmp _ a b | ELater _ a b | EFlip _ a b => clear a /\ clear b
  | EClock _ a b => drives b /\ clear a /\ clear b
  | EFetch _ i n => match i with Some i => clear i | None => True end /\ clear n
  | EIf c a b => clear c /\ clear a /\ clear b
  | EMerge c a b => drives c /\ clear c /\ clear a /\ clear b
  end.

Lemma as_clock_sx : forall e p, drives e -> as_clock (sx e) p = as_clock e p.
Proof. destruct e; simpl; tauto. Qed.

Section Clocks.
  Variable local : list (ident * clock).
  Lemma kcs_map : forall g l, Forall (fun e => clear e -> forall s, kc local (sx e) s = kc local e s) l ->
    fold_right (fun e P => clear e /\ P) True l -> forall s, kcs local g (map sx l) s = kcs local g l s.
  Proof.
    intros g l H. induction H as [|e l E _ IH]; intros C s; simpl; auto. destruct C as [C1 C2].
    rewrite E by auto. apply obind_ext; [auto|]. intros [k s1]. apply obind_ext; auto.
  Qed.
  Lemma kc_sx : forall e, clear e -> forall s, kc local (sx e) s = kc local e s.
  Proof.
    induction e using expr_ind'; intros C s; auto.
    - change (sx (ETuple l)) with (ETuple (map sx l)). rewrite !NodeWf.kc_tuple.
      destruct l as [|e0 l]; auto. simpl map. simpl in C. inversion H; subst. rewrite H2 by tauto.
      apply obind_ext; [auto|]. intros [g s1]. apply obind_ext; [|auto].
      exact (kcs_map g (e0 :: l) H C s1).
    - cbn [sx kc]. rewrite IHe by auto. reflexivity.
    - cbn [sx kc]. rewrite IHe by auto. reflexivity.
    - destruct C as [C1 C2]. cbn [sx kc]. rewrite IHe1 by auto. apply obind_ext; [auto|]. intros r. rewrite IHe2 by auto. reflexivity.
    - cbn [sx kc]. rewrite IHe by auto. reflexivity.
    - destruct C as [C1 C2]. cbn [sx kc]. rewrite IHe1 by auto. apply obind_ext; [auto|]. intros r. rewrite IHe2 by auto. reflexivity.
    - destruct C as [D [C1 C2]]. cbn [sx kc]. rewrite IHe1 by auto. apply obind_ext; [auto|]. intros [k s1]. rewrite IHe2 by auto.
      apply obind_ext; [auto|]. intros [k' s2]. rewrite as_clock_sx by auto. reflexivity.
    - destruct C as [C1 C2]. cbn [sx kc]. rewrite IHe1 by auto. apply obind_ext; [auto|]. intros r. rewrite IHe2 by auto. reflexivity.
    - destruct C as [C1 C2]. cbn [sx kc]. rewrite IHe by auto. apply obind_ext; [auto|]. intros [k s1].
      destruct i as [i|]; simpl; auto. simpl in H. rewrite H by auto. reflexivity.
    - destruct C as [C1 C2]. cbn [sx kc]. rewrite IHe1 by auto. apply obind_ext; [auto|]. intros r. rewrite IHe2 by auto. reflexivity.
    - destruct C as [C1 [C2 C3]]. cbn [sx kc]. rewrite IHe1 by auto. apply obind_ext; [auto|]. intros r. rewrite IHe2 by auto.
      apply obind_ext; [auto|]. intros r2. rewrite IHe3 by auto. reflexivity.
    - destruct C as [D [C1 [C2 C3]]]. cbn [sx kc]. rewrite !as_clock_sx by auto. apply obind_ext; [auto|]. intros on.
      apply obind_ext; [auto|]. intros off. rewrite IHe1 by auto. apply obind_ext; [auto|]. intros k. rewrite IHe2 by auto.
      apply obind_ext; [auto|]. intros r2. rewrite IHe3 by auto. reflexivity.
    - cbn [sx kc]. rewrite IHe by auto. reflexivity.
  Qed.

  (** Whatever the clock check accepts has bare drivers. *)
  Lemma as_clock_drives : forall e p k, result (as_clock e p) = Some k -> drives e.
  Proof. destruct e; simpl; intros; auto; discriminate. Qed.
  Lemma kcs_clear : forall g l, Forall (fun e => forall s r, result (kc local e s) = Some r -> clear e) l -> forall s r,
    result (kcs local g l s) = Some r -> fold_right (fun e P => clear e /\ P) True l.
  Proof.
    intros g l H. induction H as [|e l E _ IH]; intros s r R; simpl; auto.
    change (kcs local g (e :: l) s) with ('(k, s) <~ kc local e s;; _ <~ clk_identical g k;; kcs local g l s) in R.
    apply obind_some in R. destruct R as ([k s1] & R1 & R). apply obind_some in R. destruct R as (u & R2 & R). split; eauto.
  Qed.
  Lemma kc_clear : forall e s r, result (kc local e s) = Some r -> clear e.
  Proof.
    induction e using expr_ind'; intros s r R; simpl; auto.
    - rewrite NodeWf.kc_tuple in R. destruct l as [|e0 l]; [simpl; auto|].
      apply obind_some in R. destruct R as ([g s1] & R1 & R). apply obind_some in R. destruct R as (u & R2 & R).
      exact (kcs_clear g (e0 :: l) H s1 u R2).
    - cbn [kc] in R. apply obind_some in R. destruct R as ([k s1] & R1 & R). eauto.
    - cbn [kc] in R. eauto.
    - cbn [kc] in R. inv_out. split; eauto.
    - cbn [kc] in R. eauto.
    - cbn [kc] in R. inv_out. split; eauto.
    - cbn [kc] in R. inv_out. split; [|split]; eauto. eapply as_clock_drives; eauto.
    - cbn [kc] in R. inv_out. split; eauto.
    - cbn [kc] in R. inv_out. split; eauto. destruct i as [i|]; auto. inv_out. eauto.
    - cbn [kc] in R. inv_out. split; eauto.
    - cbn [kc] in R. inv_out. split; [|split]; eauto.
    - cbn [kc] in R. inv_out. split; [|split; [|split]]; eauto. eapply as_clock_drives; eauto.
    - cbn [kc] in R. eauto.
  Qed.

  Definition clear_stmt (i : stmt) : Prop := match i with SLet _ e | SAssert e => clear e | _ => True end.
  Lemma kc_stmts_s : forall l, Forall clear_stmt l -> forall s, kc_stmts local (map sst l) s = kc_stmts local l s.
  Proof.
    intros l H. induction H as [|i l C _ IH]; intros s; simpl; auto. apply obind_ext.
    - f_equal. destruct i; simpl in *; auto; rewrite kc_sx by auto; auto.
    - intros [s1|]; auto. rewrite IH. auto.
  Qed.
  Lemma kc_stmts_clear : forall l s s', result (kc_stmts local l s) = Some (Some s') -> Forall clear_stmt l.
  Proof.
    induction l as [|i l IH]; intros s s' R; constructor; simpl in R;
      apply obind_some in R; destruct R as (r & R1 & R); apply attempt_some in R1; subst.
    - destruct (result (kc_stmt local i s)) as [s1|] eqn:E.
      2:{ apply obind_some in R; destruct R as (u & R2 & R). discriminate. }
      destruct i; simpl in *; auto; inv_out; eauto using kc_clear.
    - destruct (result (kc_stmt local i s)) as [s1|] eqn:E; eauto.
      apply obind_some in R; destruct R as (u & R2 & R). discriminate.
  Qed.
End Clocks.

Definition clear_decl (d : decl) : Prop :=
  match d with DNode _ nd => Forall clear_stmt (n_stmts nd) | _ => True end.
Lemma kc_node_s : forall nd, Forall clear_stmt (n_stmts nd) -> kc_node (snd_ nd) = rmap snd_ (kc_node nd).
Proof.
  intros nd C. unfold kc_node. cbn [snd_ n_inputs n_outputs n_locals n_blocks n_stmts n_regs n_flips n_name].
  rewrite rmap_obind. apply obind_ext; [auto|]. intros _. rewrite rmap_obind.
  apply obind_ext; [apply kc_stmts_s; auto|]. intros s. rewrite rmap_obind. apply obind_ext; [auto|]. intros s1.
  rewrite (omap_s (fill_clock s1) sst sst).
  - rewrite obind_rmap, rmap_obind. apply obind_ext; auto.
  - intros [t e|e|id v c|id e] _; simpl; auto. destruct (lookup_nat id s1) as [k|]; auto.
Qed.
Lemma kc_node_clear : forall nd nd', result (kc_node nd) = Some nd' -> Forall clear_stmt (n_stmts nd).
Proof.
  intros nd nd' R. unfold kc_node in R. inv_out. eapply kc_stmts_clear; eauto.
Qed.
Lemma clockcheck_s : forall l, Forall clear_decl l -> clockcheck (map sdc l) = rmap (map sdc) (clockcheck l).
Proof.
  intros l C. apply omap_s. intros d I. rewrite Forall_forall in C. specialize (C d I).
  destruct d as [o x t e|o nd|o x t|o x i o']; simpl in *; auto.
  - rewrite kc_node_s by auto. rewrite obind_rmap, rmap_obind. auto.
  - rewrite rmap_obind. apply obind_ext; auto.
Qed.
Lemma clockcheck_clear : forall l l', result (clockcheck l) = Some l' -> Forall clear_decl l.
Proof.
  induction l as [|d l IH]; intros l' R; constructor; unfold clockcheck in R;
    change (omap kc_decl (d :: l)) with (b <~ kc_decl d;; bs <~ omap kc_decl l;; done (b :: bs)) in R;
    apply obind_some in R; destruct R as (b & R1 & R); apply obind_some in R; destruct R as (bs & R2 & R).
  - destruct d as [o x t e|o nd|o x t|o x i o']; simpl in *; auto.
    apply obind_some in R1; destruct R1 as (nd' & R1 & _). eapply kc_node_clear; eauto.
  - eapply IH; eauto.
Qed.

(** Causality and typing keep the statements. *)
Lemma causality_clear : forall l l', result (causality l) = Some l' -> Forall clear_decl l -> Forall clear_decl l'.
Proof.
  intros l l' R C. unfold causality, prog_causality in R.
  destruct (decls_causality l) as [l1|[]] eqn:E; simpl in R; try discriminate.
  assert (C1 : Forall clear_decl l1).
  { clear R. revert l1 E. induction C as [|d l Cd C IH]; intros l1 E; simpl in E.
    - inversion E. constructor.
    - destruct (decl_causality d) as [d'|] eqn:Ed; try discriminate.
      destruct (decls_causality l) as [l2|]; try discriminate. inversion E; subst. constructor; auto.
      destruct d as [o x t e|o nd|o x t|o x i o']; simpl in Ed; try (inversion Ed; subst; auto; fail).
      unfold node_causality in Ed. destruct (schedule _ _ _ _ _ _ _ _) as [st|] eqn:S; inversion Ed; subst.
      simpl in *. apply (schedule_perm _ reference_eqb_spec) in S. destruct S as [S _].
      rewrite Forall_forall in *. intros i I. apply Cd. eapply Permutation_in; eauto. }
  destruct (schedule _ _ _ _ _ _ _ _) as [r|[]] eqn:S; simpl in R; try discriminate. inversion R; subst.
  apply (schedule_perm _ reference_eqb_spec) in S. destruct S as [S _].
  rewrite Forall_forall in *. intros i I. apply C1. eapply Permutation_in; eauto.
Qed.
Lemma tc_decls_clear : forall l g fs ok l', result (tc_decls g fs l) = Some (ok, l') -> Forall clear_decl l -> Forall clear_decl l'.
Proof.
  induction l as [|d l IH]; intros g fs ok l' R C.
  - inversion R. constructor.
  - inversion C as [|? ? Cd Cl]; subst. cbn [tc_decls] in R.
    apply obind_some in R; destruct R as (r & R1 & R). apply attempt_some in R1.
    apply obind_some in R; destruct R as ([g' fs'] & _ & R). apply obind_some in R; destruct R as ([ok' ds] & R2 & R).
    inversion R; subst. constructor; [|eapply IH; eauto].
    match goal with |- context[result ?x] => destruct (result x) as [d'|] eqn:E end; auto.
    destruct d as [o x t e|o nd|o x t|o x i o']; try (inv_out; auto; fail).
    apply obind_some in E. destruct E as ([nd' gs] & E & E'). inversion E'; subst. clear E'.
    unfold tc_node in E. inv_out. auto.
Qed.
Lemma typecheck_clear : forall l l', result (typecheck l) = Some l' -> Forall clear_decl l -> Forall clear_decl l'.
Proof.
  intros l l' R C. unfold typecheck in R. apply obind_some in R; destruct R as ([ok ds] & R & R').
  apply obind_some in R'; destruct R' as (u & _ & R'). inversion R'; subst. eapply tc_decls_clear; eauto.
Qed.

Lemma obind_ext' : forall {A B} (x : out A) (f f' : A -> out B),
  (forall a, result x = Some a -> f a = f' a) -> obind x f = obind x f'.
Proof. intros A B [[a|] es ws|] f f' H; simpl; auto. rewrite H; auto. Qed.
Lemma analyse_s' : forall l,
  (forall l1 l2, result (causality l) = Some l1 -> result (typecheck l1) = Some l2 -> Forall clear_decl l2) ->
  analyse (map sdc l) = rmap (map sdc) (analyse l).
Proof.
  intros l H. unfold analyse. rewrite causality_s, obind_rmap, rmap_obind. apply obind_ext'. intros l1 R1.
  rewrite typecheck_s, obind_rmap, rmap_obind. apply obind_ext'. intros l2 R2.
  rewrite clockcheck_s by eauto. rewrite obind_rmap, rmap_obind. apply obind_ext'. intros l3 R3. apply positivity_s.
Qed.
Lemma analyse_s : forall l, Forall clear_decl l -> analyse (map sdc l) = rmap (map sdc) (analyse l).
Proof. intros l C. apply analyse_s'. intros l1 l2 R1 R2. eapply typecheck_clear; eauto. eapply causality_clear; eauto. Qed.
Lemma analyse_accepted_s : forall l l', result (analyse l) = Some l' -> analyse (map sdc l) = rmap (map sdc) (analyse l).
Proof.
  intros l l' R. apply analyse_s'. intros l1 l2 R1 R2. unfold analyse in R. rewrite result_obind, R1 in R.
  rewrite result_obind, R2 in R. apply obind_some in R. destruct R as (l3 & R3 & _). eapply clockcheck_clear; eauto.
Qed.

(** ** Execution *)
Lemma evals_map : forall mode glob clk hists call nilout regs st l,
  Forall (fun e => forall s, eval mode glob clk hists call nilout regs st (sx e) s =
                             eval mode glob clk hists call nilout regs st e s) l ->
  forall s, evals mode glob clk hists call nilout regs st (map sx l) s = evals mode glob clk hists call nilout regs st l s.
Proof.
  intros mode glob clk hists call nilout regs st l H. induction H as [|e l E _ IH]; intros s; simpl; auto.
  rewrite E. apply bind_ext; [auto|]. intros [v s1]. rewrite IH. auto.
Qed.
Lemma eval_sx : forall mode glob clk hists call nilout regs st e s,
  eval mode glob clk hists call nilout regs st (sx e) s = eval mode glob clk hists call nilout regs st e s.
Proof.
  intros mode glob clk hists call nilout regs st e. induction e using expr_ind'; intros s; auto.
  - change (sx (ETuple l)) with (ETuple (map sx l)). rewrite !InterpBasics.eval_tuple. rewrite evals_map by auto. auto.
  - exact (IHe s).
  - exact (IHe s).
  - cbn [sx eval]. rewrite IHe1. apply bind_ext; [auto|]. intros [x s1]. rewrite IHe2. auto.
  - cbn [sx eval]. rewrite IHe. auto.
  - cbn [sx eval]. rewrite IHe1. apply bind_ext; [auto|]. intros [x s1]. rewrite IHe2. auto.
  - cbn [sx eval]. rewrite IHe2. apply bind_ext; [auto|]. intros [x s1]. rewrite IHe1. auto.
  - cbn [sx eval]. rewrite IHe2. apply bind_ext; [auto|]. intros [x s1]. rewrite IHe1. auto.
  - cbn [sx eval]. rewrite IHe1. apply bind_ext; [auto|]. intros [x s1]. rewrite IHe2. auto.
  - cbn [sx eval]. rewrite IHe2. apply bind_ext; [auto|]. intros [x s1]. rewrite IHe3.
    apply bind_ext; [auto|]. intros [y s2]. rewrite IHe1. auto.
  - cbn [sx eval]. rewrite IHe1. apply bind_ext; [auto|]. intros [b s1]. rewrite IHe2.
    apply bind_ext; [auto|]. intros [x s2]. rewrite IHe3. apply bind_ext; [auto|]. intros [y s3]. rewrite IHe1. auto.
  - cbn [sx eval]. rewrite IHe. auto.
Qed.
Lemma execs_s : forall mode glob clk hists call nilout l ss,
  execs mode glob clk hists call nilout (map sst l) ss = execs mode glob clk hists call nilout l ss.
Proof.
  intros mode glob clk hists call nilout. induction l as [|i l IH]; intros ss; simpl; auto.
  apply bind_ext; [|auto]. destruct ss as [st regs es], i as [t e|e|id v c|id e]; simpl.
  - rewrite eval_sx. auto.
  - rewrite eval_sx. auto.
  - apply bind_ext; [auto|]. intros c1. apply bind_ext; [auto|]. intros r. apply bind_ext; [auto|]. intros [cv es1].
    apply bind_ext; [auto|]. intros n. apply bind_ext; [auto|]. intros r1. destruct v as [e|]; simpl; auto. rewrite eval_sx. auto.
  - apply bind_ext; [auto|]. intros r. rewrite eval_sx. auto.
Qed.
Lemma nil_outputs_s : forall p f, nil_outputs (map snd_ p) f = nil_outputs p f.
Proof.
  intros p f. unfold nil_outputs. induction p as [|nd p IH]; simpl; auto.
  destruct (String.eqb f (n_name nd)); auto.
Qed.
Lemma step_s : forall mode glob p f i v, step mode glob (map snd_ p) f i v = step mode glob p f i v.
Proof.
  intros mode glob. induction p as [|nd p IH]; intros f i v; simpl; auto.
  destruct (String.eqb f (n_name nd)); auto.
  etransitivity.
  - apply node_step_ext with
      (call' := fun id i v => match nth_error (n_blocks nd) id with Some g => step mode glob p g i v | None => Panic PType end)
      (nilout' := fun id => g <- of_option PType (nth_error (n_blocks nd) id);; nil_outputs p g).
    + intros id i' v'. destruct (nth_error (n_blocks nd) id); auto.
    + intros id. destruct (nth_error (n_blocks nd) id); simpl; auto. apply nil_outputs_s.
  - unfold node_step. simpl. destruct (first_is_nil v); auto. destruct i as [clk hists regs flips subs].
    apply bind_ext; [auto|]. intros st. rewrite execs_s. auto.
Qed.
Lemma run_s : forall mode glob p f ins i, run mode glob (map snd_ p) f i ins = run mode glob p f i ins.
Proof.
  intros mode glob p f. induction ins as [|v ins IH]; intros i; simpl; auto. rewrite step_s. apply bind_ext; [auto|].
  intros [o i']. rewrite IH. auto.
Qed.
Lemma init_s : forall p f, init_inst (map snd_ p) f = init_inst p f.
Proof.
  induction p as [|nd p IH]; intros f; simpl; auto. destruct (String.eqb f (n_name nd)); auto.
  apply bind_ext; [auto|]. intros regs. apply bind_ext; [|auto].
  induction (n_blocks nd) as [|g l IHl]; simpl; auto. rewrite IH, IHl. auto.
Qed.
Lemma nodes_of_s : forall l, nodes_of (map sdc l) = map snd_ (nodes_of l).
Proof.
  intros l. unfold nodes_of. rewrite map_rev. f_equal. induction l as [|[o x t e|o nd|o x t|o x i o'] l IH]; simpl; auto.
  f_equal. auto.
Qed.
Lemma const_eval_sx : forall g e, const_eval g (sx e) = const_eval g e.
Proof. intros g. induction e using expr_ind'; simpl; auto; rewrite ?IHe, ?IHe1, ?IHe2, ?IHe3; auto. Qed.
Lemma constants_s : forall ext l, constants ext (map sdc l) = constants ext l.
Proof.
  intros ext l. unfold constants. apply bind_ext; [|auto]. generalize (@nil (ident * scalar)) as g.
  induction l as [|[o x t e|o nd|o x t|o x i o'] l IH]; intros g; simpl; auto.
  - rewrite const_eval_sx. apply bind_ext; auto.
  - apply bind_ext; auto.
Qed.

(** ** Traces *)
Section Traces.
  Variable mode : ovf.
  Variable glob : ident -> option scalar.
  Variables call call' : nat -> inst -> val -> tres (val * inst).
  Variables nilout nilout' : nat -> res val.
  Hypothesis C : forall id i v, call id i v = call' id i v.
  Hypothesis N : forall id, nilout id = nilout' id.

  Lemma teval_sx : forall clk hists regs st e s,
    teval mode glob clk hists call nilout regs st (sx e) s = teval mode glob clk hists call' nilout' regs st e s.
  Proof.
    intros clk hists regs st e. induction e using expr_ind'; intros s; auto.
    - cbn [sx teval]. apply tbind_ext; [|auto]. revert s. induction H as [|e l E _ IH]; intros s; auto.
      simpl. rewrite E. apply tbind_ext; [auto|]. intros [v s1]. rewrite IH. auto.
    - exact (IHe s).
    - exact (IHe s).
    - cbn [sx teval]. rewrite IHe1. apply tbind_ext; [auto|]. intros [x s1]. rewrite IHe2. auto.
    - cbn [sx teval]. rewrite IHe. auto.
    - cbn [sx teval]. rewrite IHe1. apply tbind_ext; [auto|]. intros [x s1]. rewrite IHe2. auto.
    - cbn [sx teval]. rewrite IHe2. apply tbind_ext; [auto|]. intros [x s1]. rewrite IHe1. auto.
    - cbn [sx teval]. rewrite IHe2. apply tbind_ext; [auto|]. intros [x s1]. rewrite IHe1. auto.
    - cbn [sx teval]. rewrite IHe1. apply tbind_ext; [auto|]. intros [x s1]. rewrite IHe2. auto.
    - cbn [sx teval]. rewrite IHe2. apply tbind_ext; [auto|]. intros [x s1]. rewrite IHe3.
      apply tbind_ext; [auto|]. intros [y s2]. rewrite IHe1. auto.
    - cbn [sx teval]. rewrite IHe1. apply tbind_ext; [auto|]. intros [b s1]. rewrite IHe2.
      apply tbind_ext; [auto|]. intros [x s2]. rewrite IHe3. apply tbind_ext; [auto|]. intros [y s3]. rewrite IHe1. auto.
    - cbn [sx teval]. destruct (d <=? clk); [|rewrite N; auto]. rewrite IHe. apply tbind_ext; [auto|]. intros [a s1].
      apply tbind_ext; [auto|]. intros sub. rewrite C. auto.
  Qed.
  Lemma teval_ext : forall clk hists regs st e s,
    teval mode glob clk hists call nilout regs st e s = teval mode glob clk hists call' nilout' regs st e s.
  Proof.
    intros clk hists regs st e. induction e using expr_ind'; intros s; auto.
    - cbn [teval]. apply tbind_ext; [|auto]. revert s. induction H as [|e l E _ IH]; intros s; auto.
      simpl. rewrite E. apply tbind_ext; [auto|]. intros [v s1]. rewrite IH. auto.
    - exact (IHe s).
    - exact (IHe s).
    - cbn [teval]. rewrite IHe1. apply tbind_ext; [auto|]. intros [x s1]. rewrite IHe2. auto.
    - cbn [teval]. rewrite IHe. auto.
    - cbn [teval]. rewrite IHe1. apply tbind_ext; [auto|]. intros [x s1]. rewrite IHe2. auto.
    - cbn [teval]. rewrite IHe2. apply tbind_ext; [auto|]. intros [x s1]. rewrite IHe1. auto.
    - cbn [teval]. rewrite IHe2. apply tbind_ext; [auto|]. intros [x s1]. rewrite IHe1. auto.
    - cbn [teval]. rewrite IHe1. apply tbind_ext; [auto|]. intros [x s1]. rewrite IHe2. auto.
    - cbn [teval]. rewrite IHe2. apply tbind_ext; [auto|]. intros [x s1]. rewrite IHe3.
      apply tbind_ext; [auto|]. intros [y s2]. rewrite IHe1. auto.
    - cbn [teval]. rewrite IHe1. apply tbind_ext; [auto|]. intros [b s1]. rewrite IHe2.
      apply tbind_ext; [auto|]. intros [x s2]. rewrite IHe3. apply tbind_ext; [auto|]. intros [y s3]. rewrite IHe1. auto.
    - cbn [teval]. destruct (d <=? clk); [|rewrite N; auto]. rewrite IHe. apply tbind_ext; [auto|]. intros [a s1].
      apply tbind_ext; [auto|]. intros sub. rewrite C. auto.
  Qed.
  Lemma texecs_s : forall clk hists l ss,
    texecs mode glob clk hists call nilout (map sst l) ss = texecs mode glob clk hists call' nilout' l ss.
  Proof.
    intros clk hists. induction l as [|i l IH]; intros ss; simpl; auto.
    apply tbind_ext; [|auto]. destruct ss as [st regs es], i as [t e|e|id v c|id e]; cbn [sst texec].
    - rewrite teval_sx. auto.
    - rewrite teval_sx. auto.
    - apply tbind_ext; [auto|]. intros c1. apply tbind_ext; [auto|]. intros r. rewrite teval_ext. apply tbind_ext; [auto|]. intros [cv es1].
      apply tbind_ext; [auto|]. intros n. apply tbind_ext; [auto|]. intros r1. destruct v as [e|]; cbn [option_map]; auto. rewrite teval_sx. auto.
    - apply tbind_ext; [auto|]. intros r. rewrite teval_sx. auto.
  Qed.
End Traces.

Definition stp (x : option trace_opt * node) : option trace_opt * node := (fst x, snd_ (snd x)).
Lemma untraced_s : forall p, untraced (map stp p) = map snd_ (untraced p).
Proof. intros p. unfold untraced. rewrite !map_map. auto. Qed.
Lemma tstep_s : forall fshow mode glob p f i v, tstep fshow mode glob (map stp p) f i v = tstep fshow mode glob p f i v.
Proof.
  intros fshow mode glob. induction p as [|[o nd] p IH]; intros f i v; simpl; auto.
  destruct (String.eqb f (n_name nd)); auto.
  unfold tnode_step. cbn [snd_ n_inputs n_outputs n_locals n_blocks n_stmts n_regs n_flips n_name]. destruct (first_is_nil v); auto. destruct i as [clk hists regs flips subs].
  apply tbind_ext; [auto|]. intros st. apply tbind_ext; [auto|]. intros _. apply tbind_ext; [|auto].
  apply texecs_s.
  - intros id i' v'. destruct (nth_error (n_blocks nd) id); auto.
  - intros id. destruct (nth_error (n_blocks nd) id); simpl; auto. rewrite untraced_s. apply nil_outputs_s.
Qed.
Lemma trun_s : forall fshow mode glob p f ins i, trun fshow mode glob (map stp p) f i ins = trun fshow mode glob p f i ins.
Proof.
  intros fshow mode glob p f. induction ins as [|v ins IH]; intros i; simpl; auto. rewrite tstep_s. apply tbind_ext; [auto|].
  intros [o i']. rewrite IH. auto.
Qed.
Lemma tnodes_of_s : forall l, tnodes_of (map sdc l) = map stp (tnodes_of l).
Proof.
  intros l. unfold tnodes_of. rewrite map_rev. f_equal. induction l as [|[o x t e|o nd|o x t|o x i o'] l IH]; simpl; auto.
  f_equal. auto.
Qed.
