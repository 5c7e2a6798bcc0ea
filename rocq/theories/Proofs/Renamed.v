(** Every pass and the execution commute with renamings of the analysis AST. *)
From Coq Require Import String List ZArith Bool Arith Permutation.
From Verif Require Import Model.Base Model.Scalar Model.Value Model.History Model.Register Model.Ast Model.Errors Model.Options Model.Interp
  Model.Graph Model.Causality Model.Typecheck Model.Clockcheck Model.Positivity Model.Constexpr Model.Pipeline
  Spec.RenameSpec Proofs.AstInd Proofs.OutBasics Proofs.CausalityProofs Proofs.ExternBasics Proofs.Stripped.
From Verif Require Proofs.NodeWf Proofs.Positive Proofs.TypeInfer Proofs.InterpBasics.
Import ListNotations.

Lemma eqb_inj : forall f, injective f -> forall x y, String.eqb (f x) (f y) = String.eqb x y.
Proof.
  intros f I x y. destruct (String.eqb_spec x y) as [->|N]; [apply String.eqb_refl|].
  apply String.eqb_neq. intros E. apply N, I, E.
Qed.
Lemma existsb_inj : forall f, injective f -> forall x l, existsb (String.eqb (f x)) (map f l) = existsb (String.eqb x) l.
Proof. intros f I x l. induction l as [|y l IH]; simpl; auto. rewrite eqb_inj, IH by auto. auto. Qed.

(** A general form: both sides of a bind are mapped. *)
Lemma obind_map : forall {A A' B B'} (g : A -> A') (h : B -> B') (x : out A) (f : A -> out B) (f' : A' -> out B'),
  (forall a, f' (g a) = rmap h (f a)) -> obind (rmap g x) f' = rmap h (obind x f).
Proof. intros. rewrite obind_rmap, rmap_obind. apply obind_ext; auto. Qed.
Lemma need_map : forall {A B} (g : A -> B) o, need (option_map g o) = rmap g (need o).
Proof. intros A B g [a|]; auto. Qed.
Definition resmap {A B} (g : A -> B) (x : res A) : res B := match x with Ok a => Ok (g a) | Panic e => Panic e end.
Lemma bind_map : forall {A A' B B'} (g : A -> A') (h : B -> B') (x : res A) (f : A -> res B) (f' : A' -> res B'),
  (forall a, f' (g a) = resmap h (f a)) -> bind (resmap g x) f' = resmap h (bind x f).
Proof. intros A A' B B' g h [a|e] f f' H; simpl; auto. Qed.
Lemma resmap_bind : forall {A B B'} (h : B -> B') (x : res A) (f : A -> res B) (f' : A -> res B'),
  (forall a, f' a = resmap h (f a)) -> bind x f' = resmap h (bind x f).
Proof. intros A B B' h [a|e] f f' H; simpl; auto. Qed.
Lemma obind_same : forall {A B B'} (h : B -> B') (x : out A) (f : A -> out B) (f' : A -> out B'),
  (forall a, f' a = rmap h (f a)) -> obind x f' = rmap h (obind x f).
Proof. intros. rewrite rmap_obind. apply obind_ext; auto. Qed.

Section Names.
  Variables rl rg rf rt : ident -> ident.
  Hypothesis Il : injective rl.
  Hypothesis Ig : injective rg.
  Hypothesis If : injective rf.
  Hypothesis It : injective rt.

  Definition rb (b : base) : base := match b with BOther t => BOther (rt t) | b => b end.
  Fixpoint rty (t : ty) : ty := match t with TSingle b => TSingle (rb b) | TMult l => TMult (map rty l) end.
  Definition rcl (c : clock) : clock := match c with CExplicit b x => CExplicit b (rl x) | c => c end.
  Definition rvar (v : tyvar) : tyvar := mkVar (rl (v_name v)) (rb (v_base v)) (rcl (v_clk v)) (v_depth v).
  Fixpoint re (e : expr) : expr :=
    match e with
    | ELit _ => e
    | EVar x d => EVar (rl x) d
    | EGlobal x => EGlobal (rg x)
    | ETuple l => ETuple (map re l)
    | EPre e => EPre (re e)
    | EParen e => EParen (re e)
    | EBin o a b => EBin o (re a) (re b)
    | EUn o a => EUn o (re a)
    | ECmp o a b => ECmp o (re a) (re b)
    | EClock p a b => EClock p (re a) (re b)
    | ELater d a b => ELater d (re a) (re b)
    | EFetch id i n => EFetch id (option_map re i) (re n)
    | EFlip id a b => EFlip id (re a) (re b)
    | EIf c a b => EIf (re c) (re a) (re b)
    | EMerge c a b => EMerge (re c) (re a) (re b)
    | ESub d id a => ESub d id (re a)
    end.
  Fixpoint rtg (t : vartuple) : vartuple := match t with VTSingle x => VTSingle (rl x) | VTMult l => VTMult (map rtg l) end.
  Definition rst (i : stmt) : stmt :=
    match i with
    | SLet t e => SLet (rtg t) (re e)
    | SAssert e => SAssert (re e)
    | SInit id v c => SInit id (option_map re v) (option_map re c)
    | SUpdate id e => SUpdate id (re e)
    end.
  Definition rnd (nd : node) : node :=
    mkNode (rf (n_name nd)) (map rvar (n_inputs nd)) (map rvar (n_outputs nd)) (map rvar (n_locals nd))
      (map rf (n_blocks nd)) (map rst (n_stmts nd)) (map (option_map rty) (n_regs nd)) (n_flips nd).
  Definition rref (u : reference) : reference :=
    match u with RFun x => RFun (rf x) | RLocal x => RLocal (rl x) | RGlobal x => RGlobal (rg x) | u => u end.

  Lemma lookup_map : forall {A B} (r : ident -> ident) (h : A -> B) x l, injective r ->
    lookup (r x) (map (fun p => (r (fst p), h (snd p))) l) = option_map h (lookup x l).
  Proof. intros A B r h x l I. induction l as [|[y a] l IH]; simpl; auto. rewrite eqb_inj by auto. destruct (String.eqb x y); auto. Qed.

  (** ** Causality *)
  Lemma flat_map_map : forall {A B C D} (f : A -> list B) (g : C -> list D) (h : A -> C) (k : B -> D) l,
    Forall (fun a => g (h a) = map k (f a)) l -> flat_map g (map h l) = map k (flat_map f l).
  Proof. intros A B C D f g h k l H. induction H as [|a l E _ IH]; simpl; auto. rewrite map_app, E, IH. auto. Qed.
  Lemma requires_re : forall e, expr_requires (re e) = map rref (expr_requires e).
  Proof.
    induction e using expr_ind'; simpl; rewrite ?map_app, ?IHe, ?IHe1, ?IHe2, ?IHe3; auto.
    - destruct d; auto.
    - apply flat_map_map. auto.
  Qed.
  Lemma target_vars_r : forall t, target_vars (rtg t) = map rl (target_vars t).
  Proof. induction t using vartuple_ind'; simpl; auto. apply flat_map_map. auto. Qed.
  Lemma provides_rst : forall i, stmt_provides (rst i) = map rref (stmt_provides i).
  Proof. destruct i; simpl; auto. rewrite target_vars_r, !map_map. auto. Qed.
  Lemma requires_rst : forall i, stmt_requires (rst i) = map rref (stmt_requires i).
  Proof. destruct i as [t e|e|id v c|id e]; simpl; rewrite ?requires_re; auto. destruct v; simpl; rewrite ?requires_re; auto. Qed.
  Lemma rref_eqb : forall a b, reference_eqb (rref a) (rref b) = reference_eqb a b.
  Proof. destruct a, b; simpl; auto; apply eqb_inj; auto. Qed.
End Names.

(** Scheduling, when the objects and the units are renamed. *)
Section Sched.
  Variables Obj Obj' Unit Unit' : Type.
  Variable eqb : Unit -> Unit -> bool.
  Variable eqb' : Unit' -> Unit' -> bool.
  Variables provides requires : Obj -> list Unit.
  Variables provides' requires' : Obj' -> list Unit'.
  Variable f : Obj -> Obj'.
  Variable h : Unit -> Unit'.
  Hypothesis Hp : forall o, provides' (f o) = map h (provides o).
  Hypothesis Hr : forall o, requires' (f o) = map h (requires o).
  Hypothesis He : forall a b, eqb' (h a) (h b) = eqb a b.

  Let gmap (g : graph Obj Unit) : graph Obj' Unit' :=
    mkGraph _ _ (map f (g_elements _ _ g)) (map h (g_atomics _ _ g)) (g_provide _ _ g) (g_require _ _ g) (g_by_ext _ _ g) (g_for_ext _ _ g).

  Lemma index_r : forall u l, index_of _ eqb' (h u) (map h l) = index_of _ eqb u l.
  Proof. intros u l. induction l as [|w l IH]; simpl; auto. rewrite He, IH. auto. Qed.
  Lemma intern_r : forall u l, intern _ eqb' (h u) (map h l) = (fst (intern _ eqb u l), map h (snd (intern _ eqb u l))).
  Proof. intros u l. unfold intern. rewrite index_r. destruct (index_of _ eqb u l); simpl; auto. rewrite map_length, map_app. auto. Qed.
  Lemma interns_r : forall us l, interns _ eqb' (map h us) (map h l) = (fst (interns _ eqb us l), map h (snd (interns _ eqb us l))).
  Proof.
    induction us as [|u us IH]; intros l; simpl; auto. rewrite intern_r. destruct (intern _ eqb u l) as [k l1]. simpl.
    rewrite IH. destruct (interns _ eqb us l1). auto.
  Qed.
  Lemma already_r : forall u g, already_provided Obj' Unit' eqb' (h u) (gmap g) = gmap (already_provided Obj Unit eqb u g).
  Proof. intros u g. unfold already_provided. simpl. rewrite intern_r. destruct (intern _ eqb u (g_atomics _ _ g)); auto. Qed.
  Lemma insert_r : forall o g,
    insert Obj' Unit' eqb' provides' requires' (f o) (gmap g) = gmap (insert Obj Unit eqb provides requires o g).
  Proof.
    intros o g. unfold insert. rewrite Hp, Hr. simpl. rewrite interns_r.
    destruct (interns _ eqb (provides o) (g_atomics _ _ g)) as [a b]. simpl. rewrite interns_r. destruct (interns _ eqb (requires o) b).
    unfold gmap. simpl. rewrite map_app. auto.
  Qed.
  Lemma must_r : forall us g,
    must_provide_all Obj' Unit' eqb' (map h us) (gmap g) = smap gmap (must_provide_all Obj Unit eqb us g).
  Proof.
    induction us as [|u us IH]; intros g; simpl; auto. unfold must_provide. simpl. rewrite intern_r.
    destruct (intern _ eqb u (g_atomics _ _ g)) as [k at_]. simpl. destruct (existsb (Nat.eqb k) (g_for_ext _ _ g)); simpl; auto.
    apply (IH (mkGraph _ _ (g_elements _ _ g) at_ (g_provide _ _ g) (g_require _ _ g) (g_by_ext _ _ g) (g_for_ext _ _ g))).
  Qed.
  Lemma take_r : forall provider scc unused out,
    take_objects Obj' provider scc (map (option_map f) unused) (map f out) =
    smap (fun '(u, o) => (map (option_map f) u, map f o)) (take_objects Obj provider scc unused out).
  Proof.
    intros provider scc. induction scc as [|c scc IH]; intros unused out; simpl; auto.
    destruct (1 <? length c); simpl; auto. destruct c as [|n c]; simpl; auto.
    match goal with |- context[nth_error provider ?k] => destruct (nth_error provider k) as [[prov|]|] end; simpl; auto.
    rewrite nth_error_map. destruct (nth_error unused prov) as [[o|]|]; simpl; auto.
    rewrite <- IH, map_set_nth, map_app. auto.
  Qed.
  Lemma flatten_r : forall l, flatten_opt Obj' (map (option_map f) l) = map f (flatten_opt Obj l).
  Proof. induction l as [|[o|] l IH]; simpl; auto. rewrite IH; auto. Qed.

  Lemma schedule_r : forall ext objs must,
    schedule Obj' Unit' eqb' provides' requires' (map h ext) (map f objs) (map h must) =
    smap (map f) (schedule Obj Unit eqb provides requires ext objs must).
  Proof.
    intros ext objs must. unfold schedule.
    assert (E0 : fold_left (fun g u => already_provided Obj' Unit' eqb' u g) (map h ext) (graph_empty Obj' Unit') =
                 gmap (fold_left (fun g u => already_provided Obj Unit eqb u g) ext (graph_empty Obj Unit))).
    { change (graph_empty Obj' Unit') with (gmap (graph_empty Obj Unit)). generalize (graph_empty Obj Unit).
      induction ext as [|u ext IH]; intros g; simpl; auto. rewrite already_r. apply IH. }
    rewrite E0. clear E0. set (g0 := fold_left _ ext _). clearbody g0.
    assert (E : fold_left (fun g o => insert Obj' Unit' eqb' provides' requires' o g) (map f objs) (gmap g0) =
                gmap (fold_left (fun g o => insert Obj Unit eqb provides requires o g) objs g0)).
    { revert g0. induction objs as [|o objs IH]; intros g0; simpl; auto. rewrite insert_r. apply IH. }
    rewrite E. clear E. set (g := fold_left _ objs g0). clearbody g. rewrite must_r.
    destruct (must_provide_all Obj Unit eqb must g) as [g'|e]; simpl; auto.
    unfold scheduling. simpl. rewrite map_length.
    destruct (add_objects _ _ _ _ _) as [[provider cs]|e]; simpl; auto.
    destruct (sccs cs) as [scc|]; simpl; auto.
    replace (map Some (map f (g_elements _ _ g'))) with (map (option_map f) (map Some (g_elements _ _ g'))).
    2:{ rewrite !map_map. auto. }
    change (@nil Obj') with (map f []) at 1. rewrite take_r.
    destruct (take_objects _ _ _ _ _) as [[u o]|e]; simpl; auto. rewrite flatten_r, map_app. auto.
  Qed.
End Sched.
