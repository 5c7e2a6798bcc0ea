(** * Renaming a program. *)
From Coq Require Import String List ZArith Bool.
From Verif Require Import Model.Base Model.Scalar Model.Value Model.Ast Model.Options Model.Surface Model.Interp.
Import ListNotations.

(** New names for the constants, the nodes and the type variables, and in each node (given by its name) for its variables. *)
Record naming : Type := mkNaming {
  of_const : ident -> ident;
  of_node : ident -> ident;
  of_type : ident -> ident;
  inside : ident -> ident -> ident
}.

Definition injective (f : ident -> ident) : Prop := forall x y, f x = f y -> x = y.

Definition renamed_base (n : naming) (b : base) : base :=
  match b with BOther t => BOther (of_type n t) | b => b end.
Definition renamed_clock (r : ident -> ident) (c : clock) : clock :=
  match c with CExplicit b x => CExplicit b (r x) | c => c end.
(** [r]: the names that stand for values; [f]: the names of the nodes called. *)
Fixpoint renamed_expr (r f : ident -> ident) (e : sexpr) : sexpr :=
  let sub {A} (p : A * sexpr) := (fst p, renamed_expr r f (snd p)) in
  match e with
  | XLit l => e
  | XVar x => XVar (r x)
  | XParen l t => XParen (map (renamed_expr r f) l) t
  | XCall g l t => XCall (f g) (map (renamed_expr r f) l) t
  | XNeg e => XNeg (renamed_expr r f e)
  | XNot e => XNot (renamed_expr r f e)
  | XPre e => XPre (renamed_expr r f e)
  | XIf c y n => XIf (renamed_expr r f c) (renamed_expr r f y) (renamed_expr r f n)
  | XMerge c a b => XMerge (renamed_expr r f c) (renamed_expr r f a) (renamed_expr r f b)
  | XBin e l => XBin (renamed_expr r f e) (map sub l)
  | XCmp e l => XCmp (renamed_expr r f e) (map sub l)
  | XClock e l => XClock (renamed_expr r f e) (map sub l)
  | XFby e l => XFby (renamed_expr r f e) (map (renamed_expr r f) l)
  | XThen e l => XThen (renamed_expr r f e) (map (renamed_expr r f) l)
  end.
Fixpoint renamed_target (r : ident -> ident) (t : starget) : starget :=
  match t with
  | TVar x => TVar (r x)
  | TTuple l b => TTuple (map (renamed_target r) l) b
  end.
Definition renamed_stmt (r f : ident -> ident) (i : sstmt) : sstmt :=
  match i with
  | XDef t e => XDef (renamed_target r t) (renamed_expr r f e)
  | XAssert e => XAssert (renamed_expr r f e)
  end.
Definition renamed_decls (n : naming) (r : ident -> ident) (l : sdecls) : sdecls :=
  map (fun g => (map r (fst g), (renamed_base n (fst (snd g)), renamed_clock r (snd (snd g))))) l.
Definition renamed_decl (n : naming) (d : sdecl) : sdecl :=
  match d with
  | XConst x t e => XConst (of_const n x) (renamed_base n t) (renamed_expr (of_const n) (of_node n) e)
  | XExtConst x t => XExtConst (of_const n x) (renamed_base n t)
  | XNode nd =>
      let r := inside n (s_name nd) in
      XNode (mkSNode (of_node n (s_name nd)) (renamed_decls n r (s_inputs nd)) (renamed_decls n r (s_outputs nd))
               (renamed_decls n r (s_locals nd)) (map (renamed_stmt r (of_node n)) (s_defs nd)))
  | XExtNode x i o =>
      XExtNode (of_node n x) (renamed_decls n (inside n x) i) (renamed_decls n (inside n x) o)
  end.
(** Type variables are declared by [#[generic[...]]]. *)
Definition renamed_attr (n : naming) (a : attribute) : attribute :=
  if String.eqb (a_action a) "generic" then mkAttr (a_action a) (map (of_type n) (a_params a)) (a_targets a) else a.
Definition renamed_prog (n : naming) (p : sprog) : sprog :=
  map (fun a => (map (renamed_attr n) (fst a), renamed_decl n (snd a))) p.

(** The names read by an expression. *)
Fixpoint mentioned (e : sexpr) : list ident :=
  let all l := flat_map mentioned l in
  let alls {A} (l : list (A * sexpr)) := flat_map (fun p => mentioned (snd p)) l in
  match e with
  | XLit _ => []
  | XVar x => [x]
  | XParen l _ | XCall _ l _ => all l
  | XNeg e | XNot e | XPre e => mentioned e
  | XIf a b c | XMerge a b c => mentioned a ++ mentioned b ++ mentioned c
  | XBin e l => mentioned e ++ alls l
  | XCmp e l => mentioned e ++ alls l
  | XClock e l => mentioned e ++ alls l
  | XFby e l | XThen e l => mentioned e ++ all l
  end.
Definition mentioned_stmt (i : sstmt) : list ident := match i with XDef _ e | XAssert e => mentioned e end.
Definition declares (nd : snode) (x : ident) : Prop :=
  In x (flat_map fst (s_inputs nd ++ s_outputs nd ++ s_locals nd)).
Definition primitive_name (t : ident) : Prop := t = "int"%string \/ t = "float"%string \/ t = "bool"%string.

(** Distinct names stay distinct, no type variable becomes [int], [float] or [bool], and a node still reads the same
    constants: the names it reads without declaring them are renamed as constants are. *)
Record faithful (n : naming) (p : sprog) : Prop := mkFaithful {
  f_const : injective (of_const n);
  f_node : injective (of_node n);
  f_type : injective (of_type n);
  f_inside : forall f, injective (inside n f);
  f_primitive : forall t, primitive_name (of_type n t) <-> primitive_name t;
  f_free : forall a nd i x, In (a, XNode nd) p -> In i (s_defs nd) -> In x (mentioned_stmt i) -> ~ declares nd x ->
    inside n (s_name nd) x = of_const n x
}.

(** What a node outputs on a sequence of inputs, from its initial state. *)
Definition outputs_on (mode : ovf) (glob : ident -> option scalar) (P : prog) (f : ident) (ins : list val) : res (list val) :=
  i <- init_inst P f;; '(os, _) <- run mode glob P f i ins;; Ok os.

(** How [main] ends, if it has after that many steps: well, or with a panic. *)
Definition ends (r : option (res inst)) : option (res unit) :=
  option_map (fun r => match r with Ok _ => Ok tt | Panic e => Panic e end) r.
