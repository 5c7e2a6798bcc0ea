(** * The claims about runs and equations, for programs with extern nodes (C53 to C59). *)
From Coq Require Import String List ZArith Bool Arith Lia Relations.
From Verif Require Import Model.Base Model.Scalar Model.Value Model.Ast Model.Errors
  Model.Options Model.Interp Model.Surface Model.Translate Model.Pipeline Model.Extern
  Spec.StepSpec Spec.SurfaceSem Spec.ProgramSem Spec.SettledSem Spec.SafetySpec Spec.ExternSem Spec.ExternSettled Spec.Replace Spec.SourceCausal Spec.ConstSpec Spec.Inline Spec.Laws
  Spec.Static Proofs.ExternExact Proofs.ExternReplace Proofs.ExternExtension Properties.Translation Properties.Externs.
Import ListNotations.
Local Open Scope string_scope.
Local Open Scope list_scope.

(** The outputs of a node are those that the equations and the extern nodes
    give, everything that is evaluated having a value. *)
Theorem c54_extern : forall mode glob ext p l, result (pipeline p) = Some l -> default_mode p ->
  (forall x t, constant p x t -> glob x <> None) -> ordinary ext ->
  forall f ins outs, xoutputs mode glob ext (items_of l) f ins = Ok outs <-> xmeans_strictly mode glob ext p f ins outs.
Proof. exact extern_exact. Qed.
Print Assumptions c54_extern.

Theorem c54_extern_fails : forall mode glob ext p l, result (pipeline p) = Some l -> default_mode p ->
  (forall x t, constant p x t -> glob x <> None) -> ordinary ext ->
  forall f ins, (exists e, xoutputs mode glob ext (items_of l) f ins = Panic e) <-> ~ exists outs, xmeans_strictly mode glob ext p f ins outs.
Proof. exact extern_fails. Qed.
Print Assumptions c54_extern_fails.

(** Nodes can be replaced by nodes whose equations keep their solutions, and
    extern nodes by others that answer at least as much. *)
Theorem c55_extern : forall mode glob ext ext' p q l m,
  Forall2 (fun a b => a = b \/ exists sn sn', snd a = XNode sn /\ b = (fst a, XNode sn') /\ s_name sn' = s_name sn /\
    declared (s_outputs sn') = declared (s_outputs sn) /\ solutions_kept mode glob sn sn') p q ->
  (forall x past v w, ext x past v = Ok w -> ext' x past v = Ok w) ->
  result (pipeline p) = Some l -> result (pipeline q) = Some m -> default_mode p ->
  (forall x t, constant p x t -> glob x <> None) -> ordinary ext -> ordinary ext' ->
  forall f ins outs, xoutputs mode glob ext (items_of l) f ins = Ok outs -> xoutputs mode glob ext' (items_of m) f ins = Ok outs.
Proof. exact extern_replaced. Qed.
Print Assumptions c55_extern.

(** Assertions can be removed, local variables replaced by their definitions. *)
Theorem c56_extern : forall mode glob ext p q l m, Forall2 asserts_less p q ->
  result (pipeline p) = Some l -> result (pipeline q) = Some m -> default_mode p -> (forall x t, constant p x t -> glob x <> None) -> ordinary ext ->
  forall f ins outs, xoutputs mode glob ext (items_of l) f ins = Ok outs -> xoutputs mode glob ext (items_of m) f ins = Ok outs.
Proof. exact extern_asserts. Qed.
Print Assumptions c56_extern.

Theorem c57_extern : forall mode glob ext p q l m,
  Forall2 (fun a b => a = b \/ exists sn sn', snd a = XNode sn /\ b = (fst a, XNode sn') /\ inlined sn sn') p q ->
  result (pipeline p) = Some l -> result (pipeline q) = Some m -> default_mode p -> (forall x t, constant p x t -> glob x <> None) -> ordinary ext ->
  forall f ins outs, xoutputs mode glob ext (items_of l) f ins = Ok outs -> xoutputs mode glob ext (items_of m) f ins = Ok outs.
Proof. exact extern_inlined. Qed.
Print Assumptions c57_extern.

(** The laws, and tuples of definitions. *)
Theorem c58_extern : forall mode glob ext p q l m, Forall2 (rewritten_decl (fun a b => law a b \/ law b a)) p q ->
  result (pipeline p) = Some l -> result (pipeline q) = Some m -> default_mode p -> (forall x t, constant p x t -> glob x <> None) -> ordinary ext ->
  forall f ins outs, xoutputs mode glob ext (items_of l) f ins = Ok outs <-> xoutputs mode glob ext (items_of m) f ins = Ok outs.
Proof. exact extern_laws. Qed.
Print Assumptions c58_extern.

Theorem c59_extern : forall mode glob ext p q l m, Forall2 split_decl p q ->
  result (pipeline p) = Some l -> result (pipeline q) = Some m -> default_mode p -> (forall x t, constant p x t -> glob x <> None) -> ordinary ext ->
  forall f ins outs, xoutputs mode glob ext (items_of l) f ins = Ok outs <-> xoutputs mode glob ext (items_of m) f ins = Ok outs.
Proof. exact extern_split. Qed.
Print Assumptions c59_extern.

(** The extern node [total] of [Externs.v] and a variant that refuses to answer
    after two inputs:
<<
node main(a : int; c : bool) returns (n : int);
let n = merge c (total(a when c)) ((0 fby total(a)) when not c); tel
>> *)
Definition c54_tired (f : ident) : behaviour := fun past v => if Nat.ltb (length past) 2 then c48_total f past v else Panic PAssert.

Example c54_ex_extern : exists l, result (pipeline c48_src) = Some l /\ ordinary c48_total /\ ordinary c54_tired /\ default_mode c48_src /\
  (forall x past v w, c54_tired x past v = Ok w -> c48_total x past v = Ok w) /\
  xmeans_strictly Checked (fun _ => None) c54_tired c48_src "main" (firstn 4 c48_ins) (firstn 4 c48_outs) /\
  (~ exists outs, xmeans_strictly Checked (fun _ => None) c54_tired c48_src "main" c48_ins outs) /\
  xmeans_strictly Checked (fun _ => None) c48_total c48_src "main" c48_ins c48_outs.
Proof.
  destruct c48_ex_run as (l & H & _ & R). exists l. split; [exact H|].
  assert (O1 : ordinary c48_total) by (intros x past v; unfold c48_total; destruct (String.eqb x "total"); split; discriminate).
  assert (O2 : ordinary c54_tired) by (intros x past v; unfold c54_tired; destruct (Nat.ltb (length past) 2); [apply O1|split; discriminate]).
  assert (D : default_mode c48_src) by (intros a sn [E|[E|[]]]; inversion E; subst; cbn; tauto).
  assert (K : forall x t, constant c48_src x t -> (fun _ : ident => @None scalar) x <> None)
    by (intros x t (a & [(e & [E|[E|[]]])|[E|[E|[]]]]); discriminate).
  split; [exact O1|]. split; [exact O2|]. split; [exact D|]. split.
  { intros x past v w. unfold c54_tired. destruct (Nat.ltb (length past) 2); [auto|discriminate]. }
  assert (Q : xoutputs Checked (fun _ => None) c54_tired (items_of l) "main" (firstn 4 c48_ins) = Ok (firstn 4 c48_outs) /\
              xoutputs Checked (fun _ => None) c54_tired (items_of l) "main" c48_ins = Panic PAssert).
  { vm_compute in H. inversion H; subst l. split; vm_compute; reflexivity. }
  destruct Q as [Q1 Q2]. split; [apply (c54_extern Checked _ c54_tired _ _ H D K O2); exact Q1|]. split.
  - apply (c54_extern_fails Checked _ c54_tired _ _ H D K O2). eauto.
  - apply (c54_extern Checked _ c48_total _ _ H D K O1). exact R.
Qed.

(** Whatever else a program contains, its nodes give the same outputs. *)
Theorem c53_extern : forall mode glob ext p q l m, incl p q ->
  result (pipeline p) = Some l -> result (pipeline q) = Some m -> default_mode q ->
  (forall x t, constant q x t -> glob x <> None) -> ordinary ext ->
  forall a f, In a p -> introduces (snd a) = Node f ->
  forall ins outs, xoutputs mode glob ext (items_of l) f ins = Ok outs <-> xoutputs mode glob ext (items_of m) f ins = Ok outs.
Proof. exact extern_extended. Qed.
Print Assumptions c53_extern.

(** With [node user(a : int) returns (n : int); let n = main(a, true) + other(); tel], and an extern node [other]. *)
Definition c53_more : sprog :=
  ([], XNode (mkSNode "user" [on_ ["a"] BInt] [on_ ["n"] BInt] [] [def_ "n" (XBin (XCall "main" [x_ "a"; XLit (SLBool true)] false) [(Add, XCall "other" [] false)])])) ::
  ([], XExtNode "other" [] [on_ ["n"] BInt]) :: c48_src.
Example c53_ex_extern : exists m, result (pipeline c53_more) = Some m /\ incl c48_src c53_more /\
  xoutputs Checked (fun _ => None) c48_total (items_of m) "main" c48_ins = Ok c48_outs.
Proof.
  destruct c48_ex_run as (l & H & _ & R).
  destruct (result (pipeline c53_more)) as [m|] eqn:Hm; [|vm_compute in Hm; discriminate Hm]. exists m. split; [auto|].
  assert (I : incl c48_src c53_more) by (intros a J; right; right; exact J). split; [exact I|].
  assert (O1 : ordinary c48_total) by (intros x past v; unfold c48_total; destruct (String.eqb x "total"); split; discriminate).
  assert (D : default_mode c53_more) by (intros a sn [E|[E|[E|[E|[]]]]]; inversion E; subst; cbn; tauto).
  assert (K : forall x t, constant c53_more x t -> (fun _ : ident => @None scalar) x <> None)
    by (intros x t (a & [(e & [E|[E|[E|[E|[]]]]])|[E|[E|[E|[E|[]]]]]]); discriminate).
  assert (J : exists a, In a c48_src /\ introduces (snd a) = Node "main") by (eexists; split; [cbn; eauto|reflexivity]).
  destruct J as (a & J & E). apply (c53_extern Checked _ c48_total _ _ _ _ I H Hm D K O1 a "main" J E). exact R.
Qed.
