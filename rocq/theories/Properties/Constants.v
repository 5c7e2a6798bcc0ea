(** * Claims about constants (C25). *)
From Coq Require Import String List ZArith Bool Arith Lia Floats.SpecFloat.
From Verif Require Import Model.Base Model.Scalar Model.Value Model.Ast Model.Errors Model.Options Model.Interp Model.Surface Model.Translate
  Model.Pipeline Model.Constexpr
  Spec.TypeSpec Spec.SafetySpec Spec.SurfaceSem Spec.ProgramSem Spec.ConstSpec Proofs.Constants Properties.Steps Properties.Translation.
Import ListNotations.
Local Open Scope list_scope.

(** The constants of an accepted program have values of their types, or rustc
    reports an overflow or a division by zero. *)
Theorem c25_typed : forall ext p l, result (pipeline p) = Some l -> externs_ok p ext ->
  match constants ext l with
  | Ok glob => constants_ok p glob /\ forall a x t, In (a, XExtConst x t) p -> glob x = ext x
  | Panic e => e = POverflow \/ e = PDivZero
  end.
Proof. exact constants_typed. Qed.
Print Assumptions c25_typed.

(** The defining expression of a constant, in a node where it denotes the same
    thing, never has another value.  [rho], [F] and [N] (variables, calls) do not matter. *)
Theorem c25_value : forall ext p l glob, result (pipeline p) = Some l -> externs_ok p ext -> constants ext l = Ok glob ->
  forall a x t e, In (a, XConst x t e) p -> exists s, glob x = Some s /\
    forall mode locals rho F N T v, (forall y, In y (names e) -> ~ In y locals) ->
      sem mode glob locals rho F N e T v -> v = VS (Defined s) \/ v = VS Nil.
Proof. exact constants_agree. Qed.
Print Assumptions c25_value.

(** Without floats it has this value. *)
Theorem c25_exact_partial : forall ext p l glob, result (pipeline p) = Some l -> externs_ok p ext -> constants ext l = Ok glob ->
  forall a x t e, In (a, XConst x t e) p ->
    float_free e = true -> (forall y r, In y (names e) -> glob y = Some r -> sty_of r <> TFloat) ->
    exists s, glob x = Some s /\
    forall mode locals rho F N T v, (forall y, In y (names e) -> ~ In y locals) ->
      sem mode glob locals rho F N e T v -> v = VS (Defined s).
Proof. exact constants_exact. Qed.
Print Assumptions c25_exact_partial.

(** The nodes of an accepted program run safely with these constants. *)
Theorem c25_nodes_run : forall ext p l glob, result (pipeline p) = Some l -> closed p -> default_mode p -> externs_ok p ext -> constants ext l = Ok glob ->
  forall mode sn, In sn (source_nodes p) ->
  exists i, init_inst (nodes_of l) (s_name sn) = Ok i /\
    forall theta ins, Forall (of_type theta (declared_type (s_inputs sn))) ins ->
    match run mode glob (nodes_of l) (s_name sn) i ins with
    | Ok (outs, _) => Forall (of_type theta (declared_type (s_outputs sn))) outs
    | Panic e => e = POverflow \/ e = PDivZero \/ e = PAssert \/ e = PAssertNil
    end.
Proof. exact program_runs. Qed.
Print Assumptions c25_nodes_run.

(**
<<
const A : int = 2 * B + (if B <= E then 1 else 1 / 0);
const B : int = (-7) % 4 + E;
extern const E : int;
node main() returns (n, m : int); let n = 2 * B + (if B <= E then 1 else 1 / 2); m = A; tel
>> *)
Definition const_a (z : Z) : sexpr :=
  XBin (XBin (i_ 2) [(Mul, x_ "B"%string)]) [(Add, XParen [XIf (XCmp (x_ "B"%string) [(Le, x_ "E"%string)]) (i_ 1) (XBin (i_ 1) [(Div, i_ z)])] false)].
Definition const_src : sprog :=
  [([], XConst "A" BInt (const_a 0));
   ([], XConst "B" BInt (XBin (XBin (XParen [XNeg (i_ 7)] false) [(Rem, i_ 4)]) [(Add, x_ "E")]));
   ([], XExtConst "E" BInt);
   ([], XNode (mkSNode "main" [] [on_ ["n"; "m"] BInt] [] [def_ "n" (const_a 2); def_ "m" (x_ "A")]))]%string.
Definition const_ext (x : ident) : option scalar := if String.eqb x "E" then Some (SInt 10) else None.
Example c25_ex : exists l glob, result (pipeline const_src) = Some l /\ externs_ok const_src const_ext /\ constants const_ext l = Ok glob /\
  glob "A"%string = Some (SInt 15) /\ glob "B"%string = Some (SInt 7) /\
  (forall mode rho F N T, sem mode glob ["n"; "m"]%string rho F N (XBin (XBin (XParen [XNeg (i_ 7)] false) [(Rem, i_ 4)]) [(Add, x_ "E"%string)]) T (VS (Defined (SInt 7)))) /\
  exists i, init_inst (nodes_of l) "main" = Ok i /\ exists i', run Checked glob (nodes_of l) "main" i [VT []] = Ok ([VT [vint 15; vint 15]], i').
Proof.
  eexists. eexists. split; [vm_compute; reflexivity|]. split.
  { intros a x t I. cbn in I. destruct I as [I|[I|[I|[I|[]]]]]; inversion I; subst. exists (SInt 10). split; auto. }
  split; [vm_compute; reflexivity|]. split; [vm_compute; reflexivity|]. split; [vm_compute; reflexivity|]. split.
  - intros. econstructor.
    + econstructor.
      * eapply (sem_paren _ _ _ _ _ _ [XNeg (i_ 7)] false T [VS (Defined (SInt (-7)))]). repeat econstructor.
      * econstructor; [constructor|destruct mode; reflexivity|constructor].
    + econstructor; [apply sem_global; [cbn; intuition discriminate|reflexivity]|destruct mode; reflexivity|constructor].
  - eexists. split; [vm_compute; reflexivity|]. eexists. vm_compute. reflexivity.
Qed.

(** The branch that is not taken is not computed: this expression defines the
    constant [A] but stops a node. *)
Theorem c25_lazy : exists p l glob e, result (pipeline p) = Some l /\ constants const_ext l = Ok glob /\
  In ([], XConst "A" BInt e) p /\ (exists s, glob "A"%string = Some s) /\
  In ([], XNode (mkSNode "main" [] [on_ ["n"] BInt] [] [def_ "n" e])) p /\
  exists i, init_inst (nodes_of l) "main" = Ok i /\ run Checked glob (nodes_of l) "main" i [VT []] = Panic PDivZero.
Proof.
  exists [([], XConst "A" BInt (XIf (XLit (SLBool true)) (i_ 1) (XBin (i_ 1) [(Div, i_ 0)])));
    ([], XNode (mkSNode "main" [] [on_ ["n"] BInt] [] [def_ "n" (XIf (XLit (SLBool true)) (i_ 1) (XBin (i_ 1) [(Div, i_ 0)]))]))]%string.
  eexists. eexists. eexists. split; [vm_compute; reflexivity|]. split; [vm_compute; reflexivity|]. split; [cbn; auto|].
  split; [eexists; vm_compute; reflexivity|]. split; [cbn; auto|]. eexists. split; vm_compute; reflexivity.
Qed.
Print Assumptions c25_lazy.

(** With floats the exact claim is false: [const B : bool = (0.0 / 0.0) < 1.0] is
    false, and nil in a node. *)
Definition nan_lt : sexpr :=
  XCmp (XParen [XBin (XLit (SLFloat (S754_zero false))) [(Div, XLit (SLFloat (S754_zero false)))]] false)
    [(Lt, XLit (SLFloat (S754_finite false 4503599627370496 (-52))))].
Theorem c25_nan_refuted : exists p l glob e s, result (pipeline p) = Some l /\ constants (fun _ => None) l = Ok glob /\
  In ([], XConst "B" BBool e) p /\ glob "B"%string = Some s /\
  In ([], XNode (mkSNode "main" [] [on_ ["n"] BBool] [] [def_ "n" e])) p /\
  exists i, init_inst (nodes_of l) "main" = Ok i /\ 
  exists v i', run Checked glob (nodes_of l) "main" i [VT []] = Ok ([v], i') /\ v <> VS (Defined s).
Proof.
  exists [([], XConst "B" BBool nan_lt); ([], XNode (mkSNode "main" [] [on_ ["n"] BBool] [] [def_ "n" nan_lt]))]%string.
  eexists. eexists. eexists. eexists. split; [vm_compute; reflexivity|]. split; [vm_compute; reflexivity|]. split; [cbn; auto|].
  split; [vm_compute; reflexivity|]. split; [cbn; auto|]. eexists. split; [vm_compute; reflexivity|]. eexists. eexists.
  split; [vm_compute; reflexivity|discriminate].
Qed.
Print Assumptions c25_nan_refuted.
