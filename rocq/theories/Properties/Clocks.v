(** * Claims about clocks and absent values (C19, C21, C33, C37). *)
From Coq Require Import String List ZArith Bool Arith Lia Floats.SpecFloat.
From Verif Require Import Model.Base Model.Scalar Model.Value Model.Ast Model.Errors Model.Options Model.Interp
  Model.Surface Model.Translate Model.Typecheck Model.Positivity Model.Pipeline
  Spec.StepSpec Spec.SurfaceSem Spec.ProgramSem Spec.ClockSpec Spec.SafetySpec
  Proofs.PaceNode Proofs.Presence Proofs.Positive Proofs.ClockProps Properties.Steps Properties.Translation.
Import ListNotations.
Local Open Scope string_scope.
Local Open Scope list_scope.

Local Ltac default_src := intros a sn I; cbn in I; repeat (destruct I as [I|I]; [inversion I; subst; cbn; tauto|]); destruct I.

(**
<<
node count(t : bool) returns (n : int); let n = 1 fby n + 1; tel
node sel(b : bool; k : int) returns (y : int); var v, c : int when b; w : int whenot b;
let
  v = k when b; c = count(true when b); w = (0 fby y) whenot b;
  y = merge b (v + c) (w + (10 whenot b));
tel
>> *)
Definition count_src : snode := mkSNode "count" [on_ ["t"] BBool] [on_ ["n"] BInt] [] [def_ "n" (XFby (i_ 1) [XBin (x_ "n") [(Add, i_ 1)]])].
Definition when_ (e : sexpr) (x : string) : sexpr := XClock e [(true, x_ x)].
Definition whenot_ (e : sexpr) (x : string) : sexpr := XClock e [(false, x_ x)].
Definition sel_src : snode :=
  mkSNode "sel" [on_ ["b"] BBool; on_ ["k"] BInt] [on_ ["y"] BInt]
    [(["v"; "c"], (BInt, CExplicit true "b")); (["w"], (BInt, CExplicit false "b"))]
    [def_ "v" (when_ (x_ "k") "b");
     def_ "c" (XCall "count" [when_ (XLit (SLBool true)) "b"] false);
     def_ "w" (whenot_ (XParen [XFby (i_ 0) [x_ "y"]] false) "b");
     def_ "y" (XMerge (x_ "b") (XParen [XBin (x_ "v") [(Add, x_ "c")]] false)
                (XParen [XBin (x_ "w") [(Add, XParen [whenot_ (i_ 10) "b"] false)]] false))].
Definition clocks_src : sprog := [([], XNode count_src); ([], XNode sel_src)].

Example clocks_src_runs : (exists l, pipeline clocks_src = Out (Some l) [] []) /\
  run_source clocks_src "sel" (map (fun p => VT [vbool (fst p); vint (snd p)]) [(true, 5); (false, 0); (false, 0); (true, 7); (false, 1)]%Z)
  = Some (Ok (map vint [6; 16; 26; 9; 19]%Z)).
Proof. split; [eexists|]; vm_compute; reflexivity. Qed.
Lemma clocks_src_default : default_mode clocks_src.
Proof. default_src. Qed.
Lemma clocks_src_clear : forall floats sn, floats = false -> In sn (source_nodes clocks_src) -> plain_clocks sn /\ clear floats sn.
Proof.
  intros floats sn -> I. cbn in I. destruct I as [<-|[<-|[]]]; split; unfold plain_clocks, clear; cbn;
    [intros x c [E|[E|[]]]|intros i [<-|[]]|intros x c [E|[E|[E|[E|[E|[E|[]]]]]]]|intros i [<-|[<-|[<-|[<-|[]]]]]]; try (inversion E; discriminate);
    cbn; intuition lia.
Qed.

(** ** C33 *)
(** Everything in a program compiled without a recorded error has a clock in
    the reference calculus: inputs and outputs have the clock of the node, the
    clock of the right-hand side of an equation is the declared one. *)
Theorem c33_accepted : forall p l ws, pipeline p = Out (Some l) [] ws -> default_mode p ->
  forall sn, In sn (source_nodes p) -> node_paced sn.
Proof. exact program_paced. Qed.
Print Assumptions c33_accepted.

Example c33_accepted_ex : node_paced sel_src /\
  pace_of (declared_pace sel_src) (XCall "count" [when_ (XLit (SLBool true)) "b"] false) = Some (On true "b") /\
  pace_of (declared_pace sel_src) (XBin (x_ "v") [(Add, x_ "w")]) = None /\
  pace_of (declared_pace sel_src) (XPre (x_ "v")) = None.
Proof.
  split; [|vm_compute; auto]. destruct (proj1 clocks_src_runs) as (l & E). eapply c33_accepted; [exact E|exact clocks_src_default|].
  right; left; reflexivity.
Qed.

(** An expression of the clock [k] has a value exactly when [k] is active, if
    the variables and the called nodes do: calls have a value when their
    argument does. *)
Theorem c33_expression_partial : forall mode glob locals env rho (F : ident -> list val -> val -> Prop) N floats,
  (forall x, In x locals -> exists k, env x = Some k /\ k <> Free) ->
  (forall x, ~ In x locals -> env x = None) ->
  (forall x s, glob x = Some s -> allowed floats s) ->
  (forall t x n k, In x locals -> rho t x = Some n -> env x = Some k ->
     (active rho k (Z.of_nat t) -> full (allowed floats) (VS n)) /\ (~ active rho k (Z.of_nat t) -> empty (VS n))) ->
  (forall f args w v, F f (args ++ [w]) v -> (forall u, In u (args ++ [w]) -> full (allowed floats) u \/ empty u) ->
     (full (allowed floats) w -> full (allowed floats) v) /\ (empty w -> empty v)) ->
  forall e n t v k, ready true locals n e -> (n <= t)%Z -> steady env e = true -> tame floats e = true -> pace_of env e = Some k ->
  sem mode glob locals rho F N e t v ->
  (active rho k t -> full (allowed floats) v) /\ (~ active rho k t -> empty v).
Proof. exact presence_same. Qed.
Print Assumptions c33_expression_partial.

(** In a program compiled without a recorded error, the streams of a node have
    a value exactly when their declared clock is active.  Conditions: [clear]. *)
Theorem c33_streams_partial : forall mode glob floats p l ws, pipeline p = Out (Some l) [] ws -> default_mode p ->
  (forall x s, glob x = Some s -> allowed floats s) ->
  (forall sn, In sn (source_nodes p) -> plain_clocks sn /\ clear floats sn) ->
  forall sn rho k, In sn (source_nodes p) ->
  (forall T, T < k -> forall i, In i (s_defs sn) ->
     sstmt_holds mode glob (node_vars sn) rho (fun g args v => exists os, means mode glob (source_nodes p) g args (os ++ [v]))
       (no_input (source_nodes p)) T i) ->
  (forall T, T < k -> forall x n, In x (declared (s_inputs sn)) -> rho T x = Some n -> exists s, n = Defined s /\ allowed floats s) ->
  forall T x n kx, T < k -> In x (node_vars sn) -> declared_pace sn x = Some kx -> rho T x = Some n ->
  (active rho kx (Z.of_nat T) -> exists s, n = Defined s /\ allowed floats s) /\ (~ active rho kx (Z.of_nat T) -> n = Nil).
Proof. exact streams_clocked. Qed.
Print Assumptions c33_streams_partial.
Example c33_streams_ex : forall glob rho k, (forall x s, glob x = Some s -> allowed false s) ->
  (forall T, T < k -> forall i, In i (s_defs sel_src) ->
     sstmt_holds Checked glob (node_vars sel_src) rho (fun g args v => exists os, means Checked glob (source_nodes clocks_src) g args (os ++ [v]))
       (no_input (source_nodes clocks_src)) T i) ->
  (forall T, T < k -> forall x n, x = "b" \/ x = "k" -> rho T x = Some n -> exists s, n = Defined s /\ allowed false s) ->
  forall T n, T < k -> rho T "c" = Some n -> rho T "b" <> Some (Defined (SBool true)) -> n = Nil.
Proof.
  intros glob rho k G H Hi T n L E B. destruct (proj1 clocks_src_runs) as (l & R).
  destruct (c33_streams_partial Checked glob false _ l [] R clocks_src_default G (fun sn => clocks_src_clear false sn eq_refl)
    sel_src rho k (or_intror (or_introl eq_refl)) H) with (T := T) (x := "c") (n := n) (kx := On true "b") as [_ X]; auto.
  - intros T' L' x m I. apply Hi; auto. cbn in I. intuition.
  - cbn. tauto.
  - apply X. cbn. rewrite Nat2Z.id. intros [_ Y]. auto.
Qed.

(** Without the condition on conditionals, the claim is false: [t] is declared
    and accepted with the clock [when b], and has a value when [b] is false, so
    the node it is given to runs too often.
<<
node busy(b : bool) returns (y : int); var m, t : bool when b; c : int when b;
let m = b when b; t = if true then true else m; c = count(t); y = merge b c (0 whenot b); tel
>> *)
Definition busy_src : snode :=
  mkSNode "busy" [on_ ["b"] BBool] [on_ ["y"] BInt]
    [(["m"; "t"], (BBool, CExplicit true "b")); (["c"], (BInt, CExplicit true "b"))]
    [def_ "m" (when_ (x_ "b") "b");
     def_ "t" (XIf (XLit (SLBool true)) (XLit (SLBool true)) (x_ "m"));
     def_ "c" (XCall "count" [x_ "t"] false);
     def_ "y" (XMerge (x_ "b") (x_ "c") (whenot_ (i_ 0) "b"))].
Theorem c33_constant_if_refuted : exists l, pipeline [([], XNode count_src); ([], XNode busy_src)] = Out (Some l) [] [] /\
  declared_pace busy_src "t" = Some (On true "b") /\
  run0 (nodes_of l) "busy" (map vbool [true; false; false; true]) = Ok (map vint [1; 0; 0; 4]%Z) /\
  exists rho, (forall T, rho T "b" = Some (Defined (SBool (Nat.eqb T 0))) /\ rho T "t" = Some (Defined (SBool true))) /\
    forall T F N, sstmt_holds Checked noglob (node_vars busy_src) rho F N T (nth 0 (s_defs busy_src) (XAssert (i_ 0))) /\
      sstmt_holds Checked noglob (node_vars busy_src) rho F N T (nth 1 (s_defs busy_src) (XAssert (i_ 0))).
Proof.
  eexists. split; [vm_compute; reflexivity|]. split; [reflexivity|]. split; [vm_compute; reflexivity|].
  exists (fun T x => if String.eqb x "b" then Some (Defined (SBool (Nat.eqb T 0))) else if String.eqb x "t" then Some (Defined (SBool true))
          else Some (if Nat.eqb T 0 then Defined (SBool true) else Nil)).
  split; [intros T; split; reflexivity|]. intros T F N. cbn [nth s_defs busy_src].
  assert (Hb : In "b" (node_vars busy_src)) by (cbn; auto). assert (Hm : In "m" (node_vars busy_src)) by (cbn; auto).
  split.
  - exists (VS (if Nat.eqb T 0 then Defined (SBool true) else Nil)). split; [|constructor; reflexivity].
    eapply sem_clock.
    + apply sem_var; [exact Hb|lia|]. cbn. reflexivity.
    + rewrite Nat2Z.id. eapply clocks_cons; [apply sem_var; [exact Hb|lia|reflexivity]| |apply clocks_nil]. rewrite Nat2Z.id. destruct T; reflexivity.
  - exists (VS (Defined (SBool true))). split; [|constructor; reflexivity].
    eapply sem_if; [apply sem_bool|apply sem_bool|apply sem_var; [exact Hm|lia|reflexivity]|]. reflexivity.
Qed.
Print Assumptions c33_constant_if_refuted.

(** ** C21, positive part: if no error was recorded, then in default mode the
    operands of [pre], [->] and [fby], at any depth, are not on a clock
    [when c] or [whenot c]. *)
Theorem c21_no_error_partial : forall p l ws, pipeline p = Out (Some l) [] ws -> default_mode p ->
  forall sn i e a, In sn (source_nodes p) -> In i (s_defs sn) -> within e (stmt_expr i) -> temporal_operand a e ->
  exists k, pace_of (declared_pace sn) a = Some k /\ slow k = false.
Proof. exact temporal_operands. Qed.
Print Assumptions c21_no_error_partial.

Example c21_no_error_ex :
  temporal_operand (x_ "y") (XFby (i_ 0) [x_ "y"]) /\
  within (XFby (i_ 0) [x_ "y"]) (whenot_ (XParen [XFby (i_ 0) [x_ "y"]] false) "b") /\
  In (def_ "w" (whenot_ (XParen [XFby (i_ 0) [x_ "y"]] false) "b")) (s_defs sel_src) /\
  pace_of (declared_pace sel_src) (x_ "y") = Some Base.
Proof.
  split; [split; [discriminate|cbn; auto]|]. split; [|cbn; auto].
  eapply wi_part; [left; reflexivity|]. eapply wi_part; [left; reflexivity|]. apply wi_here.
Qed.

(** ** C37 *)
(** An expression passes the depth analysis exactly when, at its first instant
    and later, it does not look at a variable of the node before the first
    instant.  After a [->] that is not the first of a chain there are more
    instants; arguments of calls are treated like any operand. *)
Theorem c37_depth_exact : forall locals e s e' s', result (tr false locals e 0 s) = Some (e', s') ->
  forall m, (exists m', result (pos e' 0 m) = Some m') <-> ready false locals 0 e.
Proof. exact depth_exact. Qed.
Print Assumptions c37_depth_exact.

Theorem c37_accepted : forall p l, result (pipeline p) = Some l -> default_mode p ->
  forall sn i, In sn (source_nodes p) -> In i (s_defs sn) -> ready false (node_vars sn) 0 (stmt_expr i).
Proof. exact ready_default. Qed.
Print Assumptions c37_accepted.

(** [0 -> 1 -> pre pre x] looks back twice at the third instant; [0 -> pre pre x]
    at the second, too early; so does [0 -> (1 -> pre pre x)]. *)
Example c37_ex :
  ready false ["x"] 0 (XThen (i_ 0) [i_ 1; XPre (XPre (x_ "x"))]) /\
  ~ ready false ["x"] 0 (XThen (i_ 0) [XPre (XPre (x_ "x"))]) /\
  ~ ready false ["x"] 0 (XThen (i_ 0) [XParen [XThen (i_ 1) [XPre (XPre (x_ "x"))]] false]) /\
  ready false ["x"] 0 (XThen (i_ 0) [XCall "f" [XPre (x_ "x")] false]).
Proof. cbn. intuition lia. Qed.
Example c37_rejected_ex :
  pipeline [([], XNode (mkSNode "f" [on_ ["x"] BInt] [on_ ["y"] BInt] [] [def_ "y" (XThen (i_ 0) [XPre (XPre (x_ "x"))])]))]
  = Out None [ENotPositive] [].
Proof. vm_compute. reflexivity. Qed.

(** ** C19 *)
(** Programs compiled without a recorded error, in default mode, and [clear]:
    as long as the inputs are defined, the outputs are. *)
Theorem c19_clear_partial : forall mode glob floats p l ws, pipeline p = Out (Some l) [] ws -> default_mode p ->
  (forall x s, glob x = Some s -> allowed floats s) ->
  (forall sn, In sn (source_nodes p) -> plain_clocks sn /\ clear floats sn) ->
  forall f i ins outs i', init_inst (nodes_of l) f = Ok i -> run mode glob (nodes_of l) f i ins = Ok (outs, i') ->
  Forall (full (allowed floats)) ins -> Forall (full (allowed floats)) outs.
Proof. exact run_nil_free. Qed.
Print Assumptions c19_clear_partial.

(** In particular if calls are not delayed. *)
Theorem c19_undelayed_partial : forall mode glob floats p l ws, pipeline p = Out (Some l) [] ws -> default_mode p ->
  (forall x s, glob x = Some s -> allowed floats s) ->
  (forall sn i, In sn (source_nodes p) -> plain_clocks sn /\ (In i (s_defs sn) ->
     calls_undelayed (stmt_expr i) /\ steady (declared_pace sn) (stmt_expr i) = true /\ tame floats (stmt_expr i) = true)) ->
  forall f i ins outs i', init_inst (nodes_of l) f = Ok i -> run mode glob (nodes_of l) f i ins = Ok (outs, i') ->
  Forall (full (allowed floats)) ins -> Forall (full (allowed floats)) outs.
Proof. exact run_nil_free_plain. Qed.
Print Assumptions c19_undelayed_partial.

(** Instant by instant, absent inputs included: an instant whose inputs are all
    absent is answered by absent outputs, one whose inputs are all defined by
    defined outputs. *)
Theorem c19_instants_partial : forall mode glob floats p l ws, pipeline p = Out (Some l) [] ws -> default_mode p ->
  (forall x s, glob x = Some s -> allowed floats s) ->
  (forall sn, In sn (source_nodes p) -> plain_clocks sn /\ clear floats sn) ->
  forall f i ins outs i', init_inst (nodes_of l) f = Ok i -> run mode glob (nodes_of l) f i ins = Ok (outs, i') ->
  Forall (fun v => full (allowed floats) v \/ empty v) ins ->
  Forall2 (fun v o => (full (allowed floats) v -> full (allowed floats) o) /\ (empty v -> empty o)) ins outs.
Proof. exact run_instants. Qed.
Print Assumptions c19_instants_partial.

Example c19_clear_ex : forall ins outs l i i', pipeline clocks_src = Out (Some l) [] [] ->
  init_inst (nodes_of l) "sel" = Ok i -> run Checked noglob (nodes_of l) "sel" i ins = Ok (outs, i') ->
  Forall (full (allowed false)) ins -> Forall (full (allowed false)) outs.
Proof.
  intros ins outs l i i' R Hi Hr. eapply (c19_clear_partial Checked noglob false); [exact R|exact clocks_src_default| | |exact Hi|exact Hr].
  - discriminate.
  - intros sn. apply clocks_src_clear. reflexivity.
Qed.

(** The claim in full is false; five programs that are compiled without any
    error shown, and answer nil to defined inputs. *)
Definition nil_answer (p : sprog) (f : ident) (ins outs : list val) : Prop :=
  exists l, compile p = Expanded (Some l) [] /\ run0 (nodes_of l) f ins = Ok outs /\
    Forall (full (fun _ => True)) ins /\ ~ Forall (full (fun _ => True)) outs.
Local Ltac nil_run := eexists; split; [vm_compute; reflexivity|]; split; [vm_compute; reflexivity|]; split;
  [repeat constructor|intros F; repeat match goal with H : Forall _ (_ :: _) |- _ => inversion H; clear H; subst end;
    match goal with H : full _ (VS Nil) |- _ => inversion H end].

(** The arguments of a call that is written after a [->] are computed at the
    first instant as well, when they are not ready.
<<
node prev(a, b : int) returns (o : int); let o = 0 -> pre b; tel
node top(x : int) returns (y : int); let y = 0 -> prev(1, pre x); tel
>> *)
Theorem c19_call_refuted : nil_answer
  [([], XNode (mkSNode "prev" [on_ ["a"; "b"] BInt] [on_ ["o"] BInt] [] [def_ "o" (XThen (i_ 0) [XPre (x_ "b")])]));
   ([], XNode (mkSNode "top" [on_ ["x"] BInt] [on_ ["y"] BInt] [] [def_ "y" (XThen (i_ 0) [XCall "prev" [i_ 1; XPre (x_ "x")] false])]))]
  "top" (map vint [5; 6; 7]%Z) [vint 0; VS Nil; vint 5].
Proof. nil_run. Qed.
Print Assumptions c19_call_refuted.

(** [pre f()] without variables is accepted.
<<
node one() returns (n : int); let n = 1; tel
node top(x : int) returns (y : int); let y = x + pre one(); tel
>> *)
Theorem c19_pre_call_refuted : nil_answer
  [([], XNode (mkSNode "one" [] [on_ ["n"] BInt] [] [def_ "n" (i_ 1)]));
   ([], XNode (mkSNode "top" [on_ ["x"] BInt] [on_ ["y"] BInt] [] [def_ "y" (XBin (x_ "x") [(Add, XPre (XCall "one" [] false))])]))]
  "top" (map vint [5; 6]%Z) [VS Nil; vint 7].
Proof. nil_run. Qed.
Print Assumptions c19_pre_call_refuted.

(** With [universal_pre], each [->] of a chain counts for one more instant, yet
    all of them switch at the same one: [y = 0 -> 0 -> pre pre x]. *)
Theorem c19_universal_refuted : nil_answer
  [([attr_ "universal_pre"], XNode (mkSNode "top" [on_ ["x"] BInt] [on_ ["y"] BInt] []
      [def_ "y" (XThen (i_ 0) [i_ 0; XPre (XPre (x_ "x"))])]))]
  "top" (map vint [5; 6; 7]%Z) [vint 0; VS Nil; vint 5].
Proof. nil_run. Qed.
Print Assumptions c19_universal_refuted.

(** A comparison with not-a-number: [y = x / x < x] at 0. *)
Theorem c19_nan_refuted : nil_answer
  [([], XNode (mkSNode "top" [on_ ["x"] BFloat] [on_ ["y"] BBool] []
      [def_ "y" (XCmp (XBin (x_ "x") [(Div, x_ "x")]) [(Lt, x_ "x")])]))]
  "top" [VS (Defined (SFloat (S754_zero false)))] [VS Nil].
Proof. nil_run. Qed.
Print Assumptions c19_nan_refuted.

(** An operand of [->] on a slower clock: the recorded error is not shown. *)
Theorem c19_slow_refuted : nil_answer
  [([], XNode (mkSNode "foo" [on_ ["b"] BBool] [on_ ["y"] BInt] [(["v"], (BInt, CExplicit true "b"))]
      [def_ "v" (when_ (i_ 4) "b"); def_ "y" (XThen (i_ 0) [x_ "v"])]))]
  "foo" (map vbool [true; true; false]) [vint 0; vint 4; VS Nil].
Proof. nil_run. Qed.
Print Assumptions c19_slow_refuted.
