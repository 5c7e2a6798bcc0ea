(** * Claims about the runs of compiled programs (C05, C06, C07, C10, C20, C40). *)
From Coq Require Import String List ZArith Bool Arith.
From Verif Require Import Model.Base Model.Scalar Model.Value Model.Ast Model.Errors
  Model.Options Model.Interp Model.Surface Model.Translate Model.Pipeline
  Spec.StepSpec Spec.SurfaceSem Spec.ProgramSem Spec.ClockSpec Spec.UniversalSem Spec.ChainSpec Spec.OrderSpec Spec.RunSpec Spec.SourceCausal Spec.RangeSpec
  Proofs.StepProofs Proofs.Runs Proofs.Closed Proofs.Range Properties.Steps Properties.Translation Properties.Clocks Properties.Universal.
Import ListNotations.
Local Open Scope string_scope.
Local Open Scope list_scope.

(** ** C07, C20: default mode *)
(** In a run of a node of an accepted program, the variable defined by
    [e0 -> e1 -> ... -> em] is at instant [T] the value that operand
    [min T m] has at that instant. *)
Theorem c07_then_run : forall mode glob p l, result (pipeline p) = Some l ->
  forall sn i i' ins outs, (forall v, In v ins -> ~ lacking v) ->
  init_inst (nodes_of l) (s_name sn) = Ok i ->
  run mode glob (nodes_of l) (s_name sn) i ins = Ok (outs, i') ->
  In (false, sn) (moded_nodes p) -> exists rho F, carried sn ins outs rho /\ answers mode glob p F /\
  forall x e es, In (XDef (TVar x) (XThen e es)) (s_defs sn) -> forall T, T < length ins ->
  exists e' n, nth_error (e :: es) (Nat.min T (length es)) = Some e' /\
    sem mode glob (node_vars sn) rho F (no_input (source_nodes p)) e' (Z.of_nat T) (VS n) /\ rho T x = Some n.
Proof. exact run_then. Qed.
Print Assumptions c07_then_run.

(** For [e0 fby e1 fby ... fby em], the value that this operand had [min T m]
    instants before. *)
Theorem c07_fby_run : forall mode glob p l, result (pipeline p) = Some l ->
  forall sn i i' ins outs, (forall v, In v ins -> ~ lacking v) ->
  init_inst (nodes_of l) (s_name sn) = Ok i ->
  run mode glob (nodes_of l) (s_name sn) i ins = Ok (outs, i') ->
  In (false, sn) (moded_nodes p) -> exists rho F, carried sn ins outs rho /\ answers mode glob p F /\
  forall x e es, In (XDef (TVar x) (XFby e es)) (s_defs sn) -> forall T, T < length ins ->
  exists e' n, nth_error (e :: es) (Nat.min T (length es)) = Some e' /\
    sem mode glob (node_vars sn) rho F (no_input (source_nodes p)) e' (Z.of_nat (T - Nat.min T (length es))) (VS n) /\
    rho T x = Some n.
Proof. exact run_fby. Qed.
Print Assumptions c07_fby_run.

(** When that operand of [->] is [pre pre ... pre e], the value that [e] had as
    many instants before. *)
Theorem c20_pre_run : forall mode glob p l, result (pipeline p) = Some l ->
  forall sn i i' ins outs, (forall v, In v ins -> ~ lacking v) ->
  init_inst (nodes_of l) (s_name sn) = Ok i ->
  run mode glob (nodes_of l) (s_name sn) i ins = Ok (outs, i') ->
  In (false, sn) (moded_nodes p) -> exists rho F, carried sn ins outs rho /\ answers mode glob p F /\
  forall x a es, In (XDef (TVar x) (XThen a es)) (s_defs sn) ->
  forall T n e, T < length ins -> nth_error (a :: es) (Nat.min T (length es)) = Some (pres n e) ->
  exists m, sem mode glob (node_vars sn) rho F (no_input (source_nodes p)) e (Z.of_nat T - Z.of_nat n) (VS m) /\
    rho T x = Some m.
Proof. exact run_pre. Qed.
Print Assumptions c20_pre_run.

(** The hypotheses of these theorems and of those below. *)
Example c07_use : forall p sn u ins outs (P : Prop),
  run_source p (s_name sn) ins = Some (Ok outs) -> In (u, sn) (moded_nodes p) ->
  forallb (fun v => negb (first_is_nil v)) ins = true ->
  (forall l i i', result (pipeline p) = Some l -> (forall v, In v ins -> ~ lacking v) -> init_inst (nodes_of l) (s_name sn) = Ok i ->
     run Checked noglob (nodes_of l) (s_name sn) i ins = Ok (outs, i') -> In (u, sn) (moded_nodes p) -> P) ->
  P.
Proof.
  unfold run_source, run0. intros p sn u ins outs P H I A K. destruct (result (pipeline p)) as [l|] eqn:E; [|discriminate].
  destruct (init_inst (nodes_of l) (s_name sn)) as [i|] eqn:I0; [|discriminate]. cbn [bind] in H.
  destruct (run Checked noglob (nodes_of l) (s_name sn) i ins) as [[outs' i']|] eqn:R; [|discriminate].
  cbn [bind] in H. injection H as <-. apply (K l i i'); auto. intros v J L. apply first_lacking in L.
  rewrite forallb_forall in A. specialize (A v J). rewrite L in A. discriminate.
Qed.

(** 
<<
node delays(x : int) returns (y : int); var a, b, c : int;
let a = 1 -> 2 -> x; b = 10 fby 20 fby x; c = 0 -> 0 -> pre pre x; y = a * 10000 + b * 100 + c; tel
>> *)
Definition delays : snode :=
  mkSNode "delays" [on_ ["x"] BInt] [on_ ["y"] BInt] [on_ ["a"; "b"; "c"] BInt]
    [def_ "a" (XThen (i_ 1) [i_ 2; x_ "x"]); def_ "b" (XFby (i_ 10) [i_ 20; x_ "x"]); def_ "c" (XThen (i_ 0) [i_ 0; XPre (XPre (x_ "x"))]);
     def_ "y" (XBin (x_ "a") [(Mul, i_ 10000); (Add, XParen [XBin (x_ "b") [(Mul, i_ 100)]] false);
       (Add, x_ "c")])].
Definition delays_prog : sprog := [([], XNode delays)].
Example c07_run_ex : run_source delays_prog "delays" (map vint [5; 6; 7; 8]%Z) = Some (Ok (map vint [11000; 22000; 70505; 80606]%Z)).
Proof. vm_compute. reflexivity. Qed.
Example c07_run_ex2 : exists rho F, carried delays (map vint [5; 6; 7; 8]%Z) (map vint [11000; 22000; 70505; 80606]%Z) rho /\
  answers Checked noglob delays_prog F /\
  forall x a es, In (XDef (TVar x) (XThen a es)) (s_defs delays) ->
  forall T n e, T < 4 -> nth_error (a :: es) (Nat.min T (length es)) = Some (pres n e) ->
  exists m, sem Checked noglob (node_vars delays) rho F (no_input (source_nodes delays_prog)) e (Z.of_nat T - Z.of_nat n) (VS m) /\
    rho T x = Some m.
Proof.
  eapply (c07_use delays_prog delays false (map vint [5; 6; 7; 8]%Z) (map vint [11000; 22000; 70505; 80606]%Z)).
  - exact c07_run_ex.
  - left. reflexivity.
  - reflexivity.
  - intros l i i' H N I R D. exact (c20_pre_run _ _ _ _ H _ _ _ _ _ N I R D).
Qed.

(** ** C05, C06: nodes with [#[universal_pre]] *)
(** [pre e] is the last value that [e] had at an earlier instant where it was
    present, at the instants of the clock of [e]; nil at the others. *)
Theorem c05_pre_run : forall mode glob p l, result (pipeline p) = Some l ->
  forall sn i i' ins outs, (forall v, In v ins -> ~ lacking v) ->
  init_inst (nodes_of l) (s_name sn) = Ok i ->
  run mode glob (nodes_of l) (s_name sn) i ins = Ok (outs, i') ->
  In (true, sn) (moded_nodes p) -> exists rho F, carried sn ins outs rho /\ answers mode glob p F /\
  forall x e, In (XDef (TVar x) (XPre e)) (s_defs sn) -> forall T, T < length ins ->
  let value := usem mode glob (node_vars sn) (declared_pace sn) rho F e in
  exists n, rho T x = Some n /\
    (waits (declared_pace sn) rho e T /\ n = Nil \/
     ticks (declared_pace sn) rho e T /\ (never_present value T /\ n = Nil \/ last_present value T (VS n))).
Proof. exact run_register_pre. Qed.
Print Assumptions c05_pre_run.

(** [a fby b] is [a] until [b] has been present, then the last value that [b]
    had, at the instants of the clock of [b]; nil at the others. *)
Theorem c05_fby_run : forall mode glob p l, result (pipeline p) = Some l ->
  forall sn i i' ins outs, (forall v, In v ins -> ~ lacking v) ->
  init_inst (nodes_of l) (s_name sn) = Ok i ->
  run mode glob (nodes_of l) (s_name sn) i ins = Ok (outs, i') ->
  In (true, sn) (moded_nodes p) -> exists rho F, carried sn ins outs rho /\ answers mode glob p F /\
  forall x a b, In (XDef (TVar x) (XFby a [b])) (s_defs sn) -> forall T, T < length ins ->
  let value := usem mode glob (node_vars sn) (declared_pace sn) rho F in
  exists n, rho T x = Some n /\
    (waits (declared_pace sn) rho b T /\ n = Nil \/
     ticks (declared_pace sn) rho b T /\ (never_present (value b) T /\ value a T (VS n) \/ last_present (value b) T (VS n))).
Proof. exact run_register_fby. Qed.
Print Assumptions c05_fby_run.

(** [a -> b] is nil when [a] is, [a] the first time that [a] is present and
    [b] the other times. *)
Theorem c06_flip_run : forall mode glob p l, result (pipeline p) = Some l ->
  forall sn i i' ins outs, (forall v, In v ins -> ~ lacking v) ->
  init_inst (nodes_of l) (s_name sn) = Ok i ->
  run mode glob (nodes_of l) (s_name sn) i ins = Ok (outs, i') ->
  In (true, sn) (moded_nodes p) -> exists rho F, carried sn ins outs rho /\ answers mode glob p F /\
  forall x a b, In (XDef (TVar x) (XThen a [b])) (s_defs sn) -> forall T, T < length ins ->
  let value := usem mode glob (node_vars sn) (declared_pace sn) rho F in
  exists n, rho T x = Some n /\
    ((exists w, value a T w /\ lacking w) /\ n = Nil \/
     (exists w, value a T w /\ ~ lacking w) /\
       ((forall T', T' < T -> exists w, value a T' w /\ lacking w) /\ value a T (VS n) \/
        (exists T' w, T' < T /\ value a T' w /\ ~ lacking w) /\ value b T (VS n))).
Proof. exact run_flip. Qed.
Print Assumptions c06_flip_run.

(** The node [acc] of [Properties.Universal], whose equation for [s] is
    [s = (x when b) -> (pre s + (x when b))]. *)
Example c06_run_ex : run_source acc_prog "acc" acc_ins = Some (Ok (map vint [-1; 20711; -1; -1; 70222; 130533]%Z)).
Proof. vm_compute. reflexivity. Qed.
Example c06_run_ex2 : exists rho F, carried acc_src acc_ins (map vint [-1; 20711; -1; -1; 70222; 130533]%Z) rho /\
  answers Checked noglob acc_prog F /\
  forall x a b, In (XDef (TVar x) (XThen a [b])) (s_defs acc_src) -> forall T, T < length acc_ins ->
  let value := usem Checked noglob (node_vars acc_src) (declared_pace acc_src) rho F in
  exists n, rho T x = Some n /\
    ((exists w, value a T w /\ lacking w) /\ n = Nil \/
     (exists w, value a T w /\ ~ lacking w) /\
       ((forall T', T' < T -> exists w, value a T' w /\ lacking w) /\ value a T (VS n) \/
        (exists T' w, T' < T /\ value a T' w /\ ~ lacking w) /\ value b T (VS n))).
Proof.
  eapply (c07_use acc_prog acc_src true acc_ins (map vint [-1; 20711; -1; -1; 70222; 130533]%Z)).
  - exact c06_run_ex.
  - left. reflexivity.
  - reflexivity.
  - intros l i i' H N I R D. exact (c06_flip_run _ _ _ _ H _ _ _ _ _ N I R D).
Qed.

(** ** C10 *)
(** The call sites of a compiled node have distinct numbers. *)
Theorem c10_distinct : forall p l nd, result (pipeline p) = Some l -> In nd (nodes_of l) ->
  NoDup (flat_map calls_of (flat_map computed (n_stmts nd))).
Proof. exact distinct_calls. Qed.
Print Assumptions c10_distinct.

(** ** C40 *)
(** A property of scalars that the operators preserve is preserved by runs. *)
Theorem c40_closed : forall mode P, closed_under mode P -> forall glob, (forall x s, glob x = Some s -> P s) ->
  forall p l, result (pipeline p) = Some l ->
  (forall sn i z, In sn (source_nodes p) -> In i (s_defs sn) -> In z (literal_values (right_side i)) -> P z) ->
  forall f i ins outs i', init_inst (nodes_of l) f = Ok i -> run mode glob (nodes_of l) f i ins = Ok (outs, i') ->
  Forall (every P) ins -> Forall (every P) outs.
Proof. exact run_closed. Qed.
Print Assumptions c40_closed.

(** The integers that a compiled program computes are 64-bit integers, in
    checked and in wrapping builds, if its inputs and constants are. *)
Theorem c40_range : forall mode glob, (forall x s, glob x = Some s -> scalar_range s) ->
  forall p l, result (pipeline p) = Some l ->
  forall f i ins outs i', init_inst (nodes_of l) f = Ok i -> run mode glob (nodes_of l) f i ins = Ok (outs, i') ->
  Forall in_range ins -> Forall in_range outs.
Proof. exact run_range. Qed.
Print Assumptions c40_range.

(** 
<<
node double() returns (y : int); let y = 4611686018427387904 fby (y + y); tel
>> *)
Definition double_prog : sprog :=
  [([], XNode (mkSNode "double" [] [on_ ["y"] BInt] [] [def_ "y" (XFby (i_ (2 ^ 62)) [XParen [XBin (x_ "y") [(Add, x_ "y")]] false])]))].
Example c40_ex : exists l i i', result (pipeline double_prog) = Some l /\
  init_inst (nodes_of l) "double" = Ok i /\
  run Wrapping noglob (nodes_of l) "double" i (repeat (VT []) 3) = Ok (map vint [2 ^ 62; - 2 ^ 63; 0]%Z, i') /\
  Forall in_range (map vint [2 ^ 62; - 2 ^ 63; 0]%Z).
Proof.
  eexists _, _, _. split; [vm_compute; reflexivity|]. split; [vm_compute; reflexivity|]. split; [vm_compute; reflexivity|].
  repeat constructor; discriminate.
Qed.
