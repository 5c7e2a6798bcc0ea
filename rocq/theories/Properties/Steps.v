(** * Claims about step functions of arbitrary programs (C08, C09, C10, C26, C36). *)
From Coq Require Import String List ZArith Bool Arith.
From Verif Require Import Model.Base Model.Scalar Model.Value Model.History Model.Register Model.Ast Model.Interp
  Spec.RuntimeSpec Spec.StepSpec Proofs.InterpBasics Proofs.StepProofs.
Import ListNotations.
Open Scope string_scope.

(** A small program used in the examples:
<<
node count() returns (n : int); let n = 0 fby n + 1; tel
node top(b : bool; k : int) returns (y : int); let y = if b then count() else count() + k; tel
>> *)
Definition v_ (x : ident) (d : nat) (t : base) : tyvar := mkVar x t CImplicit d.
Definition lit_ (z : Z) : expr := ELit (LInt z).
Definition ex_count : node :=
  mkNode "count" [] [v_ "n" 1 BInt] [] []
    [SLet (VTSingle "n") (ELater 0 (lit_ 0) (EBin Add (EVar "n" 1) (lit_ 1)))] [] 0.
Definition ex_top : node :=
  mkNode "top" [v_ "b" 0 BBool; v_ "k" 0 BInt] [v_ "y" 0 BInt] [] ["count"; "count"]
    [SLet (VTSingle "y")
       (EIf (EVar "b" 0) (ESub 0 0 (ETuple [])) (EBin Add (ESub 0 1 (ETuple [])) (EVar "k" 0)))] [] 0.
Definition ex_prog : prog := [ex_top; ex_count].
Definition noglob : ident -> option scalar := fun _ => None.
Definition vint (z : Z) : val := VS (Defined (SInt z)).
Definition vbool (b : bool) : val := VS (Defined (SBool b)).
Definition run0 (p : prog) (f : ident) (ins : list val) : res (list val) :=
  i <- init_inst p f;; '(os, _) <- run Checked noglob p f i ins;; Ok os.

Example ex_run :
  run0 ex_prog "top" [VT [vbool true; vint 100]; VT [VS Nil; vint 0]; VT [vbool false; vint 100];
                      VT [vbool true; vint 100]]
  = Ok [vint 0; VS Nil; vint 101; vint 2].
Proof. reflexivity. Qed.

(** ** C08 *)
(** An absent call changes nothing in the instance (which contains its
    sub-instances), never panics, and returns nil everywhere. *)
Theorem c08_absent : forall mode glob p f nd callees i v,
  find_node p f = Some (nd, callees) -> lacking v ->
  exists o, step mode glob p f i v = Ok (o, i) /\ ~ has_defined o /\
            same_shape o (vars_nil (n_outputs nd)).
Proof. exact absent_lacking. Qed.
Print Assumptions c08_absent.

(** The first component, and only it, decides whether an instant is absent. *)
Theorem c08_first : forall v, first_is_nil v = true <-> lacking v.
Proof. exact first_lacking. Qed.
Print Assumptions c08_first.

Example c08_ex : exists i,
  init_inst ex_prog "top" = Ok i /\
  step Checked noglob ex_prog "top" i (VT [VS Nil; vint 3]) = Ok (VS Nil, i).
Proof. eexists; split; reflexivity. Qed.

(** ** C09 *)
Theorem c09_stutter : forall mode glob p f nd callees ins i,
  find_node p f = Some (nd, callees) ->
  run mode glob p f i ins =
  ('(os, i') <- run mode glob p f i (filter (fun v => negb (first_is_nil v)) ins);;
   Ok (weave (vars_nil (n_outputs nd)) ins os, i')).
Proof. exact stutter. Qed.
Print Assumptions c09_stutter.

(** Consequence: two input sequences with the same present instants give the
    same outputs on these instants and the same final state. *)
Theorem c09_same_present : forall mode glob p f nd callees ins1 ins2 i os1 os2 i1 i2,
  find_node p f = Some (nd, callees) ->
  filter (fun v => negb (first_is_nil v)) ins1 = filter (fun v => negb (first_is_nil v)) ins2 ->
  run mode glob p f i ins1 = Ok (os1, i1) -> run mode glob p f i ins2 = Ok (os2, i2) ->
  i1 = i2 /\ present_outputs ins1 os1 = present_outputs ins2 os2.
Proof. exact same_present. Qed.
Print Assumptions c09_same_present.

Example c09_ex :
  run0 ex_prog "top" [VT [vbool true; vint 0]; VT [VS Nil; VS Nil]; VT [VS Nil; vint 7]; VT [vbool true; vint 0]]
  = Ok [vint 0; VS Nil; VS Nil; vint 1] /\
  run0 ex_prog "top" [VT [vbool true; vint 0]; VT [vbool true; vint 0]] = Ok [vint 0; vint 1].
Proof. split; reflexivity. Qed.

(** ** C10 *)
(** Evaluating an expression modifies only the instances of the call sites (and
    the flips) that occur in it. *)
Theorem c10_frame : forall mode glob clk hists call nilout regs st e s v s',
  eval mode glob clk hists call nilout regs st e s = Ok (v, s') ->
  framed (calls_of e) (flips_of e) s s'.
Proof. exact eval_frame. Qed.
Print Assumptions c10_frame.

(** Two disjoint expressions commute: they have the same values and the same
    final states in either order. *)
Theorem c10_commute : forall mode glob clk hists call nilout regs st a b s va sa vb sb,
  (forall x, In x (calls_of a) -> ~ In x (calls_of b)) ->
  (forall x, In x (flips_of a) -> ~ In x (flips_of b)) ->
  eval mode glob clk hists call nilout regs st a s = Ok (va, sa) ->
  eval mode glob clk hists call nilout regs st b sa = Ok (vb, sb) ->
  exists sb', eval mode glob clk hists call nilout regs st b s = Ok (vb, sb') /\
              eval mode glob clk hists call nilout regs st a sb' = Ok (va, sb).
Proof. exact eval_commute. Qed.
Print Assumptions c10_commute.

Example c10_ex :
  calls_of (EBin Add (ESub 0 0 (ETuple [])) (ESub 0 1 (ETuple []))) = [0; 1] /\
  run0 ex_prog "top" [VT [vbool false; vint 0]; VT [vbool true; vint 0]; VT [vbool false; vint 5]]
  = Ok [vint 0; vint 1; vint 7].
Proof. split; reflexivity. Qed.

(** ** C26 *)
Theorem c26_finite : forall mode glob p f n fuel i,
  init_inst p f = Ok i -> n <> 0 ->
  exists r, main_fn mode glob p f n fuel = Some r /\
  (forall i', r = Ok i' <->
    exists os, run mode glob p f i (repeat (VS (Defined SUnit)) n) = Ok (os, i') /\
      length os = n /\ forall o, In o os -> ~ has_nil o).
Proof. exact main_finite. Qed.
Print Assumptions c26_finite.

Theorem c26_infinite : forall mode glob p f fuel,
  (forall i', main_fn mode glob p f 0 fuel <> Some (Ok i')) /\
  (forall i, init_inst p f = Ok i ->
    (main_fn mode glob p f 0 fuel = None <-> exists i', main_for mode glob p f fuel i = Ok i')).
Proof. exact main_infinite. Qed.
Print Assumptions c26_infinite.

Example c26_ex : exists i,
  main_fn Checked noglob ex_prog "count" 3 0 = Some (Ok i) /\ i_clock i = 3.
Proof. eexists; split; reflexivity. Qed.
(** A node whose output is nil at the second instant makes [main] panic there. *)
Example c26_ex_panic :
  let m := mkNode "m" [] [v_ "o" 0 BInt] [v_ "z" 2 BInt] []
     [SLet (VTSingle "z") (lit_ 5); SLet (VTSingle "o") (ELater 0 (lit_ 0) (EVar "z" 2))] [] 0 in
  (exists i, main_fn Checked noglob [m] "m" 1 0 = Some (Ok i)) /\
  main_fn Checked noglob [m] "m" 2 0 = Some (Panic PUnwrapNil) /\
  main_fn Checked noglob [m] "m" 0 9 = Some (Panic PUnwrapNil).
Proof. split; [eexists|split]; reflexivity. Qed.

(** ** C36 *)
Theorem c36_if_evaluates_both : forall mode glob clk hists call nilout regs st c y n s v s',
  eval mode glob clk hists call nilout regs st (EIf c y n) s = Ok (v, s') ->
  exists vy s1 vn s2 vc,
    eval mode glob clk hists call nilout regs st y s = Ok (vy, s1) /\
    eval mode glob clk hists call nilout regs st n s1 = Ok (vn, s2) /\
    eval mode glob clk hists call nilout regs st c s2 = Ok (vc, s') /\
    (vc = VS (Defined (SBool true)) /\ v = vy \/
     vc = VS (Defined (SBool false)) /\ v = vn \/
     vc = VS Nil /\ ~ has_defined v /\ same_shape vy v).
Proof. exact if_both. Qed.
Print Assumptions c36_if_evaluates_both.

(** A guard does not protect: the condition is false but the untaken branch
    divides by zero and the step panics. *)
Theorem c36_guard_no_protection : exists nd v,
  n_stmts nd = [SLet (VTSingle "y")
    (EIf (ECmp Eq (EVar "x" 0) (lit_ 0)) (lit_ 0) (EBin Div (lit_ 1) (EVar "x" 0)))] /\
  step Checked noglob [nd] (n_name nd) (Inst 0 [] [] [] []) v = Panic PDivZero.
Proof. exact guard_refuted. Qed.
Print Assumptions c36_guard_no_protection.
