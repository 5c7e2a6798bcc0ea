(** First facts about the execution of programs with extern nodes. *)
From Coq Require Import String List ZArith Bool Arith Lia.
From Coq Require Import Floats.SpecFloat.
From Verif Require Import Model.Base Model.Scalar Model.Value Model.History Model.Register Model.Ast Model.Interp Model.Options Model.Pipeline Model.Trace Model.Extern
  Spec.StepSpec Proofs.AstInd Proofs.InterpBasics Proofs.Traces Proofs.Wrappers.
Import ListNotations.

(** ** Calls that answer the same *)
Section Same.
  Variable mode : ovf.
  Variable glob : ident -> option scalar.
  Variables call call' : nat -> inst -> val -> res (val * inst).
  Variables nilout nilout' : nat -> res val.
  Hypothesis C : forall id i v, call id i v = call' id i v.
  Hypothesis N : forall id, nilout id = nilout' id.

  Lemma eval_ext : forall clk hists regs st e s,
    eval mode glob clk hists call nilout regs st e s = eval mode glob clk hists call' nilout' regs st e s.
  Proof.
    intros clk hists regs st. induction e using expr_ind'; intros s; cbn [eval]; auto;
      repeat match goal with
      | H : forall s, eval _ _ _ _ _ _ _ _ ?e s = _ |- context [eval _ _ _ _ call _ _ _ ?e ?s] => rewrite (H s)
      | |- context [bind (eval _ _ _ _ call' ?n ?r ?t ?e ?s) _] => destruct (eval mode glob clk hists call' n r t e s) as [[? ?]|]; cbn [bind]; auto
      end; auto.
    - assert (X : forall s, (fix evals (l : list expr) (s : estate) : res (list val * estate) :=
             match l with
             | [] => Ok ([], s)
             | e :: l => '(v, s) <- eval mode glob clk hists call nilout regs st e s;; '(vs, s) <- evals l s;; Ok (v :: vs, s)
             end) l s = (fix evals (l : list expr) (s : estate) : res (list val * estate) :=
             match l with
             | [] => Ok ([], s)
             | e :: l => '(v, s) <- eval mode glob clk hists call' nilout' regs st e s;; '(vs, s) <- evals l s;; Ok (v :: vs, s)
             end) l s).
      { clear s. induction H as [|e l He Hl IH]; intros s; auto. rewrite He. destruct (eval mode glob clk hists call' nilout' regs st e s) as [[? ?]|]; cbn [bind]; auto. rewrite IH. auto. }
      rewrite X. auto.
    - destruct (d <=? clk); [|rewrite N; auto]. destruct (of_option _ _); cbn [bind]; auto. rewrite C. auto.
    - rewrite N. auto.
  Qed.
  Lemma exec_ext : forall clk hists s ss, exec mode glob clk hists call nilout s ss = exec mode glob clk hists call' nilout' s ss.
  Proof.
    intros clk hists [t e|e|id v k|id e] [st regs es]; cbn [exec].
    - rewrite eval_ext. auto.
    - rewrite eval_ext. auto.
    - destruct (of_option PType k); cbn [bind]; auto. destruct (of_option PType _); cbn [bind]; auto. rewrite eval_ext.
      destruct (eval _ _ _ _ _ _ _ _ _ _) as [[? ?]|]; cbn [bind]; auto. destruct (as_scalar _); cbn [bind]; auto. destruct (reg_with_clock _ _); cbn [bind]; auto.
      destruct v; auto. rewrite eval_ext. auto.
    - destruct (of_option PType _); cbn [bind]; auto. rewrite eval_ext. auto.
  Qed.
  Lemma execs_ext : forall clk hists l ss, execs mode glob clk hists call nilout l ss = execs mode glob clk hists call' nilout' l ss.
  Proof. induction l as [|s l IH]; intros ss; cbn [execs]; auto. rewrite exec_ext. destruct (exec _ _ _ _ _ _ _ _); cbn [bind]; auto. Qed.
  Lemma node_step_ext : forall nd i v, node_step mode glob call nilout nd i v = node_step mode glob call' nilout' nd i v.
  Proof.
    intros nd [clk hists regs flips subs] v. unfold node_step. destruct (first_is_nil v); auto. destruct (bind_inputs _ _); cbn [bind]; auto. rewrite execs_ext. auto.
  Qed.
End Same.

(** ** One step of an extern node *)
Section Ext.
  Variables (b : behaviour) (x : ident) (ins outs : list tyvar).

  Lemma ext_past_inst : forall past clk, ext_past (ext_inst past clk) = past.
  Proof. reflexivity. Qed.

  Lemma xext_absent : forall past clk v, first_is_nil v = true -> xext b x ins outs (ext_inst past clk) v = Ok (vars_nil outs, ext_inst past clk).
  Proof. intros past clk v H. unfold xext, ext_step. rewrite ext_past_inst, H. reflexivity. Qed.

  Lemma xext_present : forall past clk v, first_is_nil v = false ->
    xext b x ins outs (ext_inst past clk) v =
    (st <- bind_inputs ins v;; w <- b past v;; st <- ext_bind outs w st;; o <- read_outputs outs st;;
     Ok (o, ext_inst (past ++ [v]) (S clk))).
  Proof.
    intros past clk v H. unfold xext, ext_step. rewrite ext_past_inst, H. change (i_clock (ext_inst past clk)) with clk.
    destruct (bind_inputs ins v) as [st|e]; [|reflexivity]. cbn [bind].
    unfold trace, ext_inner. destruct (b past v) as [w|e]; [|reflexivity]. cbn [bind].
    destruct outs as [|a outs']; [cbn; reflexivity|].
    change (ext_bind (a :: outs') w st) with (bind_target (VTMult (map (fun y => VTSingle (v_name y)) (a :: outs'))) w st).
    destruct (bind_target _ w st) as [st'|e] eqn:E; [|cbn [bind lift tbind tret fst snd map] in *; rewrite E; reflexivity].
    cbn [bind]. destruct (read_outputs (a :: outs') st') as [o|e] eqn:R; cbn [bind];
      unfold tbind, lift, tret; cbn [fst snd]; rewrite E; cbn [fst snd]; rewrite R; reflexivity.
  Qed.
End Ext.

(** ** Programs without extern nodes *)
Lemma items_closed : forall l, (forall o x i o', ~ In (DExtNode o x i o') l) -> items_of l = map INode (nodes_of l).
Proof.
  intros l H. unfold items_of, nodes_of. rewrite map_rev. f_equal. induction l as [|d l IH]; auto. cbn [flat_map]. rewrite map_app, IH.
  - destruct d; cbn; auto. exfalso. eapply H. left. reflexivity.
  - intros o x i o' J. eapply H. right. exact J.
Qed.
Lemma xinit_closed : forall P f, xinit (map INode P) f = init_inst P f.
Proof.
  induction P as [|nd P IH]; intros f; cbn [map xinit init_inst item_name]; auto. destruct (String.eqb f (n_name nd)); auto.
  assert (E : mapM (xinit (map INode P)) (n_blocks nd) = mapM (init_inst P) (n_blocks nd)); [|rewrite E; auto].
  induction (n_blocks nd) as [|g l IHl]; cbn; auto. rewrite IH, IHl. auto.
Qed.
Lemma xnil_closed : forall P f, xnil_outputs (map INode P) f = nil_outputs P f.
Proof. unfold xnil_outputs, nil_outputs. induction P as [|nd P IH]; intros f; cbn [map find_item find_node item_name]; auto. destruct (String.eqb f (n_name nd)); auto. Qed.

Lemma xstep_closed : forall mode glob ext P f i v, xstep mode glob ext (map INode P) f i v = step mode glob P f i v.
Proof.
  intros mode glob ext. induction P as [|nd P IH]; intros f i v; cbn [map xstep step item_name]; auto. destruct (String.eqb f (n_name nd)); auto.
  apply node_step_ext.
  - intros id i0 v0. destruct (nth_error (n_blocks nd) id); auto.
  - intros id. destruct (nth_error (n_blocks nd) id); cbn; auto using xnil_closed.
Qed.
Lemma xrun_closed : forall mode glob ext P f ins i, xrun mode glob ext (map INode P) f i ins = run mode glob P f i ins.
Proof.
  intros mode glob ext P f. induction ins as [|v ins IH]; intros i; cbn [xrun run]; auto. rewrite xstep_closed.
  destruct (step mode glob P f i v) as [[o i']|]; cbn [bind]; auto. rewrite IH. auto.
Qed.
