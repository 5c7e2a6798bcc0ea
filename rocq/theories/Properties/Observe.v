(** * Claims about assertions and the outputs that observe them (C60). *)
From Coq Require Import String List ZArith Bool Arith Lia.
From Verif Require Import Model.Base Model.Scalar Model.Value Model.Ast Model.Errors
  Model.Options Model.Interp Model.Surface Model.Translate Model.Pipeline Model.Extern
  Spec.StepSpec Spec.SurfaceSem Spec.ProgramSem Spec.SettledSem Spec.SafetySpec Spec.ExternSem Spec.ExternSettled Spec.SourceCausal Spec.ConstSpec Spec.Observe
  Proofs.Observe Properties.Steps Properties.Translation Properties.Externs.
Import ListNotations.
Local Open Scope string_scope.
Local Open Scope list_scope.

(** A node with [assert e] gives some outputs if and only if the node with a
    further output [z = e] gives these outputs and [z] is always true. *)
Theorem c60_observed : forall mode glob ext p l, result (pipeline p) = Some l -> default_mode p ->
  (forall x t, constant p x t -> glob x <> None) -> ordinary ext ->
  forall a b sn sn', In (a, XNode sn) p -> In (b, XNode sn') p -> observed sn sn' ->
  forall ins rows, length rows = length ins -> Forall (fun r => length r = length (declared (s_outputs sn))) rows ->
  declared (s_outputs sn) <> [] \/ Forall (fun v => first_is_nil v = false) ins ->
  (xoutputs mode glob ext (items_of l) (s_name sn) ins = Ok (map tuple rows) <->
   xoutputs mode glob ext (items_of l) (s_name sn') ins = Ok (map (fun p => and_true (fst p) (snd p)) (combine ins rows))).
Proof. exact observed_runs. Qed.
Print Assumptions c60_observed.

(** The node with the assertion panics on inputs on which the other one does
    not, if and only if [z] is not true (false, or nil) at some instant that has
    inputs. *)
Theorem c60_fails : forall mode glob ext p l, result (pipeline p) = Some l -> default_mode p ->
  (forall x t, constant p x t -> glob x <> None) -> ordinary ext ->
  forall a b sn sn', In (a, XNode sn) p -> In (b, XNode sn') p -> observed sn sn' ->
  forall ins rows, length rows = length ins -> Forall (fun r => length r = S (length (declared (s_outputs sn)))) rows ->
  declared (s_outputs sn) <> [] \/ Forall (fun v => first_is_nil v = false) ins ->
  xoutputs mode glob ext (items_of l) (s_name sn') ins = Ok (map tuple rows) ->
  ((exists err, xoutputs mode glob ext (items_of l) (s_name sn) ins = Panic err) <->
   exists v r, In (v, r) (combine ins rows) /\ first_is_nil v = false /\ last r Nil <> Defined (SBool true)).
Proof. exact observed_fails. Qed.
Print Assumptions c60_fails.

(** All the outputs have the shape that these theorems suppose. *)
Theorem c60_rows : forall mode glob ext p l, result (pipeline p) = Some l -> default_mode p ->
  (forall x t, constant p x t -> glob x <> None) -> ordinary ext ->
  forall a sn ins outs, In (a, XNode sn) p -> xoutputs mode glob ext (items_of l) (s_name sn) ins = Ok outs ->
  declared (s_outputs sn) <> [] \/ Forall (fun v => first_is_nil v = false) ins ->
  exists rows, length rows = length ins /\ Forall (fun r => length r = length (declared (s_outputs sn))) rows /\ outs = map tuple rows.
Proof. exact output_rows. Qed.
Print Assumptions c60_rows.

(** A counter that must remain below ten, and its observer:
<<
node sum(x : int) returns (n : int); let n = x + (0 fby n); assert n < 10; tel
node watch(x : int) returns (n : int; ok : bool); let n = x + (0 fby n); ok = n < 10; tel
>> *)
Definition c60_def : sstmt := def_ "n" (XBin (x_ "x") [(Add, XParen [XFby (i_ 0) [x_ "n"]] false)]).
Definition c60_low : sexpr := XCmp (x_ "n") [(Lt, i_ 10)].
Definition c60_sum : snode := mkSNode "sum" [on_ ["x"] BInt] [on_ ["n"] BInt] [] [c60_def; XAssert c60_low].
Definition c60_watch : snode := mkSNode "watch" [on_ ["x"] BInt] [on_ ["n"] BInt; on_ ["ok"] BBool] [] [c60_def; def_ "ok" c60_low].
Definition c60_src : sprog := [([], XNode c60_sum); ([], XNode c60_watch)].
Definition c60_row (n : Z) (b : bool) : list nillable := [Defined (SInt n); Defined (SBool b)].

Example c60_ex : exists l, result (pipeline c60_src) = Some l /\ default_mode c60_src /\ observed c60_sum c60_watch /\
  xoutputs Checked noglob c48_total (items_of l) "watch" (map vint [5; 4]%Z) = Ok (map tuple [c60_row 5 true; c60_row 9 true]) /\
  xoutputs Checked noglob c48_total (items_of l) "sum" (map vint [5; 4]%Z) = Ok (map vint [5; 9]%Z) /\
  xoutputs Checked noglob c48_total (items_of l) "watch" (map vint [5; 4; 3]%Z) = Ok (map tuple [c60_row 5 true; c60_row 9 true; c60_row 12 false]) /\
  exists err, xoutputs Checked noglob c48_total (items_of l) "sum" (map vint [5; 4; 3]%Z) = Panic err.
Proof.
  assert (O : observed c60_sum c60_watch).
  { apply (observed_intro "sum" "watch" [on_ ["x"] BInt] [on_ ["n"] BInt] [on_ ["n"] BInt; on_ ["ok"] BBool] [] "ok" c60_low [c60_def] []).
    - reflexivity.
    - cbn. intuition discriminate.
    - intros s [<-|[<-|[]]]; cbn; intuition discriminate. }
  assert (D : default_mode c60_src) by (intros a sn [E|[E|[]]]; inversion E; subst; cbn; tauto).
  assert (K : forall x t, constant c60_src x t -> noglob x <> None)
    by (intros x t (a & [(e & [E|[E|[]]])|[E|[E|[]]]]); discriminate).
  assert (X : ordinary c48_total) by (intros x past v; unfold c48_total; destruct (String.eqb x "total"); split; discriminate).
  destruct (result (pipeline c60_src)) as [l|] eqn:H; [|vm_compute in H; discriminate H]. exists l.
  assert (Q : xoutputs Checked noglob c48_total (items_of l) "watch" (map vint [5; 4]%Z) = Ok (map tuple [c60_row 5 true; c60_row 9 true]) /\
              xoutputs Checked noglob c48_total (items_of l) "watch" (map vint [5; 4; 3]%Z) = Ok (map tuple [c60_row 5 true; c60_row 9 true; c60_row 12 false])).
  { assert (H' := H). vm_compute in H'. inversion H'; subst l. split; vm_compute; reflexivity. }
  destruct Q as [Q1 Q2]. split; [auto|]. split; [exact D|]. split; [exact O|]. split; [exact Q1|]. split.
  - apply (c60_observed Checked noglob c48_total c60_src l H D K X [] [] c60_sum c60_watch (or_introl eq_refl) (or_intror (or_introl eq_refl)) O
      (map vint [5; 4]%Z) [[Defined (SInt 5)]; [Defined (SInt 9)]]); [reflexivity|repeat constructor|left; discriminate|exact Q1].
  - split; [exact Q2|].
    apply (c60_fails Checked noglob c48_total c60_src l H D K X [] [] c60_sum c60_watch (or_introl eq_refl) (or_intror (or_introl eq_refl)) O
      (map vint [5; 4; 3]%Z) [c60_row 5 true; c60_row 9 true; c60_row 12 false]); [reflexivity|repeat constructor|left; discriminate|exact Q2|].
    exists (vint 3), (c60_row 12 false). split; [cbn; auto|]. split; [reflexivity|discriminate].
Qed.
