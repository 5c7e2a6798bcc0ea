(** * Claims about slices of nodes (C61). *)
From Coq Require Import String List ZArith Bool Arith Lia.
From Verif Require Import Model.Base Model.Scalar Model.Value Model.Ast Model.Errors
  Model.Options Model.Interp Model.Surface Model.Translate Model.Pipeline Model.Extern
  Spec.StepSpec Spec.SurfaceSem Spec.ProgramSem Spec.SettledSem Spec.SafetySpec Spec.ExternSem Spec.ExternSettled Spec.SourceCausal Spec.ConstSpec Spec.Observe Spec.Slice
  Proofs.Slice Properties.Steps Properties.Translation Properties.Externs.
Import ListNotations.
Local Open Scope string_scope.
Local Open Scope list_scope.

(** When a node does not panic, a node with some of its outputs and the
    equations that they need gives the same values. *)
Theorem c61_slice : forall mode glob ext p l, result (pipeline p) = Some l -> default_mode p ->
  (forall x t, constant p x t -> glob x <> None) -> ordinary ext ->
  forall a b sn sn', In (a, XNode sn) p -> In (b, XNode sn') p -> slice sn sn' ->
  forall ins rows, length rows = length ins -> Forall (fun r => length r = length (declared (s_outputs sn))) rows ->
  declared (s_outputs sn') <> [] \/ Forall (fun v => first_is_nil v = false) ins ->
  xoutputs mode glob ext (items_of l) (s_name sn) ins = Ok (map tuple rows) ->
  xoutputs mode glob ext (items_of l) (s_name sn') ins =
    Ok (map (fun r => tuple (among (declared (s_outputs sn)) (declared (s_outputs sn')) r)) rows).
Proof. exact slice_runs. Qed.
Print Assumptions c61_slice.

(** With all the outputs and equations, in other orders, one of them panics when
    the other one does. *)
Theorem c61_alike : forall mode glob ext p l, result (pipeline p) = Some l -> default_mode p ->
  (forall x t, constant p x t -> glob x <> None) -> ordinary ext ->
  forall a b sn sn', In (a, XNode sn) p -> In (b, XNode sn') p -> slice sn sn' -> slice sn' sn ->
  forall ins, declared (s_outputs sn) <> [] \/ Forall (fun v => first_is_nil v = false) ins ->
  ((exists err, xoutputs mode glob ext (items_of l) (s_name sn) ins = Panic err) <->
   (exists err, xoutputs mode glob ext (items_of l) (s_name sn') ins = Panic err)).
Proof. exact slices_alike. Qed.
Print Assumptions c61_alike.

(** Two slices of a node, the second one being the node itself with its outputs
    exchanged:
<<
node full(x : int) returns (n, m : int); var d : int; let n = x + (0 fby n); d = 10 / x; m = d + n; tel
node part(x : int) returns (n : int); let n = x + (0 fby n); tel
node swap(x : int) returns (m, n : int); var d : int; let m = d + n; d = 10 / x; n = x + (0 fby n); tel
>>
    The converse of the first theorem is false: [full] divides by its input. *)
Definition c61_n : sstmt := def_ "n" (XBin (x_ "x") [(Add, XParen [XFby (i_ 0) [x_ "n"]] false)]).
Definition c61_d : sstmt := def_ "d" (XBin (i_ 10) [(Div, x_ "x")]).
Definition c61_m : sstmt := def_ "m" (XBin (x_ "d") [(Add, x_ "n")]).
Definition c61_full : snode := mkSNode "full" [on_ ["x"] BInt] [on_ ["n"; "m"] BInt] [on_ ["d"] BInt] [c61_n; c61_d; c61_m].
Definition c61_part : snode := mkSNode "part" [on_ ["x"] BInt] [on_ ["n"] BInt] [] [c61_n].
Definition c61_swap : snode := mkSNode "swap" [on_ ["x"] BInt] [on_ ["m"; "n"] BInt] [on_ ["d"] BInt] [c61_m; c61_d; c61_n].
Definition c61_src : sprog := [([], XNode c61_full); ([], XNode c61_part); ([], XNode c61_swap)].

Lemma c61_slices : slice c61_full c61_part /\ slice c61_full c61_swap /\ slice c61_swap c61_full.
Proof.
  split; [|split]; (split; [reflexivity|]; split; [intros y; cbn; tauto|]; split; [intros y; cbn; tauto|]).
  - intros s x [<-|[]]; cbn; tauto.
  - intros s x _ _. cbn. tauto.
  - intros s x _ _. cbn. tauto.
Qed.

Example c61_ex : exists l, result (pipeline c61_src) = Some l /\ default_mode c61_src /\
  xoutputs Checked noglob c48_total (items_of l) "full" (map vint [5; 2]%Z) = Ok (map tuple [[Defined (SInt 5); Defined (SInt 7)]; [Defined (SInt 7); Defined (SInt 12)]]) /\
  xoutputs Checked noglob c48_total (items_of l) "part" (map vint [5; 2]%Z) = Ok (map vint [5; 7]%Z) /\
  xoutputs Checked noglob c48_total (items_of l) "swap" (map vint [5; 2]%Z) = Ok (map tuple [[Defined (SInt 7); Defined (SInt 5)]; [Defined (SInt 12); Defined (SInt 7)]]) /\
  xoutputs Checked noglob c48_total (items_of l) "part" (map vint [5; 0]%Z) = Ok (map vint [5; 5]%Z) /\
  (exists err, xoutputs Checked noglob c48_total (items_of l) "full" (map vint [5; 0]%Z) = Panic err) /\
  exists err, xoutputs Checked noglob c48_total (items_of l) "swap" (map vint [5; 0]%Z) = Panic err.
Proof.
  destruct c61_slices as (S1 & S2 & S3).
  assert (D : default_mode c61_src) by (intros a sn [E|[E|[E|[]]]]; inversion E; subst; cbn; tauto).
  assert (K : forall x t, constant c61_src x t -> noglob x <> None)
    by (intros x t (a & [(e & [E|[E|[E|[]]]])|[E|[E|[E|[]]]]]); discriminate).
  assert (X : ordinary c48_total) by (intros x past v; unfold c48_total; destruct (String.eqb x "total"); split; discriminate).
  destruct (result (pipeline c61_src)) as [l|] eqn:H; [|vm_compute in H; discriminate H]. exists l.
  assert (Q : xoutputs Checked noglob c48_total (items_of l) "full" (map vint [5; 2]%Z) = Ok (map tuple [[Defined (SInt 5); Defined (SInt 7)]; [Defined (SInt 7); Defined (SInt 12)]]) /\
              xoutputs Checked noglob c48_total (items_of l) "part" (map vint [5; 0]%Z) = Ok (map vint [5; 5]%Z) /\
              exists err, xoutputs Checked noglob c48_total (items_of l) "full" (map vint [5; 0]%Z) = Panic err).
  { assert (H' := H). vm_compute in H'. inversion H'; subst l. split; [vm_compute; reflexivity|]. split; [vm_compute; reflexivity|]. eexists. vm_compute. reflexivity. }
  destruct Q as (Q1 & Q2 & Q3). split; [auto|]. split; [exact D|]. split; [exact Q1|].
  assert (I1 : In ([], XNode c61_full) c61_src) by (left; auto). assert (I2 : In ([], XNode c61_part) c61_src) by (right; left; auto).
  assert (I3 : In ([], XNode c61_swap) c61_src) by (right; right; left; auto).
  split; [apply (c61_slice Checked noglob c48_total c61_src l H D K X _ _ _ _ I1 I2 S1 (map vint [5; 2]%Z) [[Defined (SInt 5); Defined (SInt 7)]; [Defined (SInt 7); Defined (SInt 12)]]);
    [reflexivity|repeat constructor|left; discriminate|exact Q1]|].
  split; [apply (c61_slice Checked noglob c48_total c61_src l H D K X _ _ _ _ I1 I3 S2 (map vint [5; 2]%Z) [[Defined (SInt 5); Defined (SInt 7)]; [Defined (SInt 7); Defined (SInt 12)]]);
    [reflexivity|repeat constructor|left; discriminate|exact Q1]|].
  split; [exact Q2|]. split; [exact Q3|].
  apply (c61_alike Checked noglob c48_total c61_src l H D K X _ _ _ _ I1 I3 S2 S3); [left; discriminate|exact Q3].
Qed.
