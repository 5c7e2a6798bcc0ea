(** * The floats of a run are 64-bit floats. *)
From Coq Require Import String List ZArith Bool Reals.
From Coq Require Import Floats.SpecFloat.
From Verif Require Import Model.Base Model.Scalar Model.Value Model.Ast Model.Errors Model.Interp Model.Surface Model.Pipeline
  Spec.ProgramSem Spec.SourceCausal Spec.RangeSpec Spec.FloatSpec Proofs.Floats Proofs.Closed.

Lemma floats_closed : forall mode, closed_under mode float_range.
Proof.
  intros mode. constructor; cbn; auto.
  - intros [|] [z|f|b|] s A E; cbn in E; try discriminate; inversion E; subst; cbn; auto.
    + unfold i64_result in E. destruct (in_i64 _); [|destruct mode]; inversion E; cbn; auto.
    + destruct (float_negated mode f) as (g & G & _ & _ & _ & _ & V). cbn in G. injection G as <-. auto.
  - intros op a b s A B E. destruct a as [x|x|x|], b as [y|y|y|]; try discriminate.
    + assert (K : exists z, s = SInt z); [|destruct K as (z & ->); exact I].
      destruct op; cbn in E; unfold i64_result, i64_div, i64_rem in E;
        repeat match type of E with (if ?c then _ else _) = _ => destruct c | match ?c with _ => _ end = _ => destruct c end; inversion E; eauto.
    + cbn in A, B. assert (F : exists f, fop op x y = Some f /\ s = SFloat f) by (destruct op; cbn in E; inversion E; eexists; split; reflexivity).
      destruct F as (f & F & ->). exact (fop_valid _ _ _ _ F A B).
    + destruct op; inversion E; exact I.
Qed.

Lemma run_floats : forall mode glob, (forall x s, glob x = Some s -> float_range s) ->
  forall p l, result (pipeline p) = Some l ->
  (forall sn i s, In sn (source_nodes p) -> In i (s_defs sn) -> In s (literal_values (right_side i)) -> float_range s) ->
  forall f i ins outs i', init_inst (nodes_of l) f = Ok i -> run mode glob (nodes_of l) f i ins = Ok (outs, i') ->
  Forall (every float_range) ins -> Forall (every float_range) outs.
Proof. intros mode glob Hg p l R L. exact (run_closed mode float_range (floats_closed mode) glob Hg p l R L). Qed.
