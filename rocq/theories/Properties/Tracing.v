(** * Claims about what traced nodes print (C47), and about wrappers of nodes (C46). *)
From Coq Require Import String Ascii List ZArith Bool Arith Permutation.
From Coq Require Import Floats.SpecFloat.
From Verif Require Import Model.Base Model.Scalar Model.Value Model.Ast Model.Errors Model.Interp Model.Options Model.Surface Model.Translate
  Model.Pipeline Model.Names Model.Codegen Model.Trace
  Spec.StepSpec Spec.SurfaceSem Spec.ProgramSem Spec.UniversalSem Spec.AttrSpec Spec.TraceSpec
  Proofs.TraceText Proofs.Traces Proofs.TraceProgram Proofs.TraceModed Proofs.Wrappers.
Import ListNotations.
Local Open Scope string_scope.
Local Open Scope list_scope.

(** ** C47 *)
(** The model of [format!] is: variables between braces, doubled braces, other
    characters. *)
Theorem c47_format : forall env s t, format env None s = Some t <-> shown (fun x => lookup x env) s t.
Proof. exact format_iff. Qed.
Print Assumptions c47_format.

(** A node is traced as its last attribute [#[trace]] says, and not if it has none. *)
Theorem c47_option : forall p l, result (pipeline p) = Some l ->
  (forall t nd, In (t, nd) (tnodes_of l) -> exists a sn es, In (a, XNode sn) p /\ s_name sn = n_name nd /\
    Forall2 AttrSpec.means a es /\ t = latest (traces es)) /\
  (forall a sn, In (a, XNode sn) p -> exists t nd es, In (t, nd) (tnodes_of l) /\ s_name sn = n_name nd /\
    Forall2 AttrSpec.means a es /\ t = latest (traces es)).
Proof. exact trace_option. Qed.
Print Assumptions c47_option.

(** An accepted program computes the same values and fails at the same steps
    with its traces as without them, if its formats mention variables that they
    can mention. *)
Theorem c47_transparent : forall fshow mode glob p l, result (pipeline p) = Some l ->
  (forall o nd, In (DNode o nd) l -> formats_ok (o_trace o) nd) ->
  (forall f i ins, snd (trun fshow mode glob (tnodes_of l) f i ins) = run mode glob (nodes_of l) f i ins) /\
  (forall f i n, snd (tmain_for fshow mode glob (tnodes_of l) f n i) = main_for mode glob (nodes_of l) f n i).
Proof. exact accepted_transparent. Qed.
Print Assumptions c47_transparent.

(** Whatever the formats, values that are computed are the same. *)
Theorem c47_results : forall fshow mode glob p f i ins r,
  snd (trun fshow mode glob p f i ins) = Ok r -> run mode glob (untraced p) f i ins = Ok r.
Proof. exact tres_ok. Qed.
Print Assumptions c47_results.

(** A run of a traced node of an accepted program prints, at each instant where
    it is active, a line with its inputs, then what the nodes it calls print,
    then a line with its variables.  What is shown is the streams that satisfy its
    equations, and the number of earlier active instants. *)
Theorem c47_streams : forall fshow mode glob p l f file ifmt ofmt nd i ins out outs i',
  result (pipeline p) = Some l ->
  (forall a sn, In (a, XNode sn) p -> ~ In "universal_pre" (map a_action a)) ->
  traced (tnodes_of l) f = Some (Some (file, (ifmt, ofmt)), nd) -> init_inst (nodes_of l) f = Ok i ->
  trun fshow mode glob (tnodes_of l) f i ins = (out, Ok (outs, i')) ->
  exists sn rho pouts ls, In sn (source_nodes p) /\ s_name sn = f /\
    streams mode glob (source_nodes p) sn (filter (fun v => negb (first_is_nil v)) ins) pouts rho /\
    outs = weave (absent_row (declared (s_outputs sn))) ins pouts /\
    out = concat ls /\ length ls = actives ins /\
    forall T l, nth_error ls T = Some l -> exists first body last, l = (file, first) :: body ++ [(file, last)] /\
      shown (scope fshow "      " f T (rho T) (declared (s_inputs sn))) (format_string "<-" ifmt (n_inputs nd)) first /\
      shown (scope fshow "      " f T (rho T) (declared (s_inputs sn) ++ declared (s_locals sn) ++ declared (s_outputs sn)))
        (format_string "->" ofmt (n_outputs nd)) last.
Proof. exact traces_show. Qed.
Print Assumptions c47_streams.

(** The same for programs where nodes have [#[universal_pre]], each one read in
    its own mode. *)
Theorem c47_moded : forall fshow mode glob p l f file ifmt ofmt nd i ins out outs i',
  result (pipeline p) = Some l ->
  traced (tnodes_of l) f = Some (Some (file, (ifmt, ofmt)), nd) -> init_inst (nodes_of l) f = Ok i ->
  trun fshow mode glob (tnodes_of l) f i ins = (out, Ok (outs, i')) ->
  exists universal sn rho pouts ls, In (universal, sn) (moded_nodes p) /\ s_name sn = f /\
    mstreams mode glob (moded_nodes p) universal sn (filter (fun v => negb (first_is_nil v)) ins) pouts rho /\
    outs = weave (absent_row (declared (s_outputs sn))) ins pouts /\
    out = concat ls /\ length ls = actives ins /\
    forall T l, nth_error ls T = Some l -> exists first body last, l = (file, first) :: body ++ [(file, last)] /\
      shown (scope fshow "      " f T (rho T) (declared (s_inputs sn))) (format_string "<-" ifmt (n_inputs nd)) first /\
      shown (scope fshow "      " f T (rho T) (declared (s_inputs sn) ++ declared (s_locals sn) ++ declared (s_outputs sn)))
        (format_string "->" ofmt (n_outputs nd)) last.
Proof. exact traces_moded. Qed.
Print Assumptions c47_moded.

(** In any mode, from any state: the lines between the first and the last one are
    those of the same program where this node has no trace. *)
Theorem c47_step : forall fshow mode glob p f o nd i v out r i',
  traced p f = Some (Some o, nd) -> NoDup (map v_name (n_inputs nd)) -> first_is_nil v = false ->
  tstep fshow mode glob p f i v = (out, Ok (r, i')) ->
  step_lines fshow "      " o nd (i_clock i) v r (fst (tstep fshow mode glob (mute f p) f i v)) out /\ i_clock i' = S (i_clock i).
Proof. exact tstep_lines. Qed.
Print Assumptions c47_step.

Theorem c47_run : forall fshow mode glob p f o nd ins i out outs i',
  traced p f = Some (Some o, nd) -> NoDup (map v_name (n_inputs nd)) ->
  trun fshow mode glob p f i ins = (out, Ok (outs, i')) ->
  exists ls, out = concat ls /\ length ls = length ins /\
    forall T v r l, nth_error ins T = Some v -> nth_error outs T = Some r -> nth_error ls T = Some l ->
      if first_is_nil v then l = []
      else exists body, step_lines fshow "      " o nd (i_clock i + actives (firstn T ins)) v r body l.
Proof. exact run_lines. Qed.
Print Assumptions c47_run.

(** An absent instant prints nothing. *)
Theorem c47_absent : forall fshow mode glob p f o nd i v, traced p f = Some (o, nd) -> first_is_nil v = true ->
  fst (tstep fshow mode glob p f i v) = [].
Proof. intros. erewrite tstep_absent; eauto. Qed.
Print Assumptions c47_absent.

(** Nothing is printed but on the outputs that the attributes choose; nothing at
    all without attributes. *)
Theorem c47_files : forall fshow mode glob p f i v file s, In (file, s) (fst (tstep fshow mode glob p f i v)) ->
  exists fmts nd, In (Some (file, fmts), nd) p.
Proof. exact traced_lines. Qed.
Print Assumptions c47_files.

(** The line with the inputs is there even if the step then fails, unless the
    inputs have another shape. *)
Theorem c47_first : forall fshow mode glob p f o nd i v,
  traced p f = Some (Some o, nd) -> printable (Some o) nd -> first_is_nil v = false ->
  fst (tstep fshow mode glob p f i v) = [] /\ (exists e, snd (tstep fshow mode glob p f i v) = Panic e /\ bind_inputs (n_inputs nd) v = Panic e) \/
  exists first rest start, fst (tstep fshow mode glob p f i v) = (fst o, first) :: rest /\
    bind_inputs (n_inputs nd) v = Ok start /\
    shown (scope fshow "      " (n_name nd) (i_clock i) (fun x => lookup x start) (map v_name (n_inputs nd))) (format_string "<-" (fst (snd o)) (n_inputs nd)) first.
Proof. exact first_line. Qed.
Print Assumptions c47_first.

(** The default format: [name <- (x=value, y=value)], if no variable has the name
    of a special one. *)
Theorem c47_default_partial : forall fshow prefix name clk value vars arrow l ns, (arrow = "<-" \/ arrow = "->") ->
  (forall x, In x l -> is_ident (v_name x) = true /\ In (v_name x) vars) ->
  Forall2 (fun x n => value (v_name x) = Some n) l ns ->
  (forall x, In x special -> ~ In x vars) ->
  shown (scope fshow prefix name clk value vars) (format_string arrow TfDefault l)
    (prefix ++ name ++ " " ++ arrow ++ " (" ++
     String.concat ", " (map (fun '(v, n) => v_name v ++ "=" ++ show fshow n) (combine l ns)) ++ ")" ++ newline)%string.
Proof. exact default_text. Qed.
Print Assumptions c47_default_partial.

(** What is shown of values: [nil], [true], [false] and decimal notation. *)
Theorem c47_values : forall fshow,
  show fshow Nil = "nil" /\ show fshow (Defined (SBool true)) = "true" /\ show fshow (Defined (SBool false)) = "false" /\
  (forall z, written_int (show fshow (Defined (SInt z))) z) /\ (forall n, written_nat (decimal n) (Z.of_nat n)).
Proof. intros fshow. exact (conj eq_refl (conj eq_refl (conj eq_refl (conj (int_text fshow) nat_text)))). Qed.
Print Assumptions c47_values.
Example c47_values_ex : written_int "-120" (-120) /\ written_int "0" 0 /\ ~ written_int "007" 7 /\ ~ written_int "12a" 12.
Proof.
  split; [exists "120"; split; [reflexivity|]; split; [reflexivity|]; split; [discriminate|]; intros s E; inversion E|].
  split; [split; [reflexivity|]; split; [discriminate|]; intros s E; inversion E; auto|].
  split; [intros (_ & _ & H); discriminate (H "07" eq_refl)|intros (H & _); discriminate H].
Qed.

(** A traced [extern node], around any [step] method: the same two lines, with
    the prefix [[ext] ]. *)
Theorem c47_extern : forall fshow (St : Type) (inner : St -> val -> tres (val * St)) o x ins outs s clk v l r s' clk',
  NoDup (map v_name ins) -> first_is_nil v = false ->
  ext_step fshow inner (Some o) x ins outs (s, clk) v = (l, Ok (r, (s', clk'))) ->
  ext_lines fshow o x ins outs clk v r (fst (inner s v)) l /\ clk' = S clk.
Proof. exact ext_step_lines. Qed.
Print Assumptions c47_extern.

(** ** Examples *)
Definition c47_none : spec_float -> string := fun _ => "?".
Definition c47_print (p : sprog) (f : ident) (n : nat) : option (string * bool) :=
  match result (pipeline p) with
  | Some l =>
      match init_inst (nodes_of l) f with
      | Ok i => let '(o, r) := tmain_for c47_none Checked (fun _ => None) (tnodes_of l) f n i in Some (written StdOut o, is_ok r)
      | Panic _ => None
      end
  | None => None
  end.
Definition c47_lines (l : list string) : string := String.concat newline l.

(** [src/lib.rs:527-556]: fizzbuzz. *)
Definition c47_int (z : Z) : sexpr := XLit (SLInt z).
Definition c47_word (name text : string) : sattrdecl := ([mkAttr "trace" [] [ALStr text]], XNode (mkSNode name [] [] [] [])).
Definition c47_mul (n : Z) : sexpr := XCmp (XParen [XBin (XVar "n") [(Scalar.Rem, c47_int n)]] false) [(Scalar.Eq, c47_int 0)].
Definition c47_fizzbuzz : sprog :=
  [c47_word "fizz" "Fizz"; c47_word "buzz" "Buzz"; c47_word "newline" newline;
   ([mkAttr "trace" [] [ALStr "{n}"]], XNode (mkSNode "id" [(["n"], (BInt, CImplicit))] [] [] []));
   ([mkAttr "main" [] [ALInt 30]], XNode (mkSNode "main" [] []
     [(["n"], (BInt, CImplicit)); (["div_3"; "div_5"; "div_either"], (BBool, CImplicit))]
     [XDef (TVar "n") (XFby (c47_int 1) [XBin (XVar "n") [(Scalar.Add, c47_int 1)]]);
      XDef (TVar "div_3") (c47_mul 3); XDef (TVar "div_5") (c47_mul 5);
      XDef (TVar "div_either") (XBin (XVar "div_3") [(Scalar.BitOr, XVar "div_5")]);
      XDef (TTuple [] false) (XCall "fizz" [XClock (XParen [] false) [(true, XVar "div_3")]] false);
      XDef (TTuple [] false) (XCall "buzz" [XClock (XParen [] false) [(true, XVar "div_5")]] false);
      XDef (TTuple [] false) (XCall "id" [XClock (XVar "n") [(false, XVar "div_either")]] false);
      XDef (TTuple [] false) (XCall "newline" [] false)]))].
Example c47_fizzbuzz_ex : c47_print c47_fizzbuzz "main" 16 =
  Some (c47_lines ["1"; "2"; "Fizz"; "4"; "Buzz"; "Fizz"; "7"; "8"; "Fizz"; "Buzz"; "11"; "Fizz"; "13"; "14"; "FizzBuzz"; "16"; ""], true).
Proof. vm_compute. reflexivity. Qed.

(**
<<
#[trace] node sum(x, y : int) returns (s : int); let s = x + y; tel
#[trace[stderr]("in {_clk}", "{{{a}}}")] node main() returns (); var a, n : int; let n = 0 fby n + 1; a = sum(n, -1); assert a < 1; tel
>>
    The assertion fails at the third instant, after the line of [sum]. *)
Definition c47_sum : sprog :=
  [([mkAttr "trace" [] []], XNode (mkSNode "sum" [(["x"; "y"], (BInt, CImplicit))] [(["s"], (BInt, CImplicit))] []
     [XDef (TVar "s") (XBin (XVar "x") [(Scalar.Add, XVar "y")])]));
   ([mkAttr "trace" ["stderr"] [ALStr "in {_clk}"; ALStr "{{{a}}}"]], XNode (mkSNode "main" [] [] [(["a"; "n"], (BInt, CImplicit))]
     [XDef (TVar "n") (XFby (c47_int 0) [XBin (XVar "n") [(Scalar.Add, c47_int 1)]]);
      XDef (TVar "a") (XCall "sum" [XVar "n"; XNeg (c47_int 1)] false);
      XAssert (XCmp (XVar "a") [(Scalar.Lt, c47_int 1)])]))].
Example c47_sum_ex : exists l i, result (pipeline c47_sum) = Some l /\ init_inst (nodes_of l) "main" = Ok i /\
  (forall o nd, In (DNode o nd) l -> formats_ok (o_trace o) nd) /\
  let '(o, r) := tmain_for c47_none Checked (fun _ => None) (tnodes_of l) "main" 5 i in
  r = Panic PAssert /\
  written StdErr o = "in 0{-1}in 1{0}in 2" /\
  written StdOut o = c47_lines ["      sum <- (x=0, y=-1)"; "      sum -> (s=-1)"; "      sum <- (x=1, y=-1)"; "      sum -> (s=0)";
                                "      sum <- (x=2, y=-1)"; "      sum -> (s=1)"; ""].
Proof.
  eexists _, _. split; [vm_compute; reflexivity|]. split; [vm_compute; reflexivity|]. split; [|vm_compute; auto].
  intros o nd [H|[H|[]]]; inversion H; subst; cbn [o_trace formats_ok]; (split; [|split; [|split]]); intros; try discriminate.
  - destruct H1 as [<-|[<-|[]]]; reflexivity.
  - destruct H1 as [<-|[]]; reflexivity.
  - inversion H0; subst. apply acceptable_check. eexists. vm_compute. reflexivity.
  - inversion H0; subst. apply acceptable_check. eexists. vm_compute. reflexivity.
Qed.

(** The same program: the hypotheses of [c47_streams], [c47_step] and [c47_run]. *)
Example c47_streams_ex : exists l i nd out outs i', result (pipeline c47_sum) = Some l /\
  (forall a sn, In (a, XNode sn) c47_sum -> ~ In "universal_pre" (map a_action a)) /\
  traced (tnodes_of l) "sum" = Some (Some (StdOut, (TfDefault, TfDefault)), nd) /\ NoDup (map v_name (n_inputs nd)) /\
  init_inst (nodes_of l) "sum" = Ok i /\
  trun c47_none Checked (fun _ => None) (tnodes_of l) "sum" i
    [VT [VS (Defined (SInt 3)); VS (Defined (SInt 4))]; VT [VS Nil; VS Nil]; VT [VS (Defined (SInt 5)); VS Nil]] = (out, Ok (outs, i')) /\
  outs = [VS (Defined (SInt 7)); VS Nil; VS Nil] /\
  written StdOut out = c47_lines ["      sum <- (x=3, y=4)"; "      sum -> (s=7)"; "      sum <- (x=5, y=nil)"; "      sum -> (s=nil)"; ""].
Proof.
  eexists _, _, _, _, _, _. split; [vm_compute; reflexivity|]. split.
  { intros a sn [H|[H|[]]]; inversion H; subst; cbn; intuition discriminate. }
  split; [vm_compute; reflexivity|]. split; [repeat constructor; cbn; intuition discriminate|].
  split; [vm_compute; reflexivity|]. split; [vm_compute; reflexivity|]. split; [reflexivity|vm_compute; reflexivity].
Qed.

(**
<<
#[universal_pre] #[trace("", "{_clk}: {p} {y}\n")]
node last(b : bool; x : int) returns (y : int); var p : int when b;
let p = (0 when b) fby (x when b); y = merge b p ((-1) whenot b); tel
>> *)
Definition c47_last : sprog :=
  [([mkAttr "universal_pre" [] []; mkAttr "trace" [] [ALStr ""; ALStr ("{_clk}: {p} {y}" ++ newline)]],
    XNode (mkSNode "last" [(["b"], (BBool, CImplicit)); (["x"], (BInt, CImplicit))] [(["y"], (BInt, CImplicit))]
      [(["p"], (BInt, CExplicit true "b"))]
      [XDef (TVar "p") (XFby (XParen [XClock (c47_int 0) [(true, XVar "b")]] false) [XParen [XClock (XVar "x") [(true, XVar "b")]] false]);
       XDef (TVar "y") (XMerge (XVar "b") (XVar "p") (XParen [XClock (XNeg (c47_int 1)) [(false, XVar "b")]] false))]))].
Example c47_moded_ex : exists l i nd out outs i', result (pipeline c47_last) = Some l /\
  traced (tnodes_of l) "last" = Some (Some (StdOut, (TfStr "", TfStr ("{_clk}: {p} {y}" ++ newline))), nd) /\
  init_inst (nodes_of l) "last" = Ok i /\
  trun c47_none Checked (fun _ => None) (tnodes_of l) "last" i
    (map (fun q : bool * Z => VT [VS (Defined (SBool (fst q))); VS (Defined (SInt (snd q)))]) [(true, 3); (false, 4); (true, 5); (true, 6)]%Z) = (out, Ok (outs, i')) /\
  written StdOut out = c47_lines ["0: 0 0"; "1: nil -1"; "2: 3 3"; "3: 5 5"; ""].
Proof.
  eexists _, _, _, _, _, _. split; [vm_compute; reflexivity|]. split; [vm_compute; reflexivity|].
  split; [vm_compute; reflexivity|]. split; [vm_compute; reflexivity|]. vm_compute. reflexivity.
Qed.

(** ** Refuted *)
(** README: [_ext] is nothing for a node that is not extern.  It is six blanks. *)
Definition c47_ext : sprog := [([mkAttr "trace" [] [ALStr "{_ext}"]; mkAttr "main" [] []], XNode (mkSNode "f" [] [] [] []))].
Theorem c47_ext_refuted : ~ (forall p f n text, (forall a d, In (a, d) p -> a = [mkAttr "trace" [] [ALStr "{_ext}"]; mkAttr "main" [] []]) ->
  c47_print p f n = Some (text, true) -> text = "").
Proof.
  intros H. specialize (H c47_ext "f" 1 "      "). discriminate H; [|vm_compute; reflexivity].
  intros a d [E|[]]. inversion E. auto.
Qed.
Print Assumptions c47_ext_refuted.

(** [_this] is the name of the node, unless a variable has this name. *)
Definition c47_shadow : sprog :=
  [([mkAttr "trace" [] [ALStr "{_this}"]; mkAttr "main" [] []],
    XNode (mkSNode "f" [] [] [(["_this"], (BInt, CImplicit))] [XDef (TVar "_this") (c47_int 5)]))].
Theorem c47_shadow_refuted : ~ (forall p f text, (forall a d, In (a, d) p -> a = [mkAttr "trace" [] [ALStr "{_this}"]; mkAttr "main" [] []]) ->
  c47_print p f 1 = Some (text, true) -> text = f).
Proof.
  intros H. specialize (H c47_shadow "f" "5"). discriminate H; [|vm_compute; reflexivity].
  intros a d [E|[]]. inversion E. auto.
Qed.
Print Assumptions c47_shadow_refuted.

(** ** C46, wrappers *)
(** The structure generated for an [extern node], around the exported structure of
    a node with as many inputs and outputs: same values, same failures, and the
    same lines if the declaration has no trace; its clock counts active instants. *)
Theorem c46_wrapped : forall fshow mode glob p f o1 nd, traced p f = Some (o1, nd) ->
  forall o x ins outs, length ins = length (n_inputs nd) -> length outs = length (n_outputs nd) ->
  NoDup (map v_name (ins ++ outs)) -> ext_printable o ins outs ->
  forall vs i clk,
  snd (iterate (ext_step fshow (export_step fshow mode glob p f (n_outputs nd)) o x ins outs) (i, clk) vs) =
    ('(rs, i') <- snd (trun fshow mode glob p f i vs);; Ok (rs, (i', clk + actives vs))) /\
  (o = None -> fst (iterate (ext_step fshow (export_step fshow mode glob p f (n_outputs nd)) o x ins outs) (i, clk) vs) =
    fst (trun fshow mode glob p f i vs)).
Proof. exact wrapped_run. Qed.
Print Assumptions c46_wrapped.

(** [#[trace] extern node sum(a, b : int) returns (c : int);] around [sum]. *)
Example c46_wrapped_ex : exists l i nd, result (pipeline c47_sum) = Some l /\ init_inst (nodes_of l) "sum" = Ok i /\
  traced (tnodes_of l) "sum" = Some (Some (StdOut, (TfDefault, TfDefault)), nd) /\
  let v x := mkVar x BInt CImplicit 0 in let ins := [v "a"; v "b"] in let outs := [v "c"] in
  let o : option trace_opt := Some (StdOut, (TfDefault, TfDefault)) in
  length ins = length (n_inputs nd) /\ length outs = length (n_outputs nd) /\ NoDup (map v_name (ins ++ outs)) /\ ext_printable o ins outs /\
  written StdOut (fst (iterate (ext_step c47_none (export_step c47_none Checked (fun _ => None) (tnodes_of l) "sum" (n_outputs nd)) o "sum" ins outs) (i, 0)
    [VT [VS (Defined (SInt 3)); VS (Defined (SInt 4))]])) =
  c47_lines ["[ext] sum <- (a=3, b=4)"; "      sum <- (x=3, y=4)"; "      sum -> (s=7)"; "[ext] sum -> (c=7)"; ""].
Proof.
  eexists _, _, _. split; [vm_compute; reflexivity|]. split; [vm_compute; reflexivity|]. split; [vm_compute; reflexivity|].
  cbv zeta. split; [reflexivity|]. split; [reflexivity|]. split; [repeat constructor; cbn; intuition discriminate|].
  split; [|vm_compute; reflexivity]. split; apply acceptable_check; eexists; vm_compute; reflexivity.
Qed.
