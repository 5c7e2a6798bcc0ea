(** * Vocabulary for the statements about traces. *)
From Coq Require Import String Ascii List ZArith Bool Arith.
From Coq Require Import Floats.SpecFloat.
From Verif Require Import Model.Base Model.Scalar Model.Value Model.Ast Model.Interp Model.Options Model.Causality Model.Names Model.Codegen Model.Trace
  Model.Surface Spec.SurfaceSem Spec.ProgramSem Spec.ClockSpec Spec.UniversalSem.
Import ListNotations.
Local Open Scope string_scope.

(** [t] is the text of the format string [s]: variables between braces are
    replaced, doubled braces are braces. *)
Inductive shown (env : ident -> option string) : string -> string -> Prop :=
| shown_end : shown env "" ""
| shown_char : forall c s t, c <> "{"%char -> c <> "}"%char -> shown env s t -> shown env (String c s) (String c t)
| shown_open : forall s t, shown env s t -> shown env ("{{" ++ s) ("{" ++ t)
| shown_close : forall s t, shown env s t -> shown env ("}}" ++ s) ("}" ++ t)
| shown_var : forall x v s t, is_ident x = true -> env x = Some v -> shown env s t ->
    shown env ("{" ++ x ++ "}" ++ s) (v ++ t).

(** What a format can mention: the variables [vars], and three more names unless
    a variable is called so. *)
Definition scope (fshow : spec_float -> string) (prefix : string) (name : ident) (clk : nat)
    (value : ident -> option nillable) (vars : list ident) (x : ident) : option string :=
  if existsb (String.eqb x) vars then option_map (show fshow) (value x)
  else if x =? "_clk" then Some (decimal clk)
  else if x =? "_this" then Some name
  else if x =? "_ext" then Some prefix
  else None.

(** A format with known names only. *)
Definition acceptable (names : list ident) (s : string) : Prop :=
  exists t, shown (fun x => if existsb (String.eqb x) names then Some "" else None) s t.

Definition special : list ident := ["_ext"; "_this"; "_clk"].

(** An equation of the node gives a value to [x]. *)
Definition assigned (nd : node) (x : ident) : Prop :=
  exists t e, In (SLet t e) (n_stmts nd) /\ In x (target_vars t).

(** The traces of a node compile: the first format mentions inputs, the second
    any variable, and every local variable has a value. *)
Definition printable (o : option trace_opt) (nd : node) : Prop :=
  match o with
  | None => True
  | Some (_, (ifmt, ofmt)) =>
      acceptable (special ++ map v_name (n_inputs nd)) (format_string "<-" ifmt (n_inputs nd)) /\
      acceptable (special ++ map v_name (n_inputs nd ++ n_locals nd ++ n_outputs nd)) (format_string "->" ofmt (n_outputs nd)) /\
      (forall x, In x (n_locals nd ++ n_outputs nd) -> assigned nd (v_name x))
  end.

(** The formats that are given mention known variables only, and the variables
    shown by default have usual names (not raw identifiers). *)
Definition formats_ok (o : option trace_opt) (nd : node) : Prop :=
  match o with
  | None => True
  | Some (_, (ifmt, ofmt)) =>
      (forall s, ifmt = TfStr s -> acceptable (special ++ map v_name (n_inputs nd))%list s) /\
      (forall s, ofmt = TfStr s -> acceptable (special ++ map v_name (n_inputs nd ++ n_locals nd ++ n_outputs nd))%list s) /\
      (ifmt = TfDefault -> forall x, In x (n_inputs nd) -> is_ident (v_name x) = true) /\
      (ofmt = TfDefault -> forall x, In x (n_outputs nd) -> is_ident (v_name x) = true)
  end.

(** The lines of one active step of a traced node: a first one with the inputs,
    those of the nodes it calls, a last one with all the variables. *)
Definition step_lines (fshow : spec_float -> string) (prefix : string) (o : trace_opt) (nd : node) (clk : nat)
    (ins outs : val) (body l : list line) : Prop :=
  let '(file, (ifmt, ofmt)) := o in
  exists first last start final,
    l = ((file, first) :: body ++ [(file, last)])%list /\
    (n_inputs nd = [] \/ row start (map v_name (n_inputs nd)) ins) /\
    shown (scope fshow prefix (n_name nd) clk start (map v_name (n_inputs nd))) (format_string "<-" ifmt (n_inputs nd)) first /\
    (forall x, In x (map v_name (n_inputs nd)) -> ~ assigned nd x -> final x = start x) /\
    row final (map v_name (n_outputs nd)) outs /\
    shown (scope fshow prefix (n_name nd) clk final (map v_name (n_inputs nd ++ n_locals nd ++ n_outputs nd)))
      (format_string "->" ofmt (n_outputs nd)) last.

(** [rho] gives the streams of the variables of [sn] on the present inputs [ins],
    with the outputs [outs]: they satisfy the equations. *)
Definition streams (mode : ovf) (glob : ident -> option scalar) (nodes : list snode) (sn : snode) (ins outs : list val)
    (rho : nat -> ident -> option nillable) : Prop :=
  length outs = length ins /\
  forall T v o, nth_error ins T = Some v -> nth_error outs T = Some o ->
    (declared (s_inputs sn) = [] \/ row (rho T) (declared (s_inputs sn)) v) /\
    (forall i, In i (s_defs sn) ->
      sstmt_holds mode glob (node_vars sn) rho (fun g args w => exists os, means mode glob nodes g args (os ++ [w])) (no_input nodes) T i) /\
    row (rho T) (declared (s_outputs sn)) o.

(** The same for a program whose nodes have each their mode. *)
Definition mstreams (mode : ovf) (glob : ident -> option scalar) (nodes : list (bool * snode)) (universal : bool) (sn : snode) (ins outs : list val)
    (rho : nat -> ident -> option nillable) : Prop :=
  length outs = length ins /\
  forall T v o, nth_error ins T = Some v -> nth_error outs T = Some o ->
    (declared (s_inputs sn) = [] \/ row (rho T) (declared (s_inputs sn)) v) /\
    (forall i, In i (s_defs sn) ->
      let F := fun g args w => exists os, mmeans mode glob nodes g args (os ++ [w])%list in
      if universal then ustmt_holds mode glob (node_vars sn) (declared_pace sn) rho F T i
      else sstmt_holds mode glob (node_vars sn) rho F (no_input (map snd nodes)) T i) /\
    row (rho T) (declared (s_outputs sn)) o.

(** Repeat any step function. *)
Fixpoint iterate {St : Type} (step : St -> val -> tres (val * St)) (s : St) (ins : list val) : tres (list val * St) :=
  match ins with
  | [] => tret ([], s)
  | v :: ins =>
      '(o, s) <~~ step s v;;
      '(os, s) <~~ iterate step s ins;;
      tret (o :: os, s)
  end.

(** The node that [f] stands for. *)
Fixpoint traced (p : tprog) (f : ident) : option (option trace_opt * node) :=
  match p with
  | [] => None
  | (o, nd) :: p => if f =? n_name nd then Some (o, nd) else traced p f
  end.

(** The same program where [f] has no trace. *)
Fixpoint mute (f : ident) (p : tprog) : tprog :=
  match p with
  | [] => []
  | (o, nd) :: p => if f =? n_name nd then (None, nd) :: p else (o, nd) :: mute f p
  end.

(** Number of active instants. *)
Definition actives (ins : list val) : nat := length (filter (fun v => negb (first_is_nil v)) ins).

(** The traces of an extern declaration compile. *)
Definition ext_printable (o : option trace_opt) (ins outs : list tyvar) : Prop :=
  match o with
  | None => True
  | Some (_, (ifmt, ofmt)) =>
      acceptable (special ++ map v_name ins) (format_string "<-" ifmt ins) /\
      acceptable (special ++ map v_name (ins ++ outs)) (format_string "->" ofmt outs)
  end.

(** The lines of one active step of a traced extern declaration: a first one with
    the inputs, those of what it refers to, a last one with inputs and outputs. *)
Definition ext_lines (fshow : spec_float -> string) (o : trace_opt) (name : ident) (ins outs : list tyvar) (clk : nat)
    (v r : val) (body l : list line) : Prop :=
  let '(file, (ifmt, ofmt)) := o in
  exists first last start final,
    l = ((file, first) :: body ++ [(file, last)])%list /\
    (ins = [] \/ row start (map v_name ins) v) /\
    shown (scope fshow "[ext] " name clk start (map v_name ins)) (format_string "<-" ifmt ins) first /\
    (forall x, ~ In x (map v_name outs) -> final x = start x) /\
    row final (map v_name outs) r /\
    shown (scope fshow "[ext] " name clk final (map v_name (ins ++ outs))) (format_string "->" ofmt outs) last.

(** The number written with these decimal digits, after [acc]. *)
Fixpoint number (acc : Z) (s : string) : option Z :=
  match s with
  | EmptyString => Some acc
  | String c s =>
      let d := Z.of_nat (nat_of_ascii c) - 48 in
      if ((0 <=? d) && (d <=? 9))%Z then number (10 * acc + d) s else None
  end%Z.

(** Decimal notation of a number: no needless zero in front. *)
Definition written_nat (s : string) (n : Z) : Prop :=
  number 0 s = Some n /\ s <> "" /\ (forall s', s = String "0" s' -> s' = "").
Definition written_int (s : string) (z : Z) : Prop :=
  if (z <? 0)%Z then exists s', s = String "-" s' /\ written_nat s' (- z) else written_nat s z.
