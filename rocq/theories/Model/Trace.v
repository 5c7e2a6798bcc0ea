(** * What the generated code prints: [#[trace]].

    [/repo/chandeliers-san/src/codegen/options.rs:78-141] puts a [print!] before
    and after the body of the step function of a node
    ([/repo/chandeliers-san/src/codegen/mod.rs:588-616], [866-883]).  This file
    executes the same operations as [Interp] and keeps what is printed.  The
    text of a float is a parameter (Rust's [Display for f64]). *)
From Coq Require Import String Ascii List ZArith Bool Arith DecimalString.
From Coq Require Import Floats.SpecFloat.
From Verif Require Import Model.Base Model.Scalar Model.Value Model.History Model.Register Model.Ast Model.Interp
  Model.Options Model.Names Model.Codegen.
Import ListNotations.

(** ** Computations that print *)

(** One call of [print!] or [eprint!]. *)
Definition line : Type := trace_file * string.

(** What was printed remains printed after a panic. *)
Definition tres (A : Type) : Type := list line * res A.
Definition lift {A} (r : res A) : tres A := ([], r).
Definition tret {A} (a : A) : tres A := ([], Ok a).
Definition tbind {A B} (x : tres A) (f : A -> tres B) : tres B :=
  match x with
  | (o, Ok a) => let '(o', r) := f a in (o ++ o', r)
  | (o, Panic p) => (o, Panic p)
  end.

Notation "x <~~ e ;; f" := (tbind e (fun x => f))
  (at level 61, e at next level, right associativity).
Notation "' pat <~~ e ;; f" := (tbind e (fun x => match x with pat => f end))
  (at level 61, pat pattern, e at next level, right associativity).

(** ** Text of values and format strings *)

Section Text.
  Variable fshow : spec_float -> string.

  (** [Display] of [i64], [bool] and [f64]; no variable has type [()]. *)
  Definition show_scalar (s : scalar) : string :=
    match s with
    | SInt z => NilEmpty.string_of_int (Z.to_int z)
    | SBool b => if b then "true" else "false"
    | SFloat f => fshow f
    | SUnit => "()"
    end%string.

  (** nillable.rs:39-47 *)
  Definition show (n : nillable) : string :=
    match n with Nil => "nil"%string | Defined s => show_scalar s end.

  (** Rust's [format!] with captured variables [{x}], and [{{] and [}}] for braces.
      [hole] is the text read since the last opening brace.  [None] is a text that
      rustc refuses. Simplification: positional arguments, format specifications
      [{x:5}] and blanks inside braces are left out (they are [None] too). *)
  Fixpoint format (env : list (ident * string)) (hole : option string) (s : string) : option string :=
    match s, hole with
    | EmptyString, None => Some ""%string
    | EmptyString, Some _ => None
    | String c s', None =>
        if Ascii.eqb c "{" then
          match s' with
          | String c' s'' =>
              if Ascii.eqb c' "{" then option_map (String "{") (format env None s'')
              else format env (Some ""%string) s'
          | EmptyString => None
          end
        else if Ascii.eqb c "}" then
          match s' with
          | String c' s'' => if Ascii.eqb c' "}" then option_map (String "}") (format env None s'') else None
          | EmptyString => None
          end
        else option_map (String c) (format env None s')
    | String c s', Some x =>
        if Ascii.eqb c "}" then
          if is_ident x then
            match lookup x env with
            | Some v => option_map (String.append v) (format env None s')
            | None => None
            end
          else None
        else format env (Some (x ++ String c EmptyString)%string) s'
    end.

  (** codegen/mod.rs:770-776 [fmt_strings] *)
  Definition fmt_strings (l : list tyvar) : string :=
    ("(" ++ String.concat ", " (map (fun v => v_name v ++ "={" ++ v_name v ++ "}") l) ++ ")")%string.

  Definition newline : string := String (ascii_of_nat 10) EmptyString.

  (** options.rs:98-107 *)
  Definition format_string (arrow : string) (f : trace_format) (l : list tyvar) : string :=
    match f with
    | TfDefault => ("{_ext}{_this} " ++ arrow ++ " " ++ fmt_strings l ++ newline)%string
    | TfEmpty => ""%string
    | TfStr s => s
    end.

  (** options.rs:112-135, codegen/mod.rs:757-766: the variables that a format can
      mention, latest first. *)
  Definition trace_env (prefix : string) (name : ident) (clk : nat) (st : store) (l : list tyvar)
    : res (list (ident * string)) :=
    vs <- mapM (fun v => n <- of_option PUnbound (lookup (v_name v) st);; Ok (v_name v, show n)) l;;
    Ok (rev ([("_ext"%string, prefix); ("_this"%string, name); ("_clk"%string, decimal clk)] ++ vs)).

  (** [print!(fmt)] *)
  Definition print (file : trace_file) (fmt : string) (env : list (ident * string)) : tres unit :=
    match format env None fmt with
    | Some s => ([(file, s)], Ok tt)
    | None => ([], Panic PType)
    end.

  (** options.rs:112-135: the two blocks; [shown] is what the default format
      shows, [known] the variables that are assigned. *)
  Definition trace (o : option trace_opt) (before : bool) (prefix : string) (name : ident) (clk : nat)
      (st : store) (shown known : list tyvar) : tres unit :=
    match o with
    | None => tret tt
    | Some (file, (ifmt, ofmt)) =>
        env <~~ lift (trace_env prefix name clk st known);;
        print file (if before then format_string "<-" ifmt shown else format_string "->" ofmt shown) env
    end.
End Text.

(** ** Step functions *)

Section TEval.
  Variable mode : ovf.
  Variable glob : ident -> option scalar.
  Variable clk : nat.
  Variable hists : list (ident * hist).
  Variable call : nat -> inst -> val -> tres (val * inst).
  Variable nilout : nat -> res val.

  Section TExpr.
    Variable regs : list register.
    Variable st : store.

    (** [Interp.eval]: codegen/mod.rs:1077-1165, candle.rs.  Only calls print. *)
    Fixpoint teval (e : expr) (s : estate) {struct e} : tres (val * estate) :=
      match e with
      | ELit l => tret (VS (Defined (lit_scalar l)), s)
      | EVar x 0 => n <~~ lift (of_option PUnbound (lookup x st));; tret (VS n, s)
      | EVar x (S d) =>
          h <~~ lift (of_option PPast (lookup x hists));;
          n <~~ lift (ago h (S d));; tret (VS n, s)
      | EGlobal x => g <~~ lift (of_option PUnbound (glob x));; tret (VS (Defined g), s)
      | ETuple l =>
          '(vs, s) <~~ (fix tevals (l : list expr) (s : estate) : tres (list val * estate) :=
             match l with
             | [] => tret ([], s)
             | e :: l =>
                 '(v, s) <~~ teval e s;;
                 '(vs, s) <~~ tevals l s;;
                 tret (v :: vs, s)
             end) l s;;
          tret (tuple_val vs, s)
      | EPre e => teval e s
      | EParen e => teval e s
      | EBin op a b =>
          '(x, s) <~~ teval a s;; '(y, s) <~~ teval b s;;
          r <~~ lift (val_bin mode op x y);; tret (r, s)
      | EUn op a => '(x, s) <~~ teval a s;; r <~~ lift (val_un mode op x);; tret (r, s)
      | ECmp op a b =>
          '(x, s) <~~ teval a s;; '(y, s) <~~ teval b s;;
          r <~~ lift (val_cmp op x y);; tret (r, s)
      | EClock pos inner activate =>
          '(b, s) <~~ teval activate s;; '(x, s) <~~ teval inner s;;
          r <~~ lift (val_when pos b x);; tret (r, s)
      | ELater delay before after =>
          '(rhs, s) <~~ teval after s;;
          if delay <? clk then tret (rhs, s) else teval before s
      | EFetch id _ _ => r <~~ lift (of_option PType (nth_error regs id));; tret (reg_get r, s)
      | EFlip id initial continued =>
          '(i, s) <~~ teval initial s;;
          '(c, s) <~~ teval continued s;;
          f <~~ lift (of_option PType (nth_error (es_flips s) id));;
          let '(v, f) := flip_instant f i c in
          tret (v, mkEs (set_nth id f (es_flips s)) (es_subs s))
      | EIf c y n =>
          '(yes, s) <~~ teval y s;; '(no, s) <~~ teval n s;; '(b, s) <~~ teval c s;;
          r <~~ lift (val_ifx b yes no);; tret (r, s)
      | EMerge switch on off =>
          '(b, s) <~~ teval switch s;; '(x, s) <~~ teval on s;; '(y, s) <~~ teval off s;;
          '(b, s) <~~ teval switch s;;
          r <~~ lift (val_merge b x y);; tret (r, s)
      | ESub delay id args =>
          if delay <=? clk then
            '(a, s) <~~ teval args s;;
            sub <~~ lift (of_option PType (nth_error (es_subs s) id));;
            '(v, sub) <~~ call id sub a;;
            tret (v, mkEs (es_flips s) (set_nth id sub (es_subs s)))
          else
            v <~~ lift (nilout id);; tret (v, s)
      end.
  End TExpr.

  (** [Interp.exec]: codegen/mod.rs:1009-1045 *)
  Definition texec (s : stmt) (ss : sstate) : tres sstate :=
    let '(mkSs st regs es) := ss in
    match s with
    | SLet t e =>
        '(v, es) <~~ teval regs st e es;;
        st <~~ lift (bind_target t v st);;
        tret (mkSs st regs es)
    | SAssert e =>
        '(v, es) <~~ teval regs st e es;;
        _ <~~ lift (val_truth v);;
        tret (mkSs st regs es)
    | SUpdate id e =>
        r <~~ lift (of_option PType (nth_error regs id));;
        '(v, es) <~~ teval regs st e es;;
        if same_shapeb v (r_inner r) then
          tret (mkSs st (set_nth id (reg_schedule r v) regs) es)
        else lift (Panic PType)
    | SInit id value c =>
        c <~~ lift (of_option PType c);;
        r <~~ lift (of_option PType (nth_error regs id));;
        '(cv, es) <~~ teval regs st c es;;
        n <~~ lift (as_scalar cv);;
        r <~~ lift (reg_with_clock r n);;
        match value with
        | None => tret (mkSs st (set_nth id r regs) es)
        | Some e =>
            '(v, es) <~~ teval (set_nth id r regs) st e es;;
            if same_shapeb v (r_inner r) then
              tret (mkSs st (set_nth id (reg_try_initialize r v) regs) es)
            else lift (Panic PType)
        end
    end.

  Fixpoint texecs (l : list stmt) (ss : sstate) : tres sstate :=
    match l with
    | [] => tret ss
    | s :: l => ss <~~ texec s ss;; texecs l ss
    end.
End TEval.

(** Nodes with their option [#[trace]]; latest first as in [Interp.prog]. *)
Definition tprog : Type := list (option trace_opt * node).
Definition untraced (p : tprog) : prog := map snd p.
Definition tnodes_of (l : list decl) : tprog :=
  rev (flat_map (fun d => match d with DNode o nd => [(o_trace o, nd)] | _ => [] end) l).

Section TProg.
  Variable fshow : spec_float -> string.
  Variable mode : ovf.
  Variable glob : ident -> option scalar.

  (** [Interp.node_step] with the traces: codegen/mod.rs:554, 588-616 *)
  Definition tnode_step (call : nat -> inst -> val -> tres (val * inst)) (nilout : nat -> res val)
      (o : option trace_opt) (nd : node) (i : inst) (inputs : val) : tres (val * inst) :=
    if first_is_nil inputs then tret (vars_nil (n_outputs nd), i)
    else
      let 'Inst clk hists regs flips subs := i in
      let blank := "      "%string in
      st <~~ lift (bind_inputs (n_inputs nd) inputs);;
      _ <~~ trace fshow o true blank (n_name nd) clk st (n_inputs nd) (n_inputs nd);;
      ss <~~ texecs mode glob clk hists call nilout (n_stmts nd) (mkSs st regs (mkEs flips subs));;
      let '(mkSs st regs (mkEs flips subs)) := ss in
      _ <~~ trace fshow o false blank (n_name nd) clk st (n_outputs nd) (n_inputs nd ++ n_locals nd ++ n_outputs nd);;
      hists <~~ lift (update_vars st hists (all_vars nd));;
      out <~~ lift (read_outputs (n_outputs nd) st);;
      tret (out, Inst (S clk) hists (map reg_commit regs) flips subs).

  Fixpoint tstep (p : tprog) (f : ident) (i : inst) (v : val) {struct p} : tres (val * inst) :=
    match p with
    | [] => lift (Panic PType)
    | (o, nd) :: p =>
        if String.eqb f (n_name nd) then
          tnode_step
            (fun id i v => match nth_error (n_blocks nd) id with
                           | Some g => tstep p g i v
                           | None => lift (Panic PType)
                           end)
            (fun id => g <- of_option PType (nth_error (n_blocks nd) id);; nil_outputs (untraced p) g)
            o nd i v
        else tstep p f i v
    end.

  Fixpoint trun (p : tprog) (f : ident) (i : inst) (ins : list val) : tres (list val * inst) :=
    match ins with
    | [] => tret ([], i)
    | v :: ins =>
        '(o, i) <~~ tstep p f i v;;
        '(os, i) <~~ trun p f i ins;;
        tret (o :: os, i)
    end.

  (** [Interp.main_fn], what the executable prints in [n] iterations: options.rs:144-217 *)
  Fixpoint tmain_for (p : tprog) (f : ident) (n : nat) (i : inst) : tres inst :=
    match n with
    | 0 => tret i
    | S n =>
        '(o, i) <~~ tstep p f i (VS (Defined SUnit));;
        _ <~~ lift (trusted o);;
        tmain_for p f n i
    end.

  (** ** Wrappers *)

  (** codegen/mod.rs:620-703: the exported structure *)
  Definition export_step (p : tprog) (f : ident) (outputs : list tyvar) (i : inst) (inputs : val) : tres (val * inst) :=
    if first_is_nil inputs then tret (vars_nil outputs, i) else tstep p f i inputs.

  (** codegen/mod.rs:846-883: the structure of an [extern node], around the
      [step] method [inner] of what it refers to.  Simplification: this method
      is any computation on any state. *)
  Definition ext_step {St : Type} (inner : St -> val -> tres (val * St))
      (o : option trace_opt) (x : ident) (ins outs : list tyvar) (i : St * nat) (inputs : val)
    : tres (val * (St * nat)) :=
    let '(s, clk) := i in
    if first_is_nil inputs then tret (vars_nil outs, i)
    else
      let prefix := "[ext] "%string in
      st <~~ lift (bind_inputs ins inputs);;
      _ <~~ trace fshow o true prefix x clk st ins ins;;
      '(v, s) <~~ inner s inputs;;
      st <~~ lift (match outs with
                   | [] => Ok st
                   | outs => bind_target (VTMult (map (fun y => VTSingle (v_name y)) outs)) v st
                   end);;
      _ <~~ trace fshow o false prefix x clk st outs (ins ++ outs);;
      out <~~ lift (read_outputs outs st);;
      tret (out, (s, S clk)).
End TProg.

(** What a process writes on one of its outputs. *)
Definition file_eqb (a b : trace_file) : bool :=
  match a, b with StdOut, StdOut | StdErr, StdErr => true | _, _ => false end.
Definition written (f : trace_file) (l : list line) : string :=
  String.concat "" (map snd (filter (fun x => file_eqb f (fst x)) l)).
