(** * Claims about the concrete syntax (C41, C42). *)
From Coq Require Import String Ascii List ZArith Bool Arith Lia.
From Verif Require Import Model.Base Model.Scalar Model.Ast Model.Options Model.Surface Model.Parse
  Spec.GrammarSpec Proofs.ParseTotal Proofs.ParseWrite Proofs.ParseSound.
Import ListNotations.
Local Open Scope string_scope.
Local Open Scope list_scope.

(** A program is accepted, as a given tree, if and only if it is written as the
    grammar says. *)
Theorem c41_program : forall ts p, p_prog ts = Parsed p [] <-> tidy_prog p /\ spells (prog_words p) ts.
Proof. exact prog_accepts. Qed.
Print Assumptions c41_program.

(** The same for an expression, with its precedences. *)
Theorem c41_expression : forall ts n e, weights ts < n ->
  (p_expr (positive n) ts = Parsed e [] <-> tidy e /\ spells (words e) ts).
Proof. exact expr_accepts. Qed.
Print Assumptions c41_expression.

(** There is always an answer, and nothing is left unread. *)
Theorem c41_answer : forall ts, p_prog ts = Refused \/ exists p, p_prog ts = Parsed p [].
Proof.
  exact (fun ts => match p_prog ts as r return p_prog ts = r -> r = Refused \/ exists p, r = Parsed p [] with
    | Parsed p r => fun E => or_intror (ex_intro _ p (f_equal (Parsed p) (proj1 (prog_sound _ _ _ E))))
    | Refused => fun _ => or_introl eq_refl
    | Stuck => fun E => match prog_total ts E with end
    end eq_refl).
Qed.
Print Assumptions c41_answer.

(** No text is the text of two programs. *)
Theorem c42_unambiguous : forall ts p q, tidy_prog p -> tidy_prog q -> spells (prog_words p) ts -> spells (prog_words q) ts -> p = q.
Proof. exact prog_unambiguous. Qed.
Print Assumptions c42_unambiguous.

(** Spaces only matter between punctuation characters. *)
Theorem c42_spaces : forall ts us p, respaced ts us -> (p_prog ts = Parsed p [] <-> p_prog us = Parsed p []).
Proof. exact prog_respaced. Qed.
Print Assumptions c42_spaces.

(** Every expression can be written, with parentheses where needed. *)
Theorem c42_writable : forall e, writable e -> exists ts e', p_expr (positive (S (weights ts))) ts = Parsed e' [] /\ bare e' = bare e.
Proof. exact expr_writable. Qed.
Print Assumptions c42_writable.

(** ** Examples *)
Definition p_ (c : ascii) : tok := TPunct c false.
Definition j_ (c : ascii) : tok := TPunct c true.
Definition n_ (n : N) : tok := TLit (KInt n).
Definition parse (ts : list tok) : pres sexpr := p_expr (positive (S (weights ts))) ts.
Local Notation "'`' x" := (TIdent x) (at level 0).

(** [a or b and c <= d fby e -> f + g * h when k] *)
Example c41_ex_levels :
  parse [`"a"; `"or"; `"b"; `"and"; `"c"; j_ "<"; p_ "="; `"d"; `"fby"; `"e"; j_ "-"; p_ ">"; `"f"; p_ "+"; `"g"; p_ "*"; `"h"; `"when"; `"k"] =
  Parsed (XBin (XVar "a") [(BitOr, XBin (XVar "b") [(BitAnd, XCmp (XVar "c") [(Le,
    XFby (XVar "d") [XThen (XVar "e") [XBin (XVar "f") [(Add, XBin (XVar "g") [(Mul, XClock (XVar "h") [(true, XVar "k")])])]]])])])]) [].
Proof. reflexivity. Qed.
(** [a when k * b + c -> d fby e >= f and g or h] *)
Example c41_ex_levels_left :
  parse [`"a"; `"when"; `"k"; p_ "*"; `"b"; p_ "+"; `"c"; j_ "-"; p_ ">"; `"d"; `"fby"; `"e"; j_ ">"; p_ "="; `"f"; `"and"; `"g"; `"or"; `"h"] =
  Parsed (XBin (XBin (XCmp (XFby (XThen (XBin (XBin (XClock (XVar "a") [(true, XVar "k")]) [(Mul, XVar "b")]) [(Add, XVar "c")])
    [XVar "d"]) [XVar "e"]) [(Ge, XVar "f")]) [(BitAnd, XVar "g")]) [(BitOr, XVar "h")]) [].
Proof. reflexivity. Qed.
(** [pre x -> not y], [- 1 - -2], [if c then 1 else 2 + 3], [f(x, y,) + (z)], [merge c -1 (x)] *)
Example c41_ex_prefix : parse [`"pre"; `"x"; j_ "-"; p_ ">"; `"not"; `"y"] = Parsed (XThen (XPre (XVar "x")) [XNot (XVar "y")]) [].
Proof. reflexivity. Qed.
Example c41_ex_minus : parse [p_ "-"; n_ 1; p_ "-"; p_ "-"; n_ 2] =
  Parsed (XBin (XNeg (XLit (SLInt 1))) [(Sub, XNeg (XLit (SLInt 2)))]) [].
Proof. reflexivity. Qed.
Example c41_ex_if : parse [`"if"; `"c"; `"then"; n_ 1; `"else"; n_ 2; p_ "+"; n_ 3] =
  Parsed (XIf (XVar "c") (XLit (SLInt 1)) (XBin (XLit (SLInt 2)) [(Add, XLit (SLInt 3))])) [].
Proof. reflexivity. Qed.
Example c41_ex_call : parse [`"f"; TGroup DParen [`"x"; p_ ","; `"y"; p_ ","]; p_ "+"; TGroup DParen [`"z"]] =
  Parsed (XBin (XCall "f" [XVar "x"; XVar "y"] true) [(Add, XParen [XVar "z"] false)]) [].
Proof. reflexivity. Qed.
Example c41_ex_merge : parse [`"merge"; `"c"; p_ "-"; n_ 1; TGroup DParen [`"x"]] =
  Parsed (XMerge (XVar "c") (XLit (SLInt (-1))) (XParen [XVar "x"] false)) [].
Proof. reflexivity. Qed.
(** An operand of [merge] is a variable, a literal or a parenthesis: in
    [merge c f(x) y], [f] and [(x)] are the two operands and [y] is left over; [-y] is
    not an operand. *)
Example c41_ex_merge_call :
  parse [`"merge"; `"c"; `"f"; TGroup DParen [`"x"]; `"y"] = Parsed (XMerge (XVar "c") (XVar "f") (XParen [XVar "x"] false)) [`"y"] /\
  parse [`"merge"; `"c"; p_ "-"; `"y"; `"z"] = Refused.
Proof. split; reflexivity. Qed.
(** Refused: [a - > b], [if c then 1], [x and], [let + 1] *)
Example c41_ex_refused :
  parse [`"a"; p_ "-"; p_ ">"; `"b"] = Parsed (XVar "a") [p_ "-"; p_ ">"; `"b"] /\
  parse [`"if"; `"c"; `"then"; n_ 1] = Refused /\ parse [`"x"; `"and"] = Refused /\ parse [`"let"; p_ "+"; n_ 1] = Refused.
Proof. repeat split. Qed.

(** [#[main(3)] #[export] node f(a, b : int; c : bool when d;) returns (y : int);
    var z : float; let (y, t) = g(); assert c; tel;
    extern const k : int when c; const m : int = -1] *)
Definition text : list tok :=
  [p_ "#"; TGroup DBracket [`"main"; TGroup DParen [n_ 3]]; p_ "#"; TGroup DBracket [`"export"];
   `"node"; `"f"; TGroup DParen [`"a"; p_ ","; `"b"; p_ ":"; `"int"; p_ ";"; `"c"; p_ ":"; `"bool"; `"when"; `"d"; p_ ";"];
   `"returns"; TGroup DParen [`"y"; p_ ":"; `"int"]; p_ ";"; `"var"; `"z"; p_ ":"; `"float"; p_ ";"; `"let";
   TGroup DParen [`"y"; p_ ","; `"t"]; p_ "="; `"g"; TGroup DParen []; p_ ";"; `"assert"; `"c"; p_ ";"; `"tel"; p_ ";";
   `"extern"; `"const"; `"k"; p_ ":"; `"int"; `"when"; `"c"; p_ ";"; `"const"; `"m"; p_ ":"; `"int"; p_ "="; p_ "-"; n_ 1].
Definition tree : sprog :=
  [([mkAttr "main" [] [ALInt 3]; mkAttr "export" [] []],
    XNode (mkSNode "f" [(["a"; "b"], (BInt, CImplicit)); (["c"], (BBool, CExplicit true "d"))] [(["y"], (BInt, CImplicit))]
      [(["z"], (BFloat, CImplicit))] [XDef (TTuple [TVar "y"; TVar "t"] false) (XCall "g" [] false); XAssert (XVar "c")]));
   ([], XExtConst "k" BInt); ([], XConst "m" BInt (XNeg (XLit (SLInt 1))))].
Example c41_ex_program : p_prog text = Parsed tree [].
Proof. vm_compute. reflexivity. Qed.
Example c41_ex_not_program : p_prog (`"node" :: text) = Refused /\ p_prog [`"const"; `"pre"; p_ ":"; `"int"; p_ "="; n_ 1] = Refused.
Proof. split; reflexivity. Qed.

Example c42_ex_spaces : respaced [`"x"; p_ "+"; `"y"; j_ "-"; p_ ">"; p_ "-"; n_ 1] [`"x"; j_ "+"; `"y"; j_ "-"; p_ ">"; j_ "-"; n_ 1].
Proof. unfold p_, j_. repeat constructor; cbn; auto; contradiction. Qed.
(** Between punctuation characters they do: [a -> b] and [a - > b]. *)
Example c42_ex_joint :
  parse [`"a"; j_ "-"; p_ ">"; `"b"] = Parsed (XThen (XVar "a") [XVar "b"]) [] /\ forall e, parse [`"a"; p_ "-"; p_ ">"; `"b"] <> Parsed e [].
Proof. split; [reflexivity|]. intros e. cbv. discriminate. Qed.
(** A product of sums, and the [when] of a conditional. *)
Example c42_ex_writable : writable (XBin (XBin (XVar "x") [(Add, XLit (SLInt 1))]) [(Mul, XPre (XIf (XVar "c") (XVar "x") (XVar "y")))]).
Proof.
  cbn. repeat split; try discriminate; try lia.
  all: try (unfold name, keywords; cbn; intros H; repeat destruct H as [H|H]; try discriminate; contradiction).
  - exists 2. split; [lia|]. intros p [<-|[]]. reflexivity.
  - exists 3. split; [lia|]. intros p [<-|[]]. reflexivity.
Qed.
