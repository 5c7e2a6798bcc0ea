(** * Parsing: [/repo/chandeliers-syn/src/ast.rs].

    The input is the sequence of token trees that rustc gives to the macro
    (proc_macro2): identifiers, literals, single punctuation characters with
    their spacing, and balanced groups.
    Simplifications: a parse error is just [Refused], without message; spans are
    erased; groups without delimiters (produced by [macro_rules!] substitutions)
    do not occur; literals are given by their value.
    Assumptions on the libraries: [syn_derive] tries the variants of an
    enumeration in order and gives a fork of the input to the functions of
    [peek_func] and [prefix]; [syn] refuses the input if a group is not parsed to
    its end. *)
From Coq Require Import String Ascii List ZArith Bool Arith.
From Coq Require Import Floats.SpecFloat.
From Verif Require Import Model.Base Model.Scalar Model.Ast Model.Options Model.Surface.
Import ListNotations.
Local Open Scope string_scope.
Local Open Scope list_scope.

Inductive delim : Type := DParen | DBracket | DBrace.

(** Literal tokens; [true] and [false] are identifiers, and a sign is
    punctuation. *)
Inductive lit_token : Type :=
| KInt (n : N)
| KFloat (f : f64)
| KStr (s : string)
| KOther.

Inductive tok : Type :=
| TIdent (x : ident)
| TLit (k : lit_token)
| TPunct (c : ascii) (joint : bool)
| TGroup (d : delim) (l : list tok).

(** The outcome of a parser; [Stuck] means that the recursion bound of the model
    is exhausted, which does not happen (Proofs/ParseTotal.v). *)
Inductive pres (A : Type) : Type :=
| Parsed (a : A) (rest : list tok)
| Refused
| Stuck.
Arguments Parsed {A}.
Arguments Refused {A}.
Arguments Stuck {A}.
Definition parser (A : Type) : Type := list tok -> pres A.

Definition pbind {A B} (p : pres A) (f : A -> list tok -> pres B) : pres B :=
  match p with
  | Parsed a r => f a r
  | Refused => Refused
  | Stuck => Stuck
  end.
Notation "'DO' x ',' r '<~~' p ';;' q" := (pbind p (fun x r => q)) (at level 90, x name, r name, p at next level, right associativity).

(** ** Tokens *)

(** [custom_keyword!], [Token![if]] and the like: peeking *)
Definition peek_kw (s : string) (l : list tok) : bool :=
  match l with TIdent x :: _ => String.eqb x s | _ => false end.
Definition p_kw (s : string) : parser unit := fun l =>
  match l with TIdent x :: r => if String.eqb x s then Parsed tt r else Refused | _ => Refused end.

(** [Token![-]] and the like: the last character has any spacing *)
Definition peek_punct (c : ascii) (l : list tok) : bool :=
  match l with TPunct d _ :: _ => Ascii.eqb d c | _ => false end.
Definition p_punct (c : ascii) : parser unit := fun l =>
  match l with TPunct d _ :: r => if Ascii.eqb d c then Parsed tt r else Refused | _ => Refused end.
(** [Token![->]], [<=], [>=] and [custom_punctuation!(Neq, <>)] (ast.rs:133):
    the first character is joined to the second *)
Definition p_punct2 (c d : ascii) : parser unit := fun l =>
  match l with
  | TPunct c' true :: TPunct d' _ :: r => if (Ascii.eqb c' c && Ascii.eqb d' d)%bool then Parsed tt r else Refused
  | _ => Refused
  end.
Definition peek_punct2 (c d : ascii) (l : list tok) : bool :=
  match p_punct2 c d l with Parsed _ _ => true | _ => false end.

(** ast.rs:171-182 *)
Definition reserved : list string :=
  ["true"; "false"; "fby"; "if"; "then"; "else"; "or"; "and"; "not"; "pre"; "node"; "const"; "extern"; "returns";
   "var"; "let"; "tel"; "assert"; "when"; "whenot"; "merge"; "crate"; "self"; "Self"; "super"; "move"; "static"].
Definition usable (x : ident) : bool := negb (existsb (String.eqb x) reserved).
(** ast.rs:152-200 [LusIdent] *)
Definition p_ident : parser ident := fun l =>
  match l with TIdent x :: r => if usable x then Parsed x r else Refused | _ => Refused end.
Definition peek_ident (l : list tok) : bool :=
  match l with TIdent x :: _ => usable x | _ => false end.

(** [syn::Lit]: a literal token, a boolean, or a minus sign followed by a number *)
Inductive literal : Type := LNum (z : Z) | LReal (f : f64) | LTruth (b : bool) | LText (s : string) | LRest.
Definition p_lit : parser literal := fun l =>
  match l with
  | TLit (KInt n) :: r => Parsed (LNum (Z.of_N n)) r
  | TLit (KFloat f) :: r => Parsed (LReal f) r
  | TLit (KStr s) :: r => Parsed (LText s) r
  | TLit KOther :: r => Parsed LRest r
  | TIdent x :: r => if String.eqb x "true" then Parsed (LTruth true) r
                     else if String.eqb x "false" then Parsed (LTruth false) r else Refused
  | TPunct c _ :: TLit (KInt n) :: r => if Ascii.eqb c "-"%char then Parsed (LNum (- Z.of_N n)) r else Refused
  | TPunct c _ :: TLit (KFloat f) :: r => if Ascii.eqb c "-"%char then Parsed (LReal (SFopp f)) r else Refused
  | _ => Refused
  end.
Definition peek_lit (l : list tok) : bool := match p_lit l with Parsed _ _ => true | _ => false end.

(** ** Repetitions *)

(** ast.rs:388-410 [punctuated_parse_separated_nonempty_costly] and
    [Punctuated::parse_separated_nonempty], after the first item *)
Fixpoint sep_more {O A} (k : nat) (item : parser A) (op : parser O) (l : list tok) {struct k} : pres (list (O * A)) :=
  match op l with
  | Refused => Parsed [] l
  | Stuck => Stuck
  | Parsed o r =>
      match k with
      | O => Stuck
      | S k =>
          DO a, r1 <~~ item r ;;
          DO t, r2 <~~ sep_more k item op r1 ;;
          Parsed ((o, a) :: t) r2
      end
  end.

(** [Punctuated::parse_terminated], on the content of a group or the whole
    input; the boolean tells whether there is a trailing separator *)
Fixpoint terminated {A} (k : nat) (item : parser A) (sep : parser unit) (l : list tok) {struct k} : pres (list A * bool) :=
  match l with
  | [] => Parsed ([], false) []
  | _ =>
      match k with
      | O => Stuck
      | S k =>
          DO a, r <~~ item l ;;
          match r with
          | [] => Parsed ([a], false) []
          | _ =>
              DO _, r1 <~~ sep r ;;
              match r1 with
              | [] => Parsed ([a], true) []
              | _ => DO t, r2 <~~ terminated k item sep r1 ;; Parsed (a :: fst t, snd t) r2
              end
          end
      end
  end.

(** ast.rs:412-437 [punctuated_parse_separated_trailing_until] *)
Fixpoint until {A} (k : nat) (stop : list tok -> bool) (item : parser A) (sep : parser unit) (l : list tok) {struct k} : pres (list A) :=
  if stop l then Parsed [] l
  else
    match k with
    | O => Stuck
    | S k =>
        DO a, r <~~ item l ;;
        DO _, r1 <~~ sep r ;;
        DO t, r2 <~~ until k stop item sep r1 ;;
        Parsed (a :: t) r2
    end.

Definition p_comma : parser unit := p_punct ","%char.
Definition p_semi : parser unit := p_punct ";"%char.
Definition p_colon : parser unit := p_punct ":"%char.
Definition p_equal : parser unit := p_punct "="%char.

(** [#[syn(parenthesized)]], [#[syn(bracketed)]]: the content of a group *)
Definition p_group (d : delim) : parser (list tok) := fun l =>
  match d, l with
  | DParen, TGroup DParen g :: r => Parsed g r
  | DBracket, TGroup DBracket g :: r => Parsed g r
  | _, _ => Refused
  end.

(** A comma-separated list that fills a group *)
Definition p_list {A} (d : delim) (item : parser A) (sep : parser unit) : parser (list A * bool) := fun l =>
  DO g, r <~~ p_group d l ;;
  DO t, _ <~~ terminated (length g) item sep g ;;
  Parsed t r.

(** ** Operators *)

(** ast.rs:449-469 [op::Mul] *)
Definition op_mul : parser binop := fun l =>
  if peek_punct "*"%char l then DO _, r <~~ p_punct "*"%char l ;; Parsed Mul r
  else if peek_punct "/"%char l then DO _, r <~~ p_punct "/"%char l ;; Parsed Div r
  else if peek_punct "%"%char l then DO _, r <~~ p_punct "%"%char l ;; Parsed Rem r
  else Refused.

(** ast.rs:471-474 *)
Definition exactly_token_neg (l : list tok) : bool :=
  (peek_punct "-"%char l && negb match l with _ :: r => peek_punct ">"%char r | [] => false end)%bool.
(** ast.rs:476-483 [op::Add] *)
Definition op_add : parser binop := fun l =>
  if peek_punct "+"%char l then DO _, r <~~ p_punct "+"%char l ;; Parsed Add r
  else if exactly_token_neg l then DO _, r <~~ p_punct "-"%char l ;; Parsed Sub r
  else Refused.

(** ast.rs:489-503 [op::Cmp] *)
Definition op_cmp : parser cmpop := fun l =>
  if peek_punct2 "<"%char ">"%char l then DO _, r <~~ p_punct2 "<"%char ">"%char l ;; Parsed Ne r
  else if peek_punct2 "<"%char "="%char l then DO _, r <~~ p_punct2 "<"%char "="%char l ;; Parsed Le r
  else if peek_punct2 ">"%char "="%char l then DO _, r <~~ p_punct2 ">"%char "="%char l ;; Parsed Ge r
  else if peek_punct "<"%char l then DO _, r <~~ p_punct "<"%char l ;; Parsed Lt r
  else if peek_punct ">"%char l then DO _, r <~~ p_punct ">"%char l ;; Parsed Gt r
  else if peek_punct "="%char l then DO _, r <~~ p_punct "="%char l ;; Parsed Eq r
  else Refused.

(** ast.rs:505-512 [op::Clock] *)
Definition op_clock : parser bool := fun l =>
  if peek_kw "when" l then DO _, r <~~ p_kw "when" l ;; Parsed true r
  else if peek_kw "whenot" l then DO _, r <~~ p_kw "whenot" l ;; Parsed false r
  else Refused.

(** ast.rs:442-447 *)
Definition op_arrow : parser unit := p_punct2 "-"%char ">"%char.
Definition op_fby : parser unit := p_kw "fby".
Definition op_and : parser binop := fun l => DO _, r <~~ p_kw "and" l ;; Parsed BitAnd r.
Definition op_or : parser binop := fun l => DO _, r <~~ p_kw "or" l ;; Parsed BitOr r.

(** ** Expressions *)

(** One level of infix operators.  A single item is not wrapped (see
    Model/Surface.v). *)
Definition chain {O} (build : sexpr -> list (O * sexpr) -> sexpr) (item : parser sexpr) (op : parser O) : parser sexpr := fun l =>
  DO a, r <~~ item l ;;
  DO t, r1 <~~ sep_more (length r) item op r ;;
  Parsed (match t with [] => a | _ => build a t end) r1.

Definition drop_ops {O} (f : sexpr -> list sexpr -> sexpr) (e : sexpr) (t : list (O * sexpr)) : sexpr := f e (map snd t).

Section Levels.
  Variable positive : parser sexpr.
  (** ast.rs:755-817, from the tightest *)
  Definition p_clock := chain XClock positive op_clock.
  Definition p_mul := chain XBin p_clock op_mul.
  Definition p_add := chain XBin p_mul op_add.
  Definition p_then := chain (drop_ops XThen) p_add op_arrow.
  Definition p_fby := chain (drop_ops XFby) p_then op_fby.
  Definition p_cmp := chain XCmp p_fby op_cmp.
  Definition p_and := chain XBin p_cmp op_and.
  Definition p_or := chain XBin p_and op_or.
  (** ast.rs:869-881 [Expr] *)
  Definition p_expr := p_or.
End Levels.

(** The literals of an expression *)
Definition slit_of (l : literal) : slit :=
  match l with
  | LNum z => SLInt z
  | LReal f => SLFloat f
  | LTruth b => SLBool b
  | LText _ | LRest => SLOther
  end.

(** ast.rs:562-576 [Atomic]; 679-700 [Paren] *)
Definition hint_paren (l : list tok) : bool := match l with TGroup DParen _ :: _ => true | _ => false end.
Definition p_atomic (expr : parser sexpr) : parser sexpr := fun l =>
  if hint_paren l then DO t, r <~~ p_list DParen expr p_comma l ;; Parsed (XParen (fst t) (snd t)) r
  else if peek_lit l then DO k, r <~~ p_lit l ;; Parsed (XLit (slit_of k)) r
  else if peek_ident l then DO x, r <~~ p_ident l ;; Parsed (XVar x) r
  else Refused.

(** ast.rs:652-673 [Call::hint] *)
Definition hint_call (l : list tok) : bool :=
  match l with TIdent x :: TGroup DParen _ :: _ => usable x | _ => false end.

(** ast.rs:597-627 [Positive], with 652-665 [Call], 706-760 [Pre], [Neg],
    [Not], 829-870 [If], [Merge] *)
Fixpoint positive (n : nat) (l : list tok) {struct n} : pres sexpr :=
  match n with
  | O => Stuck
  | S n =>
      let expr := p_expr (positive n) in
      if hint_call l then
        DO f, r <~~ p_ident l ;; DO t, r1 <~~ p_list DParen expr p_comma r ;; Parsed (XCall f (fst t) (snd t)) r1
      else if peek_kw "if" l then
        DO _, r <~~ p_kw "if" l ;; DO c, r1 <~~ expr r ;;
        DO _, r2 <~~ p_kw "then" r1 ;; DO y, r3 <~~ expr r2 ;;
        DO _, r4 <~~ p_kw "else" r3 ;; DO e, r5 <~~ expr r4 ;; Parsed (XIf c y e) r5
      else if peek_kw "merge" l then
        DO _, r <~~ p_kw "merge" l ;;
        DO c, r1 <~~ p_atomic expr r ;; DO a, r2 <~~ p_atomic expr r1 ;; DO b, r3 <~~ p_atomic expr r2 ;; Parsed (XMerge c a b) r3
      else if peek_kw "pre" l then DO _, r <~~ p_kw "pre" l ;; DO e, r1 <~~ positive n r ;; Parsed (XPre e) r1
      else if peek_punct "-"%char l then DO _, r <~~ p_punct "-"%char l ;; DO e, r1 <~~ positive n r ;; Parsed (XNeg e) r1
      else if peek_kw "not" l then DO _, r <~~ p_kw "not" l ;; DO e, r1 <~~ positive n r ;; Parsed (XNot e) r1
      else p_atomic expr l
  end.

(** A bound on the depth of the recursion *)
Fixpoint weight (t : tok) : nat :=
  match t with TGroup _ l => S (fold_right (fun t n => weight t + n) 0 l) | _ => 1 end.
Definition weights (l : list tok) : nat := fold_right (fun t n => weight t + n) 0 l.

(** ** Declarations *)

(** ast.rs:212-265 [ty] *)
Definition p_base : parser base := fun l =>
  if peek_kw "int" l then DO _, r <~~ p_kw "int" l ;; Parsed BInt r
  else if peek_kw "bool" l then DO _, r <~~ p_kw "bool" l ;; Parsed BBool r
  else if peek_kw "float" l then DO _, r <~~ p_kw "float" l ;; Parsed BFloat r
  else if peek_ident l then DO x, r <~~ p_ident l ;; Parsed (BOther x) r
  else Refused.
Definition p_on_clock : parser Ast.clock := fun l =>
  if peek_kw "when" l then DO _, r <~~ p_kw "when" l ;; DO x, r1 <~~ p_ident r ;; Parsed (CExplicit true x) r1
  else if peek_kw "whenot" l then DO _, r <~~ p_kw "whenot" l ;; DO x, r1 <~~ p_ident r ;; Parsed (CExplicit false x) r1
  else Parsed CImplicit l.
Definition p_type : parser (base * Ast.clock) := fun l =>
  DO b, r <~~ p_base l ;; DO c, r1 <~~ p_on_clock r ;; Parsed (b, c) r1.

(** ast.rs:276-307 [Decls], [ArgsTy] *)
Definition p_decls : parser (list ident) := fun l =>
  DO x, r <~~ p_ident l ;; DO t, r1 <~~ sep_more (length r) p_ident p_comma r ;; Parsed (x :: map snd t) r1.
Definition p_args : parser (list ident * (base * Ast.clock)) := fun l =>
  DO xs, r <~~ p_decls l ;; DO _, r1 <~~ p_colon r ;; DO t, r2 <~~ p_type r1 ;; Parsed (xs, t) r2.

(** ast.rs:309-346 [ArgsTys] between parentheses *)
Definition p_interface : parser sdecls := fun l =>
  DO t, r <~~ p_list DParen p_args p_semi l ;; Parsed (fst t) r.

(** ast.rs:945-968 [VarsDecl], [OptionalVarsDecl] *)
Definition p_locals : parser sdecls := fun l =>
  if peek_kw "var" l then DO _, r <~~ p_kw "var" l ;; until (S (length r)) (peek_kw "let") p_args p_semi r
  else Parsed [] l.

(** ast.rs:360-384 [TargetExpr], [TargetExprTuple] *)
Fixpoint p_target (n : nat) (l : list tok) {struct n} : pres starget :=
  match n with
  | O => Stuck
  | S n =>
      if hint_paren l then DO t, r <~~ p_list DParen (p_target n) p_comma l ;; Parsed (TTuple (fst t) (snd t)) r
      else DO x, r <~~ p_ident l ;; Parsed (TVar x) r
  end.

(** ast.rs:886-937 [Def], [Assertion], [Statement] *)
Definition p_stmt (n : nat) : parser sstmt := fun l =>
  if peek_kw "assert" l then DO _, r <~~ p_kw "assert" l ;; DO e, r1 <~~ p_expr (positive n) r ;; Parsed (XAssert e) r1
  else DO t, r <~~ p_target n l ;; DO _, r1 <~~ p_equal r ;; DO e, r2 <~~ p_expr (positive n) r1 ;; Parsed (XDef t e) r2.

(** ast.rs:987-1018 [Node] *)
Definition p_node (n : nat) : parser snode := fun l =>
  DO _, r <~~ p_kw "node" l ;;
  DO f, r1 <~~ p_ident r ;;
  DO ins, r2 <~~ p_interface r1 ;;
  DO _, r3 <~~ p_kw "returns" r2 ;;
  DO outs, r4 <~~ p_interface r3 ;;
  DO _, r5 <~~ p_semi r4 ;;
  DO locs, r6 <~~ p_locals r5 ;;
  DO _, r7 <~~ p_kw "let" r6 ;;
  DO defs, r8 <~~ until (S (length r7)) (peek_kw "tel") (p_stmt n) p_semi r7 ;;
  DO _, r9 <~~ p_kw "tel" r8 ;;
  Parsed (mkSNode f ins outs locs defs) r9.

(** ast.rs:1033-1041 [Const] *)
Definition p_const (n : nat) : parser sdecl := fun l =>
  DO _, r <~~ p_kw "const" l ;;
  DO x, r1 <~~ p_ident r ;;
  DO _, r2 <~~ p_colon r1 ;;
  DO b, r3 <~~ p_base r2 ;;
  DO _, r4 <~~ p_equal r3 ;;
  DO e, r5 <~~ p_expr (positive n) r4 ;;
  Parsed (XConst x b e) r5.

(** ast.rs:1044-1117 [ExtNode], [ExtConst], [Extern] *)
Definition p_extern : parser sdecl := fun l =>
  DO _, r <~~ p_kw "extern" l ;;
  if peek_kw "const" r then
    DO _, r1 <~~ p_kw "const" r ;;
    DO x, r2 <~~ p_ident r1 ;;
    DO _, r3 <~~ p_colon r2 ;;
    DO t, r4 <~~ p_type r3 ;;
    Parsed (XExtConst x (fst t)) r4
  else
    DO _, r1 <~~ p_kw "node" r ;;
    DO f, r2 <~~ p_ident r1 ;;
    DO ins, r3 <~~ p_interface r2 ;;
    DO _, r4 <~~ p_kw "returns" r3 ;;
    DO outs, r5 <~~ p_interface r4 ;;
    Parsed (XExtNode f ins outs) r5.

(** ast.rs:1227-1236 [Decl] *)
Definition p_decl (n : nat) : parser sdecl := fun l =>
  if peek_kw "extern" l then p_extern l
  else if peek_kw "const" l then p_const n l
  else DO nd, r <~~ p_node n l ;; Parsed (XNode nd) r.

(** ast.rs:1119-1222 [Attribute] and the types before it, flattened *)
Definition attr_lit_of (l : literal) : attr_lit :=
  match l with
  | LText s => ALStr s
  | LNum z => ALInt z
  | LReal _ | LTruth _ | LRest => ALOther
  end.
Definition p_params : parser (list ident) := fun l =>
  match l with
  | TGroup DBracket _ :: _ => DO t, r <~~ p_list DBracket p_ident p_comma l ;; Parsed (fst t) r
  | _ => Parsed [] l
  end.
Definition p_targets : parser (list attr_lit) := fun l =>
  match l with
  | TGroup DParen _ :: _ => DO t, r <~~ p_list DParen p_lit p_comma l ;; Parsed (map attr_lit_of (fst t)) r
  | _ => Parsed [] l
  end.
Definition p_attr : parser attribute := fun l =>
  DO _, r <~~ p_punct "#"%char l ;;
  DO g, r1 <~~ p_group DBracket r ;;
  DO x, g1 <~~ p_ident g ;;
  DO ps, g2 <~~ p_params g1 ;;
  DO ts, g3 <~~ p_targets g2 ;;
  match g3 with [] => Parsed (mkAttr x ps ts) r1 | _ => Refused end.

(** ast.rs:1238-1246 [AttrDecl] *)
Fixpoint p_attrdecl (k n : nat) (l : list tok) {struct k} : pres sattrdecl :=
  if peek_punct "#"%char l then
    match k with
    | O => Stuck
    | S k => DO a, r <~~ p_attr l ;; DO d, r1 <~~ p_attrdecl k n r ;; Parsed (a :: fst d, snd d) r1
    end
  else DO d, r <~~ p_decl n l ;; Parsed ([], d) r.

(** ast.rs:1252-1257 [Prog] and lus/src/lib.rs:67 [parse_macro_input!] *)
Definition p_prog (l : list tok) : pres sprog :=
  DO t, r <~~ terminated (length l) (fun l => p_attrdecl (length l) (S (weights l)) l) p_semi l ;; Parsed (fst t) r.
