(** * The concrete syntax: how each program is written.

    [words] functions give the words of a syntax tree in order, [spells] the
    token trees that spell these words, and [tidy] tells which trees can be
    written without further parentheses. *)
From Coq Require Import String Ascii List ZArith Bool Arith.
From Coq Require Import Floats.SpecFloat.
From Verif Require Import Model.Base Model.Scalar Model.Ast Model.Options Model.Surface Model.Parse.
Import ListNotations.
Local Open Scope string_scope.
Local Open Scope list_scope.

Inductive word : Type :=
| WIdent (x : ident)               (* identifier or keyword *)
| WSym (s : string)                (* operator or punctuation *)
| WLit (l : slit)                  (* literal without sign *)
| WSigned (l : slit)               (* literal, maybe with a minus sign *)
| WArg (l : attr_lit)              (* the same, in an attribute *)
| WGroup (d : delim) (w : list word)
| WOpt (w : list word)             (* written or not *)
| WClock.                          (* any clock, or none *)

(** An operator is written without space between its characters. *)
Inductive symbol : string -> list tok -> Prop :=
| sym_last : forall c j, symbol (String c "") [TPunct c j]
| sym_more : forall c s u, s <> "" -> symbol s u -> symbol (String c s) (TPunct c true :: u).

Inductive unsigned : slit -> list tok -> Prop :=
| un_int : forall n, unsigned (SLInt (Z.of_N n)) [TLit (KInt n)]
| un_float : forall f, unsigned (SLFloat f) [TLit (KFloat f)]
| un_str : forall s, unsigned SLOther [TLit (KStr s)]
| un_other : unsigned SLOther [TLit KOther]
| un_true : unsigned (SLBool true) [TIdent "true"]
| un_false : unsigned (SLBool false) [TIdent "false"].
Inductive signed : slit -> list tok -> Prop :=
| si_plain : forall l u, unsigned l u -> signed l u
| si_int : forall n j, signed (SLInt (- Z.of_N n)) [TPunct "-" j; TLit (KInt n)]
| si_float : forall f j, signed (SLFloat (SFopp f)) [TPunct "-" j; TLit (KFloat f)].
Inductive argument : attr_lit -> list tok -> Prop :=
| ar_str : forall s, argument (ALStr s) [TLit (KStr s)]
| ar_int : forall z u, signed (SLInt z) u -> argument (ALInt z) u
| ar_float : forall f u, signed (SLFloat f) u -> argument ALOther u
| ar_bool : forall b u, unsigned (SLBool b) u -> argument ALOther u
| ar_other : argument ALOther [TLit KOther].

Definition keywords : list string :=
  ["true"; "false"; "if"; "then"; "else"; "let"; "tel"; "const"; "extern"; "node"; "returns"; "var"; "assert";
   "pre"; "fby"; "or"; "and"; "not"; "when"; "whenot"; "merge"; "crate"; "self"; "Self"; "super"; "move"; "static"].
Definition name (x : ident) : Prop := ~ In x keywords.

Inductive spells : list word -> list tok -> Prop :=
| sp_nil : spells [] []
| sp_ident : forall x w u, spells w u -> spells (WIdent x :: w) (TIdent x :: u)
| sp_sym : forall s v w u, symbol s v -> spells w u -> spells (WSym s :: w) (v ++ u)
| sp_lit : forall l v w u, unsigned l v -> spells w u -> spells (WLit l :: w) (v ++ u)
| sp_signed : forall l v w u, signed l v -> spells w u -> spells (WSigned l :: w) (v ++ u)
| sp_arg : forall l v w u, argument l v -> spells w u -> spells (WArg l :: w) (v ++ u)
| sp_group : forall d g v w u, spells g v -> spells w u -> spells (WGroup d g :: w) (TGroup d v :: u)
| sp_opt_yes : forall o w u, spells (o ++ w) u -> spells (WOpt o :: w) u
| sp_opt_no : forall o w u, spells w u -> spells (WOpt o :: w) u
| sp_clock_no : forall w u, spells w u -> spells (WClock :: w) u
| sp_clock_yes : forall k x w u, k = "when" \/ k = "whenot" -> name x -> spells w u ->
    spells (WClock :: w) (TIdent k :: TIdent x :: u).

(** Items separated by a symbol. *)
Fixpoint joined (sep : string) (l : list (list word)) : list word :=
  match l with
  | [] => []
  | w :: l => match l with [] => w | _ => w ++ WSym sep :: joined sep l end
  end.
(** [trailing]: a separator after the last item too. *)
Definition comma_list (l : list (list word)) (trailing : bool) : list word :=
  joined "," l ++ if trailing then [WSym ","] else [].
(** The last separator may be written or not. *)
Definition loose_list (sep : string) (l : list (list word)) : list word :=
  match l with [] => [] | _ => joined sep l ++ [WOpt [WSym sep]] end.

(** ** Expressions *)
Definition binop_word (o : binop) : word :=
  match o with
  | Mul => WSym "*" | Div => WSym "/" | Rem => WSym "%"
  | Add => WSym "+" | Sub => WSym "-"
  | BitAnd => WIdent "and" | BitOr => WIdent "or" | BitXor => WIdent "xor"
  end.
Definition cmpop_word (o : cmpop) : word :=
  match o with
  | Le => WSym "<=" | Ge => WSym ">=" | Lt => WSym "<" | Gt => WSym ">" | Eq => WSym "=" | Ne => WSym "<>"
  end.
Definition clock_word (b : bool) : word := WIdent (if b then "when" else "whenot").

Fixpoint words (e : sexpr) : list word :=
  match e with
  | XLit l => [WLit l]
  | XVar x => [WIdent x]
  | XParen l t => [WGroup DParen (comma_list (map words l) t)]
  | XCall f l t => [WIdent f; WGroup DParen (comma_list (map words l) t)]
  | XNeg e => WSym "-" :: words e
  | XNot e => WIdent "not" :: words e
  | XPre e => WIdent "pre" :: words e
  | XIf c y n => WIdent "if" :: words c ++ WIdent "then" :: words y ++ WIdent "else" :: words n
  | XMerge c a b =>
      let operand e := match e with XLit l => [WSigned l] | _ => words e end in
      WIdent "merge" :: operand c ++ operand a ++ operand b
  | XBin e l => words e ++ flat_map (fun p => binop_word (fst p) :: words (snd p)) l
  | XCmp e l => words e ++ flat_map (fun p => cmpop_word (fst p) :: words (snd p)) l
  | XClock e l => words e ++ flat_map (fun p => clock_word (fst p) :: words (snd p)) l
  | XThen e l => words e ++ flat_map (fun e => WSym "->" :: words e) l
  | XFby e l => words e ++ flat_map (fun e => WIdent "fby" :: words e) l
  end.

(** Precedences: 0 for what needs no parentheses, then the infix operators from
    the tightest to the loosest. *)
Definition binop_level (o : binop) : nat :=
  match o with Mul | Div | Rem => 2 | Add | Sub => 3 | BitAnd => 7 | BitOr => 8 | BitXor => 9 end.
Definition level (e : sexpr) : nat :=
  match e with
  | XClock _ _ => 1
  | XBin _ ((o, _) :: _) => binop_level o
  | XBin _ [] => 9
  | XThen _ _ => 4
  | XFby _ _ => 5
  | XCmp _ _ => 6
  | _ => 0
  end.
(** The last words are the [else] branch of a conditional, which goes as far as
    possible. *)
Fixpoint open_ended (e : sexpr) : bool :=
  match e with
  | XIf _ _ _ => true
  | XNeg e | XNot e | XPre e => open_ended e
  | XBin e l => fold_left (fun _ p => open_ended (snd p)) l (open_ended e)
  | XCmp e l => fold_left (fun _ p => open_ended (snd p)) l (open_ended e)
  | XClock e l => fold_left (fun _ p => open_ended (snd p)) l (open_ended e)
  | XThen e l | XFby e l => fold_left (fun _ e => open_ended e) l (open_ended e)
  | _ => false
  end.
Definition is_atomic (e : sexpr) : Prop :=
  match e with XLit _ | XVar _ | XParen _ _ => True | _ => False end.

(** The operands of an infix operator of level [k]. *)
Definition operands (k : nat) (e : sexpr) (l : list sexpr) : Prop :=
  l <> [] /\ (forall a, In a (e :: l) -> level a < k) /\ (forall a, In a (removelast (e :: l)) -> open_ended a = false).

Fixpoint tidy (e : sexpr) : Prop :=
  let all l := fold_right (fun e P => tidy e /\ P) True l in
  let list l t := (t = true -> l <> []) /\ all l in
  match e with
  | XLit _ => True
  | XVar x => name x
  | XParen l t => list l t
  | XCall f l t => name f /\ list l t
  | XNeg e | XNot e | XPre e => level e = 0 /\ tidy e
  | XIf c y n => tidy c /\ tidy y /\ tidy n
  | XMerge c a b => (is_atomic c /\ tidy c) /\ (is_atomic a /\ tidy a) /\ (is_atomic b /\ tidy b)
  | XBin e l =>
      let k := level (XBin e l) in
      k <= 8 /\ (forall p, In p l -> binop_level (fst p) = k) /\ operands k e (map snd l) /\
      tidy e /\ fold_right (fun p P => tidy (snd p) /\ P) True l
  | XCmp e l => operands 6 e (map snd l) /\ tidy e /\ fold_right (fun p P => tidy (snd p) /\ P) True l
  | XClock e l => operands 1 e (map snd l) /\ tidy e /\ fold_right (fun p P => tidy (snd p) /\ P) True l
  | XThen e l => operands 4 e l /\ tidy e /\ all l
  | XFby e l => operands 5 e l /\ tidy e /\ all l
  end.

(** ** Programs *)
Definition base_word (b : base) : word :=
  WIdent match b with BInt => "int" | BFloat => "float" | BBool => "bool" | BOther x => x end.
Definition clock_words (c : Ast.clock) : list word :=
  match c with
  | CExplicit true x => [WIdent "when"; WIdent x]
  | CExplicit false x => [WIdent "whenot"; WIdent x]
  | CImplicit | CAdaptative => []
  end.
Definition args_words (a : list ident * (base * Ast.clock)) : list word :=
  joined "," (map (fun x => [WIdent x]) (fst a)) ++ WSym ":" :: base_word (fst (snd a)) :: clock_words (snd (snd a)).
Definition interface_word (l : sdecls) : word := WGroup DParen (loose_list ";" (map args_words l)).
Fixpoint target_words (t : starget) : list word :=
  match t with
  | TVar x => [WIdent x]
  | TTuple l t => [WGroup DParen (comma_list (map target_words l) t)]
  end.
Definition stmt_words (i : sstmt) : list word :=
  match i with
  | XDef t e => target_words t ++ WSym "=" :: words e
  | XAssert e => WIdent "assert" :: words e
  end.
Definition locals_words (l : sdecls) : list word :=
  match l with
  | [] => [WOpt [WIdent "var"]]
  | _ => WIdent "var" :: flat_map (fun a => args_words a ++ [WSym ";"]) l
  end.
Definition node_words (sn : snode) : list word :=
  [WIdent "node"; WIdent (s_name sn); interface_word (s_inputs sn); WIdent "returns"; interface_word (s_outputs sn); WSym ";"] ++
  locals_words (s_locals sn) ++
  WIdent "let" :: flat_map (fun i => stmt_words i ++ [WSym ";"]) (s_defs sn) ++ [WIdent "tel"].
Definition decl_words (d : sdecl) : list word :=
  match d with
  | XConst x b e => [WIdent "const"; WIdent x; WSym ":"; base_word b; WSym "="] ++ words e
  | XNode sn => node_words sn
  | XExtConst x b => [WIdent "extern"; WIdent "const"; WIdent x; WSym ":"; base_word b; WClock]
  | XExtNode f i o => [WIdent "extern"; WIdent "node"; WIdent f; interface_word i; WIdent "returns"; interface_word o]
  end.
(** The brackets of an empty list may be left out. *)
Definition optional_list (d : delim) (l : list (list word)) : word :=
  match l with [] => WOpt [WGroup d []] | _ => WGroup d (loose_list "," l) end.
Definition attr_words (a : attribute) : list word :=
  [WSym "#"; WGroup DBracket [WIdent (a_action a);
     optional_list DBracket (map (fun x => [WIdent x]) (a_params a));
     optional_list DParen (map (fun l => [WArg l]) (a_targets a))]].
Definition attrdecl_words (a : sattrdecl) : list word := flat_map attr_words (fst a) ++ decl_words (snd a).
Definition prog_words (p : sprog) : list word := loose_list ";" (map attrdecl_words p).

Definition tidy_base (b : base) : Prop :=
  match b with BOther x => name x /\ ~ In x ["int"; "float"; "bool"] | _ => True end.
Definition tidy_clock (c : Ast.clock) : Prop :=
  match c with CExplicit _ x => name x | CImplicit => True | CAdaptative => False end.
Definition tidy_args (a : list ident * (base * Ast.clock)) : Prop :=
  fst a <> [] /\ Forall name (fst a) /\ tidy_base (fst (snd a)) /\ tidy_clock (snd (snd a)).
Fixpoint tidy_target (t : starget) : Prop :=
  match t with
  | TVar x => name x
  | TTuple l t => (t = true -> l <> []) /\ fold_right (fun t P => tidy_target t /\ P) True l
  end.
Definition tidy_stmt (i : sstmt) : Prop :=
  match i with XDef t e => tidy_target t /\ tidy e | XAssert e => tidy e end.
Definition tidy_node (sn : snode) : Prop :=
  name (s_name sn) /\ Forall tidy_args (s_inputs sn) /\ Forall tidy_args (s_outputs sn) /\
  Forall tidy_args (s_locals sn) /\ Forall tidy_stmt (s_defs sn).
Definition tidy_decl (d : sdecl) : Prop :=
  match d with
  | XConst x b e => name x /\ tidy_base b /\ tidy e
  | XNode sn => tidy_node sn
  | XExtConst x b => name x /\ tidy_base b
  | XExtNode f i o => name f /\ Forall tidy_args i /\ Forall tidy_args o
  end.
Definition tidy_attr (a : attribute) : Prop := name (a_action a) /\ Forall name (a_params a).
Definition tidy_prog (p : sprog) : Prop :=
  forall a, In a p -> Forall tidy_attr (fst a) /\ tidy_decl (snd a).

(** ** Trees that can be written, with parentheses where needed *)

(** The tree without the parentheses around single expressions. *)
Fixpoint bare (e : sexpr) : sexpr :=
  let sub {A} (p : A * sexpr) := (fst p, bare (snd p)) in
  match e with
  | XLit _ | XVar _ => e
  | XParen l t => match l, t with [e], false => bare e | _, _ => XParen (map bare l) t end
  | XCall f l t => XCall f (map bare l) t
  | XNeg e => XNeg (bare e)
  | XNot e => XNot (bare e)
  | XPre e => XPre (bare e)
  | XIf c y n => XIf (bare c) (bare y) (bare n)
  | XMerge c a b => XMerge (bare c) (bare a) (bare b)
  | XBin e l => XBin (bare e) (map sub l)
  | XCmp e l => XCmp (bare e) (map sub l)
  | XClock e l => XClock (bare e) (map sub l)
  | XThen e l => XThen (bare e) (map bare l)
  | XFby e l => XFby (bare e) (map bare l)
  end.

(** Literals are not negative, operators of different precedences are not in the
    same list, and names are not keywords. *)
Fixpoint writable (e : sexpr) : Prop :=
  let all l := fold_right (fun e P => writable e /\ P) True l in
  match e with
  | XLit (SLInt z) => (0 <= z)%Z
  | XLit _ => True
  | XVar x => name x
  | XParen l t => (t = true -> l <> []) /\ all l
  | XCall f l t => name f /\ (t = true -> l <> []) /\ all l
  | XNeg e | XNot e | XPre e => writable e
  | XIf a b c | XMerge a b c => writable a /\ writable b /\ writable c
  | XBin e l =>
      (l <> [] /\ exists k, k <= 8 /\ forall p, In p l -> binop_level (fst p) = k) /\
      writable e /\ fold_right (fun p P => writable (snd p) /\ P) True l
  | XCmp e l => l <> [] /\ writable e /\ fold_right (fun p P => writable (snd p) /\ P) True l
  | XClock e l => l <> [] /\ writable e /\ fold_right (fun p P => writable (snd p) /\ P) True l
  | XThen e l | XFby e l => l <> [] /\ writable e /\ all l
  end.

(** ** Spaces *)

(** The same tokens with other spaces, except between two punctuation
    characters. *)
Definition begins_punct (l : list tok) : Prop := match l with TPunct _ _ :: _ => True | _ => False end.
Inductive respaced : list tok -> list tok -> Prop :=
| rs_nil : respaced [] []
| rs_ident : forall x l l', respaced l l' -> respaced (TIdent x :: l) (TIdent x :: l')
| rs_lit : forall k l l', respaced l l' -> respaced (TLit k :: l) (TLit k :: l')
| rs_group : forall d g g' l l', respaced g g' -> respaced l l' -> respaced (TGroup d g :: l) (TGroup d g' :: l')
| rs_punct : forall c j j' l l', (begins_punct l -> j = j') -> respaced l l' -> respaced (TPunct c j :: l) (TPunct c j' :: l').
