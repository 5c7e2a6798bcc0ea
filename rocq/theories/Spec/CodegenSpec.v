(** * Names and literals that code can be generated for. *)
From Coq Require Import String Ascii List ZArith Bool.
From Coq Require Import Floats.SpecFloat.
From Verif Require Import Model.Base Model.Scalar Model.Ast Model.Options Model.Surface Spec.CrashSpec.
Import ListNotations.
Local Open Scope string_scope.
Local Open Scope list_scope.

(** Letters, digits and underscores, the first not a digit; in particular not a
    raw identifier [r#x]. *)
Definition letters : list ascii := list_ascii_of_string "abcdefghijklmnopqrstuvwxyzABCDEFGHIJKLMNOPQRSTUVWXYZ_".
Definition digits : list ascii := list_ascii_of_string "0123456789".
Definition ordinary (x : ident) : Prop :=
  exists c l, list_ascii_of_string x = c :: l /\ In c letters /\ (forall d, In d l -> In d letters \/ In d digits) /\
    ~ In x ["_"; "self"; "Self"; "super"; "crate"].

Definition finite (f : f64) : Prop := match f with S754_zero _ | S754_finite _ _ _ => True | S754_infinity _ | S754_nan => False end.

(** The names written in a program. *)
Fixpoint expr_names (e : sexpr) : list ident :=
  match e with
  | XLit _ => []
  | XVar x => [x]
  | XParen l _ => flat_map expr_names l
  | XCall f l _ => f :: flat_map expr_names l
  | XNeg e | XNot e | XPre e => expr_names e
  | XIf a b c | XMerge a b c => expr_names a ++ expr_names b ++ expr_names c
  | XBin e l => expr_names e ++ flat_map (fun p => expr_names (snd p)) l
  | XCmp e l => expr_names e ++ flat_map (fun p => expr_names (snd p)) l
  | XClock e l => expr_names e ++ flat_map (fun p => expr_names (snd p)) l
  | XFby e l | XThen e l => expr_names e ++ flat_map expr_names l
  end.
Fixpoint target_names (t : starget) : list ident :=
  match t with TVar x => [x] | TTuple l _ => flat_map target_names l end.
Definition type_names (b : base) : list ident := match b with BOther t => [t] | _ => [] end.
Definition clock_names (c : clock) : list ident := match c with CExplicit _ x => [x] | _ => [] end.
Definition vars_names (l : sdecls) : list ident :=
  flat_map (fun '(xs, (b, c)) => xs ++ type_names b ++ clock_names c) l.
Definition decl_names (d : sdecl) : list ident :=
  match d with
  | XConst x b e => x :: type_names b ++ expr_names e
  | XExtConst x b => x :: type_names b
  | XExtNode f i o => f :: vars_names i ++ vars_names o
  | XNode sn =>
      s_name sn :: vars_names (s_inputs sn) ++ vars_names (s_outputs sn) ++ vars_names (s_locals sn) ++
      flat_map (fun i => match i with XDef t e => target_names t ++ expr_names e | XAssert e => expr_names e end) (s_defs sn)
  end.
(** Among them, the names of types. *)
Definition vars_types (l : sdecls) : list ident := flat_map (fun '(_, (b, _)) => type_names b) l.
Definition decl_types (d : sdecl) : list ident :=
  match d with
  | XConst _ b _ | XExtConst _ b => type_names b
  | XExtNode _ i o => vars_types i ++ vars_types o
  | XNode sn => vars_types (s_inputs sn) ++ vars_types (s_outputs sn) ++ vars_types (s_locals sn)
  end.
Definition names (a : sattrdecl) : list ident := flat_map a_params (fst a) ++ decl_names (snd a).

(** The float literals. *)
Fixpoint floats (e : sexpr) : list f64 :=
  match e with
  | XLit (SLFloat f) => [f]
  | XLit _ | XVar _ => []
  | XParen l _ | XCall _ l _ => flat_map floats l
  | XNeg e | XNot e | XPre e => floats e
  | XIf a b c | XMerge a b c => floats a ++ floats b ++ floats c
  | XBin e l => floats e ++ flat_map (fun p => floats (snd p)) l
  | XCmp e l => floats e ++ flat_map (fun p => floats (snd p)) l
  | XClock e l => floats e ++ flat_map (fun p => floats (snd p)) l
  | XFby e l | XThen e l => floats e ++ flat_map floats l
  end.

Record plain_words (p : sprog) : Prop := mkPlain {
  pw_names : forall a x, In a p -> In x (names a) -> ordinary x;
  pw_floats : forall a e f, In a p -> In e (expressions (snd a)) -> In f (floats e) -> finite f
}.

(** The keywords of Rust, strict and reserved. *)
Definition rust_keywords : list string :=
  ["as"; "break"; "const"; "continue"; "crate"; "else"; "enum"; "extern"; "false"; "fn"; "for"; "if"; "impl"; "in"; "let";
   "loop"; "match"; "mod"; "move"; "mut"; "pub"; "ref"; "return"; "self"; "Self"; "static"; "struct"; "super"; "trait";
   "true"; "type"; "unsafe"; "use"; "where"; "while"; "async"; "await"; "dyn"; "abstract"; "become"; "box"; "do";
   "final"; "macro"; "override"; "priv"; "typeof"; "unsized"; "virtual"; "yield"; "try"].
