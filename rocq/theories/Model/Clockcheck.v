(** * Clock checking: [/repo/chandeliers-san/src/clockcheck.rs]. *)
From Coq Require Import String List ZArith Bool Arith.
From Verif Require Import Model.Base Model.Scalar Model.Ast Model.Errors Model.Interp Model.Typecheck.
Import ListNotations.

(** clockcheck.rs:27-44 *)
Inductive clk : Type :=
| KImplicit
| KAdaptative
| KOn (x : ident)
| KOff (x : ident).

(** clockcheck.rs:65-84 [into_clk] *)
Definition into_clk (c : clock) : clk :=
  match c with
  | CImplicit => KImplicit
  | CAdaptative => KAdaptative
  | CExplicit true x => KOn x
  | CExplicit false x => KOff x
  end.

(** clockcheck.rs:437-456 [is_implicit] *)
Definition is_implicit (k : clk) : out unit :=
  match k with
  | KImplicit | KAdaptative => done tt
  | KOn _ | KOff _ => fail EClkTooSlow
  end.

(** clockcheck.rs:459-474 [identical] *)
Definition clk_identical (a b : clk) : out unit :=
  match a, b with
  | (KAdaptative | KImplicit), (KAdaptative | KImplicit) => done tt
  | KOn l, KOn r | KOff l, KOff r => if String.eqb l r then done tt else fail EClkNotIdentical
  | _, _ => fail EClkNotIdentical
  end.

(** clockcheck.rs:476-517 [refine]: the new value of [self] *)
Definition refine (self other : clk) : out clk :=
  match self, other with
  | KAdaptative, _ => done other
  | _, KAdaptative => done self
  | KImplicit, KImplicit => done self
  | KImplicit, (KOn _ | KOff _) => fail EClkTooSlow
  | (KOn _ | KOff _), KImplicit => fail EClkTooSlow
  | KOn l, KOn r => if String.eqb l r then done self else fail EClkNotComparable
  | KOff l, KOff r => if String.eqb l r then done self else fail EClkNotComparable
  | _, _ => fail EClkNotComparable
  end.

(** clockcheck.rs:404-435 [as_clock] *)
Definition as_clock (e : expr) (pos : bool) : out clk :=
  match e with
  | EVar x _ => done (if pos then KOn x else KOff x)
  | _ => fail ENotAClock
  end.

(** clockcheck.rs:519-564 [forge_as_expr] *)
Definition forge_as_expr (k : clk) : expr :=
  match k with
  | KImplicit | KAdaptative => ELit (LBool true)
  | KOff x => EUn Not (EVar x 0)
  | KOn x => EVar x 0
  end.

(** The clocks learned for registers, latest first; as for types, only read
    once all the statements are accepted. *)
Definition kst := list (nat * expr).
Definition knext {A} (r : option (A * kst)) (s : kst) : kst :=
  match r with Some (_, s) => s | None => s end.

Section Expr.
  Variable local : list (ident * clock).

  (** clockcheck.rs:174-218, 246-259, 261-402; variables 95-106. *)
  Fixpoint kc (e : expr) (s : kst) {struct e} : out (clk * kst) :=
    match e with
    | ELit _ | EGlobal _ => done (KAdaptative, s)
    | EVar x _ =>
        match lookup x local with Some c => done (into_clk c, s) | None => Abort end
    | EParen e => kc e s
    | EPre e =>
        '(k, s) <~ kc e s;;
        _ <~ is_implicit k;;
        done (k, s)
    | EBin _ a b | ECmp _ a b =>
        l <~ attempt (kc a s);;
        r <~ attempt (kc b (knext l s));;
        '(l, _) <~ need l;;
        '(r, s) <~ need r;;
        k <~ refine l r;;
        done (k, s)
    | EUn _ a => kc a s
    | ELater _ a b =>
        l <~ attempt (kc a s);;
        r <~ attempt (kc b (knext l s));;
        '(l, _) <~ need l;;
        '(r, s) <~ need r;;
        _ <~ attempt (is_implicit l);;            (* the result is ignored *)
        _ <~ attempt (is_implicit r);;
        done (l, s)
    | EFlip _ a b =>
        l <~ attempt (kc a s);;
        r <~ attempt (kc b (knext l s));;
        '(r, s) <~ need r;;
        '(l, _) <~ need l;;
        _ <~ clk_identical r l;;
        done (r, s)
    | EClock pos inner act =>
        '(i, s) <~ kc inner s;;
        '(coc, s) <~ kc act s;;
        new <~ as_clock act pos;;
        _ <~ refine i coc;;
        done (new, s)
    | ESub _ _ args => kc args s
    | ETuple l =>                                  (* clockcheck.rs:567-584 *)
        match l with
        | [] => done (KAdaptative, s)
        | e0 :: _ =>
            '(g, s) <~ kc e0 s;;
            s <~ (fix go (l : list expr) (s : kst) {struct l} : out kst :=
               match l with
               | [] => done s
               | e :: l =>
                   '(k, s) <~ kc e s;;
                   _ <~ clk_identical g k;;
                   go l s
               end) l s;;
            done (g, s)
        end
    | EIf c a b =>
        c <~ attempt (kc c s);;
        y <~ attempt (kc a (knext c s));;
        n <~ attempt (kc b (knext y (knext c s)));;
        '(c, _) <~ need c;;
        '(y, _) <~ need y;;
        '(n, s) <~ need n;;
        k <~ refine c y;;
        k <~ refine k n;;
        done (k, s)
    | EMerge sw a b =>
        on <~ attempt (as_clock sw true);;
        off <~ attempt (as_clock sw false);;
        k <~ attempt (kc sw s);;
        x <~ attempt (kc a (knext k s));;
        y <~ attempt (kc b (knext x (knext k s)));;
        '(k, _) <~ need k;;
        '(x, _) <~ need x;;
        '(y, s) <~ need y;;
        on <~ need on;;
        _ <~ refine x on;;
        off <~ need off;;
        _ <~ refine y off;;
        done (k, s)
    | EFetch id init next =>
        '(k, s) <~ kc next s;;
        s <~ match init with
             | Some i => '(ki, s) <~ kc i s;; _ <~ clk_identical k ki;; done s
             | None => done s
             end;;
        done (k, (id, forge_as_expr k) :: s)
    end.

  (** Name for the local loop of [ETuple]. *)
  Fixpoint kcs (g : clk) (l : list expr) (s : kst) : out kst :=
    match l with
    | [] => done s
    | e :: l => '(k, s) <~ kc e s;; _ <~ clk_identical g k;; kcs g l s
    end.

  (** clockcheck.rs:586-594 *)
  Fixpoint kc_target (t : vartuple) : out clk :=
    match t with
    | VTSingle x => match lookup x local with Some c => done (into_clk c) | None => Abort end
    | VTMult [] => done KAdaptative
    | VTMult ((t0 :: _) as l) =>
        g <~ kc_target t0;;
        _ <~ (fix go (l : list vartuple) : out unit :=
           match l with
           | [] => done tt
           | t :: l => k <~ kc_target t;; _ <~ clk_identical g k;; go l
           end) l;;
        done g
    end.

  (** clockcheck.rs:596-623, with ast/mod.rs:706-711 [is_empty] *)
  Definition kc_stmt (i : stmt) (s : kst) : out kst :=
    match i with
    | SAssert e => '(k, s) <~ kc e s;; _ <~ is_implicit k;; done s
    | SLet t e =>
        k <~ kc_target t;;
        '(r, s) <~ kc e s;;
        match t with
        | VTMult [] => done s
        | _ => _ <~ clk_identical k r;; done s
        end
    | SUpdate _ _ | SInit _ _ _ => done s
    end.

  Fixpoint kc_stmts (l : list stmt) (s : kst) : out (option kst) :=
    match l with
    | [] => done (Some s)
    | i :: l =>
        r <~ attempt (kc_stmt i s);;
        match r with
        | Some s => kc_stmts l s
        | None => _ <~ kc_stmts l s;; done None
        end
    end.
End Expr.

Definition sig_implicit (v : tyvar) : out unit := is_implicit (into_clk (v_clk v)).

(** clockcheck.rs:657-670: the clock of each [InitRegister]. *)
Definition fill_clock (s : kst) (i : stmt) : out stmt :=
  match i with
  | SInit id v _ => match lookup_nat id s with Some c => done (SInit id v (Some c)) | None => Abort end
  | i => done i
  end.

(** clockcheck.rs:625-672. The context is a map: the last variable of a given
    name wins. *)
Definition kc_node (nd : node) : out node :=
  _ <~ each sig_implicit (n_inputs nd ++ n_outputs nd);;
  s <~ kc_stmts (rev (map (fun v => (v_name v, v_clk v)) (n_inputs nd ++ n_outputs nd ++ n_locals nd))) (n_stmts nd) [];;
  s <~ need s;;
  stmts <~ omap (fill_clock s) (n_stmts nd);;
  done (mkNode (n_name nd) (n_inputs nd) (n_outputs nd) (n_locals nd) (n_blocks nd) stmts (n_regs nd) (n_flips nd)).

(** clockcheck.rs:674-707 *)
Definition kc_decl (d : decl) : out decl :=
  match d with
  | DConst _ _ _ _ | DExtConst _ _ _ => done d
  | DNode o nd => nd <~ kc_node nd;; done (DNode o nd)
  | DExtNode o x i o' => _ <~ each sig_implicit (i ++ o');; done d
  end.

Definition clockcheck (l : list decl) : out (list decl) := omap kc_decl l.
