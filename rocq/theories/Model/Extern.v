(** * Execution of programs with extern nodes.

    codegen/mod.rs:812-883: an [extern node] declaration produces a structure
    around one that is defined elsewhere, in Lustre or in Rust, and that has a
    [Default] and a [Step] instance.  Nodes use it as they use other nodes.

    Simplification: what is defined elsewhere is deterministic and has no other
    effect than its answers, so that it is known by its answer (or failure) to an
    input after some inputs, all with a present first component since
    [implicit_clock!] filters out the others. *)
From Coq Require Import String List ZArith Bool Arith.
From Coq Require Import Floats.SpecFloat.
From Verif Require Import Model.Base Model.Scalar Model.Value Model.History Model.Register Model.Ast Model.Interp Model.Options Model.Trace.
Import ListNotations.

(** Inputs received before, oldest first; input; answer. *)
Definition behaviour : Type := list val -> val -> res val.

(** The nodes and extern nodes of a program, latest first as in [Interp.prog]. *)
Inductive item : Type :=
| INode (nd : node)
| IExt (x : ident) (inputs outputs : list tyvar).

Definition item_name (d : item) : ident := match d with INode nd => n_name nd | IExt x _ _ => x end.
Definition item_outputs (d : item) : list tyvar := match d with INode nd => n_outputs nd | IExt _ _ o => o end.

Definition items_of (l : list decl) : list item :=
  rev (flat_map (fun d => match d with
    | DNode _ nd => [INode nd]
    | DExtNode _ x i o => [IExt x i o]
    | _ => [] end) l).

(** The structure [{ inner, __clock }] of an extern node (codegen/mod.rs:846-849),
    coded as an instance whose only register contains what [inner] has received. *)
Definition ext_inst (past : list val) (clk : nat) : inst := Inst clk [] [mkReg (VT past) (VT past) false] [] [].
Definition ext_past (i : inst) : list val :=
  match i_regs i with r :: _ => match r_inner r with VT l => l | VS _ => [] end | [] => [] end.

Definition ext_inner (b : behaviour) (past : list val) (v : val) : tres (val * list val) :=
  lift (w <- b past v;; Ok (w, past ++ [v])).

(** codegen/mod.rs:860-880, what is printed apart (see [Trace.ext_step]) *)
Definition xext (b : behaviour) (x : ident) (ins outs : list tyvar) (i : inst) (v : val) : res (val * inst) :=
  '(o, (past, clk)) <- snd (ext_step (fun _ => ""%string) (ext_inner b) None x ins outs (ext_past i, i_clock i) v);;
  Ok (o, ext_inst past clk).

Fixpoint find_item (p : list item) (f : ident) : option item :=
  match p with
  | [] => None
  | d :: p => if String.eqb f (item_name d) then Some d else find_item p f
  end.

Definition xnil_outputs (p : list item) (f : ident) : res val :=
  d <- of_option PType (find_item p f);; Ok (vars_nil (item_outputs d)).

(** codegen/mod.rs:566-579, 851-858 [Default] *)
Fixpoint xinit (p : list item) (f : ident) {struct p} : res inst :=
  match p with
  | [] => Panic PType
  | d :: p =>
      if String.eqb f (item_name d) then
        match d with
        | INode nd =>
            regs <- mapM (fun t => t <- of_option PType t;; Ok (reg_default (ty_shape t))) (n_regs nd);;
            subs <- mapM (xinit p) (n_blocks nd);;
            Ok (Inst 0 (init_hists nd) regs (repeat flip_default (n_flips nd)) subs)
        | IExt _ _ _ => Ok (ext_inst [] 0)
        end
      else xinit p f
  end.

Section XProg.
  Variable mode : ovf.
  Variable glob : ident -> option scalar.
  Variable ext : ident -> behaviour.

  Fixpoint xstep (p : list item) (f : ident) (i : inst) (v : val) {struct p} : res (val * inst) :=
    match p with
    | [] => Panic PType
    | d :: p =>
        if String.eqb f (item_name d) then
          match d with
          | INode nd =>
              node_step mode glob
                (fun id i v => match nth_error (n_blocks nd) id with
                               | Some g => xstep p g i v
                               | None => Panic PType
                               end)
                (fun id => g <- of_option PType (nth_error (n_blocks nd) id);; xnil_outputs p g)
                nd i v
          | IExt x ins outs => xext (ext x) x ins outs i v
          end
        else xstep p f i v
    end.

  Fixpoint xrun (p : list item) (f : ident) (i : inst) (ins : list val) : res (list val * inst) :=
    match ins with
    | [] => Ok ([], i)
    | v :: ins =>
        '(o, i) <- xstep p f i v;;
        '(os, i) <- xrun p f i ins;;
        Ok (o :: os, i)
    end.

  (** From the initial state. *)
  Definition xoutputs (p : list item) (f : ident) (ins : list val) : res (list val) :=
    i <- xinit p f;;
    '(os, _) <- xrun p f i ins;;
    Ok os.
End XProg.
