(** * Scheduling: [/repo/chandeliers-san/src/causality/graph.rs]

    Spans, which only serve error messages, are dropped. [at!] (57-82), the
    checked indexing that aborts when out of bounds, is [nth_error]; an abort is
    [None]. *)
From Coq Require Import String List ZArith Bool Arith.
From Verif Require Import Model.Base.
Import ListNotations.

(** ** 120-212: strongly connected components *)

(** 124-134: per-node information *)
Record extra : Type := mkExtra { e_on_stack : bool; e_low : option nat; e_index : option nat }.

(** 137-146. Simplification: [stk] has its top first ([Vec]: last); [scc] is in
    order of closing, each component as popped. *)
Record explorer : Type := mkExpl {
  x_index : nat; x_stk : list nat; x_extra : list extra; x_scc : list (list nat) }.

Definition get_extra (x : explorer) (v : nat) : option extra := nth_error (x_extra x) v.
Definition set_extra (x : explorer) (v : nat) (e : extra) : explorer :=
  mkExpl (x_index x) (x_stk x) (set_nth v e (x_extra x)) (x_scc x).

(** [Option::min]: [None] is the least element *)
Definition opt_min (a b : option nat) : option nat :=
  match a, b with
  | Some a, Some b => Some (Nat.min a b)
  | _, _ => None
  end.

Definition opt_nat_eqb (a b : option nat) : bool :=
  match a, b with
  | Some a, Some b => a =? b
  | None, None => true
  | _, _ => false
  end.

(** 181-187: pop the stack down to [v] *)
Fixpoint pop_until (v : nat) (stk : list nat) (ex : list extra) (scc : list nat)
    : option (list nat * list extra * list nat) :=
  match stk with
  | [] => Some ([], ex, scc)
  | w :: stk =>
      match nth_error ex w with
      | None => None
      | Some e =>
          let ex := set_nth w (mkExtra false (e_low e) (e_index e)) ex in
          let scc := scc ++ [w] in
          if w =? v then Some (stk, ex, scc) else pop_until v stk ex scc
      end
  end.

(** 159-175: the loop over the children of [v], [run] being the recursive call *)
Fixpoint children (run : nat -> explorer -> option explorer) (v : nat) (l : list nat) (x : explorer)
    : option explorer :=
  match l with
  | [] => Some x
  | w :: l =>
      match get_extra x w with
      | None => None
      | Some ew =>
          match e_index ew with
          | None =>
              match run w x with
              | None => None
              | Some x =>
                  match get_extra x v, get_extra x w with
                  | Some ev, Some ew =>
                      children run v l
                        (set_extra x v (mkExtra (e_on_stack ev) (opt_min (e_low ev) (e_low ew)) (e_index ev)))
                  | _, _ => None
                  end
              end
          | Some _ =>
              if e_on_stack ew then
                match get_extra x v with
                | Some ev =>
                    children run v l
                      (set_extra x v (mkExtra (e_on_stack ev) (opt_min (e_low ev) (e_index ew)) (e_index ev)))
                | None => None
                end
              else children run v l x
          end
      end
  end.

(** 149-190 [SccExplorer::run]. [fuel] bounds the recursion depth; running out
    of it is also [None]. *)
Fixpoint scc_run (g : list (list nat)) (fuel : nat) (v : nat) (x : explorer) : option explorer :=
  match fuel with
  | 0 => None
  | S fuel =>
      match get_extra x v with
      | None => None
      | Some _ =>
          let x := mkExpl (S (x_index x)) (v :: x_stk x)
                     (set_nth v (mkExtra true (Some (x_index x)) (Some (x_index x))) (x_extra x)) (x_scc x) in
          match nth_error g v with
          | None => None
          | Some ws =>
              match children (scc_run g fuel) v ws x with
              | None => None
              | Some x =>
                  match get_extra x v with
                  | None => None
                  | Some ev =>
                      if opt_nat_eqb (e_low ev) (e_index ev) then
                        match pop_until v (x_stk x) (x_extra x) [] with
                        | None => None
                        | Some (stk, ex, scc) => Some (mkExpl (x_index x) stk ex (x_scc x ++ [scc]))
                        end
                      else Some x
                  end
              end
          end
      end
  end.

(** 193-200 [for_graph_of_size], 351-358: explore every vertex. *)
Definition explorer_init (nb : nat) : explorer :=
  mkExpl 0 [] (repeat (mkExtra false None None) nb) [].

Fixpoint explore_all (g : list (list nat)) (fuel : nat) (vs : list nat) (x : explorer) : option explorer :=
  match vs with
  | [] => Some x
  | v :: vs =>
      match get_extra x v with
      | None => None
      | Some e =>
          match e_index e with
          | None =>
              match scc_run g fuel v x with
              | None => None
              | Some x => explore_all g fuel vs x
              end
          | Some _ => explore_all g fuel vs x
          end
      end
  end.

Definition sccs (g : list (list nat)) : option (list (list nat)) :=
  match explore_all g (S (length g)) (seq 0 (length g)) (explorer_init (length g)) with
  | None => None
  | Some x => Some (x_scc x)
  end.

(** ** The scheduler *)

Inductive sched_error : Type :=
| GraphUnitDeclTwice        (* a unit is provided twice, or provided by the context as well *)
| GraphUnitDependsOnItself
| GraphUnitUndeclared       (* [must_provide] *)
| GraphCycle
| GraphAbort.               (* an [at!] out of bounds *)

Section Graph.
  Variables Obj Unit : Type.
  Variable unit_eqb : Unit -> Unit -> bool.
  Variables provides requires : Obj -> list Unit.

  (** 86-99. [atomics] is the list of known units, whose index is their uid. *)
  Record graph : Type := mkGraph {
    g_elements : list Obj;
    g_atomics : list Unit;
    g_provide : list (list nat);
    g_require : list (list nat);
    g_by_ext : list nat;
    g_for_ext : list nat }.

  Definition graph_empty : graph := mkGraph [] [] [] [] [] [].

  Fixpoint index_of (u : Unit) (l : list Unit) : option nat :=
    match l with
    | [] => None
    | w :: l => if unit_eqb u w then Some 0 else option_map S (index_of u l)
    end.

  (** 221-234 [get_or_insert_atomic] *)
  Definition intern (u : Unit) (atomics : list Unit) : nat * list Unit :=
    match index_of u atomics with
    | Some k => (k, atomics)
    | None => (length atomics, atomics ++ [u])
    end.

  Fixpoint interns (us : list Unit) (atomics : list Unit) : list nat * list Unit :=
    match us with
    | [] => ([], atomics)
    | u :: us =>
        let '(k, atomics) := intern u atomics in
        let '(ks, atomics) := interns us atomics in
        (k :: ks, atomics)
    end.

  (** 242-246 *)
  Definition already_provided (u : Unit) (g : graph) : graph :=
    let '(k, atomics) := intern u (g_atomics g) in
    mkGraph (g_elements g) atomics (g_provide g) (g_require g) (k :: g_by_ext g) (g_for_ext g).

  (** 257-264 *)
  Definition must_provide (u : Unit) (g : graph) : graph + sched_error :=
    let '(k, atomics) := intern u (g_atomics g) in
    if existsb (Nat.eqb k) (g_for_ext g)
    then inl (mkGraph (g_elements g) atomics (g_provide g) (g_require g) (g_by_ext g) (g_for_ext g))
    else inr GraphUnitUndeclared.

  (** 267-290 *)
  Definition insert (o : Obj) (g : graph) : graph :=
    let '(ps, atomics) := interns (provides o) (g_atomics g) in
    let '(rs, atomics) := interns (requires o) atomics in
    mkGraph (g_elements g ++ [o]) atomics (g_provide g ++ [ps]) (g_require g ++ [rs])
      (g_by_ext g) (g_for_ext g ++ ps).

  (** 331-343: the requirements of one provided unit [p] of object [id] *)
  Fixpoint add_requires (p : nat) (rs : list nat) (cs : list (list nat)) : list (list nat) + sched_error :=
    match rs with
    | [] => inl cs
    | r :: rs =>
        if r =? p then inr GraphUnitDependsOnItself
        else
          match nth_error cs p with
          | None => inr GraphAbort
          | Some l => add_requires p rs (set_nth p (l ++ [r]) cs)
          end
    end.

  (** 314-345: the units provided by object [id] *)
  Fixpoint add_provides (by_ext : list nat) (id : nat) (rs : list nat) (ps : list nat)
      (provider : list (option nat)) (cs : list (list nat))
      : (list (option nat) * list (list nat)) + sched_error :=
    match ps with
    | [] => inl (provider, cs)
    | p :: ps =>
        if existsb (Nat.eqb p) by_ext then inr GraphUnitDeclTwice
        else
          match nth_error provider p with
          | None => inr GraphAbort
          | Some (Some _) => inr GraphUnitDeclTwice
          | Some None =>
              match add_requires p rs cs with
              | inr e => inr e
              | inl cs => add_provides by_ext id rs ps (set_nth p (Some id) provider) cs
              end
          end
    end.

  Fixpoint add_objects (by_ext : list nat) (id : nat) (l : list (list nat * list nat))
      (provider : list (option nat)) (cs : list (list nat))
      : (list (option nat) * list (list nat)) + sched_error :=
    match l with
    | [] => inl (provider, cs)
    | (ps, rs) :: l =>
        match add_provides by_ext id rs ps provider cs with
        | inr e => inr e
        | inl (provider, cs) => add_objects by_ext (S id) l provider cs
        end
    end.

  (** 360-403: take the objects in the order of the components. [unused] are the
      objects not taken yet. *)
  Fixpoint take_objects (provider : list (option nat)) (scc : list (list nat))
      (unused : list (option Obj)) (out : list Obj) : (list (option Obj) * list Obj) + sched_error :=
    match scc with
    | [] => inl (unused, out)
    | c :: scc =>
        if 1 <? length c then inr GraphCycle
        else
          match c with
          | [] => inr GraphAbort
          | _ =>
              let id := last c 0 in
              match nth_error provider id with
              | Some (Some prov) =>
                  match nth_error unused prov with
                  | None => inr GraphAbort
                  | Some (Some o) => take_objects provider scc (set_nth prov None unused) (out ++ [o])
                  | Some None => take_objects provider scc unused out
                  end
              | _ => take_objects provider scc unused out
              end
          end
    end.

  Fixpoint flatten_opt (l : list (option Obj)) : list Obj :=
    match l with
    | [] => []
    | Some o :: l => o :: flatten_opt l
    | None :: l => flatten_opt l
    end.

  (** 297-410 [scheduling] *)
  Definition scheduling (g : graph) : list Obj + sched_error :=
    let nb := length (g_atomics g) in
    match add_objects (g_by_ext g) 0 (combine (g_provide g) (g_require g)) (repeat None nb) (repeat [] nb) with
    | inr e => inr e
    | inl (provider, cs) =>
        match sccs cs with
        | None => inr GraphAbort
        | Some scc =>
            match take_objects provider scc (map Some (g_elements g)) [] with
            | inr e => inr e
            | inl (unused, out) => inl (out ++ flatten_opt unused)
            end
        end
    end.

  Fixpoint must_provide_all (us : list Unit) (g : graph) : graph + sched_error :=
    match us with
    | [] => inl g
    | u :: us => match must_provide u g with inr e => inr e | inl g => must_provide_all us g end
    end.

  (** The way [causality/mod.rs] uses the graph: units provided by the context,
      then the objects, then the units that must be provided. *)
  Definition schedule (ext : list Unit) (objs : list Obj) (must : list Unit) : list Obj + sched_error :=
    let g := fold_left (fun g u => already_provided u g) ext graph_empty in
    let g := fold_left (fun g o => insert o g) objs g in
    match must_provide_all must g with
    | inr e => inr e
    | inl g => scheduling g
    end.
End Graph.

(** The unit tests of graph.rs:449-497, on triplets (provided, required, required). *)
Definition triplet := (nat * nat * nat)%type.
Definition sched_triplets (l : list triplet) : list triplet + sched_error :=
  schedule triplet nat Nat.eqb (fun '(a, _, _) => [a]) (fun '(_, b, c) => [b; c]) [] l [].
Example graph_test_1 :
  sched_triplets [(1, 2, 3); (2, 4, 26); (3, 2, 23)] = inl [(2, 4, 26); (3, 2, 23); (1, 2, 3)].
Proof. reflexivity. Qed.
Example graph_test_2 : sched_triplets [(1, 2, 1)] = inr GraphUnitDependsOnItself.
Proof. reflexivity. Qed.
Example graph_test_3 : sched_triplets [(1, 2, 3); (2, 1, 3)] = inr GraphCycle.
Proof. reflexivity. Qed.
