# Machine-checked model of chandeliers (Lustre in Rust)

Prover: Rocq/Coq 8.16.1. Sources in `rocq/theories` (logical root `Verif`).

## Layout

| directory | content |
|---|---|
| `Model/` | total, computable Gallina transcription of the Rust code, function by function; each definition cites file and lines in `/repo` and says where it simplifies. No proofs, no axioms. |
| `Spec/` | small independent specifications (stream semantics, schedules, substitutions, ...) that theorem statements refer to; they never mention the algorithmic helpers of `Model/`. |
| `Proofs/` | lemmas and proofs. |
| `Properties/` | the claims: `Theorem name : statement. Proof. exact lemma. Qed.`, followed by `Print Assumptions`, and `Example`s showing that the hypotheses are met by a concrete non-trivial case. |

## Model of the code

Four layers, following the crates:

1. **Runtime (`chandeliers-sem`)**: `Nillable`, tuple values, `Embed`/`Trusted`, `AllNil`/`FirstIsNil`,
   history buffers (`O`/`S`, `ago`, `downcast`, `extend`, `update`), registers, flips, and the macros of
   `candle.rs` (`later!`, `substep!`, `ifx!`, `cmp!`, `when!`, `merge!`, `truth!`, `implicit_clock!`).
   Scalars: `i64` as `Z` with an explicit overflow mode (checked = panic, wrapping = release),
   `bool`, unit, and `f64` as `SpecFloat.spec_float` with the IEEE operations of the standard library.
   Rust panics are an explicit `Panic` result.
2. **Generated step function (`chandeliers-san/codegen`)**: an interpreter for the analysis AST that performs
   exactly the sequence of operations of the emitted Rust code: implicit clock test, statements in scheduled
   order, clock tick, history updates, register commits, outputs. Node instances are trees of instances.
   A program is a list of nodes in dependency order; a call is resolved in the list of *earlier* nodes, so the
   interpreter is structurally recursive and needs no fuel.
3. **Analyses (`chandeliers-san`)**: dependency graph and Tarjan scheduling, causality, typechecking with generic
   unification, clock checking, positivity. Errors are values.
4. **Front end (`chandeliers-syn`, `chandeliers-lus`)**: parser, translation of the surface AST (pushing `pre`, registers, flips,
   associativity, identifiers of call sites), attributes, error accumulation and pipeline.

## Not modelled

* Tokenisation (done by rustc). The parser of `chandeliers-syn/src/ast.rs` is modelled from token trees to the surface AST (`Model/Parse.v`);
  the libraries it uses (`syn`, `syn_derive`) are not: it is assumed that `syn_derive` tries variants in order with look-ahead on a fork of the
  input, and that `syn` refuses a group that is not read to its end. Groups without delimiters (from `macro_rules!` substitutions) are left out.
* Spans and the wording of diagnostics. An error is its kind (`Model/Errors.v`).
* `quote!` rendering as text. The *meaning* of the emitted code is modelled by the interpreter (`Model/Interp.v`), the identifiers it
  binds and mentions by `Model/Names.v`, and the identifiers and literals it creates, with the conditions under which this aborts, by
  `Model/Codegen.v`; its tokens are not modelled. Names bound inside the macros of `candle.rs` are not modelled.
* rustc itself. Its constant evaluation is assumed to be that of `Model/Constexpr.v` (lazy `if`, checked arithmetic).
* Traces (`Model/Trace.v`): the text of a float is a parameter; positional arguments, format specifications such as `{x:5}` and blanks between
  braces are not modelled (a format with them is outside the theorems). Interleaving with other processes and failing writes are not modelled.
* The random number sources of `chandeliers-std/rand.rs`, the `doctest`-like helpers of `chandeliers-err`.
* Hash-map iteration order (maps are only used for lookups).
* The implementation of an `extern` node written in Rust: it is outside the program. Its declaration is modelled by the static passes, its
  use at run time by `Model/Extern.v` (C48, C49, C54 to C59) where the implementation is an arbitrary function of the inputs received so far, that may fail;
  an implementation with other effects is not covered. Other run-time theorems ask for programs without extern nodes (`closed`), which
  includes programs linked with the library that defines them (C46).
  Rust's visibility rules for the linked items are not modelled.
* The clock counter (`usize`) and the history depth are unbounded numbers.

Simplifications local to a definition are stated in the comment of that definition.

## Plan and state per property

The theorems of property Cnn are the theorems of `Properties/` whose names start with `cnn_`; MANIFEST.json lists them.

| id | model | proof | state |
|---|---|---|---|
| C01 | scalar operators, lifted operators | case analysis; floats: the operations of `SpecFloat` are those of Flocq, which are correctly rounded | proved |
| C02 | `cmp` via partial order | case analysis; floats: the order of the real numbers, through Flocq | proved |
| C03 | value trees | induction on the tree | proved |
| C04 | `O`/`S` chain as an inductive | refinement to the list of pushed values, induction on capacity and sequence | proved |
| C05 | register record and its protocol | induction over the instants, specification = filter of the active instants | proved |
| C06 | flip | same | proved |
| C07 | translation of chains + `later` | induction on the chain | default mode proved; universal mode refuted as stated, proved under a condition |
| C08 | interpreter | direct from the first operation of `step`, for every node | proved |
| C09 | interpreter | induction on the input sequence | proved |
| C10 | interpreter | induction on expressions: frame property on instances | proved |
| C11, C12, C13 | graph, Tarjan's algorithm with explicit work bound | invariant proof of Tarjan's algorithm; acyclic iff accepted; on source nodes `solvable` (Spec/SourceCausal.v) through the translation | proved |
| C14 | interpreter, pipeline | confluence of independent statements; for source programs through C18 | proved |
| C15 | causality pass | from the scheduling loop invariants | proved |
| C16 | positivity pass, scheduling + interpreter | invariant on reachable states; order of the depth-first traversal; clocks of registers follow the clocks of what they hold | proved, all modes and inputs |
| C17 | positivity pass | induction on expressions | proved |
| C18 | translation + interpreter | simulation: invariant linking history buffers, clock and sub-instances with the streams; equations have a unique solution | proved |
| C19 | whole pipeline | refuted by five accepted programs; proof under the condition `clear` through the clock calculus (C33) | partial |
| C20 | translation + expression evaluation | induction on expressions, generalised over the depth | proved |
| C21 | clock check | refuted; proved when no error was recorded | partial |
| C22 | error accumulator, pipeline | first half refuted, second half proved | partial |
| C23 | typechecker + interpreter | subject reduction by induction on expressions; substitution of generics | proved in the default mode, refuted for one-component tuples in universal mode |
| C24 | unifier | invariant on the partial substitution; soundness, completeness, uniqueness | proved |
| C25 | constant evaluator | induction on constant expressions | up to comparisons of NaN |
| C26 | main loop | induction on n | proved |
| C27 | chain folding | induction on the chain | proved |
| C28 | identifiers on strings | injectivity of the decimal suffixes; items, fields, references, bound names | internal names proved; visible names refuted, proved under precautions |
| C29 | options record and attribute interpreter | induction on the attribute list | partial (duplicated type variables) |
| C30 | translation state | invariant by induction on the expression | proved |
| C31 | value operators | case analysis / induction on shapes | proved |
| C32 | both translations | reference equations of both modes agree on expressions defined from instant 0 on | refuted for nested arrows and `pre` of constants, proved for nodes whose operands are defined in time (`c32_same_partial`) |
| C33 | clock checker + evaluation | soundness of the checker for a reference clock calculus, then induction on expressions and on instants | partial |
| C34 | abort sites of the passes | explicit programs that abort; `c34_safe_partial`: no abort without large numbers and undetermined type parameters of called nodes (Spec/CrashSpec.v) | partial |
| C35 | scalar conversions | exact specification of truncation, floor and ceil on binary64 | proved |
| C36 | interpreter | frame lemmas on `ifx` | proved |
| C37 | positivity pass | equivalence with a reference definition of the instants an expression looks at | proved |
| C38 | attribute interpreter | induction on the attribute list | refuted for one order of `export`/`test(n)`, proved otherwise |
| C39 | translation of `#[universal_pre]` nodes, whole pipeline | invariant relating registers and last present values; induction on expressions, then on the call graph | proved |
| C40 | source semantics, scalar operators, literals | for any property of scalars that the operators preserve: range of integers, validity of floats; induction on the reference meaning of the program, then C39 | proved |
| C41 | parser | grammar as a printing relation (Spec/GrammarSpec.v); soundness and completeness of each parsing function by induction on the fuel, totality by token weight | proved |
| C42 | parser | from C41; parenthesised printer for every expression | proved |
| C43 | identifiers and literals created by code generation | names and float literals of the analysed program are those of the source, pass by pass, for any predicate on names; register types and clocks are filled in by the passes | partial: refuted for the name `_`, raw identifiers, infinite literals, and types named by keywords |
| C44 | any order of declarations and equations | acceptance of the scheduler is an order-independent condition; the type environment of a declaration restricted to what it refers to is the same in every dependency order; calls resolve to the same node wherever it is listed; values of constants are the unique solution of their definitions; for equations, through C45 | proved |
| C45 | static rules on source programs (Spec/Static.v) | each pass on a translated declaration is equivalent to a rule on its source (types, clocks, depth, names, attributes), in the environment of all declarations; the environments that the passes thread are restrictions of it since declarations are sorted; the recorded errors are those of the clock check, which is computed exactly by `pace_of` in default mode | proved |
| C46 | pipeline on parts of a program | the code of a declaration is a function of its source and of the types of the names it mentions; every name an accepted program mentions is declared in it; the order of the client's code before the library's is a dependency order | proved |
| C47 | `Model/Trace.v`: the interpreter with the lines printed by `print!`, `format!`, and the wrappers of exported and extern nodes | the run without traces is an image of the run with traces; the lines of a step are read off the store that the soundness proof of C18 relates to the streams; the format scanner is equivalent to an inductive description of format strings | partial: `_ext` is six blanks instead of nothing, a variable can hide `_this`, `_ext`, `_clk` (refuted by programs) |
| C48 | `Model/Extern.v`: the interpreter for programs with extern nodes, whose answers are a parameter | the soundness proof of one node holds whatever answers its calls (`calls_streams`, `calls_urun`), extern nodes are a new base case; with a library, the state of an extern node (inputs received) is related to the state of the library's node that received them; the type soundness proof of C23 is over lists of nodes and extern nodes | proved |
| C49 | the typechecker and the interpreter with extern nodes | a binary logical relation: a relation on scalars for each type variable, extended to values, stores, histories, registers and instances; typed expressions, statements and nodes preserve it, and a call site uses the relation of the types it gives to the type variables of the node called. Free theorems for a function and for a set of values. Only what is true of all typed nodes is used (`loose_node`), so that universal mode is covered | proved |
| C50 | `Model/Macro.v`: parsing, passes and rendering composed, the counter of invocations | composition of C41, C43 and C45; names and literals of a tree are found among the tokens that spell it; the number of an invocation only occurs inside identifiers that are legal whatever the number | proved |
| C51 | translation, all passes, `Interp`, `Constexpr`, `Trace`; `Spec/GroupSpec.v` gives the tree of an expression | erasing `DummyParen` from the analysis AST commutes with every pass and with evaluation, with the clock check as soon as drivers of clocks are bare, which holds of all accepted programs; the translations of an expression and of its tree are equal up to that erasure | proved |
| C52 | translation, all passes, `Interp`, `Constexpr`; `Spec/RenameSpec.v` defines a renamed program | renaming the analysis AST commutes with the translation, with the checks of each declaration and with evaluation; references to nodes and constants keep the dependency relation, so the scheduler accepts the same lists and the results are permutations of each other, for which C44 applies; with one renaming for all nodes scheduling commutes too, hence the exact diagnostics | proved |
| C53 | all passes, `Interp`, `Constexpr` | removal: `separated` of C48 with nothing imported, after C44; a declaration is checked in a context that agrees on what it mentions, hence the same code; `Proofs/Extension.v`: nodes of an accepted program call and read only what it declares, so evaluation in the larger list of nodes and with more constants is the same; with extern nodes, through C54: the meaning of a node depends on its callees only (`ExternExtension.v`) | proved |
| C54 | translation, `Interp` | converse of C18: `Spec/SettledSem.v` says which operands are evaluated; given streams that satisfy the equations strictly, every read is in the history (`Proofs/Completeness.v`, induction on expressions), every statement in schedule order finds its operands, and the run keeps in step with the streams (`CompletenessNode.v`, `Exact.v`, induction on nesting and instants); the same with extern nodes, that add a case to the calls (`ExternExact.v`) | proved |
| C55 | all passes, `Interp` | runs are strict meanings (C54), and a strict meaning only uses what the callees answer; induction on the nesting of calls, the nesting being bounded by the number of nodes; C55 to C59 are proved again for programs with extern nodes (`ExternReplace.v`) from the same facts on equations | proved |
| C56 | all passes, `Interp` | acceptance through C45; runs through C55, fewer equations have more solutions | proved |
| C57 | all passes, `Interp` | through C55: by induction on the reference meaning, an expression keeps its value and remains settled when a variable is replaced by its definition | proved |
| C58 | all passes, `Interp` | through C55: refinement of expressions is a congruence (induction on the place of the change), and each law is checked on the reference meaning | proved |
| C59 | all passes, `Interp` | through C55: the two forms have the same solutions | proved |
| C60 | all passes, `Interp`, `Extern` | through C54: streams that satisfy the equations of one node satisfy those of the other once `z` is true; the meaning of an expression does not depend on a variable that it does not mention; names of nodes are unique by C45 | proved |
| C61 | all passes, `Interp`, `Extern` | through C54, as C60: streams that satisfy all the equations satisfy some of them | proved |
| C62 | all passes, `Interp`, `Extern` | as C58: each simplification refines the equations; with overflow checks only, one direction | proved |

## Trusted base

Coq's kernel and standard library; the fidelity of the transcription in `Model/` (line references beside each definition); the readable
specifications in `Spec/`. Axioms: none of our own; those of the standard library for real numbers in the theorems about
floating point numbers, none in the others (see *Assumptions*). The meaning of floats is that of the standard library (`SpecFloat`), related
to real numbers with the help of Flocq.

## Mutation testing

`seeded/LOG.jsonl` has one line per wrong program: an edit of one definition of `Model/` in a scratch copy, the claim it breaks, the
theorems that stopped being provable with their proofs, and the theorems tightened when none did.

## Findings

Deviations between the code and its documentation (or the claims), each shown by a theorem about a concrete program unless marked
*(reading)*, where it was seen in the code but lies outside the model.

1. **A clock error is recorded and then dropped.** In the clock check of `->` (`Later`) the error `EClkTooSlow` is emitted but the pass goes
   on and code is generated; the macro then shows only the code. A default-mode node with `->` on a `when` value compiles
   (`c21_refuted`, `c22_refuted`) and answers nil with defined inputs (`c19_slow_refuted`).
2. **Nil through calls.** `0 -> f(1, pre x)` is accepted since positivity does not look through calls to other nodes than by their own
   depth: the callee advances with a nil argument (`c19_call_refuted`). `pre f()` is accepted and nil at instant 0 (`c19_pre_call_refuted`).
3. **`#[universal_pre]` and `pre pre`.** `0 -> 0 -> pre pre x` is accepted and nil at instant 1 (`c19_universal_refuted`).
4. **`#[universal_pre]` chains.** `x -> pre z -> y` is not `x -> y`: the flip on the inner arrow stays in its first state while its left
   operand is absent (`c07_then_universal_refuted`).
5. **NaN.** An order comparison with NaN is nil in a node (`c19_nan_refuted`) and false in a constant (`c25_nan_refuted`).
6. **Aborts of the macro.** Calling a node whose signature has an undeclared, unused or duplicated type variable panics inside the compiler
   (`c34_undeclared_generic_refuted`, `c34_unused_generic_refuted`, `c34_duplicate_generic_refuted`); so does an integer literal above
   `i64::MAX` (`c34_large_literal_refuted`), and a negative number of steps in `#[main(-1)]`.
7. **Conflicting attributes.** Both options stay set, and `#[export] #[test(3)]` is silent while `#[test(3)] #[export]` is reported
   (`c38_refuted`): the comment of options.rs:279-280 claims that the earlier one takes precedence.
8. **Duplicated type variables.** Two attributes `#[generic[T]]` give the list `T, T` (`c29_generics_refuted`).
9. **One-component tuples in registers** (universal mode) break the type of the register (`c23_singleton_refuted`).
10. **`if` does not protect.** `if x = 0 then 0 else 1/x` panics (`c36_guard_no_protection`), while the same constant expression is fine
    (`c25_lazy`).
11. **Clock of a constant conditional.** `if true then true else m`, with `m` on clock `b`, is given the clock `b` but is always present
    (`c33_constant_if_refuted`).
12. **Identifier collisions.** An exported node named `f__lus_0_node`, two `#[main]` nodes, an exported constant `k` beside a `#[test]` node
    `k` (`c28_items_refuted`); exported constants named like the variables of generated code (`inputs`, `initial`, `sys`, ...) turn their
    `let` patterns into constant patterns (`c28_binders_refuted`); type variables named `i64`, `Default`, ... capture
    Rust's names (`c28_types_refuted`).
13. The left operand of `->` is evaluated lazily: a sub-node under it stops being stepped after its instant (visible in `c07_then_default`
    and the interpreter); `pre 1` is `1` at instant 0.
14. Positivity starts again from depth 0 in the operands of a nested `->` (conservative, `c37_depth_exact` describes it exactly).
15. *(reading)* Integer literal suffixes are ignored; a count of `main`/`test` above `usize::MAX` aborts.
16. *(reading)* The step function of a `#[test]` node is under `#[cfg(test)]`, so a node that calls it does not compile outside tests.
    `#[trait]` requires `#[export]` according to the README, not enforced. `#[test]` is documented for every node, extern nodes reject it.
17. *(reading)* Diagnostics of level warning are emitted as errors (`Level::Error`).
18. *(reading)* `const X: T = Y` where `extern const Y: T` has an undeclared type variable is accepted.
19. **Nested arrows.** With `#[universal_pre]`, `0 -> (pre x -> 5)` gives `x0` at instant 1, while the default mode gives 5
    (`c32_nested_refuted`); `0 -> (0 -> pre pre 1)` is nil at instant 1, while the default mode gives 1 (`c32_literal_refuted`).
20. **Operands of `merge`.** `merge c f(x) y` is refused: `f` and `(x)` are taken as the two operands (`c41_ex_merge_call`). A sign is only
    accepted before a literal there.
21. **Aborts of code generation.** A node or constant named `_`, a raw identifier `r#x`, and a float literal such as `1e400` (rendered as
    `inff64`) are accepted by all passes and abort the macro when identifiers and literals are created (`c43_rendering_refuted`).
22. **Types named by keywords.** The type variable of `#[generic[fn]] node f(x : fn) ...` is declared as `r#fn` and used as `fn`
    (`c43_keywords_refuted`).

23. **Traces.** `{_ext}` is six blanks in the trace of a node that is not extern, the README says nothing (`c47_ext_refuted`); for an extern
    node it has a trailing blank. A variable named `_this`, `_ext` or `_clk` is accepted and hides the special name, so that the default trace does
    not show the name of the node (`c47_shadow_refuted`). *(reading)* The README's example `{in}` cannot be written: `in` is a keyword for `syn`.

24. **Clocks between parentheses.** `x when (b)` and `merge (b) x y` are refused (`ENotAClock`) while parentheses are harmless everywhere else
    (`c51_clock_refuted`). `a -> b -> c` gives `a, b, c, ...` while `a -> (b -> c)` gives `a, c, ...` (`c51_arrow_refuted`).

25. **Operands of `->` that are not used yet.** `y = 0 -> 10 / x` panics when `x` is 0 at the first instant, although `10 / x` is not used there
    (`c54_lazy_refuted`): `->` and `fby` evaluate all the operands from the one in use on (likewise `if` evaluates both branches, C36).

A suspicion that could not be confirmed: that with `#[universal_pre]` the initialisation of a register could be scheduled before its
clock is computed.

## Assumptions

`Print Assumptions` (executed in the build, after each theorem) answers *Closed under the global context* for 245 of the 253 theorems below.
The others are about floating point numbers as real numbers (`Properties/Floats.v`). They use axioms of the standard library, those of its real numbers:

* `c01_float`: `ClassicalDedekindReals.sig_not_dec`, `ClassicalDedekindReals.sig_forall_dec`, `FunctionalExtensionality.functional_extensionality_dep`, `Classical_Prop.classic`.
* `c01_float_closest`: `ClassicalDedekindReals.sig_not_dec`, `ClassicalDedekindReals.sig_forall_dec`, `FunctionalExtensionality.functional_extensionality_dep`, `Classical_Prop.classic`.
* `c01_float_cases`: `ClassicalDedekindReals.sig_forall_dec`, `FunctionalExtensionality.functional_extensionality_dep`.
* `c01_float_neg`: `ClassicalDedekindReals.sig_forall_dec`, `FunctionalExtensionality.functional_extensionality_dep`.
* `c02_float_order`: `ClassicalDedekindReals.sig_not_dec`, `ClassicalDedekindReals.sig_forall_dec`, `FunctionalExtensionality.functional_extensionality_dep`, `Classical_Prop.classic`.
* `c02_float_trichotomy`: `ClassicalDedekindReals.sig_not_dec`, `ClassicalDedekindReals.sig_forall_dec`, `FunctionalExtensionality.functional_extensionality_dep`, `Classical_Prop.classic`.
* `c35_float_of_int_rounded`: `ClassicalDedekindReals.sig_not_dec`, `ClassicalDedekindReals.sig_forall_dec`, `FunctionalExtensionality.functional_extensionality_dep`, `Classical_Prop.classic`.
* `c40_floats`: `ClassicalDedekindReals.sig_not_dec`, `ClassicalDedekindReals.sig_forall_dec`, `FunctionalExtensionality.functional_extensionality_dep`, `Classical_Prop.classic`.

No axiom of another library (Flocq has none) and none of our own is used. All theorems:

* `Properties/Acceptance.v`: `c12_source`, `c45_accepted`, `c45_verdict`, `c45_silent`, `c44_equations`.
* `Properties/Attributes.v`: `c29_options`, `c29_wellformed`, `c29_one_meaning`, `c29_accepted`, `c29_generic_partial`, `c29_generics_refuted`, `c38_clash_reported_partial`, `c38_no_clash_silent`, `c38_refuted`.
* `Properties/Clocks.v`: `c33_accepted`, `c33_expression_partial`, `c33_streams_partial`, `c33_constant_if_refuted`, `c21_no_error_partial`, `c37_depth_exact`, `c37_accepted`, `c19_clear_partial`, `c19_undelayed_partial`, `c19_instants_partial`, `c19_call_refuted`, `c19_pre_call_refuted`, `c19_universal_refuted`, `c19_nan_refuted`, `c19_slow_refuted`.
* `Properties/Codegen.v`: `c43_rendering_partial`, `c43_expansion_partial`, `c43_keywords_partial`, `c43_rendering_refuted`, `c43_keywords_refuted`.
* `Properties/Constants.v`: `c25_typed`, `c25_value`, `c25_exact_partial`, `c25_nodes_run`, `c25_lazy`, `c25_nan_refuted`.
* `Properties/Declarations.v`: `c26_interface`, `c44_declarations`, `c44_constants`.
* `Properties/Diagnostics.v`: `c22_rejection_reports`, `c22_rejection_shown`, `c22_only_clock_errors`, `c22_no_error_partial`, `c22_refuted`, `c21_refuted`, `c34_undeclared_generic_refuted`, `c34_unused_generic_refuted`, `c34_duplicate_generic_refuted`, `c34_large_literal_refuted`, `c34_safe_partial`.
* `Properties/Exact.v`: `c54_exact`, `c54_fails`, `c54_reference`, `c54_unchained`, `c54_lazy_refuted`.
* `Properties/Extension.v`: `c53_removed`, `c53_code`, `c53_runs`.
* `Properties/ExternExact.v`: `c54_extern`, `c54_extern_fails`, `c55_extern`, `c56_extern`, `c57_extern`, `c58_extern`, `c59_extern`, `c53_extern`.
* `Properties/Externs.v`: `c48_sound`, `c48_init`, `c48_closed`, `c48_linked`, `c48_typed`.
* `Properties/Floats.v`: `c01_float`, `c01_float_closest`, `c01_float_special`, `c01_float_cases`, `c01_float_neg`, `c02_float_order`, `c02_float_trichotomy`, `c02_unordered`, `c35_float_of_int_rounded`, `c40_floats`.
* `Properties/Generics.v`: `c49_blind`, `c49_replace`, `c49_origin`.
* `Properties/Grouping.v`: `c51_same`, `c51_dropped`, `c51_runs`, `c51_clock_refuted`, `c51_arrow_refuted`.
* `Properties/Inline.v`: `c57_inlined`, `c57_converse_refuted`.
* `Properties/Laws.v`: `c58_rewritten`, `c58_laws`, `c58_runs`, `c59_split`.
* `Properties/Linking.v`: `c46_linked`, `c46_separated`.
* `Properties/Macro.v`: `c50_code`, `c50_accepts`, `c50_refused`, `c50_safe`, `c50_spaces`, `c50_crate`.
* `Properties/Names.v`: `c28_items`, `c28_references`, `c28_fields`, `c28_locals`, `c28_visible_partial`, `c28_items_refuted`, `c28_binders_refuted`, `c28_types_refuted`.
* `Properties/Observe.v`: `c60_observed`, `c60_fails`, `c60_rows`.
* `Properties/Parsing.v`: `c41_program`, `c41_expression`, `c41_answer`, `c42_unambiguous`, `c42_spaces`, `c42_writable`.
* `Properties/Reads.v`: `c16_no_bad_read`, `c16_ordered`.
* `Properties/Renaming.v`: `c52_verdict`, `c52_runs`, `c52_diagnostics`.
* `Properties/Replace.v`: `c55_refines`, `c55_alike`, `c56_accepted`, `c56_runs`.
* `Properties/Runs.v`: `c07_then_run`, `c07_fby_run`, `c20_pre_run`, `c05_pre_run`, `c05_fby_run`, `c06_flip_run`, `c10_distinct`, `c40_closed`, `c40_range`.
* `Properties/Runtime.v`: `c01_binary_nil`, `c01_unary_nil`, `c01_compare_nil`, `c01_conditional`, `c01_int_checked`, `c01_int_wrapping`, `c01_int_division`, `c01_division_panics`, `c01_int_bitwise`, `c01_int_not`, `c01_bool`, `c01_neg`, `c01_binary_range`, `c02_total`, `c02_trichotomy`, `c02_nil_operand`, `c02_float`, `c02_flip`, `c03_trusted_embed`, `c03_embed_trusted`, `c03_trusted_panics`, `c03_trusted_total`, `c04_history`, `c04_extend`, `c05_register_fby`, `c05_register_pre`, `c06_flip`, `c31_merge_when`, `c31_nil_clock`, `c31_all_nil`, `c35_nil`, `c35_int_of_float_range`, `c35_int_of_float`, `c35_truncation`, `c35_int_of_special`, `c35_float_of_int`, `c35_floor`, `c35_ceil`, `c35_sign`.
* `Properties/Scheduling.v`: `c11_providers_first`, `c11_node_order`, `c11_prog_order`, `c12_accepts_iff`, `c12_reasons`, `c12_components`, `c12_node`, `c13_permutation`, `c13_node`, `c15_definitions`, `c15_rejects`.
* `Properties/Simplify.v`: `c62_simpler`, `c62_runs`.
* `Properties/Slice.v`: `c61_slice`, `c61_alike`.
* `Properties/Steps.v`: `c08_absent`, `c08_first`, `c09_stutter`, `c09_same_present`, `c10_frame`, `c10_commute`, `c26_finite`, `c26_infinite`, `c36_if_evaluates_both`, `c36_guard_no_protection`.
* `Properties/Tracing.v`: `c47_format`, `c47_option`, `c47_transparent`, `c47_results`, `c47_streams`, `c47_moded`, `c47_step`, `c47_run`, `c47_absent`, `c47_files`, `c47_first`, `c47_default_partial`, `c47_values`, `c47_extern`, `c47_ext_refuted`, `c47_shadow_refuted`, `c46_wrapped`.
* `Properties/Translation.v`: `c20_pushed_pre`, `c07_then_default`, `c07_fby_default`, `c07_then_universal_partial`, `c07_then_universal_refuted`, `c27_bin_left`, `c27_clock_left`, `c27_cmp_chain`, `c30_identities`, `c18_equations`, `c18_unique`, `c14_order`, `c14_init`, `c14_source`.
* `Properties/Typing.v`: `c23_program`, `c23_registers_partial`, `c23_singleton_refuted`, `c23_expression`, `c23_inference`, `c24_call`, `c24_unique`, `c24_recorded`, `c24_signature`, `c17_exact`, `c17_universal`.
* `Properties/Universal.v`: `c39_equations`, `c32_same_partial`, `c32_default_meaning_partial`, `c32_nested_refuted`, `c32_literal_refuted`.

The gate lists 30 library axioms, all of the standard library: those of `Coq.Reals` (`ClassicalDedekindReals`, and the sealed module of
`Rdefinitions`), `FunctionalExtensionality.functional_extensionality_dep` and `Classical_Prop.classic`, which come with Flocq's real numbers
and on which only the theorems of `Properties/Floats.v` depend, as listed above; and the seven of `Coq.ssr.ssrunder.Under_rel.*`, the
module type of `ssrunder`, loaded by the files of the standard library that use ssreflect, on which no theorem depends.
