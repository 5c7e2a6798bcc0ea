{"id": "C01", "title": "Nil is contagious through every arithmetic and logical operator", "statement": "Applying any unary or binary operator to values of a Lustre stream yields nil exactly when at least one operand is nil; when every operand is defined the result is exactly the scalar result of the operator on the payloads, and the only panics are those of the scalar operator itself (overflow in checked builds, division or remainder by zero, i64::MIN / -1). On finite floats + - * / return the closest representable number to the exact result (ties to even, infinity beyond the largest); infinities, NaN and divisions by zero follow IEEE 754.", "quantifier": "all operators (+ - * / % and or xor not neg), all operand values of each scalar type, both overflow modes", "why_tests_cant": "the operand space is 2^128 pairs per operator; a test samples a few", "anchors": ["chandeliers-sem/src/nillable.rs: Nillable, nillable_impl_ops_binary!, nillable_impl_ops_unary!", "chandeliers-sem/src/candle.rs: binop!, unop!"]}
{"id": "C02", "title": "Comparison operators agree with the order of the payloads and are nil otherwise", "statement": "For defined, comparable operands `<`, `<=`, `>`, `>=`, `=`, `<>` return the boolean of the mathematical order (of the integers, of false < true, of the numbers that floats stand for, with infinities at the ends). The result is nil exactly when an operand is nil or, for the four order comparisons, the operands are unordered (a NaN); with a NaN `=` is false and `<>` is true. In particular `a <= b` and `a > b` are never both true, on integers and booleans exactly one of them is true, and `a < b` equals `b > a`.", "quantifier": "all pairs of stream values of type int, bool or float", "why_tests_cant": "the operand space is far beyond enumeration and NaN/nil interactions are easily missed", "anchors": ["chandeliers-sem/src/nillable.rs: Nillable::eq, Nillable::cmp", "chandeliers-sem/src/candle.rs: cmp!"]}
{"id": "C03", "title": "embed then trusted is the identity, trusted panics exactly on a nil component", "statement": "For a tuple of plain values of any shape, `trusted(embed(v))` returns v; `trusted(w)` panics iff some component of w, at any depth, is nil, and otherwise `embed(trusted(w)) = w`.", "quantifier": "all (nested) tuple values", "why_tests_cant": "unbounded nesting and arity", "anchors": ["chandeliers-sem/src/stepping.rs: Embed, Trusted", "chandeliers-sem/src/nillable.rs: unwrap"]}
{"id": "C04", "title": "A history buffer of depth n answers exactly the last n pushed values", "statement": "After any sequence of `update`s on a buffer created empty with capacity n, `ago(k)` for 1 <= k <= n is the k-th most recently pushed value (nil if fewer than k were pushed), and `ago(k)` panics for k = 0 and for k > n, for every n and every sequence.", "quantifier": "all capacities n, all sequences of pushed values, all k", "why_tests_cant": "unbounded capacity and history length", "anchors": ["chandeliers-sem/src/time_travel.rs: O, S, Ago, Downcast, Extend, Update, IntoHistory"]}
{"id": "C05", "title": "A register implements `init fby next` on the instants where its clock is active", "statement": "Driving a register at every instant through initialise/read/schedule/commit, the value read at the first active instant is the initialiser, at the (k+1)-th active instant it is the value scheduled at the k-th active instant, it is nil at inactive instants, and inactive instants (where the operands are nil) do not change what later active instants read.", "quantifier": "all sequences of (clock, init, next) triples where init and next are defined exactly when the clock is true", "why_tests_cant": "arbitrarily long interleavings of active and inactive instants", "anchors": ["chandeliers-sem/src/registers.rs: Register", "chandeliers-san/src/codegen/mod.rs: Statement::InitRegister / UpdateRegister, Expr::FetchRegister"]}
{"id": "C06", "title": "A flip implements `->` on the instants where its operands are present", "statement": "`initial -> continued` in `#[universal_pre]` mode yields `initial` at the first instant where `initial` is present, `continued` at every later present instant, and nil when `initial` is absent; absent instants do not consume the first-instant marker.", "quantifier": "all sequences of operand pairs", "why_tests_cant": "arbitrarily long interleavings", "anchors": ["chandeliers-sem/src/registers.rs: Flip", "chandeliers-san/src/codegen/mod.rs: Expr::Flip"]}
{"id": "C07", "title": "The n-ary `->` of the default mode: a1 -> a2 -> ... -> an takes a_i at instant i", "statement": "In a node without `#[universal_pre]`, the expression `e_0 -> e_1 -> ... -> e_m` evaluates at instant t (starting at 0) to the value of e_min(t,m) at that instant, for every chain length; the `fby` chain `e_0 fby ... fby e_m` evaluates at instant t to the value `pre^i e_i` with i = min(t,m). In `#[universal_pre]` mode `e_0 -> ... -> e_m` equals `e_0 -> e_m`.", "quantifier": "all chain lengths, all operand expressions, all instants", "why_tests_cant": "unbounded chain length and time", "anchors": ["chandeliers-syn/src/translate/mod.rs: Translate for src::expr::Then, Fby, right_associative", "chandeliers-sem/src/candle.rs: later!"]}
{"id": "C08", "title": "A node called with an absent first input does nothing and returns all nil", "statement": "Stepping a node instance when its first input is nil returns nil in every output component and leaves the complete state of the instance (clock, history buffers, registers, flips, all sub-instances, transitively) unchanged, with no panic and no assertion evaluated.", "quantifier": "all programs, all nodes, all states, all inputs whose first component is nil", "why_tests_cant": "all programs and states", "anchors": ["chandeliers-sem/src/candle.rs: implicit_clock!", "chandeliers-san/src/codegen/mod.rs: internal_decl step function"]}
{"id": "C09", "title": "Inserting absent instants never changes what a node computes on present instants", "statement": "For every node and every input sequence, deleting the absent instants (first input nil) from the sequence yields the same outputs at the remaining instants, the same final state and the same panics.", "quantifier": "all programs, nodes and input sequences", "why_tests_cant": "unbounded sequences, all programs", "anchors": ["chandeliers-sem/src/candle.rs: implicit_clock!", "chandeliers-san/src/codegen/mod.rs"]}
{"id": "C10", "title": "Distinct call sites have independent state", "statement": "Two occurrences of a call to the same node in a program never share state: evaluating one call site changes only the instance of that call site; every other instance, the history buffers and the registers are untouched.", "quantifier": "all programs, call sites and states", "why_tests_cant": "quantifies over all programs", "anchors": ["chandeliers-syn/src/translate/mod.rs: Call", "chandeliers-san/src/codegen/mod.rs: Expr::Substep", "chandeliers-sem/src/candle.rs: substep!"]}
{"id": "C11", "title": "Scheduled statements read every variable after it is written", "statement": "When dependency analysis accepts a set of items, then in the order it returns each item comes strictly after the provider of every unit it requires (if that unit is provided inside the set).", "quantifier": "all finite sets of items, with arbitrary provide/require lists", "why_tests_cant": "all dependency graphs of any size; requires correctness of Tarjan's algorithm", "anchors": ["chandeliers-san/src/causality/graph.rs: Graph::scheduling, SccExplorer", "chandeliers-san/src/causality/depends.rs"]}
{"id": "C12", "title": "Dependency analysis rejects exactly the ill-founded inputs", "statement": "Scheduling succeeds if and only if no unit is provided twice (or both by an item and by the context), and the relation 'requires a unit provided by' is acyclic. On a source node this means: every output and local variable is assigned by exactly one equation, no input is assigned, and no equation needs, directly or through others, the present value of what it assigns (operands of 'pre' and right operands of 'fby' are past values).", "quantifier": "all finite sets of items", "why_tests_cant": "all graphs of any size, both directions", "anchors": ["chandeliers-san/src/causality/graph.rs: Graph::scheduling"]}
{"id": "C13", "title": "Scheduling neither loses nor duplicates nor alters items", "statement": "When scheduling succeeds the result is a permutation of the inserted items; items that provide nothing come last in their original order.", "quantifier": "all finite sets of items", "why_tests_cant": "all graphs of any size", "anchors": ["chandeliers-san/src/causality/graph.rs: Graph::scheduling"]}
{"id": "C14", "title": "The textual order of equations is irrelevant", "statement": "If two nodes differ only by a permutation of their statements and both are in an order where every variable is written before it is read, then from the same state and inputs, whenever both steps succeed they return the same outputs and the same next state.", "quantifier": "all nodes, permutations, states and inputs", "why_tests_cant": "all programs and all permutations", "anchors": ["chandeliers-san/src/causality/mod.rs: Causality for Node", "chandeliers-san/src/codegen/mod.rs"]}
{"id": "C15", "title": "Every declared output and local has exactly one definition and inputs have none", "statement": "A node accepted by the causality pass defines every declared local and output exactly once across all its statements (counting components of tuple targets) and never redefines an input.", "quantifier": "all nodes", "why_tests_cant": "all programs", "anchors": ["chandeliers-san/src/causality/mod.rs", "chandeliers-san/src/causality/graph.rs: already_provided, must_provide"]}
{"id": "C16", "title": "Accepted nodes never read beyond their history", "statement": "For a node accepted by the depth analysis, no step of any instance, from any reachable state, ever panics with a history access out of range, and no variable is read at depth 0 before it is assigned.", "quantifier": "all accepted programs, all reachable states, all inputs", "why_tests_cant": "all programs, unbounded runs", "anchors": ["chandeliers-san/src/positivity.rs", "chandeliers-sem/src/time_travel.rs: ago", "chandeliers-sem/src/candle.rs: var!"]}
{"id": "C17", "title": "The stored history of each variable is exactly as deep as needed", "statement": "The history depth recorded for each variable by the depth analysis equals the largest number of `pre`s under which the variable occurs in the node (0 if it never does), so no value is stored that cannot be read.", "quantifier": "all accepted nodes", "why_tests_cant": "all programs", "anchors": ["chandeliers-san/src/positivity.rs: DepthCtx, MakePositive for Node"]}
{"id": "C18", "title": "The values computed by a node satisfy its Lustre equations", "statement": "For an accepted node in the default mode, the streams of values taken by its variables over any run satisfy every source equation `x = e` at every instant under the reference stream semantics of `pre`, `fby`, `->`, operators, `if`, `when/whenot/merge` and node calls.", "quantifier": "all accepted nodes (any number of equations, any nesting, node calls), all input streams, all instants", "why_tests_cant": "compiler correctness over all programs and unbounded runs", "anchors": ["chandeliers-syn/src/translate/mod.rs", "chandeliers-san/src/codegen/mod.rs", "chandeliers-sem/src/candle.rs", "chandeliers-san/src/causality", "chandeliers-san/src/positivity.rs"]}
{"id": "C19", "title": "Accepted nodes with defined inputs have defined outputs", "statement": "README of chandeliers-lus: 'The static analysis performed inside decl guarantees that a node whose inputs are all non-Nil will have non-Nil outputs'. For every program accepted by the pipeline, stepping any node with all inputs defined returns outputs that are all defined (or panics through an assertion or arithmetic).", "quantifier": "all accepted programs, all sequences of defined inputs", "why_tests_cant": "all programs and unbounded runs; the counterexamples need specific interactions of features", "anchors": ["chandeliers-lus/src/../README.md", "chandeliers-san/src/positivity.rs", "chandeliers-san/src/clockcheck.rs", "chandeliers-sem/src/candle.rs"]}
{"id": "C20", "title": "Pushing `pre` to the variables preserves the meaning of expressions", "statement": "Translating an expression under n `pre`s and evaluating it at instant t gives the reference value of the expression at instant t - n, where variables are nil before instant 0, for every expression and every n and t.", "quantifier": "all expressions, all depths n, all instants t", "why_tests_cant": "all expressions of any depth", "anchors": ["chandeliers-syn/src/translate/mod.rs: ExprCtxView::bump, Translate for Pre/Fby/Then/Call/Var", "README.md#temporals"]}
{"id": "C21", "title": "Temporal operators on clocked values are refused in the default mode", "statement": "README: 'In this default mode, it is thus forbidden to use temporal operators (pre, ->, fby) on clocked values'. A node without `#[universal_pre]` that applies `pre`, `->` or `fby` to an expression whose clock is `when c`/`whenot c` does not compile.", "quantifier": "all default-mode nodes", "why_tests_cant": "absence of an accepted bad program over all programs", "anchors": ["chandeliers-san/src/clockcheck.rs: ClockCheckExpr for Expr (Later, DummyPre)", "chandeliers-lus/src/lib.rs: decl"]}
{"id": "C22", "title": "Code is generated only if no error was recorded, and rejection always reports an error", "statement": "The compiler returns generated code only when no fatal error was recorded; when it returns no code at least one error was recorded.", "quantifier": "all programs", "why_tests_cant": "all programs and all combinations of passes", "anchors": ["chandeliers-lus/src/lib.rs: decl, prog_pipeline", "chandeliers-err/src/lib.rs: EAccum, EAccumScope"]}
{"id": "C23", "title": "Well-typed expressions evaluate to values of their type", "statement": "If typechecking assigns type T to an expression in a context, then evaluating it in any state where every variable, buffer and register holds a value of its declared type yields a value of shape T (possibly nil) and never a type error.", "quantifier": "all expressions, contexts, states", "why_tests_cant": "type soundness over all programs", "anchors": ["chandeliers-san/src/typecheck.rs: TypeCheckExpr for Expr"]}
{"id": "C24", "title": "Generic instantiation is sound and complete", "statement": "Checking a call's argument types against a generic signature succeeds exactly when some assignment of the type variables makes the expected input types equal to the actual ones; the assignment found is the unique one, and the type given to the call is the declared output type under that assignment.", "quantifier": "all signatures whose type variables are declared, all argument types", "why_tests_cant": "all types of any nesting", "anchors": ["chandeliers-san/src/typecheck.rs: TyUnifier, Sp<ty::Tuple>::identical, substitute"]}
{"id": "C25", "title": "Constants have the same value as the same expression evaluated in a node", "statement": "If a constant expression evaluates without panic as a dynamic expression then its compile-time value is the same value; the constant evaluation may succeed where the dynamic one panics (untaken `if` branches).", "quantifier": "all constant expressions", "why_tests_cant": "all expressions", "anchors": ["chandeliers-san/src/codegen/constexpr.rs", "chandeliers-sem/src/candle.rs: ifx!, binop!, unop!, cmp!"]}
{"id": "C26", "title": "#[main(n)] runs the node exactly n times, forever for n = 0", "statement": "The generated main performs exactly n successive steps from the initial state when n > 0 and stops at the first panic; for n = 0 it never terminates normally.", "quantifier": "all programs and all n", "why_tests_cant": "unbounded n", "anchors": ["chandeliers-san/src/codegen/options.rs: FnMain, FnTest"]}
{"id": "C27", "title": "Associativity and arity of infix operators", "statement": "A chain `e0 op1 e1 op2 ... en` of additive, multiplicative, `and`, `or` or clock operators is read left-associatively; a comparison chain with three or more operands is rejected, never given some meaning.", "quantifier": "all operator chains of any length", "why_tests_cant": "unbounded chain length", "anchors": ["chandeliers-syn/src/translate/mod.rs: left_associative, right_associative, Translate for Cmp"]}
{"id": "C28", "title": "Generated identifiers never collide", "statement": "Two distinct source entities (nodes, global constants, local variables of a node, registers, flips) of programs compiled in the same crate get distinct generated identifiers, and no generated identifier equals a visible source name of a different entity.", "quantifier": "all names and invocation ids", "why_tests_cant": "all strings", "anchors": ["chandeliers-san/src/codegen/mod.rs: AsIdent, SanitizedIdent", "chandeliers-lus/src/pipeline.rs: new_run_uid"]}
{"id": "C29", "title": "Attributes are applied, rejected or accumulated as documented", "statement": "An attribute that does not apply to a kind of declaration makes it be rejected; otherwise the options of the declaration are exactly the effect of the attribute list: repeated documentation and allow attributes accumulate in order, repeated single-valued attributes keep the last value, untouched options keep their default; a declaration's list of type variables has no duplicates.", "quantifier": "all attribute lists on all declaration kinds", "why_tests_cant": "all sequences of attributes of any length", "anchors": ["chandeliers-syn/src/translate/options.rs: Decl::with, project!, SetOpt", "chandeliers-san/src/ast/options.rs"]}
{"id": "C30", "title": "Each register, flip and call site of a translated node has its own identity and complete support code", "statement": "In the translation of any node, the identifiers of registers, flips and sub-instances are pairwise distinct and dense; each register that is read has exactly one initialisation statement and exactly one update statement.", "quantifier": "all nodes in both modes", "why_tests_cant": "all programs", "anchors": ["chandeliers-syn/src/translate/mod.rs: fresh ids, Fby/Pre/Then/Call"]}
{"id": "C31", "title": "merge is the inverse of when/whenot", "statement": "For a defined clock b and any stream value x, `merge b (x when b) (x whenot b)` is x; `x when b` is nil exactly when b is false or nil or x is nil; if b is nil every clock operator returns nil.", "quantifier": "all values of any shape", "why_tests_cant": "all values of any tuple shape", "anchors": ["chandeliers-sem/src/candle.rs: when!, whenot!, merge!"]}
{"id": "C32", "title": "#[universal_pre] does not change the meaning of unclocked nodes without chained arrows", "statement": "For a node whose expressions are on the implicit clock, compiling with and without `#[universal_pre]` gives the same outputs at every instant, provided each `->` chain has two operands.", "quantifier": "all such nodes and input streams", "why_tests_cant": "equivalence of two compilation schemes over all programs", "anchors": ["chandeliers-syn/src/translate/mod.rs: use_registers branches", "chandeliers-sem/src/registers.rs", "chandeliers-sem/src/time_travel.rs"]}
{"id": "C33", "title": "Clock-checked values are present exactly when their clock is active", "statement": "For a node accepted by the clock analysis (and with no temporal operator on clocked values in default mode), at every instant where the implicit clock is active, an expression given clock `when c` evaluates to a present value iff c is true, `whenot c` iff c is false, and the implicit clock iff always, provided the variables satisfy their declared clocks.", "quantifier": "all expressions and stores", "why_tests_cant": "soundness of the clock calculus over all programs", "anchors": ["chandeliers-san/src/clockcheck.rs"]}
{"id": "C34", "title": "The compiler never panics on a syntactically valid program", "statement": "For every syntactically valid program the analysis passes either succeed or report an error; they never abort.", "quantifier": "all programs", "why_tests_cant": "all programs", "anchors": ["chandeliers-san/src/typecheck.rs: require_identical, from_generics", "chandeliers-san/src/clockcheck.rs: clock_of"]}
{"id": "C35", "title": "Standard library conversions preserve absence and are the Rust casts on present values", "statement": "float_of_int, int_of_float, ceil and floor map nil to nil and otherwise apply the scalar conversion; int_of_float always lands in the i64 range (saturating, NaN to 0); float_of_int gives the float closest to the integer.", "quantifier": "all stream values", "why_tests_cant": "all floats and ints", "anchors": ["chandeliers-std/src/cast.rs"]}
{"id": "C36", "title": "An untaken branch of `if` is still evaluated", "statement": "Evaluating `if c then a else b` evaluates both branches at every instant: sub-nodes in both branches advance at every instant (so counters inside an untaken branch keep counting), and a panic in the untaken branch panics the step.", "quantifier": "all expressions and states", "why_tests_cant": "all programs", "anchors": ["chandeliers-sem/src/candle.rs: ifx!", "src/lib.rs: counting_twice"]}
{"id": "C37", "title": "The depth analysis accepts exactly the expressions that never look before the first instant", "statement": "In the default mode an equation is refused by the depth analysis iff, at its first instant or at an instant selected by the chains of `->` and `fby` it is under, one of its operands refers to a variable before instant 0 (each `pre` goes one instant back, operand i of `fby` is i instants old and used from instant i on, operand i of `->` is used from instant i on). Consequently every equation of an accepted program satisfies this.", "quantifier": "all expressions, nesting and chain lengths", "why_tests_cant": "both directions quantify over all expressions", "anchors": ["chandeliers-san/src/positivity.rs", "chandeliers-syn/src/translate/mod.rs: pre, fby, then"]}
{"id": "C38", "title": "Incompatible attributes are always reported", "statement": "If two attributes of one declaration are incompatible (the same single-valued option given twice, export together with pub, or test together with main, export or pub), compiling the program reports it, whatever the order of the attributes; a program without such a pair gets no such report.", "quantifier": "all programs, all attribute lists, all pairs of attributes and their order", "why_tests_cant": "every order and every surrounding attribute list must be covered; the existing tests exercise a handful of pairs in one order", "anchors": ["chandeliers-syn/src/translate/options.rs: Decl::with, duplicate!, conflicting!", "chandeliers-err/src/lib.rs: EAccum::warning"]}
{"id": "C39", "title": "Every run satisfies the source equations, each node in its own mode", "statement": "For every program that compiles, with any node carrying #[universal_pre] or not, and all inputs, the outputs of a run that does not panic satisfy the equations of the source: pre, fby and -> refer to instants of the node in the default mode, and to the instants at which the clock of the operand ticks in a #[universal_pre] node.", "quantifier": "all programs, all choices of modes, all input streams and lengths", "why_tests_cant": "equivalence between the compiled register machine and the stream equations over all programs, clocks and histories", "anchors": ["chandeliers-syn/src/translate/mod.rs: use_registers branches", "chandeliers-sem/src/registers.rs", "chandeliers-sem/src/time_travel.rs", "chandeliers-san/src/codegen"]}
{"id": "C40", "title": "Integers and floats never leave their 64-bit formats", "statement": "If the inputs and the global constants of a compiled program are 64-bit integers (or nil, or of another type), so are all its outputs at every instant of a run that does not panic, in checked and in wrapping builds and in both node modes; in particular integer literals that do not fit are never compiled. Likewise all floats computed are 64-bit floats if the inputs, constants and literals are, and any property of scalars that every operator preserves is preserved by whole runs.", "quantifier": "all programs that compile, all modes and build profiles, all input streams and lengths", "why_tests_cant": "overflow at any depth of any expression after any number of instants must be excluded", "anchors": ["chandeliers-sem/src/candle.rs: binop!, unop!", "chandeliers-syn/src/translate/mod.rs: literals"]}
{"id": "C41", "title": "The parser accepts exactly the programs of the grammar", "statement": "A sequence of tokens is accepted as a program, with a given syntax tree, if and only if the tree is written by exactly these tokens according to the grammar of the language: declarations, attributes, interfaces, statements, and expressions with the levels or < and < comparison < fby < -> < + - < * / % < when whenot < pre not - < calls, parentheses, variables and literals; a chain of operators of the same level is one tree node listing its operands in order. Every sequence of tokens is either accepted entirely or refused.", "quantifier": "all sequences of tokens, all syntax trees, any nesting depth", "why_tests_cant": "soundness and completeness of a hand-written recursive descent parser with look-ahead functions over all inputs", "anchors": ["chandeliers-syn/src/ast.rs: expr::*, Interface, Node, Decl, Prog", "chandeliers-syn/src/ast.rs: punctuated_parse_*"]}
{"id": "C42", "title": "The concrete syntax is unambiguous, independent of spacing, and can express every tree", "statement": "No text is the text of two different programs. Changing the spaces around tokens, other than between two punctuation characters, changes neither acceptance nor the tree. Every expression tree whose names are not keywords and whose chains are not empty or mixed can be written: there is a text that is parsed as the same tree up to parentheses around a single expression.", "quantifier": "all sequences of tokens, all programs, all expressions", "why_tests_cant": "ambiguity and unwritable trees can only be excluded over all texts", "anchors": ["chandeliers-syn/src/ast.rs: expr::*", "chandeliers-syn/src/ast.rs: Prog"]}
{"id": "C43", "title": "Rendering the code neither aborts the macro nor produces keywords", "statement": "Turning an analysed program into Rust tokens does not abort the macro: every identifier that is created is a legal identifier, every literal is a legal literal, the types and clocks of all registers are known, and constants only contain constant expressions. Identifiers that are not written as raw identifiers are not keywords of Rust, whatever the names of nodes, constants and variables.", "quantifier": "all programs, invocation numbers, names and literals", "why_tests_cant": "names and literals are unbounded, and an abort depends on facts established by several earlier passes", "anchors": ["chandeliers-san/src/codegen/mod.rs: ToTokens instances", "chandeliers-san/src/codegen/constexpr.rs", "chandeliers-san/src/codegen/options.rs"]}
{"id": "C44", "title": "Declarations and equations can be written in any order", "statement": "If the declarations of an accepted program are written in another order, the program is still accepted, every declaration gets the same code, every constant has the same value, and every node starts in the same state, computes the same values and fails at the same steps. It is also still accepted if the equations of its nodes are written in another order.", "quantifier": "all programs, all permutations of their declarations, all inputs, any number of steps", "why_tests_cant": "all n! orders of arbitrarily many declarations; order dependence hides in the environments that each pass threads through the declarations", "anchors": ["chandeliers-san/src/causality/mod.rs: Causality for Prog", "chandeliers-san/src/typecheck.rs: ast::decl::Prog::typecheck", "chandeliers-san/src/causality/graph.rs: Graph::scheduling"]}
{"id": "C45", "title": "Exactly the well-formed programs are accepted", "statement": "The macro generates code for a program if and only if: every attribute is well formed and allowed where it is; integer literals are i64; no name is declared twice and no declaration depends on itself; every variable has one equation and no equation waits for itself within an instant; every expression has a type, the clock of a variable is a boolean declared before it, type variables are parameters and parameters are used; equations respect the clocks and past values exist where they are read; executed nodes have no interface; and constants are computable at compile time. Otherwise it expands to at least one compile error, unless it aborts. No error is recorded and dropped on the way exactly when, besides, the right hand sides of default-mode nodes have a clock once the later operands of fby and -> are taken into account.", "quantifier": "all programs, all expressions, all nestings of all constructs, both modes of pre and fby", "why_tests_cant": "both directions range over infinitely many programs; the passes share environments that are built in an order chosen by the scheduler, and each error must be found by some pass whatever else the program contains", "anchors": ["chandeliers-lus/src/lib.rs: prog_pipeline", "chandeliers-san/src/typecheck.rs", "chandeliers-san/src/clockcheck.rs", "chandeliers-san/src/positivity.rs", "chandeliers-san/src/causality/mod.rs", "chandeliers-syn/src/translate/mod.rs", "chandeliers-syn/src/translate/options.rs"]}
{"id": "C46", "title": "Separate compilation", "statement": "A library and a client accepted by two invocations of the macro, the client with extern declarations of nodes and constants of the library with the same types, are accepted by one invocation without these declarations, produce the same code, and behave in the same way. Conversely, in an accepted program, what one part uses of a part that does not depend on it can be declared as extern.", "quantifier": "all programs, all ways of cutting them in two, all sets of extern declarations, all inputs and numbers of steps", "why_tests_cant": "the passes thread environments that are built from all the declarations in scheduled order; that the code of a node depends on nothing but the interfaces of what it names concerns every program and every cut", "anchors": ["chandeliers-san/src/typecheck.rs: ExtNode, ExtConst", "chandeliers-san/src/causality/mod.rs", "chandeliers-san/src/causality/depends.rs", "chandeliers-lus/src/pipeline.rs", "chandeliers-san/src/codegen/mod.rs"]}
{"id": "C47", "title": "Traces show the streams and change nothing else", "statement": "A node with #[trace] prints, at each instant where it is active, a line with its inputs, then whatever the nodes it calls print, then a line with all its variables; nothing at absent instants and nothing for nodes without the attribute. The texts are the format strings with the names between braces replaced by the values of the streams of the node at this instant, `_clk` by the number of earlier active instants, `_this` by the name of the node; the lines go to the stream that the attribute names. The line with the inputs is printed even if the step then fails. The values computed and the failures are the same as without the attribute.", "quantifier": "all accepted programs, all format strings, all inputs, any number of steps", "why_tests_cant": "format strings, nesting of traced nodes, activation patterns and run lengths are unbounded, and capturing stdout in a few runs says nothing about interleavings with callees that are sometimes absent", "anchors": ["chandeliers-san/src/codegen/options.rs: Traces", "chandeliers-san/src/codegen/mod.rs: fmt_strings, self_assigned, Node::to_tokens, ExtNode::to_tokens", "chandeliers-sem/src/nillable.rs: Display", "README.md: Formatting"]}
{"id": "C48", "title": "Programs with extern nodes at run time", "statement": "Whatever an extern node does, it is asked exactly once per instant where its first input is present, in order and with nothing but its inputs, and not at absent instants; the nodes that use it give the outputs that their equations define from its answers. All the nodes of an accepted program have an initial state, and programs without extern nodes run as if extern nodes did not exist. If the extern nodes answer values of the declared types, outputs have the declared types and nothing fails but arithmetic and assertions. If the extern nodes are nodes of a library compiled by another invocation of the macro, outputs and failures are those of the library and the program compiled by one invocation.", "quantifier": "all accepted programs, all behaviours of the extern nodes (deterministic functions of the inputs received so far, which may fail), all inputs, any number of steps, all ways of cutting a program into a library and a client", "why_tests_cant": "a test fixes the extern code, the activation pattern and the run length; that the state kept for an extern node stays in step with its activations is a statement about all of them", "anchors": ["chandeliers-san/src/codegen/mod.rs: impl ToTokens for ExtNode", "chandeliers-sem/src/candle.rs: implicit_clock!, substep!", "chandeliers-sem/src/stepping.rs: Step"]}
{"id": "C49", "title": "Generic types cannot be inspected", "statement": "Whatever a node of an accepted program does with values of a generic type, it only moves them. If the values received at a generic type are replaced by others, of the same type or of another one, in any related way, then the outputs are related in the same way at this type, equal at the other types and absent at the same instants, or both runs fail at the same instant with the same error. In particular a value of a generic type in an output was received, now or before, in an input of the same generic type.", "quantifier": "all accepted programs in both modes, all nodes, all choices of a relation for each type variable, all related inputs, any number of steps, all extern nodes that do not inspect generic values either", "why_tests_cant": "a test instantiates each type variable by one type and a few values; independence of the values and of the type is a statement about pairs of runs and about every instantiation at every call site", "anchors": ["README.md: Generics", "chandeliers-san/src/typecheck.rs: TypeCheckExpr, instantiate", "chandeliers-san/src/codegen/mod.rs: impl ToTokens for Node (generic parameters)", "chandeliers-sem/src/candle.rs: ifx!, when!, merge!, substep!"]}
{"id": "C50", "title": "The macro, from tokens to verdict", "statement": "The outcome of the macro is determined by its tokens. Code is generated only for token sequences that spell a well-formed program, and, if names and literals are ordinary (no raw or special identifiers, integers that fit in 64 bits, floats that are not infinite), for all of them. A syntax error is reported exactly on sequences that spell no program. Spaces only matter between punctuation characters. On ordinary tokens the macro does not abort, provided that step counts fit and generic types are determined by the inputs. Invocations in the same crate do not influence each other's outcome.", "quantifier": "all sequences of token trees, all invocation numbers, all lists of invocations", "why_tests_cant": "token sequences are unbounded and most defects of a composition of passes show on inputs that no single pass was tested with; independence of invocations is a statement about all contexts", "anchors": ["chandeliers-lus/src/lib.rs: decl, prog_pipeline", "chandeliers-lus/src/pipeline.rs: new_run_uid, CompilerPass", "chandeliers-syn/src/ast.rs", "chandeliers-san/src/codegen/mod.rs: AsIdent"]}
{"id": "C51", "title": "Redundant parentheses", "statement": "Parentheses around one expression or pattern that only make the grouping of operators explicit (left to right for arithmetic and `when`, right to left for `fby`) do not change the diagnostics of the macro nor any run of the generated code: same constants, initial states, outputs, failures and traces. Removing them never makes an accepted program refused; adding them neither, except around a clock (`x when (b)` is refused). `a -> b -> c` is not `a -> (b -> c)`.", "quantifier": "all source programs, all inputs, all run lengths", "why_tests_cant": "every pass and the evaluation have their own case for parentheses, under every operator, at any depth; tests sample a few", "anchors": ["chandeliers-syn/src/translate/mod.rs: expr::Paren, left_associative, right_associative", "chandeliers-san/src/ast/mod.rs: DummyParen", "chandeliers-san/src/clockcheck.rs: as_clock", "chandeliers-san/src/typecheck.rs, positivity.rs, causality/depends.rs, codegen/mod.rs: DummyParen"]}
{"id": "C52", "title": "Names do not matter", "statement": "Give other names to the constants, the nodes, the type variables and, node by node, the variables of a program, so that distinct names stay distinct, no type variable takes the name of a primitive type, and no variable takes the name of a constant its node reads. The program is accepted if and only if it was; then it gives the same warnings, its constants have the same values, and its nodes and its main function give the same outputs and fail with the same panic at the same step. If each name is replaced in the same way everywhere, a rejected program is rejected with the same errors in the same order.", "quantifier": "all source programs, all injective renamings (those of variables may differ from node to node), all inputs, all run lengths", "why_tests_cant": "no test renames a program; every pass looks names up in its own maps (locals, globals, nodes, type variables), shadowing of a constant by a variable is decided in the translation and scheduling could follow the order of names", "anchors": ["chandeliers-syn/src/translate/mod.rs: ExprCtx, Translate for src::expr::Var", "chandeliers-san/src/causality/graph.rs: Graph", "chandeliers-san/src/causality/depends.rs: Reference", "chandeliers-san/src/typecheck.rs: TyCtx, TyUnifier", "chandeliers-san/src/clockcheck.rs", "chandeliers-san/src/codegen/mod.rs"]}
{"id": "C53", "title": "Other declarations do not matter", "statement": "Declarations that the rest of a program does not mention can be removed: what remains is accepted. If a program and a larger program that contains all its declarations are both accepted, the code generated for the common declarations is the same, and behaves the same: same values of constants, same initial states, and the nodes and the main function give the same outputs, states and panics on all inputs.", "quantifier": "all source programs, all sub-programs (declarations in any order and interleaving), all inputs, all run lengths, both overflow modes; for programs with extern nodes: the outputs and panics of nodes, in the default mode", "why_tests_cant": "each test is one fixed program; the scheduling of declarations, the contexts of the checks and the constants are all built from the whole program, so a dependence on an unrelated declaration would show only when two programs are compared", "anchors": ["chandeliers-san/src/causality/graph.rs: Graph", "chandeliers-san/src/causality/mod.rs", "chandeliers-san/src/typecheck.rs: TyCtx", "chandeliers-san/src/clockcheck.rs", "chandeliers-san/src/codegen/mod.rs", "chandeliers-lus/src/lib.rs: decl"]}
{"id": "C54", "title": "Runs fail only when the equations fail", "statement": "In the default mode, a node of an accepted program runs on a sequence of inputs without panic if and only if the equations of the source have a meaning on these inputs in which every operand that is evaluated has a value, and then the outputs are that meaning: there is no other cause of failure (no missing history, no unbound variable, no scheduling issue, no wrong shape). What is evaluated is: all the operands of operators and calls, the condition and both branches of conditionals and `merge`, and the operands of `->` and `fby` from the one in use on. For programs without `->` and `fby` this is the plain reference meaning. With extern nodes, the equations also say that these answered, and that they were given as many values as they declare.", "quantifier": "all accepted source programs in the default mode, with or without extern nodes (whatever these answer, failures included), all nodes, all inputs, all run lengths, all values of extern constants, both overflow modes", "why_tests_cant": "the claim is an equivalence with the existence of streams that solve the equations, on unbounded runs; tests exhibit individual runs that succeed or fail", "anchors": ["chandeliers-sem/src/candle.rs", "chandeliers-sem/src/time_travel.rs", "chandeliers-san/src/causality/mod.rs", "chandeliers-san/src/positivity.rs", "chandeliers-san/src/codegen/mod.rs", "chandeliers-syn/src/translate/mod.rs"]}
{"id": "C55", "title": "Nodes can be replaced by equivalent nodes", "statement": "In the default mode, replace nodes of an accepted program by nodes with the same name and outputs that cannot be told apart by running them (same outputs whenever one of them does not panic), or whose equations have the same solutions. If the new program is accepted, no node of the program can be told apart from its old version by running it. The one-sided version holds as well: if the new nodes give at least the outputs that the old ones gave, so do all the nodes that call them. Extern nodes as well can be replaced by others that answer at least as much.", "quantifier": "all pairs of accepted source programs in the default mode, with or without extern nodes (whatever these answer, failures included), all nodes, all inputs, all run lengths, both overflow modes", "why_tests_cant": "the claim quantifies over all contexts in which a node can be called and over all pairs of equivalent nodes", "anchors": ["chandeliers-sem/src/candle.rs", "chandeliers-sem/src/stepping.rs", "chandeliers-san/src/codegen/mod.rs", "chandeliers-syn/src/translate/mod.rs"]}
{"id": "C56", "title": "Assertions only check", "statement": "Removing assertions from an accepted program leaves an accepted program. In the default mode, whenever a node of the original program does not panic on some inputs, the same node without the assertions gives the same outputs: assertions (with the nodes that they call) have no other effect than to panic.", "quantifier": "all accepted source programs, all choices of assertions to remove; for the outputs: all programs in the default mode, with or without extern nodes (whatever these answer, failures included), all inputs, all run lengths, both overflow modes", "why_tests_cant": "assertions take part in scheduling, in the depths of the histories and in the numbering of the nodes that are called; that none of it is visible is a claim about all programs", "anchors": ["chandeliers-sem/src/candle.rs: truth", "chandeliers-san/src/causality/depends.rs", "chandeliers-san/src/codegen/mod.rs", "chandeliers-syn/src/translate/mod.rs"]}
{"id": "C57", "title": "A local variable can be replaced by its definition", "statement": "In a node of a program in the default mode, remove a local variable z defined by an equation `z = d` and write `(d)` wherever z was used, z being used neither under `pre` nor on the right of `fby`. If both programs are accepted, whenever a node of the original program does not panic, the new one gives the same outputs, even if d calls nodes and is now evaluated several times or not at all. (The converse is false: an unused definition is evaluated, and may panic.)", "quantifier": "all accepted source programs in the default mode, with or without extern nodes (whatever these answer, failures included), all inputs, all run lengths, both overflow modes", "why_tests_cant": "the claim quantifies over programs, definitions and places of use; a called node is duplicated and each copy must go through the same states", "anchors": ["chandeliers-sem/src/candle.rs", "chandeliers-san/src/codegen/mod.rs", "chandeliers-san/src/causality/depends.rs", "chandeliers-syn/src/translate/mod.rs"]}
{"id": "C58", "title": "Equational reasoning in nodes", "statement": "In the equations and assertions of a program in the default mode, replace any number of subexpressions, at any depth, by expressions that have the same values whatever the variables are and the called nodes do. If both programs are accepted, they give the same outputs for the same inputs, and one panics when the other does. This holds in particular of `a fby b` and `a -> pre b`; `a fby b fby c` and `a fby (b fby c)`; `pre` of an operator, conditional, merge, when, tuple or literal and the same on `pre` of the operands; the operands of `+`, `*`, `and`, `or`, `xor` exchanged; a comparison and its mirror; `(e)` and `e`.", "quantifier": "all accepted source programs in the default mode, with or without extern nodes (whatever these answer, failures included), all contexts and numbers of replacements, all inputs, all run lengths, both overflow modes", "why_tests_cant": "the claim quantifies over expressions, contexts and programs, and relates different allocations of registers, flips and history buffers", "anchors": ["chandeliers-sem/src/candle.rs", "chandeliers-sem/src/nillable.rs", "chandeliers-san/src/codegen/mod.rs", "chandeliers-syn/src/translate/mod.rs"]}
{"id": "C59", "title": "A tuple of definitions is the definitions one by one", "statement": "In a program in the default mode, replace equations `(t1, ..., tn) = (e1, ..., en)`, n > 1, by the n equations ti = ei. If both programs are accepted, they give the same outputs for the same inputs, and one panics when the other does. (The second may be accepted alone: `(a, b) = (x, a)` waits for itself.)", "quantifier": "all accepted source programs in the default mode, with or without extern nodes (whatever these answer, failures included), all nested patterns, all inputs, all run lengths, both overflow modes", "why_tests_cant": "the claim quantifies over programs, patterns and inputs; the equations are scheduled differently", "anchors": ["chandeliers-sem/src/candle.rs", "chandeliers-san/src/codegen/mod.rs", "chandeliers-san/src/causality/depends.rs", "chandeliers-syn/src/translate/mod.rs"]}
{"id": "C60", "title": "An assertion panics exactly when an output with the same definition would not be true", "statement": "In the default mode, take a node with an assertion `assert e` and the same node where this assertion is replaced by an equation `z = e` for a new last output z. On the same inputs, the first one gives some outputs if and only if the second one gives these outputs and z is true whenever there is an input (it is nil otherwise). If the second one does not panic, the first one panics if and only if z is false or nil at some instant that has inputs: assertions can be tested as outputs, and there is no way for an assertion to be skipped, evaluated late, or to fail otherwise.", "quantifier": "all accepted source programs in the default mode, with or without extern nodes (whatever these answer, failures included), that contain both nodes; all assertions, all inputs, all run lengths, both overflow modes", "why_tests_cant": "Tests of assertions run a few nodes on which they hold or fail at a known instant; that an assertion is checked at every instant, on the present values and whatever the other equations and the called nodes do, concerns all programs and all runs.", "anchors": ["chandeliers-sem/src/candle.rs: truth", "chandeliers-san/src/codegen/mod.rs", "chandeliers-san/src/causality/depends.rs", "chandeliers-syn/src/translate/mod.rs"]}
{"id": "C61", "title": "A slice of a node gives the same outputs as the node", "statement": "In the default mode, take a node and another one with the same inputs, some of its outputs (in any order) and some of its equations and assertions (in any order), that declares the variables it uses. On inputs on which the first one does not panic, the second one does not panic either and gives the same values to these outputs at every instant: an output only depends on the equations that define it, directly or not. If the second one has all the outputs, equations and assertions, it panics exactly when the first one does. (The converse is false for proper slices: the equations left out may panic.)", "quantifier": "all accepted source programs in the default mode, with or without extern nodes (whatever these answer, failures included), that contain both nodes; all inputs, all run lengths, both overflow modes", "why_tests_cant": "Tests compare outputs of fixed nodes; that an equation cannot disturb an output that does not depend on it, through the schedule, the histories or the numbering of the calls, concerns all nodes and all ways to remove equations from them.", "anchors": ["chandeliers-san/src/causality/depends.rs", "chandeliers-san/src/causality/mod.rs", "chandeliers-san/src/codegen/mod.rs", "chandeliers-san/src/positivity.rs", "chandeliers-syn/src/translate/mod.rs"]}
{"id": "C62", "title": "Simplifying expressions keeps the outputs", "statement": "With overflow checks and in the default mode, simplify expressions anywhere in the nodes of a program: remove a neutral operand (e + 0, 0 + e, e - 0, e * 1, 1 * e, e / 1, e and true, true and e, e or false, false or e, e xor false, false xor e), a double `not` or a double `-`, the branch of a conditional that a literal condition does not choose, or the middle of `a -> b -> c` (however it is bracketed); use the laws of C58 too, in any number. If both programs are accepted and the first one does not panic on some inputs, the second one gives the same outputs on them. (The converse is false: what is removed may panic, as in `if true then x else 10 / x`.)", "quantifier": "all accepted source programs in the default mode, with or without extern nodes (whatever these answer, failures included), all sequences of simplifications, all types of operands (nil included), all inputs, all run lengths, with overflow checks", "why_tests_cant": "The claim quantifies over programs and the places where they are simplified; nil operands, floating-point signs and the smallest integer are the cases that examples leave out.", "anchors": ["chandeliers-sem/src/nillable.rs", "chandeliers-sem/src/candle.rs", "chandeliers-san/src/codegen/mod.rs", "chandeliers-syn/src/translate/mod.rs"]}
