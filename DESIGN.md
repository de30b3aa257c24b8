# Formal model of slugs in Rocq

Subject: VerifiableRobotics/slugs (GR(1) reactive synthesis over BDDs), sources in `/repo/src`.
Everything here is a hand-written model; nothing is extracted from or linked with the C++ code.

## Trusted base

* The Coq 8.16.1 kernel (and `vm_compute`, used for some examples and refutation witnesses).
* Axioms: `Classical_Prop.classic` (excluded middle, standard library) for `C86_limit`, `C86_ends` and
  `C86_unlimited`; none for all other theorems. Every theorem in a `Props*.v` file is followed by
  `Print Assumptions`; apart from these three each prints `Closed under the global context`. (Axioms listed for the loaded library `Coq.ssr.ssrunder` are the fields of a module
  type of the standard distribution; no theorem here depends on them.)
* The faithfulness of the model definitions to the C++ code (each cites file and lines).
* CUDD: the model of the Boolean-function layer (`BDD.v`) implements the operations on reduced ordered
  decision trees. CUDD's memory management, complement edges, caches, reordering and memory exhaustion are
  trusted/not modelled.
* C++ library: `std::getline`, `boost::trim`, `operator>>(istream&,string&)`, `operator>>(istream&,unsigned&)`,
  `std::map`, `std::list`, `std::set` are modelled by functional counterparts.
* Asserts are compiled out (`-DNDEBUG` in `src/Makefile`), so they do nothing in the model.
* Memory exhaustion, integer wrap-around of 32-bit counters (state numbers, line numbers) and I/O failure are
  not modelled.

## Modelling conventions

* `BF` = reduced ordered decision tree together with the proof of being reduced and ordered. Equality is decidable
  and, by canonicity, coincides with equality of the denoted functions.
* BDD variable `2k` is the current-value copy and `2k+1` the next-value copy of the k-th declared variable
  (this is what `addVariable` produces; proved for every parsed file).
* Loops over fixed points use a combinator with logarithmic fuel (2^n iterations with fuel n). Running out of fuel
  is an explicit error outcome; the termination theorems show it never happens, and the relation `Runs` that describes
  the unbounded loop is used for all other facts.
* Undefined behaviour of C++ (out-of-range vector access, use of a null BF, `front()` of an empty list) is an explicit
  outcome of the model.
* Specification side (`Spec.v`): a state assigns Booleans to declared variables; a strategy is a function from the
  history and the next input to the outputs; plays are infinite sequences. Specification files do not mention
  BDD operations except `eval` (the value of a formula under a valuation).

## Per-property plan

| id | model | proof |
|----|-------|-------|
| C01 | `computeWinningPositions`, `checkRealizability` | ranking argument on the recorded transition sets gives a strategy |
| C02 | same | from the iterates of the three nested fixed points build a spoiling input sequence for any strategy |
| C03 | same, fuel = number of variables + 1 | strictly monotone chains of functions over n variables have length at most 2^n; support analysis for the internal error |
| C04 | same | combination of the two arguments per position |
| C05 | `parseBooleanFormulaRecurse` on character streams | independent grammar (AST + denotation + unparsing relation); induction |
| C06 | same | both directions against the grammar |
| C07 | same, with an undefined-behaviour outcome | false for the code: refutation witnesses (`$ 0`, recall of an element not yet computed); positive theorem for the lines without them |
| C08 | relational version in which each operand order may be chosen | induction on the derivation |
| C09, C10, C11, C12 | `GR1Context::init` on the lines of the file | induction on lines, invariants |
| C13-C16, C19 | `XExtractExplicitStrategy` (worklist algorithm, lookup table) | worklist invariant, finite state count for termination, ranking argument for liveness |
| C17 | text produced in JSON mode as a token list | JSON grammar, induction over nodes |
| C18 | `XRoboticsSemantics` | from C04 |
| C20 | `XExtractSymbolicStrategy` | ranking argument |
| C21 | `XExtractPermissiveExplicitStrategy` | ranking argument |
| C22 | `XFixedPointRecycling` | each recycled start value is a post-fixed point above the result |
| C23 | `XBiasForAction` | the additional least fixed point adds nothing to the winning set |
| C24 | `XCounterStrategy` | lock-step duality of all iterates |
| C25 | `XExtractExplicitCounterStrategy` | worklist invariant and ranking argument for the positive parts (moves, deadlocks, one guarantee); refutation witnesses for several guarantees, for empty output and for specifications without outputs |
| C26 | its constructor, `main` | refutation for all argument lists |
| C27 | `XComputeCNFFormOfTheSpecification` | invariant on remaining minterms; each round removes a minterm; shifting of next-value cubes justified over infinite runs |
| C28 | `XAnalyzeAssumptions` | safety assumptions: from C04 for both games; liveness assumptions: false for the code, refutation witnesses (one assumption; safety assumptions are dropped as well) and the exact meaning of the reports |
| C29 | `XInterleave` | game in which chosen outputs are set before the input is read (soundness and completeness of the fixpoint for every choice); invariant of the loop over the outputs: greedy choice; refutations: `foundOne` is read without a value, the output tried last is printed although it was rejected, initial values may depend on the initial input |
| C30 | `XAnalyzeSafetyLivenessInteraction`: the sixteen rows, the product with the variable recording failed guarantees, the two falsification loops | strategies translated between the two games; the loops compute the positions from which a violation can be forced within k steps (induction over k); two refutation witnesses: the number of steps for the environment, and the robotics answer on the non-strict implication |
| C31 | `XAnalyzeInitialPositions`, model counting | count correctness; refutation witness for `nan` |
| C32 | `main` option parsing and table lookup | sets as sorted lists, injectivity of joining, table checked entry by entry |
| C33 | `XComputeInterestingRunOfTheSystem` table | positive part: marks are those of some permitted transition of the strategy, all cells but those of the last row are defined; refutations: the last row always reads outside of two vectors, and a mark need not be about the printed step |
| C34 | `determinize` | induction on the variable list |
| C35 | BF layer | canonicity |
| C36 | `XComputeWeakenedSafetyAssumptions`: dropping variables, clauses, dropping clauses, dropping literals | invariant of the clause loop (the remaining assumptions and the clauses found are equivalent to the assumptions), termination by counting valuations; monotonicity of realizability in the assumptions; refutation witness for the removal of literals (an unsatisfiable clause is printed for satisfiable assumptions) |
| C37 | `XOptimisticRecovery` | the loop's unbounded semantics as a relation; induction over its iterations; termination proved if the environment can always move in a winning position; refutation witness (loop that never stabilises) otherwise |
| C38 | `XCooperativeGR1Strategy` | fixed points characterised; completeness by attaching every play of a cooperative strategy to the fixed points; soundness by ranks in the recorded lists; sequences for a helpful environment |
| C39 | `XInteractiveStrategy`: the whole shell (stream reading, all commands) as a function of the text on standard input | invariant over reached shell states (goal number below the number of guarantees) and case analysis of every command; refutation witness, and a proof that CHECKTRANS goes wrong for every unrealizable specification with more guarantees than assumptions |
| C40 | `compiler.py`: `recurseCalculationSubformula`, `addMinimumValueToAllVariables`, `computeCalculationSubformula`, `clean_tree`, `flatten_as_much_as_possible`, `parseSimpleFormula`, `translateToSlugsFormat` | composition with the model of the slugs parser (C05): invariant on the parts of a buffer (each part denotes one bit), ripple-carry addition by induction over the bits, comparisons by induction from the least significant bit; induction over trees; refutation: documented operators and domains without a translation |
| C41 | composition of `init` and `checkRealizability` | AST-level game of the file text; transfer of strategies between games that agree on declared variables |
| C42 | constructors and `init` of all plugins, as far as file names are concerned | per table entry, for all lists of file names |
| C43 | `printLargePreCubes`, `BFMintermEnumerator` (any path search) | invariant on the remaining minterms; each round removes one |
| C44 | `XGETINIT`, `XMAKETRANS`, `XMAKETRANSRANDOM` of the shell | invariant over the play (winning position, goal number), ranking argument as for explicit strategies; stated from text typed to replies, for every number of commands |
| C45 | `XCOMPLETEINIT` | characterisation of each reply, including the letters, from the text typed in; realizable specifications: full statement; unrealizable ones: the exact behaviour (`_partial`) and a refutation: FAILGUARANTEES is printed with a position that SYS_INIT permits |
| C46 | `XSTRATEGYTRANSITION` | characterisation of each reply, including letters and numbers, from the text typed in, for realizable and unrealizable specifications; infinite repeated use: ranking argument (realizable) and counterstrategy argument (unrealizable), if each goal is satisfied by no or by several transitions; refutations: a goal satisfied by exactly one transition is never advanced (strict `<`), numbers that do not exist give an access out of bounds |
| C47 | `SETPOS`, `MOVE` | one family of strategies with the ranking argument, every MOVE follows it; exact lists of satisfied properties; from the text typed in |
| C48 | the shell's reading loop with failbit and eofbit | case analysis of the last command of a session; refutation: a value that is not a number makes the shell loop forever |
| C49 | `XGETINIT` after other commands | as C44 with any goal number at the start; refutation: XGETINIT prints goal 0 but does not set it |
| C50 | `XComputeInterestingRunOfTheSystem` run | each row is reached by the positional strategy of the ranking argument (C46); fixpoints for the environment terminate; refutation: Sys.Loses is printed although the system wins, if it has no answer to an input that is not permitted |
| C51 | `compiler.py`: integer declarations (names of bits, limit lines) | limit lines are read by the model of the slugs parser; induction over the bits of the limit; injectivity of the names |
| C52 | `compiler.py`: `isValidRecursiveSlugsProperty` | induction over the grammar of slugs lines; converse by induction over the line with the exceptions stated; refutation without them |
| C53 | distances and the list of goals in `XAnalyzeAssumptions` | the stored sets are the levels of the middle fixed point; each level is characterised by a game in which the system waits for an assumption; monotonicity in the assumptions; beyond the stored levels both are the winning positions |
| C54 | dropping variables and the order of the clauses in `XComputeWeakenedSafetyAssumptions` | invariants: a variable dropped stays dropped, one kept is needed by monotonicity; literals of irrelevant variables are never added; insertion keeps the list strictly sorted |
| C55 | `XIROSFS` (`--IROSfastslow`): reading files with fast and slow outputs, the added safety constraints, verdict | the fixed point equals that of the ordinary solver on the specification with strengthened safety guarantees; these are exactly the permitted steps through admissible positions; reading is simulated by reading the file with `[OUTPUT]` in place of the two sections; refutation: the step to the position between need not itself be permitted |
| C56 | explicit strategies with `--IROSfastslow` | the extraction coincides with that for the strengthened specification; instances of C13 to C16 |
| C57 | `XNonDeterministicMotion` (`--nonDeterministicMotion`): generated assumption, fixed point, check of the initial positions | generic game with moves of any type (`CoreGame.v`) and generic fixed point over an enforceable predecessor (`CoreProofs.v`), instantiated with moves consisting of an input and a reaction of the robot; partial: files without other outputs whose assumptions do not mention the motion state where it makes the check meaningless; refutations for these files |
| C58 | `--nonDeterministicMotion --sysInitRoboticsSemantics` | same fixed point; partial as C57; refutations: positive verdict although there are losing initial positions, initial guarantees are ignored |
| C59 | the reader of `--nonDeterministicMotion` | invariant over the lines; formulas without regions are those of the ordinary parser; reading BDD files is a parameter that returns functions of the given variables |
| C60 | `XAbstractWinningTraceGenerator` (`--computeAbstractWinningTrace`): distances, restriction passes, table | the columns stay below the enforceable predecessors of their successors; strategies read off the columns; reuse of the one-step games of C30 |
| C61 | the loops that compute the distances, the checks of initial positions | as C30; full for the system; partial for the environment (initial guarantees leave an output for every input); two refutations |
| C62 | the restriction passes | every column is a set of positions of bounded distance with fixed values; a pass without change tried all values; termination: no attempt changes something twice |
| C63 | `XIncompleteInformationEstimatorSynthesis` (`--computeIncompleteInformationEstimator`): file, reachable states, min/max refinement | the fold over the wishes keeps exactly the updates that are best for the wishes considered so far; reading simulated by the ordinary reader |
| C64 | same: assumption, warnings | quantifiers over observations as indistinguishability; the second and third fixed points visit the same states |
| C65 | `printBFAsSlugsExpression` and the reader of `GR1Context` | the list of parts is a buffer formula whose entries denote the visited nodes; composition with C41's reader |
| C66 | the difference analysis | loop invariants over pairs of values; bits of binary numbers |
| C67 | two files read by `init` and solved by `checkRealizability` | renaming of the variables of games and formulas; a strategy for the stronger file is carried over |
| C68 | `findMinimalCore` of `tools/findMinimalUnrealizableCore.py` with a run of slugs as a parameter | loop invariant with C67; the reordered files are accepted since parsing succeeds alike for any order of declarations |
| C69 | `tools/binaryRealizabilitySearch.py`, the script as a function from values to outputs | loop invariant (bounds decided by earlier answers), halving measure; C67 for families of files |
| C70 | `tools/multiDimensionalRealizabilitySearch.py` | invariant: antichains of positive and negative points; measure: number of undecided tuples |
| C71 | `extensionTwoDimensionalCost.hpp` on top of `Synth.v`, files as in C41 | C01/C02/C18 through equality of the checks |
| C72 | reading of the cost file, table of costs | induction over the lines (sorted table), `TwoDimSpec.v` for the meaning of lines |
| C73 | the search with fuel for the unbounded loop over cost pairs | tuples are processed in increasing order; each round either finds a new position or adds no tuple; well-founded order on (number of positions, pending tuples) |
| C74 | the recorded transition sets and `Explicit.v` | invariant: recorded transitions that satisfy the safety assumptions satisfy the guarantees and stay in a trap of winning positions |
| C75 | the same | false: concrete specifications, evaluated in the model (`C75_refuted`, `C75_initial_refuted`) |
| C76 | the same | false: concrete specification and path (`C76_refuted`) |
| C77 | `tools/translateSafetySlugsSpecToSyntCompAIGFormat.py`, `AigSpec.v` for AIGER text and runs of circuits | mutual induction over the grammar for the gates of formulas; order of evaluation of all gates; induction over time for the monitors |
| C78 | the same, verdict as in C41 | C77 for plays; strategies are transferred along the renaming of the variables. False when an input is itself named `controllable_...` (`C78_input_names_refuted`) |
| C79 | the same | liveness sections are rejected; the other parts are false: `C79_blanks_refuted`, `C79_scopes_refuted` |
| C80 | `compiler.py`: `tokenize`, `parseLTL`, `clean_tree`; `Parser.py`: `_parse` and its tables | specification: the grammar with levels of precedence in `StructGrammar.v`; the tables are validated: every state is annotated with LR(1) items, a Boolean check of the annotation is evaluated in the kernel, and a checked table accepts exactly the grammar (soundness by an invariant on the stack, completeness by induction over derivation trees, termination by a measure); `tokenize` by induction over the line |
| C81 | `compiler.py`: `performConversion` (sections, declarations, limits of ranges, conversion of lines, printing) | specification: games over integers in `StructFileSpec.v`; invariant of the loops over declarations; layout of the printed file; the limit lines hold exactly for bits in the ranges; strategies are translated between integers and bits in both directions; composition with C40, C41, C51, C52 and C80 |
| C82 | `compiler.py`: declarations; `GR1Context::init` | refutation: two ranges for one variable; names of an accepted translation are different |
| C83 | `analyzeStuckAtConstant.py` (all functions), with the compiler and slugs | the written files have the sections of the read file and the two new lines; the new lines are read as the value of the variable; C81 for every written file; refutation for negative ranges |
| C84 | `kResilientRealizabilityChecker.py`: reading, the lattice search, the files for unbounded resilience | invariant of the search for any lattice and any antitone oracle (finished elements are covered by results); the written file has the formulas of the game with dropped assumptions; dropping fewer assumptions keeps realizability; C41 for every written file |
| C85 | `explicitImplementationIntegerDecoder.py` (all of it), after the compiler and the explicit strategy output | the bits of every variable form a block of the label; the tool's inner loop adds exactly the bits of the block with the same name; lines and texts by induction; names of the bits from the compiler theorem (C81); refutations for empty labels and names with an @ |
| C86 | `kResilientRealizabilityChecker.py`: levels and a number of violations (files with counter bits, the second search, the main part) | the written file has the formulas of a game with a counter; adding the counter to a position and forgetting it translates strategies; the invariant of the search (C84) for pairs of levels and numbers; the search ends because with enough violations some position, goal and count repeat, so that a strategy for unlimited violations exists (pumping on the finite set of positions; classical logic) |
| C87 | `translateFromRatsyFormatToSlugsFormat.py` and `tools/parser.py`: tokens, LR(1) parser, trees, conjuncts, the printed file | validation of the parser tables against the grammar (as for C49); induction on parse trees; induction on formulas for the written words; C41 for the printed file; the game of the conjuncts against LTL on words. Names that begin with a keyword are read wrongly: refuted |
| C88 | `translateFromLTLMopLTLFormatToSlugsFormat.py` | as C87, with its own files and atoms. Comparisons with 0 are translated as if they were comparisons with 1: refuted |
| C89 | `explicitStrategyToGraphviz.py`: the lines of the strategy, the dictionaries, the printed graph | induction on the states of the strategy; C16 and C14 for strategies of slugs. A state without successors makes the tool raise an exception, a colon in a name makes it print wrong values, and `--jsonOutput` strategies are shown as empty: refuted |
| C90 | `makeNuSMVInstanceToTestAutomatonFileAgainstSlugsSpecification.py`: both readers, the cases for `state` and for the outputs, the translation of formulas, the LTL specifications; NuSMV by the meaning of the fragment that is written (`SmvSpec.v`) | reading back the printed strategy; a correspondence between the runs of the module and the behaviours of the automaton; induction on formulas. C14, C15 and C19 for strategies of slugs. That there is an initial state for every input, and that further successors for the same input are correct, is not checked, and `^` and double blanks are not read: refuted |
| C91 | `createSpecificationReport.py`: the file for the sections about winning by falsification of the assumptions, and the section with the text of the specification | the layout of the written file as in C83; a strategy for the guarantee "infinitely often 0" is one that makes an assumption fail; C31 for the numbers. Induction on the lines for the text; white space in blank lines, blank lines at both ends and the part after the marker are not shown, at most 10000 blank lines at the beginning |
| C92 | `integerVariableSubstitutor.py`: the two files, declarations, lines with properties (parsing, `treeReplace`, `translateTreeToStructuredSlugsLine`) | grammar and meaning of lines as in C80 and C52; a line is read as a formula, its replacement is read as a formula with the same value whenever the variables that are replaced have the value of the difference. Induction on the parse tree with the tokens of the printed text; refuted: numbers in brackets, next values without an own replacement. For files: the sections of the printed file contain the translated lines in the same order, and the last line of the replacement file for a variable counts. |
| C93 | `fuzzSafetySpecsAgainstAisy.py`: one test (random specification, comparison of answers); slugs and Aisy are arbitrary functions | the random specification is a grammatical safety specification, by induction on the generator with the invariant that the usable atoms are names and recalls of computed elements; with C78 and C41, the test reports an error exactly if the answer given for slugs is wrong for the game of the file, provided that Aisy is right for the circuit |
| C94 | `slugsFuzzer.py`: the random files, their translation and the call of slugs | the random files are a documented pair of files, by induction on the generator and on the tokens of the texts; with C88, they are translated and slugs answers correctly for the result; but the command lacks a blank, so that with C32 each test ends with a failed call (refuted) |
| C95 | `cinderella_stepmother.py`: the text of the file for a configuration | the lines of the file are read by derivations in the grammar of structured slugs, their meaning is computed, and strategies for the buckets (`CinderellaSpec.v`) and for the file are translated into each other; C81 gives the verdict |
| C96 | `performConversion` (`StructFile.v`) with the parser (`StructParse.v`) and the translation of formulas (`Structured.v`) | every stage is shown to succeed: declarations (`StructAcceptSpec.v`: plain declarations), copied lines by C52, infix formulas by C80 and C40, and the limits that the translator adds itself are copied; the lines of the result are derived in the grammar of slugs with the variables that each section allows, so that C41 gives a verdict and C81 its meaning; applied to all files of C95 |
| C97 | `performConversion` (`StructFile.v`) followed by `aigMain` (`Aig.v`), as in cinderella_stepmother.py lines 112-124; the calls of aigtoaig and abc after that are not modelled | the lines that the translator writes are shown to be words with single blanks (`StructBlanks.v`), liveness sections stay empty and the names of bits do not look controllable, so that C78 applies to the result of C96 and C95 |

## Which code is modelled

| source | model file | not modelled |
|--------|-----------|--------------|
| `BFCudd.h`, `BFCuddManager.h` (operations used) | `BDD.v` | CUDD internals, reordering, memory |
| `variableTypes.hpp`, `variableManager.cpp` (types, vectors, cubes, swap) | `VarTypes.v` | registration through static objects |
| `synthesisAlgorithm.cpp`, `gr1context.hpp` (BFFixedPoint) | `Synth.v` | |
| `extensionRoboticsSemantics.hpp` | `Synth.v` | |
| `extensionFixedPointRecycling.hpp`, `extensionBiasForAction.hpp` | `Solvers.v` | |
| `synthesisContextBasics.cpp` (init, formula parser, execute) | `Parser.v`, `Execute.v` | I/O errors, text of error messages |
| `tools.cpp` | `Explicit.v` (determinize), `Shell.v` (determinizeRandomized) | |
| `extensionExtractExplicitStrategy.hpp` | `Explicit.v` | |
| `extensionPermissiveExplicitStrategy.hpp` | `Permissive.v` | |
| `extensionExtractSymbolicStrategy.hpp` | `Symbolic.v` | DDDMP serialisation, 32-bit wrap-around |
| `extensionCounterstrategy.hpp`, `extensionExtractExplicitCounterstrategy.hpp` | `Counter.v` | |
| `main.cpp`, constructors and `init` of all plugins (file names) | `CommandLine.v` | usage text, opening of files |
| `extensionComputeCNFFormOfTheSpecification.hpp` | `Cnf.v` | text layout of the lines |
| `extensionAnalyzeInitialPositions.hpp`, `BFCudd.cpp` (counting), `BFCuddMintermEnumerator.cpp` | `Analyze.v` | rounding of doubles above 2^53, order of the path search (a parameter), text of variable groups, dot files |
| `extensionCooperativeGR1Strategy.hpp` | `Coop.v` | |
| `extensionAnalyzeAssumptions.hpp` | `Assume.v` | dot files in /tmp; no theorem about the remark "(but not in most general strategy)" |
| `extensionAnalyzeSafetyLivenessInteraction.hpp` | `Interact.v` | layout of the table |
| `extensionOptimisticRecovery.hpp` | `Recovery.v` | - |
| `extensionWeakenSafetyAssumptions.hpp` | `Weaken.v` | text of the output (clauses are vectors of 1, 0, -1 as in the code) |
| `extensionInteractiveStrategy.hpp` | `Shell.v` | wording of the output; prompts; arrays of size zero if there are no variables; `rand()` is an arbitrary sequence of bits |
| `extensionInterleave.hpp` | `Interleave.v` | strategy data (not used), messages on stderr, file `/tmp/wp.dot` |
| `extensionIROSfastslow.hpp` | `FastSlow.v` | messages on stderr; modelled alone and with `XRoboticsSemantics` and `XExtractExplicitStrategy` |
| `extensionNondeterministicMotion.hpp` | `Motion.v` | the format of BDD files (a parameter), opening of files, dot files in /tmp, messages on stderr, strategy data for the interactive simulator |
| `extensionAbstractWinningTraceGenerator.hpp` | `Trace.v` | grouping of variables with an `@` in their names, layout of the table, dot file in /tmp, messages on stderr |
| `extensionIncompleteInformationEstimatorSynthesis.hpp` | `Estimator.v` | dot files in /tmp, headings and dots on stderr, layout of the lines of the difference analysis, variable reordering while a diagram is printed |
| `tools/StructuredSlugsParser/compiler.py`, `Parser.py` | `Structured.v`, `StructParse.v`, `StructTables.v`, `StructFile.v` | attempts of the parser to repair wrong lines (an exception follows anyway), error messages, characters outside of ASCII |
| `tools/analyzeStuckAtConstant.py` | `Stuck.v` | temporary files, running the programs, messages and the punctuation of the report |
| `tools/kResilientRealizabilityChecker.py`, lines 58-269 | `Resilient.v` | messages, time measurement, temporary files |
| `tools/kResilientRealizabilityChecker.py`, lines 278-484 and 499-508 | `Mixed.v` | the number of counter bits (computed with floating-point logarithms) is a parameter that must suffice for the count; the recursion limit of Python; the text of the result; the optional files |
| `tools/translateFromRatsyFormatToSlugsFormat.py`, `tools/translateFromLTLMopLTLFormatToSlugsFormat.py`, `tools/parser.py` | `Ltl.v`, `LtlTables.v` | the repair of wrong texts and the messages about them (an exception follows); what is printed before an exception; `LtlItems.v` is a proof annotation, not a model |
| `tools/explicitStrategyToGraphviz.py` | `Graph.v` | what is printed before an exception; the white space characters 28 to 31 and carriage returns of Python 3 |
| `tools/makeNuSMVInstanceToTestAutomatonFileAgainstSlugsSpecification.py` | `Smv.v` | the text of the file for NuSMV (the model yields its parts and formulas as trees), so that the precedence of operators in it and identifiers that NuSMV rejects are left out; negative numbers of successors |
| `tools/createSpecificationReport.py` | `Report.v` | the frame of the page and the sections that contain the output of another tool |
| `tools/StructuredSlugsParser/integerVariableSubstitutor.py` | `Subst.v`, `SubstFile.v` | messages; zeros at the beginning of numbers |
| `tools/fuzzSafetySpecsAgainstAisy.py` | `Fuzz.v` | endless loop and seed, probabilities, names of files; aigtoaig, abc and Aisy are one function from circuits to exit codes |
| `tools/slugsFuzzer.py`, lines 42-126 | `LtlFuzz.v` | endless loop and seed, probabilities, special characters of the shell, recursion limit of Python; what follows a successful call of slugs (no call is successful) |
| `examples/benchmark_generators/cinderella_stepmother.py`, lines 64-107 | `Cinderella.v` | names of files, the translation to circuits (its first step is in `Aig.v`) |
| `tools/explicitImplementationIntegerDecoder.py` | `Decoder.v` | what is printed before an exception |
| `tools/findMinimalUnrealizableCore.py` | `MinCore.v` | messages, path of the executable; files must not contain carriage returns or the characters 28 to 31, which Python treats as line ends or white space |
| `tools/binaryRealizabilitySearch.py`, `tools/multiDimensionalRealizabilitySearch.py` | `Search.v` | parsing of the command lines, progress messages, measured times; the script is a function (same output for the same parameters) |
| `tools/translateSafetySlugsSpecToSyntCompAIGFormat.py` | `Aig.v` | recursion limit of Python, command line; files as for `MinCore.v` |
| `extensionTwoDimensionalCost.hpp` | `TwoDim.v` | reading of numbers (a parameter), rounding of doubles (costs are integers) and the correction for it, messages on stderr; not combined with `--symbolicStrategy` |
| `extensionComputeInterestingRunOfTheSystem.hpp` | `InterestingRun.v` | grouping of variables with `@`, padding of the table, files for debugging |

Not modelled at all: the programs that draw or that wait for keys (`cursesSimulator.py`, `pyGameStructuredStrategyVisualizer.py`,
`pyGameStrategyVisualizer.py`, `tikzStrategyVisualizer.py`, `watertank.py`), those that make the example files
(`factory_assembly_line.py`, `moving_obstacle_evasion.py`, `settingFromImageReader.py`), the
test driver `testSomeExamples.py`, the program `plugin_combination_enumerator.py` that lists the combinations of
plugins at development time (its result in `main.cpp` is modelled), and the dot files of `bddDump.cpp`. The wrappers
`BFCuddManager.cpp`, `BFCuddVarCube.cpp` and `BFCuddVarVector.cpp` are modelled in `BDD.v` by what they do with diagrams.

Specification files, readable without the model: `Spec.v` (games), `FormulaSpec.v`, `FileSpec.v` (formula grammar,
file format), `AutSpec.v`, `OutputSpec.v` (printed automata and text formats), `SymSpec.v` (variables of symbolic
strategies), `CounterSpec.v` (printed counterstrategies), `CommandLineSpec.v` (options and file names), `CnfSpec.v` (numbered literals, clauses, cubes),
`AnalyzeSpec.v` (numbers of valuations, reachable states, cubes of positions), `CoopSpec.v` (cooperative strategies),
`StructGrammar.v` (how structured slugs lines are read), `StructFileSpec.v` (structured files and games over integers), `CinderellaSpec.v` (the game with the buckets), `StructAcceptSpec.v` (plain declarations, lines that a section allows), `StuckSpec.v` (fixing a variable to a value), `ResilientSpec.v` (dropping safety assumptions), `DecoderSpec.v` (labels with values), `MixedSpec.v` (limited numbers of violated assumptions), `LtlSpec.v` (LTL, its notation, files of RATSY and LTLMop), `GraphSpec.v` (graphs of strategies), `SmvSpec.v` (modules and specifications for NuSMV, behaviours of automata), `ReportSpec.v` (winning by falsification, text in a web page), `SubstSpec.v` (formulas in which integers can be replaced), `SubstFileSpec.v` (files with replacements), `AigSpec.v` (circuits, their text, runs and synthesis), `TwoDimSpec.v` (lines of cost files), `SearchSpec.v` (answers of scripts, least and greatest values, Pareto fronts), `MinCoreSpec.v` (weaker specifications, cores), `AssumeSpec.v` (dropping assumptions, names of assumptions; it refers to the type of reports in `Assume.v`), `FastSlowSpec.v` (positions between fast and slow changes), `MotionSpec.v` (robots with uncertain motion), `honest`/`plainM` in `MotionFile.v` and `PropsMotion.v`, `TraceSpec.v` (tables of abstract traces, enforceable traces), `EstimatorSpec.v` (partially observable domains, estimators, binary numbers, files), `StructuredSpec.v` (structured slugs formulas, their meaning over integers, supported formulas), `InteractSpec.v` (deactivated parts, non-strict implication, forcing a violation within k steps), `RecoverySpec.v` (returning to a winning position by the system's moves), `WeakenSpec.v` (meaning of clauses), `ShellSpec.v` (text typed into the shell, order of values, partial valuations and marks), `winningStrategies`/`currentIs` in `PropsMove.v`, `initReplyR`/`initReplyU` in `PropsComplete.v`, `transReplyR`/`transReplyU`/`counterStrategies`/`shows`/`several` in `PropsTransition.v`, `correctRun`/`repliesOf` in `PropsShell.v`, `InterestingSpec.v` (rows of the table; it refers to the type of rows in `InterestingRun.v`), `startPosition`/`validTable` in `PropsInteresting.v`, `InterleaveSpec.v` (outputs set before the input is read), `signal`/`lastOutput`/`namesOf` in `PropsInterleave.v`, `reached`/`issued` in `ShellSafe.v` (executions of the shell). The bridge from a loaded specification to a game is `game_of` in `Sem.v`.

Theorems are in the `Props*.v` files, each with `Print Assumptions` and an example.

## Mutation testing

`seeded/LOG.jsonl` has one line per wrong program. Each mutation edits one model definition in a scratch copy; the
whole development is rebuilt, proofs that fail are admitted one after another, and the theorems that then depend on an
admitted proof are recorded as failed.
