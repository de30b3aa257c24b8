{"id": "C01", "title": "A 'realizable' verdict is sound", "statement": "Whenever slugs, run without options on a specification file, prints 'RESULT: Specification is realizable.', there is a system strategy (a function from the history of positions and the new input to an output) such that every play that follows it, for every infinite input sequence, satisfies the GR(1) objective: if the first input satisfies ENV_INIT then the first position satisfies SYS_INIT; as long as ENV_INIT and ENV_TRANS have not been violated no transition violates SYS_TRANS; and if ENV_TRANS holds forever and every ENV_LIVENESS line holds infinitely often then every SYS_LIVENESS line holds infinitely often.", "quantifier": "all specification files accepted by the parser, all infinite input sequences", "why_tests_cant": "Ranges over all specifications and over infinite plays; a test sees one specification and a finite prefix of one play.", "anchors": ["src/synthesisAlgorithm.cpp: GR1Context::computeWinningPositions, GR1Context::checkRealizability", "src/synthesisContextBasics.cpp: GR1Context::execute"]}
{"id": "C02", "title": "An 'unrealizable' verdict is complete", "statement": "Whenever slugs, run without options, prints 'RESULT: Specification is unrealizable.', no system strategy whatsoever (with arbitrary memory) satisfies the objective of C01 against all input sequences.", "quantifier": "all accepted specification files, all system strategies", "why_tests_cant": "Requires a counter-play against every one of uncountably many strategies.", "anchors": ["src/synthesisAlgorithm.cpp: computeWinningPositions, checkRealizability"]}
{"id": "C03", "title": "Synthesis always terminates with a verdict", "statement": "For every specification file that is accepted by the parser, all nested fixed-point loops terminate and exactly one of the two RESULT lines is printed; the message 'Internal error: Could not establish realizability/unrealizability of the specification.' is never produced.", "quantifier": "all accepted specification files", "why_tests_cant": "Termination for all inputs cannot be observed by finitely many runs.", "anchors": ["src/synthesisAlgorithm.cpp: computeWinningPositions, checkRealizability", "src/gr1context.hpp: BFFixedPoint"]}
{"id": "C04", "title": "The set of winning positions is exactly the system's winning region", "statement": "The position set computed by the synthesis algorithm contains a position if and only if the system has a strategy that, started in that position, satisfies the safety and liveness part of the objective against every environment behaviour.", "quantifier": "all accepted specifications, all positions, all strategies, all plays", "why_tests_cant": "Equality with a game-theoretic set is a statement over all strategies and infinite plays.", "anchors": ["src/synthesisAlgorithm.cpp: computeWinningPositions"]}
{"id": "C05", "title": "A formula line means what the slugsin grammar says", "statement": "If a line of a specification file is accepted as a formula, the Boolean function stored for it is the one denoted by the unique derivation of the line in the documented prefix grammar (constants, variables, !, &, |, ^, memory buffers '$ n f0..f(n-1)' whose value is that of the last formula and recalls '? k' whose value is that of formula k of the innermost buffer).", "quantifier": "all lines, all valuations of all variables", "why_tests_cant": "Unboundedly many nested formulas and valuations.", "anchors": ["src/synthesisContextBasics.cpp: GR1Context::parseBooleanFormulaRecurse, parseBooleanFormula", "doc/input_formats.md"]}
{"id": "C06", "title": "Every grammatical line whose variables are allowed is accepted, every other line is rejected with an error", "statement": "A formula line is accepted if and only if it is derivable in the slugsin grammar, mentions only declared variables of the kinds permitted for its section, and has no trailing tokens; in all other cases slugs reports an error and produces no verdict.", "quantifier": "all lines and all variable declarations", "why_tests_cant": "Unbounded set of malformed lines.", "anchors": ["src/synthesisContextBasics.cpp: parseBooleanFormulaRecurse, parseBooleanFormula", "src/main.cpp: main"]}
{"id": "C07", "title": "Parsing a formula line never has undefined behaviour", "statement": "For every line, parsing either yields a formula or reports an error; it never reads outside a memory buffer nor uses a buffer element that has not been computed yet.", "quantifier": "all lines", "why_tests_cant": "Undefined behaviour need not be observable in a test run and the set of lines is infinite.", "anchors": ["src/synthesisContextBasics.cpp: parseBooleanFormulaRecurse (operators '$' and '?')"]}
{"id": "C08", "title": "The unspecified C++ operand evaluation order does not affect parsing", "statement": "The two operands of |, & and ^ are obtained by two calls whose relative evaluation order C++11 leaves unspecified; whichever order is chosen at each occurrence, the outcome of parsing (accepted or rejected, and the resulting function) is the same.", "quantifier": "all lines and all choices of evaluation order at every operator occurrence", "why_tests_cant": "A compiler fixes one order, so no test of one build can observe the other ones.", "anchors": ["src/synthesisContextBasics.cpp: parseBooleanFormulaRecurse lines 31-33"]}
{"id": "C09", "title": "Sections are combined as documented and in any order", "statement": "Lines of ENV_INIT, SYS_INIT, ENV_TRANS and SYS_TRANS are conjoined, each ENV_LIVENESS/SYS_LIVENESS line is one liveness property, blank lines and comment lines have no effect, and permuting the formula lines of the four conjoined sections does not change the specification that is read.", "quantifier": "all specification files and all permutations", "why_tests_cant": "Infinite family of files.", "anchors": ["src/synthesisContextBasics.cpp: GR1Context::init"]}
{"id": "C10", "title": "Assumption lines can never mention next outputs, and initial lines can never mention next values", "statement": "In every accepted specification the value of an ENV_INIT line depends on current inputs only, of a SYS_INIT line on current inputs and outputs only, and of an ENV_TRANS line never on next outputs.", "quantifier": "all accepted specification files, all valuations", "why_tests_cant": "Infinite family of files; the soundness of the verdict rests on it.", "anchors": ["src/synthesisContextBasics.cpp: GR1Context::init (allowedTypes)"]}
{"id": "C11", "title": "Duplicate variable names are always rejected", "statement": "No specification in which two declared names (including the primed names generated for next values) coincide is accepted; hence in accepted specifications a name denotes a unique variable.", "quantifier": "all specification files", "why_tests_cant": "Infinite family of files.", "anchors": ["src/synthesisContextBasics.cpp: GR1Context::init lines 208-218"]}
{"id": "C12", "title": "Missing liveness sections behave as the property TRUE", "statement": "A specification without any ENV_LIVENESS (SYS_LIVENESS) line is treated exactly as the one with the single line '1' in that section; consequently both lists of liveness properties used in synthesis are never empty.", "quantifier": "all specification files", "why_tests_cant": "Infinite family of files.", "anchors": ["src/synthesisContextBasics.cpp: GR1Context::init lines 220-227"]}
{"id": "C13", "title": "Explicit strategy: all initial choices of the environment are covered", "statement": "If --explicitStrategy is used and the specification is realizable, then for every input valuation satisfying ENV_INIT the printed automaton contains a state with that input valuation that satisfies SYS_INIT and is winning.", "quantifier": "all realizable specifications, all initial inputs", "why_tests_cant": "All specifications and all initial inputs.", "anchors": ["src/extensionExtractExplicitStrategy.hpp: XExtractExplicitStrategy::computeAndPrintExplicitStateStrategy"]}
{"id": "C14", "title": "Explicit strategy: input-complete, deterministic and safe", "statement": "In the automaton printed by --explicitStrategy every state has, for every next input permitted by ENV_TRANS, exactly one successor, every successor edge satisfies ENV_TRANS and SYS_TRANS, and no other successors are printed.", "quantifier": "all realizable specifications, all states of the printed automaton, all next inputs", "why_tests_cant": "All specifications; size of automata unbounded.", "anchors": ["src/extensionExtractExplicitStrategy.hpp: computeAndPrintExplicitStateStrategy"]}
{"id": "C15", "title": "Explicit strategy: every infinite run satisfies the liveness objective", "statement": "Every infinite path through the automaton printed by --explicitStrategy on which all liveness assumptions hold infinitely often satisfies all liveness guarantees infinitely often.", "quantifier": "all realizable specifications, all infinite paths", "why_tests_cant": "Liveness over infinite paths cannot be observed by finite tests.", "anchors": ["src/extensionExtractExplicitStrategy.hpp: computeAndPrintExplicitStateStrategy", "src/synthesisAlgorithm.cpp: strategyDumpingData"]}
{"id": "C16", "title": "Explicit strategy: extraction terminates and state numbers are consistent", "statement": "Extraction of the explicit strategy terminates; state numbers are consecutive from 0, every state is printed exactly once, two different printed states differ in valuation or goal number, and every successor number refers to a printed state.", "quantifier": "all realizable specifications", "why_tests_cant": "Termination and a global invariant for all inputs.", "anchors": ["src/extensionExtractExplicitStrategy.hpp: computeAndPrintExplicitStateStrategy"]}
{"id": "C17", "title": "JSON strategy output is well-formed", "statement": "With --jsonOutput the text printed for the strategy is a single well-formed JSON object, for any number of states, variables and successors.", "quantifier": "all realizable specifications, all variable names without JSON special characters", "why_tests_cant": "Comma placement must be right for every automaton size.", "anchors": ["src/extensionExtractExplicitStrategy.hpp: computeAndPrintExplicitStateStrategy (jsonOutput branches)"]}
{"id": "C18", "title": "Robotics semantics verdict", "statement": "With --sysInitRoboticsSemantics slugs prints 'realizable' exactly if from every position whose input satisfies ENV_INIT and that satisfies SYS_INIT (chosen by the environment) the system has a winning strategy for the safety and liveness part of the objective.", "quantifier": "all accepted specifications, all initial positions, all strategies", "why_tests_cant": "Quantifies over all specifications and strategies.", "anchors": ["src/extensionRoboticsSemantics.hpp: XRoboticsSemantics::checkRealizability"]}
{"id": "C19", "title": "Simple recovery only adds transitions for assumption-violating inputs", "statement": "With --simpleRecovery the explicit strategy additionally contains successors for next inputs that violate ENV_TRANS whenever the system can react without violating SYS_TRANS and stay winning; its behaviour on inputs satisfying ENV_TRANS still satisfies C14 and C15.", "quantifier": "all realizable specifications, all printed states, all next inputs", "why_tests_cant": "All specifications and inputs.", "anchors": ["src/extensionExtractExplicitStrategy.hpp: template parameter oneStepRecovery"]}
{"id": "C20", "title": "Symbolic strategy: the goal counter BDDs describe a winning controller", "statement": "The relation written by --symbolicStrategy and --simpleSymbolicStrategy over the variables of the specification and the goal counter bits never blocks in a winning position for an input permitted by ENV_TRANS, only contains SYS_TRANS transitions, and every infinite sequence following it with all liveness assumptions holding infinitely often visits every liveness guarantee infinitely often.", "quantifier": "all realizable specifications, all infinite sequences", "why_tests_cant": "Infinite sequences; number of goals unbounded (the bits of the counter must suffice for every number of goals).", "anchors": ["src/extensionExtractSymbolicStrategy.hpp: computeAndPrintSymbolicStrategy"]}
{"id": "C21", "title": "Permissive strategy is winning", "statement": "Every infinite path through the automaton printed by --extractExplicitPermissiveStrategy is safe and satisfies the liveness objective for the goal it pursues, every permitted next input has a successor, and the automaton allows every transition that the deterministic positional strategy allows.", "quantifier": "all realizable specifications, all paths", "why_tests_cant": "Infinite paths over all specifications.", "anchors": ["src/extensionPermissiveExplicitStrategy.hpp: computeAndPrintExplicitStateStrategy"]}
{"id": "C22", "title": "Fixed point recycling does not change the result", "statement": "--fixedPointRecycling terminates on every accepted specification, computes the same winning positions and hence prints the same verdict as slugs without options.", "quantifier": "all accepted specifications", "why_tests_cant": "An optimisation must be exact on all inputs.", "anchors": ["src/extensionFixedPointRecycling.hpp: XFixedPointRecycling::computeWinningPositions"]}
{"id": "C23", "title": "Bias for action does not change the verdict", "statement": "--biasForAction terminates on every accepted specification and prints the same verdict as slugs without options, and strategies extracted from it are still winning.", "quantifier": "all accepted specifications", "why_tests_cant": "All inputs; infinite plays.", "anchors": ["src/extensionBiasForAction.hpp: XBiasForAction::computeWinningPositions"]}
{"id": "C24", "title": "Counterstrategy computation is the exact dual", "statement": "With --counterStrategy the set of positions computed as winning for the environment is exactly the complement of the positions winning for the system, and 'unrealizable' is printed for exactly the specifications for which slugs without options prints it.", "quantifier": "all accepted specifications, all positions", "why_tests_cant": "Determinacy for all specifications.", "anchors": ["src/extensionCounterstrategy.hpp: XCounterStrategy::checkRealizability"]}
{"id": "C25", "title": "Every state of a printed counterstrategy either has a move for the environment or is a system deadlock", "statement": "In the automaton printed by --counterStrategy for an unrealizable specification, every printed state has at least one successor unless the environment has an input permitted by ENV_TRANS after which the system has no output permitted by SYS_TRANS, and every infinite path is losing for the system.", "quantifier": "all unrealizable specifications, all printed states, all infinite paths", "why_tests_cant": "All specifications, infinite paths.", "anchors": ["src/extensionExtractExplicitCounterstrategy.hpp: computeAndPrintExplicitStateStrategy"]}
{"id": "C26", "title": "Counterstrategy file name handling", "statement": "With --counterStrategy and one file name the specification is read from it and the counterstrategy goes to standard output; with two file names the first is the input file and the second the output file; with no file name an error is reported.", "quantifier": "all argument lists", "why_tests_cant": "Undefined behaviour on an empty list; all lists.", "anchors": ["src/extensionExtractExplicitCounterstrategy.hpp: constructor"]}
{"id": "C27", "title": "CNF output is equivalent to the specification", "statement": "The clause lists printed by --computeCNFFormOfTheSpecification for the initial and safety parts are satisfied by exactly the valuations that satisfy the respective part of the specification, for every number of variables, and printing terminates without an exception. An infinite run satisfies the cubes printed for a liveness property infinitely often exactly if it satisfies that property infinitely often. The variable lines state the numbers that all literals use.", "quantifier": "all accepted specifications, all valuations", "why_tests_cant": "All valuations of all specifications.", "anchors": ["src/extensionComputeCNFFormOfTheSpecification.hpp: execute"]}
{"id": "C28", "title": "Assumption analysis reports exactly the needed assumptions", "statement": "--analyzeAssumptions reports a safety or liveness assumption as needed for realizability if and only if dropping exactly that assumption makes the specification unrealizable.", "quantifier": "all accepted realizable specifications, all assumptions", "why_tests_cant": "A claim about verdicts of modified specifications for all inputs.", "anchors": ["src/extensionAnalyzeAssumptions.hpp: execute"]}
{"id": "C29", "title": "Interleaving analysis has a defined result and reports a realizable order", "statement": "--analyzeInterleaving never evaluates an uninitialised variable, and the set of outputs it reports as 'can be set before the input is known' leaves the specification realizable.", "quantifier": "all accepted specifications", "why_tests_cant": "Undefined behaviour is not reliably observable; all specifications.", "anchors": ["src/extensionInterleave.hpp: execute"]}
{"id": "C30", "title": "Safety/liveness interaction analysis verdicts", "statement": "Each statement printed by --analyzeSafetyLivenessInteraction about who can falsify the other player's safety properties is true of the specification: e.g. 'environment can falsify' is printed only if there is an initial input satisfying ENV_INIT from which the environment can force a safety violation.", "quantifier": "all accepted specifications", "why_tests_cant": "A game-theoretic claim over all specifications.", "anchors": ["src/extensionAnalyzeSafetyLivenessInteraction.hpp: execute"]}
{"id": "C31", "title": "Model counts are numbers of valuations", "statement": "Every count printed by --analyzeInitialPositions is the number of valuations of the respective variables in the described set; it is never 'nan'.", "quantifier": "all accepted specifications", "why_tests_cant": "Arbitrary numbers of variables and arbitrary sets.", "anchors": ["src/extensionAnalyzeInitialPositions.hpp: execute", "src/BFAbstractionLibrary/BFCudd.cpp: getNofSatisfyingAssignments"]}
{"id": "C32", "title": "Command line: order and repetition of options are irrelevant", "statement": "The plugin selected by slugs depends only on the set of options given; every unlisted set of options and every unknown option leads to exit code 1 with an error message, and the position of file names between options does not matter.", "quantifier": "all argument lists", "why_tests_cant": "Infinite set of argument lists.", "anchors": ["src/main.cpp: main, optionCombinations"]}
{"id": "C33", "title": "Interesting run computation reads only defined data", "statement": "--computeInterestingRunOfTheSystem never accesses a vector outside its bounds and marks a row as satisfying the current goal only if the printed step satisfies it.", "quantifier": "all accepted specifications with a winning initial position, all random choices", "why_tests_cant": "Out-of-bounds reads need not crash; random choices.", "anchors": ["src/extensionComputeInterestingRunOfTheSystem.hpp: computeRun"]}
{"id": "C34", "title": "Determinization picks exactly one valuation", "statement": "The determinization used for every printed strategy returns, for a non-empty set and a list of variables, a non-empty subset of that set all of whose elements agree on the listed variables (so a set that only constrains the listed variables is reduced to exactly one valuation of them); for the empty set it returns the empty set. It never returns an element that was not in the set.", "quantifier": "all sets and variable lists", "why_tests_cant": "All Boolean functions.", "anchors": ["src/tools.cpp: GR1Context::determinize"]}
{"id": "C35", "title": "Equality of Boolean functions is exact", "statement": "Two Boolean functions computed by any sequence of operations of the BF layer compare equal with == if and only if they have the same value under every valuation; so a fixed point is reported exactly when the set did not change.", "quantifier": "all Boolean functions, all valuations", "why_tests_cant": "Every fixed-point loop relies on it for all functions.", "anchors": ["src/BFAbstractionLibrary/BFCudd.h: BF", "src/gr1context.hpp: BFFixedPoint::update"]}
{"id": "C36", "title": "Weakened safety assumptions remain sufficient", "statement": "The clauses printed by --computeWeakenedSafetyAssumptions are implied by the original safety assumptions and together still make the specification realizable.", "quantifier": "all realizable specifications", "why_tests_cant": "A claim on all specifications.", "anchors": ["src/extensionWeakenSafetyAssumptions.hpp: execute"]}
{"id": "C37", "title": "Optimistic recovery terminates", "statement": "The optimistic recovery plugin terminates on every accepted specification and leaves the winning positions unchanged.", "quantifier": "all accepted specifications", "why_tests_cant": "Termination on all inputs.", "anchors": ["src/extensionOptimisticRecovery.hpp: XOptimisticRecovery::computeWinningPositions"]}
{"id": "C38", "title": "Cooperative strategies are winning and leave the environment a way to satisfy its assumptions", "statement": "--cooperativeGR1Strategy terminates. Its verdict is 'realizable' if and only if some strategy satisfies the specification and, whatever the environment has done so far within its safety assumptions, leaves it a way to satisfy all of its assumptions. The verdict agrees with the strict GR(1) semantics for specifications in which the environment can always satisfy its assumptions, and otherwise 'realizable' still implies realizability. The explicit strategy answers every permitted input, is winning, and from each of its states some path satisfies all assumptions.", "quantifier": "all accepted specifications, all input sequences and points in time, all paths of the printed automaton", "why_tests_cant": "All specifications, infinite plays.", "anchors": ["src/extensionCooperativeGR1Strategy.hpp: computeWinningPositions"]}
{"id": "C39", "title": "Interactive shell commands never index out of bounds", "statement": "In the shell opened by --interactiveStrategy the commands CHECKTRANS and MOVE never access a strategy that does not exist, whether or not the specification is realizable.", "quantifier": "all accepted specifications, all command sequences", "why_tests_cant": "Undefined behaviour on particular combinations of numbers of assumptions and guarantees.", "anchors": ["src/extensionInteractiveStrategy.hpp: execute"]}
{"id": "C40", "title": "Structured slugs arithmetic is translated correctly", "statement": "The slugsin formula produced for a comparison of integer expressions (constants, bounded variables, addition) evaluates to the truth value of the comparison for every valuation of the variable bits.", "quantifier": "all expressions, bounds and valuations", "why_tests_cant": "Unbounded bit widths and values.", "anchors": ["tools/StructuredSlugsParser/compiler.py"]}
{"id": "C41", "title": "The verdict is right for the game described by the text of the file", "statement": "For every specification file in the documented format with pairwise distinct names, a run without options ends with a verdict; the verdict is 'realizable' only if the game denoted by the text of the file (sections conjoined, each liveness line one property, missing liveness sections trivially true) has a winning system strategy, and 'unrealizable' only if every system strategy is defeated by some input sequence.", "quantifier": "all file contents, all strategies, all infinite input sequences", "why_tests_cant": "Infinitely many files, strategies and infinite plays.", "anchors": ["src/synthesisContextBasics.cpp: GR1Context::init, execute", "src/synthesisAlgorithm.cpp: computeWinningPositions, checkRealizability"]}
{"id": "C42", "title": "File names are assigned to their roles by position", "statement": "For every permitted combination of options other than --counterStrategy, the synthesis starts exactly if the number of file names fits the options: the first name is the specification, the second one the cost or motion file if --twoDimensionalCost or --nonDeterministicMotion is given, the next one the strategy output file (optional for explicit strategies, mandatory for symbolic ones); otherwise slugs exits with code 1.", "quantifier": "all argument lists", "why_tests_cant": "Infinite set of argument lists, 139 combinations of options.", "anchors": ["src/main.cpp: main, optionCombinations", "src/extensionExtractExplicitStrategy.hpp: init", "src/extensionExtractSymbolicStrategy.hpp: init", "src/extensionPermissiveExplicitStrategy.hpp: init", "src/extensionTwoDimensionalCost.hpp: init", "src/extensionNondeterministicMotion.hpp: init"]}
{"id": "C43", "title": "Printed cubes describe the announced positions", "statement": "For each set of positions, --analyzeInitialPositions prints TRUE exactly if all considered positions belong to the set, a note that there are none exactly if no considered position does, and otherwise one to seven different lines; every considered position matching a line belongs to the set, every line matches at least one considered position of the set, no line is a special case of an earlier one, and the search for lines always ends.", "quantifier": "all accepted specifications, all sets of positions, all orders in which the search visits the nodes", "why_tests_cant": "Arbitrary Boolean functions; the path found depends on memory addresses.", "anchors": ["src/extensionAnalyzeInitialPositions.hpp: printLargePreCubes", "src/BFAbstractionLibrary/BFCuddMintermEnumerator.cpp: getNextMinterm"]}
{"id": "C44", "title": "Stepping through a realizable strategy in the shell plays it correctly", "statement": "In the shell of --interactiveStrategy, XGETINIT followed by XMAKETRANS or XMAKETRANSRANDOM lines prints the positions of one infinite play: it starts in an initial position, follows the given inputs, obeys the safety guarantees, answers ERROR exactly for inputs that the safety assumptions forbid (and then stays where it is), passes the goal number over exactly the guarantees that are satisfied, and satisfies all liveness guarantees if the inputs satisfy the liveness assumptions.", "quantifier": "all accepted realizable specifications, all infinite input sequences, all choices of the random generator, every number of commands", "why_tests_cant": "Liveness is about infinite plays; every input sequence and every specification.", "anchors": ["src/extensionInteractiveStrategy.hpp: execute (XGETINIT, XMAKETRANS, XMAKETRANSRANDOM)", "src/tools.cpp: determinize, determinizeRandomized"]}
{"id": "C45", "title": "XCOMPLETEINIT classifies and completes partial initial positions correctly", "statement": "For every partial valuation, XCOMPLETEINIT in the shell reports FAILASSUMPTIONS exactly if no position permitted by ENV_INIT has the given values, FAILGUARANTEES exactly if there are such positions but none permitted by SYS_INIT, FORCEDNONWINNING exactly if there are initial positions with these values but none is winning for the player who wins, and otherwise prints such a winning initial position, with letters exactly for the values that are forced.", "quantifier": "all accepted specifications, all partial valuations", "why_tests_cant": "Every specification and every partial valuation.", "anchors": ["src/extensionInteractiveStrategy.hpp: execute (XCOMPLETEINIT)"]}
{"id": "C46", "title": "XSTRATEGYTRANSITION prints only transitions of a winning strategy", "statement": "For every position, partial next valuation and goal numbers, XSTRATEGYTRANSITION in the shell reports FAILASSUMPTIONS exactly if no permitted transition has the given next values, and otherwise prints a transition that has them; repeated use from the printed position and with the printed numbers plays a winning strategy; goal numbers that do not exist are rejected.", "quantifier": "all accepted specifications, all positions, partial valuations and numbers", "why_tests_cant": "Every specification, infinite plays.", "anchors": ["src/extensionInteractiveStrategy.hpp: execute (XSTRATEGYTRANSITION)"]}
{"id": "C47", "title": "MOVE follows the strategy and reports what the transition satisfies", "statement": "In a realizable specification, after SETPOS to a winning position, MOVE with an existing goal number and complete next inputs prints the outputs of a transition of a fixed strategy for that goal: it obeys the safety guarantees, stays in winning positions, and reaches the goal if the number is not changed before and the assumptions hold. MOVE lists exactly the assumptions and guarantees that this transition satisfies, warns exactly for inputs that are not permitted, makes the printed successor the current position, and rejects goal numbers that do not exist.", "quantifier": "all accepted realizable specifications, all winning positions, goal numbers and inputs, all infinite sequences of moves", "why_tests_cant": "Every specification and position.", "anchors": ["src/extensionInteractiveStrategy.hpp: execute (SETPOS, MOVE)"]}
{"id": "C48", "title": "The shell ends when its input ends", "statement": "For every text on standard input the shell of --interactiveStrategy stops, without an exception and without using a value it has not read.", "quantifier": "all accepted specifications, all input texts", "why_tests_cant": "Every text; a test cannot observe that a program never ends.", "anchors": ["src/extensionInteractiveStrategy.hpp: execute"]}
{"id": "C49", "title": "XGETINIT restarts the simulation", "statement": "Wherever XGETINIT is used in the shell of --interactiveStrategy, a correct play of the strategy starts there, and the replies to the commands after it depend only on those commands and not on what was typed before.", "quantifier": "all accepted realizable specifications, all earlier commands, all later inputs", "why_tests_cant": "Every history of commands and every infinite input sequence.", "anchors": ["src/extensionInteractiveStrategy.hpp: execute (XGETINIT, XMAKETRANS)"]}
{"id": "C50", "title": "The interesting run is a play of a winning strategy", "statement": "The table printed by --computeInterestingRunOfTheSystem starts in an initial position that is winning for the system, each row follows from the one before by a transition that both players permit and that a winning strategy of the system uses, and the table has 101 rows unless it ends in a position in which a player cannot move; in this case it names the player who cannot move. If there is no such initial position, this is reported.", "quantifier": "all accepted specifications, all random choices", "why_tests_cant": "All specifications and all random choices in each of the 100 steps.", "anchors": ["src/extensionComputeInterestingRunOfTheSystem.hpp: computeRun, execute"]}
{"id": "C51", "title": "Integer declarations of structured slugs", "statement": "A declaration x:from...to is translated to just enough bits that every value of the range has exactly one representation; the bits of different variables have different names; the lines added to the initial and transition sections hold if and only if the (next) value is in the range.", "quantifier": "all names, bounds, valuations of the bits, with and without thorough limits", "why_tests_cant": "Unbounded ranges and bit widths; names are arbitrary.", "anchors": ["tools/StructuredSlugsParser/compiler.py: performConversion"]}
{"id": "C52", "title": "Lines in slugs notation are passed through", "statement": "A property line that is already in the prefix notation of slugs over declared Boolean variables is copied unchanged by the structured slugs translator, and only such lines are copied.", "quantifier": "all lines and declarations", "why_tests_cant": "All nestings of operators, all names.", "anchors": ["tools/StructuredSlugsParser/compiler.py: isValidRecursiveSlugsProperty"]}
{"id": "C53", "title": "Assumption analysis lists exactly the goals that an unneeded assumption speeds up", "statement": "If dropping a safety assumption changes neither realizability nor the winning positions, --analyzeAssumptions lists exactly the goals (without repetition) that from some position can be reached with fewer waits for a liveness assumption than without the assumption, and calls the assumption superfluous exactly if there is no such goal.", "quantifier": "all accepted realizable specifications, all assumptions, all goals, all positions, any number of waits", "why_tests_cant": "It compares all levels of two fixed points for all specifications; the code compares finitely many of them, with lists of different lengths.", "anchors": ["src/extensionAnalyzeAssumptions.hpp: execute, computeReactiveDistancesAndWinningPositions"]}
{"id": "C54", "title": "Weakened safety assumptions use as few variables as possible and are listed once", "statement": "--computeWeakenedSafetyAssumptions only prints clauses over the variables of a sufficient consequence of the safety assumptions from which no variable can be dropped without losing realizability, in lexicographic order and no clause twice.", "quantifier": "all specifications over input and output variables", "why_tests_cant": "Minimality is a claim about all weaker assumptions, for all specifications.", "anchors": ["src/extensionWeakenSafetyAssumptions.hpp: execute"]}
{"id": "C55", "title": "The verdict with --IROSfastslow accounts for slow actions that finish after the fast ones", "statement": "With --IROSfastslow (outputs declared in [OUTPUT_F] and [OUTPUT_S]), slugs always terminates and reports realizability exactly if the system has a strategy all of whose plays fulfil the specification and all of whose steps pass through an admissible position when the slow outputs change after the inputs and the fast outputs. The file is otherwise read like an ordinary one.", "quantifier": "all specification files, all strategies and input sequences", "why_tests_cant": "The verdict is a claim about all strategies and all input sequences, for all specifications.", "anchors": ["src/extensionIROSfastslow.hpp: init, computeWinningPositions, checkRealizability, execute"]}
{"id": "C56", "title": "Explicit strategies with --IROSfastslow only take steps through admissible positions", "statement": "With --IROSfastslow --explicitStrategy (also with robotics semantics), a strategy is printed exactly if the verdict is positive. It has a state for every initial input, exactly one successor for every permitted next input, all its steps are permitted and pass through admissible positions, and all infinite paths fulfil the specification.", "quantifier": "all specifications, all states, inputs and infinite paths of the printed automaton", "why_tests_cant": "All infinite paths of automata of all sizes.", "anchors": ["src/extensionIROSfastslow.hpp: execute", "src/extensionExtractExplicitStrategy.hpp: computeAndPrintExplicitStateStrategy"]}
{"id": "C57", "title": "The verdict with --nonDeterministicMotion accounts for all reactions of the robot", "statement": "With --nonDeterministicMotion, slugs terminates with a verdict, and the verdict is positive exactly if the system has a strategy that only takes actions the robot can execute, keeps the safety guarantees as long as the environment keeps its assumptions and the robot reacts in one of the described ways, and reaches all goals again and again if the liveness assumptions hold and the robot does not stay where it is forever although the actions can move it. The strategy sees the inputs but not the reactions before they happen.", "quantifier": "all specification files and robot descriptions, all strategies, input sequences and reactions of the robot", "why_tests_cant": "The verdict is a claim about all strategies and all infinite sequences of inputs and reactions.", "anchors": ["src/extensionNondeterministicMotion.hpp: addAutomaticallyGeneratedLivenessAssumption, computeWinningPositions, checkRealizability, execute"]}
{"id": "C58", "title": "The verdict with --nonDeterministicMotion --sysInitRoboticsSemantics is about all initial positions", "statement": "With --nonDeterministicMotion --sysInitRoboticsSemantics, slugs terminates with a verdict, and it is positive exactly if one strategy fulfils the specification from all positions that satisfy the initial assumptions, for all inputs and all reactions of the robot.", "quantifier": "all specification files and robot descriptions, all initial positions, strategies, input sequences and reactions", "why_tests_cant": "The verdict is a claim about all strategies and all infinite sequences of inputs and reactions.", "anchors": ["src/extensionNondeterministicMotion.hpp: addAutomaticallyGeneratedLivenessAssumption, computeWinningPositions, checkRealizability, execute"]}
{"id": "C59", "title": "The reader for --nonDeterministicMotion gives formulas their ordinary meaning", "statement": "With --nonDeterministicMotion, reading the specification always ends. Accepted files only constrain declared variables, the steps of the robot only depend on the current and next motion state and the next controls, and formulas that do not use named regions are accepted and understood as in ordinary input files.", "quantifier": "all file contents, all lines, all readers of BDD files that return functions of the given variables", "why_tests_cant": "All texts, of any length and nesting.", "anchors": ["src/extensionNondeterministicMotion.hpp: init, parseBooleanFormulaEx, parseBooleanFormulaRecurseEx"]}
{"id": "C60", "title": "A printed abstract trace can be enforced", "statement": "If --computeAbstractWinningTrace prints a countertrace, its first column is a single permitted initial position, and the environment can choose its inputs such that, whatever the outputs are, the system violates its safety guarantees within the printed number of rounds, while the environment satisfies its safety assumptions and all positions until the violation are described by the columns. The corresponding statement holds for the system's trace, with the environment violating its safety assumptions.", "quantifier": "all specifications, all plays of the other player", "why_tests_cant": "All reactions of the other player in games of any size; the columns are the result of repeated restriction steps.", "anchors": ["src/extensionAbstractWinningTraceGenerator.hpp: computeAbstractStrategyTrace"]}
{"id": "C61", "title": "An abstract trace is printed exactly if the player can win in bounded time", "statement": "--computeAbstractWinningTrace terminates. It prints the system's trace exactly if the system can make the environment violate its safety assumptions within a bounded number of rounds from a permitted initial position for each permitted initial input, with the least possible number of rounds, and a countertrace exactly if the environment can make the system violate its safety guarantees within a bounded number of rounds from a permitted initial input.", "quantifier": "all specifications", "why_tests_cant": "The absence of a trace is a claim about all strategies of a player.", "anchors": ["src/extensionAbstractWinningTraceGenerator.hpp: computeAbstractStrategyTrace, execute"]}
{"id": "C62", "title": "Abstract traces are as concrete as possible", "statement": "In the traces printed by --computeAbstractWinningTrace, no '*' in the column of a round (other than the last one of a countertrace) can be replaced by a value such that the player could still enforce the step from the preceding column.", "quantifier": "all specifications, all columns, variables and values", "why_tests_cant": "All strategies of the player for the step, for games of any size.", "anchors": ["src/extensionAbstractWinningTraceGenerator.hpp: computeAbstractStrategyTrace"]}
{"id": "C63", "title": "Computed estimators give correct estimates, whatever the unobservable variables are", "statement": "--computeIncompleteInformationEstimator terminates, and its [SYS_TRANS] formula holds exactly for the updates of the estimates that are correct in every state that the partially observable domain may be in (after correct steps, given what can be seen) and that fulfil the wishes of the min_/max_ estimates best. The formula does not depend on variables that cannot be seen, all runs that satisfy it keep the estimates correct, and the wishes never exclude the last correct update. With everything observable and without wishes it permits all updates of all estimators; in general it does not.", "quantifier": "all accepted files, all states and runs of the domain", "why_tests_cant": "Correctness is about all runs of the domain that look the same.", "anchors": ["src/extensionIncompleteInformationEstimatorSynthesis.hpp: init, execute"]}
{"id": "C64", "title": "The computed assumption and the warnings about dead ends are exact", "statement": "The [ENV_TRANS] formula of --computeIncompleteInformationEstimator is the strongest assumption over the visible state and the next observation that is true in all runs of the domain with the estimator. The warnings about missing initial states and dead ends are printed exactly if there are such; without warnings, every run of the estimator can be continued for every next observation. The warning about dead ends of the system may concern steps only that the assumption excludes.", "quantifier": "all accepted files, all runs of the domain with the estimator, all other assumptions", "why_tests_cant": "Strongest assumption and absence of dead ends are claims about all runs and all formulas.", "anchors": ["src/extensionIncompleteInformationEstimatorSynthesis.hpp: execute"]}
{"id": "C65", "title": "The printed estimator can be pasted into a slugsin file and means the same there", "statement": "If the output of --computeIncompleteInformationEstimator is appended to a slugsin file that declares the variables that can be seen under the same (usable) names, the observable ones as inputs and the other ones as outputs, then the file is accepted and the steps of the system are restricted to the updates of the estimator, those of the environment to the computed assumption; nothing else changes.", "quantifier": "all accepted files, all slugsin files with these declarations in any order, all states", "why_tests_cant": "Round trip of arbitrary Boolean functions through printed memory buffers.", "anchors": ["src/extensionIncompleteInformationEstimatorSynthesis.hpp: recursePrintBFAsSlugsExpression, printBFAsSlugsExpression, execute", "src/synthesisContextBasics.cpp: parseBooleanFormula"]}
{"id": "C66", "title": "The difference analysis of numbers reports the exact ranges", "statement": "If all variables with a dot in their name are the lowest bits of numbers, then the min/max difference analysis of --computeIncompleteInformationEstimator reports, for each number and each other estimated number, the least and the greatest difference between the next value of the estimate and the number over all steps of the domain with the estimator.", "quantifier": "all accepted files with such names, all pairs of numbers, all steps", "why_tests_cant": "The range is over all reachable steps and all values.", "anchors": ["src/extensionIncompleteInformationEstimatorSynthesis.hpp: execute"]}
{"id": "C67", "title": "Dropping guarantees or adding assumptions never makes a specification unrealizable", "statement": "If a file is realizable, then every file with the same variables, at least its assumptions and at most its guarantees is realizable too; if the latter is unrealizable, so is the former. The order of the sections, declarations and lines and repetitions of lines have no effect on the verdict.", "quantifier": "all pairs of accepted slugsin files (numbers followed by white space) with these inclusions, all evaluation orders", "why_tests_cant": "Relates the verdicts of two arbitrary specifications, whose variables may be numbered differently.", "anchors": ["src/synthesisAlgorithm.cpp: computeWinningPositions, checkRealizability", "src/synthesisContextBasics.cpp: init", "tools/findMinimalUnrealizableCore.py"]}
{"id": "C68", "title": "findMinimalUnrealizableCore.py finds minimal cores, but only with a slugs that accepts its option", "statement": "With a slugs that accepts --onlyRealizability, the tool terminates for every accepted file and writes a readable file to /tmp/core.slugsin: for an unrealizable file it is unrealizable, keeps all the other lines, and dropping any of its liveness or transition guarantees makes it realizable; for a realizable file nothing is dropped. Initialization guarantees are not minimized. The slugs of this repository does not know the option, so the tool aborts for every file with a liveness or transition guarantee.", "quantifier": "all accepted slugsin files (numbers followed by white space), all evaluation orders", "why_tests_cant": "Minimality concerns the verdicts of all reduced specifications of an arbitrary file; that one pass suffices depends on monotonicity.", "anchors": ["tools/findMinimalUnrealizableCore.py: isRealizable, findMinimalCore", "src/main.cpp: commandLineArguments, main"]}
{"id": "C69", "title": "binaryRealizabilitySearch.py finds the best value of a parameter", "statement": "If the script answers for all values of the range and realizability is monotone (antitone) in the parameter, then binaryRealizabilitySearch.py prints the least (greatest) realizable value of the range, calls the script last with it, and prints that the specification is totally unrealizable iff there is no such value; it needs at most log2(max-min)+2 calls. Without monotonicity, the printed value is realizable and cannot be improved by one. If the script runs slugs on files that demand less and less, monotonicity holds. If the minimum is greater than the maximum, the value of the maximum can be reported although it is outside the range.", "quantifier": "all scripts, ranges (of unbounded integers) and directions", "why_tests_cant": "Termination, optimality and the number of calls range over all intervals and all monotone functions.", "anchors": ["tools/binaryRealizabilitySearch.py: checkRealizability, __main__"]}
{"id": "C70", "title": "multiDimensionalRealizabilitySearch.py computes the Pareto front", "statement": "If the script answers for all tuples in the given ranges and realizability is monotone in the given directions, then the search terminates and prints exactly the realizable tuples for which no other realizable tuple is harder, each of them once, and every realizable tuple is at least as easy as one of them; the script is called at most once per tuple and only inside the ranges. If the script fails, the search repeats the same test forever instead of reporting an error.", "quantifier": "all scripts, numbers of parameters, ranges and directions", "why_tests_cant": "Correctness of the pruning ranges over all monotone functions in any number of dimensions.", "anchors": ["tools/multiDimensionalRealizabilitySearch.py: checkRealizability, tupleComparator, runSearch"]}
{"id": "C71", "title": "Verdict of --twoDimensionalCost", "statement": "Whenever slugs --twoDimensionalCost finishes, its verdict is right for the specification in the file (with and without --sysInitRoboticsSemantics), and a strategy or a message about conflicting costs follows iff the specification is realizable.", "quantifier": "all specification files, cost files and both semantics", "why_tests_cant": "The verdict must be right for every game; the plugin has its own copy of the check.", "anchors": ["src/extensionTwoDimensionalCost.hpp: checkRealizability"]}
{"id": "C72", "title": "Transition costs are the listed ones", "statement": "A transition has the costs that the lines of the cost file give to it. The file is refused with two different costs of one transition iff there is such a transition; otherwise every transition has exactly one cost, the listed one, or 0 if none is listed.", "quantifier": "all specification files, cost files and transitions", "why_tests_cant": "Conflicts must be found for all of the exponentially many transitions and all pairs of lines.", "anchors": ["src/extensionTwoDimensionalCost.hpp: init, computeCostOptimalStrategy"]}
{"id": "C73", "title": "The search for cheap strategies ends", "statement": "If the weight of action costs is positive, the weight of waiting costs is not negative and no listed cost is negative, then slugs --twoDimensionalCost terminates.", "quantifier": "all specification files and all cost files with these properties", "why_tests_cant": "Termination of an unbounded search over an infinite set of cost pairs.", "anchors": ["src/extensionTwoDimensionalCost.hpp: computeCostOptimalStrategy, TwoDimensionalCostNotionTuple::operator<"]}
{"id": "C74", "title": "Strategies for costs are safe", "statement": "All transitions of the automaton printed by slugs --twoDimensionalCost --explicitStrategy satisfy the safety assumptions and guarantees, all of its states are winning positions and can be reached from states that satisfy the initialization properties. With --simpleRecovery, transitions that satisfy the safety assumptions satisfy the safety guarantees and lead to winning positions.", "quantifier": "all specification files, cost files, both semantics, all states and transitions of the automaton", "why_tests_cant": "Ranges over all games and all states of automata of unbounded size.", "anchors": ["src/extensionTwoDimensionalCost.hpp: computeCostOptimalStrategy", "src/extensionExtractExplicitStrategy.hpp"]}
{"id": "C75", "title": "Strategies for costs never block", "statement": "In the automaton printed by slugs --twoDimensionalCost --explicitStrategy, there is an initial state for every permitted initial input and every state has a successor for every permitted next input.", "quantifier": "all specification files, cost files, states and inputs", "why_tests_cant": "Ranges over all games and all inputs.", "anchors": ["src/extensionTwoDimensionalCost.hpp: computeCostOptimalStrategy"]}
{"id": "C76", "title": "Strategies for costs satisfy the liveness guarantees", "statement": "On every infinite path of the automaton printed by slugs --twoDimensionalCost --explicitStrategy on which the liveness assumptions are satisfied infinitely often, so are the liveness guarantees.", "quantifier": "all specification files, cost files and infinite paths", "why_tests_cant": "Ranges over infinite executions.", "anchors": ["src/extensionTwoDimensionalCost.hpp: computeCostOptimalStrategy"]}
{"id": "C77", "title": "Circuits for safety specifications detect exactly the violations", "statement": "translateSafetySlugsSpecToSyntCompAIGFormat.py writes an ASCII AIGER file that describes one well-formed circuit (gates can be evaluated in some order, every literal is defined, the counts in the header are right, the inputs carry the names of the variables). Whatever the inputs do, the error output is true at a point of time exactly if the guarantees are violated at that point and no assumption has been violated up to it.", "quantifier": "all safety specification files whose formulas follow the grammar and separate words by single blanks, all infinite input sequences and all points of time", "why_tests_cant": "Ranges over all files and over infinite runs of the circuit.", "anchors": ["tools/translateSafetySlugsSpecToSyntCompAIGFormat.py: produceAIGFileFromSlugsFile, recurseMakeAIGEncodingOfBooleanFormula"]}
{"id": "C78", "title": "The translation to circuits preserves realizability", "statement": "A safety specification is realizable according to slugs if and only if, in the circuit written by translateSafetySlugsSpecToSyntCompAIGFormat.py, some strategy for the inputs named controllable_... keeps the error output false.", "quantifier": "all safety specification files that follow the grammar, all strategies and all infinite input sequences", "why_tests_cant": "Ranges over all files, strategies and infinite plays.", "anchors": ["tools/translateSafetySlugsSpecToSyntCompAIGFormat.py: produceAIGFileFromSlugsFile", "src/gr1context.hpp", "src/synthesisAlgorithm.cpp"]}
{"id": "C79", "title": "The translation to circuits covers exactly the safety specifications that slugs accepts", "statement": "translateSafetySlugsSpecToSyntCompAIGFormat.py translates every specification without liveness properties that slugs accepts, and fails for all other files.", "quantifier": "all specification files", "why_tests_cant": "Ranges over all files.", "anchors": ["tools/translateSafetySlugsSpecToSyntCompAIGFormat.py: produceAIGFileFromSlugsFile"]}
{"id": "C80", "title": "Structured slugs lines are read by the documented grammar, in exactly one way", "statement": "When the structured slugs compiler translates a line that is not in prefix notation, it takes the line for the one formula that its grammar allows: precedence and associativity of operators, the alternative notations, the longest names and numbers. It rejects every other line, and reading a line always ends.", "quantifier": "all lines of characters and all sets of declared names; all token sequences", "why_tests_cant": "The parser consists of generated tables with 111 states; that they accept exactly the grammar concerns lines of every length and nesting.", "anchors": ["tools/StructuredSlugsParser/compiler.py: tokenize, parseLTL, clean_tree", "tools/StructuredSlugsParser/Parser.py: _parse, _shift, _reduce, _goto", "tools/StructuredSlugsParser/grammar.wi"]}
{"id": "C81", "title": "Translating a structured slugs file preserves realizability over integers", "statement": "If the structured slugs compiler translates a file and slugs reports a verdict for the result, then the verdict is the right one for the game that the structured file describes: inputs and outputs take integer values in their declared ranges, both players have to stay in the ranges, and every line has its meaning over integers. The option --thorougly does not change this.", "quantifier": "all structured slugs files, all strategies and infinite plays over integers", "why_tests_cant": "Ranges over all files, all ranges of variables, all strategies and all infinite plays.", "anchors": ["tools/StructuredSlugsParser/compiler.py: performConversion", "src/gr1context.hpp", "src/synthesisAlgorithm.cpp"]}
{"id": "C82", "title": "Variables that are declared twice in a structured slugs file are reported", "statement": "If a structured slugs file declares the same variable twice, then the compiler or slugs rejects it.", "quantifier": "all structured slugs files", "why_tests_cant": "Ranges over all files and all pairs of declarations.", "anchors": ["tools/StructuredSlugsParser/compiler.py: performConversion", "src/synthesisContextBasics.cpp: init"]}
{"id": "C83", "title": "The stuck-at-constant analysis reports exactly the values that a variable can be fixed to", "statement": "For a structured slugs file whose integer variables have no negative values: if the analysis prints a report, then its verdict is the one for the game over integers that the file describes. For a realizable specification the report lists the outputs in their order, and with every output exactly the values of its range to which the system can fix it at all times so that the specification stays realizable. For an unrealizable one it lists the inputs, and with each input exactly the values to which the environment can fix it so that the specification stays unrealizable.", "quantifier": "all structured slugs files with distinct names that are words, all variables and all their values", "why_tests_cant": "Ranges over all files, all values and, in the games, all strategies and infinite plays.", "anchors": ["tools/analyzeStuckAtConstant.py: readSlugsFile", "tools/analyzeStuckAtConstant.py: writeSlugsFile", "tools/analyzeStuckAtConstant.py: checkRealizability", "tools/analyzeStuckAtConstant.py: analyzeStuckAtConstant"]}
{"id": "C84", "title": "The resilience checker finds exactly the greatest sets of assumptions that are not needed", "statement": "For every file in the documented language the search for unbounded resilience ends and yields, without repetitions, exactly the greatest choices of safety assumptions (not marked as variable limits) such that the system can keep its guarantees although the chosen assumptions may be violated at any time, and reach its goals whenever the violations stop. A choice is possible if and only if it is contained in one of them. The tool reports that the specification is absolutely unrealizable if and only if the specification itself is unrealizable.", "quantifier": "all slugsin files in the documented language, all sets of safety assumptions", "why_tests_cant": "Ranges over all files, all subsets of the assumptions and, in the games, all strategies and infinite plays.", "anchors": ["tools/kResilientRealizabilityChecker.py: getFrontierSetInLatticeRecurse", "tools/kResilientRealizabilityChecker.py: getFrontierSetInLattice", "tools/kResilientRealizabilityChecker.py: checkInftyRobustImplementability", "tools/kResilientRealizabilityChecker.py: findInftyRobustSolutions", "tools/kResilientRealizabilityChecker.py: BoolVectorLatticeElement"]}
{"id": "C85", "title": "Decoded strategies show the values of the integer variables", "statement": "Compiling a structured file, computing an explicit strategy and piping it through the integer decoder gives the same states with the same numbers, ranks and successors, where every label shows each Boolean variable with its bit and each integer variable (with more than one possible value) with the number that its bits stand for; for the bits of a position these are the values in this position. Lines without a label do not change. This holds if the names contain no @ and there is at least one bit: otherwise a Boolean variable may be missing, or the decoder raises an exception.", "quantifier": "all structured files with any number of variables and ranges, all strategies with any number of states", "why_tests_cant": "Ranges over all files, ranges, bit widths and strategies.", "anchors": ["tools/explicitImplementationIntegerDecoder.py", "tools/StructuredSlugsParser/compiler.py: performConversion", "src/extensionExtractExplicitStrategy.hpp: computeAndPrintExplicitStateStrategy"]}
{"id": "C86", "title": "The levels of resilience found are exactly the greatest ones", "statement": "The resilience checker gives each safety assumption that is not a variable limit a level (none, some, any) and a number k: the system must satisfy its guarantees although assumptions of level any are violated at any time and those of level some are violated at most k times before the system, having counted the violations, recovers. The file that it writes for levels and k is realizable exactly if there is such a system. The tool ends. It says that the specification is absolutely unrealizable exactly if it is; otherwise it lists, without repetition, exactly the greatest combinations (those with k > 1 only for levels for which k matters), and every achievable combination is below a listed one or achievable for unlimited violations. A system that is possible for every k is possible for unlimited violations, from a fixed k on.", "quantifier": "all specification files with any number of variables and assumptions, all levels and all k", "why_tests_cant": "Ranges over all files, levels and numbers of violations; the search runs through infinitely many candidates, and that it ends depends on all of them.", "anchors": ["tools/kResilientRealizabilityChecker.py: writeMixedRobustSpecification, findMixedRobustSolutions, getFrontierSetInLattice"]}
{"id": "C87", "title": "The translation of RATSY files preserves the specification", "statement": "The translator for RATSY files accepts a file exactly if its entries are formulas of the documented grammar whose conjuncts can be translated. slugs, run on the translated file, says realizable or unrealizable according to the game of the LTL formulas, and if it says realizable, there is a system that satisfies all guarantees, as LTL formulas, on every run that satisfies the assumptions. This needs that no name begins with TRUE, FALSE or next; for such names the answer can be wrong.", "quantifier": "all RATSY files, with any number of variables and formulas of any size", "why_tests_cant": "Ranges over all texts and formulas, and over all infinite runs.", "anchors": ["tools/translateFromRatsyFormatToSlugsFormat.py: tokenize, clean_tree, flatten_as_much_as_possible, parseLTL, parseSimpleFormula, buildPropertySet, performConversion", "tools/parser.py: Parser._parse, Parser.parse"]}
{"id": "C88", "title": "The translation of LTLMop files preserves the specification", "statement": "For an SMV file with the declarations and an LTL file with the assumptions and guarantees, the translator for LTLMop writes a file for which slugs says realizable or unrealizable according to the game of the LTL formulas; if it says realizable, some system satisfies the guarantees as LTL formulas on every run that satisfies the assumptions. It accepts a pair of files exactly if the texts are formulas whose conjuncts can be translated. This needs that the formulas have no comparisons with 0 or 1: x=0 is accepted, and translated to x.", "quantifier": "all pairs of an SMV and an LTL file, with any number of variables and formulas of any size", "why_tests_cant": "Ranges over all texts and formulas, and over all infinite runs.", "anchors": ["tools/translateFromLTLMopLTLFormatToSlugsFormat.py: parseSimpleFormula, buildPropertySet, performConversion", "tools/parser.py: Parser._parse, Parser.parse"]}
{"id": "C89", "title": "The graph of a strategy shows its states and transitions", "statement": "For a strategy that slugs prints with --explicitStrategy, the tool for GraphViz prints a graph with the names of the declared variables, one box for every state with the values of the variables and the number of the goal, and one arrow for every transition, in the order of the strategy. This holds if every state has a successor, which is the case if the environment can always move, and if names contain no <, comma or colon. If some state has no successor, the tool raises an exception; with a colon in a name it shows wrong values.", "quantifier": "all strategies with any number of states, variables and transitions; all specifications for which slugs prints such a strategy", "why_tests_cant": "Ranges over all specification files and all strategies computed from them.", "anchors": ["tools/explicitStrategyToGraphviz.py", "src/extensionExtractExplicitStrategy.hpp: XExtractExplicitStrategy::computeAndPrintExplicitStateStrategy"]}
{"id": "C90", "title": "The model checking problem for a strategy is the right one", "statement": "For a specification with the operators and, or and not, and an automaton in the format of slugs, the tool for NuSMV writes a problem whose specifications all hold if and only if every behaviour of the automaton with a permitted initial position satisfies the safety and liveness obligations. So every path of a deterministic automaton that passes satisfies the specification, and the strategy that slugs prints, with or without --simpleRecovery, always passes. The check covers neither that there is an initial state for every permitted input, nor further successors for the same input; ^ and double blanks are not read.", "quantifier": "all specification files of this form, all automata with any number of states and transitions, all infinite runs of the written module", "why_tests_cant": "Ranges over all files and automata and all infinite runs of the module.", "anchors": ["tools/makeNuSMVInstanceToTestAutomatonFileAgainstSlugsSpecification.py: slugsToLTL, slugsInitToLTL", "src/extensionExtractExplicitStrategy.hpp: XExtractExplicitStrategy::computeAndPrintExplicitStateStrategy"]}
{"id": "C91", "title": "The report counts the positions from which the system can make the assumptions fail, and shows the specification unchanged", "statement": "For every compiled specification, the file that the report tool writes for its sections 5 and 5b is accepted by slugs, and the numbers of winning positions in these sections are the numbers of positions from which the system has a strategy that keeps its safety guarantees and with which no play satisfies all assumptions; these positions are winning in the specification. The section with the specification shows its text in a browser exactly, up to the marker line, without the blank lines at its beginning and end, and contains no tags.", "quantifier": "all specification files with any numbers of variables and formulas, all positions and strategies; all texts", "why_tests_cant": "Ranges over all specifications, all strategies and all infinite plays, and over all texts.", "anchors": ["tools/createSpecificationReport.py: readSlugsFile, writeSlugsFile, cgi.escape", "src/extensionAnalyzeInitialPositions.hpp: XAnalyzeInitialPositions::execute"]}
{"id": "C92", "title": "Replacing integer variables by differences keeps the meaning of every property", "statement": "For every property of a structured specification in which the integer variable substitutor can replace variables (no exclusive disjunctions, U, W, F and G, only sums of variables and numbers without brackets, next operators only above Boolean formulas), the tool prints a line that is again a property, and that is true for some values exactly if the original one is true whenever each replaced variable x has the value of its first expression minus the value of its second one and all other variables keep their values. For every other property the tool leaves the line unchanged (prefix notation) or stops with an error. In a file, every section of the printed file contains the translated properties in the same order, and the declarations with those replaced for which the replacement file has a line.", "quantifier": "all specification files, all replacement files, all properties of any length, all values of variables now and next", "why_tests_cant": "Ranges over all formulas, all replacement expressions and all integer values.", "anchors": ["tools/StructuredSlugsParser/integerVariableSubstitutor.py: treeReplaceExpression, treeReplace, translateTreeToStructuredSlugsLine, isValidRecursiveSlugsProperty, performReplacement"]}
{"id": "C93", "title": "The comparison of slugs with another synthesis tool reports exactly the wrong answers", "statement": "Whatever random numbers are drawn, fuzzSafetySpecsAgainstAisy.py (with at least one variable of each kind) raises no exception when it makes a specification; the specification follows the grammar, uses only variables that are permitted in the section, recalls only buffer elements that are computed already and has no liveness properties, so that slugs gives a verdict for it and the translation to circuits succeeds. If the answer of the other tool is right for the circuit, the test reports an error exactly if the answer of slugs is wrong for the game that the file describes; in particular it reports none for the verdict that slugs computes.", "quantifier": "all sequences of random numbers, all numbers of variables, all answers of slugs (or of a program in its place), all answers of the other tool", "why_tests_cant": "The fuzzer itself only samples; that it raises no false alarm and misses no wrong answer must hold for every specification it can make.", "anchors": ["tools/fuzzSafetySpecsAgainstAisy.py: fuzzOnce, makeAProperty", "tools/translateSafetySlugsSpecToSyntCompAIGFormat.py"]}
{"id": "C94", "title": "The fuzz tester for LTL specifications only makes files that can be translated, and compares what slugs computes for them", "statement": "Whatever random numbers slugsFuzzer.py draws, its two files declare the variables and contain one formula for the assumptions and one for the guarantees in the documented notation; they can be translated, and slugs answers correctly for the result, with respect to the formulas. Each test should then call slugs and check its strategy. (False: a blank is missing in the command, so that slugs gets an unknown option and each test ends with a failed call, for all options and random numbers. The initial conditions that the comments announce are written as invariants, so that there are none.)", "quantifier": "all sequences of random numbers, all numbers of variables, all process numbers, all options given by the user, all orders of variables", "why_tests_cant": "The files are random and of unbounded size; that no test ever gets past the call of slugs is a claim about all runs.", "anchors": ["tools/slugsFuzzer.py:fuzzOnce", "tools/slugsFuzzer.py:makeAProperty", "tools/translateFromLTLMopLTLFormatToSlugsFormat.py", "src/main.cpp:main"]}
{"id": "C95", "title": "The benchmark files for the game between Cinderella and the stepmother describe this game", "statement": "For every number of buckets, power of Cinderella, capacity of the buckets and power of the stepmother, with at least one bucket and a power of at least one: the file that cinderella_stepmother.py writes is translated by compiler.py, slugs gives a verdict for the result (of less than 2^32 characters), and the verdict is realizable if and only if Cinderella has a strategy by which no bucket ever overflows, where she empties that many adjacent buckets of the circle in each step before the stepmother pours, and it is unrealizable otherwise.", "quantifier": "all configurations, all strategies of Cinderella, all sequences of what the stepmother pours, all orders of variables", "why_tests_cant": "The claim compares the verdict with the existence of strategies against infinitely many opponents, for infinitely many configurations; running the benchmarks only shows verdicts that nobody has checked.", "anchors": ["examples/benchmark_generators/cinderella_stepmother.py:makeBenchmarkFile", "tools/StructuredSlugsParser/compiler.py:performConversion", "src/synthesisContextBasics.cpp:execute"]}
{"id": "C96", "title": "Well-formed structured slugs files are translated and decided", "statement": "Every structured slugs file whose declarations are plain (a name, or name:min...max with decimal bounds, min at most max, possibly with white space around the colon and the dots, without quotes and @ in names), whose integer variables have distinct names, and whose formula lines are each a formula in prefix notation over the declared bits or an infix formula of the documented grammar over the declared variables that only uses supported operators, is translated by compiler.py without an exception, with and without --thorough. If, in addition, all variables have distinct names and every formula uses only variables that slugs allows in its section, and the result has less than 2^32 characters, then slugs reads the result and gives the right verdict for the game over the integers. In particular, all files of the Cinderella benchmark generator are translated and decided.", "quantifier": "all files of this form, of any length, with any number of variables, ranges and nesting depths of formulas", "why_tests_cant": "The parser, the checks of declarations and the translation of comparisons can each raise exceptions, and there are infinitely many files; the test suite has a few dozen.", "anchors": ["tools/StructuredSlugsParser/compiler.py:performConversion", "tools/StructuredSlugsParser/compiler.py:parseLTL", "tools/StructuredSlugsParser/compiler.py:isValidRecursiveSlugsProperty", "examples/benchmark_generators/cinderella_stepmother.py:makeBenchmarkFile", "src/synthesisContextBasics.cpp:init"]}
{"id": "C97", "title": "Structured safety files become circuits with the right answer", "statement": "A structured slugs file of the form of C96 without liveness lines, whose lines in prefix notation have single blanks, and in which no input name begins with controllable_, is translated by compiler.py, and the result (of less than 2^32 characters) is translated by translateSafetySlugsSpecToSyntCompAIGFormat.py to a well-formed circuit. slugs and every correct synthesis tool for circuits give the same answer, and it is the right one for the game over the integers that the structured file describes. In particular, the circuit for every configuration of the Cinderella benchmark is realizable exactly if Cinderella wins.", "quantifier": "all files of this form, of any length, with any number of variables, ranges and nesting depths of formulas; all configurations of the Cinderella game", "why_tests_cant": "Two translators and two input languages are chained: every spelling that the first one may write has to be understood by the second one, for infinitely many files, and realizability ranges over all infinite plays.", "anchors": ["tools/StructuredSlugsParser/compiler.py:performConversion", "tools/translateSafetySlugsSpecToSyntCompAIGFormat.py: produceAIGFileFromSlugsFile", "examples/benchmark_generators/cinderella_stepmother.py:makeBenchmarkFile"]}
