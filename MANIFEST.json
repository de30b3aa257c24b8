{"claims": [
{"property": "C01", "status": "proved", "theorems": ["C01_realizable_sound"], "note": ""},
{"property": "C02", "status": "proved", "theorems": ["C02_unrealizable_sound"], "note": ""},
{"property": "C03", "status": "proved", "theorems": ["C03_check_terminates", "C03_verdict_decides"], "note": ""},
{"property": "C04", "status": "proved", "theorems": ["C04_winning_exact", "C04_losing"], "note": ""},
{"property": "C05", "status": "partial", "theorems": ["C05_formula_meaning_partial", "C05_documented_meaning", "C05_refuted"], "note": "Refuted as stated: a buffer element may recall itself. Proved for all lines whose numbers are words of digits, with respect to the grammar in which recalls of later elements are permitted, and unconditionally for all documented lines."},
{"property": "C06", "status": "partial", "theorems": ["C06_accepted_iff_grammatical_partial", "C05_documented_meaning", "C06_refuted"], "note": "Refuted as stated by three accepted undocumented lines with buffers. Exact characterisation for lines without buffers; all documented lines are accepted."},
{"property": "C07", "status": "partial", "theorems": ["C07_no_undefined_behaviour_partial", "C07_terminates", "C07_refuted"], "note": "Refuted as stated ('$ 0', '$ 2 ! ? 1 1', '$ 1 ? 0'). Proved for lines without '$' and for documented lines."},
{"property": "C08", "status": "proved", "theorems": ["C08_operand_order"], "note": ""},
{"property": "C09", "status": "proved", "theorems": ["C09_sections_combined", "C09_layout_irrelevant", "C09_permutation"], "note": ""},
{"property": "C10", "status": "proved", "theorems": ["C10_supports"], "note": ""},
{"property": "C11", "status": "proved", "theorems": ["C11_duplicates_rejected", "C11_names_unique"], "note": ""},
{"property": "C12", "status": "proved", "theorems": ["C12_default_liveness", "C12_never_empty"], "note": ""},
{"property": "C13", "status": "proved", "theorems": ["C13_initial_inputs", "C13_initial_positions", "C13_robotics"], "note": ""},
{"property": "C14", "status": "proved", "theorems": ["C14_input_complete", "C14_safe_deterministic", "C14_runs"], "note": ""},
{"property": "C15", "status": "proved", "theorems": ["C15_liveness", "C15_correct"], "note": ""},
{"property": "C16", "status": "proved", "theorems": ["C16_terminates", "C16_numbering", "C16_reachable", "C16_text"], "note": ""},
{"property": "C17", "status": "proved", "theorems": ["C17_json", "C17_json_any_names_refuted"], "note": "Names are printed without escaping, so the hypothesis on names is necessary (refutation for a name with a quotation mark)."},
{"property": "C18", "status": "proved", "theorems": ["C18_robotics_sound", "C18_robotics_complete", "C18_robotics_terminates"], "note": ""},
{"property": "C19", "status": "proved", "theorems": ["C19_recovery", "C19_liveness", "C14_input_complete", "C14_safe_deterministic"], "note": ""},
{"property": "C20", "status": "proved", "theorems": ["C20_terminates", "C20_variables", "C20_initial", "C20_nonblocking", "C20_step", "C20_recovery", "C20_liveness", "C20_correct", "C20_header", "C20_unique_names_refuted"], "note": "All computations (plain, recycling, bias), both semantics of initial conditions, both formats. The serialisation of the BDD (DDDMP) is not modelled. Finding: names of added variables may clash with declared ones."},
{"property": "C21", "status": "proved", "theorems": ["C21_terminates", "C21_positions", "C21_input_complete", "C21_safe", "C21_liveness", "C21_correct", "C21_contains", "C21_text"], "note": ""},
{"property": "C22", "status": "proved", "theorems": ["C22_recycling_exact", "C22_verdict"], "note": "the explicit strategy theorems C13-C17, C19 also quantify over the computation used"},
{"property": "C23", "status": "proved", "theorems": ["C23_winning_exact", "C23_verdict", "C15_correct", "C14_input_complete", "C14_safe_deterministic"], "note": "extracted strategies: C14/C15 hold with alg = Bias"},
{"property": "C24", "status": "proved", "theorems": ["C24_terminates", "C24_dual", "C24_verdict", "C24_unrealizable"], "note": "both initial-position semantics"},
{"property": "C25", "status": "partial", "theorems": ["C25_numbering", "C25_moves", "C25_successors", "C25_losing", "C25_reachable", "C25_initial", "C25_start", "C25_liveness_partial", "C25_single_guarantee", "C25_lost", "C25_liveness_refuted", "C25_empty_refuted", "C25_no_output_refuted"], "note": "First part (moves and deadlocks) proved for all specifications with at least one output, refuted without outputs. Second part (infinite paths are losing) proved for one liveness guarantee; false in general: C25_liveness_refuted gives a specification and the counterstrategy slugs prints for it, all of whose infinite paths satisfy the specification."},
{"property": "C26", "status": "partial", "theorems": ["C26_one_file", "C26_two_files_refuted", "C26_no_file_refuted", "C26_more_files", "C26_undefined"], "note": "The statement is false of the code: with two file names the roles are swapped, with none the behaviour is undefined (C26_two_files_refuted, C26_no_file_refuted, for all argument lists). The case of one file name is proved; the behaviour is characterised completely."},
{"property": "C27", "status": "proved", "theorems": ["C27_loaded", "C27_clauses", "C27_liveness", "C27_variables"], "note": "Computation of the CNF form: termination, no exception, equivalence of clauses with safety and initial parts for all pairs of valuations, equivalence of liveness cubes over all infinite runs, variable numbering."},
{"property": "C28", "status": "partial", "theorems": ["C28_file", "C28_complete", "C28_safety", "C28_liveness_partial", "C28_single_refuted", "C28_liveness_safety_refuted"], "note": "Safety assumptions: proved in full, for all accepted files. Liveness assumptions: every needed one is reported, and the claim holds for at least two liveness assumptions and no safety assumptions; the converse is false for the code (a single liveness assumption is always reported; with safety assumptions these are dropped as well), shown by witnesses."},
{"property": "C29", "status": "partial", "theorems": ["C29_report_partial", "C29_printed_partial", "C29_undefined", "C29_uninitialised_refuted", "C29_stale_refuted", "C29_initial_refuted"], "note": "The statement is false of the code: foundOne is read without a value exactly if no single output can be moved (C29_undefined, C29_uninitialised_refuted), and the output that is declared last is printed although it was rejected (C29_stale_refuted). Proved: what is printed is the greedy choice plus the last output, and it is right without the last output; a set of outputs is accepted exactly if a winning strategy exists that sets them before reading the input, except in the initial position (C29_initial_refuted)."},
{"property": "C30", "status": "partial", "theorems": ["C30_matrix", "C30_environment", "C30_system", "C30_env_steps_partial", "C30_nonstrict_partial", "C30_env_steps_refuted", "C30_nonstrict_robotics_refuted"], "note": "Proved for all specifications: the table, who can falsify the safety part, the number of steps for the system, the answer on the non-strict implication in the usual semantics. The full statement is false of the code: the number of steps printed for the environment counts inputs that violate ENV_INIT (C30_env_steps_refuted, line 154), and the robotics answer on the non-strict implication can be negative although the specification becomes realizable (C30_nonstrict_robotics_refuted, the new variable has no initial value). Proved instead: the number is right if every non-permitted initial input leaves a permitted initial output, and a positive robotics answer is right."},
{"property": "C31", "status": "partial", "theorems": ["C31_file", "C31_accepted", "C31_positions", "C31_inputs", "C31_losing_inputs_partial", "C31_nan_refuted", "C31_reachable", "C31_shown", "C31_rounded_refuted"], "note": "All position and input counts are proved right, with limits and reachability restriction. False of the code: the count of inputs forcing a losing position is nan exactly if limits on outputs matter (witness file), and numbers of at least 10^6 are rounded by the default stream precision (witness file)."},
{"property": "C32", "status": "proved", "theorems": ["C32_unknown", "C32_set", "C32_unlisted", "C32_features"], "note": ""},
{"property": "C33", "status": "partial", "theorems": ["C33_marks_partial", "C33_bounds_refuted", "C33_mark_refuted"], "note": "The full claim is false: the last row always reads two vectors behind their ends (C33_bounds_refuted), and a row can be marked although the printed step does not satisfy the goal (C33_mark_refuted). Proved: all other cells are defined, and a mark is about a permitted transition from the position."},
{"property": "C34", "status": "proved", "theorems": ["C34_determinize", "C34_one_valuation", "C34_empty"], "note": ""},
{"property": "C35", "status": "proved", "theorems": ["C35_equality", "C35_comparisons", "C35_operations", "C35_fixedpoint"], "note": ""},
{"property": "C36", "status": "partial", "theorems": ["C36_sufficient", "C36_literals_partial", "C36_single_partial", "C36_implied_refuted"], "note": "Sufficiency is proved for all specifications: with the printed clauses a realizable specification stays realizable. Being implied is false in general (C36_implied_refuted: an unsatisfiable clause is printed for satisfiable assumptions, because the code that removes literals uses copies of the current clause in place of the remaining clauses); it is proved for the clauses before literals are removed, and for the printed ones if at most one is printed."},
{"property": "C37", "status": "partial", "theorems": ["C37_sound", "C37_terminates_partial", "C37_refuted"], "note": "C37_sound: whenever the plugin stops, the winning positions are those of the ordinary algorithm and the additional transitions are permitted moves of the system towards positions recovered earlier. Termination is proved if the environment has a permitted move in every winning position, and is refuted in general (the loop oscillates if the environment is deadlocked in a winning position). No combination of options uses the class."},
{"property": "C38", "status": "proved", "theorems": ["C38_terminates", "C38_winning_exact", "C38_realizable_iff", "C38_robotics_iff", "C38_sound", "C38_agrees", "C38_same_verdict_refuted", "C38_numbering", "C38_initial", "C38_moves", "C38_liveness", "C38_cooperative", "C38_reachable", "C38_recovery_refuted"], "note": "All parts of the statement. The verdict is characterised exactly (cooperative realizability, CoopSpec.v). Two findings beside it: the verdict differs from the standard one if the system can keep the environment from satisfying its assumptions, and with --simpleRecovery the recovery claim of C19 fails for cooperative strategies."},
{"property": "C39", "status": "partial", "theorems": ["C39_bounds_partial", "C39_check_outside", "C39_refuted"], "note": "The claim is false: CHECKTRANS accesses a strategy that does not exist for every unrealizable specification with more guarantees than assumptions (C39_check_outside, witness in C39_refuted). In all other cases no text makes any command other than XSTRATEGYTRANSITION access a vector outside its bounds."},
{"property": "C40", "status": "proved", "theorems": ["C40_meaning", "C40_accepts", "C40_refuted"], "note": "Model starts from derivation trees (tokenizer and generated parser not modelled). C40_meaning: the line that is written is read by the model of slugs' own parser and has the meaning of the formula over the integers. C40_accepts: exactly which formulas have a translation. C40_refuted (finding): exclusive disjunctions raise an exception, and comparisons with a variable whose minimum is negative never terminate, though both are documented."},
{"property": "C41", "status": "proved", "theorems": ["C41_accepted_wf", "C41_documented_file", "C41_accepted_file"], "note": ""},
{"property": "C42", "status": "proved", "theorems": ["C42_files"], "note": "Opening and reading the files is not part of this model (see C41)."},
{"property": "C43", "status": "proved", "theorems": ["C43_cubes", "C43_search", "C43_sets"], "note": "For every path search that reaches the TRUE node and every text of a line."},
{"property": "C44", "status": "proved", "theorems": ["C44_simulation"], "note": "From the text typed in to the replies, for every number of commands; ENV_INIT is assumed satisfiable."},
{"property": "C45", "status": "partial", "theorems": ["C45_realizable", "C45_unrealizable_partial", "C45_refuted"], "note": "Proved exactly for realizable specifications. For unrealizable ones the behaviour is characterised exactly, but the full statement is false: FAILGUARANTEES may be printed with a position that ENV_INIT and SYS_INIT permit."},
{"property": "C46", "status": "partial", "theorems": ["C46_realizable_partial", "C46_unrealizable_partial", "C46_play", "C46_counter_play", "C46_single_refuted", "C46_number_refuted"], "note": "every reply of XSTRATEGYTRANSITION for existing goal numbers is characterised from the text typed in (both verdicts), and infinite repeated use is winning if every goal is satisfied by no or by several transitions; refuted: a goal satisfied by exactly one transition is never advanced, so repeated use can miss a guarantee forever; goal numbers that do not exist are not rejected but lead to an access out of bounds"},
{"property": "C47", "status": "proved", "theorems": ["C47_move", "C47_rejects"], "note": "For realizable specifications, winning positions and values typed as 0 or 1."},
{"property": "C48", "status": "partial", "theorems": ["C48_ends_partial", "C48_refuted"], "note": "The claim is false: a value that is not a number makes the shell loop forever. Proved: every session ends in one of the listed ways, and each abnormal one is due to particular commands."},
{"property": "C49", "status": "partial", "theorems": ["C49_restart_partial", "C49_restart_refuted"], "note": "Every XGETINIT starts a correct play, but its goal number is that of the commands before, so the replies depend on them."},
{"property": "C50", "status": "partial", "theorems": ["C50_run_partial", "C50_play", "C50_complete", "C50_loses_refuted"], "note": "Missing: the name of the player who cannot move is not always right: Sys.Loses is printed if the system has no answer to some input, permitted or not (C50_loses_refuted). Everything else in the claim is proved for all specifications and random choices."},
{"property": "C51", "status": "proved", "theorems": ["C51_values", "C51_limits", "C51_names"], "note": ""},
{"property": "C52", "status": "partial", "theorems": ["C52_copied", "C52_only", "C52_refuted"], "note": "First half proved. C52_only: a copied line without buffers is in prefix notation unless it ends with a negation or contains the words 0' or 1'. Without these exceptions the second half is false: a line in which a negation has no operand is copied, too (finding). The tokens of the line are given here; the split at spaces is in StructFile.v (C81)."},
{"property": "C53", "status": "proved", "theorems": ["C53_easier"], "note": "For safety assumptions in full. For liveness assumptions (if there are at least two) the comparison is with the specification without any safety assumption, as in C28. The remark about the most general strategy that may follow a goal is modelled but not covered by a theorem."},
{"property": "C54", "status": "proved", "theorems": ["C54_variables", "C54_order"], "note": "C27_loaded shows that the hypothesis on the variables holds for all accepted files."},
{"property": "C55", "status": "partial", "theorems": ["C55_terminates", "C55_verdict", "C55_robotics", "C55_accepted", "C55_accepts", "C55_file", "C55_between_step_refuted"], "note": "The verdict is characterised exactly. Refuted: the intermediate position is only required to occur in some permitted step, the fast part of a step need not itself be permitted."},
{"property": "C56", "status": "proved", "theorems": ["C56_terminates", "C56_initial", "C56_steps", "C56_correct"], "note": ""},
{"property": "C57", "status": "partial", "theorems": ["C57_verdict_partial", "C57_unrealizable_partial", "C57_initial_refuted", "C57_verdict_refuted"], "note": "Missing: files with [OTHER OUTPUT] variables, ENV_INIT over the motion state, ENV_TRANS over the next motion state. For these the full statement is false of the model (refutations): the verdict can be negative although there is a strategy, or missing (internal error)."},
{"property": "C58", "status": "partial", "theorems": ["C58_verdict_partial", "C58_unrealizable_partial", "C58_initial_refuted", "C58_sys_init_refuted"], "note": "Missing: the same files as for C57. Refuted for ENV_INIT over the motion state: positive verdict although all strategies fail from some initial positions. C58_sys_init_refuted: SYS_INIT is ignored, unlike without --nonDeterministicMotion."},
{"property": "C59", "status": "proved", "theorems": ["C59_formulas", "C59_accepted", "C59_ends", "C59_scopes", "C59_robot_file"], "note": "Reading BDD files is a parameter."},
{"property": "C60", "status": "proved", "theorems": ["C60_countertrace", "C60_trace", "C60_tables"], "note": "Variables with an @ in their names are not grouped in the model."},
{"property": "C61", "status": "partial", "theorems": ["C61_trace", "C61_countertrace_partial", "C61_countertrace_refuted", "C61_message_refuted"], "note": "Proved for the system's trace. For the environment's countertrace it is proved for specifications whose initial guarantees leave an output for every input. The full statement is refuted: initial inputs that are not permitted count if they leave no output, so that a countertrace may be printed for a realizable specification, and the environment may be said to have no strategy although it has one."},
{"property": "C62", "status": "proved", "theorems": ["C62_countertrace", "C62_trace"], "note": ""},
{"property": "C63", "status": "proved", "theorems": ["C63_file", "C63_accepts", "C63_update", "C63_estimator", "C63_wishes", "C63_observable", "C63_permissive_refuted"], "note": "C63_permissive_refuted: a domain in which another estimator is never blocked, while the computed one is blocked in the first step."},
{"property": "C64", "status": "proved", "theorems": ["C64_assumption", "C64_strongest", "C64_warnings", "C64_no_dead_ends", "C64_alarm_refuted"], "note": "C64_alarm_refuted: the warning about dead ends of the system is printed although the estimator can always be updated while the printed assumption holds."},
{"property": "C65", "status": "proved", "theorems": ["C65_text", "C65_names_refuted"], "note": "Precondition: the names can be used in formulas, and fewer than 2^32 diagram nodes are printed. C65_names_refuted: with white space in the name of a min_ estimate, the printed text is rejected."},
{"property": "C66", "status": "proved", "theorems": ["C66_ranges", "C66_names_refuted"], "note": "Precondition: names with a dot belong to numbers with all their bits, bounds below 2^31. C66_names_refuted: an estimate called v.1 lets the analysis throw, a missing bit leads to undefined behaviour."},
{"property": "C67", "status": "proved", "theorems": ["C67_monotone", "C67_order"], "note": ""},
{"property": "C68", "status": "proved", "theorems": ["C68_core", "C68_aborts", "C68_core_refuted", "C68_init_refuted"], "note": "Finding: the tool passes the option --onlyRealizability, which main.cpp rejects, so it aborts for every file with something to drop.  Initialization guarantees are never dropped."},
{"property": "C69", "status": "proved", "theorems": ["C69_answer", "C69_monotone", "C69_antitone", "C69_local", "C69_files", "C69_bounds_refuted"], "note": "Finding: the bounds are not compared, so for an empty range a value outside of it can be reported."},
{"property": "C70", "status": "proved", "theorems": ["C70_front", "C70_failing_script"], "note": "Finding: with a script that fails the search never ends."},
{"property": "C71", "status": "proved", "theorems": ["C71_verdict"], "note": "For every loaded specification and cost file, both semantics of initial conditions."},
{"property": "C72", "status": "proved", "theorems": ["C72_file", "C72_conflict", "C72_costs"], "note": "Reading numbers is a parameter. Finding: a line without a space is not rejected, the whole line is number and formula (entry in TwoDimSpec.v)."},
{"property": "C73", "status": "proved", "theorems": ["C73_terminates"], "note": "Exact arithmetic on integers; preconditions as in the statement."},
{"property": "C74", "status": "proved", "theorems": ["C74_safe", "C74_recovery", "C74_recovery_refuted"], "note": "C74_recovery_refuted: with --simpleRecovery, transitions after a violated safety assumption may violate safety guarantees that could be kept."},
{"property": "C75", "status": "partial", "theorems": ["C75_refuted", "C75_initial_refuted"], "note": "The statement is false of the code: printed states without a successor for a permitted input, and permitted initial inputs without any state."},
{"property": "C76", "status": "partial", "theorems": ["C76_refuted"], "note": "The statement is false of the code: a path of the printed automaton satisfies the assumptions but not the guarantee."},
{"property": "C77", "status": "proved", "theorems": ["C77_circuit", "C77_text_unique", "C77_runs"], "note": "for files whose formula lines separate words by single blanks (other files make the tool fail, C79); the maximal variable index in the header is twice what is needed, which the format permits"},
{"property": "C78", "status": "proved", "theorems": ["C78_same_verdict", "C78_input_names_refuted"], "note": "under the condition that no [INPUT] name begins with controllable_; without it the claim is false (finding)"},
{"property": "C79", "status": "partial", "theorems": ["C79_liveness_rejected", "C79_blanks_refuted", "C79_scopes_refuted"], "note": "files with liveness sections are rejected; the rest is false of the code: double blanks or tabulators make the tool fail, and scopes of variables are not checked"},
{"property": "C80", "status": "proved", "theorems": ["C80_reads", "C80_unique", "C80_total"], "note": "The specification of the grammar is StructGrammar.v. The annotation of the tables with LR(1) items (StructItems.v) is computed outside of Coq and checked inside."},
{"property": "C81", "status": "proved", "theorems": ["C81_verdict", "C81_meaning", "C81_declarations", "C81_exact"], "note": "compiler.py followed by slugs: from the text of the structured file to the verdict for the game over integers of StructFileSpec.v. Stated preconditions: names of integer variables are words and different (see C82), formula lines contain no white space but blanks, `$` and `?` in prefix lines are followed by numbers (see C06), and the printed file has fewer than 2^32 characters (the numbers of buffers do not overflow)."},
{"property": "C82", "status": "partial", "theorems": ["C82_refuted", "C82_distinct_partial"], "note": "False in full: an integer variable that is declared twice with different ranges is accepted (finding). Otherwise all names are different."},
{"property": "C83", "status": "proved", "theorems": ["C83_report", "C83_negative_refuted"], "note": "Ranges without negative values. Finding (C83_negative_refuted): for a variable with a negative value the tool fails although the file has a verdict, as the compiler cannot read the line x=-1 that the tool adds. Assumed: translations shorter than the greatest number that slugs reads (2^31), names that are words, are not key words of the compiler and contain no @."},
{"property": "C84", "status": "proved", "theorems": ["C84_maximal", "C84_none"], "note": "Total: the tool finishes on every file in the documented language. The part for a bounded number of violations (lines 278-540 of the tool) is not modelled."},
{"property": "C85", "status": "proved", "theorems": ["C85_text", "C85_values", "C85_other_lines", "C85_pipeline", "C85_empty_refuted", "C85_at_refuted"], "note": "The two refutations show why the names must not contain an @ and why at least one bit is needed."},
{"property": "C86", "status": "proved", "theorems": ["C86_written_file", "C86_result", "C86_none", "C86_limit", "C86_ends", "C86_unlimited"], "note": "The number of counter bits, which the script computes with floating-point logarithms, is a parameter with k < 2^bits. C86_limit, C86_ends and C86_unlimited use Classical_Prop.classic. C86_ends: the depth of the recursion is bounded for every file (the script has no bound of its own)."},
{"property": "C87", "status": "partial", "theorems": ["C87_parser_total", "C87_unambiguous", "C87_meaning", "C87_accepts", "C87_answer", "C87_keywords_refuted"], "note": "Proved for texts in which no name begins with TRUE, FALSE or next (plainText); for other texts the full statement is false of the code (C87_keywords_refuted: the name nextdoor is read as next door)."},
{"property": "C88", "status": "partial", "theorems": ["C88_accepts", "C88_answer", "C88_comparisons_refuted"], "note": "Proved for formulas without comparisons and names that do not begin with a keyword; with comparisons the full statement is false of the code (C88_comparisons_refuted: x=0 is translated to x)."},
{"property": "C89", "status": "partial", "theorems": ["C89_graph", "C89_dead_ends", "C89_pipeline", "C89_live_environment", "C89_dead_ends_refuted", "C89_colon_refuted", "C89_json_refuted"], "note": "Proved for strategies in which every state has a successor and names without <, comma and colon, and for all specification files whose environment can always move. Refuted without these conditions: a state without successors makes the tool fail, a colon in a name gives wrong values, and a strategy in JSON format is shown as empty."},
{"property": "C90", "status": "partial", "theorems": ["C90_check", "C90_sound", "C90_slugs_passes", "C90_initial_refuted", "C90_choice_refuted", "C90_operators_refuted"], "note": "Proved: the problem for the model checker is solved with yes if and only if every behaviour of the automaton from a permitted initial position satisfies the obligations; a deterministic automaton that passes is correct on all its paths; every strategy of slugs passes. Refuted: the check covers initial states for all inputs; the check covers all successors for an input; every specification that slugs accepts is read."},
{"property": "C91", "status": "proved", "theorems": ["C91_falsification", "C91_winning", "C91_shown"], "note": "The written file is accepted and the printed numbers are the numbers of positions from which the system can make an assumption fail (positions within the limits of the written file; variables numbered with inputs first); the text of the specification is shown unchanged."},
{"property": "C92", "status": "partial", "theorems": ["C92_line", "C92_only", "C92_changed", "C92_copied", "C92_replacements", "C92_file", "C92_meaning", "C92_brackets_refuted", "C92_next_refuted"], "note": "Proved for every line and every file; refuted: numbers in brackets stop the tool although its comment says that they are fine, and the next value of a replaced variable stays in the file unless it has a replacement of its own."},
{"property": "C93", "status": "proved", "theorems": ["C93_specification", "C93_no_exception", "C93_accepted", "C93_test", "C93_passes"], "note": "Aisy, abc and aigtoaig are an arbitrary function from circuits to exit codes, assumed to be right for the circuit of the test."},
{"property": "C94", "status": "partial", "theorems": ["C94_specification", "C94_answer", "C94_ends", "C94_tests_refuted"], "note": "The random files are always translated and answered correctly, but each test ends with a failed call of slugs (a blank is missing in the command), so that no strategy is ever checked; the part of the program after the call is not modelled."},
{"property": "C95", "status": "proved", "theorems": ["C95_verdict", "C95_translated", "C95_decided"], "note": "For all configurations with at least one bucket and power at least one. The translation always succeeds (C95_translated) and slugs always gives the right verdict (C95_decided) if the translated file has less than 2^32 characters."},
{"property": "C96", "status": "proved", "theorems": ["C96_translated", "C96_decided", "C95_translated", "C95_decided"], "note": "For every file of the stated form. White space is allowed around colons and dots of declarations. Underscores in the bounds and plus signs are not covered by the statement; C96_decided also asks that infix formulas contain a word that does not occur in prefix notation, or end with a binary operator, negations and one more word."},
{"property": "C97", "status": "proved", "theorems": ["C97_circuit", "C97_cinderella"], "note": "For every file of the stated form and both settings of --thorough. The optimization of circuits by aigtoaig and abc, which the benchmark generator calls afterwards, is not modelled."}
]}
