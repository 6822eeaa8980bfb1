{
 "claims": [
  {
   "property": "C01",
   "status": "proved",
   "theorems": [
    "C01_tokens_written_are_read_back",
    "C01_tokenize_iff_spells",
    "C01_spelled_is_read",
    "C01_every_text",
    "C01_words"
   ],
   "note": "All three lexers. C01_every_text: for every text, without assumption, exactly the tokens it is read as or the exception it raises (or that it never ends), with multi-line comments ending where the code ends them."
  },
  {
   "property": "C02",
   "status": "partial",
   "theorems": [
    "C02_rows_partial",
    "C02_rows_every_text_partial",
    "C02_shown_partial",
    "C02_keyword_row_refuted",
    "C02_comment_row_refuted"
   ],
   "note": "Full statement is false: keyword and function tokens are shared objects whose location is overwritten, and a multi-line comment ended at a star in front of a newline swallows the newline. C02_rows_every_text_partial: for every text, the row given is never too large and it is right if no star is directly followed by a newline; tokens that are not shared keep it. C02_shown_partial: once the text is read, every token shows the location of the last occurrence of its word if it is a keyword or function, and its own otherwise; so words that occur once are right."
  },
  {
   "property": "C03",
   "status": "partial",
   "theorems": [
    "C03_tokenize_terminates_partial",
    "C03_closed_comments_partial",
    "C03_hangs_exactly",
    "C03_fuel_suffices",
    "C03_comment_at_eof_refuted",
    "C03_unterminated_comment_refuted"
   ],
   "note": "Full statement is false: a comment at end of file without newline, or an unterminated multi-line comment, loops forever. C03_hangs_exactly: exactly these texts, for every text of every lexer. C03_closed_comments_partial: a text that ends in a newline and has a star behind every '/*' is read to its end."
  },
  {
   "property": "C04",
   "status": "partial",
   "theorems": [
    "C04_comments_ignored_partial",
    "C01_every_text",
    "C04_star_in_comment_refuted",
    "C04_slash_in_comment_refuted",
    "C04_line_comment_after_block_refuted"
   ],
   "note": "Full statement is false: '*' or '/' inside a multi-line comment ends it, and a single-line comment after a multi-line one is read as code. Proved for single-line comments and multi-line comments without these characters, in that order; C01_every_text says exactly what is skipped and read in all other cases."
  },
  {
   "property": "C05",
   "status": "proved",
   "theorems": [
    "C05_printed_expression_is_read_back",
    "C05_printed_model_expression_is_read_back"
   ],
   "note": "From text (any layout of blanks) for expression strings, from tokens for model-block expressions; ASCII text, numbers abstract."
  },
  {
   "property": "C06",
   "status": "partial",
   "theorems": [
    "C06_parsed_is_derived_partial",
    "C06_parser_exact",
    "C06_juxtaposed_calls_refuted"
   ],
   "note": "Full claim is false: 'sin(x) cos(y)' is parsed as cos(y), dropping a call. Proved when no function name stands directly behind ')'; and an exact characterisation of all accepted tokens."
  },
  {
   "property": "C07",
   "status": "partial",
   "theorems": [
    "C07_rest_is_ignored_partial",
    "C07_any_rest_refuted",
    "C07_text_refuted"
   ],
   "note": "Full claim is false: everything behind the first complete expression is ignored ('1 2' is 1). Proved: exact characterisation of what is returned."
  },
  {
   "property": "C08",
   "status": "partial",
   "theorems": [
    "C08_sum_ends_sign_partial",
    "C08_minus_takes_product_refuted",
    "C08_minus_takes_product_pow_refuted"
   ],
   "note": "Full claim is false for every choice of operands: a/-b*c is a/(-(b*c)), a^-b*c is a^(-(b*c)). Proved: a sign ends before + and -."
  },
  {
   "property": "C09",
   "status": "partial",
   "theorems": [
    "C09_expression_parsing_terminates",
    "C09_file_parsing_terminates_partial",
    "C09_file_parsing_refuted"
   ],
   "note": "Expressions: proved. Files: the preamble loop hangs; proved exactly when (iff)."
  },
  {
   "property": "C10",
   "status": "proved",
   "theorems": [
    "C10_written_file_is_read_back",
    "C10_file_parser_exact"
   ],
   "note": "Round trip from text for every writable file, and exact characterisation of accepted token lists. Declarations and assignments are kept in order each, their interleaving is not recorded by the parser."
  },
  {
   "property": "C100",
   "status": "partial",
   "theorems": [
    "C100_partial",
    "C100_moments_partial",
    "C100_refuted"
   ],
   "note": "For every ordered archimedean field and every model that is solved and whose first verification raises nothing, with no root on the unit circle or 0/0: the roots are separated, the rule gives the bounded solutions, the hypotheses `stable` and `no_unit_root` of C44, C45, C46, C70 and C95 hold, and covariances and autocovariances that are returned are those of the stationary processes, of which there is one (C100_moments_partial). With a root on the circle the full statement is false (C100_refuted: a random walk passes). Closed under the global context."
  },
  {
   "property": "C101",
   "status": "partial",
   "theorems": [
    "C101_partial",
    "C101_file_partial",
    "C101_history_partial",
    "C101_refuted"
   ],
   "note": "For every ordered archimedean field, every readable model (names that do not clash, offsets of one) at a steady state where the equations are smooth, and every routine that keeps its contract: when the roots are separated, the paths of the returned rule are exactly the bounded paths along which every equation holds to first order, and there is one for all initial deviations and shocks; for solved files (of first or second order) and after histories too. Without separated roots the full statement is false (C101_refuted: x = -2 x(-1) + e is solved). Closed under the global context."
  },
  {
   "property": "C102",
   "status": "partial",
   "theorems": [
    "C102_partial",
    "C102_file_partial",
    "C102_refuted",
    "C102_shares_partial",
    "C102_shares_file_partial"
   ],
   "note": "For every history of operations and questions in which everything that raised was followed by an addition (C102_partial) and for files with no errors (C102_file_partial): an answered variance, covariance, correlation, autocovariance or autocorrelation comes with a state space that has as many roots outside the unit circle as forward variables; with no root on the circle the readable rule is stable, solves the equations to first order around a steady state, and the answer is that of its stationary processes. The same for decompositions of variances over several shocks, when the model was solved since its last change (C102_shares_partial, C102_shares_file_partial). Without the condition on what raised the statement is false (C102_refuted): a failed verification is not made again after solving anew, and a variance of -1/3 is answered. Cases: C102_nonvacuous, C102_file_nonvacuous, C102_shares_nonvacuous, C102_shares_file_nonvacuous. Contracts: as C95 and C100. Closed under the global context."
  },
  {
   "property": "C103",
   "status": "partial",
   "theorems": [
    "C103_partial",
    "C103_file_partial",
    "C103_refuted"
   ],
   "note": "For every model that was solved since its last change, after every history in which everything that raised was followed by an addition (C103_partial), and for files with no errors (C103_file_partial): when verify(), the transition matrices or the variance of the states are asked of the state space and nothing is raised, the state space has as many roots outside the unit circle as there are variables with a lead; the readable rule solves the equations to first order around a steady state and, if no root is on the circle, is stable: its paths are bounded when the shocks are and vanish without shocks; the matrices carry the states from period to period on every path of that rule; the variance is the covariance of the states of every stationary process that follows it. Needs at least two endogenous variables (C44). Without the condition on what raised it is false (C103_refuted): a verification that raised is not made again, and says nothing when asked after solving anew. Cases: C103_nonvacuous, C103_file_nonvacuous. Contracts: as C95 and C100. Closed under the global context."
  },
  {
   "property": "C104",
   "status": "proved",
   "theorems": [
    "C104_sorted"
   ],
   "note": "For every matrix, order and k, any routine for the eigenvalues, and any argsort that returns every position once in an order in which the magnitudes do not decrease. Case: C104_nonvacuous. Closed under the global context."
  },
  {
   "property": "C11",
   "status": "proved",
   "theorems": [
    "C11_evaluation_is_compositional",
    "C11_only_occurring_variables_matter",
    "C11_no_missing_name",
    "C11_value_exists"
   ],
   "note": "for every interpretation of numbers and operators; text and trees"
  },
  {
   "property": "C12",
   "status": "proved",
   "theorems": [
    "C12_substitution",
    "C12_compiled_substitutions",
    "C12_equations_are_algebraic"
   ],
   "note": "equations (differences of comparison-free trees, which is what the parser produces); a bare variable is left alone, shown as an example"
  },
  {
   "property": "C13",
   "status": "partial",
   "theorems": [
    "C13_accepted_exactly",
    "C13_accepted_uses_declared_partial",
    "C13_use_before_declaration_refuted"
   ],
   "note": "Exact characterisation of acceptance for every file. The full claim is false: declarations are visited before assignments, so a name may be read before its declaration, an assignment may read the name it assigns, and non_model is known undeclared."
  },
  {
   "property": "C14",
   "status": "partial",
   "theorems": [
    "C14_well_declared_is_accepted_partial",
    "C14_outline_exists_partial",
    "C14_refuted"
   ],
   "note": "Accepted and an outline exists under the stated conditions. The full claim is false: no shocks block, deterministic shocks, local definitions over endogenous variables or preamble variables, and predetermined variables make reading fail."
  },
  {
   "property": "C15",
   "status": "proved",
   "theorems": [
    "C15_local_names_do_not_leak",
    "C15_check_behind_block",
    "C15_values_behind_block"
   ],
   "note": ""
  },
  {
   "property": "C16",
   "status": "partial",
   "theorems": [
    "C16_boundary_values_partial",
    "C16_historical_values_refuted"
   ],
   "note": "Initial and terminal values proved. Historical values are the terminal values (factory.py:367): refuted for every file with a histval block."
  },
  {
   "property": "C17",
   "status": "partial",
   "theorems": [
    "C17_moments_exact",
    "C17_stated_moments_partial",
    "C17_two_partners_refuted"
   ],
   "note": "Exact characterisation by last statement; the full claim is false for a shock that moves with two others."
  },
  {
   "property": "C18",
   "status": "partial",
   "theorems": [
    "C18_file_parameters_partial",
    "C18_refuted"
   ],
   "note": "Proved when the last definition of every parameter uses only parameters assigned before and not after it. False otherwise, with witnesses: reassignment after use, self-update (CalibrationError), helper variables (KeyError)."
  },
  {
   "property": "C19",
   "status": "proved",
   "theorems": [
    "C19_solved_exactly",
    "C19_solved_satisfies"
   ],
   "note": "Exact characterisation of the solved calibrations."
  },
  {
   "property": "C20",
   "status": "proved",
   "theorems": [
    "C20_rejected_iff_circular"
   ],
   "note": "Definitions are arithmetic expressions over the parameters; operators are assumed not to raise CalibrationError themselves."
  },
  {
   "property": "C21",
   "status": "proved",
   "theorems": [
    "C21_order_irrelevant"
   ],
   "note": ""
  },
  {
   "property": "C22",
   "status": "partial",
   "theorems": [
    "C22_assignment_partial",
    "C22_values_of_last_success_partial",
    "C22_deletion",
    "C22_refuted"
   ],
   "note": "After success all definitions hold; after failure all values are unchanged; but a failed assignment leaves its definition behind and changes later assignments (refuted with witnesses)."
  },
  {
   "property": "C23",
   "status": "proved",
   "theorems": [
    "C23_outline_lead_lags",
    "C23_lead_lags",
    "C23_comparison_refused"
   ],
   "note": "Both readers of lead-lag sets: the file outline and the list of equations of a model."
  },
  {
   "property": "C24",
   "status": "proved",
   "theorems": [
    "C24_columns",
    "C24_class_columns"
   ],
   "note": "For names that differ and offsets -1, 0, 1 (the quantifier of the property); also the columns read through the class selectors."
  },
  {
   "property": "C25",
   "status": "partial",
   "theorems": [
    "C25_permutation_iff",
    "C25_order_partial",
    "C25_refuted"
   ],
   "note": "Exact: a permutation iff every variable with a lag and a lead also occurs at the current date. Otherwise such a variable is listed twice (x(+1) = x(-1)), so the full statement is refuted."
  },
  {
   "property": "C26",
   "status": "partial",
   "theorems": [
    "C26_counts_partial",
    "C26_refuted"
   ],
   "note": "Exact counts except n_static and n_dynamic when a static variable has column 0 of the Jacobian: then n_static is one too small (np.count_nonzero of column indices). Full statement refuted."
  },
  {
   "property": "C27",
   "status": "partial",
   "theorems": [
    "C27_rejected_partial",
    "C27_refuted"
   ],
   "note": "Rejected for offsets above 1, below -4, and below -1 when the variable does not also occur at -1 or -4. The remaining cases are accepted as a different model: refuted (x = x(-4) evaluated as x = x(-1))."
  },
  {
   "property": "C28",
   "status": "partial",
   "theorems": [
    "C28_dynamic_residuals_partial",
    "C28_left_minus_right",
    "C28_signature_unique",
    "C28_clash_refuted",
    "C28_offset_zero_refuted"
   ],
   "note": "Proved for models whose names do not end up equal after adding m1/p1 and whose timed variables have offsets -1 and 1; both exclusions are necessary: variables x and xm1, and x(0), are read wrongly (refuted)."
  },
  {
   "property": "C29",
   "status": "partial",
   "theorems": [
    "C29_dynamic_at_steady_state_partial",
    "C29_lagged_shock_refuted"
   ],
   "note": "Equality of results, including errors, under the hypotheses of C28 and with leads and lags of endogenous variables only; a lagged shock is 0 in the steady equations and a KeyError in the dynamic ones (refuted)."
  },
  {
   "property": "C30",
   "status": "partial",
   "theorems": [
    "C30_additions_count_partial",
    "C30_additions_read",
    "C30_files_are_described",
    "C30_arrays_refuted",
    "C30_refuted",
    "C30_structures",
    "C30_failed_additions"
   ],
   "note": "Proved for histories in which no addition raised and every other exception was followed by an addition. False in general: a reading that raises clears the altered flag, so the next reading shows the old model (C30_refuted). C30_arrays_refuted is for the case that np.concatenate returns a plain array, which is read from numpy's documented behaviour and was not run."
  },
  {
   "property": "C31",
   "status": "partial",
   "theorems": [
    "C31_solve_is_current_partial",
    "C31_solution_is_kept",
    "C31_solution_partial",
    "C31_refuted",
    "C31_interrupted_solve"
   ],
   "note": "Solving uses the current definitions; the stored solution, and with it simulations and impulse responses, is not renewed by additions (C31_refuted). A second-order solve that raises leaves the first-order solution as the model's solution (C31_interrupted_solve)."
  },
  {
   "property": "C32",
   "status": "partial",
   "theorems": [
    "C32_in_step_partial",
    "C32_operations",
    "C32_refused",
    "C32_iterator_refuted"
   ],
   "note": "Proved for every sequence of list operations on a collection made from a list, and every operation's effect is the list operation on (tree, source) pairs. False for collections made from an iterator: the texts are empty (refuted). C32_refused: a collection cannot be made exactly when an equation cannot be read, and the error is that of the first."
  },
  {
   "property": "C33",
   "status": "partial",
   "theorems": [
    "C33_copy_partial",
    "C33_copy_without_locals",
    "C33_refuted"
   ],
   "note": "C33_copy_partial: a copy that succeeds has the same variables, shocks, parameter values and equations. C33_copy_without_locals: for models without local definitions the copy succeeds and every reading but the covariance matrix agrees. Missing: local definitions, which a copy loses (C33_refuted). Names and parameter keys are assumed distinct."
  },
  {
   "property": "C34",
   "status": "partial",
   "theorems": [
    "C34_covariance_partial",
    "C34_correlation",
    "C34_refuted"
   ],
   "note": "Proved for shocks with different names, none paired with itself, all with a variance. Refuted without: a second partner overwrites the first, var e, e overwrites the variance, a correlation without a variance raises."
  },
  {
   "property": "C35",
   "status": "proved",
   "theorems": [
    "C35_linear",
    "C35_rest",
    "C35_runs"
   ],
   "note": "Any commutative ring of scalars, any numbers of variables, states and shocks that can be simulated at all (see C62); rounding is not modelled."
  },
  {
   "property": "C36",
   "status": "partial",
   "theorems": [
    "C36_causal_first",
    "C36_causal_second",
    "C36_last_unused",
    "C36_influence_partial",
    "C36_influence_second_partial",
    "C36_refuted"
   ],
   "note": "Causality proved at both orders. That every supplied shock influences the path is false: the last row never does (C36_last_unused, C36_refuted). Of the other rows it is proved, at both orders, exactly when they influence the next period."
  },
  {
   "property": "C37",
   "status": "proved",
   "theorems": [
    "C37_powers",
    "C37_transition_exists"
   ],
   "note": "For first-order solutions, every choice of one or several named shocks or the default; the first row of a response is zero and the impact is in the second."
  },
  {
   "property": "C38",
   "status": "proved",
   "theorems": [
    "C38_covariance",
    "C38_used"
   ],
   "note": "For any additive homogeneous expectation under which the draws are uncorrelated with unit variance; the Cholesky routine enters with its specification R'R = Sigma."
  },
  {
   "property": "C39",
   "status": "partial",
   "theorems": [
    "C39_quarter_partial",
    "C39_taylor_iff",
    "C39_refuted"
   ],
   "note": "Full statement is false: the terms in states, in shocks and in the scale of uncertainty are halved twice. Proved: exactly which rule is followed, and that it is the Taylor expansion exactly when these terms vanish along the path."
  },
  {
   "property": "C40",
   "status": "partial",
   "theorems": [
    "C40_partial",
    "C40_refuted"
   ],
   "note": "For every model (offsets -1, 0 and 1) and every factorisation that keeps scipy's promises, the returned rule makes every linearised equation hold, unless no root is beyond one and the last root is complex: then a complex pair is cut apart and a rule is returned although none solves the model (C40_refuted). Exact arithmetic."
  },
  {
   "property": "C41",
   "status": "partial",
   "theorems": [
    "C41_partial",
    "C41_refuted"
   ],
   "note": "False: the cut is at the first root whose real part is above one (or that is infinite), so that roots 1/2, -2, 3 are cut after the second. C41_partial gives the place of the cut exactly, and exactly when it is right."
  },
  {
   "property": "C42",
   "status": "partial",
   "theorems": [
    "C42_first_call_partial",
    "C42_refuted",
    "C42_flag"
   ],
   "note": "Exact: a call raises iff a condition fails and it is the first call on its state space. Later calls are silent (C42_refuted). Eigenvalues and the rank of Z22 are arbitrary inputs."
  },
  {
   "property": "C43",
   "status": "proved",
   "theorems": [
    "C43",
    "C43_iff",
    "C43_sound",
    "C43_sizes",
    "C43_empty"
   ],
   "note": "Every m, n >= 1 and every ring with decidable equality, exact arithmetic. scipy's qz and solve are any routines that keep their documented promises (spec in SylvesterSpec.v); solve is assumed to fail only on a singular matrix, and the QZ iteration to converge on the two pairs. C43_iff: when solve also refuses every singular matrix, an array is returned exactly when the equation is nonsingular. C43_empty: with no columns the code divides by zero."
  },
  {
   "property": "C44",
   "status": "partial",
   "theorems": [
    "C44_partial",
    "C44_exists",
    "C44_defined",
    "C44_refuted"
   ],
   "note": "For models of two variables or more the covariance is that of every stationary process that follows the rule (any space of random variables with a bilinear covariance), and symmetric. A model of one variable raises IndexError (C44_refuted). The outcome of StateSpace.verify is an input; scipy's Lyapunov solver is any function that solves the equation. When the shocks' matrix is symmetric such a process exists for every model, and one with non-negative variances exists exactly when the shocks' matrix and the reported one are positive semidefinite (C44_exists)."
  },
  {
   "property": "C45",
   "status": "partial",
   "theorems": [
    "C45_partial",
    "C45_refuted",
    "C45_defined",
    "C45_correlations"
   ],
   "note": "False as stated: entry i is the autocovariance of lag i+1 (C45_partial); C45_refuted is an AR(1). Autocorrelations divide by the standard deviations of lag 0."
  },
  {
   "property": "C46",
   "status": "partial",
   "theorems": [
    "C46_partial",
    "C46_uncorrelated",
    "C46_refuted",
    "C46_single",
    "C46_selection"
   ],
   "note": "Non-negative and adding up to one, and equal to the parts of the variance, with the covariance matrix perturbed by 1e-12 on its diagonal; without correlation the parts are those of the model's shocks. C46_refuted: a shock of variance zero is given a share. With one shock the shares are one and names of shocks are not looked at."
  },
  {
   "property": "C47",
   "status": "partial",
   "theorems": [
    "C47_partial",
    "C47_in_order",
    "C47_refuted",
    "C47_missing",
    "C47_errors"
   ],
   "note": "False: the permutation is applied in the wrong direction, so three rotated columns are read wrongly (C47_refuted). C47_partial gives the exact set of accepted label orders that work (those that are their own inverse); a repeated label is accepted and leaves a variable without its column (C47_missing)."
  },
  {
   "property": "C48",
   "status": "partial",
   "theorems": [
    "C48_partial",
    "C48_refuted",
    "C48_defined",
    "C48_solution",
    "C48_measurement_refuted"
   ],
   "note": "False: the result of the filter is the same for all data of one shape, loglike returns None, and filter() raises AttributeError (C48_refuted). C48_partial: the number of the filter recursion is the sum of log-determinants of the covariances of the errors of best linear predictions, for every state space and law. LAPACK, determinant and logarithm are any functions with their documented properties. The solution of an observed model is given exactly; its matrix Z does not give the observed variables (refuted)."
  },
  {
   "property": "C49",
   "status": "partial",
   "theorems": [
    "C49_partial",
    "C49_refuted"
   ],
   "note": "Every entry but the last is reproduced (the code leaves out the last one, C49_refuted); the spells alternate and begin at zero; the warnings are characterised exactly."
  },
  {
   "property": "C50",
   "status": "partial",
   "theorems": [
    "C50_partial",
    "C50_two_partial",
    "C50_effective",
    "C50_refuted",
    "C50_simulation_refuted",
    "C50_two_effective",
    "C50_two_refuted"
   ],
   "note": "Obeyed in every period when the guess ends in the reference regime, with one and with two constraints; C50_effective and C50_two_effective give, for every guess, the regimes that are really in force; refuted for guesses that end in an alternative regime (with two constraints the period before the last spell then follows the second constraint's regime, whichever is assumed: C50_two_refuted), also in a whole simulation without warnings."
  },
  {
   "property": "C51",
   "status": "proved",
   "theorems": [
    "C51_one_constraint",
    "C51_two_constraints",
    "C51_exact",
    "C51_iterations"
   ],
   "note": "For each shock: no warning exactly when the guess agrees with the constraint evaluated on the simulated path; at most max_iter iterations. The constraint is any function of the path. Rounding is not modelled."
  },
  {
   "property": "C52",
   "status": "partial",
   "theorems": [
    "C52_regimes_partial",
    "C52_dictionary",
    "C52_errors",
    "C52_refuted",
    "C52_alternatives_read"
   ],
   "note": "C52_regimes_partial: for a sequence of dictionaries with distinct, non-negative equation numbers the length is the number of regimes, the first is a copy of the model and each alternative differs from the model in the replaced equations. For a single dictionary the length reported is the number of replaced equations plus one, and the first regime of a sequence has lost the local definitions (C52_refuted). C52_alternatives_read: what an alternative shows is what a model built from scratch with the replaced equations shows."
  },
  {
   "property": "C53",
   "status": "partial",
   "theorems": [
    "C53_refuted",
    "C53_runs_partial",
    "C53_errors"
   ],
   "note": "The documented ways to choose a steady-state method do not all work (refuted with a witness); C53_runs_partial gives exactly the choices that run and which solver each runs, C53_errors the exception for the others."
  },
  {
   "property": "C54",
   "status": "partial",
   "theorems": [
    "C54_stack",
    "C54_width",
    "C54_accepts_iff",
    "C54_refuted"
   ],
   "note": "Stacking and the check of widths are proved. That out-of-range overlaps are rejected is false; C54_accepts_iff gives exactly the accepted overlaps."
  },
  {
   "property": "C55",
   "status": "partial",
   "theorems": [
    "C55_matrices",
    "C55_square",
    "C55_vectors",
    "C55_mismatch",
    "C55_refuted"
   ],
   "note": "Proved for matrices. For vectors the values are right but the shape is a column instead of a vector when there is one column (C55_refuted), which is what breaks second-order simulations (C62)."
  },
  {
   "property": "C56",
   "status": "partial",
   "theorems": [
    "C56_factors",
    "C56_rect_partial",
    "C56_refuted",
    "C56_no_series",
    "C56_row_refuted",
    "C56_orientation_refuted",
    "C56_orientation",
    "C56_every_layout",
    "C56_single",
    "C56_dropped_refuted",
    "C56_square",
    "C56_pair",
    "C56_column"
   ],
   "note": "False for one series, for a single row, and for layouts with too few or too many places (refuted with witnesses); C56_every_layout gives the exact set of layouts that draw every series exactly once under its name."
  },
  {
   "property": "C57",
   "status": "partial",
   "theorems": [
    "C57_first_partial",
    "C57_one_variable",
    "C57_second_exact",
    "C57_second_partial",
    "C57_refuted"
   ],
   "note": "The first-order table is right for two or more variables; with one variable it is an error for two or more shocks. The second-order table is characterised exactly: the rows of a state and a shock show another state's coefficients when the decision rule orders the states differently from the declaration (C57_refuted)."
  },
  {
   "property": "C58",
   "status": "proved",
   "theorems": [
    "C58_drop",
    "C58_reject"
   ],
   "note": ""
  },
  {
   "property": "C59",
   "status": "partial",
   "theorems": [
    "C59_corr",
    "C59_autocorr_partial",
    "C59_lags_iff",
    "C59_refuted",
    "C59_lags_refuted"
   ],
   "note": "Correlation matrices: proved in any ordered field. Autocorrelations can exceed one in absolute value (C59_refuted; the sharp bound T/(T-k) is proved) and as many lags as periods are accepted (C59_lags_refuted)."
  },
  {
   "property": "C60",
   "status": "partial",
   "theorems": [
    "C60_parameters_partial",
    "C60_locals_constant",
    "C60_refuted"
   ],
   "note": "Parameters defined from parameters follow; local definitions are constants fixed when the file is read (C60_refuted)."
  },
  {
   "property": "C61",
   "status": "partial",
   "theorems": [
    "C61_own_dictionaries_partial",
    "C61_refuted",
    "C61_failure_refuted"
   ],
   "note": "Proved when every model is made with a dictionary of its own; false for models made without params, which share the default argument (C61_refuted)."
  },
  {
   "property": "C62",
   "status": "partial",
   "theorems": [
    "C62_first_iff_partial",
    "C62_second_iff_partial",
    "C62_refuted"
   ],
   "note": "Full statement is false. Proved: exactly which shapes can be simulated. At first order one variable with several shocks fails; at second order several variables with one state or one shock fail. The Cholesky factorisation is assumed to succeed."
  },
  {
   "property": "C63",
   "status": "proved",
   "theorems": [
    "C63_values"
   ],
   "note": "After any history of successful additions. An initial value that Python takes for false (0, nan is not) counts as not given."
  },
  {
   "property": "C64",
   "status": "partial",
   "theorems": [
    "C64_refuted",
    "C64_rows",
    "C64_first_threshold"
   ],
   "note": "Refuted: the comparison has no absolute value, so rows of large negative numbers are hidden; for the first-order table the threshold is an IndexError unless rows and variables are equally many. C64_rows says exactly which rows of states stand in the table."
  },
  {
   "property": "C65",
   "status": "partial",
   "theorems": [
    "C65_partial",
    "C65_rule_exact",
    "C65_shocks",
    "C65_one_state",
    "C65_refuted"
   ],
   "note": "Right when the decision rule orders the states as they are declared and there are at least two variables and not exactly one state; C65_rule_exact says which coefficient is used in general; with one state there is an error; refuted for a mixed variable declared before a purely backward one."
  },
  {
   "property": "C66",
   "status": "partial",
   "theorems": [
    "C66_no_effect",
    "C66_refuted"
   ],
   "note": "Refuted: the option has no effect for any input (C66_no_effect)."
  },
  {
   "property": "C67",
   "status": "partial",
   "theorems": [
    "C67_coefficients",
    "C67_constant_partial",
    "C67_refuted"
   ],
   "note": "Coefficients: every lead-lag structure with offsets -1, 0, 1. Constant: under the conditions of C29 (no name clashes, well-formed equations). The Jacobian is any matrix here; C83_coefficients says that the entries are derivatives of the equations. The condition on the names is needed: C67_refuted."
  },
  {
   "property": "C68",
   "status": "proved",
   "theorems": [
    "C68_match",
    "C68_models",
    "C68_only_names"
   ],
   "note": ""
  },
  {
   "property": "C69",
   "status": "proved",
   "theorems": [
    "C69_shape",
    "C69_refused",
    "C69_shape_two",
    "C69_refused_two"
   ],
   "note": "One and two constraints; arrays of shocks with one or two dimensions."
  },
  {
   "property": "C70",
   "status": "partial",
   "theorems": [
    "C70_partial",
    "C70_first",
    "C70_refuted"
   ],
   "note": "False: the adjustment that is reported is half of the one the rule implies, because the arrays are halved twice. Proved for all numbers of variables, states and shocks."
  },
  {
   "property": "C71",
   "status": "partial",
   "theorems": [
    "C71_partial",
    "C71_refuted"
   ],
   "note": "Holds for variables with variances that are not zero. C71_refuted: otherwise the entry is zero over zero (nan)."
  },
  {
   "property": "C72",
   "status": "partial",
   "theorems": [
    "C72_partial",
    "C72_needed",
    "C72_exact",
    "C72_refuted"
   ],
   "note": "False for a negative explosive root that is not the only one (C72_refuted), and for models without shocks, without leads, without lags, with a variable that does not appear in the current period, or with two or more variables with a lag and a lead and none with a lag only (C72_needed). C72_partial: all other models are solved unless a routine fails. C72_exact: once the state space is built, a model is solved only if every variable is in the current period, there is a shock and the sorted eigenvalues cross one exactly after as many as there are variables with a lag; if so, the only failures are those of the linear-algebra routines. Rank condition: a singular matrix is a failure of the routine."
  },
  {
   "property": "C73",
   "status": "partial",
   "theorems": [
    "C73_partial",
    "C73_refuted"
   ],
   "note": "False: an explosive rule is returned for a negative explosive root (C73_refuted), and a rule that solves nothing for a model with too many stable roots (C40_refuted). C73_partial: holds when the roots are real, not negative, off the circle and one is outside."
  },
  {
   "property": "C74",
   "status": "partial",
   "theorems": [
    "C74_partial",
    "C74_chain_partial"
   ],
   "note": "Models with offsets -1, 0 and 1, over any field in which two is not zero, exact arithmetic; scipy's qz and solve are any routines that keep their documented promises (SylvesterSpec.v), solve failing exactly on singular matrices. C74_chain_partial: from the Jacobian and Hessian through the first-order solver to the second-order one, for every model that is solved. C74_partial: for any first-order rule, in models all of whose variables appear in the current period (no other model has a first-order solution). Specification of the second derivatives along two directions and of the uncertainty term in SecondOrderSpec.v."
  },
  {
   "property": "C75",
   "status": "partial",
   "theorems": [
    "C75_partial",
    "C75_needed",
    "C75_refuted"
   ],
   "note": "False for models with two or more states and one shock, with one state and one variable with a lead, or with one state and as many shocks as variables with a lead (C75_refuted, C75_needed). C75_partial: all other models are solved unless qz or solve fails."
  },
  {
   "property": "C76",
   "status": "partial",
   "theorems": [
    "C76_partial",
    "C76_steady_partial",
    "C76_unique",
    "C76_refuted",
    "C76_real_numbers",
    "C76_meaning",
    "C76_reals_partial"
   ],
   "note": "Proved for models that the equations are compiled for as C28 says (readable), over any ordered field, exact arithmetic; autograd's gradient and jacobian are any routines that return the derivatives of functions that have second-order expansions near the point. False without that: when a variable is called like another one lagged (x and xm1), the reported Jacobian is not the derivative (C76_refuted). Over the real numbers of the standard library, with exp, log, log10, sqrt, abs, sign, sin, cos, tan, asin, acos, atan and powers: C76_reals_partial, with derivatives in the usual sense (C76_meaning); the language's functions satisfy what the general theorem asks (C76_real_numbers). erf is left out."
  },
  {
   "property": "C77",
   "status": "partial",
   "theorems": [
    "C77_partial",
    "C77_refuted"
   ],
   "note": "As C76. The hypotheses are met by the model of C76_nonvacuous. The condition on the names is needed: C77_refuted."
  },
  {
   "property": "C78",
   "status": "partial",
   "theorems": [
    "C78_partial",
    "C79_motion",
    "C78_meaning",
    "C78_reals_partial",
    "C92_refuted"
   ],
   "note": "Proved for readable models, unless the last root is complex and no root is beyond one; finite distributions. Motions that follow the rule exist and are unique (C79_motion). Example in C79_nonvacuous. Over the real numbers: C78_reals_partial; the error divided by t goes to zero with t (C78_meaning). The condition on the names is needed: the rule of C92_refuted is returned by the first-order solver and does not solve the equations."
  },
  {
   "property": "C79",
   "status": "partial",
   "theorems": [
    "C79_partial",
    "C79_motion",
    "C78_meaning",
    "C79_reals_partial",
    "C79_refuted"
   ],
   "note": "As C78, second order; the arrays are used as the second-order solution defines them (xx, uu and the uncertainty term hold halves). Over the real numbers: C79_reals_partial; the error divided by t^2 goes to zero with t (C78_meaning). Without the condition on the names the claim is false: C79_refuted, a file with variables x and xm1 that is solved to second order."
  },
  {
   "property": "C80",
   "status": "partial",
   "theorems": [
    "C80_one_partial",
    "C80_several_partial",
    "C80_needed",
    "C80_refuted"
   ],
   "note": "Proved for conditions with a variable in them; C80_needed: with two or more periods exactly these are judged, any other condition raises (C80_refuted: \"1 > 2\"). Names of parameters take precedence over variables. The values are deviations from the steady state."
  },
  {
   "property": "C81",
   "status": "partial",
   "theorems": [
    "C81_exact",
    "C81_refuted"
   ],
   "note": "C81_exact characterises the accepted arguments exactly; the documented case of a Constraint instance is always refused (C81_refuted), and more models than needed are accepted and ignored."
  },
  {
   "property": "C82",
   "status": "proved",
   "theorems": [
    "C82_one_constraint",
    "C82_two_constraints"
   ],
   "note": "For conditions that have truth values at all paths. The equations are those of the regimes in force (C50_effective, C50_two_effective), which are the guessed ones when the last period is unconstrained."
  },
  {
   "property": "C83",
   "status": "partial",
   "theorems": [
    "C83_coefficients",
    "C83_partial",
    "C83_refuted"
   ],
   "note": "C83_coefficients says exactly what the systems hold, for all steady states: derivatives at the regime's own steady state, residuals at the reference's. They are the expansion around the reference's steady state when the derivatives at both are the same (C83_partial: same steady state, or linear equations), and not in general (C83_refuted). Derivatives are taken as in C76."
  },
  {
   "property": "C84",
   "status": "partial",
   "theorems": [
    "C84_nearby_partial",
    "C84_minimum_partial",
    "C84_exact",
    "C84_refuted"
   ],
   "note": "The success of the optimiser is not looked at and the value of the objective is not either. Proved when the optimiser returns a point of least value nearby and the derivatives of the equations are independent there, or a point of least value at all. False otherwise: C84_refuted has a local minimum that is no steady state, and a model without a steady state that is given one. scipy's minimize is any function with the stated promise; exact arithmetic; readable models as in C76."
  },
  {
   "property": "C85",
   "status": "partial",
   "theorems": [
    "C85_model_partial",
    "C85_model_printed",
    "C85_statistics_partial",
    "C85_only",
    "C85_autocorrelations_partial",
    "C85_moments",
    "C85_refuted",
    "C85_lag_refuted",
    "C85_calibration",
    "C85_letters"
   ],
   "note": "Proved: what the printed summary of a model and of its statistics consists of, entry by entry, for every model and choice of keywords, and exactly when it is printed without an error; the meaning of the moments of a first-order solution. Refuted, so missing: an iterator of features shows nothing, a parameter is not found by a name of several letters, a model without parameters, without shocks or with shocks of no variance is not printed, and the column headed p = i holds the autocorrelation at lag i+1. Rounding and padding of the printed numbers are not modelled."
  },
  {
   "property": "C86",
   "status": "proved",
   "theorems": [
    "C86_outline",
    "C86_model",
    "C86_names",
    "C86_scope"
   ],
   "note": "For every file that is read: names and equations in the order of the file, the last expression assigned to each parameter, the value of every local definition; names are distinct and not empty; and the model made from the outline has them."
  },
  {
   "property": "C87",
   "status": "partial",
   "theorems": [
    "C87_reads",
    "C87_names",
    "C87_not_found",
    "C87_objects_refuted",
    "C87_language",
    "C87_shipped_refuted"
   ],
   "note": "For every string and file system: exactly when a model is read and from which text, its name, and exactly when FileNotFoundError is raised and for which path. Refuted, so missing: a Path object always fails with AttributeError, two of the six registered examples cannot be read, and a missing example file is reported under its own path, not the one given."
  },
  {
   "property": "C88",
   "status": "partial",
   "theorems": [
    "C88_print",
    "C88_given",
    "C88_files_refuted"
   ],
   "note": "Exactly which collections of equations can be printed, and what is printed, for equations given as texts. Refuted, so missing: the equations of a model read from a file, and equations without exactly one sign '=', cannot be printed (ValueError)."
  },
  {
   "property": "C89",
   "status": "partial",
   "theorems": [
    "C89_kinds_partial",
    "C89_kinds_read",
    "C89_values",
    "C89_kinds_refuted",
    "C89_values_refuted",
    "C89_arrays",
    "C89_lookup",
    "C89_lookup_many",
    "C89_periods"
   ],
   "note": "Kinds for models whose variables occur at most one period away; values, arrays, look-ups and periods in full. Refuted, so missing: a lag of two periods is listed as a lead; a terminal or historical value takes away the default initial value."
  },
  {
   "property": "C90",
   "status": "partial",
   "theorems": [
    "C90_observed_partial",
    "C90_original",
    "C90_errors",
    "C90_parameters",
    "C90_locals_refuted",
    "C90_independence_refuted",
    "C90_values"
   ],
   "note": "For models without local parameters the observed model shows what a model with the combined definitions shows; the original shows the same as before after every history of its own. Refuted, so missing: local parameters are lost (taken as zero in the steady state); parameters and lead-lag sets of the variables are shared between the two models."
  },
  {
   "property": "C91",
   "status": "partial",
   "theorems": [
    "C91_one_partial",
    "C91_two_partial",
    "C91_refuted"
   ],
   "note": "The values after the last shock are those foreseen (always, without a warning in that period). Zeros change nothing if the last guess ends in the reference regime in its last two entries and the constraints are not violated after its end under the decision rule. Without that it is false (C91_refuted): the last entry of a guess is ignored when its regimes are located. Conditions are functions of the values of a period; values are compared on the model's variables."
  },
  {
   "property": "C92",
   "status": "partial",
   "theorems": [
    "C92_file_partial",
    "C92_history_partial",
    "C92_meaning",
    "C92_reals_partial",
    "C92_history_reals_partial",
    "C92_refuted"
   ],
   "note": "For files whose names and offsets can be compiled (plain_file: C28 and C76 show what goes wrong with clashing names, C27 with other offsets), with as many equations as variables, that have a steady state at which the equations are smooth, in exact arithmetic with routines that keep their contracts (the optimiser finds the least value: C84). The parameter values are those of the assignments in their order if no parameter is assigned again after it is used; C18 shows what happens otherwise. Over the real numbers: C92_reals_partial and C92_history_reals_partial, in the usual sense of limits (C92_meaning). Without the condition on the names the claim is false: C92_refuted has a file with a variable called like another one lagged."
  },
  {
   "property": "C93",
   "status": "partial",
   "theorems": [
    "C93_file_partial",
    "C93_history_partial",
    "C93_meaning",
    "C93_reals_partial",
    "C93_history_reals_partial",
    "C93_refuted"
   ],
   "note": "As in C92: for models whose names and offsets can be compiled, with as many equations as variables and a smooth steady state, in exact arithmetic with routines that keep their contracts. A model with one variable and several shocks is left out: its simulations go wrong (C62). To second order the claim is false: C39 shows that the simulator halves the second-order terms again. Over the real numbers: C93_reals_partial and C93_history_reals_partial (C93_meaning). Without the condition on the names the claim is false: C93_refuted."
  },
  {
   "property": "C94",
   "status": "partial",
   "theorems": [
    "C94_dictionary_partial",
    "C94_list_partial",
    "C94_two_partial",
    "C94_refuted"
   ],
   "note": "Proved for references that can be compiled and solved (as in C92) with their states in order (C65), for alternatives whose derivatives at the two steady states are the same (C83), and conditions that can be evaluated. With a dictionary also: the model was not altered since it was last solved. Otherwise the claim is false, C94_refuted: the old rule is followed, and equations of both regimes are violated without a warning."
  },
  {
   "property": "C95",
   "status": "partial",
   "theorems": [
    "C95_partial",
    "C95_file_partial",
    "C95_shares_partial",
    "C95_mean_partial",
    "C95_shares_file_partial",
    "C95_refuted"
   ],
   "note": "Proved for histories in which every question is asked in time (solved since the last change, or never solved), additions succeed, everything that raised was followed by an addition, for models that can be compiled and solved (as in C92) with at least two endogenous variables, and stable rules; that the rule is stable follows from separated roots (as many inside the unit circle as there are states), by C98 and C100. Decompositions and means are proved for models solved since their last change; decompositions with the perturbation of the variances (C46), means for first-order solutions (second order: C70). The full claim is false, C95_refuted: a question asked between a change and the next solution computes the variance of the states with the old rule, and the question after the next solution combines it with the new one (19/15 instead of 4/3)."
  },
  {
   "property": "C96",
   "status": "partial",
   "theorems": [
    "C96_history_partial",
    "C96_file_partial",
    "C96_refuted",
    "C96_stale_refuted"
   ],
   "note": "Proved for models that were solved since their last change and have a first-order solution, that can be compiled and solved (as in C92), after histories in which every question was asked in time, for at least one simulation or response that returned. When the roots are separated the responses also die out (C99). The full claim is false, C96_refuted: with a second-order solution (the default order) there is a response to an impulse of size zero; C96_stale_refuted: after a change of a parameter the responses are those of the old value."
  },
  {
   "property": "C97",
   "status": "partial",
   "theorems": [
    "C97_written",
    "C97_exact",
    "C97_equation_partial",
    "C97_file_partial",
    "C97_rest_refuted",
    "C97_refuted"
   ],
   "note": "Proved: written equations are read as l - r, and as a file with them is; exactly which texts are accepted (C97_exact). False: what follows an equation is dropped, a second equation as well (C97_rest_refuted, C97_refuted). In the model all tokens are read first, so an invalid character behind the equation is an error only in the model."
  },
  {
   "property": "C98",
   "status": "partial",
   "theorems": [
    "C98_partial",
    "C98_roots_partial",
    "C98_refuted"
   ],
   "note": "For every ordered archimedean field and every model that is solved with separated roots: the paths of the returned rule are exactly the bounded solutions of the linearised equations, one for all initial values and shocks; bounded shocks give bounded paths. C98_roots_partial draws the separation from real non-negative roots off the circle with one outside (C73_partial). Without separation the full statement is false: C98_refuted, where an explosive rule is returned. Contracts: QR, ordered QZ (finite quotients have nonzero denominators), inverse, linear solver that refuses singular matrices. Closed under the global context."
  },
  {
   "property": "C99",
   "status": "partial",
   "theorems": [
    "C99_partial",
    "C99_refuted"
   ],
   "note": "For every ordered archimedean field and every model that is solved with separated roots (the contracts of C98): responses to an impulse vanish, simulations with bounded shocks stay within one distance of the steady state whatever their length, those whose shocks end return to it. Without separated roots the full statement is false (C99_refuted). Closed under the global context."
  }
 ]
}