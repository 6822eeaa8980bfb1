{"id": "C01", "title": "Tokenising written-out tokens gives them back", "statement": "If a sequence of identifiers, numbers, operators and punctuation is written out as text with whitespace between the tokens, tokenising that text yields exactly that sequence followed by end-of-file, whatever whitespace is used.", "quantifier": "every token sequence and every choice of non-empty whitespace separators", "why_tests_cant": "the set of texts and separators is infinite; a test fixes a handful of strings", "anchors": ["pynare/parsing/lexer.py:BaseLexer.next_token", "pynare/parsing/lexer.py:BaseLexer._id", "pynare/parsing/lexer.py:BaseLexer._number", "pynare/parsing/lexer.py:DynareLexer"]}
{"id": "C02", "title": "Token positions point at the source", "statement": "The line number recorded for a token equals one plus the number of newlines that precede its end in the text, so syntax and semantic error messages name the right row.", "quantifier": "every text that tokenises, every token in it", "why_tests_cant": "depends on every interleaving of newlines, comments and tokens", "anchors": ["pynare/parsing/lexer.py:BaseLexer.advance", "pynare/parsing/lexer.py:BaseLexer.skip_whitespace", "pynare/parsing/base.py:Token.assign_loc"]}
{"id": "C03", "title": "Tokenising always terminates", "statement": "Building a lexer over a text and asking for its tokens always finishes, with either a token list or an exception; it never loops forever.", "quantifier": "every text", "why_tests_cant": "non-termination on some input cannot be excluded by running finitely many inputs", "anchors": ["pynare/parsing/lexer.py:BaseLexer.tokenize", "pynare/parsing/lexer.py:DynareLexer.skip_singleline_comment", "pynare/parsing/lexer.py:DynareLexer.skip_multiline_comment"]}
{"id": "C04", "title": "Comments do not change a model", "statement": "Inserting a single-line or multi-line comment between two tokens of a Dynare file leaves the tokens, and so the model, unchanged.", "quantifier": "every file, every insertion point between tokens, every comment body", "why_tests_cant": "the comment body is arbitrary text", "anchors": ["pynare/parsing/lexer.py:DynareLexer.is_singleline_comment", "pynare/parsing/lexer.py:DynareLexer.skip_multiline_comment", "pynare/parsing/lexer.py:BaseLexer.next_token"]}
{"id": "C05", "title": "Parsing a printed expression gives the expression back", "statement": "For every arithmetic expression, writing it with the usual operator precedences (only the parentheses that the grammar needs) and parsing it returns exactly that expression: powers associate to the right, products, quotients, sums and differences to the left, and powers bind tighter than products, which bind tighter than sums.", "quantifier": "every expression tree of any depth, with or without lead/lag variables", "why_tests_cant": "infinitely many trees and nesting depths", "anchors": ["pynare/parsing/parser.py:BaseParser.expr", "pynare/parsing/parser.py:BaseParser.term", "pynare/parsing/parser.py:BaseParser.exponent", "pynare/parsing/parser.py:BaseParser.call", "pynare/parsing/parser.py:BaseParser.atom", "pynare/parsing/parser.py:DynareParser.mexpr"]}
{"id": "C06", "title": "Whatever the parser accepts is derivable from the documented grammar", "statement": "If parsing an expression succeeds, the tokens consumed derive the returned tree in the grammar written in the parser's docstrings; the parser invents, drops and reorders nothing.", "quantifier": "every token sequence", "why_tests_cant": "soundness over all token sequences; tests only show accepted samples", "anchors": ["pynare/parsing/parser.py:BaseParser", "pynare/parsing/parser.py:DynareParser.mcall"]}
{"id": "C07", "title": "An expression string is parsed completely or rejected", "statement": "parse_string and evaluate use the whole text they are given: if something is left over after the expression, a syntax error is raised.", "quantifier": "every expression string", "why_tests_cant": "about all trailing texts", "anchors": ["pynare/parsing/api.py:parse_string", "pynare/parsing/api.py:evaluate", "pynare/parsing/parser.py:BaseParser.parse"]}
{"id": "C08", "title": "A unary minus applies to its factor only, as in ordinary algebra", "statement": "For operands a, b, c the text a/-b*c means (a/(-b))*c and a^-b*c means (a^(-b))*c.", "quantifier": "every choice of operands", "why_tests_cant": "the meaning must hold for all operand expressions", "anchors": ["pynare/parsing/parser.py:BaseParser.atom"]}
{"id": "C09", "title": "Parsing always terminates", "statement": "Parsing a tokenised text as an expression or as a model file always finishes with a tree or an exception.", "quantifier": "every token sequence", "why_tests_cant": "non-termination cannot be excluded by finitely many runs", "anchors": ["pynare/parsing/parser.py:BaseParser.parse", "pynare/parsing/parser.py:DynareParser.variable_preamble", "pynare/parsing/parser.py:DynareParser.general_model_actions"]}
{"id": "C10", "title": "A model file is read back as written", "statement": "For every model file made of declarations, parameter assignments, a model block, boundary-value blocks and a shocks block, parsing its written form returns exactly those declarations, assignments, equations, local definitions, boundary values and shocks, in order.", "quantifier": "every model file of any length", "why_tests_cant": "unbounded numbers of declarations, equations and blocks", "anchors": ["pynare/parsing/parser.py:DynareParser.model_file", "pynare/parsing/parser.py:DynareParser.variable_preamble", "pynare/parsing/parser.py:DynareParser.model_definition", "pynare/parsing/parser.py:DynareParser.shocks_block"]}
{"id": "C11", "title": "Evaluation is compositional and depends only on the variables that occur", "statement": "The value of an expression is determined by its operators and the values of the variables occurring in it: two scopes that agree on those variables give the same result (or the same error), and an expression whose variables are all in scope never fails for a missing name.", "quantifier": "every expression and every pair of scopes", "why_tests_cant": "quantifies over all expressions and scopes", "anchors": ["pynare/parsing/base.py:_BaseEvaluator", "pynare/parsing/api.py:evaluate"]}
{"id": "C12", "title": "Substituting constants then evaluating equals evaluating in the extended scope", "statement": "Replacing parameters (or steady-state values) by their numbers inside an equation and evaluating the result gives the same value as evaluating the original equation with those names in scope.", "quantifier": "every equation, every substitution, every remaining scope", "why_tests_cant": "all equations and scopes", "anchors": ["pynare/parsing/base.py:_ASTSubstitution", "pynare/core/expressions.py:_SteadyStateSubstitution", "pynare/core/expressions.py:_DynamicSubsitution"]}
{"id": "C13", "title": "Accepted model files use only declared names", "statement": "If a model file passes the semantic check, every name read in a parameter assignment, model equation, local definition, boundary value or shock moment was declared or assigned earlier in the file, no name is declared twice, boundary values are given only for endogenous variables and shocks only for exogenous ones.", "quantifier": "every model file", "why_tests_cant": "about every accepted file", "anchors": ["pynare/parsing/semantics.py:DynareSemanticAnalyzer"]}
{"id": "C14", "title": "Model files that use only declared names are accepted", "statement": "A model file in which every name is declared before use, no name is declared twice and assignments are made to parameters or fresh names passes the semantic check and yields a model outline.", "quantifier": "every well-formed model file", "why_tests_cant": "completeness over all well-formed files", "anchors": ["pynare/parsing/semantics.py:DynareSemanticAnalyzer.visit_ModelActions", "pynare/parsing/semantics.py:DynareSemanticAnalyzer.visit_VarAssignment"]}
{"id": "C15", "title": "Local model definitions do not leak", "statement": "A local definition made inside the model block is visible to later statements of the model block only; after the block the set of declared names is what it was before.", "quantifier": "every model file", "why_tests_cant": "about every file", "anchors": ["pynare/parsing/semantics.py:DynareSemanticAnalyzer.visit_ModelDefinition", "pynare/parsing/factory.py:DynareModelFactory.visit_ModelDefinition"]}
{"id": "C16", "title": "Boundary blocks set the values they name", "statement": "After reading a file, the initial, terminal and historical values of the outline are the values assigned in the initval, endval and histval blocks respectively.", "quantifier": "every model file", "why_tests_cant": "all combinations of blocks and assignments", "anchors": ["pynare/parsing/factory.py:DynareModelFactory.visit_ModelBoundaryValues"]}
{"id": "C17", "title": "The shocks block sets the moments it names", "statement": "After reading a file each declared shock has the variance, correlation and covariance that the shocks block states for it, with a standard error s giving variance s squared.", "quantifier": "every shocks block", "why_tests_cant": "all sequences of shock statements", "anchors": ["pynare/parsing/factory.py:DynareModelFactory.visit_ShocksBlock"]}
{"id": "C18", "title": "Model parameters equal what the file assigns", "statement": "The parameter values of a model read from a file equal the values obtained by executing the file's assignments in order.", "quantifier": "every model file", "why_tests_cant": "all sequences of assignments", "anchors": ["pynare/parsing/factory.py:DynareModelFactory.visit_VarAssignment", "pynare/core/model.py:Model.from_outline", "pynare/core/variables.py:solve_calibration"]}
{"id": "C19", "title": "A solved calibration satisfies every definition", "statement": "When a calibration is solved, every parameter has a number, and a parameter defined by an expression has the value of that expression at the solved values of the other parameters.", "quantifier": "every set of parameter definitions, any dependency depth", "why_tests_cant": "unbounded dependency graphs", "anchors": ["pynare/core/variables.py:solve_calibration", "pynare/core/variables.py:order_precedence", "pynare/core/variables.py:ModelCalibration"]}
{"id": "C20", "title": "A calibration is rejected exactly when it is circular", "statement": "Solving a calibration whose definitions are arithmetic expressions mentioning only parameters of the model raises a CalibrationError if and only if some parameters are defined in terms of each other in a cycle.", "quantifier": "every finite set of definitions", "why_tests_cant": "needs all dependency graphs; the iteration cap makes deep chains the interesting case", "anchors": ["pynare/core/variables.py:order_precedence"]}
{"id": "C21", "title": "Parameter order does not matter", "statement": "Listing the same parameter definitions in another order gives the same parameter values.", "quantifier": "every set of definitions and every permutation", "why_tests_cant": "all permutations of unbounded sets", "anchors": ["pynare/core/variables.py:solve_calibration", "pynare/core/variables.py:order_precedence"]}
{"id": "C22", "title": "Setting a parameter updates everything that depends on it, or changes nothing", "statement": "Assigning to a model parameter re-solves the whole calibration, so afterwards all definitions hold again; if the new definition cannot be solved, the error leaves the parameters as they were.", "quantifier": "every calibration, every sequence of assignments", "why_tests_cant": "all histories of assignments including failing ones", "anchors": ["pynare/core/variables.py:ModelCalibration.__setitem__", "pynare/core/variables.py:ModelCalibration.__delitem__"]}
{"id": "C23", "title": "Lead-lag structure is exactly what the equations mention", "statement": "The lead-lag set of an endogenous variable is exactly the set of period offsets with which it occurs in the model equations (0 for a plain occurrence).", "quantifier": "every list of equations and every list of variable names", "why_tests_cant": "all equation systems", "anchors": ["pynare/core/variables.py:read_lead_lags", "pynare/core/variables.py:LeadLagCounter", "pynare/core/variables.py:set_lead_lags"]}
{"id": "C24", "title": "Every timed variable gets its own Jacobian column", "statement": "The lead-lag index numbers the timed variables that occur in the model 0,1,2,... without gaps or repetitions, first all lags, then current, then leads, in declaration order within a period; shock columns follow directly after.", "quantifier": "every list of lead-lag sets with offsets -1, 0, 1", "why_tests_cant": "all lead-lag structures of any size", "anchors": ["pynare/core/variables.py:VariableIndexManager.__init__", "pynare/core/variables.py:VariableIndexManager.exogenous_jacobian"]}
{"id": "C25", "title": "The decision-rule order is a permutation", "statement": "The decision-rule order lists every endogenous variable exactly once, grouped as static, purely backward, mixed, purely forward, and the declaration order is its inverse.", "quantifier": "every lead-lag structure", "why_tests_cant": "all lead-lag structures", "anchors": ["pynare/core/variables.py:VariableIndexManager.dr_order", "pynare/core/variables.py:VariableIndexManager.dc_order"]}
{"id": "C26", "title": "Variable-class counts count the classes", "statement": "The numbers of static, backward, forward, mixed, state and dynamic variables reported by a model are the sizes of those classes.", "quantifier": "every lead-lag structure", "why_tests_cant": "all lead-lag structures", "anchors": ["pynare/core/variables.py:VariableIndexManager.n_static", "pynare/core/variables.py:VariableIndexManager.n_forward", "pynare/core/variables.py:VariableIndexManager.n_dynamic"]}
{"id": "C27", "title": "Unsupported leads and lags are rejected", "statement": "A model with a variable at an offset other than -1, 0 or 1 is rejected with an error instead of being solved as a different model.", "quantifier": "every list of equations with an offset out of range", "why_tests_cant": "all offsets and positions", "anchors": ["pynare/core/variables.py:VariableIndexManager.__init__", "pynare/core/expressions.py:DynamicFunc"]}
{"id": "C28", "title": "The compiled dynamic function computes the equation's residual", "statement": "Calling the dynamic function of an equation with values for the timed variables and shocks (in the order of the model's signature) returns left side minus right side of the equation at those values, with parameters at their calibrated values and leads and lags read at their own period.", "quantifier": "every equation, signature and argument vector", "why_tests_cant": "all equations and arguments", "anchors": ["pynare/core/expressions.py:dynamic_func", "pynare/core/expressions.py:DynamicFunc", "pynare/core/expressions.py:model_signature", "pynare/core/expressions.py:DynamicRepr"]}
{"id": "C29", "title": "The dynamic model at the steady state is the steady model", "statement": "Evaluating the dynamic equations at the stacked steady state with zero shocks gives the same residuals as the steady-state equations at the steady state.", "quantifier": "every model and every steady-state vector", "why_tests_cant": "all models", "anchors": ["pynare/core/expressions.py:steady_func", "pynare/core/expressions.py:dynamic_func", "pynare/core/linearizing.py:Linearization.ss"]}
{"id": "C30", "title": "Adding to a model is never ignored", "statement": "After any sequence of successful additions of variables, parameters, equations or shocks, reading the model's indexes, dynamic representation or state space gives what a model built from scratch with the current definitions would give.", "quantifier": "every sequence of additions and reads", "why_tests_cant": "all histories", "anchors": ["pynare/core/generic.py:DynamicModel.update", "pynare/core/generic.py:ModelSkeleton.add_params", "pynare/core/generic.py:StructuredModel.add_exprs"]}
{"id": "C31", "title": "A model's solution reflects its current definition", "statement": "Reading a model's solution, simulating it or taking impulse responses uses the model's current parameters and equations.", "quantifier": "every sequence of additions, solves and reads", "why_tests_cant": "all histories", "anchors": ["pynare/core/model.py:Model.solution", "pynare/core/model.py:Model.solve", "pynare/simul.py:simulate"]}
{"id": "C32", "title": "Equation text and parsed equation stay in step", "statement": "In a model's equation collection the i-th text always parses to the i-th tree, after any sequence of appending, replacing, deleting and popping equations. A collection cannot be made exactly when one of the equations cannot be read, and the error is that of the first such.", "quantifier": "every sequence of operations", "why_tests_cant": "all histories", "anchors": ["pynare/core/expressions.py:ModelExprs"]}
{"id": "C33", "title": "Copying a model preserves it", "statement": "A copy of a model has the same equations, parameters (including local definitions), variables and shocks as the original.", "quantifier": "every model", "why_tests_cant": "all models", "anchors": ["pynare/core/generic.py:DynamicModel.copy"]}
{"id": "C34", "title": "The shock covariance matrix is what the shocks state", "statement": "The model's shock covariance matrix is symmetric, has the stated variance of each shock on its diagonal, and off the diagonal the stated covariance, or correlation times the two standard deviations, or zero.", "quantifier": "every list of shocks and moments", "why_tests_cant": "all shock lists", "anchors": ["pynare/core/generic.py:DynamicModel._define_sigma", "pynare/core/variables.py:_create_stoch_vars"]}
{"id": "C35", "title": "Simulated deviations are linear in the initial condition and the shocks", "statement": "In a first-order simulation the path in deviation from steady state is an additive and homogeneous function of initial deviation and shock path; with the steady state as initial point and no shocks the path stays at the steady state.", "quantifier": "every solution, initial point, horizon and shock path", "why_tests_cant": "all horizons and shocks", "anchors": ["pynare/simul.py:LinearSimulator._simulate_first_order"]}
{"id": "C36", "title": "Simulation is causal and uses every shock", "statement": "The simulated value at period t depends only on the initial point and on shocks dated before or at t, and each supplied shock influences the path.", "quantifier": "every solution and pair of shock paths", "why_tests_cant": "all horizons", "anchors": ["pynare/simul.py:LinearSimulator._simulate_first_order", "pynare/impulse.py:impulse_response"]}
{"id": "C37", "title": "Impulse responses are the powers of the transition", "statement": "The response k periods after an impulse of a given size equals the k-th power of the decision rule's transition applied to the impact effect, scaled by the size.", "quantifier": "every first-order solution, size, shock and horizon", "why_tests_cant": "all horizons and systems", "anchors": ["pynare/impulse.py:impulse_response", "pynare/simul.py:LinearSimulator._simulate_first_order"]}
{"id": "C38", "title": "Simulated shocks have the model's covariance", "statement": "The random shocks fed to a simulation are a linear image of unit-variance independent draws whose covariance is exactly the model's shock covariance matrix.", "quantifier": "every positive definite covariance", "why_tests_cant": "all covariance matrices", "anchors": ["pynare/simul.py:_generate_simul_shocks"]}
{"id": "C39", "title": "Second-order simulation uses the second-order solution's coefficients once", "statement": "A second-order simulation adds the quadratic terms of the decision rule with the coefficients of the second-order Taylor expansion.", "quantifier": "every second-order solution, state and shock", "why_tests_cant": "all solutions", "anchors": ["pynare/simul.py:LinearSimulator._simulate_second_order", "pynare/core/solve/second_order.py:SecondOrderSolution"]}
{"id": "C40", "title": "The first-order solution solves the linearised model", "statement": "The decision rule returned by the first-order solver satisfies the linearised equilibrium conditions identically: substituting it for next period's and today's variables makes every equation hold for all states and shocks.", "quantifier": "every model, Jacobian and ordered generalised Schur factorisation", "why_tests_cant": "all matrices and variable partitions", "anchors": ["pynare/core/solve/first_order.py:solve_first_order", "pynare/core/solve/first_order.py:solve_nonstatic_endo", "pynare/core/solve/first_order.py:solve_static_endo", "pynare/core/solve/first_order.py:solve_exo", "pynare/core/solve/statespace.py:_compute_structural_state_space"]}
{"id": "C41", "title": "The Schur factors are cut at the first explosive root", "statement": "The state space's generalised Schur factors are partitioned so that exactly the roots of modulus above one are in the unstable block.", "quantifier": "every eigenvalue sequence", "why_tests_cant": "all spectra", "anchors": ["pynare/utils/numpy.py:partitioned_qz", "pynare/utils/numpy.py:find_first"]}
{"id": "C42", "title": "Blanchard-Kahn verification always reports violations", "statement": "Every call that verifies a model whose order or rank condition fails raises a ModelIdentificationError.", "quantifier": "every model and every sequence of verification calls", "why_tests_cant": "all histories", "anchors": ["pynare/core/solve/statespace.py:StateSpace.verify", "pynare/core/solve/statespace.py:StateSpace._run_verification"]}
{"id": "C43", "title": "The generalised Sylvester solver returns a solution", "statement": "generalized_sylvester(A, B, C, D, E) returns X with A X B' + C X D' = E whenever the system is nonsingular.", "quantifier": "every number of rows and columns from one on, and all matrices", "why_tests_cant": "all sizes, including sequences of 1x1 and 2x2 Schur blocks", "anchors": ["pynare/utils/numpy.py:generalized_sylvester"]}
{"id": "C44", "title": "Reported covariances are those of the stationary process", "statement": "The model covariance equals the covariance of the endogenous variables in the stationary distribution of the decision rule, and is symmetric.", "quantifier": "every first-order solution", "why_tests_cant": "all systems", "anchors": ["pynare/stats/moments.py:cov", "pynare/core/solve/statespace.py:StateSpace.sigma"]}
{"id": "C45", "title": "The i-th autocovariance is the lag-i autocovariance", "statement": "Entry i of the autocovariance array is the covariance between today's variables and the variables i periods ago.", "quantifier": "every first-order solution and lag", "why_tests_cant": "all systems and lags", "anchors": ["pynare/stats/moments.py:autocov", "pynare/stats/moments.py:autocorr"]}
{"id": "C46", "title": "Variance decompositions are shares", "statement": "For every variable with positive variance the variance-decomposition shares over the shocks are non-negative and add up to one, and the shares weigh the per-shock variances whose sum is the variable's total variance when shocks are uncorrelated.", "quantifier": "every model and set of shocks", "why_tests_cant": "all systems", "anchors": ["pynare/stats/var.py:var_decomp"]}
{"id": "C47", "title": "Observed series are matched to variables by label", "statement": "Data given to a filter with labels is used so that each observed variable reads the column carrying its label, in whatever order the columns come.", "quantifier": "every permutation of labels", "why_tests_cant": "all permutations", "anchors": ["pynare/stats/filters.py:ModelFilter", "pynare/core/variables.py:VarArray.get_loc"]}
{"id": "C48", "title": "The likelihood depends on the data", "statement": "The log-likelihood returned by the Kalman filter is that of the data: changing the observations changes prediction errors and so the likelihood.", "quantifier": "every pair of data sets", "why_tests_cant": "all data sets", "anchors": ["pynare/stats/filters.py:_simple_kalman_transition_selection"]}
{"id": "C49", "title": "Regime spells describe the regime sequence", "statement": "The spells computed for a hypothesised sequence of regimes (regime, first period) reproduce the sequence.", "quantifier": "every regime sequence", "why_tests_cant": "all sequences of any length", "anchors": ["pynare/core/solve/binding.py:_locate_regime_changes"]}
{"id": "C50", "title": "A path simulated under a regime guess obeys that guess", "statement": "Along a path simulated under a hypothesised regime sequence the variables satisfy, in every period, the linear equations of the regime assumed for that period, and the reference regime's decision rule after the last constrained period.", "quantifier": "every sequence of regimes, every pair of linear systems", "why_tests_cant": "all regime sequences and systems", "anchors": ["pynare/core/solve/binding.py:_simulate_hypothesized_paths"]}
{"id": "C51", "title": "A converged occasionally-binding simulation is self-consistent", "statement": "When the guess-and-verify loop stops without a warning, in each period the constraint binds in the guess exactly when the simulated path says it should, and the loop takes at most the allowed number of iterations.", "quantifier": "every constraint evaluation history", "why_tests_cant": "all iteration histories", "anchors": ["pynare/core/solve/binding.py:solve_occbin_one_constraint", "pynare/core/solve/binding.py:solve_occbin_two_constraints"]}
{"id": "C52", "title": "Regime models count and hold their regimes", "statement": "A regime-switching model's length is the number of regimes it holds; its first regime is the original model and each alternative differs from it only in the replaced equations.", "quantifier": "every base model and set of replacements", "why_tests_cant": "all replacement sets", "anchors": ["pynare/regimes.py:RegimeSwitchingModel"]}
{"id": "C53", "title": "Steady-state solver selection is total", "statement": "Selecting a steady-state method by its documented number or name yields a solver, the default when none is given, and an error otherwise.", "quantifier": "every method argument", "why_tests_cant": "all arguments", "anchors": ["pynare/core/steady.py:_SteadyStateManager"]}
{"id": "C54", "title": "Overlapping blocks are assembled entry by entry", "statement": "Stacking two matrices of equal width with an overlap gives all rows of the first followed by the rows of the second from the overlap on, so its height is the sum of the heights minus the overlap; different widths and overlaps that are negative or exceed the second matrix are rejected.", "quantifier": "every pair of matrices and overlap", "why_tests_cant": "all shapes", "anchors": ["pynare/utils/numpy.py:array_shingle"]}
{"id": "C55", "title": "The mixed-product evaluation agrees with the Kronecker product", "statement": "Multiplying a matrix with a Kronecker product through the library's routine equals multiplying with the explicit Kronecker product, in values and in shape.", "quantifier": "every matrix and factors", "why_tests_cant": "all shapes", "anchors": ["pynare/utils/numpy.py:matrix_kronecker_product"]}
{"id": "C56", "title": "Plot grids hold every series exactly once", "statement": "The grid chosen for n plots has exactly n cells and every plotted series is assigned to exactly one cell.", "quantifier": "every n", "why_tests_cant": "all n", "anchors": ["pynare/plotting/base.py:_factor_near_square_root", "pynare/plotting/base.py:_plot_grid"]}
{"id": "C57", "title": "Summary tables label coefficients correctly", "statement": "In printed decision-rule tables each coefficient is printed in the column of the state and shock it multiplies.", "quantifier": "every lead-lag structure", "why_tests_cant": "all variable orders", "anchors": ["pynare/io/summary.py:FirstOrderSummary", "pynare/io/summary.py:SecondOrderSummary"]}
{"id": "C58", "title": "Dropped periods are dropped from the front only", "statement": "Dropping k periods from simulated paths leaves exactly the paths from period k on, and an out-of-range k is rejected.", "quantifier": "every path and drop", "why_tests_cant": "all lengths", "anchors": ["pynare/simul.py:_drop_simulated_paths"]}
{"id": "C59", "title": "Sample autocorrelations are correlations", "statement": "Sample correlation matrices of a simulation are symmetric with unit diagonal, sample correlations and autocorrelations are at most one in absolute value, and only lags shorter than the sample are accepted.", "quantifier": "every simulated path with positive variances", "why_tests_cant": "all paths", "anchors": ["pynare/simul.py:ModelSimulation.corr", "pynare/simul.py:ModelSimulation.autocorr"]}
{"id": "C60", "title": "Local model definitions follow the parameters", "statement": "After changing a model parameter, quantities defined locally in the model block in terms of that parameter take their new value.", "quantifier": "every model with local definitions and every parameter change", "why_tests_cant": "all models and changes", "anchors": ["pynare/parsing/factory.py:DynareModelFactory.visit_LocalModelDeclaration", "pynare/core/model.py:Model.model_scope"]}
{"id": "C61", "title": "Models do not share parameters", "statement": "Adding or changing a parameter of one model never changes the parameters that another model shows, now or later.", "quantifier": "every sequence of model constructions and parameter additions", "why_tests_cant": "all interleavings of calls on several models", "anchors": ["pynare/core/model.py:Model.__init__", "pynare/core/variables.py:ModelCalibration", "pynare/core/generic.py:ModelSkeleton.add_params"]}
{"id": "C62", "title": "A solved model can be simulated", "statement": "Simulating a model that has been solved, at first or second order, for any number of periods from any initial point, returns paths of all its variables instead of an error.", "quantifier": "every solved model (any numbers of variables, states and shocks), order, shock path and initial point", "why_tests_cant": "the shapes of the arrays depend on how many variables, states and shocks there are; all combinations matter", "anchors": ["pynare/simul.py:simulate", "pynare/simul.py:LinearSimulator._simulate_first_order", "pynare/simul.py:LinearSimulator._simulate_second_order", "pynare/utils/numpy.py:matrix_kronecker_product"]}
{"id": "C63", "title": "Variables start where they are told, otherwise at zero", "statement": "After building a model and any successful additions, the model's endogenous variables are those declared, in order, each with the terminal and historical values it was given; its initial value is the one given, and zero if it was given no values at all.", "quantifier": "every model and every sequence of additions", "why_tests_cant": "all combinations of given and missing values, over all histories", "anchors": ["pynare/core/variables.py:EndogVar", "pynare/core/variables.py:_create_endog_vars", "pynare/core/generic.py:ModelSkeleton.add_endog"]}
{"id": "C64", "title": "A summary threshold hides negligible rows only", "statement": "When a table of a decision rule leaves out rows because of the threshold for small numbers, every number of such a row is smaller than the threshold in absolute value, and asking for a threshold does not raise an error.", "quantifier": "every solved model and every threshold", "why_tests_cant": "depends on the signs and sizes of all coefficients and on the numbers of variables, states and shocks", "anchors": ["pynare/io/summary.py:SecondOrderSummary._threshold_locs", "pynare/io/summary.py:_summarize_array"]}
{"id": "C65", "title": "An occasionally-binding simulation applies the reference model's decision rule", "statement": "The decision rule used in an occasionally-binding simulation gives each variable the coefficient of the reference model's first-order solution on each state variable and each shock.", "quantifier": "every model, every order of declaration, every number of states and shocks", "why_tests_cant": "the order of the decision rule depends on the whole lead-lag structure, so that most test models do not show a permutation", "anchors": ["pynare/core/solve/binding.py:solve_occbin_one_constraint", "pynare/core/solve/binding.py:solve_occbin_two_constraints"]}
{"id": "C66", "title": "Restrained updating changes one constraint at a time", "statement": "With two constraints and the option `restrained`, an iteration of the guess-and-verify loop updates the guess of only one constraint.", "quantifier": "every pair of models, constraints, shocks and iteration histories", "why_tests_cant": "an option without effect looks right in every converging example", "anchors": ["pynare/core/solve/binding.py:solve_occbin_two_constraints"]}
{"id": "C67", "title": "The linear systems of an occasionally-binding simulation are the linearised equations", "statement": "The matrices on next, current and lagged values and on shocks hold the derivatives of each equation, zero where a variable does not appear at that period, and the constant holds the residuals of the regime's equations at the reference steady state.", "quantifier": "every model and every lead-lag structure", "why_tests_cant": "depends on which variables appear at which periods", "anchors": ["pynare/core/solve/binding.py:_occbin_partitioned_jacobian", "pynare/core/solve/binding.py:_translate_ss"]}
{"id": "C68", "title": "Regimes that do not share their variables are refused", "statement": "Two models are accepted as regimes of one another exactly when they declare the same endogenous variables and shocks in the same order and the same parameters in any order, and otherwise the error names the first group that differs.", "quantifier": "every two models", "why_tests_cant": "all lists of names and all orders", "anchors": ["pynare/core/solve/binding.py:_ensure_variables_match"]}
{"id": "C69", "title": "An occasionally-binding simulation has the periods and shocks asked for", "statement": "A simulation returns a row for each period, and the shocks that were given followed by zeros; it is refused when there are more shocks than periods or when the shocks do not fit the shocked variables.", "quantifier": "every array of shocks, number of periods and limit on iterations", "why_tests_cant": "all sizes", "anchors": ["pynare/core/solve/binding.py:solve_occbin_one_constraint", "pynare/core/solve/binding.py:_process_occbin_parameters"]}
{"id": "C70", "title": "At second order the mean is that of the second-order rule", "statement": "The mean that is reported for a second-order solution is the steady state plus the expected deviation that the second-order rule implies, and for a first-order solution it is the steady state.", "quantifier": "every solution of order one or two", "why_tests_cant": "all rules and covariances", "anchors": ["pynare/stats/moments.py:mean"]}
{"id": "C71", "title": "Correlations are correlations", "statement": "The reported correlations are between minus one and one, equal to one on the diagonal and symmetric.", "quantifier": "every solved model and pair of variables", "why_tests_cant": "an inequality over all systems (Cauchy-Schwarz)", "anchors": ["pynare/stats/moments.py:corr"]}
{"id": "C72", "title": "A model that meets the Blanchard-Kahn conditions is solved", "statement": "If as many generalised eigenvalues are inside the unit circle as the model has variables with a lag, and all others are outside, the first-order solver returns a decision rule unless a numerical routine fails or the static variables are not identified.", "quantifier": "every model (any numbers of static, predetermined, mixed and forward-looking variables and shocks), Jacobian and factorisation", "why_tests_cant": "depends on the lead-lag structure, the number of shocks and the signs and sizes of all roots", "anchors": ["pynare/core/solve/first_order.py:solve_first_order", "pynare/core/solve/statespace.py:_compute_structural_state_space", "pynare/utils/numpy.py:partitioned_qz"]}
{"id": "C73", "title": "A model without a unique stable solution is refused", "statement": "If the first-order solver returns a decision rule, as many generalised eigenvalues are inside the unit circle as the model has variables with a lag, and all others are outside, so that the rule is the only stable one.", "quantifier": "every model, Jacobian and factorisation", "why_tests_cant": "all spectra", "anchors": ["pynare/core/solve/first_order.py:solve_first_order", "pynare/utils/numpy.py:partitioned_qz"]}
{"id": "C74", "title": "The second-order solution solves the model to second order", "statement": "The arrays of the second-order solution are one half of the second derivatives in two states, the second derivatives in a state and a shock, one half of those in two shocks, and one half of the second derivative in the scale of uncertainty, of a decision rule along which the second derivative of every equation is zero: in any two directions of lagged values and shocks, and, expected over next period's shocks, in the scale of uncertainty.", "quantifier": "every model, first-order rule, Jacobian, symmetric Hessian and covariance matrix", "why_tests_cant": "an identity over all models, sizes and pairs of directions; a wrong index order or a missing term still returns arrays of the right shape", "anchors": ["pynare/core/solve/second_order.py:SecondOrderSolution", "pynare/core/solve/second_order.py:solve_ghxx", "pynare/core/solve/second_order.py:solve_ghxu", "pynare/core/solve/second_order.py:solve_ghuu", "pynare/core/solve/second_order.py:solve_del2"]}
{"id": "C75", "title": "A model with a first-order solution has a second-order solution", "statement": "Solving at order two, the default, returns a second-order solution of every model that has a first-order solution, unless a numerical routine fails.", "quantifier": "every model (any numbers of static, predetermined, mixed and forward-looking variables and shocks) and every outcome of the numerical routines", "why_tests_cant": "depends on the numbers of states, leads and shocks, and arrays of one column take their own paths", "anchors": ["pynare/core/solve/second_order.py:SecondOrderSolution", "pynare/core/solve/__init__.py:default_order", "pynare/utils/numpy.py:matrix_kronecker_product"]}
{"id": "C76", "title": "The Jacobian and Hessian hold the derivatives of the model's equations", "statement": "Linearizing a model at a point returns an array with one row per equation and one column per dated variable and shock (or pair of them, for the Hessian), each entry of which is the partial derivative (second partial derivative) of the equation's left side less its right side; the Jacobian of the steady-state equations has the derivatives with all dates of a variable moved together.", "quantifier": "every model, calibration and point at which the equations are smooth", "why_tests_cant": "derivatives are limits over all points near the given one, and the order of the columns must be right for every lead-lag structure", "anchors": ["pynare/core/linearizing.py:ModelJacobian", "pynare/core/linearizing.py:SteadyJacobian", "pynare/core/linearizing.py:ModelHessian"]}
{"id": "C77", "title": "The arrays expand the equations to second order", "statement": "Along every smooth path from the steady state the residual of each equation is its steady-state residual, plus the Jacobian times the path's derivatives, plus half the Hessian at the first derivatives, up to a term small of second order.", "quantifier": "every model, smooth path and equation", "why_tests_cant": "all paths and all limits", "anchors": ["pynare/core/linearizing.py:ModelJacobian"]}
{"id": "C78", "title": "The first-order solution solves the model's equations to first order", "statement": "From the text of the equations to the decision rule: scale any deviations of last period, any shocks and any distribution of tomorrow's shocks with mean zero by t; if today and tomorrow follow the returned rule, the expected residual of every equation is smaller than any multiple of t as t goes to zero.", "quantifier": "every model, steady state, distribution of the shocks and starting point", "why_tests_cant": "a statement about limits for all non-linear models and distributions", "anchors": ["pynare/core/linearizing.py:ModelJacobian", "pynare/core/solve/first_order.py:solve_first_order"]}
{"id": "C79", "title": "The second-order solution solves the model's equations to second order", "statement": "As C78 for the second-order solution: with the covariance the solution is computed for, the expected residual of every equation is smaller than any multiple of t squared.", "quantifier": "every model, steady state, distribution of the shocks with the given covariance and starting point", "why_tests_cant": "a statement about limits for all non-linear models and distributions", "anchors": ["pynare/core/linearizing.py:ModelJacobian", "pynare/core/solve/second_order.py:SecondOrderSolution"]}
{"id": "C80", "title": "A constraint is judged in every period as it is written", "statement": "Called with a path of the endogenous variables, a constraint tells of every period whether its first and whether its second condition holds in it, names standing for the variables of that period and for the parameters; of two constraints, the periods of the first come first.", "quantifier": "every pair (or list of pairs) of conditions, every path and every parameter values", "why_tests_cant": "conditions are evaluated on whole arrays; that this is the evaluation period by period must hold for every expression", "anchors": ["pynare/core/solve/binding.py:Constraint.__call__", "pynare/parsing/api.py:evaluate"]}
{"id": "C81", "title": "Which occasionally-binding problems are solved, with which regimes", "statement": "An OccBinSolution is computed for one pair of conditions with one alternative model, and for two pairs with three: the models for the first, the second and both constraints; a constraint may be given as a Constraint or as texts; every other number of conditions, constraints or models is refused.", "quantifier": "every constraint argument and every number of regimes", "why_tests_cant": "ranges over all arguments", "anchors": ["pynare/core/solve/binding.py:Constraint.__init__", "pynare/core/solve/binding.py:OccBinSolution.solve"]}
{"id": "C82", "title": "An occasionally-binding simulation without warnings obeys the conditions as they are written", "statement": "In every period of a simulation without warnings, the alternative regime is in force in every period of the expected path in which the first condition holds, and the second condition does not hold in any period in which it is; a period is warned of exactly when this fails for the path that was used; the path follows the equations of the regimes.", "quantifier": "every two or four regimes, every conditions, shocks, initial values, horizon and number of iterations", "why_tests_cant": "relates texts, iterations and paths of any length", "anchors": ["pynare/core/solve/binding.py:OccBinSolution", "pynare/core/solve/binding.py:solve_occbin_one_constraint", "pynare/core/solve/binding.py:solve_occbin_two_constraints"]}
{"id": "C83", "title": "The linear systems of an occasionally-binding simulation are its regimes' equations, linearised around the reference's steady state", "statement": "The linear system that stands for a regime holds at given deviations of the variables from the steady state of the reference model exactly when the expansion of the regime's own equations around that steady state, to first order, is zero there.", "quantifier": "every regime, steady state of the reference model, deviations and shocks", "why_tests_cant": "a statement about derivatives of all non-linear models at all points", "anchors": ["pynare/core/solve/binding.py:_occbin_partitioned_jacobian", "pynare/core/solve/binding.py:solve_occbin_one_constraint", "pynare/core/solve/binding.py:_translate_ss"]}
{"id": "C84", "title": "The steady state a model reports is a steady state", "statement": "When the steady state of a model is computed without an exception and the model has one, the reported values are one: every equation holds when every variable keeps its value and there are no shocks.", "quantifier": "every model, starting point and method", "why_tests_cant": "ranges over all non-linear models, and over whatever the optimiser returns", "anchors": ["pynare/core/steady.py:SteadyState.compute", "pynare/core/steady.py:_define_simple_least_squares"]}
{"id": "C85", "title": "Summaries of a model and of its statistics show every figure under its name", "statement": "Printing the summary of a model, or of its statistics, shows the features that are asked for, in that order, and every figure in the row and the column whose label names it: numbers of variables, eigenvalues, covariances of shocks, parameters; means, standard deviations, variances, correlations, autocorrelations at the lag that heads the column, shares of variance. Printing does not raise an error.", "quantifier": "every model, solution, choice of features, set of parameters and number of lags", "why_tests_cant": "depends on the sizes, names and values of every model and on all combinations of keywords", "anchors": ["pynare/io/summary.py:Summary", "pynare/io/summary.py:ModelSummary", "pynare/io/summary.py:ModelStatisticsSummary", "pynare/core/model.py:Model.summary", "pynare/stats/stats.py:ModelStatistics.summary"]}
{"id": "C86", "title": "A model read from a file has what the file declares, in the file's order", "statement": "Reading a model file gives a model whose endogenous variables, shocks and parameters are those the file declares, in the order of declaration, whose equations are those of the model block, in its order, and whose local definitions have the values of their expressions; nothing is left out and nothing is added.", "quantifier": "every model file that is read", "why_tests_cant": "about every file, of any length and order of statements", "anchors": ["pynare/parsing/factory.py:DynareModelFactory.create_outline", "pynare/parsing/factory.py:ModelOutline", "pynare/core/model.py:Model.from_outline"]}
{"id": "C87", "title": "Reading a model from a path", "statement": "Model.from_path, given a string or a Path, reads the file there; if there is none, the registered example of that name, with or without a suffix; if that fails too, FileNotFoundError is raised for the path. Every registered example can be read. The model is named after the file: what is behind the last slash and before the first dot.", "quantifier": "every path and every content of the file system", "why_tests_cant": "ranges over all paths and file systems", "anchors": ["pynare/core/model.py:Model.from_path", "pynare/io/files.py:read_example", "pynare/examples/__init__.py:ExampleRegistry.get_example"]}
{"id": "C88", "title": "Printing the equations of a model", "statement": "Printing the equations of a model shows each of them on a line of its own, in order, with its left side, padded to the width of the widest, and its right side.", "quantifier": "every collection of equations, given as texts or as trees", "why_tests_cant": "ranges over all texts of equations and over how they were given", "anchors": ["pynare/core/expressions.py:ModelExprs.__str__"]}
{"id": "C89", "title": "Kinds, values and look-ups of a model's variables", "statement": "The states, backward-looking, forward-looking, purely forward or backward, mixed and static variables a model lists are exactly its variables that occur with a lag, with a lead, with only one, both or none, in the order of declaration, after every history of changes and updates. The initial, terminal and historical values it lists are those given, with zero for a variable that was given none. Looking a variable up in an array, by name or by object, gives the one of that name; KeyError if there is none. The columns of the variables of a kind in a period are asked for with -1, 0, 1, '-1', '0', '+1', 't-1', 't' or 't+1', and with nothing else (ValueError).", "quantifier": "every model, history, array of variables and key", "why_tests_cant": "about all models, all histories and all keys", "anchors": ["pynare/core/generic.py:DynamicModel", "pynare/core/variables.py:VariableTyper", "pynare/core/variables.py:VarArray.get_loc", "pynare/core/variables.py:TimedLLX.__getitem__"]}
{"id": "C90", "title": "Models with observed variables", "statement": "ObservedModel(model, exprs) is the model with one more variable and one more equation 'name = expression' for each entry of exprs, whatever was done to the model before: its indexes, representations, state space and covariances are those of a model built with the combined definitions, and it can be made exactly if that model can. Making it changes nothing that the model shows, then or later, and afterwards the two are independent. Without equations it is a ValueError.", "quantifier": "every model without or with local parameters, every history of it before and after, every dictionary of equations", "why_tests_cant": "about all models and histories, and about objects shared between two models", "anchors": ["pynare/stats/observation.py:ObservedModel", "pynare/core/generic.py:DynamicModel", "pynare/core/variables.py:set_lead_lags"]}
{"id": "C91", "title": "Without further shocks the path goes on as foreseen", "statement": "In a simulation with occasionally binding constraints (one or two) that ends without a warning, the values after the last shock are those foreseen in the period of that shock, and giving zeros explicitly for the periods after the last shock, instead of leaving them out, changes neither the values nor the shocks returned and gives no warning.", "quantifier": "every model, decision rule, condition on the values of a period, sequence of shocks, number of periods, limit of iterations and number of added zeros", "why_tests_cant": "about all sequences of shocks and all numbers of periods", "anchors": ["pynare/core/solve/binding.py:solve_occbin_one_constraint", "pynare/core/solve/binding.py:solve_occbin_two_constraints", "pynare/core/solve/binding.py:_simulate_hypothesized_paths"]}
{"id": "C92", "title": "From a model file to a solution of its equations", "statement": "When a model file is read, a model is made from it and solve returns, to first or second order, then the rule that it returns solves the equations written in the file, for the parameter values that the file's assignments give in their order, to the order asked for, around a steady state of the equations; and after any history of additions, readings, solutions and simulations, solve returns a rule that solves the equations then in force, for the parameter values then in force.", "quantifier": "every text of a model file, every definition of a model and every history of operations on it, every numerical routine that keeps its documented contract, both orders", "why_tests_cant": "joins the lexer, the parser, the evaluation of parameters, the derived structures, the steady state, the derivatives and the two solvers: about all files and histories", "anchors": ["pynare/parsing/api.py:read_model", "pynare/parsing/factory.py:DynareModelFactory", "pynare/core/model.py:Model.solve", "pynare/core/solve/first_order.py:FirstOrderSolution", "pynare/core/solve/second_order.py:SecondOrderSolution", "pynare/core/solve/statespace.py:StateSpace"]}
{"id": "C93", "title": "Simulated paths satisfy the model's equations to first order", "statement": "When a model that was read from a file, or that has gone through any history of additions, readings, solutions and simulations, can be simulated at all, then every simulation of it to first order with given shocks and initial values returns a path, and the paths satisfy the equations in force, for the parameter values in force: the expected value of each equation over the outcomes of the next period's shocks, at three successive periods of the paths, vanishes to first order in the size of the deviations and the shocks; and the outcomes of a period's shocks do not change the path up to that period.", "quantifier": "every text of a model file, every definition of a model and every history, every sequence of shocks, initial values, period and distribution of the next shocks with mean zero, every numerical routine that keeps its documented contract", "why_tests_cant": "joins files, histories, solvers and the simulator: about all models, histories, shocks and lengths of paths", "anchors": ["pynare/simul.py:ModelSimulation", "pynare/simul.py:LinearSimulator", "pynare/simul.py:simulate", "pynare/core/model.py:Model.simulate", "pynare/core/solve/first_order.py:FirstOrderSolution"]}
{"id": "C94", "title": "Piecewise-linear paths satisfy the equations of the regime in force", "statement": "When a model, after any history of additions, readings and solutions, is given alternative equations (a dictionary, a list of dictionaries, or three for two constraints) and conditions, and a piecewise-linear solution returns a path, then for each shock there is a guess of the regimes and a path foreseen, such that in each period of it the equations of the regime in force, for the parameter values in force, hold to first order around the steady state of the reference; the regime in force is the one guessed, and the reference after the last spell; there is no warning exactly when the guess agrees with the conditions along the path; the first row of each foreseen path is reported, and all rows of the last.", "quantifier": "every definition of a model and every history of it, every set of replaced equations, every condition, sequence of shocks, number of periods, initial values and limit of iterations, every numerical routine that keeps its documented contract", "why_tests_cant": "joins the model's histories, the copies with replaced equations, the solvers, the derivatives at the two steady states, the conditions and the guess-and-verify loop: about all models, shocks and numbers of periods", "anchors": ["pynare/core/solve/binding.py:OccBinSolution", "pynare/core/solve/binding.py:solve_occbin_one_constraint", "pynare/core/solve/binding.py:solve_occbin_two_constraints", "pynare/core/solve/binding.py:_process_occbin_parameters", "pynare/regimes.py:RegimeSwitchingModel", "pynare/core/model.py:Model.first_order_solution"]}
{"id": "C95", "title": "Statistics after any history are those of the equations in force", "statement": "After any history of additions, readings, solutions, simulations and questions about statistics, the variances, standard deviations, covariances, correlations, autocovariances and autocorrelations that a model returns are those of the stationary processes that follow the first-order solution of its equations, as they stand then, for the parameter values and the covariances of shocks in force, if the model was solved since its last change or was never solved; the decompositions of variances give the parts of them that each shock causes, and the means of a first-order solution are the steady state of those equations.", "quantifier": "every definition of a model (given in Python or read from a file), every history of operations and questions, every question, every numerical routine that keeps its documented contract, every stationary process that follows the rule", "why_tests_cant": "the state space keeps what it computed (transition arrays, variance of the states, verification) until it is replaced, and the solution is kept over changes: whether the parts that are combined belong together depends on the order of all operations; the moments are those of all processes", "anchors": ["pynare/stats/moments.py:cov", "pynare/stats/moments.py:var", "pynare/stats/moments.py:std", "pynare/stats/moments.py:corr", "pynare/stats/moments.py:autocov", "pynare/stats/moments.py:autocorr", "pynare/stats/var.py:var_decomp", "pynare/stats/moments.py:mean", "pynare/core/solve/statespace.py:StateSpace", "pynare/stats/stats.py:ModelStatistics"]}
{"id": "C96", "title": "Impulse responses after any history satisfy the equations in force", "statement": "After any history of additions, readings, solutions, simulations and questions, the responses to an impulse that a model returns (to the shock named, to several, or to the first one) start at zero, are proportional to the size of the impulse, die out when the roots of the model are separated, and the paths around the steady state satisfy the equations then in force, for the parameter values then in force, to first order in the size of the impulse; the same holds for the paths that the model simulates without an order; if the model was solved since its last change.", "quantifier": "every definition of a model (given in Python or read from a file), every history of operations and questions, every shock or list of shocks, every number of periods, every size of the impulse, every numerical routine that keeps its documented contract", "why_tests_cant": "the response is the difference of a path simulated with the kept solution and of a steady state that is read afterwards: whether both belong to the equations in force depends on the order of all operations; about all models, shocks, sizes and numbers of periods", "anchors": ["pynare/impulse.py:impulse_response", "pynare/simul.py:simulate", "pynare/core/model.py:Model.impulse_response", "pynare/core/model.py:Model.simulate"]}
{"id": "C97", "title": "An equation given as text is the equation a model file would hold", "statement": "An equation given to a model as text, 'l = r', in whatever spacing, is held as the residual l - r, an expression l alone as l - 0: the same that a model file with that equation gives; a text that is not an equation is refused.", "quantifier": "every pair of expressions, every spacing, every text; every model file and every list of texts of its equations", "why_tests_cant": "about all expressions and texts; examples cannot show that no text is accepted with part of it ignored (in fact whatever follows an equation is dropped)", "anchors": ["pynare/core/expressions.py:ModelExprs.parse", "pynare/core/expressions.py:ExprParser", "pynare/parsing/parser.py:DynareParser.model_expression"]}
{"id": "C98", "title": "The returned rule gives the only solution that does not explode", "statement": "When a model is solved to first order and its roots are separated (as many inside the unit circle as there are variables with a lag, the others outside), then for all values before the first period and all shocks of the first period, the path that follows the returned decision rules satisfies the linearised equations in every period and stays bounded, and every bounded path that satisfies them is that path; as long as the shocks of all periods stay bounded, so do the paths of the rule.", "quantifier": "every model structure and Jacobian that is solved, all initial values and shocks, all infinite paths that satisfy the linearised equations, every numerical routine that keeps its documented contract", "why_tests_cant": "about infinite paths and all solutions of the equations: no finite simulation shows that a path is bounded, or that no other solution exists", "anchors": ["pynare/core/solve/first_order.py:FirstOrderSolution", "pynare/core/solve/statespace.py:StateSpace", "pynare/core/model.py:Model.solve"]}
{"id": "C99", "title": "Impulse responses die out, and simulated paths stay near the steady state", "statement": "When a model is solved to first order and its roots are separated, then the responses to an impulse (whatever the shocks hit and its size) come as close to zero as one wishes from some period on, in all responses that are long enough; all simulations from given initial values with shocks that stay bounded stay within one distance of the steady state, however long they are; and simulations whose shocks end return as close to the steady state as one wishes.", "quantifier": "every model structure and Jacobian that is solved, every shock or list of shocks, every size of the impulse, every number of periods, all initial values and all endless sequences of shocks that stay bounded or end, every numerical routine that keeps its documented contract", "why_tests_cant": "about the limit of responses and paths of all lengths: every test simulates a number of periods", "anchors": ["pynare/impulse.py:impulse_response", "pynare/simul.py:simulate", "pynare/simul.py:ModelSimulation", "pynare/core/solve/first_order.py:FirstOrderSolution"]}
{"id": "C100", "title": "A model that passes verification has a stable solution, and its moments are those of a stationary process", "statement": "When a model is solved to first order, the verification of its state space (as many roots outside the unit circle as variables with a lead) raises nothing, and no root lies on the circle, then the roots are separated: the paths of the returned rule are the bounded solutions of the linearised equations and return to the steady state without shocks; no more than one covariance of the states is stationary; and the covariances and autocovariances that are returned are those of every stationary process that follows the rule, of which there is one.", "quantifier": "every model structure and Jacobian that is solved, every outcome of the rank check, all initial values, shocks and infinite paths, every symmetric matrix of covariances of the shocks, every stationary process, every numerical routine that keeps its documented contract", "why_tests_cant": "about all models that pass and all infinite paths and processes; a test can show one model where the check and the solution agree, not that a count of roots is enough in all", "anchors": ["pynare/core/solve/statespace.py:StateSpace.verify", "pynare/core/solve/statespace.py:StateSpace.sigma", "pynare/core/solve/first_order.py:FirstOrderSolution", "pynare/stats/moments.py:cov", "pynare/stats/moments.py:autocov"]}
{"id": "C101", "title": "The returned rule gives the only bounded path along which the model's own equations hold to first order", "statement": "When a model (given in Python, read from a file, or changed by any history of additions) is solved and its roots are separated, then for all deviations before the first period and all shocks of the first period, the path that follows the returned first-order rules stays bounded and along it every equation of the model, for the parameter values in force, holds to first order around the steady state (multiply the deviations and shocks by t: the value of the equation, divided by t, goes to zero with t); and every bounded path along which the equations hold to first order is that path.", "quantifier": "every model whose names do not clash, every history of operations, all deviations and shocks, all infinite paths of deviations, every numerical routine that keeps its documented contract", "why_tests_cant": "about all infinite paths near the steady state of nonlinear equations: no finite simulation shows that no other bounded path satisfies the equations", "anchors": ["pynare/core/model.py:Model.solve", "pynare/core/solve/first_order.py:FirstOrderSolution", "pynare/core/solve/statespace.py:StateSpace", "pynare/core/linearizing.py:ModelJacobian", "pynare/parsing/api.py:read_model"]}
{"id": "C102", "title": "Second moments answered after any history belong to a model that passed verification", "statement": "However a model came to be (given in Python, read from a file, changed by additions), when everything that raised was followed by an addition and the question is asked in time, a variance, standard deviation, covariance, autocovariance, correlation or autocorrelation that is answered belongs to a model whose state space passed verification: it has as many roots outside the unit circle as variables with a lead. When no root lies on the circle, the solution that can be read from the model is then a stable rule that solves the model's equations to first order around a steady state, it has no unit root, and the answer gives the moments of the stationary processes that follow it. The same holds of a variance decomposition over several shocks, when the model was solved since its last change.", "quantifier": "every model whose names do not clash, every history of operations and questions, every stationary process, every numerical routine that keeps its documented contract", "why_tests_cant": "the check is made once and remembered, so whether an answer is covered by it depends on the whole history; a test fixes one history", "anchors": ["pynare/core/solve/statespace.py:StateSpace.verify", "pynare/core/solve/statespace.py:StateSpace.sigma", "pynare/stats/moments.py:cov", "pynare/stats/moments.py:autocov", "pynare/core/generic.py:DynamicModel.update"]}
{"id": "C103", "title": "What a state space answers after any history is about a verified model and its rule", "statement": "However a model came to be, when it was solved since its last change: if verify() on its state space returns without raising, the state space has as many roots outside the unit circle as variables with a lead, and with no root on the circle the solution that can be read is a stable rule that solves the model's equations to first order around a steady state: its paths are bounded when the shocks are, and die out without shocks. The transition matrices of the state space carry the states from one period to the next on every path that obeys this rule, and its variance matrix is the covariance matrix of the states of every stationary process that follows it.", "quantifier": "every model whose names do not clash, every history of operations and questions, every path and every stationary process, every numerical routine that keeps its documented contract", "why_tests_cant": "the matrices and the verdict are computed once and kept, so what is answered depends on the whole history; a test fixes one history", "anchors": ["pynare/core/solve/statespace.py:StateSpace.verify", "pynare/core/solve/statespace.py:StateSpace.kalman_transition", "pynare/core/solve/statespace.py:StateSpace.sigma"]}
{"id": "C104", "title": "Sorted eigenvalues are the largest or smallest ones, in order", "statement": "eigvals_sorted(A, order, k) returns the k eigenvalues of A of largest magnitude from the largest on ('descending'), or of smallest magnitude from the smallest on ('ascending'), each as often as it is an eigenvalue: all of them when k is None or exceeds their number, all but -k when k is negative. Any other order raises ValueError, whatever the matrix.", "quantifier": "every matrix, every order, every integer k or None, every sorting routine that puts magnitudes in order (ties in any order)", "why_tests_cant": "ties, complex pairs and all sizes; reversing the order and cutting must fit together for every k", "anchors": ["pynare/utils/numpy.py:eigvals_sorted"]}
