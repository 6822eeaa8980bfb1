# Formal model of pynare in Rocq (Coq 8.16.1)

The code under study is `/repo` (loganhotz/pynare, python).  It is read as text
and never executed.  Everything below lives in `/verif/rocq/theories`
(logical name `Verif`).

## 1. How the code is modelled

* Python functions become total Gallina functions, branch by branch, with a
  comment giving file and lines.  Exceptions are values of the type `exn`
  (`Base.v`), results are `res A = Ok a | Err e`.
* A `while` loop becomes structural recursion where the loop consumes data;
  otherwise it is recursion on explicit fuel that returns `Err OutOfFuel`, and
  a theorem shows that the fuel used by the top-level function is never
  exhausted.  A loop that provably never ends in Python is modelled by the value
  `Err Hang` (the comment in the model says why the loop cannot end).
* Text is `string` of 8-bit characters; Python's `isspace`, `isalpha`, `isdigit`
  are modelled on ASCII only.
* Floating point numbers are an arbitrary type `num` with arbitrary operations
  (section variables that become universally quantified): theorems about
  parsing, substitution, evaluation and calibration hold for every
  interpretation of the arithmetic, IEEE doubles included.
* Arrays (`Nd.v`) have zero, one or two dimensions known only when the program
  runs, as in numpy, because several faults of the code are about shapes (squeezed
  arrays, broadcasting).  Entries are in an arbitrary commutative ring or field
  (`is_ring`, `is_field`, `is_ordered` in `SimSpec.v` are explicit hypotheses, met by
  the integers and rationals in `NdInst.v`), i.e. rounding is not modelled.
  LAPACK/scipy routines (`inv`, `solve`, `ordqz`, `solve_discrete_lyapunov`,
  `cholesky`, `qr`, random numbers, optimisers) are not modelled: they are arbitrary
  functions, and a theorem that needs more takes their mathematical specification as
  an explicit hypothesis.
* Mutation becomes state passing.  Object identity matters only in three places
  (shared keyword tokens, mutable default arguments, aliasing of parameter
  dictionaries) and is modelled there explicitly.

A property that is false of the code is kept with its full statement; the
theorem ending in `_refuted` exhibits the counterexample on the model, and the
largest true fragment is proved beside it with the suffix `_partial`.

## 2. Plan per property

| id | modelled by | proof plan |
|----|-------------|------------|
| C01 | `Lexer.v`: the lexer, char by char | induction over the token list with layouts; text of tokens written independently of the lexer; for every text, exactly what it is read as or which error it raises (`LexerExactSpec.v`, `PropLexer2.v`) |
| C02 | `Lexer.v` line/column state | invariant: position = function of the consumed prefix; refuted for keywords (shared token objects: each shows where its word occurred last, `PropLexer3.v`) and multi-line comments |
| C03 | `Lexer.v` (`Hang`), `LexerExactSpec.v` | refuted: comment at end of file, unterminated comment; exact: the texts that hang, with multi-line comments as the code ends them |
| C04 | `Lexer.v` | layout with comments in C01; refuted for `*` or `/` inside a comment |
| C05 | `Parser.v`: recursive descent with fuel | independent printer with minimal parentheses; induction over trees |
| C06 | `Parser.v` + inductive grammar | induction on fuel; refuted for juxtaposed calls, which are dropped |
| C07 | `Parser.v` | refuted; partial: equality with the derived prefix |
| C08 | `Parser.v` | refuted with witness; exact characterisation of what is parsed |
| C09 | `Parser.v` | fuel bound linear in the number of tokens; refuted for the preamble loop |
| C10 | `Parser.v`, `ModFile*.v`, `PropFile.v`: statements and blocks | printer for model files; induction over each list |
| C11 | `Eval.v` | induction over trees |
| C12 | `Eval.v` | induction over trees |
| C13-C15 | `Semantics.v` | declarative well-formedness relation, equivalence with the checker |
| C16-C18 | `Factory.v` | equational characterisation of the outline; refuted where the code is wrong |
| C19-C22 | `Calib.v` | invariants of the precedence loop; acyclicity by rank function |
| C23 | `Indexing.v` | induction over trees and lists |
| C24-C27 | `Indexing.v` | lists of positions, counting arguments |
| C28-C29 | `DynFunc.v` | induction over trees |
| C30, C31, C33, C52, C60, C63 | `ModelState*.v`, `PropModel.v` | transition system over operation lists; invariant relating the derived structures to the definitions; refuted where the code is wrong |
| C32 | `ExprList*.v`, `PropExprs.v` | invariant over list operations |
| C42, C61 | `Verify*.v`, `PropVerify.v` | histories; exact condition for an exception; frame property of dictionaries by address |
| C34 | `Vars.v`, `Sigma*.v` | case analysis over the two loops |
| C35-C39, C62 | `Sim.v`, `SimSpec.v`, `SimProofs*.v`, `PropSim.v` | a simulated path obeys the decision rule (induction over the horizon); paths of a rule are unique; exact shapes that can be simulated |
| C58, C59 | `Sim.v`, `OrderProofs.v`, `PropStats.v` | list lemmas; Cauchy-Schwarz in any ordered field |
| C40, C41, C72, C73 | `FirstOrder*.v`, `PropFirst.v` | the numerical routines are any functions that keep what numpy and scipy promise (spec in `FirstOrderSpec.v`); columns of the Jacobian by class and offset; block-matrix algebra over any ring from the generalised Schur form to the linearised equations; exact place of the cut; exact shapes that are solved; refuted with roots that are negative or complex |
| C54, C55 | `Nd.v`, `PropArr.v` | entries of sums over pairs of indices; exact set of accepted overlaps |
| C43 | `Sylvester*.v`, `Gauss.v`, `PropSylvester.v` | strong induction over the columns that remain: the loop solves every row of the rotated equation, or a block is singular and its null vector extends to one of the whole equation; rotation by matrix algebra; elimination as a concrete routine |
| C74, C75 | `SecondOrder*.v`, `PropSecond.v` | every array operation is evaluated to a matrix, with the sizes at which it is refused; the chain rule in two directions (spec in `SecondOrderSpec.v`) is reduced to the matrix equations by sums over pairs of columns; the equation in two states is C43; exact sizes that are solved; refuted with two states and one shock |
| C76, C77 | `Calc*.v`, `Linearize*.v`, `LinearExample.v`, `PropLinear.v` | derivatives over any ordered field as epsilon-delta limits (`CalcSpec.v`); every expression built from smooth functions has a second-order expansion along any smooth path (induction on the expression, one rule per operation); `grad` and `jacobian` of autograd are any functions that return the derivatives of smooth functions (`LinearizeSpec.v`); columns by C28 |
| C78, C79 | `Accuracy*.v`, `PropAccuracy.v` | compose C76-C77 with C40 and C74: expansions of the motion under the rule, expectations over a finite distribution are sums, the terms of first and second order are those that the solutions set to zero; `PropAccuracyClash.v` refutes C79 for names that clash |
| C76, C78, C79 over the reals | `RealSpec.v`, `RealProofs.v`, `PropReals.v` | the ordered field is instantiated with the standard library's reals; the language's functions (exp, log, log10, sqrt, abs, sign, sin, cos, tan, asin, acos, atan; not erf) and powers have the derivatives written in `RealSpec.v` (the library's derivative lemmas, mean value theorem for the expansions); partial derivatives and small quantities are shown to be the library's `derivable_pt_lim` and `limit1_in` |
| C80, C81, C82 | `Constraint*.v`, `PropConstraint.v` | evaluation on columns is evaluation period by period, by induction on the condition; a condition without a variable is never judged (exact iff, refuted); the accepted arguments are characterised exactly (a Constraint is refused); C82 composes C80 with C51, reading conditions by the specification of C11 |
| C83 | `Piecewise.v`, `PropPiecewise.v` | the entries of a regime's system are derivatives at its *own* steady state (by C67 and C76) and residuals at the reference's; the expansion of the equations along a ray from the reference's steady state is then the system, provided the derivatives at the two points agree (same steady state, or linear equations); refuted otherwise over Qc |
| C84 | `SteadyValues*.v`, `PropSteadyValues.v` | the objective is the sum of the squared residuals (C28); zero exactly at the steady states; the slope of a function is zero where it is least, so by the product rule the residuals are orthogonal to the columns of the Jacobian; refuted over Qc by a cubic with a second point of least value, and by a model without a steady state |
| C44-C46, C70, C71 | `Moments*.v`, `PropMoments.v` | random variables as any space with a symmetric bilinear covariance; a process that follows the rule and is stationary has the covariance the code computes (uniqueness of the Lyapunov equation); such a process is built for every rule from loadings on its first states and on the shocks of each period (`MomentsExist.v`, `PropMomentsExist.v`); by induction on the lag for autocovariances; shares as parts of a Cholesky factor; Cauchy-Schwarz in any ordered field |
| C47, C48 | `Filters*.v`, `PropFilters.v` | positions of labels among names; the loop's invariant is that it holds the best linear predictions and the covariances of their errors (projection in a space of random variables, unique up to variance zero); runs on two data sets of one shape proceed alike |
| C49-C51, C65-C69 | `Mat*.v`, `Occbin*.v`, `PropOccbin.v` | run-length encoding; a path made by backward recursion satisfies the equations (matrix algebra over any ring); invariant of the guess-and-verify loop; exact place of each coefficient; refuted where the code is wrong |
| C53 | `Steady.v`, `PropSteady.v` | case analysis over all ways to name a method; exact condition to run |
| C56 | `Plot.v`, `PlotSpec.v`, `PropPlot.v` | arithmetic of divisors; exact set of layouts that draw each series once |
| C57, C64 | `Summary*.v`, `PropSummary.v` | permutations of rows and columns; the table printed, exactly; refuted for the cross terms and for negative rows |
| C85 | `SummaryTables*.v`, `PropSummary2.v` | the blocks printed are a map over the features asked for; each block is a table given entry by entry; exactly when each can be printed (no infinite number, some number that is not zero); with C44 and C45 the entries are those of the stationary process; refuted for iterators of features, for one parameter asked for by name, for models without parameters or shocks, and for the lags that head the columns of autocorrelations |
| C86 | `Factory.v`, `ModelState.v`, `OutlineSpec.v`, `OutlineProofs.v`, `PropOutline.v` | induction over declarations, assignments and statements of the file; names of a file come from identifier tokens (C01), so they are not empty; then C30's description of the model made from an outline |
| C87 | `Paths.v`, `PathsSpec.v`, `PathsProofs.v`, `ExampleTexts.v`, `PropPaths.v` | the file system is any function from paths to contents or errors; splitting a path is shown to give the unique pieces of the specification; the six example files are in the model character by character and are read by computation, with numbers kept as symbols |
| C88 | `Paths.v`, `PathsSpec.v`, `PathsProofs.v`, `PropPaths.v` | splitting and stripping are shown to give the unique sides of an equation; induction over the list of texts |
| C89 | `Views.v`, `ViewsSpec.v`, `PropViews.v` | the lead-lag sets of a model (C30) say in which periods each variable occurs; a filter over the variables keeps the order; arrays of variables by induction over their names, with the exact condition for every outcome |
| C90 | `Observe.v`, `ObserveSpec.v`, `PropObserve.v` | on the states of `ModelState.v`: the extended definitions describe the observed model (C30's machinery); a bisimulation over all later histories for the original; shared parameters as one calibration nested in another |
| C91 | `OccbinProofs3.v`, `PropForesight.v` | the guessed path and its regimes, one period later, are the tail of the path (induction on the backward recursion and on the forward one); an invariant of the loop over the periods carried through the zeros; the unconditional claim is refuted by a run |
| C92 | `Pipeline.v`, `PipelineSpec.v`, `PipelineProofs.v`, `PropPipeline.v` | the state machine of C30 with its numerical parts filled in by the models of the steady state, the Jacobian, the state space and the two solvers; C18, C19, C28, C31, C34, C78, C79, C84 and C86 are composed; the covariance matrix is always symmetric |
| C93 | `PathSim.v`, `PathSimSpec.v`, `PathSimProofs.v`, `PropPathSim.v` | the state machine with its numerical parts (C92) joined to the simulator (C38): the positions of the simulator are those of the rule that C92 shows to solve the equations |
| C92, C93 over the reals | `PropRealsFile.v`, `PropRealsExample.v` | the general theorems at the standard library's reals; solving the equations to first and second order, and paths that solve them, are said again with limits of real functions (C92_meaning, C93_meaning); a model file with exp and log is read, solved and simulated |
| C94 | `PiecewiseSim.v`, `PiecewiseSimSpec.v`, `PiecewiseSimProofs.v`, `PiecewiseSimProofs2.v`, `PiecewiseSimExample.v`, `PropPiecewiseSim.v` | the state machine with its numerical parts (C92), the copies with replaced equations (C52), the regimes' systems (C83) and the loop (C50, C51, C82) joined: the reference's rule solves its linearised equations, which with the loop's recursion gives the equations of the regime in force; a computed witness shows that a model altered since it was solved breaks the claim |
| C95 | `StatsState.v`, `StatsStateSpec.v`, `StatsStateProofs.v`, `StatsStateProofs2.v`, `PropStatsState.v`, `StatsSharesSpec.v`, `StatsSharesProofs.v`, `PropStatsShares.v`, `PathStable.v` | the state machine with its numerical parts (C92) and the state space that keeps what it computed, as one state; an invariant over histories says which parts belong together (never solved, solved and kept, changed since); the answers are then those of C44 and C45 for a rule that solves the equations, and of C46 and C70 for decompositions and means; the rule is stable when the roots are separated, because it is the one of C98; a computed witness shows that a question asked between a change and the next solution spoils later answers |
| C96 | `ImpulseSim.v`, `ImpulseSimSpec.v`, `ImpulseSimProofs.v`, `ImpulseFade.v`, `PropImpulseSim.v` | the impulse (names looked up in the model's state, the simulation without an order, the steady state read afterwards) on the state machine of C95; the invariant over histories gives that the kept rule and the steady state belong to the equations in force; the paths are then those of C93, and the response is linear in the size, and dies out when the roots are separated (C99); computed witnesses for a second-order solution (a response without a shock) and for a model changed since it was solved |
| C97 | `PropEquation.v` | the parser of equations joined to the tokeniser (C01) and the grammar of files (C10): reading stops where the grammar stops; the rest is dropped, so the full statement is refuted; the texts of a file's equations give the file's trees |
| C68 for models | `PropRegimeNames.v` | the check made by the solving functions, on the states of models |
| C67, C77, C92, C93, names that clash | `PropLinearClash.v`, `PropPipelineClash.v` | the condition on the names cannot be dropped: two models in which one variable is called like another one lagged are solved, and the claims fail for them although every routine keeps its contract (computed witnesses) |
| C98 | `StableSpec.v`, `PropStable.v` | the ordered QZ factorisation turns the pencil of the linearised model into blocks; along a bounded solution the block of the outside roots must vanish (rows solved from the last to the first, one or two at a time, squares growing beyond any bound otherwise), the block of the inside roots stays bounded; what is left is the returned rule. Uses an archimedean order and that scipy's finite quotients have denominators other than zero; without separated roots refuted by the model of C73 |
| C99 | `PropSettle.v` | the rule of C98 joined to the simulator (C35, C37): all simulations are beginnings of one endless path; without shocks its t-th member times t follows the same rule with a bounded addition, so it stays bounded, and the path vanishes; refuted without separated roots |
| C100 | `PropRoots.v`, `StableProofs5.v` | the count of the verification (C42) and the order of the QZ factorisation give separated roots; then the powers of the transition vanish faster than 1/t (the argument of C99), so W = A W A' has only the solution zero and C44, C45 apply; refuted by a random walk, which passes |
| C101 | `PropUnique.v`, `PropUniqueFile.v`, `UniqueSpec.v`, `UniqueProofs.v`, `UniqueExample.v` | the expansion of each equation (C76) makes "holds to first order" the same as the linearised equation, both ways: a value has one slope; then C98; lifted to files and histories as in C92; refuted by a model with a root beyond one for its lag, whose equations no bounded path satisfies |
| C102 | `PropVerified.v`, `PropSharesVerified.v`, `StatsVerified.v` | an invariant of histories: whatever the statistics remember as verified was verified for the state space in force, as long as everything that raised was followed by an addition; then the count of roots separates them (C100) and C95 gives the moments, and the decompositions of variances; refuted by a model whose check fails once, is not made again after solving anew, and is then told a negative variance |
| C103 | `PropSpaceVerified.v`, `StateSpaceSpec.v`, `StatsVerified.v` | the invariant of C102 for the questions about the state space itself (verify, transition matrices, variance of the states); the matrices are compared with every path that obeys the rule, the variance with every stationary process; refuted by a verification that is asked twice |
| C104 | `Eigs.v`, `EigsSpec.v`, `PropEigs.v` | the positions given by numpy's argsort (any routine that sorts) pick a permutation of the eigenvalues; reversing turns the order around; a beginning of an ordered list holds its first members |

## 3. Trusted base

* Coq 8.16.1 kernel (with `vm_compute`), and the `coqc` front end.
* The reading of the python source: the correspondence of model and code is by
  inspection, with line references.  The references were compared with the source by
  a script that prints the first and last line of each range, after a number of them
  had been found to be some lines off; no definition had to be changed for it.
* What numpy does where a theorem depends on it and it could not be run: the class of
  concatenated arrays (`keeps` in `ModelState.v`).  The theorems of C30 hold for both
  cases or name the case; `C30_refuted` takes the one favourable to the program.
* What numpy's documentation says of `squeeze`, `item`, broadcasting, `matmul`, `dot`,
  `kron`, `outer` and assignment to slices (`Nd.v`, `Sim.v`).
* What the theorems assume of `numpy.linalg` and `scipy.linalg` (QR, rank, QZ, inverse,
  linear systems, Cholesky, Lyapunov): these are hypotheses of the theorems, defined in
  `FirstOrderSpec.v`, `SylvesterSpec.v` and `MomentsSpec.v`, and never axioms; concrete
  routines that meet them are in `FirstOrderExample.v`, `SylvesterExample.v` and `Gauss.v`.
* `Print Assumptions` stands under each property theorem; see section 5.

## 4. Not modelled

* how autograd differentiates (its `elementwise_grad` and `jacobian` are hypotheses of C76-C79:
  they return the derivatives of functions that have them; `LinearizeSpec.v`),
  scipy/numpy numerics and rounding, optimisers, random number generation,
  pandas/matplotlib output, file system access (C87 holds for any contents).
* Non-ASCII text.

## 5. Assumptions

`Print Assumptions` prints "Closed under the global context" for every property theorem
except those of `PropReals.v`, `PropRealsFile.v` and `PropRealsExample.v` (C76_real_numbers,
C76_meaning, C76_reals_partial, C78_meaning, C78_reals_partial, C79_reals_partial, C92_meaning,
C92_reals_partial, C92_history_reals_partial, C93_meaning, C93_reals_partial,
C93_history_reals_partial and the examples beside them), which are about the real numbers of
Coq's standard library and use its axioms, all or some of:
`ClassicalDedekindReals.sig_not_dec`, `ClassicalDedekindReals.sig_forall_dec`,
`FunctionalExtensionality.functional_extensionality_dep` and `Classical_Prop.classic`.  The
theorems of which they are instances (C76_partial, C78_partial, C79_partial, C92_file_partial,
C92_history_partial, C93_file_partial, C93_history_partial) hold over any
ordered field and use no axiom.  Loading mathcomp or
the standard library's `ssreflect` makes `Coq.ssr.ssrunder.Under_rel.*` (seven constants of
the standard library, sealed by a module type there) appear in a list of all constants
without a body; no theorem here depends on them.  Likewise the constants
`Coq.Reals.Rdefinitions.RbaseSymbolsImpl.*` and `RinvImpl.*`, by which the standard library
seals its definition of the reals.
