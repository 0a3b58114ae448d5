{"id": "C01", "title": "Sparse vector arithmetic is pointwise", "statement": "Adding, subtracting, negating and scaling HashVectors (the sparse vectors that hold exponents and coefficients) acts coordinate by coordinate, with an absent key read as zero; an entry whose sum is zero is removed, and if neither argument holds a zero entry then neither does the sum.", "quantifier": "all pairs of HashVectors over any key set, all scalars", "why_tests_cant": "the input space is all finite maps; tests only try two or three small ones and never every overlap pattern of the key sets", "anchors": ["gpkit/small_classes.py:HashVector.__add__", "gpkit/small_classes.py:HashVector.__mul__", "gpkit/small_classes.py:HashVector.__neg__", "gpkit/small_classes.py:HashVector.__sub__"]}
{"id": "C02", "title": "Equal sparse vectors have equal hashes, and the cached hash never goes stale", "statement": "Two HashVectors with the same items have the same hash whatever their insertion orders, and after any sequence of the in-place edits the library performs on exponents (deleting an entry or decrementing it while xor-ing the cached hash) the hash reported equals the hash recomputed from scratch.", "quantifier": "all item sets, all insertion orders, all finite sequences of edits, every item-hash function", "why_tests_cant": "a stale hash only shows up as a silently lost dictionary entry, for particular edit histories and hash values", "anchors": ["gpkit/small_classes.py:HashVector.__hash__", "gpkit/small_classes.py:HashVector.copy", "gpkit/nomials/map.py:NomialMap.diff", "gpkit/nomials/map.py:subinplace"]}
{"id": "C03", "title": "Nomial arithmetic is real arithmetic", "statement": "For nomials p and q, the value at any positive point of p+q, p-q, -p, p*q, p/m (m a monomial), k*p, p+k and p**n is the corresponding sum, difference, product, quotient or power of the values of p and q at that point.", "quantifier": "all nomials (any number of terms, variables, real exponents and coefficients), all positive evaluation points, all nonnegative integer powers (all real powers for monomials)", "why_tests_cant": "an identity between functions over infinitely many points and infinitely many expressions; overlapping, cancelling and reordered terms are combinatorial", "anchors": ["gpkit/nomials/math.py:Signomial.__add__", "gpkit/nomials/math.py:Signomial.__mul__", "gpkit/nomials/math.py:Signomial.__truediv__", "gpkit/nomials/math.py:Signomial.__pow__", "gpkit/nomials/math.py:Monomial.__pow__", "gpkit/nomials/map.py:NomialMap.__add__"]}
{"id": "C04", "title": "Arithmetic results stay in canonical form", "statement": "Every nomial built from numbers and variables by the arithmetic operators has pairwise different exponent vectors, no zero exponent entry, and no zero coefficient other than the explicit constant zero.", "quantifier": "all expression trees over +, -, *, /, ** of any size", "why_tests_cant": "an invariant of every reachable value, over unboundedly deep expressions with arbitrary cancellations", "anchors": ["gpkit/nomials/map.py:NomialMap", "gpkit/small_classes.py:HashVector.__add__", "gpkit/nomials/math.py:Signomial.__mul__", "gpkit/nomials/math.py:Monomial.__pow__"]}
{"id": "C05", "title": "The class of a nomial tells the truth and signomials appear only when enabled", "statement": "A nomial is a Monomial exactly when it has one term and that term is positive, a Posynomial exactly when it has several (or no) terms all positive, and a Signomial exactly when some coefficient is nonpositive; constructing the latter outside SignomialsEnabled raises InvalidPosynomial, so without it every arithmetic result that is returned is positive at every positive point unless it has no terms left at all.", "quantifier": "all coefficient maps and all expression trees, with signomials enabled or not", "why_tests_cant": "must hold for every expression; a single uncovered path would hand a nonconvex problem to a convex solver", "anchors": ["gpkit/nomials/math.py:Signomial.__init__", "gpkit/nomials/math.py:Posynomial", "gpkit/nomials/math.py:Monomial", "gpkit/globals.py:SignomialsEnabled"]}
{"id": "C06", "title": "Nomial equality decides equality of functions", "statement": "For nomials without units, p == q holds exactly when p and q take the same value at every positive point.", "quantifier": "all pairs of canonical nomials, all positive points", "why_tests_cant": "the right hand side ranges over uncountably many points: it is linear independence of monomials with arbitrary real exponents", "anchors": ["gpkit/nomials/math.py:Signomial.__eq__", "gpkit/nomials/data.py:NomialData.__eq__"]}
{"id": "C07", "title": "diff is the partial derivative", "statement": "p.diff(x) evaluates at every positive point to the partial derivative of p with respect to x there (dimensionless nomials), and is zero when x does not occur in p.", "quantifier": "all nomials, all variables, all positive points", "why_tests_cant": "an analytic statement about limits at every point, for arbitrary real exponents", "anchors": ["gpkit/nomials/map.py:NomialMap.diff", "gpkit/nomials/math.py:Signomial.diff"]}
{"id": "C08", "title": "posy_negy splits a signomial into positive parts", "statement": "posy_negy returns (P, N) with p = P - N at every point, every coefficient of P and of N positive, each variable's exponents preserved, and the two parts sharing no term; chop returns monomials summing to p.", "quantifier": "all signomials, all points", "why_tests_cant": "for all coefficient sign patterns and sizes", "anchors": ["gpkit/nomials/math.py:Signomial.posy_negy", "gpkit/nomials/math.py:Signomial.chop"]}
{"id": "C09", "title": "Substituting constants is evaluating at them, in any iteration order", "statement": "p.sub(s) evaluated at x equals p evaluated at x with the substituted variables overridden by s, whatever order Python iterates over the sets of affected terms; substituted variables no longer occur and the original nomial is unchanged.", "quantifier": "all nomials, all substitutions by positive numbers (zero or negative ones where the power is defined), all evaluation points, all set-iteration orders (hash seeds)", "why_tests_cant": "the iteration order of sets of terms varies from run to run with the hash seed, and terms merge and cancel part-way through; no finite set of runs covers the schedules", "anchors": ["gpkit/nomials/map.py:NomialMap.sub", "gpkit/nomials/map.py:subinplace"]}
{"id": "C10", "title": "Substituting zero or a negative value is defined exactly when the power is", "statement": "Substituting 0 for a variable with positive exponent removes the term; with negative exponent the result is infinite rather than an undefined (nan) coefficient.", "quantifier": "all terms and exponents", "why_tests_cant": "concerns the corner values of every term shape, and nan propagates silently", "anchors": ["gpkit/nomials/map.py:subinplace"]}
{"id": "C11", "title": "Monomial fractions after substitution account for every original term", "statement": "After substitution, the map from post-substitution terms to original terms attributes to every surviving term fractions of its original terms, proportional to their values, that add up to one.", "quantifier": "all posynomials, all positive substitutions, all set-iteration orders", "why_tests_cant": "the bookkeeping goes wrong only after particular merge sequences, under particular iteration orders, and the damage is silent (wrong sensitivities)", "anchors": ["gpkit/nomials/map.py:NomialMap.mmap", "gpkit/nomials/map.py:subinplace", "gpkit/nomials/map.py:NomialMap.sub"]}
{"id": "C12", "title": "Monomial approximation is tangent", "statement": "p.mono_approximation(x0) has the value of p at x0 and the same logarithmic derivative with respect to every variable of p at x0.", "quantifier": "all nomials, all positive points x0 where p is nonzero", "why_tests_cant": "an identity on derivatives over all points and all expressions", "anchors": ["gpkit/nomials/math.py:Signomial.mono_approximation"]}
{"id": "C13", "title": "mono_lower_bound is a global lower bound", "statement": "For a posynomial p and any positive x0, p.mono_lower_bound(x0)(x) <= p(x) at every positive x.", "quantifier": "all posynomials, all pairs of positive points (x0, x)", "why_tests_cant": "an inequality over a continuum of pairs of points (weighted AM-GM)", "anchors": ["gpkit/nomials/math.py:Posynomial.mono_lower_bound", "gpkit/nomials/math.py:Signomial.mono_approximation"]}
{"id": "C14", "title": "Arithmetic with units is physically correct", "statement": "Adding nomials with units gives the physically correct sum expressed in the left operand's units, and raises DimensionalityError exactly when the dimensions differ; multiplying gives the physically correct product, with dimensionless products converted to pure numbers.", "quantifier": "all nomials, all unit systems (arbitrary dimension vectors and positive scale factors)", "why_tests_cant": "all combinations of unit scales and dimensions", "anchors": ["gpkit/nomials/map.py:NomialMap.__add__", "gpkit/nomials/map.py:NomialMap.units_of_product", "gpkit/nomials/map.py:NomialMap.to", "gpkit/units.py:GPkitUnits.of_product"]}
{"id": "C15", "title": "diff carries the right units", "statement": "p.diff(x) is physically the derivative: its magnitude times its units equals the derivative of the physical quantity p with respect to the physical quantity x.", "quantifier": "all nomials with units, all variables with units", "why_tests_cant": "over all unit combinations, including those whose quotient is dimensionless but not one", "anchors": ["gpkit/nomials/map.py:NomialMap.diff", "gpkit/nomials/map.py:NomialMap.units_of_product"]}
{"id": "C16", "title": "Unit conversion factors do not depend on what was computed before", "statement": "The factor used to convert between the two sides of a constraint equals the ratio of their units, for every history of earlier conversions, object creations and garbage collections.", "quantifier": "all histories of allocations, frees and conversions, every allocator that may reuse the identity of a freed object", "why_tests_cant": "a failure needs a particular sequence of frees and identity reuse by the memory allocator", "anchors": ["gpkit/units.py:GPkitUnits.of_division", "gpkit/units.py:GPkitUnits.of_product"]}
{"id": "C17", "title": "Array sum and product agree with repeated + and *", "statement": "NomialArray.sum() and .prod() return a nomial whose value at every point is the sum or product of the values of the elements, whenever adding or multiplying the elements one by one succeeds.", "quantifier": "all arrays of numbers and nomials, all points", "why_tests_cant": "all mixes of numeric, zero, cancelling and unit-bearing entries, in every order", "anchors": ["gpkit/nomials/array.py:NomialArray.sum", "gpkit/nomials/array.py:NomialArray.prod"]}
{"id": "C18", "title": "A posynomial inequality means what it says", "statement": "The GP form generated for left <= right (or left >= right) by a posynomial inequality, with any constants substituted, is satisfied at a positive point exactly when the original inequality holds there.", "quantifier": "all posynomial left and monomial right sides, all substitutions, all positive points", "why_tests_cant": "feasible sets are infinite; term merging, constants moved across the inequality and division by the monomial must preserve them for every input", "anchors": ["gpkit/nomials/math.py:PosynomialInequality._gen_unsubbed", "gpkit/nomials/math.py:PosynomialInequality._simplify_posy_ineq", "gpkit/nomials/math.py:PosynomialInequality.as_hmapslt1"]}
{"id": "C19", "title": "Constant inequalities: dropped only if true, rejected only if false, within tolerance", "statement": "When everything in an inequality but constants has been substituted, it is dropped only if the constant is at most 1 plus the tolerance and PrimalInfeasible is raised only if it exceeds it; a constant part with further terms raises only if no positive point can satisfy it.", "quantifier": "all posynomial inequalities and substitutions", "why_tests_cant": "all boundary values of the constant relative to the tolerance", "anchors": ["gpkit/nomials/math.py:PosynomialInequality._simplify_posy_ineq", "gpkit/nomials/math.py:PosynomialInequality.as_hmapslt1"]}
{"id": "C20", "title": "A monomial equality is enforced in both directions", "statement": "The GP form of left == right is satisfied at a positive point exactly when left equals right there, and substitution keeps either both directions or neither.", "quantifier": "all monomial pairs, all substitutions, all points", "why_tests_cant": "over all points and all constant patterns", "anchors": ["gpkit/nomials/math.py:MonomialEquality._gen_unsubbed", "gpkit/nomials/math.py:MonomialEquality.as_hmapslt1"]}
{"id": "C21", "title": "A signomial inequality that becomes a posynomial one keeps its meaning", "statement": "If after substituting constants a signomial inequality can be written as posynomial <= monomial, the GP form generated is satisfied at a positive point exactly when the signomial inequality holds there.", "quantifier": "all signomial inequalities, all substitutions, all positive points", "why_tests_cant": "all sign patterns after substitution", "anchors": ["gpkit/nomials/math.py:SignomialInequality.as_hmapslt1"]}
{"id": "C22", "title": "The SP approximation is conservative and tight", "statement": "The GP constraint that approximates a signomial inequality around x0 implies the signomial inequality at every positive point, and at x0 itself it holds exactly when the signomial inequality does.", "quantifier": "all signomial inequalities, all x0, all positive points", "why_tests_cant": "soundness of every SP solution rests on an inequality over all pairs of points", "anchors": ["gpkit/nomials/math.py:SignomialInequality.as_gpconstr", "gpkit/nomials/math.py:Posynomial.mono_lower_bound"]}
{"id": "C23", "title": "Relaxing a constraint never tightens it", "statement": "A constraint relaxed by a factor r is equivalent to the original at r = 1, and raising r (from any r >= 1) never makes a satisfied constraint violated.", "quantifier": "all posynomial/signomial constraints in either direction, all r, all points", "why_tests_cant": "over all points and relaxation values", "anchors": ["gpkit/nomials/math.py:ScalarSingleEquationConstraint.relaxed", "gpkit/constraints/relax.py:ConstraintsRelaxedEqually", "gpkit/constraints/relax.py:ConstraintsRelaxed"]}
{"id": "C24", "title": "Relaxed and bounded models contain the original model", "statement": "ConstraintsRelaxedEqually and ConstraintsRelaxed are satisfiable by any point of the original model with relaxation 1, and with relaxation 1 admit only those; ConstantsRelaxed at relaxation 1 forces every constant to its original value; Bounded admits exactly the original points inside the box.", "quantifier": "all constraint sets, all positive points", "why_tests_cant": "feasible set equality for every model", "anchors": ["gpkit/constraints/relax.py:ConstraintsRelaxedEqually", "gpkit/constraints/relax.py:ConstraintsRelaxed", "gpkit/constraints/relax.py:ConstantsRelaxed", "gpkit/constraints/bounded.py:Bounded"]}
{"id": "C25", "title": "Flattening visits every constraint once, in order", "statement": "Iterating over a nested constraint set (lists, dicts, arrays, sets of sets) yields every leaf constraint exactly once in reading order, and anything built by numbering those leaves (relaxation variables) covers all of them.", "quantifier": "all nestings of any depth", "why_tests_cant": "unbounded nesting structures", "anchors": ["gpkit/constraints/set.py:flatiter", "gpkit/constraints/set.py:ConstraintSet.flat", "gpkit/constraints/relax.py:ConstraintsRelaxed"]}
{"id": "C26", "title": "The matrices handed to the solver are the problem", "statement": "For the generated exponent matrix A, coefficients c and row ranges, sum over the rows of posynomial i of c*exp(A x) equals posynomial i at exp(x) for every x; the row ranges partition the rows in order.", "quantifier": "all lists of posynomials, all points", "why_tests_cant": "all shapes of problem: constants, empty rows, repeated exponents", "anchors": ["gpkit/constraints/gp.py:GeometricProgram.gen", "gpkit/small_classes.py:CootMatrix"]}
{"id": "C27", "title": "Equality constraints are paired correctly for the solver", "statement": "The set of row ranges marked as first halves of equalities contains exactly the first of each pair of inequalities generated by each equality that survives substitution.", "quantifier": "all sequences of equality and inequality constraints in a problem", "why_tests_cant": "parity-based bookkeeping over unboundedly many constraints", "anchors": ["gpkit/constraints/gp.py:GeometricProgram.__init__", "gpkit/constraints/gp.py:GeometricProgram.gen", "gpkit/nomials/math.py:MonomialEquality.as_hmapslt1"]}
{"id": "C28", "title": "The missing-bound analysis is an order-independent fixed point", "statement": "The set of bounds reported missing by check_bounds is exactly the set of initially missing bounds that cannot be derived through equality constraints, the loops terminate, and the result does not depend on the iteration order of the sets involved.", "quantifier": "all problems, all set-iteration orders (hash seeds)", "why_tests_cant": "the loops mutate the collections they test under an iteration order that varies between runs", "anchors": ["gpkit/constraints/gp.py:GeometricProgram.check_bounds", "gpkit/constraints/gp.py:gen_meq_bounds", "gpkit/constraints/gp.py:fulfill_meq_bounds"]}
{"id": "C29", "title": "Boundedness propagation in constraint sets is a least fixed point", "statement": "The bounds a ConstraintSet reports are the least set containing its constraints' bounds and closed under their conditional equality bounds, independently of iteration order, and the propagation terminates.", "quantifier": "all constraint sets, all iteration orders", "why_tests_cant": "same: nondeterministic iteration over sets being modified", "anchors": ["gpkit/constraints/set.py:add_meq_bounds", "gpkit/constraints/set.py:ConstraintSet._update"]}
{"id": "C30", "title": "Dual variables are completed consistently", "statement": "Whichever of nu or la a solver returns, the completed result satisfies: the nus of each posynomial sum to its la, and are proportional to its terms' values when computed from la.", "quantifier": "all problems and all solver answers", "why_tests_cant": "all solver outputs", "anchors": ["gpkit/constraints/gp.py:GeometricProgram._generate_nula"]}
{"id": "C31", "title": "A solution that passes the checks is a global optimum", "statement": "If a primal/dual pair passes check_solution exactly (zero tolerance), the primal point is feasible and no feasible point has lower cost; with tolerance, every feasible point's cost is bounded below by the dual cost up to the tolerance times its log-norm.", "quantifier": "all problems, all primal/dual pairs, all competing feasible points", "why_tests_cant": "optimality quantifies over every feasible point (GP weak duality)", "anchors": ["gpkit/constraints/gp.py:GeometricProgram.check_solution"]}
{"id": "C32", "title": "Reported sensitivities are the derivatives of the constraints", "statement": "The sensitivity attributed to a variable by an inequality equals its dual la times the logarithmic derivative of the simplified constraint with respect to that variable (constants included), whenever the term fractions are complete.", "quantifier": "all inequalities, all substitutions, all points where the constraint is active", "why_tests_cant": "a derivative identity over all constraints and points", "anchors": ["gpkit/nomials/math.py:PosynomialInequality.sens_from_dual", "gpkit/nomials/math.py:MonomialEquality.sens_from_dual", "gpkit/nomials/map.py:NomialMap.mmap"]}
{"id": "C33", "title": "Sensitivities to constants follow the chain rule through linked variables", "statement": "The total sensitivity reported for a constant equals its direct sensitivity plus, for each variable computed from it, that variable's sensitivity times d log(variable)/d log(constant).", "quantifier": "all linked functions (any number of linked variables and inputs), all sensitivities", "why_tests_cant": "all dependency patterns, including linked variables that appear in the cost", "anchors": ["gpkit/constraints/gp.py:GeometricProgram._compile_result"]}
{"id": "C34", "title": "The cvxopt problem is the GP", "statement": "The partition of constraints into log-sum-exp, linear inequality and linear equality parts handed to cvxopt has the same feasible points and objective as the GP, and the multipliers it returns are reassigned to the constraints they came from.", "quantifier": "all problems", "why_tests_cant": "index bookkeeping over every mix of constraint kinds", "anchors": ["gpkit/solvers/cvxopt.py:optimize"]}
{"id": "C35", "title": "The MOSEK conic problem is the GP", "statement": "The exponential-cone problem built for MOSEK has feasible (x, t, z) exactly when x is feasible for the GP, with optimal objective the log of the cost; duals are merged back in constraint order.", "quantifier": "all problems, all points", "why_tests_cant": "equivalence of two infinite feasible sets, with index arithmetic over all problem shapes", "anchors": ["gpkit/solvers/mosek_conif.py:optimize"]}
{"id": "C36", "title": "SP iterates stay feasible and never get worse", "statement": "With a solver that returns true optima, every GP solution visited by localsolve (without slack) satisfies the original signomial constraints, and the sequence of costs is nonincreasing once the first point is feasible.", "quantifier": "all SPs, all histories of iterates, all starting points", "why_tests_cant": "an invariant of an iteration of unbounded length", "anchors": ["gpkit/constraints/sgp.py:SequentialGeometricProgram.localsolve", "gpkit/constraints/sgp.py:SequentialGeometricProgram.gp"]}
{"id": "C37", "title": "localsolve stops", "statement": "localsolve performs at most iteration_limit+1 GP solves, and when it returns normally the last relative improvement was at most reltol.", "quantifier": "all sequences of GP costs (all solver behaviours), all verbosities", "why_tests_cant": "all histories of costs", "anchors": ["gpkit/constraints/sgp.py:SequentialGeometricProgram.localsolve"]}
{"id": "C38", "title": "Updating an SP's GP in place equals rebuilding it", "statement": "After any sequence of re-linearizations, the in-place updated GP has the same coefficients, exponents and matrix as a GP freshly built around the latest point.", "quantifier": "all histories of linearization points", "why_tests_cant": "state accumulated over arbitrary histories; failures need a term count that changes between points", "anchors": ["gpkit/constraints/sgp.py:SequentialGeometricProgram.gp", "gpkit/constraints/sgp.py:SequentialGeometricProgram.__init__"]}
{"id": "C39", "title": "KeyDict reads return the last write", "statement": "After any sequence of writes of scalars, vectors and vector elements under variables or names, reading a variable, element or vector returns the last value written to it, and writes to one key do not change the value of any other.", "quantifier": "all finite sequences of writes and reads", "why_tests_cant": "histories of interleaved scalar, element and whole-vector writes", "anchors": ["gpkit/keydict.py:KeyDict.__setitem__", "gpkit/keydict.py:KeyDict.__getitem__", "gpkit/keydict.py:KeyMap.parse_and_index", "gpkit/keydict.py:KeyMap.__contains__"]}
{"id": "C40", "title": "Deleting from a KeyDict removes exactly what was asked", "statement": "After deleting a key, that key is absent and every other key keeps its value and remains readable and writable.", "quantifier": "all histories of writes and deletes", "why_tests_cant": "the failure needs a delete of one element followed by reads or writes of its neighbours", "anchors": ["gpkit/keydict.py:KeyDict.__delitem__"]}
{"id": "C41", "title": "Copies of a KeyDict are independent", "statement": "After copying a KeyDict (as every model and relaxation does with substitutions), no sequence of operations on either one changes what the other reports.", "quantifier": "all histories of operations on a dict and its copies", "why_tests_cant": "aliasing bugs appear only for particular interleavings", "anchors": ["gpkit/keydict.py:KeyDict.update", "gpkit/keydict.py:KeyDict._copyonwrite", "gpkit/keydict.py:KeyDict.__delitem__"]}
{"id": "C42", "title": "Substitutions are classified correctly", "statement": "parse_subs splits substitutions into constants, sweeps and linked functions such that each variable of the problem lands in the class of its own value, whatever the iteration order.", "quantifier": "all substitution dictionaries, all set-iteration orders", "why_tests_cant": "classification state leaks between loop iterations depending on set order", "anchors": ["gpkit/nomials/substitution.py:parse_subs", "gpkit/nomials/substitution.py:append_sub"]}
{"id": "C43", "title": "A sweep solves every combination exactly once", "statement": "run_sweep solves the model once for each element of the cartesian product of the sweep values, with every swept variable set to its value in that combination, and with skipsweepfailures the solutions kept are exactly the feasible combinations in order.", "quantifier": "all numbers of sweep variables and values, all patterns of infeasibility", "why_tests_cant": "meshgrid/reshape alignment for every dimension, all failure patterns", "anchors": ["gpkit/constraints/prog_factories.py:run_sweep"]}
{"id": "C44", "title": "Sweeping leaves the model as it was", "statement": "After Model.sweep or autosweep, the model's substitutions equal what they were before the call, even if a solve fails.", "quantifier": "all models, all sweep variables and original values, all crash points", "why_tests_cant": "needs all original values (including zero) and a failure at every point of the sweep", "anchors": ["gpkit/constraints/model.py:Model.sweep", "gpkit/tools/autosweep.py:autosweep_1d"]}
{"id": "C45", "title": "A solution array gives back each solution", "statement": "After appending solutions s0..sn to a SolutionArray (and converting to arrays), atindex(i) returns the content of si.", "quantifier": "all lengths, all nested dictionaries, all values", "why_tests_cant": "all shapes and key patterns of solutions", "anchors": ["gpkit/small_classes.py:DictOfLists", "gpkit/small_classes.py:_append_dict", "gpkit/small_classes.py:_index_dict", "gpkit/small_classes.py:_enray"]}
{"id": "C46", "title": "Autosweep's cost bounds are guaranteed", "statement": "For a cost that is log-log convex in the swept variable, the lower and upper bounds reported by an autosweep at any value bracket the true optimal cost, and coincide with it at the solved points.", "quantifier": "all convex costs, all refinement trees, all query values", "why_tests_cant": "a continuum of query points and every adaptive refinement history", "anchors": ["gpkit/tools/autosweep.py:BinarySweepTree.cost_at", "gpkit/tools/autosweep.py:get_tol"]}
{"id": "C47", "title": "The autosweep tree is an ordered partition", "statement": "For any sequence of splits, the leaves partition the swept interval, a query descends to the leaf containing it, and the list of solutions is strictly sorted without duplicates.", "quantifier": "all split histories", "why_tests_cant": "all tree shapes", "anchors": ["gpkit/tools/autosweep.py:BinarySweepTree.add_split", "gpkit/tools/autosweep.py:BinarySweepTree.min_bst", "gpkit/tools/autosweep.py:BinarySweepTree.sollist", "gpkit/tools/autosweep.py:recurse_splits"]}
{"id": "C48", "title": "Contexts restore what they changed", "statement": "Leaving a SignomialsEnabled, Vectorize or NamedVariables block, normally or by an exception, at any nesting, restores the setting in force before the block.", "quantifier": "all properly nested programs of with-blocks, all exception points", "why_tests_cant": "all nestings and exception points", "anchors": ["gpkit/globals.py:SignomialsEnabled", "gpkit/globals.py:Vectorize", "gpkit/globals.py:NamedVariables"]}
{"id": "C49", "title": "Model lineages are unique", "statement": "No two models built in one session get the same lineage, so variables with the same name in different model instances are different variables.", "quantifier": "all nestings and repetitions of model construction", "why_tests_cant": "all histories of model creation", "anchors": ["gpkit/globals.py:NamedVariables", "gpkit/varkey.py:VarKey.__init__"]}
{"id": "C50", "title": "Variables are identified by name, lineage, index and units", "statement": "Two variables are equal exactly when their names, lineages, indices and units agree; equality is an equivalence and is compatible with hashing.", "quantifier": "all pairs of variable descriptions", "why_tests_cant": "all names, indices and lineages: identity goes through string concatenation", "anchors": ["gpkit/varkey.py:VarKey.__init__", "gpkit/varkey.py:VarKey.__eq__", "gpkit/varkey.py:VarKey.str_without"]}
{"id": "C51", "title": "Taylor tools give the Taylor polynomials", "statement": "te_exp_minus1(p, n), te_secant(p, n) and te_tangent(p, n) are the degree-n Taylor sums of exp-1, secant and tangent in p (for all orders the exact tables cover).", "quantifier": "all posynomials, all orders, all points", "why_tests_cant": "all orders and arguments; the coefficient tables must agree with the defining recurrences", "anchors": ["gpkit/tools/tools.py:te_exp_minus1", "gpkit/tools/tools.py:te_secant", "gpkit/tools/tools.py:te_tangent"]}
{"id": "C52", "title": "Printed expressions are faithful", "statement": "The string shown for an expression denotes that expression: expressions that denote different functions print differently.", "quantifier": "all expression trees", "why_tests_cant": "all nestings of operators; parenthesization is decided by a pattern match on rendered text", "anchors": ["gpkit/repr_conventions.py:ReprMixin.parse_ast", "gpkit/repr_conventions.py:ReprMixin.parenthesize", "gpkit/nomials/math.py:Signomial.__pow__"]}
{"id": "C53", "title": "Linked constants do not depend on evaluation order", "statement": "The values computed for linked variables depend only on the constants and functions, not on the order in which they are evaluated.", "quantifier": "all sets of linked functions (including ones that fail), all orders", "why_tests_cant": "dictionary order and partially updated fallback state", "anchors": ["gpkit/constraints/prog_factories.py:evaluate_linked"]}
{"id": "C54", "title": "Post-solve checks warn exactly when they should", "statement": "Tight warns exactly when the two sides differ by at least reltol, Loose exactly when the sensitivity reaches the threshold, Bounded exactly for variables at their bounds, and get_relaxed returns exactly the relaxations above its thresholds, largest first.", "quantifier": "all solutions", "why_tests_cant": "all values around thresholds", "anchors": ["gpkit/constraints/tight.py:Tight.process_result", "gpkit/constraints/loose.py:Loose.process_result", "gpkit/constraints/bounded.py:Bounded.check_boundaries", "gpkit/constraints/relax.py:get_relaxed"]}
{"id": "C55", "title": "Settings survive a write/read round trip", "statement": "Reading the settings file written by the build step yields the settings written: a single value as a string, a comma-separated value as the list of its parts.", "quantifier": "all setting dictionaries with well-formed names and values", "why_tests_cant": "all strings", "anchors": ["gpkit/build.py:build", "gpkit/globals.py:load_settings"]}
{"id": "C56", "title": "The cost's sensitivities are its logarithmic derivatives", "statement": "The sensitivity of a constant or variable due to the cost equals the logarithmic derivative of the cost with respect to it, and the reported totals are the sums of the cost's and the constraints' parts.", "quantifier": "all posynomial costs, all substitutions, all points", "why_tests_cant": "all ways in which substituting reorders or merges the terms of the cost", "anchors": ["gpkit/constraints/gp.py:GeometricProgram._compile_result", "gpkit/nomials/map.py:subinplace"]}
{"id": "C57", "title": "Sensitivities bound the cost of a changed problem", "statement": "At an optimal solution, if constants are changed in any way, every point that meets the changed constraints costs at least the old cost times the product, over constants, of (new/old) to the power of the constant's sensitivity.", "quantifier": "all programs, all changes of constants, all feasible points of the changed program", "why_tests_cant": "a continuum of changes and of feasible points", "anchors": ["gpkit/constraints/gp.py:GeometricProgram._compile_result", "gpkit/nomials/math.py:PosynomialInequality.sens_from_dual"]}
{"id": "C58", "title": "Verbosity only affects printing", "statement": "Solving a sequential program with different verbosities, everything else equal, visits the same points and returns the same result.", "quantifier": "all programs, all solver behaviours, all verbosities", "why_tests_cant": "the option reaches control flow only when a cost rises during the search, which depends on the solver", "anchors": ["gpkit/constraints/sgp.py:SequentialGeometricProgram.localsolve"]}
{"id": "C59", "title": "Diagnosing infeasibility leaves what it relaxes free", "statement": "In the model that debug() solves, neither the relaxation variables nor the relaxed constants are fixed.", "quantifier": "all models, all constants (with or without constant=True), all costs", "why_tests_cant": "all sets of constants and ways of declaring them", "anchors": ["gpkit/constraints/model.py:Model.debug", "gpkit/constraints/relax.py:ConstantsRelaxed", "gpkit/constraints/costed.py:CostedConstraintSet"]}
{"id": "C60", "title": "A model's own variables are those made in its setup", "statement": "The variables a model counts as its own are exactly those made while its setup ran, other than in the setups of models within it, in the order in which they were made, whether or not other models failed.", "quantifier": "all sessions that build models in each other, with exceptions", "why_tests_cant": "all histories of model creation and failure", "anchors": ["gpkit/globals.py:NamedVariables", "gpkit/nomials/variables.py:addmodelstodescr", "gpkit/constraints/model.py:Model.__init__"]}
{"id": "C61", "title": "An autosweep ends, and its costs are within the tolerance", "statement": "For a log-log convex cost and any positive tolerance, autosweeping ends after finitely many solves without an error, reports a tolerance below the one asked for, and the cost it gives for any value is within the reported tolerance of the optimal cost.", "quantifier": "all log-log convex costs, all bounds, all positive tolerances, all query values", "why_tests_cant": "termination for every cost function, a continuum of query points", "anchors": ["gpkit/tools/autosweep.py:autosweep_1d", "gpkit/tools/autosweep.py:recurse_splits", "gpkit/tools/autosweep.py:get_tol", "gpkit/tools/autosweep.py:BinarySweepTree.cost_at"]}
{"id": "C62", "title": "Printing a solution does not change it", "statement": "After any tables have been printed from a solution its sensitivities are what they were before, and printing the same tables again prints the same.", "quantifier": "all solutions, all sequences of calls with all choices of tables, variables and models", "why_tests_cant": "all histories of calls; arrays are shared between the solution and what prints them", "anchors": ["gpkit/solution_array.py:var_table", "gpkit/solution_array.py:topsenss_table", "gpkit/solution_array.py:SolutionArray.summary"]}
{"id": "C63", "title": "Sensitivity tables show what they say", "statement": "The table of sensitivities has a row for exactly the variables with a sensitivity over 0.001; the table of top sensitivities has as many rows as asked for (less those in the other table) or all, and no variable left out is more sensitive than one in it.", "quantifier": "all solutions, all choices of variables, models and numbers of rows", "why_tests_cant": "all orders and ties of sensitivities", "anchors": ["gpkit/solution_array.py:senss_table", "gpkit/solution_array.py:topsenss_filter", "gpkit/solution_array.py:var_table"]}
{"id": "C64", "title": "Almost equal means within the tolerances", "statement": "almost_equal returns True just if both solutions have the same variables, each value is within the relative tolerance of the other solution's and each sensitivity within the absolute tolerance; which solution is asked does not matter.", "quantifier": "all pairs of solutions, all tolerances, all orders of visiting variables", "why_tests_cant": "all values around the tolerances", "anchors": ["gpkit/solution_array.py:SolutionArray.almost_equal", "gpkit/solution_array.py:cast"]}
{"id": "C65", "title": "Saving leaves a solution as it was", "statement": "After save or save_compressed, whether or not pickling raised, every attribute of every constraint and everything stored in the solution is as it was; what is pickled lacks the attributes of construction (or the constraints).", "quantifier": "all solutions, all attributes, all outcomes of pickling", "why_tests_cant": "all points at which pickling fails, all combinations of attributes", "anchors": ["gpkit/solution_array.py:SolSavingEnvironment", "gpkit/solution_array.py:SolutionArray.save"]}
{"id": "C66", "title": "Tables show arrays whole, in lines along a dimension", "statement": "A table prints every element of an array once, and each line is a single element or all the elements along one dimension in order, of at most maxcolumns values.", "quantifier": "all shapes, all numbers of columns", "why_tests_cant": "all shapes with any number of dimensions", "anchors": ["gpkit/solution_array.py:var_table"]}
{"id": "C67", "title": "A variable's value holds in every model it is used in", "statement": "In every model that contains a variable declared with a value, that value is substituted for it, unless a substitution is given or changed; given substitutions come first, then the cost's values, then those of the constraints and submodels listed last.", "quantifier": "all sequences of building models from variables, constraints and other models", "why_tests_cant": "all histories of building models, with variables shared between them", "anchors": ["gpkit/constraints/set.py:ConstraintSet.__init__", "gpkit/constraints/set.py:ConstraintSet._update", "gpkit/constraints/costed.py:CostedConstraintSet.__init__"]}
{"id": "C68", "title": "A submodel's substitutions carry over", "statement": "A substitution made in a model holds in every model built from it afterwards, unless another submodel or the given substitutions say otherwise.", "quantifier": "all sequences of building models and changing their substitutions", "why_tests_cant": "all histories and nestings", "anchors": ["gpkit/constraints/set.py:ConstraintSet._update", "gpkit/constraints/costed.py:CostedConstraintSet.__init__"]}
{"id": "C69", "title": "Each row of a docstring table declares its variable", "statement": "parse_varstring turns a docstring with tables of constants, variables and vectors into code with as many lines, in which the line of each row assigns a variable with the row's name, value, units and label (and length, or constant=True) to that name and to that attribute of self, and every other line is a comment.", "quantifier": "all docstrings with any number of tables and rows, all texts of names, values, units and labels", "why_tests_cant": "all texts, all combinations of tables", "anchors": ["gpkit/tools/docstring.py:parse_varstring", "gpkit/tools/docstring.py:check_and_parse_flag", "gpkit/tools/docstring.py:variable_declaration"]}
{"id": "C70", "title": "A docstring's claims about bounds are checked exactly", "statement": "A model whose docstring lists unbounded variables is accepted just if none of the listed bounds follows from its constraints and substitutions, and every other bound of every variable of the model does once the listed ones are given; otherwise the error lists just the bounds at fault.", "quantifier": "all models of any nesting, all constraints and conditional bounds of equalities, all lists of unbounded variables", "why_tests_cant": "all combinations of bounds that follow from each other", "anchors": ["gpkit/constraints/model.py:Model.verify_docstring", "gpkit/constraints/set.py:add_meq_bounds"]}
{"id": "C71", "title": "Lists of unbounded variables in docstrings are read as written", "statement": "The bounds a model's docstring says are missing are those of the attributes (with dots, of submodels too) listed under Upper Unbounded and Lower Unbounded, on any number of lines, those with a condition only if it holds; an attribute that does not exist raises AttributeError.", "quantifier": "all docstrings, all lists, all models with any attributes", "why_tests_cant": "all texts and all layouts of the lists", "anchors": ["gpkit/tools/docstring.py:expected_unbounded"]}
{"id": "C72", "title": "The problem file given to mskexpopt is the GP", "statement": "The file that the mosek_cli solver writes for a geometric program, read by the rules of that format (comment lines skipped; numbers of constraints, variables and terms; coefficients; constraint of each term; exponents), describes the same program: as many constraints and variables, and at every point the cost and every constraint have the program's values.", "quantifier": "all programs with posynomials of any size, all points, all orders of variables", "why_tests_cant": "Files depend on the sizes and sparsity of programs; tests solve a few and need the solver installed.", "anchors": ["gpkit/solvers/mosek_cli.py: write_output_file", "gpkit/constraints/gp.py: GeometricProgram.gen", "gpkit/small_classes.py: CootMatrix"]}
{"id": "C73", "title": "The solution file of mskexpopt is read as written, or not at all", "statement": "Reading the file of an optimal solution returns its status, objective, primal and dual values; a file that says the problem is infeasible, or anything else, raises the exception for that; and a file that was cut off (a crash, a full disk) is never taken for a solution.", "quantifier": "all numbers of variables and values, all statuses, all points at which the file may be cut off", "why_tests_cant": "Tests have whole files of a few solutions, and none that were cut off.", "anchors": ["gpkit/solvers/mosek_cli.py: optimize, assert_equal, read_vals"]}
{"id": "C74", "title": "Solving with mskexpopt leaves no files behind", "statement": "When no directory is given, solving with mosek_cli leaves the file system as it was, whatever the solver does; and when one is given, no other is touched.", "quantifier": "all problems, all outcomes of the solver including crashes and missing files, all earlier contents of directories", "why_tests_cant": "Tests do not look at temporary directories, and the outcomes include all failures of an external program.", "anchors": ["gpkit/solvers/mosek_cli.py: optimize_generator, optimize"]}
{"id": "C75", "title": "Options given to one solve do not affect others", "statement": "The options a solver is called with are its default ones and those given to that solve, whatever was solved before, with whatever options, by this program or another.", "quantifier": "all histories of solves of any number of programs by any solvers with any options", "why_tests_cant": "Carry-over needs a history of solves with different options; a test solves with one set of them.", "anchors": ["gpkit/constraints/gp.py: DEFAULT_SOLVER_KWARGS, GeometricProgram.solve"]}
{"id": "C76", "title": "Solving cleans up after itself and reports failures as what they are", "statement": "After a solve, whether it returned or raised, printing goes where it went before and the program's log is what the solver printed; an infeasible problem, an invalid licence or any other failure of the solver raises the exception for it.", "quantifier": "all programs, solvers, outcomes, verbosities and durations", "why_tests_cant": "All exceptions a solver may raise, at all verbosities, and the time it takes.", "anchors": ["gpkit/constraints/gp.py: GeometricProgram.solve, _get_solver", "gpkit/solution_array.py: SolverLog"]}
{"id": "C77", "title": "A program's result is that of its latest solve", "statement": "Asking for a program's result gives the result of the solve before, however often it is asked for, and if that solve failed there is none.", "quantifier": "all histories of solves, with or without gen_result, and of asking for results", "why_tests_cant": "All orders of solving, failing and asking.", "anchors": ["gpkit/constraints/gp.py: GeometricProgram.result"]}
{"id": "C78", "title": "A declaration means what its arguments say, in any order", "statement": "The words among the arguments of Variable and VectorVariable are the name, units and label (those not given by keyword), and the number, list, array or function among them is the value, wherever it stands; each argument is used.", "quantifier": "all lists of arguments, all keywords", "why_tests_cant": "All orders and combinations of arguments and keywords.", "anchors": ["gpkit/nomials/variables.py: Variable.__init__, ArrayVariable.__new__"]}
{"id": "C79", "title": "Vectorized variables have their declared value at every index", "statement": "A vector declared inside any nesting of Vectorize environments has one variable for each index of its own shape and of the environments' lengths, with the same name, units and label, and the value of each is that declared for its own index, at every index of the environments.", "quantifier": "all shapes, nestings of environments, numbers, lists, arrays and functions as values", "why_tests_cant": "All shapes and nestings; tests have one array in one environment.", "anchors": ["gpkit/nomials/variables.py: ArrayVariable.__new__, veclinkedfn, VectorizableVariable", "gpkit/globals.py: Vectorize"]}
{"id": "C80", "title": "A view of a model at an index shows the elements at this index", "statement": "Attributes of model.as_view()[i][j]... with submodels in between are those of the model; of an array the elements at these indices of the last dimensions, as Vectorize environments of this order made them; an index out of bounds raises IndexError.", "quantifier": "all models, all expressions of items and attributes, all shapes", "why_tests_cant": "All nestings of submodels and indices.", "anchors": ["gpkit/constraints/set.py: ConstraintSetView"]}
{"id": "C81", "title": "Variables are found by their names, whatever was looked up before", "statement": "variables_byname gives the variables of the model that are called so: by their own names, with the names of the models they are in, or, for elements of vectors, with the index or the vector's name; each once, sorted by models, name and index. For a variable it gives that variable, and for a vector its elements.", "quantifier": "all sets of variables in any nesting of models, all names, all earlier lookups", "why_tests_cant": "all histories of lookups, all coincidences of names", "anchors": ["gpkit/constraints/set.py:ConstraintSet.variables_byname", "gpkit/keydict.py:KeySet", "gpkit/keydict.py:KeyMap.update_keymap", "gpkit/varkey.py:VarKey.__init__"]}
{"id": "C82", "title": "A model's item of a name is the variable of that name", "statement": "m[name] is the variable of that name, or the vector, with an element at each of its indices, if only the elements of one vector have it; it raises KeyError if there is none and ValueError if there are several.", "quantifier": "all sets of variables, all names, all earlier lookups", "why_tests_cant": "all coincidences of names of variables, vectors and elements", "anchors": ["gpkit/constraints/set.py:ConstraintSet.__getitem__", "gpkit/constraints/set.py:ConstraintSet._choosevar"]}
{"id": "C83", "title": "Looking things up does not change what is substituted", "statement": "Whether a name is in a model's substitutions is just whether the variable of that name is (or, of several, any), whatever was looked up before; a name no variable has is not there.", "quantifier": "all sets of variables and substitutions, all names, all earlier lookups, successful or not", "why_tests_cant": "all histories of lookups", "anchors": ["gpkit/keydict.py:KeyMap.parse_and_index", "gpkit/keydict.py:KeyMap.__contains__", "gpkit/keydict.py:KeySet.__getitem__"]}
{"id": "C84", "title": "Solving a model gives an optimum of the model as written", "statement": "When solving returns, the variables returned meet every constraint as it was written (inequalities either way round, equalities) and every substitution, no positive values that do so cost less, and the cost returned is the cost of those values; a model that has an optimum is solved unless the solver itself fails.", "quantifier": "all costs, all lists of constraints and substitutions, all solvers that return optima of the programs handed to them, all orders of visiting variables", "why_tests_cant": "Needs all models and all points that could be better; the steps from constraints to arrays and back each have their own tests at most.", "anchors": ["gpkit/constraints/gp.py:GeometricProgram.__init__", "gpkit/constraints/gp.py:GeometricProgram.gen", "gpkit/constraints/gp.py:GeometricProgram.solve", "gpkit/constraints/gp.py:GeometricProgram._compile_result", "gpkit/nomials/math.py:PosynomialInequality", "gpkit/nomials/math.py:MonomialEquality", "gpkit/solvers/cvxopt.py:optimize", "gpkit/solvers/mosek_conif.py:optimize"]}
{"id": "C85", "title": "A comparison makes the constraint that was written", "statement": "a <= b, a >= b and a == b, for any numbers, variables, monomials, posynomials and signomials, give a constraint that holds exactly where the comparison does, whichever side is asked first: an inequality of a posynomial and a monomial or an equality of monomials where the comparison is one, else, if signomials are enabled, a signomial inequality; == of other things tells whether they are the same function; a comparison that raises cannot hold, or needs signomials.", "quantifier": "every operator, every pair of operands of every class, with signomials enabled or not, all substitutions and iteration orders", "why_tests_cant": "Five classes of operands, three operators, Python's rules for which side is asked and the values of coefficients combine; tests compare a few pairs.", "anchors": ["gpkit/nomials/math.py:Signomial.__le__", "gpkit/nomials/math.py:Signomial.__ge__", "gpkit/nomials/math.py:Posynomial.__le__", "gpkit/nomials/math.py:Monomial.__ge__", "gpkit/nomials/math.py:Monomial.__eq__", "gpkit/nomials/core.py:Nomial.__eq__", "gpkit/nomials/math.py:ScalarSingleEquationConstraint"]}
{"id": "C86", "title": "A comparison of arrays constrains each pair of elements", "statement": "Comparing arrays of numbers and nomials, of any shapes that can be broadcast together, makes one constraint for each element of the result, which hold together exactly where each pair of matching elements is related; constraint sets accept it if each pair makes a constraint or is in order; as a condition, a == b is whether all pairs are the same.", "quantifier": "all shapes, all arrays of operands, all operators", "why_tests_cant": "Shapes, broadcasting and the kinds of elements combine without bound; tests use vectors of two or three variables.", "anchors": ["gpkit/nomials/array.py:array_constraint", "gpkit/nomials/array.py:NomialArray", "gpkit/constraints/array.py:ArrayConstraint", "gpkit/constraints/set.py:ConstraintSet.__init__"]}
{"id": "C87", "title": "The penalty method charges for slack and never loses feasibility", "statement": "A signomial program solved by the penalty method (use_pccp) minimizes the cost times slack**penalty. In each geometric program of a run, the slack is at least one wherever the constraints hold, no signomial inequality is violated there by more than a factor of the slack, and any point that satisfies the constraints the slack is not in is feasible with every slack from some value on.", "quantifier": "all signomial programs, substitutions and penalties; all programs of all runs; all positive points", "why_tests_cant": "that iterations start from infeasible points and end near feasible ones rests on relations that hold at every point of every program visited", "anchors": ["gpkit/constraints/sgp.py:SequentialGeometricProgram.__init__", "gpkit/constraints/sgp.py:SequentialGeometricProgram.gp"]}
{"id": "C88", "title": "Evaluated variables have the value of their function", "statement": "A variable declared with a function and not solved for has, after solving, the value of this function at the solution, also in freevariables; every variable and every vector element that was solved for keeps its value; nothing is raised unless a function raises; and none of this depends on the order in which variables are evaluated.", "quantifier": "all models and submodels, all declared variables, vectors and functions, all solutions, all orders of Python sets", "why_tests_cant": "The order is that of a Python set, which differs from run to run; functions may read variables that are themselves evaluated.", "anchors": ["gpkit/constraints/set.py: process_result", "gpkit/keydict.py: KeyDict.__contains__, KeyDict.__setitem__", "gpkit/constraints/model.py: unique_varkeys"]}
{"id": "C89", "title": "Tables of constraints list the right constraints, whole and in order", "statement": "The table of the tightest constraints lists at most the asked number of those that are sensitive enough, none less sensitive than one left out; the table of insensitive constraints lists exactly those; each constraint is listed once, with its whole text in lines of at most 80 characters broken at operators unless they are full, below the name of its model, sorted within its model, and models by their first constraint; and the table is determined by the solution.", "quantifier": "all constraints, models, texts and sensitivities, all numbers asked for, all memory addresses", "why_tests_cant": "Texts are broken where operators fall, which tests see for a few texts; memory addresses differ from run to run.", "anchors": ["gpkit/solution_array.py: tight_table, loose_table, constraint_table, CONSTRSPLITPATTERN"]}
{"id": "C90", "title": "Printed variables can be told apart", "statement": "When a model is printed, a variable has the models it is in (with their numbers) written in front of its name exactly when two of the model's variables are called by that name, however often and whatever has been looked up or printed before; so two variables with the same printed name are the same variable.", "quantifier": "every set of variables of a model, every history of lookups, every two variables", "why_tests_cant": "whether a name is ambiguous depends on all the model's variables and on what earlier lookups have put in its table of names; tests print a few models.", "anchors": ["gpkit/constraints/set.py: ConstraintSet.name_collision_varkeys, lines_without", "gpkit/varkey.py: VarKey.str_without", "gpkit/keydict.py: KeySet.__getitem__"]}
{"id": "C91", "title": "Exported solutions have every variable", "statement": "A MATLAB file written from a solution has each of its variables once, under a name of its own, with its value; a dataframe has exactly one row for each variable and each of its indices, with the value there, in the order of names; when names are given, exactly the variables called by them are exported.", "quantifier": "every solution (any variables, models, shapes and values), every list of names to export", "why_tests_cant": "names are shortened where they are unique and collected in a dictionary, so that a clash loses a variable without an error; which names clash depends on all variables of the solution.", "anchors": ["gpkit/solution_array.py: SolutionArray.varnames, name_collision_varkeys, savemat, todataframe, _parse_showvars"]}
{"id": "C92", "title": "CSV files can be read back", "statement": "Reading a CSV file written from a solution by its header's columns gives the solution's variables, each once, in the order of their models: with its model, name, units, label, and all its values, for any number of value columns.", "quantifier": "every solution, every number of value columns, every text of names, units and labels", "why_tests_cant": "alignment of rows depends on how arrays of any shape are broken into lines and on the columns chosen from all shapes; tests write one file and do not read it.", "anchors": ["gpkit/solution_array.py: SolutionArray.savecsv, var_table"]}
{"id": "C93", "title": "A constraint's sensitivity is its multiplier", "statement": "In every result, the sensitivity reported for a constraint of the model is the size of the net Lagrange multiplier of all the inequalities it stands for; a model's sensitivity is the sum of the sizes over its constraints and variables.", "quantifier": "all programs of inequalities, monomial equalities and signomial equalities, all multipliers, all placements of constraints in models", "why_tests_cant": "depends on every combination of constraints that share a posynomial's origin and on the multipliers a solver returns", "anchors": ["gpkit/constraints/gp.py:GeometricProgram._compile_result", "gpkit/nomials/math.py:PosynomialInequality.sens_from_dual", "gpkit/nomials/math.py:MonomialEquality.sens_from_dual", "gpkit/constraints/sgp.py:SequentialGeometricProgram.__init__"]}
{"id": "C94", "title": "A result asked for again is the same", "statement": "Asking a program for a result of the same solution a second time (generate_result, or a sequential program's results after it was solved) gives the sensitivities the first result had.", "quantifier": "all programs, all multipliers, all records of merged terms left by substitution", "why_tests_cant": "the first result changes the constraints; only a statement over all their states says what the second one shows", "anchors": ["gpkit/constraints/gp.py:GeometricProgram.generate_result", "gpkit/constraints/sgp.py:SequentialGeometricProgram.results", "gpkit/nomials/math.py:PosynomialInequality.sens_from_dual"]}
{"id": "C95", "title": "Sensitivities predict costs with other constants", "statement": "The optimal cost of a solved model with its constants changed is at least the solved cost multiplied, for each constant, by its ratio of change to the power of its reported sensitivity; a sensitivity is the slope of the optimal cost in its constant on logarithmic scales, wherever there is one. Reporting sensitivities changes nothing else about a solution.", "quantifier": "all geometric programs as written, all constants and other values for them, all solvers that return an optimum with multipliers that prove it", "why_tests_cant": "it is about the optima of all models with other constants, none of which is solved", "anchors": ["gpkit/constraints/gp.py:GeometricProgram._compile_result", "gpkit/constraints/gp.py:GeometricProgram._generate_nula", "gpkit/nomials/math.py:PosynomialInequality.sens_from_dual", "gpkit/nomials/math.py:MonomialEquality.sens_from_dual", "gpkit/solvers/cvxopt.py:optimize"]}
{"id": "C96", "title": "Sensitivity diagrams account for every constraint", "statement": "In a sensitivity diagram of a solution, what flows into a node flows out of it along one link, and what arrives at the top is the sum of the sensitivities of all the model's constraints (and fixed variables, or the cost, where shown), each counted once; the links shown are those above the asked minimum, at most as many as asked for; and asking for a diagram again shows the same diagram.", "quantifier": "all models (nested sets, dicts of constraints, arrays, named submodels with fixed variables and vectors), all sensitivities, all numbers of links, all sequences of diagrams", "why_tests_cant": "Links accumulate along a recursion over the whole model; tests see the diagrams of a few models, and none checks sums.", "anchors": ["gpkit/interactive/sankey.py: Sankey.link, Sankey.linkfixed, Sankey.diagram, Sankey._links_and_nodes"]}
{"id": "C97", "title": "Printed models can be read", "statement": "Printing a model or a set of constraints lists every constraint in it exactly once, in order, below the names of the models and named groups it is in and of no others, so that a reader who goes by indentation finds where each belongs; a model without constraints says so. Its LaTeX has one row for each constraint, in order, between the rows of the objective and the end of the array. Printing again gives the same.", "quantifier": "all nestings of models, constraint sets, lists and dictionaries of constraints, with any names, texts and ways of excluding names", "why_tests_cant": "the layout depends on the whole nesting: what is printed for one set has to stay readable inside, before and after any other", "anchors": ["gpkit/constraints/set.py:ConstraintSet.lines_without", "gpkit/constraints/set.py:recursively_line", "gpkit/constraints/set.py:ConstraintSet.latex", "gpkit/constraints/costed.py:CostedConstraintSet._rootlines", "gpkit/constraints/array.py:ArrayConstraint.lines_without"]}
{"id": "C98", "title": "The diff of two solutions shows what differs by more than the tolerance, and nothing else", "statement": "solution.diff(baseline, showvars, reldiff=\u2026, absdiff=\u2026, senssdiff=\u2026) names the variables which only one of the two solutions has. For the others (or those selected) it shows, for each kind of difference asked for (relative in percent of the baseline, absolute, of sensitivities), a row with the difference of every variable of which some element differs by more than the tolerance, and no row for any other; in rows of arrays, elements that do not differ by more than a nonzero tolerance are left out. A section without rows gives the largest difference among all variables compared.", "quantifier": "every pair of solutions with the same shapes (or numbers against arrays), selection of variables, tolerances, and order in which sets are gone through", "why_tests_cant": "whether a difference is missed depends on arbitrary values, shapes, selections and tolerances, and on the order of sets; the tests print a few diffs of two fixed solutions", "anchors": ["gpkit/solution_array.py: SolutionArray.diff, cast, unrolled_absmax, var_table"]}
{"id": "C99", "title": "What a sequential geometric program keeps of its solves, and returns, is what was found", "statement": "After Model.localsolve, however it ended, program.results has one result for each geometric program solved, in order, with the cost the solver gave and, for every variable, its substituted value or else the value the solver found for it. What localsolve returns has the cost and the values of the last of them, except that the slack variable of the penalty method is taken out if it is at most 1 + 1e-6. Asking for the results warns of violated constraints only if a solution violates the constraints of the program it was found for.", "quantifier": "every signomial program, solver, starting point, tolerance, limit, and order in which sets are gone through; every number of solves", "why_tests_cant": "the program is one object changed between solves, and results are made afterwards; which solves there are depends on the solver and the model; tests read results after a few fixed searches", "anchors": ["gpkit/constraints/sgp.py: SequentialGeometricProgram.localsolve, results", "gpkit/constraints/gp.py: GeometricProgram.generate_result, _compile_result, check_solution"]}
{"id": "C100", "title": "Local solutions meet the constraints as written", "statement": "When a model with signomial inequalities is solved with localsolve, with or without the penalty method, every solution visited meets the constraints as the user wrote them: posynomial inequalities and monomial equalities hold (or compare constants within a thousandth), and each signomial inequality, with its subtracted terms moved to the other side, holds up to the slack and a thousandth; the slack is at least 1; and the cost reported is that of the solution, times slack^penalty. If the search starts at a point that meets every constraint, the first solve costs no more than this point.", "quantifier": "all costs, constraints as pairs of sides, substitutions, starting points, solvers that return true optima, orders of Python's sets and dicts, numbers of iterations", "why_tests_cant": "The constraints that are solved are differences, quotients and approximations of those written, changed in place at each iteration; only a proof relates every one of them to the original.", "anchors": ["gpkit/nomials/math.py: SignomialInequality.__init__, SignomialInequality.as_gpconstr, PosynomialInequality._gen_unsubbed", "gpkit/constraints/sgp.py: SequentialGeometricProgram.__init__, SequentialGeometricProgram.localsolve, SequentialGeometricProgram.gp"]}
{"id": "C101", "title": "Warnings are shown with the solutions they are about", "statement": "After a model was solved, once or in a sweep, the table of warnings shows, for each solution and under the kind of warning, every warning the checks of that solution gave -- its message, or its constraint with the value found at that solution -- and no other; a solution without warnings shows no such table. Model.debug says that a model is feasible with modifications exactly if there are warnings, and prints all of them.", "quantifier": "all numbers of solutions, and all numbers, kinds and orders of warnings at each of them, with any messages, constraints and values", "why_tests_cant": "warnings depend on the solution: which points of a sweep have them, and of which kinds, differs from model to model; tests look at one solution, or at sweeps without warnings", "anchors": ["gpkit/small_scripts.py:appendsolwarning", "gpkit/small_classes.py:DictOfLists", "gpkit/solution_array.py:warnings_table", "gpkit/constraints/prog_factories.py:run_sweep", "gpkit/constraints/tight.py:Tight.process_result", "gpkit/constraints/loose.py:Loose.process_result", "gpkit/constraints/model.py:Model.debug"]}
{"id": "C102", "title": "Reports of relaxed constraints and constants say what was relaxed, and by how much", "statement": "Once a relaxed set has been solved, the solution's warnings report the constraints, or constants, that were relaxed by more than the thresholds, the most relaxed first. Each report is about the constraint whose relaxation variable was found to be that large, shows it as it was written and as it was solved (the larger side times the relaxation, in the same line-up), and shows the nearest whole percentage; each report of a constant shows its name, the value substituted for it and the value found. The sensitivities found for the original values are given as those of the constants, and no others change.", "quantifier": "all sets of constraints, nested or with keys, all sides, operators and relaxations found; all constants, names included or excluded, values found; all iteration orders of substitution", "why_tests_cant": "tests relax one or two flat lists and look for parts of a message; that the numbering of constraints agrees with that of the relaxation variables, and that reports are complete and in order, depends on the shape of the set and on all values", "anchors": ["gpkit/constraints/relax.py: ConstraintsRelaxedEqually.check_relaxed, ConstraintsRelaxed.check_relaxed, ConstantsRelaxed.check_relaxed, ConstantsRelaxed.process_result, get_relaxed", "gpkit/constraints/set.py: ConstraintSet.__getitem__, flatiter", "gpkit/nomials/math.py: ScalarSingleEquationConstraint.relaxed"]}
{"id": "C103", "title": "A solution gives the values of expressions and variables, at each of its points", "statement": "Calling a solution with an expression of its variables gives the expression's value at the solution; for the solution of a sweep, its value at each of the points, in order. Calling it with a variable, a vector variable or an element of one gives that variable's value or values. Something that involves variables the solution does not have is not given a number.", "quantifier": "all solutions of single programs and of sweeps with any number of points, all expressions, scalar variables, vectors and their elements, present or absent", "why_tests_cant": "the values, the number of points and the shapes of expressions and vectors are unbounded; tests evaluate a few positive expressions at single solutions", "anchors": ["gpkit/solution_array.py: SolutionArray.__len__, __call__, subinto", "gpkit/keydict.py: KeyDict.__contains__, __getitem__, __call__", "gpkit/nomials/substitution.py: parse_subs, append_sub", "gpkit/nomials/math.py: Signomial.sub, Monomial.c", "gpkit/small_classes.py: DictOfLists.atindex"]}
{"id": "C104", "title": "The value of an expression is its value at its variables' values", "statement": "`expression.value` is the number the expression takes when each of its variables has its value, whenever each has one that is a number; otherwise it is the expression that is left after the variables with values have been replaced by them, which has just the other variables, and functions and sweeps do not count as values. Reading it does not raise an error.", "quantifier": "every expression, every assignment of numbers, functions, sweeps or nothing to its variables, every order of substitution, within SignomialsEnabled or not", "why_tests_cant": "Tests read .value of a few variables and products; the claim covers every expression and every partial assignment, including terms that cancel or merge.", "anchors": ["gpkit/nomials/core.py: Nomial.value", "gpkit/nomials/substitution.py: parse_subs", "gpkit/nomials/math.py: Signomial.sub"]}
{"id": "C105", "title": "The LaTeX of an expression reads as the expression", "statement": "The LaTeX of an expression, read as mathematics (a sum of products, with fractions, superscripts and powers of ten), is the expression with each coefficient rounded to four significant digits and each exponent to two, in whatever order terms and factors are written.", "quantifier": "every expression, every order in which terms and factors are sorted, every positive value of its variables", "why_tests_cant": "Tests compare the LaTeX of a few expressions with fixed strings; the claim covers every coefficient and exponent, including those near one and very large or small ones.", "anchors": ["gpkit/nomials/core.py: nomial_latex_helper", "gpkit/nomials/core.py: Nomial.latex"]}
{"id": "C106", "title": "Sliders show and change the constants they are for", "statement": "`interact` gives each constant of a model, or each that was asked for, a slider that has the constant's value; its range is the one asked for, or from half to twice the value, and covers the values of a variable that was to be swept. Moving sliders gives their variables the sliders' values and leaves all other substitutions as they were.", "quantifier": "every model with scalar variables, all its substitutions, ranges asked for by name or by variable, all movements of sliders", "why_tests_cant": "Tests make sliders for one or two constants of one model; the claim covers every set of names, models within models, values of any sign and every request.", "anchors": ["gpkit/interactive/widgets.py: modelinteract", "gpkit/keydict.py: KeyMap.parse_and_index", "gpkit/varkey.py: VarKey.keys"]}
{"id": "C107", "title": "The text of a computed expression reads as the expression", "statement": "The text of an expression that was not written by the user but computed, as by substitution, reads as a sum of products that is the expression, with its coefficients rounded to three digits and its exponents to two. On systems that are given plain characters, only these are used.", "quantifier": "every expression, with all coefficients, exponents and numbers of terms and variables; every order of terms and factors", "why_tests_cant": "Tests compare a few texts with literals; the claim is about all coefficients, such as 1, -1 and those that round to them, and all exponents.", "anchors": ["gpkit/nomials/core.py: Nomial.str_without", "gpkit/repr_conventions.py: MUL, UNICODE_EXPONENTS"]}
{"id": "C108", "title": "A variable read from a file is the variable that was saved", "statement": "Variables, as saved with solutions, can be saved. What is read back equals the variable that was saved, in the same process or in another, is found by the same names, is printed the same and belongs to the same vector; its value is used as before. It is no other variable: a variable without a name that is made later differs from it.", "quantifier": "every variable, with or without name, model, index, units and vector; every description; every state of the process that reads it", "why_tests_cant": "Tests save one variable or solution and read it in the same process; the claim is about all descriptions and about processes with other histories.", "anchors": ["gpkit/varkey.py: VarKey.__init__, __getstate__, __setstate__", "gpkit/small_scripts.py: splitsweep"]}
{"id": "C109", "title": "Grids of plots of sweeps", "statement": "plot_1dsweepgrid(model, sweeps, posys) draws, in the column of each swept variable and the row of each expression, that expression over solutions of the model with this variable swept and all others as the model has them, with a dot for the original solution where the variable has a value; it draws nothing else and leaves the substitutions of the model as they were.", "quantifier": "all substitutions, swept variables, values or ranges, expressions and solvers", "why_tests_cant": "Each sweep changes the substitutions that later sweeps start from; tests sweep one variable, given one way, with one expression.", "anchors": ["gpkit/interactive/plot_sweep.py:plot_1dsweepgrid", "gpkit/interactive/plot_sweep.py:format_and_label_axes"]}
{"id": "C110", "title": "The table of model sensitivities is true", "statement": "The table of model sensitivities has a line for every named model, the most sensitive first; its number is, to the precision printed, the sum of the magnitudes of the sensitivities of the constraints and variables of that model and of no other, for each solution of a sweep.", "quantifier": "all trees of models and names, constraints, variables, sensitivities and sweeps", "why_tests_cant": "Tests print tables of a few models with plain names; that names never make models share a line, and that rounding is right, is about all names and numbers.", "anchors": ["gpkit/constraints/gp.py:GeometricProgram._compile_result", "gpkit/solution_array.py:msenss_table", "gpkit/repr_conventions.py:lineagestr"]}
{"id": "C111", "title": "The printed index of an array is its index", "statement": "The text of an indexed array of expressions, read as Python, selects the same elements in the same order as the index it was made with.", "quantifier": "all shapes of arrays and all indices: numbers, slices with any start, stop and step, ellipses, new axes and tuples of them", "why_tests_cant": "Tests print a few slices; that what is abbreviated or left out never changes what is selected is about all slices and lengths.", "anchors": ["gpkit/repr_conventions.py:ReprMixin.parse_ast", "gpkit/nomials/array.py:NomialArray.__getitem__"]}
{"id": "C112", "title": "Plots that compare models draw what was asked of each", "statement": "Comparing models over a sweep draws one set of axes per thing asked for, and in it one curve per model in order: the model's cost as a region between its bounds, anything else as its values in its own units; asking for as many items as there are models draws each model's own item. Values sampled from an autosweep are exact at its ends, and a cost that is sampled lies between its bounds, which are within the tolerance of each other.", "quantifier": "all models with log-log convex costs, all ranges and tolerances, all lists of names, posynomials and tuples", "why_tests_cant": "there are endlessly many combinations of numbers of models, lengths of names and units; tests plot one or two models and a few names", "anchors": ["gpkit/tools/autosweep.py: SolutionOracle", "gpkit/interactive/plotting.py: compare", "gpkit/interactive/plot_sweep.py: assign_axes", "gpkit/constraints/model.py: Model.autosweep"]}
{"id": "C113", "title": "Printed numbers are right to three digits", "statement": "The text of a number in a printed expression, read back, is that number to three significant digits, and within half a percent of it when it is printed with pi; numbers are printed with pi just when they are close to a multiple of pi/12 between pi/12 and 100 pi; whole multiples, halves, thirds, quarters and sixths of pi are printed without loss.", "quantifier": "all numbers", "why_tests_cant": "there is a number for every distance from every multiple of pi; tests print pi and a few others", "anchors": ["gpkit/repr_conventions.py: strify"]}
{"id": "C114", "title": "A variable's text tells it from others", "statement": "Two variables are printed alike, as text or as LaTeX, just when they agree in everything that the printing does not leave out: name, index, whether they are vectors, and the models they belong to with their numbers. Whatever is left out has no effect on the text.", "quantifier": "all variables (names, indices, shapes, lineages) and all choices of what to leave out", "why_tests_cant": "collisions depend on pairs of names of variables and classes, which are the user's; tests print a few variables", "anchors": ["gpkit/varkey.py: VarKey.str_without, VarKey.latex", "gpkit/repr_conventions.py: lineagestr"]}
{"id": "C115", "title": "debug() diagnoses infeasible models", "statement": "debug() returns the solution of the model with bounded variables and relaxed constants if there is one, otherwise that with relaxed constraints if there is one, otherwise None; it prints just the modifications that the returned solution needed, or that it needed none; it raises only what solvers raise other than infeasibility; verbosity does not change the diagnosis, and at verbosity 0 nothing is printed.", "quantifier": "all models, with and without constants, geometric and signomial; all outcomes of their solves; all verbosities", "why_tests_cant": "the paths depend on which of up to eight solves fail and how fast; tests debug a few models that a solver is installed for", "anchors": ["gpkit/constraints/model.py: Model.debug", "gpkit/constraints/gp.py: GeometricProgram.solve", "gpkit/constraints/prog_factories.py: solvify", "gpkit/constraints/sgp.py: SequentialGeometricProgram.localsolve"]}
{"id": "C116", "title": "Expressions can be keys of dictionaries", "statement": "Expressions and arrays that are equal as a condition have the same hash, so that a dictionary with them as keys finds the value stored under an equal expression, finds nothing if there is none, and does not raise; this includes numbers and arrays of different shapes.", "quantifier": "all numbers, nomials and arrays of nomials, all hash functions of Python's numbers and tuples, all dictionaries", "why_tests_cant": "the contract between equality and hashing is about all pairs of expressions; collisions of hashes are rare in tests", "anchors": ["gpkit/nomials/data.py: NomialData.__hash__", "gpkit/nomials/array.py: NomialArray.__hash__", "gpkit/nomials/math.py: Monomial.__eq__, MonomialEquality.__bool__", "gpkit/constraints/array.py: ArrayConstraint.__bool__"]}
{"id": "C117", "title": "A solution with nan in it does not pass the solution check", "statement": "If checking a solution raises nothing, then the cost, the value of every variable and every sensitivity that the solver returned are numbers, not nan.", "quantifier": "every program, every tolerance, every solver output in which any number may be nan", "why_tests_cant": "Any of a solver's numbers may be nan, in any combination; the tests only check solutions that solvers return for well-posed problems, which have none.", "anchors": ["gpkit/constraints/gp.py:GeometricProgram.check_solution", "gpkit/constraints/gp.py:GeometricProgram._generate_nula"]}
{"id": "C118", "title": "A result that fails the solution check comes with a warning, and hiding dual warnings hides nothing else", "statement": "When a result is generated, a warning is printed if and only if, beyond the tolerances, the cost is not that of the variables or a constraint is violated, or, unless dual warnings are hidden as for the results of sequential programs, the dual solution is wrong. The warning names the primal solution if that is wrong, and else the dual one.", "quantifier": "every program, every solver output (with nan or without), every tolerance, with dual warnings hidden or not, every text of numbers that has no D in it", "why_tests_cant": "Warnings are hidden by looking for a word in their text, which has the numbers of the solution in it; which of several faults is reported depends on the order of the checks. Tests do not make solvers return wrong solutions.", "anchors": ["gpkit/constraints/gp.py:GeometricProgram.generate_result", "gpkit/constraints/gp.py:GeometricProgram.check_solution", "gpkit/constraints/sgp.py:SequentialGeometricProgram.results"]}
{"id": "C119", "title": "What a solver prints is kept, and shown at high verbosity", "statement": "After a solve, the program's solve log has the lines that the solver printed, whatever the verbosity. Nothing of it is shown at verbosities up to 2, and at higher ones it is shown as the solver printed it.", "quantifier": "every sequence of texts that a solver writes, every verbosity", "why_tests_cant": "How solvers cut what they print into writes is up to them and to Python's print; tests run few solvers and do not look at the log.", "anchors": ["gpkit/small_classes.py:SolverLog", "gpkit/constraints/gp.py:GeometricProgram.solve"]}
{"id": "C120", "title": "Each sensitivity diagram is saved in a file of its own", "statement": "The diagrams of a model and of its variables are saved in files of the folder for them, whose names have no characters that names of files may not have (backslash, slash, ?, |, quote, >, <, :, *), and diagrams of different variables of a model are saved in different files.", "quantifier": "every label of a model and every text of a variable", "why_tests_cant": "Names of variables are any text, and those of LaTeX or ratios have backslashes and slashes; tests do not draw diagrams.", "anchors": ["gpkit/interactive/sankey.py:cleanfilename", "gpkit/interactive/sankey.py:Sankey.diagram"]}
