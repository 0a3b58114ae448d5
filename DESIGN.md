# A formal model of gpkit in Rocq (Coq 8.16.1)

## 1. Approach

The model is a set of small, total Gallina functions that mirror the Python
functions branch by branch (`/verif/rocq/theories/*`). Each definition carries a
comment with the file and lines it models and any simplification. Exceptions are
values (`Err e`), mutation is returning the new value, Python dicts are
insertion-ordered association lists, sets whose iteration order Python does not
specify are modelled by *quantifying over every order*, and object identity
(where it matters: `KeyDict` arrays, the `id()`-keyed unit cache) is modelled by
an explicit heap.

Numbers. gpkit computes with Python floats. The model is written once over a
class of number operations (`Num`), and instantiated
* at `R` (the stdlib reals) for the theorems: exact arithmetic, `x**y` is
  `Rpower` for positive bases;
* at `Q` (reduced fractions) for executable examples and for refutations by
  `vm_compute`.
So rounding, overflow and nan/inf are not modelled unless a definition says so.

Files. `X_model.v`-style files hold definitions, `*_proofs` files lemmas, and
`Props*.v` files hold only the property theorems (closed by `exact`), each
followed by `Print Assumptions`, with non-vacuity `Example`s beside them.

## 2. Plan, property by property

| id | what is modelled | how it is proved |
|----|------------------|------------------|
| C01 | HashVector add/mul/neg/sub as dict loops | lookup characterisation, induction on the items |
| C02 | HashVector hash with cache, copy, in-place edits | invariant over edit lists; xor is order independent |
| C03 | Signomial/Monomial operators on hmaps | evaluation into R, induction on terms |
| C04 | same | invariant over all expression trees |
| C05 | Signomial.__init__ and the enabled flag | invariant over expression trees |
| C06 | nomial equality | linear independence of monomials over the positive reals |
| C07 | NomialMap.diff / Signomial.diff | `derivable_pt_lim` of the evaluation |
| C08 | posy_negy, chop | induction on terms |
| C09 | NomialMap.sub/subinplace with arbitrary set order | loop invariant relating the partially substituted map to the original |
| C10 | power of zero | refuted in an extended number system with nan/inf; proved where the power is defined |
| C11 | expmap/csmap/mmap | loop invariant; refuted in general by a concrete merge sequence |
| C12, C13 | mono_approximation | derivative computation; weighted AM-GM from convexity of exp |
| C14, C15 | unit bookkeeping over abstract dimension vectors and scales | physical value homomorphism; refutation for diff |
| C16 | of_division with an id-keyed cache and an allocator | invariant over histories; refutation with id reuse |
| C17 | NomialArray.sum/prod | induction; refutations for zero entries |
| C18-C21 | constraint classes, unsubbed forms, simplification, substitution | feasible-set equivalence |
| C22 | as_gpconstr | C13 plus algebra |
| C23, C24 | relaxed, relax.py, bounded.py | order reasoning on reals |
| C25 | flatiter | structural induction on nested sets; refutation for the numbering |
| C26, C27 | GeometricProgram.__init__/gen | induction on the list of hmaps |
| C28, C29 | bound propagation loops under any order | fixed-point argument, confluence, termination measure |
| C30-C33 | dual completion, checks, sensitivities, linked chain rule | Gibbs inequality / weak duality; derivative identities; refutation for C33 |
| C34, C35 | solver interfaces up to the external solver call | equivalence of feasible sets, index bookkeeping |
| C36-C38 | SP loop, in-place GP update | invariants over histories; refutation when the number of terms changes |
| C39-C41 | KeyDict state machine with a heap of arrays | refinement to an abstract map; refutations by `vm_compute` |
| C42 | parse_subs/append_sub | induction over keys in any order; refutation |
| C43, C44 | run_sweep, Model.sweep | induction on sweep dimensions; crash points as solver oracles |
| C45 | DictOfLists | induction on nested dicts; refutations |
| C46, C47 | BinarySweepTree | convexity argument; tree invariants |
| C48, C49 | with-blocks as programs | structural induction on programs |
| C50 | VarKey identity strings | string lemmas; refutation by collision |
| C51 | te_* | induction; tables checked against recurrences |
| C52 | parse_ast/parenthesize on texts, trees of expressions | texts are read back by a separate grammar under four demands; each is shown to be needed |
| C53 | evaluate_linked | permutation invariance; refutation for fallbacks |
| C54 | Tight, Loose, Bounded, get_relaxed | case analysis, sortedness |
| C55 | settings file writer/parser | string induction |
| C56, C57 | sensitivities due to the cost, change of constants | derivative identities, weak duality |
| C58 | localsolve at two verbosities | induction on the loop; refuted for -1 |
| C59 | the model debug() builds (Relax.v) | case analysis on the keys; refuted for constant=True |
| C60 | sessions of nested NamedVariables blocks (Globals.v) | invariant of the session state |
| C61 | autosweep_1d with fuel (Autosweep.v) | each split leaves both parts a minimal length; convexity and tangents |
| C62 | var_table, senss_table, topsenss_table, summary as functions from the sensitivities to (sensitivities, rows) (Report.v) | entries are kept or turned into nan; equality if no array mixes small and large |
| C63 | topsenss_filter, senss_table (Report.v) | insertion sort is a sorted permutation; last n of a sorted list |
| C64 | almost_equal (Report.v) | induction on the keys visited, for scalars |
| C65 | SolSavingEnvironment on objects with attributes (Report.v) | what is taken is stored and put back, by induction on attributes and constraints |
| C66 | choice of dimension, transpose, flatten, lines (Layout.v) | transposed indices are a permutation; blocks of the last dimension |
| C67 | gathering of variables and substitutions, taking values out of variables, sessions (SetInit.v) | invariant of sessions by induction: variables in a set have no value of their own left |
| C68 | as C67 | the last set that says something wins; the same invariant |
| C69 | parsing of docstring tables on texts: flags, rows, line numbers, replaced lines (Docstring.v); documents and the reading of calls (DocstringSpec.v) | induction on the blocks of the document, with lemmas on where a text first occurs |
| C70 | verify_docstring on the bounds of a tree of constraint sets (Verify.v, on Bounds.v) | the closure of bounds (BoundsSem.v); a counting argument for the shortcut on lengths |
| C71 | expected_unbounded on texts (Unbounded.v), attributes as functions; lists and what they stand for (UnboundedSpec.v) | where texts first occur, induction on lines and elements |
| C72 | The text of the problem file (MosekCli.v), and an independent reader of the format (MosekCliSpec.v) | words of lines; that what is read has the values of the GP by C26 |
| C73 | Reading the solution file line by line; a writer of such files | prefixes of files, by the lines they are cut in |
| C74 | A file system of directories with the two files; `optimize` as a transformer of it | cases of the behaviour of the solver |
| C75 | `solve` with the global dict of default options as state (Solve.v), over histories of solves of numbered programs | invariant of the dict, by induction on the history |
| C76 | `solve` with sys.stdout as state; the solver's behaviour, its duration and debug() as arguments | cases of what the solver does |
| C77 | `solve` and `result` with the cached result as state | cases; two-call histories for the refutation |
| C78 | The loops over arguments (Vector.v); words filled into the fields not given, as specification | induction on the arguments |
| C79 | Arrays as shapes and functions of indices, numpy's broadcasting and transposing, single precision as a function | indices of shapes; computed counterexamples |
| C80 | Views as a set and an index; expressions as lists of steps | induction on the expression |
| C81 | KeySet with its map of names, filled late; histories of lookups | invariant of the map (before and after the first name); insertion sort |
| C82 | `_choosevar` on what is found | cases, by C81 |
| C83 | Membership of names in substitutions over the set's KeySet | invariant: entries are names of variables or looked up |
| C84 | make, gp_hmaps, gen, optimize and packing composed, over written constraints | C18 and C20 by induction on constraints; gen's arrays are those of a list of posynomials (SolversSpec.v); C34, C35 for the solvers |
| C85 | Python's dispatch of comparisons over the four classes and numbers, and the constructors | a table of all cases; C18, C20, C21 for the meaning; C06 for truth values |
| C86 | broadcasting by indices, numpy.vectorize with the type of the first result, ArrayConstraint in a set | indices of the result and the elements they match; C85 for each pair |
| C87 | sgp.py `__init__`, `gp` with a slack variable | parts of a built program (C38), the approximation within a factor (C22), and substitution |
| C88 | set.py `process_result`: the loop over declared variables with functions, in any order of the set | invariant over the sets that are done: evaluated variables have their function's value at the current solution, all else is unchanged |
| C89 | solution_array.py `tight_table`, `loose_table`, `constraint_table`: sorting, numbering of models, breaking of texts, padding | invariant of the wrapping loop (the lines so far and the rest are the text); sorted lists are unique; numbers of models follow first appearance |
| C90 | names of printed variables on top of the model of lookups (Naming.v): which names are ambiguous, which names are shown | the name table after any history (C81), then splitting printed names at dots and brackets |
| C91 | names of exported variables, MATLAB files and dataframes as lists (Saved.v) | printed names are injective (C90), so dictionaries keep everything; permutations for sorted rows |
| C92 | columns, rows, order and text of CSV files (Saved.v), with the lines of arrays of Layout.v | a reader is specified separately; induction over rows with the state of the reader as invariant |
| C93 | the loop of `_compile_result` over posynomials with the constraints' states, `generated_by` as a map to origins (Multipliers.v) | induction over statements of constraints with an invariant on the states; refuted by two-row programs |
| C94 | the same loop run again on the constraints it left (Multipliers.v) | simulation of the two runs; refuted by one merged term |
| C95 | EndToEnd.v with generate_nula and the sensitivities of a result (EndToEndSens.v); no linked variables | C20, C30, C32 and C56 by induction on constraints; complementary slackness and stationarity from the solver's multipliers; C57 |
| C96 | interactive/sankey.py `link`, `linkfixed`, the links of `diagram`, `_links_and_nodes` without a top node; node names as lists of numbers | invariant of the recursion: the links added below a target bring the returned sum into it, other nodes pass on their inflow; nodes added are new |
| C97 | constraints/set.py `recursively_line`, `lines_without`, `latex`, costed.py `_rootlines`, `_rootlatex`; texts of constraints are given | the lines of a set, read one by one, are an encoding of its nesting that the reader decodes block by block (invariant on the stack of headings) |
| C98 | solution_array.py `SolutionArray.diff`, `cast`, `unrolled_absmax`, the filter of `var_table`; values are nested lists of numbers, results numbers, infinities or nan | the report against an elementwise specification of differences, by induction on shapes, for every order of sets; refuted for sweeps against single solutions and for zeros in both |
| C99 | constraints/sgp.py `results`, the end of `localsolve`; gp.py `generate_result` (cost, variables, the check of constraints), on the histories of SGP.v | columns and substitutions are the same in every program of a history, by induction on the search; refuted for the checks |
| C100 | constraints from their two sides (nomials/math.py:405-542, 560-579) through `SequentialGeometricProgram` and `localsolve` (SGP.v), with or without slack | the difference of two sides loses the same amount from either side when terms cancel (sums weighed by any function of exponents are linear in the hmap); the programs of a run are well formed by induction on it (RebuildProofs.v), each posynomial stands for a constraint (C18, C20, C21, C87), and a point that meets all constraints is feasible where approximations are exact |
| C101 | `appendsolwarning`, the values Tight and Loose leave on constraints, `DictOfLists.append` and `_enray` of warnings, `warnings_table`, what `debug` prints of it (Warnings.v, on the tables of ConTable.v) | induction over the points of a sweep: of each kind one entry for each point, and the last value of each constraint; refuted for sweeps with different kinds of warnings |
| C102 | check_relaxed of the three relaxations, process_result | get_relaxed's theorem (C54), substitution (C09); refutations |
| C103 | subinto and __call__ of solutions, `in` and lookup in their KeyDicts | solution arrays (C45), substitution of all variables (C09); refutations |
| C104 | NomValue.v: `.value` by cases on what the description of each variable holds, over `nm_sub` of Sub.v and `signomial_init` of Nomial.v | `numbers_of` and `all_given` say which variables have numbers; `.value` is related to `eval` at those numbers, using the theorems on substitution (C02, C03); refuted for values that are not positive |
| C105 | Latex.v: texts as tokens, groups of TeX as nested lists; LatexSem.v: a reader of such texts, and rounding by Flocq | sums and products do not depend on the order of sorting; each term reads as its rounded self; refuted for coefficients near one and for large exponents |
| C106 | Widgets.v: the loops of modelinteract over a model as variables and substitutions, sliders as records | invariants of the loops; names as in C81; refutations for signs, sweeps, keys, names and instances |
| C107 | PlainStr.v: the text of an expression as tokens, by the cases of str_without | a reader and the rounding of printf are specified separately; products and sums are permutations of those of the expression |
| C108 | Pickle.v: descriptions of variables, saved and read back, with the counter of each process | induction over variables and their vectors; names by cancellation of texts |
| C109 | PlotGrid.v: the grid of plots as a list of curves and dots, over the sweeps of Sweep.v | invariant: before each sweep the substitutions are those of the model |
| C110 | ModelTable.v: sums by name of model; cells and lines of their table | names of lineages are injective by splitting texts at dots and digits; rounding by Flocq; sorting by insertion |
| C111 | IndexStr.v: the text of an index as tokens; reading and slicing are specified apart | cases of starts, stops and steps; induction over tuples and dimensions |
| C112 | Oracle.v: samples of autosweeps and `compare`, over the trees of Autosweep.v | bounds of C46 and C61 at each sample; inductions over models and over what is asked |
| C113 | PiStr.v: the branch of `strify` for numbers, with Flocq's rounding to three decimal digits | errors of rounding; pi is bounded by Machin's series |
| C114 | KeyText.v: `str_without` and `latex` of variables, with five flags for what is excluded; KeyTextSpec.v: what is shown | the texts are split at their last brace or dot, where names allow it |
| C115 | Debug.v: the control flow of `debug`, with what solvers and checks give as arguments, and the `debug` that `solve` may run of the models it makes | cases of outcomes |
| C116 | Keys.v: hashes of nomials and arrays, and lookup in a dictionary, with equality as in Compare.v | equality decides sameness (C06, C85, C86); xor does not depend on order |
| C117 | NanCheck.v: `check_solution` and `_generate_nula` on reals with nan, comparisons with nan being False | strictness of sums and products gives what a passing check implies; two concrete outputs refute the rest. |
| C118 | SolWarn.v: the messages of `check_solution` and what `generate_result` prints of them, on NanCheck.v | each verdict against a statement of what is wrong; the word looked for begins with a letter that primal messages do not have |
| C119 | SolverLog.v: `SolverLog.write`, the log made of it, and the writes of `print` | induction on the writes; lengths decide where shown and written text differ |
| C120 | DiagramFile.v: `cleanfilename` and the name of the file in `diagram` | induction on the text, on its length where characters are skipped |

## 3. Trusted base

* Coq 8.16.1's kernel and VM (`vm_compute`).
* The axioms printed by `Print Assumptions` under each theorem in the
  `Props*.v` files. Theorems about R use the standard library's axioms for
  the reals only: `ClassicalDedekindReals.sig_forall_dec`,
  `ClassicalDedekindReals.sig_not_dec`,
  `FunctionalExtensionality.functional_extensionality_dep`, and
  `Classical_Prop.classic` where listed. Everything else is closed under the
  global context.
* The reading of the Python source recorded in the comments of the model.

Modelled, by file of /repo/gpkit (the comments of each definition give the lines):

| Code | Model | Left out |
|---|---|---|
| small_classes.py: HashVector, CootMatrix, DictOfLists | HashVec.v, GPGen.v, Solution.v | Strings, Count, Quantity helpers, the matrix's own methods |
| nomials/map.py, nomials/math.py, nomials/substitution.py | Nomial.v, Sub.v, Mono.v, Constraint.v, Subs.v | LaTeX, sympy export |
| nomials/array.py: sum, prod | Array.v | other numpy methods, printing of arrays |
| nomials/array.py, constraints/array.py: comparisons; nomials/math.py: dispatch of comparisons | Compare.v | units; numpy's numbers on the left of a nomial |
| nomials/variables.py; varkey.py; globals.py | Globals.v, Settings.v, Vector.v | sweeps of vectors |
| units.py | Units.v | pint itself: a unit is its dimensions and its factor |
| keydict.py | KeyDict.v, Lookup.v (KeySet) | pickling |
| constraints/gp.py | GPGen.v, Bounds.v, Dual.v, Sens.v, Multipliers.v, Checks.v, Solve.v, EndToEnd.v, EndToEndSens.v | messages, timing |
| constraints/sgp.py | SGP.v and SGPIter*.v (iterates) | messages, pickling |
| constraints/set.py, costed.py, array.py | Flat.v, Bounds.v, SetInit.v, Vector.v (views), Lookup.v, Evaluated.v, Naming.v (names) | LaTeX |
| constraints/relax.py, bounded.py, tight.py, loose.py, model.py: debug, verify_docstring | Relax.v, Checks.v, Verify.v | messages |
| constraints/prog_factories.py, model.py: sweep | Sweep.v | parallel pools, progress output |
| tools/autosweep.py, tools/tools.py, tools/docstring.py | Autosweep.v, Taylor.v, Docstring.v, Unbounded.v | plotting, saving; inserting code into functions |
| repr_conventions.py | Print.v | LaTeX |
| solution_array.py | Solution.v, Report.v, Layout.v, ConTable.v, Saved.v | texts of tables, diff |
| solvers/cvxopt.py, solvers/mosek_conif.py | Solvers.v | the solvers, which are arguments of the theorems |
| solvers/mosek_cli.py | MosekCli.v | the search path, permissions of files that cannot be removed |
| interactive/sankey.py: links | Sankey.v | drawing, clicks, titles |
| constraints/set.py, costed.py: printing | SetLayout.v | texts of constraints, flags of necessary lineages |
| small_scripts.py `appendsolwarning`, solution_array.py `warnings_table`, how sweeps put warnings together | Warnings.v | texts of messages; what numpy makes of lists of lists that hold sequences |
| relax.py `check_relaxed` (all three), `ConstantsRelaxed.process_result` | RelaxReport.v | how expressions and numbers are printed; vectors of constants |
| solution_array.py `__len__`, `subinto`, `__call__`; keydict.py `__contains__`, `__getitem__` for solutions | SolRead.v | names, units, nan, arrays of expressions |
| gpkit/nomials/core.py `Nomial.value` | NomValue.v | units and nan |
| gpkit/nomials/core.py `nomial_latex_helper`, `Nomial.latex` | Latex.v | units; the LaTeX of variables |
| interactive/widgets.py `modelinteract` | Widgets.v | vectors, solving and showing solutions; ipywidgets itself; control panels |
| nomials/core.py `str_without` without a syntax tree | PlainStr.v | units; names of variables |
| varkey.py `__getstate__`, `__setstate__` | Pickle.v | pickle itself; KeyDicts and solutions around variables |
| interactive/plot_sweep.py `plot_1dsweepgrid` | PlotGrid.v | axes, labels and matplotlib; the choice of points of automatic sweeps |
| gp.py: sensitivities of models by name; solution_array.py `msenss_table` | ModelTable.v | the digits of numbers, the title |
| repr_conventions.py `parse_ast`: indices | IndexStr.v | indexing by arrays and lists |
| tools/autosweep.py `SolutionOracle`, interactive/plotting.py `compare` | Oracle.v | labels, formats of axes, failing solves; `SolutionOracle.plot`, `plot_convergence` |
| repr_conventions.py `strify` of numbers | PiStr.v | floating-point errors, exponents, units of quantities |
| varkey.py `str_without`, `latex`; repr_conventions.py `lineagestr` | KeyText.v | lineages of objects other than tuples |
| model.py `debug`: control flow | Debug.v | sweeps, what solvers print, solvers' own arguments |
| data.py, array.py `__hash__` | Keys.v | units; the order in which Python's dictionaries probe keys |
| constraints/gp.py `check_solution`, `_generate_nula` with nan | NanCheck.v | rounding, overflow to infinity |
| constraints/gp.py `generate_result` (warnings) | SolWarn.v | times; the text of numbers is an argument |
| small_classes.py `SolverLog` | SolverLog.v | output of solvers that does not pass through sys.stdout |
| interactive/sankey.py `cleanfilename` | DiagramFile.v | separators of paths other than Unix's |
| solution_array.py: diff | SolDiff.v | differences of constraints, order and text of rows, pickled baselines |
| constraints/sgp.py: results | SGPResults.v | sensitivities, other checks of solutions, slack's sensitivities |
| nomials/math.py: sides to constraints of a signomial model | LocalEnd.v | `bounded`; posynomial constraints made inside SignomialsEnabled |

Not modelled: floating point rounding and overflow (numbers are reals, rationals
where values are computed, or rationals with infinities and nan), numpy and scipy
beyond the operations cited, pint's parser, the external solvers, pickle itself,
interactive/ apart from the links of sensitivity diagrams, sliders and grids of sweeps, tests, build.py apart from the settings file.

## 4. Findings: where the property is false of the code

Each line names a claim refuted by a machine-checked counterexample
(`Cnn_..._refuted`); the `_partial` theorem beside it says where the claim holds.

* C10: substituting zero into a negative power gives an infinite coefficient
  that later arithmetic turns into nan.
* C11: merging terms in several steps loses the fractions of earlier merges.
* C14, C15: unit bookkeeping of powers and of derivatives.
* C16: the unit conversion cache is keyed by `id()`, which is reused.
* C17: products and sums of arrays with zero entries.
* C18, C21: the renaming loop of `as_hmapslt1` clashes when a constant's name is
  taken.
* C19: constant constraints and their tolerance.
* C23: relaxing a constraint with constant parts.
* C29: bounds propagated through equalities depend on the order of a set.
* C32, C33, C56: sensitivities of leftover constants, of a variable on both sides
  of a signomial inequality, of linked inputs and of reordered cost terms.
* C38: updating a sequential program in place when an approximation gains or
  loses a term, or mentions a variable the first approximation lacked.
* C58: `verbosity=-1` returns a worse point when a cost rises.
* C39: a vector set to one number is kept in single precision; an element set
  in a list of integers is truncated; an array of numbers cannot be written over
  a vector that holds a linked function.
* C40: deleting one element makes the others unreadable; a deleted scalar's name
  may still be `in` the dictionary; deleting one of two variables that share a
  name makes the name useless for the other.
* C41: the original still owns its arrays after a copy and writes into them;
  deleting an element of a copy deletes it in the original; `update` of a
  non-empty dictionary shares arrays.
* C42: once one element of a vector is swept, the elements visited after it are
  taken for sweeps, whichever the set shows first; a dict with two keys for one
  variable puts it in two classes; an element swept on its own over as many points
  as its vector has elements is swept over one point only.
* C25: the elements of a numpy array are not flattened; ConstraintsRelaxed makes as
  many relaxation variables as its set has members, so that relaxing a set with a
  vector constraint, a list or a sub-model of more than one constraint raises IndexError.
* C24: constants that print alike (x in m and x in ft) overwrite one another's
  relaxation constraints, so that one of them is free; `Bounded(lower=0)` means no lower
  bound; variables made in a model's own setup are bounded only if in the cost.
* C59: debug() fixes the relaxation variables of constants made with `constant=True`, because
  the relaxation variable copies the constant's description with its value.
* C54: `Tight(reltol=0)` and `Loose(senstol=0)` use the default tolerances; the summary
  in result["boundedness"] of a Bounded set is replaced by that of another with the same
  bounds; get_relaxed raises IndexError when there is nothing to relax.
* C48: leaving a SignomialsEnabled block inside another one disables signomials in the
  outer block.
* C49, C60: NamedVariables.reset_modelnumbers() makes later models share lineages with
  earlier ones.
* C50: a variable called `x[0]` is equal to the first element of a vector x; x in `m`
  and x in `meter` are different variables.
* C55: the last character of a settings file that does not end in a newline is dropped.
* C53: a linked constant whose function reads another linked constant is evaluated
  against the constants as they were before linked ones (`kdc`), and on failure against
  a snapshot taken at the first failure, so with two such functions one order works and
  the other raises KeyError (`C53_order_refuted`).
* C43: in a sweep the same constants dict is updated for each pass, so such a function
  does not fail from the second pass on, but is evaluated with the linked values of the
  pass before (`C43_linked_refuted`): the results are wrong without an error.
* C43: `genfunction` is outside the `try` of `run_sweep`, so a combination whose
  constants violate a constraint (PrimalInfeasible raised while the program is made,
  nomials/math.py:436) ends the sweep even with skipsweepfailures
  (`C43_generation_refuted`).
* C44: `if original_val:` is false for a value of 0, so sweeping or autosweeping a
  variable whose substitution was 0 deletes the substitution (`C44_sweep_zero_refuted`,
  `C44_autosweep_zero_refuted`).
* C44: there is no `finally`, so if a solve fails the model keeps the swept substitution
  (`C44_sweep_failure_refuted`, `C44_autosweep_failure_refuted`).
* C45: after `to_arrays` a lone solution's values are not in lists, so `atindex(0)`
  takes the first element of each vector variable (`C45_single_refuted`); constants of a
  sweep are kept once, so `atindex(i)` takes the i-th element of those that are vectors
  (`C45_swept_refuted`).
* C45: a variable missing from one of the solutions, as when a swept value of 0 removes
  the only terms it is in, shifts the values of the solutions after it
  (`C45_missing_key_refuted`); one that is new raises KeyError (`C45_new_key_refuted`).
* C46, C61: `if bst.splitlb:` is false for a log lower bound of 0.0, that is for a bound
  of exactly 1, so `cost_lb` returns the upper bound there and the cost is off by up to
  twice the tolerance (`C46_zero_refuted`, `C61_tolerance_refuted`).
* C46: `get_tol` takes a segment whose tangents cross within 1e-7 of an end for a
  straight line, and reports a lower bound above the cost, by a factor that is close to
  one (`C46_straight_refuted`, bounded by `C46_lower_factor`).
* C61: with a tolerance of 0 `recurse_splits` splits straight lines forever
  (`C61_ends_refuted`).
* C51: te_secant with more than 12 terms is not a Taylor polynomial of the secant:
  coefficients beyond the table come from the asymptotic formula for Euler numbers (at
  13 terms that is strictly less than the Euler number), and the docstring does not say
  so.
* C52: `(x+y)**2` and `(x+y)**3` are both printed as `(x + y)^0`: Signomial.__pow__
  counts its exponent down before it stores it in the syntax tree
  (`C52_powers_of_posynomials_refuted`).
* C52: parenthesize strips from the first `(` to the last `)` with a greedy pattern, so
  a sum between two groups is not seen: `((a+b)*x + (c+d)*y)*z` and `(a+b)*x +
  (c+d)*y*z` are both printed as `(a + b)·x + (c + d)·y·z`
  (`C52_parentheses_left_out_refuted`).
* C52: numbers that are the same to three digits have the same text
  (`C52_rounded_numbers_refuted`).
* C52: `(-(-x - x))**2` is printed as `-(-x - x)²`, which says the opposite of its value
  (`C52_signs_of_bases_refuted`).
* C36: a signomial inequality whose approximation is a constant at most 1.001 is
  dropped, so visited points can violate it by up to a thousandth (`x*2001/2000 <= x^2/2
  + 1/2` at `x = 1`).
* C36: a signomial equality is replaced by the equality of its local monomial
  approximations, so the points visited need not satisfy it in either direction (`y ==
  x^2/2 + 1/2` at `x = y = 2`).
* C36: when the approximation around a new point has a term more than the first one had,
  the term overwrites the row of the next constraint, and the solution of a true optimum
  then violates the signomial constraint (`x + y <= x^3 + 2x^2 + 4` at `x = 2, y = 19`,
  while the constraint `1/y <= 1` is lost).
* C62: printing changes the solution. The table of top sensitivities (also in
  `summary()` when there are at least seven constants) writes nan into the solution's
  own arrays wherever the magnitude is at most 0.001 (`C62_unchanged_refuted`); the next
  `summary()` then omits these variables, as variables with a nan are skipped
  (`C62_again_refuted`).
* C63: `topsenss_filter` with `nvars=0` returns all variables, as `topk[-0:]` is
  everything (`C63_no_rows_refuted`); vectors with an element in no constraint (nan) are
  never among the top sensitivities (`C63_unused_element_refuted`).
* C64: `almost_equal` raises ValueError for solutions with vectors
  (`C64_vectors_refuted`), takes nan as close to any number (`C64_nan_refuted`) and
  depends on which solution is asked (`C64_symmetry_refuted`).
* C66: an array whose longest printable dimension is not one of the last two is printed
  in lines that mix dimensions, as the code moves the last dimension to the place of the
  chosen one instead of the chosen one to the end (`C66_lines_refuted`). In LaTeX tables
  all lines of an array but the first are dropped (`C66_latex_refuted`).
* C67: building a model deletes the value from its variables (`del key.descr["value"]`,
  set.py:110), so that of two models built separately from the same variable only the
  first has its value substituted; in the second it is free
  (`C67_second_model_refuted`).
* C68: a substitution changed in a submodel for a variable declared with constant=True
  is undone in a model built from it if the variable is in the cost or in a constraint
  listed after the submodel (`C68_constants_in_cost_refuted`,
  `C68_order_of_constraints`).
* C22: as_gpconstr of a signomial constraint drops terms that clash once variables are
  substituted, and an approximation is taken to be trivially satisfied (no constraint at
  all) when its constants are within 0.001 of each other: 2.001*y**0.5*z**0.5 <= y + z
  around y = z = 1 becomes no constraint (C22_clash_drops_a_term_refuted,
  C22_tolerance_refuted).
* C69: parse_varstring looks rows up by their text: where it is part of an earlier line
  (rows `dV [L]` and `V [L]` without indentation) that line's declaration is overwritten
  and its variable never declared. After 'Variables of length' it skips 19 characters
  from the end of the line, so that a short underline makes it miss the next header and
  raise ValueError. In tables of constants `', constant=True)` is put for every `')`,
  also in labels such as friction (as in 'a'), which gives invalid code. A space at the
  end of a row without label raises IndexError.
* C70: verify_docstring looks for missing bounds only if the numbers of bounds do not
  add up, but counts the variables a docstring names even if they are not the model's
  own (those of a model that is not part of it, say): such a name can hide a missing
  bound.
* C71: expected_unbounded reads a list up to the first empty line: a list at the end of
  a docstring without one loses all lines but the first; a line of spaces, or an empty
  list, makes it take what follows for variables (AttributeError). A comma at the end of
  a line becomes part of the name.
* C63: the table of insensitive variables (`insenss_table`) is printed by the same
  function as the others, with its default cut-off 1e-3: a variable whose sensitivity is
  at most 0.001, the least sensitive kind, is left out of the table of insensitive
  variables (`C63_insensitive_refuted`).
* C73: a solution file that was cut off in its last section is read without complaint:
  the dual values after the cut are missing and the one at the cut is cut short
  (`C73_cut_refuted`). Cut anywhere before that, it is noticed (`C73_cut_partial`).
* C74: mosek_cli removes its temporary directory only when a solution is returned: every
  infeasible problem, licence error or unreadable file leaves a directory with the
  problem file in it (`C74_infeasible_refuted`).
* C75: `solve` updates the dict of default options it looks up, so an option given to
  CVXOPT once is used in every later solve by it, of whatever model
  (`C75_carried_over_refuted`; exactly which options are used: `C75_defaults_partial`).
* C76: an infeasible program that is solved in less than a second with verbosity above 0
  (the default) does not raise: `solve` returns what `debug()` returns, the solution of
  a relaxed or bounded model, as if it were the model's
  (`C76_infeasible_returns_refuted`). The guard against programs without a model tests
  for an attribute that all programs have, so those raise AttributeError
  (`C76_no_model_refuted`). A solver function that raises Infeasible rather than a
  subclass leads to UnboundLocalError (`C76_base_class_refuted`).
* C77: a program's result is cached when it is first generated: after a later solve that
  failed or did not generate one, `result` is the old one (`C77_stale_refuted`).
* C78: words after name, units and label are ignored; of two values (one may be a
  keyword) a variable takes the last and a vector the first (`C78_fourth_word_refuted`,
  `C78_two_values_refuted`).
* C79: in a vectorized environment a declared number is rounded to single precision
  (`C79_precision_refuted`), the values of an array of two dimensions are transposed or
  rejected (`C79_transposed_refuted`), those of a list run along the environment's
  dimension instead of the vector's or are rejected (`C79_list_refuted`), and a function
  that returns a number raises IndexError (`C79_linked_number_refuted`).
* C81: `m[x]` for a vector x of the model raises KeyError unless something was asked for
  by a name before: KeySet.__getitem__ updates its map only for names, so the result
  depends on earlier lookups.
* C82: `m["x[1]"]` is not the element but an array of the vector's shape with nan
  elsewhere.
* C83: `m["nope"]` raises KeyError and leaves a blank entry in the set of variables,
  after which `"nope" in m.substitutions` is True (the ValueError from unpacking nothing
  is taken for several variables). `"y" in m.substitutions` is False when several
  scalars are called y, even if all are substituted: `None == None` passes for one
  vector.
* C84: a model all of whose variables are substituted is never solved: the matrix has a
  column of zeros for constants, so solvers return one value for no variables, and
  packing the result raises RuntimeWarning ("The primal solution was not returned.").
* C85: With SignomialsEnabled, `x <= -1` is made a PosynomialInequality whose posynomial
  is `-x`; if x is substituted it counts as a constant less than 1 and is silently
  dropped. `x == 0` raises InvalidPosynomial (ZeroDivisionError with signomials enabled)
  and `x == 2*x` PrimalInfeasible, although `==` is also Python's test of equality (e.g.
  in `x in [..]`).
* C86: An array comparison in which the first pair are both numbers, such as
  `NomialArray([1, x]) <= [2, 3]`, makes an array of truth values (numpy.vectorize takes
  the type of the first result for all), so that x <= 3 is lost; a constraint set then
  refuses it with 'Invalid ConstraintSet element'. If a later pair are numbers it is
  refused, too.
* C87: a signomial constraint whose approximation is a constant up to a thousandth too
  large is dropped from the penalty program too, so the slack does not charge for it
  (`C87_exact_violation_refuted`).
* C88: which of a model's evaluated variables is evaluated first depends on the order of
  a Python set (set.py:190-194): a function that reads another evaluated variable of the
  same model works, raises KeyError or gets a wrong value from run to run. A vector of
  which one element is fixed and another is not is evaluated as a whole, and the fixed
  element's value in the solution is replaced by the function's.
* C89: `constraint_table` removes the model's name from a constraint's text wherever it
  occurs (solution_array.py:191), in variables' names too, so that different constraints
  are printed alike; `loose_table` sorts by `id()`, so that the order of models differs
  from run to run.
* C90: in a printed model the elements of two models' vectors with one name print alike:
  name_collision_varkeys looks up "x[0]", which is only registered with the model in
  front ("A.x[0]"), finds none and shows no lineage (C90_vectors_refuted). A variable
  named "A.x" prints like an ambiguous x of model A (C90_dots_refuted), and variables
  that differ only in units print alike (C90_units_refuted).
* C91: savemat replaces dots in names by underscores and loses a variable named A_x when
  x of model A is ambiguous (C91_mat_refuted); of variables that differ only in units
  all but one are missing from MATLAB files and dataframes (C91_units_refuted); when
  none of the names given in showvars is found, everything is exported
  (C91_showvars_refuted).
* C92: CSV files leave out variables whose value is 0 (C92_zero_refuted) and do not
  quote commas in labels (C92_comma_refuted).
* C93: the sensitivity of a constraint is assigned for each posynomial it stands for and
  not added up (gp.py:319), so a signomial equality, which stands for two, is reported
  with the multiplier of its second half only: one that holds the cost up with its first
  half is reported as having no effect, while its model's sensitivity counts both
  halves. A constraint in the model twice is reported with its second multiplier.
* C94: a constraint deletes its record of which terms substitution merged when it is
  first asked for sensitivities (math.py:491), so a second result
  (SequentialGeometricProgram.results after a solve, as its warnings recommend, or a
  solve with verbosity above 2) gives a merged term's multiplier to the first of its
  terms: for 2*a/x + 3/x <= 1 with a = 1, a is worth 2/5 in the first result and 1 in
  the second. The same happens in a first result to a constraint that is in the model
  twice.
* C95: because the cost's multipliers are paired with the wrong terms once constants are
  substituted (C56), sensitivities can promise costs that are not so: minimizing a*x +
  x**-2/2 with a = 1 costs 3/2 and reports 1/3 for a; it predicts at least 3/4 at a =
  1/8, where x = 4 costs 17/32.
* C89: the pattern that constraint texts are split at, `[^*]\*[^*]`, takes in the
  character after the star, and a line can be broken right after it: a long `x*speed...`
  is printed as `x*s` and, on the next line, `peed...` (`C89_breaks_refuted`).
* C96: `Sankey.link` indexes a set by the positions in its `idxlookup`, but
  `ConstraintSet.__getitem__` takes an integer that is a key as the key: the diagram of
  a set made of `{1: a, 2: b}` shows `a` twice and `b` never (`C96_keys_refuted`).
* C96: `Sankey.diagram` never clears `links`: asked again, it shows everything twice,
  and after a diagram for one variable that for another shows the links of both
  (`C96_again_refuted`).
* C96: `_links_and_nodes` counts the dots in node names, including those in the label of
  the diagrammed model: the diagram of a nested model with more than `maxlinks`
  submodels is empty (`C96_dots_refuted`).
* C97: an empty group in a dictionary of constraints is printed as `"name":` with
  nothing below, which reads as a constraint among the next (`C97_empty_refuted`).
* C97: lines of arrays after the first are indented, like what is below a model's name;
  a constraint of several lines and a model can be printed alike (`C97_lines_refuted`).
* C97: `{"left": Wing(), "right": Wing()}` is printed as `Wing` and `Wing1`: keys of
  models are not shown (`C97_keys_refuted`).
* C97: `ConstraintSet.latex` prints lists of constraints by Python's `str`, in one row
  (`C97_latex_lists_refuted`), and gives an empty set a row (`C97_latex_empty_refuted`).
* C97: `latex` does `excluded += ("root",)`: given a list it changes it, and a second
  call with the same list gives no array (`C97_latex_again_refuted`).
* C98: the diff of a sweep and a single solution pairs the first axes: with as many
  points as elements, at point i every element of a vector is compared to element i of
  the baseline; otherwise ValueError (C98_sweep_refuted).
* C98: a relative diff of variables that are all zero in both solutions raises a
  TypeError (formatting None) (C98_zero_refuted).
* C98: an array with an element that is zero in both solutions is ignored when the
  largest relative difference is given (C98_largest_refuted).
* C98: senssdiff=True raises KeyError if a shown variable has no sensitivity, as linked
  variables have none (C98_senss_refuted).
* C99: `program.results` made after a search (verbosity up to 2) checks every solution
  against the constraints of the last program: it prints that constraints are violated
  for solutions that satisfied the program they were found for (C99_checks_refuted).
* C101: warnings of a sweep are put together like values (small_classes.py:115-122): a
  warning at a later point, of a kind the first point has none of, raises KeyError and
  the whole sweep is lost (C101_new_refuted); a kind of warning missing at a point
  shifts those of later points to it, and a warning of the first point only is shown as
  if it were the solution's (C101_missing_refuted). Loose and Tight leave the
  sensitivity or values on the constraint (loose.py:25, tight.py:36-37), so that the
  tables of all points of a sweep show those of the last (C101_values_refuted).
* C102: `ConstraintsRelaxed.check_relaxed` numbers constraints by `flat()` but looks the
  original up in the set's top level: a set whose one member is a list or model with one
  constraint is relaxed and solved, and then `.left` raises AttributeError.
* C102: `ConstraintsRelaxed` of `{1: x >= 1, 2: x <= 2}`: `original_constraints[1]` is
  the constraint with key 1, so the report of the second constraint's relaxation shows
  the first as the original.
* C102: `" " * padding` with a negative `padding` is empty, so a constraint whose left
  side is printed shorter once relaxed is not aligned with the original.
* C102: `ConstraintsRelaxedEqually` adds 0.9, not 0.5, before truncating: 10.2% is
  reported as 11%.
* C102: `ConstantsRelaxed` that relaxes nothing (all constants excluded or zero) raises
  IndexError when a result is processed, from `sortrelaxed[0]`.
* C103: `sol(m)` of a Monomial with variables that are not in the solution silently
  takes them to be 1: `sol(w)` of a variable of another model is 1, `sol(5*w)` is 5
  (`getattr(posy_subbed, "c", posy_subbed)`, solution_array.py:358-360, drops what is
  left of the variables). In sweeps the Monomials themselves are returned.
* C103: after a sweep, an element of a vector variable is looked up by point instead of
  by element (keydict.py:92-94, 179-181): `sol["variables"][u[1]]` is all of `u` at the
  second point, `sol(u[1])` raises ValueError for vectors of more than one element,
  IndexError when there are not enough points, and gives the first point's value alone
  for those of one.
* C103: `sol(expr)` of an expression whose value is not positive raises
  InvalidPosynomial (solution_array.py:625 substitutes with require_positive); with
  SignomialsEnabled it returns a Signomial instead of a number.
* C104: `.value` of an expression whose value is negative or zero (such as `x - y` with
  values 1 and 3, made within SignomialsEnabled) raises InvalidPosynomial when read
  outside of SignomialsEnabled (C104_number_refuted): core.py:98 substitutes with
  require_positive left on.
* C104: `.value` of a variable whose value is 0 raises InvalidPosynomial, rather than
  being 0 (C104_variable_refuted).
* C105: a coefficient that is 1 or -1 to two digits is left out of the LaTeX of a term
  with positive exponents although others have four digits: `1.04*x` reads `x`
  (C105_ones_refuted, core.py:16-18).
* C105: exponents of 99.5 and more or below 1e-4 are printed as `x^{1e+02}`, which does
  not read as a number (C105_exponents_refuted, core.py:10-13); coefficients are
  converted to powers of ten, exponents are not.
* C106: a model with a negative constant has no sliders: v/2 is above 2v, and a slider
  whose minimum is above its maximum raises an error (C106_sliders_refuted,
  widgets.py:51).
* C106: the slider of a sweep does not cover it: by line 52 `v` is a number, so the
  lines that would extend the range (53-54) never run (C106_sweeps_refuted).
* C106: a range given under a VarKey is dropped: `ranges[key] = ranges[k]` writes the
  entry that `del ranges[k]` then removes (C106_ranges_refuted, widgets.py:36-39). As
  the caller's dictionary is changed to have VarKeys, this happens when it is used a
  second time; when other entries are left it is a KeyError.
* C106: ranges of three numbers (min, step, max), which the docstring allows, raise a
  ValueError (C106_steps_refuted, widgets.py:56).
* C106: moving a slider of a second or later instance of a model raises a KeyError, as
  the slider is called by a name with the instance's number, which is not among the
  names of its variable (C106_instances_refuted, widgets.py:64, 73; varkey.py:40).
* C106: moving the slider of a variable raises an AttributeError when another variable
  of the model has the same name in another submodel (C106_names_refuted):
  KeyMap.parse_and_index takes several scalars of one name for elements of the vector
  None. For the same reason a slider asked for by such a name is not made
  (C106_shared_names_refuted).
* C107: on Windows, where `MUL` is "*" and superscripts are not used, a term such as
  -x*y is still printed with "·" (C107_windows_refuted, core.py:64).
* C108: a variable to be swept is not swept after it was saved and read back: splitsweep
  asks whether the word is the very object "sweep" (`is`), and what pickle reads is
  another object (C108_sweeps_refuted, small_scripts.py:54). It is then a constant whose
  value is a tuple.
* C108: a function that is the value of a variable is replaced by a text when it is
  saved, those that pickle could save too; the variable read back is a constant whose
  value is this text (C108_functions_refuted, varkey.py:54-56). The function of a sweep
  is not replaced, so that a variable swept by a lambda cannot be saved
  (C108_saves_refuted).
* C108: a variable without a name is numbered in its process; read back in another it
  equals a different variable without a name that was made there (C108_unnamed_refuted,
  varkey.py:27).
* C109: `plot_1dsweepgrid` asked to show one name of several letters shows its letters,
  as texts can be iterated (C109_words_refuted, plot_sweep.py:68).
* C109: the example of the docstring of `plot_1dsweepgrid` cannot run: a swept variable
  given by its name has no `key` (C109_names_refuted, plot_sweep.py:44). The exception
  comes before the substitutions are put back, so that a variable which was 0 has lost
  its value (C109_unchanged_refuted).
* C109: variables that have values and variables that have none cannot be swept in one
  grid: KeyError (C109_mixed_refuted, plot_sweep.py:92).
* C110: sensitivities of models are summed by their printed names, so that the second
  `Wing` and the first `Wing1` share one sum and one line (C110_models_refuted,
  gp.py:320, repr_conventions.py:25).
* C110: a model whose sensitivity is 0.01 is said to have "<1E-2" (C110_cells_refuted,
  solution_array.py:76).
* C110: if only one model has a name, the table of sensitivities of models is left out,
  whatever its sensitivity and those of what is in no model (C110_shown_refuted,
  solution_array.py:89).
* C111: `x[:0]`, which is empty, is printed as x[:], and `x[0::-1]`, which is the first
  element, as x[::-1]: a 0 in a slice is taken for nothing (C111_to_zero_refuted,
  C111_backwards_refuted, repr_conventions.py:154-155, 163-164).
* C111: `A[..., 1]` is printed as A[1], another part of A: what is neither a slice nor a
  number is left out of tuples (C111_ellipsis_refuted, repr_conventions.py:152-160).
  `A[()]` is printed as A[] (C111_empty_refuted). The first million elements of more are
  printed as x[:] (C111_long_refuted).
* C112: `compare` takes a text that has as many letters as there are models for one item
  per model, so "cost" cannot be compared for four models (interactive/plotting.py:24);
  a text alone is taken for a list of its letters (plot_sweep.py:8);
  `SolutionOracle._is_cost` compares maps of terms without units, so that a posynomial
  with the cost's terms and other units is answered with the cost
  (tools/autosweep.py:178).
* C113: 17 twelfths of pi, 4.45, are printed as 1.42 pi, which is 4.46
  (C113_digits_refuted, repr_conventions.py:59-66): three digits of a multiple of pi are
  not three of the number.
* C113: a number just below a clean multiple of pi is printed without pi
  (C113_near_refuted): `12*val/np.pi % 1` is never negative, so that its `abs`
  (repr_conventions.py:59) does nothing, and rounding errors can hide multiples.
* C114: x of a class Wing1 and x of the second Wing have the same text and the same
  LaTeX (C114_numbered_refuted, repr_conventions.py:25): numbers of models are appended
  to class names without a separator.
* C114: names are printed as they are: A's variable "B.x" and x of A's B, "x[0]" and the
  first element of x, "{x}_{A}" and x of A are printed alike (C114_dots_refuted,
  C114_braces_refuted, varkey.py:63-75, 88-100).
* C115: debug() of a feasible model without constants raises UnboundLocalError
  (C115_no_constants_refuted, model.py:178-190): `tants` is bound only if there are
  substitutions.
* C115: at verbosity 2 or more a fast infeasible solve inside debug() runs debug() of
  the relaxed model (gp.py:226-230), so that relaxing constraints is never tried; if
  that returns None, AttributeError is raised. Signomial models raise AttributeError at
  verbosity 3, since programs made by sequential ones have no model
  (C115_verbose_refuted, C115_verbosity_refuted).
* C115: at verbosity 0 debug() still prints that a model is infeasible
  (C115_quiet_refuted, model.py:205).
* C116: 2 == Monomial(2) holds, but their hashes differ, so that neither finds the other
  in a dictionary (C116_numbers_refuted, data.py:44-45).
* C116: [x, x] == [x] holds as a condition, but the hash of an array in which each
  element appears twice is 0 (C116_broadcast_refuted, array.py:113-114): hashes of
  elements are xored.
* C116: looking up an array in a dictionary raises ValueError if another array of pairs
  of elements is in it, and PrimalInfeasible for [x, 2x] if [2x, x] is in it, whatever
  the hash functions (C116_lookup_refuted).
* C117: `check_solution` tests constraints with `sum > 1 + tol` and the dual's residual
  with `abs(...) > tol`, which nan passes; so a solver's nan for a variable that is not
  in the cost is accepted without a word (gp.py:377, 391).
* C118: a result that fails the check is returned all the same: the warning is only
  printed, not kept with the result's other warnings (gp.py:265-268).
* C119: `SolverLog.write` strips the end of a line before it passes it on, so that a
  solver that writes whole lines, as `sys.stdout.write("a\n")`, has them shown as one;
  and the log puts each write on a line of its own, so that `print("a", "b")` makes
  three lines (small_classes.py:75-81).
* C120: the pattern of `cleanfilename` lacks the brackets of a set of characters: it
  replaces a backslash (with a slash after it), or the five characters `"><:*` in a row,
  and leaves any other invalid character (sankey.py:30).
