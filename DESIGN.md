# Formal model of opannekoucke/sympkf — design and trusted base

## 1. What is verified

The Python sources under `/repo/src/sympkf` are read as text and transcribed, function by
function, into Gallina.  Each definition cites the file and lines it transcribes and says where
it simplifies.  The theorems are about these Gallina functions.  That the Gallina functions say
what the Python functions do is established by reading only, and belongs to the trusted base
(section 5).

Files of `rocq/theories`, by area.  `*Model.v`: transcription.  `*Spec.v`: the notions used by the
statements, written without the helpers of the model.  `*Props.v`: the property theorems
(`Cxx_...`), each followed or accompanied by examples meeting its hypotheses, and by `Print
Assumptions`.  The other files are proofs and concrete instances.

| area | Python | files |
|---|---|---|
| Python values, exceptions, dicts, lists | — | `PyBase`, `PyBaseFacts` |
| integration loops, ensembles, perturbations | `model/model.py` 8-20, 160-318 | `ForecastModel/Spec/Proofs/More/Props`, `EnsembleProofs`, `ModelProofs`, `ForecastGen*` (one-shot iterators) |
| time schemes, linear models | `model/model.py` 21-158, 294-318 | `Scalars`, `FieldFacts`, `SchemesModel/Spec/Proofs/Props`, `LinearMore`, `LinearProps`, `OrderSpec/Local/Global/Proofs/Main/Props` (orders of accuracy over R) |
| time windows | `model/model.py` 269-292 | `WindowModel/Spec/Proofs/Props` |
| finite differences | `symbolic/finite_difference.py` 4-210 | `FornbergModel/Proofs`, `FDSpec`, `FDProofs`, `FDExprModel/Spec/Proofs`, `FDSubsProofs`, `FDReal`, `FDProps`; systems: `FDSystemModel`, `SystemProps` |
| generated periodic grid class | `templates/body_FDModelBuilder.py` | `GridModel/Spec/Proofs/More/Props` |
| generated `trend`, code generation | `model_builder*.py`, `templates/footer.py` | `CodegenModel/Run/Spec/Proofs/Fail/Props` |
| strings: names, array accesses | `tool.py`, `finite_difference.py` 284-400, `model_builder_FD.py` | `StrModel/Spec/Proofs/More/Props` |
| expression trees, `Expectation`, `israndom` | `symbolic/random.py` | `SymModel`, `RandomModel/Spec/Proofs/More/Total/Inst/Props` |
| `PDESystem`, derivative orders, trainable scalars | `symbolic/util.py` 12-52, 159-333, 371-548 | `PDEModel/Spec/Proofs/Props` |
| `Eq`, `Matrix`, `CoordinateSystem`, `Compare*` | `symbolic/util.py` 55-157, 550-640 | `UtilModel/Spec/Proofs/Props` |
| multi-indices | `pkfcas.py` 1019-1189 | `PartialOrderModel/Spec/Proofs` |
| univariate substitution tree | `pkfcas.py` 1191-1271 | `TreeModel/Spec/Proofs/More/Props` |
| random fields (semantics) | — | `Reynolds`, `ReynoldsInst` |
| PKF systems | `pkfcas.py` 31-837, 839-998 | `PKFModel`, `PKFSpec`, `PKFAlg`, `PKFAtoms`, `PKFCanon`, `PKFTaylor`, `PKFClosure`, `PKFInv`, `PKFShape`, `PKFProofs`, `PKFTensor`, `PKFMain`, `PKFInst`, `PKFInstMore`, `PKFMore`, `PKFApplied`, `PKFProps` |
| ... explicit and reduced form, order of the averages | same | `PKFTimeSpec`, `PKFWords`, `PKFTime`, `PKFExplicit(Main)`, `PKFNormal`, `PKFReduced`, `PKFTimeProps`, `PKFReducedProps`, `PKFOrderSpec`, `PKFDegree(Main/Inst/Props)` |
| ... rates of change at one instant | same | `PKFVal`, `PKFRateSpec/Proofs/Main/Props` |
| ... one field on a line, literal independence of the orders | same | `PKFLine` |
| text of the generated modules, `write_module`, jinja2 | `model_builder.py` 282-338, `model_builder_manifold.py`, `templates/*.py` | `TemplateText` (generated by `tools/templates.py`), `JinjaModel`, `BuilderModel/Spec/Proofs/Main`, `ModuleSpec/Proofs/Main/Text/Indent/Props` |
| constructor of the manifold class, time scheme of generated classes | `templates/body_ManifoldModelBuilder.py`, line 4 of both bodies | `GenInitModel/Spec/Proofs`, `ModuleProps` |
| `_sympy_finite_difference` (one variable), `get_displacement`, `regularize_finite_difference` | `finite_difference.py` 155-185, 212-283 | `StagModel/Spec/Proofs/Main/Props` |
| `SymbolicPKF.subs_tree`, `gamma_def`, `gamma_subs` | `pkfcas.py` 741-760, 906-911 | `SubsTreeModel/Spec/Proofs/Main/Props` |
| `Closure.correlation_in_diffusion` | `pkfcas.py` 1308-1326 | `CorrDiffModel/Proofs/Main/Props` (on `CorrModel`) |
| `Model.window` in binary64 (`np.arange` as numpy computes it) | `model/model.py` 283-284 | `FloatModel/Spec/Proofs/Cases/Props` |
| time schemes, `predict` and generated expressions in binary64 | `model/model.py` 74-133, 190-218; `symbolic/templates/footer.py` 45-60 | `FloatScheme{Model,Spec,Proofs,Cases,Props}`, `FloatRun`, `FloatLine` |
| the diffusion and Burgers systems and the forecasts of their generated models | `symbolic/dynamics.py` 10-17, 23-25 (with the chain of C107 and `model.py`) | `LineModel/Spec/Proofs/Conv/Cases/Props` |
| energy of linear conservative dynamics | `model/model.py` 21-158 (the model of the time schemes) | `EnergySpec/Proofs/Props` |
| advection in 2D and 3D and the forecasts of the generated models | `symbolic/dynamics.py` 38-46, 62-73; the generated trend of C107 | `AdvectModel/Spec/Trend/Grid/Conv/Wave/Cases/Props`, `WindNorm`, `WindGrid`, `WindSpec`, `WindConv`, `WindMain`, `WindCases`, `WindProps` |
| the parametric dynamics of advection handed to `FDModelBuilder` | `symbolic/pkfcas.py` 560-658, 920-1017 on `dynamics.py` 38-46, 62-73; notebook on the 2D advection, cells 12, 22 | `StatModel`, `StatSmooth`, `StatInverse`, `StatSpec`, `StatMean`, `StatConv`, `StatTrend`, `StatMain`, `StatLink`, `StatCases`, `StatProps` |
| diffusion in 2D and the forecasts of the generated model | `symbolic/dynamics.py` 38, 49-57; the generated trend of C107 | `DiffuseModel/Spec/Eq/Trend/Grid/Gauge/Sym/Conv/Main/Forecast/Cases/Props` |
| the 1D advection, Kuramoto-Sivashinsky and the forecasts of the generated models | `symbolic/dynamics.py` 9-33; the generated trend of C107 | `LineMoreModel/Spec/Proofs/Forecast/Cases/Props`, `LineEnergy`, `LineStage`, `LineStep`, `LineRms` |
| the text of an expression as code | `symbolic/finite_difference.py` 345-391, 461-465 | `CodeTextModel/Spec/Proofs/Props` |
| PKF of linear dynamics and of transport | `symbolic/pkfcas.py` 80-129, 152-175, 393-658, 826-837 through PKFModel; `symbolic/dynamics.py` 31-33, 43-45, 68-70 | `PKFLinearSpec`, `PKFLinear`, `PKFTransport`, `PKFTransportMain`, `PKFTransportProps` |
| code of a derivative in the generated class (composition) | `finite_difference.py` 70-98, 285-373, `templates/body_FDModelBuilder.py` 75-80 | `ConsistModel/Spec/Proofs/Main/Trend/Final/Waves/Props` |
| class `Burgers` | `dynamics/burgers.py` | `BurgersModel/Spec/Inst/Proofs/Main/Props` |
| `PDESystem` as a container | `symbolic/util.py` 159-236 | `SysObjModel/Spec/Proofs/Props` |
| ... standard deviations | `pkfcas.py` 300-335 | `PKFStdModel/Spec/Proofs/Props` |
| ... objects, caches, shared closures | `pkfcas.py` 42-125, 560-837 | `PKFObjModel/Spec/Proofs/Shared/Main/Props` |
| names of fields and statistics | `pkfcas.py` 721-739, 917-1017 | `NameModel/Spec/Proofs/Props` |
| `Closure` | `pkfcas.py` 1273-1448 | `ClosureModel/Spec/Proofs/Hist/Main/Props` |
| Gaussian correlations | `pkfcas.py` 1328-1351, 1450-1480 | `CorrModel/Spec/Proofs/Props` |

## 2. How things are modelled

* **Exceptions** are values: `res A := Ok a | Err exn`.  Where an exception leaves a
  half-updated object, the state is returned with it.
* **Python dict**: association list in insertion order, update in place, append when new.
  **Python set iteration, and the order in which sympy applies a substitution**: an arbitrary
  rearrangement, universally quantified.  It is a function of the set, so the same set is iterated in
  the same order within one run.
* **Floating point**: numerical statements are about exact arithmetic in an arbitrary field of
  characteristic 0 (schemes), in Q (windows) or in R (consistency and convergence).  Rounding,
  overflow and NaN are *not* modelled, except in C108: `window` on IEEE binary64 (Flocq), where numpy's
  own C code for `arange` is read as specification (it is not in /repo), and in C122: the time schemes, `predict`
  and the arithmetic expressions of a generated trend on binary64 arrays, operation by operation, round to nearest even.
* **Arrays** of one fixed shape are functions from an index type or lists; aliasing of arrays is
  modelled only for the index cache (C80) and the state (C29).
* **Process pool**: the tasks are completed in an arbitrary order; `pool.map` gives the results
  by position of the task.
* **Random fields**: an arbitrary commutative Q-algebra with commuting derivations (one per
  coordinate and one for the time) and a Reynolds operator (linear, `E(E a * b) = E a * E b`,
  commuting with the derivations).  `ReynoldsInst`, `RandomInst` and `PKFInst` contain concrete worlds
  (random polynomials and trigonometric sums) in which all hypotheses hold with non-zero variances.
* **SymPy** is a dependency, not part of the verified code.  The operations used (`subs`, `doit`,
  `expand`, `series`, `solve` of a linear equation, `as_finite_difference`, `atoms`) are modelled by
  what they do on the expressions considered; Fornberg's algorithm, which
  produces the stencils, is transcribed loop by loop.

### Simplifications worth knowing

* PKF systems: the equations are `D_t u_i = polynomial` in the prognostic functions, other
  deterministic functions, their derivatives, and constants; all prognostic functions have the same
  coordinates.  Expressions are kept expanded and evaluated; the variables of a derivative are
  sorted by name; Python's `is` between sympy expressions is structural equality (sympy caches make
  both agree on the expressions in question).
* `Expectation.eval` (random.py): deterministic factors are all taken out; sympy's matcher with
  `exclude` may leave some of them in one case, which changes the form but not the value.
* `Closure`: the correlation is given by its Taylor coefficients; `series`, `solve` and the erasing of
  derivatives are arbitrary functions.
* Generated code: the printed expression is the expression (printing and parsing are not modelled
  except for the names and array accesses, `StrModel`).
* `Burgers`: `.subs(g, 1/s).doit()` is modelled by the rule D(1/s) = -D s/s^2; `exec` is its outcome (names bound or exception).
* Templates: the texts are verbatim; jinja2 is modelled for the syntax they use (names, attributes, `for`, `if`, `-`), default settings,
  no escaping.  SymPy's printer and the finite-difference code of a derivative are arbitrary texts on one line (C102).  Python is
  represented by its rules on comments, quotes, brackets and indentation and by its keywords, not by its grammar.
* `isolate` is modelled on the equations that the package gives to it (linear in the trend).

## 3. Properties and proofs

| id | modelled | proof |
|---|---|---|
| C01-C05, C07 | `forecast`, `predict`, `_check_saved_times` over arbitrary state/time types and fallible scheme | induction on the window against an inductive stepping relation |
| C06 | `ensemble_forecast`, `Parallel.run` with workers finishing in any order | permutation argument; invariant of the pool |
| C08, C10-C15, C17 | schemes over an arbitrary field of characteristic 0 | field identities, induction over the window |
| C09 | `make_M` | transposition identity + counterexample |
| C16 | scheme table as state machine | induction over the call history |
| C18, C19 | `arange` over Q | ceiling arithmetic |
| C20, C97 | schemes over R^n, trends differentiable along the solution | Taylor-Lagrange, Lipschitz stability, discrete Gronwall |
| C21-C23 | Fornberg weights on the points chosen by the code | moments of binomial sums; Taylor-Lagrange |
| C24, C25 | rewriting loop on derivative expressions | termination measure, commutation |
| C26-C28, C30, C31, C79-C82 | generated class as state machine | invariants; sums over Z/n |
| C29, C76, C77, C88-C91 | generated trend as a list of assignments in a name environment | simulation under distinct names; counterexamples |
| C32-C35, C83, C87 | string functions | induction on strings |
| C36, C37 | multi-indices | enumeration exact, NoDup, fuel sufficient |
| C38-C41 | substitution tree as state machine over E-terms | semantic soundness in any Reynolds algebra; invariant of levels |
| C42-C45, C84 | expression trees, `israndom`, `Expectation.eval` | structural induction with denotation |
| C46 | `internal_closure` rules | algebraic identities in any Reynolds algebra |
| C47-C52, C92 | the derivation pipeline on differential polynomials | soundness of each rewriting step |
| C53, C54 | matrices of any size over a differential ring | matrix calculus |
| C55-C59, C95 | system assembly, caches, heap with shared dict, dict iteration | state-machine invariants and counterexamples |
| C60, C61 | string naming | injectivity lemmas, counterexamples |
| C62-C65 | `Closure` state machine and Taylor coefficients; correlations over R | counterexamples + exact characterisation; derivatives with Coquelicot |
| C66-C69, C85, C86 | `PDESystem` | list/set reasoning |
| C70-C75 | `Eq`, `CoordinateSystem`, `CompareExpression`, misc. | direct |
| C78, C98 | `forecast_tl` with repeated times; one-shot iterators | counterexample; exact characterisation of what is saved |
| C93, C94, C96 | shape of the computed systems | invariants carried through every step of the pipeline |
| C99 | `std_system` | equivalence with the variance system |
| C100 | values of the right-hand sides without assuming the dynamics | valuation in which time derivatives are free, followed through the substitutions |
| C101 | class `Burgers`, Python scoping of `exec` | confluence check evaluated for every order; ring identities; curves on the sphere as random fields |
| C102 | jinja2 on the template texts, `_render`, `write_module` | templates parsed and cut into lines by computation, rendering proved line by line for every context |
| C103 | constructor of the manifold class | dictionary updates |
| C104 | staggered differences regularised | the sequence of substitutions is one simultaneous substitution (no image is a staggered point); values by scaling of the central stencil |
| C105 | subs_tree of an object with memory, gamma_subs | coherence of the caches (C56) with the normal forms of the tree (C38-C41); every computation makes the degrees grow |
| C106 | correlations in diffusion and in aspect | real analysis of C65; form of an inverse matrix; inequality of the determinants in dimensions 1 and 2 |
| C107 | the chain PDE system, generated trend, finite differences, periodic grid | bounds of the central differences by the derivatives along every coordinate; wrapped indices are points moved by periods; induction on the right-hand sides |
| C108 | `window` on Flocq's binary64, numpy's length and fill rules; `forecast` on float times | rounding-error analysis (standard model with underflow term), monotone rounding |
| C109 | the literal systems of `dynamics.py`, `pde_system`, the generated trend on one periodic coordinate, `forecast` with euler/rk2/rk4 over the reals | maximum principle (a step is an average of Euler steps, which are convex combinations), Taylor bounds in time, consistency of iterated differences, discrete Gronwall; examples: the Cole-Hopf wave and a decaying sine |
| C110 | the time schemes and `forecast` over the reals with a linear trend skew for an arbitrary inner product | a step is the truncated exponential; the energy of the truncation by skewness; modes give the exact factor per step; leapfrog by the quadratic invariant and Cauchy-Schwarz; examples: the rotation of the plane |
| C111 | the generated trend of C107 for the two systems, `forecast` with euler, rk2, rk4, over the reals | the trend computed through the chain of C107; summation by parts on the periodic grid; the trend restricted to the grid is linear and intertwined (C13), so a step is the truncated exponential (C110: skewness, norm at most the Courant sum); consistency by iterating the difference operators on the derivatives of the solution, Taylor in time, and adding the local errors in the norm; examples: a jet, a travelling wave on 8 x 4 points |
| C112 | PKFModel on linear equations and on transport with growth and source in d dimensions | number of field and error factors kept by the substitutions, so averages in the mean equations would have one factor, while those left have two (C96); tensors by the absence of averages in all substituted values; values from C100 (rates) and calculus in the ring: the normalised error is transported, product rule under the average for the metric, derivative of an inverse for the tensors; examples: advection_in_2D, a sheared wind in 1D, the limits of the statement |
| C113 | as C111, winds that vary | the trend is the sum of a conservative operator -1/2 sum (w D + D w), of norm at most sum max\|w_k\|/h_k, and of an operator bounded by half the slopes of the winds; rk4 of the sum differs from rk4 of the conservative part by O(dt), hence growth by exp; the values of the solution and of its derivatives in time satisfy the discrete equation up to h^2, the iterates of the trend amplify this by powers of dt*norm, which is bounded; discrete Gronwall; the winds (2,0,2,0) on 4 x 1 points refute zero growth under zero divergence |
| C114 | the system in aspect of advection, expanded and without inverse (as sympy displays it in cell 12 of the notebook; the order of the terms is that of the axes), the class generated from it, ensembles of N weighted smooth members | C114_equations: same left-hand sides as `in_aspect` and right-hand sides of the same value in every differential Reynolds algebra (C112). C114_dynamics: smooth functions closed under products, square roots away from 0 and matrix inverses; the normalized errors are carried, hence the metric is a transported covariant tensor and its inverse contravariant. C114_converges: the rows of the trend are a transport plus a mixing matrix made of the slopes of the winds (`statistics_trend`), a bounded perturbation; the argument of C113 for the vector of the rows |
| C115 | diffusion_in_2D before and after doit(), the class generated from it, constant tensors | C115_equation: Leibniz in every differential algebra. C115_scheme: the generated trend of C107 on the seven terms. Constant tensors give a symmetric operator A with 0 <= -<a, A a> <= 4 (k11/h1^2 + k22/h2^2) <a, a> (summation by parts, Cauchy-Schwarz for the mixed term); euler and rk2 are averages of powers of 1 + dt A, rk4 by a polynomial identity up to 2.78; the checkerboard is an eigenvector for the bound |
| C116 | the same class, any arrays; smooth tensors at the points of the grid | C116_budget: summation by parts. C116_bounds: 1 + dt A has nonnegative weights of sum 1, and the Taylor polynomials of orders 1, 2, 4 are convex combinations of powers of 1 + dt A. C116_converges: Taylor with derivatives up to the fourth, the argument of C115 in the maximum norm |
| C117 | advection (dynamics.py 28-33) with its two functions named u, the class generated from it | the generated program of C107 assigns the constant function u after the prognostic u; the rate does not depend on the state, so every scheme adds dt times it. C117_advection_refuted: cos(x - t) on the period 2 pi |
| C118 | kuramoto and burgers, the classes generated from them | the generated trend of C107 on the three terms; u d1 u, d2 u and d4 u sum to zero over a period |
| C119 | the same; solutions with bounded derivatives | energy method: the linear part loses nu dt |d1 w|^2 per step under the stability condition (summation by parts, Cauchy-Schwarz), which absorbs the difference of the nonlinear terms as long as the error is at most 1/40; rk2 and rk4 are polynomials of the linear euler step plus perturbations by the stages. Taylor in space and time bounds the defect; Gronwall, and n0 large enough that the error stays small |
| C120 | code_finite_difference with both loops over strings, class Code; a function is its printed name and, for each argument, text, symbols and displacement | str.replace of a delimited word in a text of delimited words, by induction over the text; functions already replaced contain no opening parenthesis after a name. C120_order_dependent: two names, one the end of the other |
| C121 | SymbolicPKF of C51 on the systems of `PKFCoupledSpec` (one wind, linear reactions) | the rates of C51 (C112 machinery) with the Taylor coefficients of the dynamics; the normalised error of field i moves by the errors of the others in its units minus their regression on it. C121_order_zero: the averages left are of order 0 (C96) and reduced (C94), so there are none |
| C122 | `FloatSchemeModel`: the schemes and expressions on Flocq binary64, in the order of the operations of Python; `predict` of ForecastModel on doubles | running bounds (magnitude, error, distance to zero, no overflow) composed by one lemma per operation; induction along the steps of predict; for the diffusion the contraction of C109 gives K = 1. C122_sum_refuted and C122_leapfrog_refuted by computed witnesses |
| C123 | `forecast_tl` of ForecastModel with the schemes of SchemesModel, on reals; the generated Burgers trend of C109. `TangentSpec`: what a tangent linear trend is, the joint dynamics of a state and a perturbation | first order expansions in h (families of states indexed by h) are carried through each scheme, then through `forecast` by simulation (`forecast_sim`); constants made uniform over the finitely many saved times and perturbations. C123_exact_refuted: du/dt = u^2 |
| C124 | `generated_trend` of LineModel (PDESystem, code of the trend, finite differences, caches) for any system without exogenous function, twice: the equations, and the equations with their tangent linear equations. `TangentSysSpec`: polynomials, the rules of the sum, product and power, what a class generated from equations is | the trend of each class is the value of its right-hand sides on the arrays (C29 with the tensor stencils of C107); expansion of that value to the second order by induction on the polynomial; this gives a tangent in the sense of C123; the second class simulates the joint dynamics. Instances: Burgers for every enumeration, a reaction of two fields with a square and a source (Example) |
| C125 | `BuilderObjModel`: the object (system, list of equations, name, the ten caches), each property as a read that may fail and leaves the caches it has filled, the order of the reads inside the pseudo-algebraic system, the trend and `_render`; `write_module`; histories of reads, changes in place, renamings, assignments | invariant of the caches under reads; a cache once filled is kept; a state from which the trend always fails is preserved by every action. After an assignment of `pde_system` the caches are described property by property, and the code is that of the mixed system (`mixture`). The text is that of `builder_of` (C102) rendered |
| C126 | no new model: `ensemble_forecast`, `forecast`, `make_M` over the reals; the statistics (`EnsStatSpec`) and the tangent linear dynamics (`TangentSpec`) are specifications | the members are the forecasts of the states (C07); affine forecasts (C08); rows of make_M (C09); expansion in h of C123 with bounds on the carried perturbations, and linearity of the tangent linear forecast by running three perturbations together |
| C127 | `PDESystem.__init__` (list kept by reference), `__iter__` (a generator that reads the list when advanced), `__getitem__`, `__repr__`; lists, systems and iterators with identity | invariant of a generator along any program; induction on programs; splitting of the text into lines |

Every property has theorems for its full statement; where the natural reading of the API is false
of the model, the counterexample is a theorem named `..._refuted` (section 4).  `MANIFEST.json` maps
properties to theorems.

## 4. Findings

Behaviour of the code that contradicts what a user would expect; each is a theorem about the
model (name in parentheses).

Integration (`model/model.py`)
* `saved_times` given as a generator: `time in saved_times` consumes it, most states are lost without
  error (C98_same_as_list_refuted).
* A time listed twice in `saved_times` makes `forecast_tl` subtract the reference and divide by `h`
  twice (C78_forecast_tl_duplicates_refuted).
* `make_M` returns the transpose of the propagator (C09_make_M_matvec_refuted).
* The exception raised by a parallel ensemble depends on the schedule
  (C06_exception_depends_on_schedule_refuted).
* `IdentityModel` with leapfrog is not stationary when its two states differ (C17_leapfrog_not_stationary_refuted).
* An empty window raises IndexError from `window[-1]` (C05).

Finite differences and generated models
* The replacement order of derivatives matters: increasing orders would be wrong
  (C25_increasing_order_refuted); the code's decreasing order is right (C25).
* Names: `clean_latex_name` is not injective (C32_injective_refuted); textual replacement of `dx` breaks
  names that have another as prefix, field names containing `dx`, and LaTeX coordinates
  (C33_prefix_names_refuted, C33_field_name_refuted, C35_name_recovered_refuted, C82, C83); the
  coordinates extracted from a displaced argument depend on set order for names such as `d..`
  (C34_order_independence_refuted, C87_depth_refuted); derivative variables of two different
  derivatives may have the same name (C76_unique_refuted, C76_kinds_disjoint_refuted).
* A pair of fields `u` and `du` makes the generated trend write into the caller's state
  (C29_state_written_refuted); a field `np` shadows numpy (C90); `dynamics.advection` cannot be
  integrated because its velocity and its field have one name (C91_advection_refuted).
* `X` arrays are built with numpy's default `xy` indexing: the first two axes are exchanged
  (C79_field_shape_refuted).  `index()` hands out the cached array itself
  (C80_pure_under_writes_refuted).  A constant called like a grid attribute replaces it
  (C81_grid_preserved_refuted).
* An equation for `D_t D_x u` is implemented as the trend of `u`; `sin(u)` is translated in a way that
  depends on the order of a set (C77_mixed_refuted, C77_nested_refuted).  Square roots,
  integrals, coordinates or trainable scalars on the right-hand side give a module whose trend raises
  (C88); exogenous functions need `compute_exogenous` (C89).

Symbolic tools
* `Expectation` keeps only the first variable of a mixed derivative (C44_mixed_refuted).
* `israndom` ignores random integration bounds (C42_random_bounds_refuted);
  `Expectation(X).has(Expectation(X))` is false (C84_contains_itself_refuted).
* `f(x, t)` is classified as a constant function, time has to come first (C67_time_last_refuted); a
  second prognostic function of another coordinate does not extend the coordinates
  (C69_other_coordinate_refuted); a prognostic function with two equations is listed twice
  (C85_twice_refuted); trainable scalars of one name are one object (C86).
* `Eq` operations raise when an equation degenerates to a truth value (C71); `div` refuses compositions and
  truncates silently (C72, C72_composition_refuted); `2a` and `3a` have no common term
  (C73_coefficients_refuted).
* `all_of_degree` without coordinates raises; the tree without coordinates depends on history
  (C41_history_without_coordinates_refuted); without `self_substitution` the rules of the tree are not in normal form
  (C40_not_without_self_substitution_refuted).

PKF
* `in_diffusion` omits the cross covariances (C55_in_diffusion_closed_refuted).
* `set_closure` keeps a reference to the caller's dictionary: two objects sharing it keep stale systems
  (C57_sharing_refuted).  Without spatial coordinate, a query that failed succeeds when repeated, with averages left that the
  internal closure knows
  (C95_expectation_refuted).
* `unclosed_terms` may list a term that is a known parameter, E[(D_x eps)^2], the metric (C58_unclosed_is_unknown_refuted).
* `expectation_system` does not apply the substitution tree (C94_expectation_refuted); a first-order
  dynamics may need a closure (C96_first_order_refuted).
* A foreign random term makes `_apply_internal_closure` modify the set it iterates on, RuntimeError (C59).
* The covariance of `a, bc` has the name of that of `ab, c` (C60_unique_refuted), and may be the name of a field
  (C60_field_refuted); metric entries of coordinates `x, xx` collide (C61_distinct_refuted); fields
  `u_1` and `u_{1}` share all their statistics (C61_fields_refuted).
* `std_system`: the comparison that searches the time derivative is never true; the result is right
  because the left-hand side has a single derivative (C99).
* Without a spatial coordinate nothing can be computed, IndexError (C92).
* `Burgers(n)` always raises NameError: `exec` inside the function `factory` does not define a name that the
  compiled `return ClosedPKFBurgers` can see (C101_constructor_refuted).
* A constant or function whose cleaned name is a Python keyword (`\lambda`), or whose trend name is one (a function `ef`),
  gives a module with a SyntaxError (C102_keyword_refuted, C102_keyword_breaks).
* Classes whose names differ only in case are written to the same file (C102_overwritten_refuted).
* A class generated by ManifoldModelBuilder ignores `time_scheme=...` and accepts any name (C103_scheme_refuted).
* regularize_finite_difference multiplies odd derivatives of order o by 2^(o-1): right for o = 1, four times too large for the third derivative (C104_third_refuted, C104_derivative).
* The property subs_tree depends on what was asked before: {} for a new object (C105_history_refuted).
* The localised function of LocGaussianClosure is not symmetric when its tensor varies (C106_loc_symmetric_refuted).
* A field without the period of the grid: the generated derivative at the seam does not converge (C107_periodic_needed).
* `window(0.3)` with `dt=0.1` ends at 0.30000000000000004, so `forecast(window, u0, saved_times=0.3)` is `{}` (C108_saved_end_refuted); `saved_times=3*dt` works (C108_last). Far from zero numpy's `start + i*delta` drifts: from 2**48 with `dt=0.1` the eleventh point is 2.5 steps late (C108_drift_refuted). `window(t, t)` is empty for `t=2.**60`, `dt=1.` (C108_single_refuted): whether the start is a point depends on the rounded `end+dt/3` (C108_boundary).
* The generated diffusion model with euler and 2 kappa dt > h^2 diverges from an arbitrarily small saw tooth; nothing in the generated class checks the step (C109_unstable).
* euler and rk2, both offered by `Model`, increase the energy of every undamped oscillation at any non-zero step; only rk4 (steps up to 2 sqrt 2 / m) and leapfrog (dt m < 1) can be used for long runs of linear waves or advection (C110_unstable).
* the model generated from `advection_in_2D` or `advection_in_3D` conserves the sum of the carried field only up to the discrete divergence of the wind (C111_mass); with euler or rk2 it is unstable at every step: a perturbation on a wave of four points along the wind grows without bound (C111_unstable).
* a wind without discrete divergence, hence a conserved sum, can still increase the sum of squares of the field (C113_divergence_free_refuted); the growth is bounded by the slopes of the winds along their own axes (C113_energy).
* the model generated from `diffusion_in_2D` does not conserve the sum of the field when the tensor varies, because the generator discretises the expanded divergence (C116_conservation_refuted, C116_budget); with a mixed component it creates negative values at every step (C116_positivity_refuted); beyond 2 (rk4: 2.79) for dt 4 (k11/h1^2 + k22/h2^2) it is unstable and nothing checks the step (C115_unstable).
* `advection` of dynamics.py (28-33) gives the field and the wind the same name u: the generated trend overwrites the field by the wind and computes - wind d(wind)/dx, whatever the field (C117_scheme, C117_forecast); forecasts do not advect (C117_advection_refuted). Line 28 should name the field c.
* `code_finite_difference` (finite_difference.py 361-366) replaces the text of the functions in the order of a set: with the functions u and \nu the result is `\nu*u`, not valid Python, when u comes first and `nu*u` otherwise (C120_order_dependent, C120_order_refuted). The orders differ from run to run.
* the documentation of `Code` (finite_difference.py 405-411) announces fp1_u_xy and fm2_u_xy; the code gives f_u_xyp1 and f_u_xym2 (C120_docstring_refuted).
* the equation of a cross covariance keeps E[eps_A D eps_B] and E[D eps_A eps_B] for fields transported by the same wind; their combination is always the derivative of the covariance, so that the equations of means, variances and covariances are closed, but SymPKF reports unclosed terms (C121_closure_refuted, chemical transport model of the notebooks).
* in double precision the sum of a field over the grid is not conserved by a step of the diffusion, and a step of leapfrog is not undone by the opposite step (C122_sum_refuted, C122_leapfrog_refuted): C12, C28 and the reversibility of C14 hold up to the errors bounded in C122 only.
* `forecast_tl` (default h = 1e-4) returns a difference quotient, not the tangent linear forecast: exact for affine trends (C08), off by exactly h after one step of du/dt = u^2 (C123_exact_refuted).
* C127: a `PDESystem` keeps the list of the caller but computes its attributes once: after `l.append(eq)` the system iterates over the new equation although its functions, constants and derivatives are in no attribute. `PDESystem((eq1, eq2))` raises AttributeError.
* C126: with `M = make_M(window)`, the covariance of the final states of an ensemble is `M.T @ P @ M`; the usual `M @ P @ M.T` is wrong unless M is symmetric (consequence of C09).
* C125: a `ModelBuilder` keeps the pseudo-algebraic system even when the trend then fails (KeyError for an equation added to the list): correcting the equations does not correct the builder. After `code` has been read, assigning `class_name` makes `write_module` write the old class in a file with the new name; assigning `pde_system` after any property was read mixes the two systems.

Closures
* `closure_by_order` divides by |alpha|! instead of alpha! (C62_mixed_refuted); its cache is empty after
  `taylor`, contains terms of other orders, and is overwritten by `in_metric` (C63_*_refuted);
  `in_metric_by_order` confuses orders with indices (C64).
* The local Gaussian correlation written with the metric lacks a factor 1/2 (C65_metric_refuted); the base
  metric of the aspect form is `1/s + s'^2/(8 s^2)`, not `1/s` (C65_base_form).

## 5. Trusted base

* The Coq 8.16.1 kernel (and `coqchk`, which re-checks every compiled file).
* The axioms listed in section 6, all of the Coq standard library.  The development declares none.
* The transcription Python -> Gallina, and the modelled behaviour of Python, SymPy and numpy
  described in section 2 and in the comments of the `*Model.v` files.
* The wording: that the Coq statements say what the English statements of `properties.jsonl` say.

Not modelled at all: LaTeX/Jupyter rendering (`_repr_html_`, `_repr_latex_`,
`in_metric` display), the rest of jinja2, the operations of the manifold given to a model, warnings, floating point outside `window`, the schemes, `predict` and generated arithmetic expressions (powers and other functions in doubles are not modelled), memory and time,
mixed derivatives in `_sympy_finite_difference`, SymPy's `simplify`, the notebooks and tests.

## 6. Assumptions per theorem

Generated by `tools/assumptions.py` from the output of `Print Assumptions` (which every `*Props.v`
prints as well during the build).

<!-- ASSUMPTIONS -->
* **Closed under the global context** (no axiom) — 325 theorems:
  C01_forecast_keys, C01_forecast_values, C02_restriction_of_default, C02_saved_times_filter, C02_scalar_float, C03_predict_fails_iff_forecast_fails, C03_predict_is_forecast_values, C03_predict_rows, C04_forecast_restart, C05_forecast_failures, C06_ensemble_failure, C06_ensemble_memberwise, C06_ensemble_ok_iff, C06_ensemble_schedule_independent, C06_exception_depends_on_schedule_refuted, C07_ensemble_keys, C09_make_M_rows, C11_forcing_not_beyond_refuted, C12_linear_invariants, C13_forecast_intertwines, C13_step_intertwines, C14_leapfrog_step, C14_leapfrog_two_states, C15_splitting_KeyError, C15_splitting_empty, C15_splitting_sequential, C15_splitting_trend_step, C15_splitting_update_first, C16_active_scheme_unique, C16_constructor, C16_set_history, C16_set_result, C18_window_empty, C18_window_last, C18_window_points, C18_window_spacing, C18_window_zero_dt, C19_randstate_0, C19_randstate_steps, C21_stencil_is_central_difference, C21_stencil_symmetric, C22_exact_on_polynomials, C22_not_exact_beyond, C25_increasing_order_refuted, C25_iteration_order_irrelevant, C26_history_answers, C26_index_after_any_history, C27_read_is_translation, C27_shift_identity, C27_shifts_commute, C27_shifts_compose, C28_conservation, C28_summation_by_parts, C29_rows, C29_state_written_refuted, C30_constants, C31_empty_axis, C31_grid, C31_lengths_validated, C32_characterwise, C32_compositional, C32_idempotent, C32_identity_on_plain_names, C32_injective_refuted, C32_result_clean, C33_field_name_refuted, C33_prefix_names_refuted, C33_spacings_replaced, C34_all_arguments, C34_coordinates_recovered, C34_order_dependent_names, C34_order_independence_refuted, C34_wrong_number_of_symbols, C35_displacement_recovered, C35_name_recovered_refuted, C35_off_grid_rejected, C35_zero_displacement_is_bare, C36_equality, C36_formats_describe, C36_invalid_type_error, C36_negative_orders_lost_by_sequence, C36_round_trips, C37_all_of_degree, C37_degree, C37_no_coordinate, C38_rules_are_identities, C39_complete, C39_only_pairs, C40_normal_forms, C40_not_without_self_substitution_refuted, C41_default_degree, C41_history_independent, C41_history_without_coordinates_refuted, C42_answers, C42_average_never_random, C42_israndom_sound, C42_without_omega_never_random, C43_deterministic_unchanged, C43_distribute, C43_equation, C43_fully_distributed, C43_sound, C43_sound_without_mixed_derivatives, C43_total, C44_first_variable_only, C44_single_variable, C45_idempotent, C45_result_not_random, C46_internal_closure, C47_error_system, C47_expansion, C47_linear, C48_variance_system, C49_epsilon_system, C50_metric_system, C51_cross_covariance_system, C52_expectation_system, C53_in_diffusion, C53_inverse_derivative, C54_in_aspect, C54_inverse_derivative, C55_closure_applied, C55_in_diffusion_closed_refuted, C55_in_metric, C56_history, C57_callers_dict, C57_sharing_refuted, C57_stale, C58_unclosed_is_unknown_refuted, C58_unclosed_terms, C59_foreign_random, C60_asymmetric, C60_errors, C60_field_refuted, C60_unique_refuted, C60_value, C61_distinct, C61_distinct_refuted, C61_fields_refuted, C61_index_error, C61_kinds, C61_same_lengths, C61_symmetric, C61_tensors, C62_derivative, C62_mixed_refuted, C62_right_iff, C62_value, C63_closures_complete, C63_extra_refuted, C63_history, C63_metric_overwrites_refuted, C63_missing_refuted, C63_taylor_empties, C64_key_error, C64_labels, C64_other_dimensions, C64_two_dimensions, C66_partition, C67_time_first, C67_time_last_refuted, C68_constants, C69_coordinates, C69_failure, C69_other_coordinate_refuted, C70_isolate, C70_multiple, C70_negation, C70_product, C70_sides, C70_sum_and_difference, C71_degenerate, C71_sum_of_truth_value, C72_composition_refuted, C72_extra_components_ignored, C72_gradient_fails, C72_laplacian, C73_coefficients_refuted, C73_equation, C73_partition, C73_same_terms, C74_count, C74_sum, C75_determines, C75_enumerates, C75_zip, C76_derivative_names_unique, C76_kinds_disjoint, C76_kinds_disjoint_refuted, C76_unique_refuted, C77_accepted, C77_mixed_refuted, C77_nested_refuted, C77_rejected, C77_replaced, C78_forecast_tl_duplicates_refuted, C79_field_shape_refuted, C79_meshgrid_shape, C80_pure_under_writes_refuted, C80_write_is_seen, C81_grid_preserved_refuted, C81_reserved_name_replaced, C82_spacing_before_x, C83_raw_coordinate_unknown, C84_contains_itself_refuted, C84_has, C84_never_contains_itself, C85_in_order, C85_twice_refuted, C86_other_names, C86_shared, C87_depth_refuted, C87_shifted, C88_names, C88_square_root, C88_unreadable, C89_default_exogenous, C90_np, C91_advection_refuted, C92_no_space, C93_explicit_errors, C93_explicit_parameters, C93_explicit_pkf, C94_apply_reduced, C94_expectation_refuted, C94_internal_keys, C94_systems_reduced, C95_expectation_refuted, C95_retry, C96_closed, C96_first_order_refuted, C96_one_field, C96_orders, C96_sharp, C96_unclosed, C98_ensemble, C98_ensemble_ok, C98_ensemble_parallel, C98_forecast, C98_forecast_all, C98_forecast_fails, C98_forecast_none, C98_forecast_tl, C98_predict, C98_same_as_list_refuted, C98_served, C99_equivalent, C99_std, C100_order_errors, C100_order_pkf, C100_pkf_rates, C100_rates, C101_closed, C101_closure_error, C101_constructor_raises, C101_constructor_refuted, C101_p18, C101_unclosed_term, C102_file, C102_indentation, C102_keyword_breaks, C102_keyword_refuted, C102_manifold_code, C102_no_keyword, C102_overwritten_refuted, C102_statements, C102_trend_program, C103_manifold_constructor, C103_scheme_FD, C103_scheme_ignored, C103_scheme_refuted, C104_derivative, C104_first, C104_on_the_grid, C104_refused, C104_regularized, C104_system, C104_system_refused, C104_third_refuted, C105_gamma, C105_grows, C105_history_refuted, C105_silent, C105_subs_tree, C112_linear_closed, C112_linear_means, C112_transport, C114_equations, C115_equation, C120_cache, C120_docstring_refuted, C120_functions_replaced, C120_order_dependent, C120_order_independent, C120_order_refuted, C121_closure_refuted, C121_coupled, C121_exchange, C121_means, C121_order_zero, C125_any_order, C125_appended, C125_assign, C125_assign_refuted, C125_edit_ignored, C125_from_equations, C125_frozen, C125_rename_refuted, C125_repair_refuted, C125_retried, C125_written, C127_attributes, C127_attributes_refuted, C127_constructor, C127_exhausted, C127_index, C127_iteration, C127_iteration_ends_refuted, C127_reachable, C127_reads, C127_shared, C127_snapshot, C127_text, C127_text_functions, C127_text_refuted

* `FunctionalExtensionality.functional_extensionality_dep` — 17 theorems:
  C08_forecast_tl_affine, C09_make_M_is_transpose, C09_make_M_matvec_iff_symmetric, C09_make_M_matvec_refuted, C10_linear_step_is_truncated_exp, C11_forcing_exact, C14_leapfrog_reversible, C17_identity_forecast, C17_identity_leapfrog, C17_leapfrog_not_stationary_refuted, C24_mixed_is_tensor_product, C24_variable_order_irrelevant, C25_simultaneous_replacement, C25_system, C42_random_bounds_refuted, C44_mixed_refuted, C101_no_exact_closure

* `ClassicalDedekindReals.sig_forall_dec`, `FunctionalExtensionality.functional_extensionality_dep` — 31 theorems:
  C109_burgers_scheme, C109_diffusion_scheme, C109_unstable, C110_leapfrog, C110_mode, C110_step, C111_mass, C111_scheme, C115_mass, C115_scheme, C115_unstable, C116_bounds, C116_budget, C116_conservation_refuted, C116_positivity_refuted, C117_forecast, C117_scheme, C118_burgers_sum, C118_kuramoto_scheme, C118_kuramoto_sum, C123_burgers, C123_exact_refuted, C123_tangent, C124_burgers, C124_tangent_class, C126_affine, C126_burgers, C126_matrix, C126_matrix_refuted, C126_mean_refuted, C126_small

* `ClassicalDedekindReals.sig_forall_dec`, `ClassicalDedekindReals.sig_not_dec`, `FunctionalExtensionality.functional_extensionality_dep` — 13 theorems:
  C65_aspect_form, C65_metric_form, C65_metric_refuted, C101_gaussian, C107_periodic_needed, C110_rk4, C110_unstable, C111_energy, C111_unstable, C113_divergence_free_refuted, C114_dynamics, C115_energy, C117_advection_refuted

* `ClassicalDedekindReals.sig_forall_dec`, `ClassicalDedekindReals.sig_not_dec`, `Classical_Prop.classic`, `FunctionalExtensionality.functional_extensionality_dep` — 53 theorems:
  C20_euler, C20_leapfrog, C20_one_more_refuted, C20_rk2, C20_rk4, C23_convergence, C23_second_order_consistency, C65_base_form, C65_variable_aspect, C97_euler, C97_rk2, C97_rk4, C106_bounds_1, C106_bounds_2, C106_diagonal, C106_diffusion_is_aspect, C106_diffusion_metric, C106_loc_symmetric_refuted, C106_symmetric, C107_derivative, C107_trend, C108_boundary, C108_closest, C108_drift_refuted, C108_empty, C108_last, C108_length, C108_points, C108_saved, C108_saved_end_refuted, C108_single_refuted, C108_starts, C108_steps, C108_zero_step, C109_burgers, C109_diffusion, C111_converges, C113_converges, C113_energy, C114_converges, C115_converges, C116_converges, C119_burgers, C119_kuramoto, C122_diffusion, C122_expression, C122_forecast, C122_leapfrog, C122_leapfrog_refuted, C122_solution, C122_step, C122_sum_refuted, C122_trend
<!-- /ASSUMPTIONS -->

## 7. Wrong programs

`seeded/LOG.jsonl` records edits of the model in the manner of realistic bugs, made in a copy outside
the repository with `tools/mutate.py`: each line gives the definition, the edit, the claim it breaks,
the theorems whose proofs fail, and the theorems tightened because they should have failed.
