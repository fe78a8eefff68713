{"id": "C01", "title": "forecast returns exactly the saved window times with the iterated state", "statement": "Model.forecast(window,u0,saved_times) returns a dict whose keys are exactly the times that occur in the window and in saved_times, listed in order of first occurrence in the window, and whose value at a key is the state obtained by applying the selected time scheme once per earlier window interval, with dt equal to the length of that interval (the last occurrence wins if a time is repeated).", "quantifier": "every window, initial state, saved_times collection, trend and time scheme", "why_tests_cant": "windows, saved_times and schemes are unbounded; tests sample a few", "anchors": ["src/sympkf/model/model.py:Model.forecast", "src/sympkf/model/model.py:Model._check_saved_times"]}
{"id": "C02", "title": "saved_times is only a filter", "statement": "Changing saved_times never changes a computed state: forecast with saved_times is forecast with the default (whole window) restricted to the saved times; a scalar float t behaves as [t].", "quantifier": "every window, state and pair of saved_times arguments", "why_tests_cant": "quantifies over all pairs of arguments", "anchors": ["src/sympkf/model/model.py:Model.forecast", "src/sympkf/model/model.py:Model._check_saved_times"]}
{"id": "C03", "title": "predict and forecast agree", "statement": "Model.predict returns, as a sequence in window order, the state at every window position whose time is saved; when the window times are distinct this is exactly the list of values of forecast with the same arguments, and predict fails exactly when forecast fails.", "quantifier": "every window, state, saved_times, trend and scheme", "why_tests_cant": "two separately coded loops must agree on all inputs", "anchors": ["src/sympkf/model/model.py:Model.predict", "src/sympkf/model/model.py:Model.forecast"]}
{"id": "C04", "title": "forecasts can be restarted", "statement": "Forecasting over a window w1 that ends at time T and then, from the state reached at T, over a window that starts at T gives the same trajectory as one forecast over the concatenated window.", "quantifier": "every pair of windows sharing an end point, every state and scheme", "why_tests_cant": "a semigroup law over unbounded histories", "anchors": ["src/sympkf/model/model.py:Model.forecast"]}
{"id": "C05", "title": "failure behaviour of forecast and predict", "statement": "forecast and predict raise IndexError on an empty window, raise TypeError when saved_times is a non-iterable scalar that is not a float (e.g. an int), and propagate the first exception of the scheme; otherwise they return.", "quantifier": "every window, saved_times value and failing scheme", "why_tests_cant": "error branches over all inputs", "anchors": ["src/sympkf/model/model.py:Model.forecast", "src/sympkf/model/model.py:Model.predict", "src/sympkf/model/model.py:Model._check_saved_times"]}
{"id": "C06", "title": "ensemble_forecast is member-wise and independent of the parallel schedule", "statement": "For every saved time of the window, entry i of ensemble_forecast(...)[time] is forecast(window, states[i])[time]; the result does not depend on parallel=True/False, on nb_pool, nor on the order in which pool workers complete.", "quantifier": "every list of members, every window, every completion order of the worker pool", "why_tests_cant": "schedules cannot be enumerated by tests", "anchors": ["src/sympkf/model/model.py:Model.ensemble_forecast", "src/sympkf/model/model.py:Parallel.run"]}
{"id": "C07", "title": "ensemble_forecast key set", "statement": "The keys of ensemble_forecast are exactly the distinct saved times (first-occurrence order), every list has one entry per member when the time lies in the window, and the empty list when it does not.", "quantifier": "every saved_times list, window and ensemble", "why_tests_cant": "all inputs including saved times outside the window", "anchors": ["src/sympkf/model/model.py:Model.ensemble_forecast"]}
{"id": "C08", "title": "forecast_tl is exact for linear and affine models", "statement": "For a model with affine trend and the euler, rk2 or rk4 scheme, forecast_tl returns at each saved window time the perturbation propagated by the linear part, for every non-zero h; saved times outside the window give an empty list rather than an error.", "quantifier": "every affine trend, window, perturbation list and non-zero h", "why_tests_cant": "h, the window and the operator are unbounded", "anchors": ["src/sympkf/model/model.py:Model.forecast_tl"]}
{"id": "C09", "title": "LinearModel.make_M returns the transpose of the propagator", "statement": "Row i of make_M(window) is the forecast of the i-th basis vector, i.e. make_M is the transpose of the matrix M with M u0 = forecast(u0) at the final time; it is the propagator itself only if that matrix is symmetric, so the natural reading make_M(window) @ u0 = forecast(u0) is false in general.", "quantifier": "every linear model, size n and window", "why_tests_cant": "needs all linear models and sizes", "anchors": ["src/sympkf/model/model.py:LinearModel.make_M"]}
{"id": "C10", "title": "schemes on linear dynamics are truncated exponentials", "statement": "With trend(t,u)=A u for a linear operator A, one euler/rk2/rk4 step of length dt applies the Taylor polynomial of exp(dt A) of degree 1/2/4.", "quantifier": "every linear operator, state, dt and field of scalars of characteristic 0", "why_tests_cant": "operator identity over all A, dt", "anchors": ["src/sympkf/model/model.py:Model._euler", "src/sympkf/model/model.py:Model._rk2", "src/sympkf/model/model.py:Model._rk4"]}
{"id": "C11", "title": "schemes integrate polynomial forcing exactly", "statement": "With a trend depending only on time, euler/rk2/rk4 are exact when the trend is a polynomial in t of degree at most 0/1/3 (and not beyond).", "quantifier": "every polynomial, t, dt and state", "why_tests_cant": "identity over all coefficients", "anchors": ["src/sympkf/model/model.py:Model._euler", "src/sympkf/model/model.py:Model._rk2", "src/sympkf/model/model.py:Model._rk4"]}
{"id": "C12", "title": "linear invariants are conserved by whole forecasts", "statement": "If a linear functional vanishes on every trend (e.g. total mass), then euler, rk2, rk4 keep it constant at every saved time of a forecast over any window.", "quantifier": "every functional, trend, window and initial state", "why_tests_cant": "invariant over unbounded trajectories", "anchors": ["src/sympkf/model/model.py:Model.forecast", "src/sympkf/model/model.py:Model._rk4"]}
{"id": "C13", "title": "schemes commute with linear changes of variables", "statement": "If P is linear and intertwines two trends, then euler/rk2/rk4 steps and whole forecasts intertwine with P.", "quantifier": "every linear map and pair of intertwined trends", "why_tests_cant": "equivariance over all maps and windows", "anchors": ["src/sympkf/model/model.py:Model._rk4", "src/sympkf/model/model.py:Model.forecast"]}
{"id": "C14", "title": "leapfrog window semantics and reversibility", "statement": "A leapfrog step maps [u0,u1] to [u1, u0+2dt trend(t,u1)], raises ValueError unless given two states, and for every trend is inverted by swapping the two states and stepping with -dt.", "quantifier": "every trend, pair of states and dt", "why_tests_cant": "all trends", "anchors": ["src/sympkf/model/model.py:Model._leapfrog"]}
{"id": "C15", "title": "splitting is sequential composition", "statement": "The splitting scheme applies the fractional steps in list order, each over the full dt from the same start time; splitting over l1+l2 is splitting over l1 followed by l2, 'update' takes precedence over 'trend', and a step with neither 'update' nor both 'trend' and 'scheme' raises KeyError.", "quantifier": "every list of fractional steps", "why_tests_cant": "lists are unbounded", "anchors": ["src/sympkf/model/model.py:Model._time_splitting"]}
{"id": "C16", "title": "set_time_scheme keeps the last valid scheme", "statement": "After any sequence of set_time_scheme calls the active scheme is the one named by the last valid name (initially the constructor's), an invalid name raises ValueError and changes nothing, and a constructor with an invalid name raises.", "quantifier": "every history of calls", "why_tests_cant": "histories are unbounded", "anchors": ["src/sympkf/model/model.py:Model.set_time_scheme", "src/sympkf/model/model.py:Model.__init__"]}
{"id": "C17", "title": "IdentityModel is stationary", "statement": "IdentityModel.forecast returns the initial state at every saved time for euler, rk2 and rk4 over any window; with leapfrog the two states are swapped at each step, so it is stationary only when they are equal.", "quantifier": "every window, state and scheme", "why_tests_cant": "unbounded windows", "anchors": ["src/sympkf/model/model.py:IdentityModel.trend"]}
{"id": "C18", "title": "window() hits the end time", "statement": "window(end,start) with dt>0 has consecutive differences dt, starts at start, and has exactly n+1 points whenever end is within dt/3 of start+n*dt (so rounding errors below dt/3 neither drop nor add a point); its last point lies in [end-2dt/3, end+dt/3).", "quantifier": "every rational start, end, dt>0 and n", "why_tests_cant": "real-number arithmetic over all inputs", "anchors": ["src/sympkf/model/model.py:Model.window"]}
{"id": "C19", "title": "randstate is nstart-1 steps", "statement": "randstate returns the random initial state advanced by exactly nstart-1 scheme steps; nstart=0 raises IndexError.", "quantifier": "every nstart, dt and initial draw", "why_tests_cant": "loops of unbounded length", "anchors": ["src/sympkf/model/model.py:Model.randstate"]}
{"id": "C20", "title": "Runge-Kutta order of accuracy on nonlinear dynamics", "statement": "For dy/dt=f(t,y) with a smooth solution y and a trend that is Lipschitz continuous (rk2) or differentiable (rk4) near it, one euler/rk2/rk4 step of length h from y(t) misses y(t+h) by at most C h^(p+1), p=1/2/4, so the exact solution and the step have the same Taylor coefficients in h up to order p; no scheme does better by one order. One leapfrog step from the exact y(t-h), y(t) misses y(t+h) by at most C h^3.", "quantifier": "every trend, non-autonomous or not, nonlinear or not, every array shape, every time of the interval and every small enough step, with one constant C", "why_tests_cant": "all nonlinear trends and a bound with one constant for all times and steps", "anchors": ["src/sympkf/model/model.py:Model._euler", "src/sympkf/model/model.py:Model._rk2", "src/sympkf/model/model.py:Model._rk4", "src/sympkf/model/model.py:Model._leapfrog"]}
{"id": "C21", "title": "finite-difference stencils of every order", "statement": "finite_difference of the m-th derivative in one variable is, for every m, the m-th central difference: with step dx on x-m/2*dx..x+m/2*dx if m is even and with step 2dx on x-m*dx..x+m*dx if m is odd, divided by dx^m resp. (2dx)^m; all displacements are integer multiples of dx.", "quantifier": "every derivative order m", "why_tests_cant": "tests cover m=4 and 5 only", "anchors": ["src/sympkf/symbolic/finite_difference.py:get_subs_derivative", "src/sympkf/symbolic/finite_difference.py:finite_difference_derivative"]}
{"id": "C22", "title": "stencils are exact on polynomials of degree m+1", "statement": "Applied to a polynomial of degree at most m+1 the order-m stencil returns the exact m-th derivative at every point for every non-zero dx.", "quantifier": "every m, polynomial, point and dx", "why_tests_cant": "all orders", "anchors": ["src/sympkf/symbolic/finite_difference.py:get_subs_derivative"]}
{"id": "C23", "title": "second-order consistency for smooth functions at every order", "statement": "For every m and every function with m+2 bounded derivatives, the difference between the order-m stencil and the m-th derivative is at most C*dx^2.", "quantifier": "every order m, every C^(m+2) function, every dx", "why_tests_cant": "the documented second-order consistency is tested for m=4,5 only", "anchors": ["src/sympkf/symbolic/finite_difference.py:get_subs_derivative", "src/sympkf/symbolic/test/test_consistancy.py"]}
{"id": "C24", "title": "mixed derivatives are tensor products of one-dimensional stencils", "statement": "finite_difference of a mixed partial derivative is the composition of the one-dimensional stencils of each variable, the result does not depend on the order in which variables are processed, and the rewriting loop ends with no derivative left after at most as many rounds as there are variables.", "quantifier": "every mixed derivative in any number of variables", "why_tests_cant": "termination and commutation over all derivatives", "anchors": ["src/sympkf/symbolic/finite_difference.py:finite_difference_derivative"]}
{"id": "C25", "title": "finite_difference treats each derivative independently of iteration order", "statement": "finite_difference(expr) equals expr with every derivative simultaneously replaced by its own stencil, whatever the iteration order of the set of derivatives, because higher orders are replaced first.", "quantifier": "every expression and every iteration order", "why_tests_cant": "set iteration orders", "anchors": ["src/sympkf/symbolic/finite_difference.py:finite_difference"]}
{"id": "C26", "title": "generated index() is a pure function despite its cache", "statement": "In a generated finite-difference model, index(coord,step) returns (0..shape-1 shifted by step) modulo shape for every known coordinate after every history of earlier index calls, and raises KeyError for an unknown coordinate without changing the cache.", "quantifier": "every call history", "why_tests_cant": "histories are unbounded", "anchors": ["src/sympkf/symbolic/templates/body_FDModelBuilder.py:index"]}
{"id": "C27", "title": "grid shifts form a group action", "statement": "Indexing an array by index(coord,a) and then by index(coord,b) equals indexing by index(coord,a+b); index(coord,0) and shifts by the shape are the identity; shifts along different axes commute.", "quantifier": "every array, step and shape", "why_tests_cant": "all steps including negative and larger than the shape", "anchors": ["src/sympkf/symbolic/templates/body_FDModelBuilder.py:index", "src/sympkf/symbolic/finite_difference.py:code_regular_function"]}
{"id": "C28", "title": "discrete conservation and summation by parts on the periodic grid", "statement": "On the generated periodic grid the sum over all points of any finite-difference derivative is zero, and the discrete operator of order m satisfies sum(f*D g) = (-1)^m sum(g*D f).", "quantifier": "every grid size, array and derivative order", "why_tests_cant": "all sizes and orders", "anchors": ["src/sympkf/symbolic/templates/body_FDModelBuilder.py:index", "src/sympkf/symbolic/finite_difference.py:get_subs_derivative"]}
{"id": "C29", "title": "generated trend computes the right-hand sides", "statement": "When the generated variable names are pairwise distinct, row i of the generated trend(t,state) is the right-hand side of the equation of the i-th prognostic function with every spatial derivative replaced by its discretisation and every function and constant by its value; state is not modified.", "quantifier": "every PDE system with collision-free names, every state", "why_tests_cant": "all systems", "anchors": ["src/sympkf/symbolic/model_builder.py:ModelBuilder._make_trend_code", "src/sympkf/symbolic/templates/footer.py"]}
{"id": "C30", "title": "constants and constant functions of a generated model", "statement": "After construction each declared constant or constant function holds the keyword value given for it, or NaN if none was given; other keywords do not create attributes.", "quantifier": "every declared name set and keyword list", "why_tests_cant": "all keyword sets", "anchors": ["src/sympkf/symbolic/templates/body_FDModelBuilder.py"]}
{"id": "C31", "title": "generated constructor validates shape and lengths", "statement": "The generated constructor raises ValueError when shape or lengths has not one entry per spatial coordinate; otherwise grid spacing is length/shape per axis, grid coordinates are k*dx for k below shape, default shape 100 and length 1.", "quantifier": "every coordinate tuple, shape, lengths", "why_tests_cant": "all sizes", "anchors": ["src/sympkf/symbolic/templates/body_FDModelBuilder.py"]}
{"id": "C32", "title": "clean_latex_name normalises but is not injective", "statement": "clean_latex_name removes backslashes and braces and turns ^ and , into _, is idempotent and compositional, and its result contains none of those characters; distinct names may collide, exactly when they agree after that character-wise normalisation.", "quantifier": "every string", "why_tests_cant": "all strings", "anchors": ["src/sympkf/symbolic/tool.py:clean_latex_name"]}
{"id": "C33", "title": "textual replacement of grid spacings is only safe for prefix-free coordinate names", "statement": "Rendering a finite difference replaces the spacing symbols textually; it yields the intended code when no spacing name occurs inside another token, and yields broken code for coordinates such as x and xi where one spacing name is a prefix of another.", "quantifier": "every coordinate naming", "why_tests_cant": "all names", "anchors": ["src/sympkf/symbolic/finite_difference.py:code_finite_difference"]}
{"id": "C34", "title": "coordinate extraction from displaced arguments", "statement": "get_function_coordinates recovers (xi,dxi) from an argument xi+k*dxi independently of set iteration order when the coordinate name does not start with 'd'; for names starting with 'd' the result depends on the iteration order. More than two symbols raises ValueError.", "quantifier": "every coordinate name and iteration order", "why_tests_cant": "set iteration order is not controllable in tests", "anchors": ["src/sympkf/symbolic/util.py:get_function_coordinates", "src/sympkf/symbolic/util.py:get_coordinates"]}
{"id": "C35", "title": "rendered array accesses are faithful", "statement": "code_regular_function renders a displaced function so that the name, the time tag and the tuple of spatial steps can be recovered; zero displacement renders the bare name; non-integer displacement raises AssertionError.", "quantifier": "every function name and displacement", "why_tests_cant": "all displacements", "anchors": ["src/sympkf/symbolic/finite_difference.py:code_regular_function"]}
{"id": "C36", "title": "PartialOrderDerivative formats are interchangeable", "statement": "For distinct coordinates and non-negative orders, building a PartialOrderDerivative from as_tuple, as_couples or as_sequence of another gives an equal object; invalid input raises TypeError; negative orders are accepted as a tuple but do not survive as_sequence.", "quantifier": "every coordinate list and order tuple", "why_tests_cant": "all dimensions", "anchors": ["src/sympkf/symbolic/pkfcas.py:PartialOrderDerivative"]}
{"id": "C37", "title": "all_of_degree enumerates each multi-index exactly once", "statement": "PartialOrderDerivative.all_of_degree(coords,n) yields every tuple of non-negative integers of length len(coords) and sum n exactly once and nothing else, and terminates; it raises IndexError with no coordinate.", "quantifier": "every dimension and degree", "why_tests_cant": "all dimensions and degrees", "anchors": ["src/sympkf/symbolic/pkfcas.py:PartialOrderDerivative.all_of_degree"]}
{"id": "C38", "title": "substitution tree rules are valid identities", "statement": "Every rule of UnivariateTree rewrites E[D^a eps D^b eps] to an expression with the same value for every random field and every expectation operator commuting with derivatives.", "quantifier": "every degree, dimension, random field", "why_tests_cant": "all degrees", "anchors": ["src/sympkf/symbolic/pkfcas.py:UnivariateTree"]}
{"id": "C39", "title": "substitution tree is complete", "statement": "tree(n) has a rule for every pair of non-zero multi-indices of total degree at most n.", "quantifier": "every n and dimension", "why_tests_cant": "all degrees", "anchors": ["src/sympkf/symbolic/pkfcas.py:UnivariateTree._add_tree_level"]}
{"id": "C40", "title": "substitution tree produces normal forms", "statement": "Right-hand sides of the tree only contain derivatives of terms E[eps D^c eps]: one pass of substitution suffices and no rule is applicable to a right-hand side.", "quantifier": "every degree and dimension", "why_tests_cant": "all degrees", "anchors": ["src/sympkf/symbolic/pkfcas.py:UnivariateTree._add_tree_level"]}
{"id": "C41", "title": "tree(degree) does not depend on call history", "statement": "UnivariateTree(degree) returns the same rules whatever degrees were requested before; calling without degree returns the rules up to the largest degree requested so far.", "quantifier": "every call history", "why_tests_cant": "histories", "anchors": ["src/sympkf/symbolic/pkfcas.py:UnivariateTree.__call__"]}
{"id": "C42", "title": "israndom is sound", "statement": "If israndom(expr) is False then the value of expr does not depend on the random event; Expectation(..) is never random; expressions without omega are never random.", "quantifier": "every expression and interpretation", "why_tests_cant": "all expressions", "anchors": ["src/sympkf/symbolic/random.py:israndom"]}
{"id": "C43", "title": "Expectation is a sound linear expectation operator", "statement": "Evaluating Expectation(expr) preserves meaning: the result denotes the mean of expr for every interpretation, provided every mixed derivative standing alone as random factor involves a single coordinate; deterministic expressions are returned unchanged up to expansion, sums are distributed and deterministic factors pulled out.", "quantifier": "every expression and interpretation", "why_tests_cant": "all expressions", "anchors": ["src/sympkf/symbolic/random.py:Expectation.eval"]}
{"id": "C44", "title": "Expectation drops all but the first variable of a mixed derivative", "statement": "Expectation(Derivative(X,x,y)) evaluates to Derivative(Expectation(X),x): commutation with derivatives holds for derivatives in a single coordinate and fails for mixed derivatives.", "quantifier": "every random field and derivative", "why_tests_cant": "all derivatives", "anchors": ["src/sympkf/symbolic/random.py:Expectation.eval"]}
{"id": "C45", "title": "Expectation is idempotent and yields deterministic results", "statement": "israndom(Expectation(e)) is False and Expectation(Expectation(e)) equals Expectation(e) up to expansion.", "quantifier": "every expression", "why_tests_cant": "all expressions", "anchors": ["src/sympkf/symbolic/random.py:Expectation.eval", "src/sympkf/symbolic/random.py:Expectation.has"]}
{"id": "C46", "title": "internal closure is valid for every centred normalised error", "statement": "Every rule of Field.internal_closure (zero mean, unit variance, flat correlation, metric, skewness) and of the multivariate closure is an identity for every centred, normalised random field with metric g_ij=E[di eps dj eps].", "quantifier": "every random field, dimension", "why_tests_cant": "all fields and dimensions", "anchors": ["src/sympkf/symbolic/pkfcas.py:Field.internal_closure", "src/sympkf/symbolic/pkfcas.py:SymbolicPKF.internal_closure"]}
{"id": "C47", "title": "error_system is the tangent-linear dynamics", "statement": "For every PDE system polynomial in its fields and their derivatives, error_system is the derivative of the dynamics in the direction of the error around the mean, and is linear in the errors.", "quantifier": "every polynomial PDE system", "why_tests_cant": "all PDE systems", "anchors": ["src/sympkf/symbolic/pkfcas.py:SymbolicPKF._compute_reynolds_system", "src/sympkf/symbolic/pkfcas.py:SymbolicPKF.error_system"]}
{"id": "C48", "title": "variance_system is exact for the error dynamics", "statement": "If errors are centred and evolve by error_system then the variance E[e^2] satisfies each equation of variance_system exactly.", "quantifier": "every PDE system and random error", "why_tests_cant": "all systems", "anchors": ["src/sympkf/symbolic/pkfcas.py:SymbolicPKF.variance_system"]}
{"id": "C49", "title": "epsilon_system is exact", "statement": "Under the same hypotheses the normalised error e/sqrt(V) satisfies epsilon_system.", "quantifier": "every PDE system and random error", "why_tests_cant": "all systems", "anchors": ["src/sympkf/symbolic/pkfcas.py:SymbolicPKF.epsilon_system"]}
{"id": "C50", "title": "metric_system is exact", "statement": "Under the same hypotheses the metric tensor E[di eps dj eps] satisfies metric_system, in every space dimension.", "quantifier": "every PDE system and random error", "why_tests_cant": "all systems", "anchors": ["src/sympkf/symbolic/pkfcas.py:SymbolicPKF.metric_system"]}
{"id": "C51", "title": "cross_covariance_system is exact", "statement": "Under the same hypotheses each cross covariance E[e1 e2] satisfies its equation; there is exactly one equation per unordered pair of fields and None for a single field.", "quantifier": "every PDE system and random errors", "why_tests_cant": "all systems", "anchors": ["src/sympkf/symbolic/pkfcas.py:SymbolicPKF.cross_covariance_system", "src/sympkf/symbolic/pkfcas.py:SymbolicPKF.multivariate_couples"]}
{"id": "C52", "title": "expectation_system is the second-order averaged dynamics", "statement": "expectation_system is the mean of the second-order expansion of the dynamics around the mean: whenever the fields satisfy that second-order dynamics, the mean fields satisfy expectation_system.", "quantifier": "every PDE system and random error", "why_tests_cant": "all systems", "anchors": ["src/sympkf/symbolic/pkfcas.py:SymbolicPKF.expectation_system"]}
{"id": "C53", "title": "diffusion-tensor dynamics", "statement": "If nu g = I/2 then D nu = -2 nu (D g) nu for every derivation and dimension, which is the equation in_diffusion emits.", "quantifier": "every dimension and derivation", "why_tests_cant": "all dimensions", "anchors": ["src/sympkf/symbolic/pkfcas.py:SymbolicPKF.in_diffusion"]}
{"id": "C54", "title": "aspect-tensor dynamics", "statement": "If s g = I then D s = - s (D g) s for every derivation and dimension, which is the equation in_aspect emits.", "quantifier": "every dimension and derivation", "why_tests_cant": "all dimensions", "anchors": ["src/sympkf/symbolic/pkfcas.py:SymbolicPKF.in_aspect"]}
{"id": "C55", "title": "in_metric and in_aspect cover every parameter, in_diffusion omits cross covariances", "statement": "in_metric and in_aspect have one equation for each mean, variance, cross covariance and upper-triangular tensor entry; in_diffusion has none for cross covariances, so for two or more fields it is not a closed set of parameters. When an external closure with average-free values is set, the three forms contain no average that the closure gives, and no average that the computed equations do not contain.", "quantifier": "every number of fields and dimension", "why_tests_cant": "counting over all systems", "anchors": ["src/sympkf/symbolic/pkfcas.py:SymbolicPKF.in_metric", "src/sympkf/symbolic/pkfcas.py:SymbolicPKF.in_diffusion", "src/sympkf/symbolic/pkfcas.py:SymbolicPKF.in_aspect"]}
{"id": "C56", "title": "set_closure keeps cached systems coherent", "statement": "After every history of queries and set_closure calls on SymbolicPKF objects with unshared closures, in_metric, in_diffusion and in_aspect return what a fresh object with the merged closure would return.", "quantifier": "every history of calls", "why_tests_cant": "histories", "anchors": ["src/sympkf/symbolic/pkfcas.py:SymbolicPKF.set_closure"]}
{"id": "C57", "title": "sharing a closure dict breaks coherence", "statement": "Passing the same closure dict to two SymbolicPKF objects makes set_closure on one change the closure of the other (and the caller's dict) without invalidating its cached systems.", "quantifier": "histories with a shared dict", "why_tests_cant": "aliasing histories", "anchors": ["src/sympkf/symbolic/pkfcas.py:SymbolicPKF.__init__", "src/sympkf/symbolic/pkfcas.py:SymbolicPKF.set_closure"]}
{"id": "C58", "title": "unclosed_terms is exactly what remains to be closed", "statement": "unclosed_terms contains exactly the expectations occurring in the right-hand sides of in_metric other than the mean fields; if it is empty no expectation remains.", "quantifier": "every system and closure", "why_tests_cant": "all systems", "anchors": ["src/sympkf/symbolic/pkfcas.py:SymbolicPKF.unclosed_terms"]}
{"id": "C59", "title": "foreign random terms abort the closure", "statement": "_apply_internal_closure (used by variance_system, metric_system, cross_covariance_system) raises RuntimeError whenever the expression contains a univariate term of a random function that is not one of the system's normalised errors.", "quantifier": "every set of univariate terms", "why_tests_cant": "all term sets", "anchors": ["src/sympkf/symbolic/pkfcas.py:SymbolicPKF._apply_internal_closure"]}
{"id": "C60", "title": "cross-covariance naming", "statement": "get_covariance names are unique when field names have equal length and may collide otherwise; get_covariance is not symmetric in its arguments; it raises ValueError for unknown fields.", "quantifier": "every set of field names", "why_tests_cant": "all names", "anchors": ["src/sympkf/symbolic/pkfcas.py:SymbolicPKF.get_covariance"]}
{"id": "C61", "title": "tensor component naming is symmetric", "statement": "metric_func, nu_func and aspect_func are symmetric in (i,j), so the tensors are symmetric matrices; for coordinate names of equal length distinct unordered pairs get distinct names, in general not.", "quantifier": "every coordinate naming and indices", "why_tests_cant": "all names", "anchors": ["src/sympkf/symbolic/pkfcas.py:Field.index_code", "src/sympkf/symbolic/pkfcas.py:Field.metric_func"]}
{"id": "C62", "title": "Closure uses |a|! instead of a! for multi-indices", "statement": "The closure value for E[eps D^a eps] is |a|! times the Taylor coefficient of dx^a; the derivative of the correlation is a! times it, so values are right exactly when a has at most one non-zero component.", "quantifier": "every multi-index and correlation", "why_tests_cant": "all multi-indices", "anchors": ["src/sympkf/symbolic/pkfcas.py:Closure.closure_by_order"]}
{"id": "C63", "title": "Closure results depend on call history", "statement": "closure(order) returns the documented terms on a fresh object, but returns an empty closure after taylor(k) with k>order, and in_metric_by_order overwrites the stored closure.", "quantifier": "every history of taylor/closure calls", "why_tests_cant": "histories", "anchors": ["src/sympkf/symbolic/pkfcas.py:Closure.taylor", "src/sympkf/symbolic/pkfcas.py:Closure.closure_by_order", "src/sympkf/symbolic/pkfcas.py:Closure.in_metric_by_order"]}
{"id": "C64", "title": "in_metric_by_order uses orders as indices", "statement": "in_metric_by_order works in one dimension and raises IndexError in two dimensions because derivative orders are used as coordinate indices.", "quantifier": "every dimension", "why_tests_cant": "all dimensions", "anchors": ["src/sympkf/symbolic/pkfcas.py:Closure.in_metric_by_order"]}
{"id": "C65", "title": "local Gaussian correlation is inconsistent between metric and aspect", "statement": "With aspect=False..True forms related by s g = 1, LocGaussianClosure.correlation in metric form has second derivative -2g at the origin whereas the aspect form and the base class give -g (the value the internal closure assumes).", "quantifier": "every metric value", "why_tests_cant": "all values", "anchors": ["src/sympkf/symbolic/pkfcas.py:LocGaussianClosure.correlation", "src/sympkf/symbolic/pkfcas.py:Closure.correlation"]}
{"id": "C66", "title": "PDESystem partitions its functions", "statement": "Every function occurring in the equations is exactly one of prognostic, constant or exogenous.", "quantifier": "every system", "why_tests_cant": "all systems", "anchors": ["src/sympkf/symbolic/util.py:PDESystem"]}
{"id": "C67", "title": "constant functions are time independent only under the time-first convention", "statement": "A function classified as constant does not depend on time provided time, when present, is the first argument; a function with time in a later position is classified constant.", "quantifier": "every system", "why_tests_cant": "all systems", "anchors": ["src/sympkf/symbolic/util.py:PDESystem._get_constant_functions"]}
{"id": "C68", "title": "constants are the free non-coordinate symbols", "statement": "constants is exactly the set of symbols of the right-hand sides that are neither coordinates nor trainable scalars, and is disjoint from trainable_scalars.", "quantifier": "every system", "why_tests_cant": "all systems", "anchors": ["src/sympkf/symbolic/util.py:PDESystem._get_constants", "src/sympkf/symbolic/util.py:PDESystem._get_trainable_scalars"]}
{"id": "C69", "title": "coordinates are those of the longest prognostic function", "statement": "coordinates is the argument tuple of the first prognostic function with the most arguments; construction fails if there is none or if its first argument is not time.", "quantifier": "every system", "why_tests_cant": "all systems", "anchors": ["src/sympkf/symbolic/util.py:PDESystem._get_coordinates", "src/sympkf/symbolic/util.py:PDESystem._get_spatial_coordinates"]}
{"id": "C70", "title": "Eq arithmetic preserves solutions", "statement": "eq1+eq2, eq1-eq2, -eq and eq*alpha are satisfied by every assignment satisfying the operands, and the left (right) side of the result is the sum, difference, opposite, multiple or product of the left (right) sides of the operands; isolate(expr) of an equation affine in expr with invertible coefficient is equivalent to it.", "quantifier": "every equation and assignment", "why_tests_cant": "all equations", "anchors": ["src/sympkf/symbolic/util.py:Eq"]}
{"id": "C71", "title": "Eq operations fail when an equation degenerates", "statement": "Eq.subs, doit and expand raise TypeError when the resulting equation evaluates to a truth value (e.g. both sides become identical), and return an Eq otherwise.", "quantifier": "every equation and substitution", "why_tests_cant": "all substitutions", "anchors": ["src/sympkf/symbolic/util.py:Eq.subs", "src/sympkf/symbolic/util.py:Eq.doit", "src/sympkf/symbolic/util.py:Eq.expand"]}
{"id": "C72", "title": "CoordinateSystem gradient and divergence", "statement": "gradient lists one derivative per coordinate and fails for functions not depending on all coordinates; div of a gradient is the Laplacian; div silently ignores components beyond the number of coordinates.", "quantifier": "every coordinate system and field", "why_tests_cant": "all dimensions", "anchors": ["src/sympkf/symbolic/util.py:CoordinateSystem"]}
{"id": "C73", "title": "CompareExpression splits terms", "statement": "common and specific partition the terms of each expanded expression; both specific sets are empty exactly when the expressions have the same set of terms.", "quantifier": "every pair of expressions", "why_tests_cant": "all pairs", "anchors": ["src/sympkf/symbolic/util.py:CompareExpression"]}
{"id": "C74", "title": "derivative orders", "statement": "get_total_order is the sum of the partial orders returned by get_derivative_partial_orders for every derivative.", "quantifier": "every derivative", "why_tests_cant": "all derivatives", "anchors": ["src/sympkf/symbolic/util.py:get_total_order", "src/sympkf/symbolic/util.py:get_derivative_partial_orders"]}
{"id": "C75", "title": "upper_triangle enumerates each symmetric entry once", "statement": "upper_triangle lists entry (i,j) for i<=j row by row, n(n+1)/2 entries, so zipping the upper triangles of two matrices pairs equal positions and determines a symmetric matrix.", "quantifier": "every size", "why_tests_cant": "all sizes", "anchors": ["src/sympkf/symbolic/util.py:upper_triangle"]}
{"id": "C76", "title": "derivative variable names can collide", "statement": "Generated variable names for derivatives are unique for functions and coordinates whose names contain no underscore, and collide in general (e.g. a field named u_x_o1), as do trend names (d+name) with fields named d...", "quantifier": "every naming", "why_tests_cant": "all names", "anchors": ["src/sympkf/symbolic/model_builder.py:MetaDerivative._set_as_keyvar", "src/sympkf/symbolic/model_builder.py:MetaPrognosticFunction._set_trend"]}
{"id": "C77", "title": "only prognostic equations are translated", "statement": "_make_pseudo_algebaraic_system raises ValueError when an equation's left-hand side is not its unique first-order time derivative, and otherwise keeps left-hand sides and replaces every derivative and function of the right-hand side by a variable.", "quantifier": "every system", "why_tests_cant": "all systems", "anchors": ["src/sympkf/symbolic/model_builder.py:ModelBuilder._make_pseudo_algebaraic_system", "src/sympkf/symbolic/util.py:get_trend"]}
{"id": "C78", "title": "forecast_tl with a repeated saved time is wrong", "statement": "If saved_times lists a time twice, forecast_tl normalises that entry twice (subtracts the reference and divides by h again), so it no longer returns the propagated perturbation even for a linear model; with distinct saved times it does (C08).", "quantifier": "exists a linear model, window, h and perturbation", "why_tests_cant": "it is a counterexample to the for-all claim of C08 without the distinctness hypothesis", "anchors": ["src/sympkf/model/model.py:Model.forecast_tl"]}
{"id": "C79", "title": "the coordinate arrays X of a generated model have the first two axes exchanged", "statement": "With two or more coordinates the arrays self.X of a generated finite-difference model have shape (n1,n0,n2,...) for a model of shape (n0,n1,n2,...): they have the shape of the fields exactly when n0=n1, so fields initialised from X cannot be used as states of a rectangular grid. With one coordinate they have the shape of the fields.", "quantifier": "every tuple of coordinates, shape and lengths", "why_tests_cant": "the usual square test grids do not show it, and all shapes are quantified", "anchors": ["src/sympkf/symbolic/templates/body_FDModelBuilder.py:__init__"]}
{"id": "C80", "title": "index() hands out its cached array", "statement": "index(coord,step) returns the cached array itself. A caller that writes into the array returned for (coord,step) changes what every later index(coord,step) returns, and writing into the one returned for step 0 changes every shift of that coordinate not requested yet.", "quantifier": "every call history, coordinate, step and written array", "why_tests_cant": "it concerns all histories of calls and writes", "anchors": ["src/sympkf/symbolic/templates/body_FDModelBuilder.py:index"]}
{"id": "C81", "title": "a constant named like a grid attribute replaces it", "statement": "The generated constructor sets declared constants after the grid: every attribute whose name is not declared keeps its grid value, and a declared constant or constant function named shape, lengths, dx, x, X or _index replaces the grid attribute of that name, by NaN when no keyword is given. A constant named shape or lengths cannot be given a value at all, since those keywords are the grid parameters.", "quantifier": "every set of declared names and keywords", "why_tests_cant": "all declared names", "anchors": ["src/sympkf/symbolic/templates/body_FDModelBuilder.py:__init__"]}
{"id": "C82", "title": "a coordinate listed before x gets a corrupted grid spacing", "statement": "The spacing of a coordinate y is rendered as self.dx[self.coordinates.index('y')], which itself contains the text dx. When a coordinate named x comes after y in the argument order, the later replacement of dx hits that text and the generated code reads self.self.dx[self.coordinates.index('x')][self.coordinates.index('y')].", "quantifier": "every coordinate name y", "why_tests_cant": "the usual order (t,x,y) hides it; the claim is for all names", "anchors": ["src/sympkf/symbolic/finite_difference.py:code_finite_difference", "src/sympkf/symbolic/model_builder_FD.py:MetaDerivative.dx_coding_rule"]}
{"id": "C83", "title": "LaTeX coordinate names break the generated index calls", "statement": "The generated class lists its coordinates under their cleaned names but the generated derivatives call index with the raw coordinate name: for every coordinate whose name contains a backslash, brace, ^ or comma, every such call raises KeyError, whatever was called before.", "quantifier": "every list of coordinate names, shape, call history and step", "why_tests_cant": "all names and histories", "anchors": ["src/sympkf/symbolic/model_builder.py:MetaCoordinate", "src/sympkf/symbolic/finite_difference.py:code_regular_function", "src/sympkf/symbolic/templates/body_FDModelBuilder.py:index"]}
{"id": "C84", "title": "Expectation.has ignores omega and the average itself", "statement": "Expectation(e).has(patterns) is True exactly when some pattern other than omega occurs inside e; in particular, unlike every other expression, an average never contains itself: Expectation(e).has(Expectation(e)) is False.", "quantifier": "for every expression e and every list of patterns", "why_tests_cant": "the claim quantifies over all expressions and patterns; tests check a handful of symbols", "anchors": ["src/sympkf/symbolic/random.py:Expectation.has"]}
{"id": "C85", "title": "prognostic functions follow the equations", "statement": "When every equation contains a single derivative whose first variable is time, prognostic_functions lists the functions so differentiated in the order of the equations whatever the iteration order of sets; with a second time derivative in an equation a function is listed twice and the order depends on the set.", "quantifier": "every system with one time derivative per equation, every iteration order of the sets of derivatives", "why_tests_cant": "all systems and all set orders (hash seeds)", "anchors": ["src/sympkf/symbolic/util.py:PDESystem._get_prognostic_functions"]}
{"id": "C86", "title": "trainable scalars of the same name are one object", "statement": "Constructing TrainableScalar twice with the same name and assumptions returns the same object and overwrites its attributes; construction never changes the attributes of a scalar of another name.", "quantifier": "every name, assumptions, attributes and earlier constructions", "why_tests_cant": "all histories of constructions", "anchors": ["src/sympkf/symbolic/util.py:TrainableScalar.__new__"]}
{"id": "C87", "title": "coordinates of a shifted function", "statement": "get_function_coordinates of a function whose i-th argument contains the coordinate s_i alone or s_i and the step 'd'+s_i returns the coordinates and the steps, whatever the iteration order of sets, when no s_i starts with the letter d; for a coordinate such as 'depth' the result depends on the set order.", "quantifier": "every function, every iteration order of the set of symbols of an argument", "why_tests_cant": "all names and all set orders (hash seeds)", "anchors": ["src/sympkf/symbolic/util.py:get_function_coordinates", "src/sympkf/symbolic/util.py:get_coordinates"]}
{"id": "C88", "title": "right-hand sides the generated module cannot evaluate", "statement": "A right-hand side containing a square root (power 1/2 or -1/2), an integral, or a symbol that is neither a constant of the system nor a local name of the method (a spatial coordinate, a TrainableScalar) gives a generated trend that never returns: the module only imports Model and numpy as np, and the builder only binds the functions, the constants and the derivatives.", "quantifier": "every system, every state, every discretisation", "why_tests_cant": "all expressions containing such a term anywhere in sums, products and powers", "anchors": ["src/sympkf/symbolic/model_builder.py:ModelBuilder._make_trend_code", "src/sympkf/symbolic/templates/header.py", "src/sympkf/symbolic/templates/footer.py"]}
{"id": "C89", "title": "exogenous functions need compute_exogenous", "statement": "When the system has an exogenous function, the generated trend never returns as long as compute_exogenous is the generated default, which returns None.", "quantifier": "every system with an exogenous function, every state", "why_tests_cant": "all systems", "anchors": ["src/sympkf/symbolic/templates/footer.py:compute_exogenous", "src/sympkf/symbolic/templates/footer.py:trend"]}
{"id": "C90", "title": "a field named np", "statement": "A field whose code name is np makes np a local name of the generated trend, which then raises NameError for every state.", "quantifier": "every system with such a field, every state", "why_tests_cant": "all systems and states", "anchors": ["src/sympkf/symbolic/templates/footer.py:trend"]}
{"id": "C91", "title": "generated model of dynamics.advection", "statement": "The trend generated from the predefined dynamics.advection is - u D_x c for the wind u and the state c.", "quantifier": "every state, every wind", "why_tests_cant": "all states", "anchors": ["src/sympkf/symbolic/dynamics.py:advection", "src/sympkf/symbolic/model_builder.py:ModelBuilder"]}
{"id": "C92", "title": "no spatial coordinate, no parametric dynamics", "statement": "For a dynamical system whose fields depend on time only, every system of SymbolicPKF (expectation, error, variance, metric, in_metric, in_diffusion, in_aspect) raises IndexError instead of degrading to the variance dynamics.", "quantifier": "every non-empty system without space coordinate, every closure", "why_tests_cant": "A test fixes one system; the claim is that no system without space works, whatever the equations and closure.", "anchors": ["src/sympkf/symbolic/pkfcas.py:SymbolicPKF.internal_closure", "src/sympkf/symbolic/pkfcas.py:Field.internal_closure", "src/sympkf/symbolic/pkfcas.py:PartialOrderDerivative.all_of_degree"]}
{"id": "C93", "title": "the computed systems are explicit evolution equations", "statement": "When the equations of the dynamical system only contain spatial derivatives of the prognostic functions, every right-hand side of error_system, epsilon_system, expectation_system, variance_system, cross_covariance_system, metric_system, in_metric, in_diffusion and in_aspect only contains derivatives along the spatial coordinates: no time derivative of a mean, variance, covariance, tensor entry or error is left, inside or outside averages (external functions given by the user excepted).", "quantifier": "every polynomial system, any number of fields and coordinates, every closure written with spatial derivatives, every order in which Python or sympy applies the rules", "why_tests_cant": "A test looks at the time derivatives of a few systems; that every time derivative is always replaced, whatever the nonlinearity and the order of substitutions, is universal.", "anchors": ["src/sympkf/symbolic/pkfcas.py:SymbolicPKF.error_system", "src/sympkf/symbolic/pkfcas.py:SymbolicPKF.epsilon_system", "src/sympkf/symbolic/pkfcas.py:SymbolicPKF.variance_system", "src/sympkf/symbolic/pkfcas.py:SymbolicPKF.metric_system", "src/sympkf/symbolic/pkfcas.py:SymbolicPKF.in_metric", "src/sympkf/symbolic/pkfcas.py:SymbolicPKF.in_diffusion", "src/sympkf/symbolic/pkfcas.py:SymbolicPKF.in_aspect"]}
{"id": "C94", "title": "The internal closure removes every average it can: what remains is reduced", "statement": "The internal closure of SymbolicPKF has exactly the keys E[e_i], E[e_i e_j], E[eps_i], E[eps_i eps_j] and E[eps_i D^a eps_i] with |a| <= 3. After _apply_internal_closure, and so in the right-hand sides of variance_system, cross_covariance_system and metric_system, every remaining average is of a product of at least two normalised errors; when it has two factors, either they belong to different fields and at least one is differentiated, or it is E[eps_i D^a eps_i] with |a| >= 4. The mean equations of expectation_system do not have this property.", "quantifier": "for every number of fields and coordinates, every polynomial system of evolution equations, every order of iteration of the dictionaries and sets", "why_tests_cant": "the remaining averages depend on the dynamics, on the degree to which the substitution tree is computed and on the order of the substitutions; a test checks one dynamics", "anchors": ["src/sympkf/symbolic/pkfcas.py:SymbolicPKF.internal_closure", "src/sympkf/symbolic/pkfcas.py:SymbolicPKF._apply_internal_closure", "src/sympkf/symbolic/pkfcas.py:SymbolicPKF.variance_system", "src/sympkf/symbolic/pkfcas.py:SymbolicPKF.cross_covariance_system", "src/sympkf/symbolic/pkfcas.py:SymbolicPKF.metric_system", "src/sympkf/symbolic/pkfcas.py:Field.subs_tree"]}
{"id": "C95", "title": "a failed computation leaves a partial cache", "statement": "internal_closure stores an empty dictionary before filling it. For a SymbolicPKF object whose fields depend on time only, the first read of internal_closure raises IndexError and every later read returns the empty dictionary; expectation_system then raises the first time and, repeated, returns equations in which the averages of the internal closure are left.", "quantifier": "every system of at least one equation without spatial coordinate, every earlier state of the program", "why_tests_cant": "The second answer depends on the history of failed calls; a test of each property on a fresh object only sees the exception.", "anchors": ["src/sympkf/symbolic/pkfcas.py:SymbolicPKF.internal_closure", "src/sympkf/symbolic/pkfcas.py:SymbolicPKF.expectation_system"]}
{"id": "C96", "title": "Order of the averages left unclosed by the PKF systems", "statement": "Let the derivatives of the prognostic functions in the dynamics given to SymbolicPKF be of order at most k. Then every Expectation left in expectation_system, variance_system, cross_covariance_system and metric_system is of a product of exactly two derivatives of normalised errors, and the two orders add up to at most 2k in the expectation system, k in the variance and covariance systems, k+2 in the metric system; unclosed_terms without closure is bounded by max(2k, k+2). For one field the averages left in the variance and metric systems are E[eps D^w eps] with w of order at least 4: the variance equation of a dynamics of order 3 or less, and the metric equations of a first-order dynamics, contain no average. The bounds are attained. With two fields, or for the mean equation, a first-order dynamics is not closed.", "quantifier": "for all systems of polynomial evolution equations of every order k, all numbers of fields and coordinates, all iteration orders of sets and dictionaries", "why_tests_cant": "Tests compute the PKF of a few dynamics; the bound on the order of the closure needed concerns every dynamics and every dimension.", "anchors": ["src/sympkf/symbolic/pkfcas.py:SymbolicPKF.expectation_system", "src/sympkf/symbolic/pkfcas.py:SymbolicPKF.variance_system", "src/sympkf/symbolic/pkfcas.py:SymbolicPKF.cross_covariance_system", "src/sympkf/symbolic/pkfcas.py:SymbolicPKF.metric_system", "src/sympkf/symbolic/pkfcas.py:SymbolicPKF.unclosed_terms", "src/sympkf/symbolic/pkfcas.py:SymbolicPKF._apply_internal_closure"]}
{"id": "C97", "title": "forecasts converge with the order of the scheme", "statement": "If the steps of the window are at most h and the initial state is at distance delta of a smooth solution y of dy/dt=f(t,y), then Model.forecast ends without error and every saved state is at distance at most C (delta + h^p) of y at its time, with p=1/2/4 for euler/rk2/rk4, for h and delta small enough.", "quantifier": "every trend that is Lipschitz continuous (and for rk4 differentiable) near the solution, every window (regular or not), every saved_times, every number of steps, with one constant C", "why_tests_cant": "a limit statement: one constant for all windows, uniformly in the number of steps", "anchors": ["src/sympkf/model/model.py:Model.forecast", "src/sympkf/model/model.py:Model._euler", "src/sympkf/model/model.py:Model._rk2", "src/sympkf/model/model.py:Model._rk4"]}
{"id": "C98", "title": "saved_times given as a one-shot iterator", "statement": "When saved_times is a generator or another one-shot iterator, Model.forecast and Model.predict keep exactly the states of the longest beginning of the window that the iterator gives in this order, and nothing after it: an iterator over the whole window is as good as a list, one that omits window[0] saves nothing. ensemble_forecast returns an empty list at every time (parallel=False, or an iterator that can be pickled) or raises TypeError (parallel=True and a generator), and forecast_tl returns no perturbation. The result differs from that of the list of the same times.", "quantifier": "for all windows, iterators, states, perturbations, time schemes and trends", "why_tests_cant": "The saved times depend on the interplay of every window with every iterator; tests only use lists and arrays.", "anchors": ["src/sympkf/model/model.py:Model.forecast", "src/sympkf/model/model.py:Model.predict", "src/sympkf/model/model.py:Model.ensemble_forecast", "src/sympkf/model/model.py:Model.forecast_tl", "src/sympkf/model/model.py:Model._check_saved_times"]}
{"id": "C99", "title": "Dynamics of the standard deviations", "statement": "SymbolicPKF.std_system never fails: it has, in the order of the fields, one equation isolating the time derivative of each standard deviation std_i; its right-hand sides contain neither the variances nor random functions outside averages of normalised errors, and only spatial derivatives. When std_i is the square root of the variance, each equation is equivalent to the corresponding equation of variance_system, so it is satisfied by every solution of the tangent-linear dynamics of the errors. This does not depend on which derivative the search of the trend (whose comparison with the time symbol is never true) ends with.", "quantifier": "for all systems of polynomial evolution equations, all numbers of fields and coordinates, all iteration orders of sets and dictionaries, all statistics and error solutions", "why_tests_cant": "Tests show the system of one dynamics; the equivalence with the variance system is an identity between all solutions, for every dynamics, and the search of the trend depends on the iteration order of a set.", "anchors": ["src/sympkf/symbolic/pkfcas.py:SymbolicPKF.std_system", "src/sympkf/symbolic/util.py:Eq.isolate"]}
{"id": "C100", "title": "Right-hand sides are the instantaneous rates, whatever the iteration order", "statement": "Take a system whose equations contain spatial derivatives only. At one instant, without assuming anything about how the errors evolve, the right-hand sides of expectation_system, error_system, variance_system, cross_covariance_system, epsilon_system and metric_system have the values of the rates of change obtained by moving the errors with the tangent-linear dynamics and the mean with the averaged second-order dynamics. The same holds for in_metric, in_diffusion and in_aspect when the closure holds and the tensors are inverse to the metric. Consequently two runs that differ in the iteration orders of Python sets and sympy substitutions give systems about the same functions, in the same order, whose right-hand sides are equal for every statistics of errors.", "quantifier": "For every list of coordinates without repetition and without t, every system of polynomial equations in spatial derivatives, every closure of admissible shape, every pair of iteration orders, and every algebra and statistics.", "why_tests_cant": "A test sees one iteration order (hash seeds fix it within a process) and a few dynamics; a right-hand side that depended on the order, or was right only on solutions, would pass.", "anchors": ["src/sympkf/symbolic/pkfcas.py:SymbolicPKF.expectation_system", "src/sympkf/symbolic/pkfcas.py:SymbolicPKF.error_system", "src/sympkf/symbolic/pkfcas.py:SymbolicPKF.variance_system", "src/sympkf/symbolic/pkfcas.py:SymbolicPKF.epsilon_system", "src/sympkf/symbolic/pkfcas.py:SymbolicPKF.metric_system", "src/sympkf/symbolic/pkfcas.py:SymbolicPKF.in_metric", "src/sympkf/symbolic/pkfcas.py:SymbolicPKF.in_diffusion", "src/sympkf/symbolic/pkfcas.py:SymbolicPKF.in_aspect"]}
{"id": "C101", "title": "The predefined Burgers model: closure, closed dynamics, constructor", "statement": "For the class Burgers: pkf.unclosed_terms has exactly one element, E[eps D_x^4 eps], so Burgers.unclosed_term is this term whatever the iteration order of sets and dictionaries. The closed dynamics closed_pkf.in_aspect has three equations, for the mean, the variance and the aspect, contains no average, and its right-hand sides are those of the published closed PKF dynamics. The metric and the aspect forms of the P18 closure have the same value when s = 1/g. At every instant the equations of mean and variance are exact, and the right-hand side for the aspect differs from the true rate by 2 kappa s^2 (E[(D_x^2 eps)^2] - 3 g^2); the closure is true exactly when this difference is zero, as for a Gaussian correlation of constant metric. No expression in mean, variance, metric, aspect and their derivatives is a true closure for all errors. The claim that Burgers(n) returns a numerical model is false: the class defined by exec inside a function is not visible to the return statement, NameError.", "quantifier": "for all iteration orders, all algebras of random fields, all error statistics with any (non constant) variance and metric; the constructor for all generated codes, module and builtin names", "why_tests_cant": "A test compares the printed equations of one run under one hash seed; the size of the closure error is an identity over all error statistics, the impossibility of an exact closure quantifies over all closures, and the repository has no test of the class.", "anchors": ["src/sympkf/dynamics/burgers.py:Burgers", "src/sympkf/symbolic/pkfcas.py:SymbolicPKF.unclosed_terms", "src/sympkf/symbolic/pkfcas.py:SymbolicPKF.in_aspect", "src/sympkf/symbolic/pkfcas.py:SymbolicPKF.set_closure"]}
{"id": "C102", "title": "Text of the generated module", "statement": "For a builder whose names are identifiers and whose expressions fit on one line, builder.code is produced without error, for FDModelBuilder and for ManifoldModelBuilder. Leaving out comments and blank lines, its lines are exactly: the two imports, the class line, the tuples of names (exogenous functions, constant functions and constants only when there are any), the constructor, index (finite differences only), trend, and compute_exogenous when needed. The indentation is the one Python requires and brackets are closed. The lines of trend, between the creation of dstate and its return, are the statements of the trend program in order: rows of dstate, rows of state, constants, exogenous functions, derivatives, stores. No line assigns to a Python keyword provided no name handed to the templates is one. write_module writes this text, after a comment, in the file class_name.lower()+'.py' and touches no other file. Two further claims are false: that the module can be read by Python for every system (a constant lambda or \\lambda gives the line `lambda = self.lambda`), and that distinct classes go to distinct modules (names that differ in case only share a file).", "quantifier": "for all builders (any number of functions, constants, coordinates, derivatives, any names and codes as above), all systems of PDEs and iteration orders for the link to the trend program, all sets of existing files", "why_tests_cant": "A test renders a handful of systems; the combinations of empty and non-empty lists with whitespace control in the templates are unbounded, and a wrongly indented line shows only for the combination that reaches it.", "anchors": ["src/sympkf/symbolic/model_builder.py:ModelBuilder._render", "src/sympkf/symbolic/model_builder.py:ModelBuilder.code", "src/sympkf/symbolic/model_builder.py:ModelBuilder.write_module", "src/sympkf/symbolic/model_builder_manifold.py:ManifoldModelBuilder", "src/sympkf/symbolic/model_builder_FD.py:FDModelBuilder", "src/sympkf/symbolic/templates/header.py:template", "src/sympkf/symbolic/templates/footer.py:template", "src/sympkf/symbolic/templates/body_FDModelBuilder.py:template", "src/sympkf/symbolic/templates/body_ManifoldModelBuilder.py:template"]}
{"id": "C103", "title": "Constructor of a manifold model, and the time scheme of generated models", "statement": "The constructor of a class generated by ManifoldModelBuilder raises AssertionError exactly when the dimension of the base space differs from the number of coordinates. Otherwise every declared constant or constant function has the value given by the keyword of that name, nan when none is given; a warning is printed for exactly those that are nan; other keywords set nothing, and base_space is the space given. The constructor of a class generated by FDModelBuilder selects the time scheme named by the keyword time_scheme, rk4 by default, and rejects unknown names. The same claim for ManifoldModelBuilder is false: the keyword is ignored, the scheme is always rk4, and unknown names are accepted silently.", "quantifier": "for all tuples of names, dimensions and keyword arguments", "why_tests_cant": "A test fixes a set of names and keywords; that no keyword whatsoever changes the scheme is a universal statement.", "anchors": ["src/sympkf/symbolic/templates/body_ManifoldModelBuilder.py:template", "src/sympkf/symbolic/templates/body_FDModelBuilder.py:template", "src/sympkf/model/model.py:Model.__init__"]}
{"id": "C104", "title": "Staggered finite differences brought back to the regular grid", "statement": "regularize_finite_difference replaces each function u(.., x_i + (n/d) dx_i, ..) of the expression by u(.., x_i + n dx_i, ..)/d, once, whatever the order in which the functions are visited; the result only contains points of the grid; an expression already on the grid is returned unchanged; a displacement that is not a rational number of steps raises ValueError. Applied to SymPy's staggered finite difference of a derivative of order o in one variable, it gives the central difference of the regular grid (the one finite_difference emits) for o even, and 2^(o-1) times this difference for o odd. Hence the first derivative (the documented example) is right, and the claim that the function writes the finite difference on the regular grid is false from the third derivative on: on u = x^3 the result is 24 instead of 6.", "quantifier": "for all expressions, all visiting orders, all derivative orders, functions, points and non-zero steps", "why_tests_cant": "A test checks the first and second derivatives, which are right; the factor depends on the order, and the result could depend on the order in which a SymPy set is visited.", "anchors": ["src/sympkf/symbolic/finite_difference.py:regularize_finite_difference", "src/sympkf/symbolic/finite_difference.py:get_displacement", "src/sympkf/symbolic/finite_difference.py:_sympy_finite_difference"]}
{"id": "C105", "title": "The substitution tree of an object, and gamma_subs", "statement": "Reading the property subs_tree of a SymbolicPKF never fails, whatever was asked before. Its keys are exactly the averages E[D^a eps_i D^b eps_i] with a and b non-zero and |a|+|b| at most the degree reached by the tree of field i; each entry is an identity of all statistics of the errors; the averages left in a value are E[eps_i D^g eps_i] of order 4 up to that degree. Reading changes nothing that can be observed: neither the degrees, nor a second reading, nor the answer to any later query. A degree once reached is never lost. The claim that subs_tree is determined by the equations is false: it is empty for a new object and has entries once the dynamics has been asked for. gamma_subs(metric, k, i, j) is the average of D_k eps D_i D_j eps.", "quantifier": "for all systems, closures, iteration orders, histories of queries and closures, and all statistics of the errors", "why_tests_cant": "The entries are identities between averages over random fields, and the keys depend on the history of queries; both range over infinite sets.", "anchors": ["src/sympkf/symbolic/pkfcas.py:SymbolicPKF.subs_tree", "src/sympkf/symbolic/pkfcas.py:gamma_def", "src/sympkf/symbolic/pkfcas.py:gamma_subs", "src/sympkf/symbolic/pkfcas.py:UnivariateTree.__call__"]}
{"id": "C106", "title": "Correlation functions of the class Closure", "statement": "Closure.correlation_in_diffusion(px, py), written with the diffusion tensor nu, equals Closure.correlation(px, py) written with the aspect tensor 2 nu, at all pairs of points and in all dimensions; with a constant tensor its metric tensor is (2 nu)^-1. Closure.correlation is 1 for equal points, symmetric, and in one and two dimensions lies in (0, 1] for symmetric positive definite aspect tensors. The function of LocGaussianClosure is not symmetric when its tensor depends on the position, so the claim that it is a correlation function is false.", "quantifier": "for all dimensions (bounds: one and two), tensor fields, pairs of points, and all operations det and inv with the stated algebraic properties", "why_tests_cant": "The claims are about real functions of two points and of a tensor field; sampled points do not settle symmetry or bounds.", "anchors": ["src/sympkf/symbolic/pkfcas.py:Closure.correlation_in_diffusion", "src/sympkf/symbolic/pkfcas.py:Closure.correlation", "src/sympkf/symbolic/pkfcas.py:LocGaussianClosure.correlation"]}
{"id": "C107", "title": "The generated finite-difference model is second-order consistent with the PDE system", "statement": "For a system of prognostic equations whose right-hand sides are polynomials in spatial derivatives of smooth fields with the periods of the grid, the trend method of the generated class, evaluated on the values of the fields on the grid, returns at every grid point the exact right-hand side up to C h^2, where h is the largest spacing and C depends only on the system and the fields: not on the numbers of points, the cache of index, or iteration orders. The same holds for each generated derivative, mixed ones included, in any number of dimensions. The period is needed: for sin(x) on a grid of length pi the generated derivative at the first point is 0 for every number of points, while the derivative is 1.", "quantifier": "for all systems in the translatable class, all smooth periodic fields, all dimensions, shapes, lengths, cache histories and iteration orders", "why_tests_cant": "Consistency is a bound uniform over all grids and all smooth fields, with a constant that does not depend on the grid; tests see finitely many grids and fields.", "anchors": ["src/sympkf/symbolic/model_builder_FD.py:FDModelBuilder", "src/sympkf/symbolic/finite_difference.py:finite_difference", "src/sympkf/symbolic/finite_difference.py:code_finite_difference", "src/sympkf/symbolic/templates/body_FDModelBuilder.py"]}
{"id": "C108", "title": "window() in double precision", "statement": "In IEEE double arithmetic, with numpy's rules for the length and the points of arange, window(end,start) has exactly n+1 points whenever end is within dt/4 of start+n*dt; point i is start+i*dt up to 10*2^-53*i*(|start|+dt), is the double closest to i*dt when start is zero, and the points increase, the float difference of two consecutive points being dt up to rounding. When end is n*dt (exactly, or as Python computes n*dt) and start is zero the last point is end itself, so forecast with saved_times=end returns it. This fails for an end given otherwise: for dt=0.1, window(0.3) does not contain 0.3 and forecast(window(0.3),u0,saved_times=0.3) is empty. Far from zero the points drift by whole steps. Whatever the magnitudes, a window whose start is before its end begins with its start (or there are more points than a 64-bit integer counts), and it is empty exactly when start is not before end+dt/3 as computed; window(t,t) can be empty, dt/3 being lost in the sum. A window ending before its start is empty and a zero dt raises ZeroDivisionError.", "quantifier": "for all finite doubles start, end, dt with dt positive (the first point, the boundary); the count and the points with 2^-1000 <= dt <= 2^900 and |start|, |end| at most 2^40 dt, all n and i, every time scheme", "why_tests_cant": "2^192 triples of doubles; the failures depend on the last bit", "anchors": ["src/sympkf/model/model.py:Model.window", "src/sympkf/model/model.py:Model.forecast"]}
{"id": "C109", "title": "Forecasts of the generated diffusion and Burgers models converge to the solutions", "statement": "The trend generated from the diffusion equation or from Burgers' equation of symbolic/dynamics.py on n points of a period L computes, at every point, the centred scheme with the neighbours taken modulo n. If the initial state is the solution on the grid, h=L/n and the steps of the window are at most tau with 2*kappa*tau <= h^2, then forecast succeeds and at every saved time every value is within C(tau^p+h^2) of the solution, p being the order of the time scheme (euler 1, rk2 2, rk4 4), for the diffusion; for Burgers' equation with euler, if moreover h*max|u(t0)| <= 2*kappa, it is within C(tau+h^2). C depends on the solution and the interval of time only, not on n, tau, the window, the cache of index or iteration orders. Without the condition on tau the claim fails: for 2*kappa*dt > h^2, n even, an initial saw tooth of any amplitude grows beyond any bound with euler.", "quantifier": "for all periods, diffusivities, intervals of time, smooth periodic solutions, numbers of points, windows, saved_times, histories of the cache and iteration orders", "why_tests_cant": "Convergence is a bound over all grids, all windows and all solutions with one constant; a test compares a few runs at a tolerance, and the instability only shows after enough steps.", "anchors": ["src/sympkf/symbolic/dynamics.py:dynamics", "src/sympkf/symbolic/model_builder_FD.py:FDModelBuilder", "src/sympkf/symbolic/templates/body_FDModelBuilder.py", "src/sympkf/model/model.py:Model.forecast", "src/sympkf/model/model.py:Model._rk4"]}
{"id": "C110", "title": "Energy of linear conservative dynamics under the time schemes", "statement": "For a linear trend f orthogonal to the state for an inner product (rotations, waves, advection: the exact solution keeps its energy <x,x>), one step of euler, rk2 or rk4 changes the energy by exactly dt^2|fx|^2, dt^4/4|f^2x|^2, and -dt^6/72|f^3x|^2+dt^8/576|f^4x|^2. Hence forecast with rk4 never increases the energy at any saved time when the steps of the window are at most tau with tau*m <= 2 sqrt 2, m bounding |fx|/|x|; beyond that limit, and for euler and rk2 with any non-zero step, the energy of an oscillating mode (f(f x) = -m^2 x) grows beyond any bound, by an exact factor per step. leapfrog on a regular window keeps |a|^2+|b|^2-2dt<b,fa> at all times, so the pair stays bounded when dt*m < 1.", "quantifier": "for all index sets, inner products, linear conservative trends, windows, saved_times, initial states and steps", "why_tests_cant": "Stability is about every linear system and arbitrarily many steps; a test runs one system for a few steps, in which the growth of rk2 (of order dt^4) is invisible.", "anchors": ["src/sympkf/model/model.py:Model._euler", "src/sympkf/model/model.py:Model._rk2", "src/sympkf/model/model.py:Model._rk4", "src/sympkf/model/model.py:Model._leapfrog", "src/sympkf/model/model.py:Model.forecast"]}
{"id": "C111", "title": "Forecasts of the models generated from advection_in_2D and advection_in_3D", "statement": "The model generated from dynamics.advection_in_2D or advection_in_3D, for all wind arrays u, v(, w), on a periodic box: its trend at every point is -sum_k w_k D_k c with the centred differences and the wind at the point. The sum of c changes at the rate sum (div w) c, the discrete divergence; when it is zero, forecasts by euler, rk2 and rk4 conserve the sum at all saved times. If no wind component varies along its own axis, rk4 never increases the sum of c^2 when tau*sum_k max|w_k|/h_k <= 2 sqrt 2. For constant winds, under the same limit, forecasts by rk4 from the values of a smooth periodic solution stay within C(tau^4 + h^2) of it in root mean square at all saved times, with C depending on the solution only. Beyond the limit for rk4, and for every non-zero step with euler and rk2, two states that differ by a multiple of a wave of four points along the wind drift apart without bound.", "quantifier": "for all box sides, grid shapes, wind arrays, iteration orders of the sets of sympy, histories of the index cache, windows, saved_times, initial states and smooth periodic solutions; every multiple of the wave and every bound", "why_tests_cant": "Conservation, stability and convergence are about all winds, all fine grids and arbitrarily many steps; a test sees one grid, one wind and a few steps, and the growth by rk2 is invisible there.", "anchors": ["src/sympkf/symbolic/dynamics.py:advection_in_2D", "src/sympkf/symbolic/dynamics.py:advection_in_3D", "src/sympkf/symbolic/model_builder_FD.py:FDModelBuilder", "src/sympkf/symbolic/templates/body_FDModelBuilder.py:index", "src/sympkf/model/model.py:Model._euler", "src/sympkf/model/model.py:Model._rk2", "src/sympkf/model/model.py:Model._rk4", "src/sympkf/model/model.py:Model._leapfrog", "src/sympkf/model/model.py:Model.forecast"]}
{"id": "C112", "title": "The parametric dynamics of linear transport is closed and is the expected one, in any dimension", "statement": "For linear equations the mean equations of SymbolicPKF contain no average. For one linear equation of order one, in_metric, in_diffusion and in_aspect exist without closure, have one equation for the mean, the variance and each entry of the tensor, contain no average, and unclosed_terms is empty. For D_t c = - w.grad c + r c + q (advection, advection_in_2D, advection_in_3D, with optional growth and source) the right-hand sides are: mean -w.grad m + r m + q; variance -w.grad V + 2 r V; metric -w.grad g - (grad w) g - g (grad w)^T; diffusion and aspect tensors -w.grad s + s (grad w) + (grad w)^T s; the growth does not enter the tensors.", "quantifier": "for all lists of distinct coordinates, dependences of the wind components on coordinates and time, optional growth and source, iteration orders of the sets and dictionaries, and all algebras of random fields with the statistics of the errors", "why_tests_cant": "A test prints the system for one dimension and one wind; the statement is about all dimensions and about the values of the right-hand sides, which sympy may write in many ways.", "anchors": ["src/sympkf/symbolic/pkfcas.py:SymbolicPKF.in_metric", "src/sympkf/symbolic/pkfcas.py:SymbolicPKF.in_diffusion", "src/sympkf/symbolic/pkfcas.py:SymbolicPKF.in_aspect", "src/sympkf/symbolic/pkfcas.py:SymbolicPKF.unclosed_terms", "src/sympkf/symbolic/dynamics.py:advection_in_2D", "src/sympkf/symbolic/dynamics.py:advection_in_3D"]}
{"id": "C113", "title": "Forecasts of the generated advection models converge for all regular winds, in any number of points", "statement": "In the models generated from advection_in_2D and advection_in_3D, with winds that vary: within tau * sum_k max|w_k|/h_k <= 2 sqrt 2 the sum of squares of the field under rk4 grows at most like exp(2 K (t-t0)), where K depends only on the slopes of each wind along its own axis and not on the spacings; for winds that are periodic, bounded and of bounded slope along their own axes, the forecasts from a smooth periodic solution converge to it in root mean square at the order 4 in the step and 2 in the spacing. Zero discrete divergence alone does not prevent growth (refuted): it conserves the sum of the field but not the bound on the sum of squares.", "quantifier": "for all winds, grids, windows, steps within the limit, initial fields (growth), smooth periodic solutions (convergence), iteration orders of the sets of sympy and states of the caches of index", "why_tests_cant": "A test runs one grid, one wind and one step; uniformity of the constants over all grids and all winds, and the order of convergence, are statements about limits.", "anchors": ["src/sympkf/symbolic/dynamics.py:advection_in_2D", "src/sympkf/symbolic/dynamics.py:advection_in_3D", "src/sympkf/symbolic/model_builder_FD.py:FDModelBuilder", "src/sympkf/model/model.py:Model._rk4", "src/sympkf/model/model.py:Model.forecast"]}
{"id": "C114", "title": "The generated parametric dynamics of advection forecasts the mean, the variance and the aspect tensor of the ensemble", "statement": "The system obtained from advection by SymbolicPKF.in_aspect has one equation for the mean, the variance and each entry of the aspect tensor. The mean, variance and aspect tensor of any finite weighted ensemble of smooth fields carried by the winds satisfy these equations. The model that FDModelBuilder generates from this system, started from the statistics of the ensemble at the points of the grid and forecast by rk4 within tau * sum_k max|w_k|/h_k <= 2 sqrt 2, gives at all saved times the statistics of the ensemble up to C (tau^4 + h^2) in root mean square, with a constant C that does not depend on the grid and the steps: the comparison with an ensemble of the notebook 'PKF on the 2D advection'.", "quantifier": "for all smooth periodic winds in 2D and 3D, all ensembles whose variance stays away from 0 and whose tensor is bounded, all grids, windows, steps within the limit, iteration orders of the sets of sympy and states of the caches of index", "why_tests_cant": "A test compares one ensemble on one grid up to a tolerance that absorbs the sampling noise; that the parametric forecast converges to the statistics of every ensemble is a statement about limits over all ensembles.", "anchors": ["src/sympkf/symbolic/pkfcas.py:SymbolicPKF", "src/sympkf/symbolic/pkfcas.py:SymbolicPKF.in_aspect", "src/sympkf/symbolic/dynamics.py:advection_in_2D", "src/sympkf/symbolic/dynamics.py:advection_in_3D", "src/sympkf/symbolic/model_builder_FD.py:FDModelBuilder", "src/sympkf/model/model.py:Model.forecast"]}
{"id": "C115", "title": "The model generated from diffusion_in_2D with a constant tensor: equation, scheme, conservation, stability limits and convergence", "statement": "The right hand side of diffusion_in_2D is the divergence of the flux kappa grad u. The trend of the model that FDModelBuilder generates from it is, at every point, the scheme of centred differences (second differences for the diagonal terms, products of first differences for the mixed term). With a constant positive semi-definite tensor the forecasts by euler, rk2 and rk4 conserve the sum of the field; the sum of squares does not increase when tau * 4 (k11/h1^2 + k22/h2^2) is at most 2 (euler, rk2) or 2.78 (rk4), and then the forecasts converge in root mean square to every smooth periodic solution at the order of the scheme in the step and 2 in the spacing. Beyond 2, respectively 2.79, two fields that differ by a multiple of the checkerboard separate without bound.", "quantifier": "for all positive semi-definite constant tensors (equation and scheme: all tensors), all periodic rectangles and grids, all fields, windows, steps, sets of saved times, iteration orders of the sets of sympy and states of the caches of index", "why_tests_cant": "A test runs one tensor on one grid for a few steps; stability and convergence are statements about all steps and the limit over all grids, and the limits of the step depend on the tensor and the two spacings together.", "anchors": ["src/sympkf/symbolic/dynamics.py:diffusion_in_2D", "src/sympkf/symbolic/util.py:CoordinateSystem.div", "src/sympkf/symbolic/model_builder_FD.py:FDModelBuilder", "src/sympkf/symbolic/finite_difference.py:finite_difference", "src/sympkf/model/model.py:Model.forecast"]}
{"id": "C116", "title": "The model generated from diffusion_in_2D with a variable tensor: budget of the sum, bounds of the field and uniform convergence", "statement": "With any arrays of the tensor the rate of the sum of the field is the sum of the field weighted by the excess of the second over the twice-taken first differences of the diagonal components; without excess the forecasts conserve the sum. With a diagonal tensor that varies by at most four times its value between the two neighbours of a point, and tau (2 k11/h1^2 + 2 k22/h2^2) <= 1 at all points, the forecasts by euler, rk2 and rk4 stay between the bounds of the initial field and converge uniformly to every smooth periodic solution at the order of the scheme in the step and 2 in the spacing. The sum is not conserved in general, and with a mixed component one euler step of any length makes a nonnegative field negative.", "quantifier": "for all arrays of the tensor (budget), all diagonal tensors under the stated condition (bounds, convergence), all periodic rectangles and grids, fields, windows, sets of saved times, iteration orders of the sets of sympy and states of the caches of index", "why_tests_cant": "Whether a scheme keeps the bounds of every field, or loses the conservation that the equation has, is a statement about all fields and tensors; tests on smooth examples see neither the undershoots nor the small drift of the sum.", "anchors": ["src/sympkf/symbolic/dynamics.py:diffusion_in_2D", "src/sympkf/symbolic/util.py:CoordinateSystem.div", "src/sympkf/symbolic/model_builder_FD.py:FDModelBuilder", "src/sympkf/symbolic/finite_difference.py:finite_difference", "src/sympkf/model/model.py:Model.forecast"]}
{"id": "C117", "title": "The model generated from the 1D advection of dynamics.py advects the wind by itself, not the field", "statement": "The field and the wind of `advection` in dynamics.py both have the name u. The trend of the model that FDModelBuilder generates from it is minus the wind times the centred difference of the wind, whatever the field; every forecast by euler, rk2 or rk4 is the initial field plus the elapsed time times this rate. The forecasts hence do not approach the field carried by the wind: a wave in a wind of 1 is wrong by 2 at the time pi on every grid and with every step.", "quantifier": "for all winds, fields, grids, periods, windows, sets of saved times, schemes, iteration orders of the sets of sympy and states of the caches of index", "why_tests_cant": "The generated code runs without a warning and returns plausible arrays; that the field never enters the rate is a statement about all fields, and a test in which the field starts equal to the wind for one short step does not see it.", "anchors": ["src/sympkf/symbolic/dynamics.py:advection", "src/sympkf/symbolic/model_builder_FD.py:FDModelBuilder", "src/sympkf/symbolic/finite_difference.py:finite_difference", "src/sympkf/model/model.py:Model.forecast"]}
{"id": "C118", "title": "The models generated from burgers and kuramoto: the scheme, and conservation of the sum of the field", "statement": "The trend of the model generated from kuramoto is minus u times the centred difference, minus kappa times the second difference, minus eta times the fourth difference over five neighbours modulo the number of points. The forecasts of burgers and kuramoto by euler, rk2 and rk4 conserve the sum of the field exactly in real arithmetic, with any step.", "quantifier": "for all kappa and eta, grids, periods, fields, windows, sets of saved times, schemes, iteration orders of the sets of sympy and states of the caches of index", "why_tests_cant": "Conservation is asserted at all times of all runs, stable or not; a test checks a few steps to a tolerance and cannot tell a slow drift from rounding.", "anchors": ["src/sympkf/symbolic/dynamics.py:burgers", "src/sympkf/symbolic/dynamics.py:kuramoto", "src/sympkf/symbolic/model_builder_FD.py:FDModelBuilder", "src/sympkf/symbolic/finite_difference.py:finite_difference", "src/sympkf/model/model.py:Model.forecast"]}
{"id": "C119", "title": "Forecasts of burgers and kuramoto converge with every scheme", "statement": "For every smooth periodic solution of Burgers' equation with kappa > 0 and of the Kuramoto-Sivashinsky equation with eta > 0 and any kappa, there is a constant C such that on all fine enough grids, with steps of at most h^2/(4 kappa), respectively 1/(4|kappa|/h^2 + 16 eta/h^4), the forecasts by euler, rk2 and rk4 succeed and at every saved time the root mean square of the error is at most C h^2 and the largest error at most C sqrt(n) h^2.", "quantifier": "for all smooth periodic solutions, all fine enough grids, all windows with such steps, all sets of saved times, schemes, iteration orders of the sets of sympy and states of the caches of index", "why_tests_cant": "Convergence of a nonlinear scheme is a limit over all grids and windows of growing length; a test measures a slope on a few grids for one solution and cannot exclude an instability that appears on finer ones.", "anchors": ["src/sympkf/symbolic/dynamics.py:burgers", "src/sympkf/symbolic/dynamics.py:kuramoto", "src/sympkf/symbolic/model_builder_FD.py:FDModelBuilder", "src/sympkf/symbolic/finite_difference.py:finite_difference", "src/sympkf/model/model.py:Model.forecast"]}
{"id": "C120", "title": "The text of an expression becomes code function by function, whatever the order of the set of functions, provided no name ends in another after a LaTeX prefix", "statement": "code_finite_difference(expr) replaces in str(expr) every function by its own code (name, time tag, np.ix_ of its displacements) and nothing else, then the spacings; the result does not depend on the iteration order of expr.atoms(Function). This needs that no function name is another one after a prefix that clean_latex_name changes: with the fields u and \\nu the code is nu*u or \\nu*u according to the order of the set. The property code of Code is computed once and stable; for f^u_xy one time step ahead it is f_u_xyp1, not fp1_u_xy as the documentation says.", "quantifier": "for all expressions, printed as functions between separators, all names without separators, all coordinates, displacements and iteration orders of the set of functions", "why_tests_cant": "The text is built by successive str.replace in the order of a Python set, which changes from run to run with hash randomisation: a test sees one order and a few names.", "anchors": ["src/sympkf/symbolic/finite_difference.py:code_finite_difference", "src/sympkf/symbolic/finite_difference.py:code_regular_function", "src/sympkf/symbolic/finite_difference.py:Code"]}
{"id": "C121", "title": "Coupled linear transport of several fields: exact equations of means, variances, covariances and metrics; the covariance equation is closed although averages are left in it", "statement": "For n fields transported by one wind and coupled linearly, D_t u_i = - w.grad u_i + sum_j r_ij u_j + q_i, SymbolicPKF returns one equation for every mean, variance, covariance and metric entry. For every ensemble their right-hand sides have the values of transport plus r u + q for the means, transport plus R V + V R^T for the covariance matrix, and for the metrics transport, shear and the derivatives of the part of the other errors. The equations of the means contain no average. Without derivatives in the dynamics the equations of the variances and covariances contain none either. When r_ij = - r_ji the sum of the variances is only transported. In the chemical transport model of the notebooks averages are left in the equation of V_AB although its right-hand side always equals - u D_x V_AB - V_A + V_B.", "quantifier": "for all numbers of fields and of coordinates, winds, reaction coefficients and sources that are given functions, all ensembles of errors, all iteration orders of the sets and dictionaries of sympy", "why_tests_cant": "A test compares symbolic output for two fields in one dimension; the values of the right-hand sides for all ensembles, any number of fields and any coefficients are identities between averages that no run exhibits, and that the remaining averages are superfluous is not visible in the output.", "anchors": ["src/sympkf/symbolic/pkfcas.py:SymbolicPKF", "src/sympkf/symbolic/pkfcas.py:SymbolicPKF.in_metric"]}
{"id": "C122", "title": "Forecasts in double precision: rounding errors of the schemes and of the generated expressions, distance to the exact forecast and to the solution of the equation", "statement": "On numpy float64 arrays one step of euler, rk2, rk4 or leapfrog is within an explicitly computed bound of the exact step, for every trend computed within a known bound; an arithmetic expression of the generated code, whatever its shape, is within a bound computed along the expression; nothing overflows if the bounds say so. The states returned by predict are finite and their distance to the exact forecast obeys e_{k+1} <= K e_k + rho, rho being the bound of one step and K the expansion of the exact step. For the generated diffusion model under 2 kappa dt <= h^2 the errors only add up, e_k <= e_0 + k rho, and the double precision forecast is within C (dt^p + h^2) + e_0 + k rho of the solution of the equation. What is exact in exact arithmetic is lost: the sum over the grid is not conserved and a step of leapfrog is not undone by the opposite step.", "quantifier": "for all fields of doubles, windows, numbers of points and of steps, all trends and expressions, all three one-step schemes, all bounds satisfying the stated inequalities", "why_tests_cant": "A run shows one rounding pattern; that no state, grid, order of the printed terms or number of steps makes the computed forecast drift further than the bound, or overflow, is a statement on all doubles.", "anchors": ["src/sympkf/model/model.py:Model._euler", "src/sympkf/model/model.py:Model._rk4", "src/sympkf/model/model.py:Model._leapfrog", "src/sympkf/model/model.py:Model.predict", "src/sympkf/symbolic/templates/footer.py"]}
{"id": "C123", "title": "forecast_tl of a dynamics that is not linear tends to the tangent linear forecast as h tends to 0", "statement": "For a trend with a tangent linear trend (error of the second order near each state), forecast_tl with step h returns, at every saved time and for every perturbation, an array within C h of the forecast of the tangent linear dynamics along the trajectory, with the same scheme and window; the constants C and h0 do not depend on h, on the workers of the pool nor on the perturbation in the list. The class generated from the Burgers equation is such a model, its tangent linear trend being the scheme linearised about the trajectory: -p Du - u Dp + kappa D2 p. The result is not the tangent linear forecast itself: for du/dt = u^2 the error of one step is exactly h, whatever h.", "quantifier": "for all trends with a tangent, all three one-step schemes, all windows, saved times without repetition, states, lists of perturbations, all h small enough, all behaviours of the pool; for Burgers all numbers of points, lengths, viscosities", "why_tests_cant": "A test compares one quotient with one tangent at one h; that the error decreases like h for every trajectory and every perturbation is a limit statement.", "anchors": ["src/sympkf/model/model.py:Model.forecast_tl", "src/sympkf/model/model.py:Model._rk4", "src/sympkf/symbolic/model_builder_FD.py:FDModelBuilder"]}
{"id": "C124", "title": "forecast_tl of a generated model and the model generated from the tangent linear equations", "statement": "Take equations whose right-hand sides are polynomials in the functions and their space derivatives, and write beside them their tangent linear equations for new functions (one per evolving function). As h tends to 0, forecast_tl of the finite-difference class generated from the first equations tends to the perturbation fields of the forecast of the class generated from all the equations, started from the state and the perturbation: the error at every saved time and every point is at most C h, with C independent of h, of the workers and of the perturbation in the list. The tangent linear equations may be written in any form of the same value. The two objects may have different caches of index, different orders of the terms and of the sets. Burgers is an instance: D_t p = -p D_x u - u D_x p + kappa D_x^2 p.", "quantifier": "for all polynomial systems in any number of fields and space dimensions, all grids, constants, functions of space, orders of sets, states of the caches, the three one-step schemes, all windows, saved times without repetition, states, perturbations, all h small enough, all behaviours of the pool", "why_tests_cant": "A test compares two programs at one h on one grid; discretising then linearising against linearising then discretising is a statement about all right-hand sides and a limit.", "anchors": ["src/sympkf/model/model.py:Model.forecast_tl", "src/sympkf/symbolic/model_builder_FD.py:FDModelBuilder", "src/sympkf/symbolic/finite_difference.py:finite_difference", "src/sympkf/symbolic/util.py:PDESystem"]}
{"id": "C125", "title": "A ModelBuilder object over its life: lazy properties, changed equations, renaming", "statement": "The properties of a ModelBuilder can be read in any order and any number of times: the code is the one the system, the equations and the name give, the equations being those in the list when the pseudo-algebraic system is first made (the system keeps the list of the caller). Once read, the code is the same for ever, whatever is done to the equations, the name or pde_system. A change of the list after the pseudo-algebraic system has been read is ignored. An equation put in the list after the system was built, for a function that is not prognostic, makes every read of the code fail with KeyError, and the builder cannot be repaired by removing it; a failure before the pseudo-algebraic system is kept can be repaired. A builder renamed after its code was read writes the old class in a file with the new name. Assigning pde_system after a property was read gives a mixture of the two systems.", "quantifier": "for all systems, lists of equations, names, histories of reads, changes in place, renamings and assignments, all orders of the sets, all printers and codes of derivatives", "why_tests_cant": "A test runs one history; which of the ten caches is filled when, and from which state of the list, is a statement about all of them.", "anchors": ["src/sympkf/symbolic/model_builder.py:ModelBuilder", "src/sympkf/symbolic/util.py:PDESystem"]}
{"id": "C126", "title": "Mean and covariance of an ensemble forecast", "statement": "For an affine dynamics, at every saved time of the window the sample mean of what ensemble_forecast returns is the forecast of the sample mean, and the sample covariance is that of the anomalies carried by the linear part. For a linear dynamics with M = make_M(window) and P the covariance of the initial states, the covariance of the final states is transpose(M) P M, and not M P transpose(M). For any dynamics with a tangent linear dynamics (the class generated from the Burgers equation in particular) and members x + h p_k: the mean is that of the tangent linear forecasts up to C h^2, so the forecast of x up to C h^2 when the p_k have mean zero, and the covariance divided by h^2 is that of the tangent linear forecasts up to C h. For a dynamics that is not affine the mean of the members is in general not the forecast of the mean.", "quantifier": "for all dynamics with a tangent linear dynamics, all three one-step schemes, windows, saved times, states, perturbations bounded on the entries, sizes of the ensemble (two or more for the covariance), chunkings and completion orders of the pool; for all h below a threshold", "why_tests_cant": "A test compares statistics for one ensemble and one h; the order of the error and the transposition are statements about all of them.", "anchors": ["src/sympkf/model/model.py:Model.ensemble_forecast", "src/sympkf/model/model.py:LinearModel.make_M", "src/sympkf/model/model.py:Model.forecast"]}
{"id": "C127", "title": "A PDESystem as a container of equations: iteration, indexing, shared list, printed summary", "statement": "Iterating a PDESystem gives its equations in order, once each, then StopIteration for ever, whatever else the program does meanwhile (other iterators included) as long as the list of equations is not changed; system[k] counts from the front for k >= 0, from the end for k < 0 and raises IndexError otherwise; none of these changes anything. A system made from a list keeps that list itself: systems made from the same list always have the same equations, and a later change of the list changes what iteration and indexing give but never the attributes computed by the constructor nor the printed summary, so that a function of the equations can then be in none of prognostic, constant and exogenous functions, and a loop that appends to the list while it iterates over the system never ends. A single equation gets a list of its own; a tuple of equations raises AttributeError. The printed summary names every function of the equations the system was made from, in three lines, and the constants by their cleaned names, so that different constants can print alike.", "quantifier": "for all programs that create lists and systems, change lists, reassign equations, create and advance iterators, index and print, in any order; all iteration orders of sets; all ways of printing expressions on one line", "why_tests_cant": "The claims are about every interleaving of changes, iterators and reads; a test runs one program.", "anchors": ["src/sympkf/symbolic/util.py:PDESystem.__init__", "src/sympkf/symbolic/util.py:PDESystem.__iter__", "src/sympkf/symbolic/util.py:PDESystem.__getitem__", "src/sympkf/symbolic/util.py:PDESystem.__repr__"]}
