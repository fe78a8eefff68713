{
 "C05": {
  "note": "first_failure names the first scheme call that raises; predict is covered by C03_predict_fails_iff_forecast_fails."
 },
 "C06": {
  "note": "The exception raised by a failing parallel ensemble does depend on the completion order (refuted theorem)."
 },
 "C09": {
  "note": "make_M is the transpose; the natural reading is refuted."
 },
 "C18": {
  "note": "Exact rationals; numpy's documented length formula for arange."
 },
 "C46": {
  "note": "Every entry of the internal closure is an identity of every error model; derivative order alphabetical, 'is' read as structural equality."
 },
 "C47": {
  "note": "Polynomial right-hand sides D_t u_i = p_i, all fields on the same coordinates."
 },
 "C55": {
  "note": "in_metric keeps the exact solutions; in_diffusion is refuted for coupled systems (it omits the cross-covariance equations). C55_closure_applied: what an external closure leaves."
 },
 "C58": {
  "note": "unclosed_terms are exactly the averages left in the system; the reading 'a reported term is unknown' is refuted."
 },
 "C101": {
  "note": "Equations, unclosed term and closure error for all iteration orders; C101_constructor_refuted: Burgers(n) always raises NameError (Python scoping modelled)."
 },
 "C102": {
  "note": "Templates verbatim, the part of jinja2 they use is modelled (lexer, parser, whitespace control, renderer). Refuted: readable for every system (keyword names), one file per class."
 },
 "C103": {
  "note": "C103_scheme_refuted: a manifold model ignores the keyword time_scheme."
 },
 "C104": {
  "note": "One derivative variable. C104_third_refuted: odd derivatives from order 3 on are multiplied by 2^(o-1)."
 },
 "C105": {
  "note": "C105_history_refuted: subs_tree is empty for a new object, non-empty after in_metric. gamma_subs is unused by the package."
 },
 "C106": {
  "note": "Axioms of the real numbers of the standard library. Bounds proved in dimensions 1 and 2, the two the property claims. C106_loc_symmetric_refuted: the localised function is not symmetric."
 },
 "C107": {
  "note": "Axioms of the real numbers of the standard library. The differentiated functions depend on all the coordinates of the class. Powers with a derivative in them have natural exponents (polynomials), other powers are bounded. C107_periodic_needed: no convergence at the seam without the period."
 },
 "C108": {
  "note": "Axioms of the real numbers of the standard library (through Flocq). Times at most 2^40 steps from zero and dt in [2^-1000, 2^900]. C108_saved_end_refuted: 0.3 is not a point of window(0.3) for dt=0.1. C108_drift_refuted: beyond that range the points drift. C108_starts and C108_boundary have no such bound. C108_single_refuted: window(t,t) is empty for t=2**60, dt=1."
 },
 "C109": {
  "note": "Axioms of the real numbers of the standard library. Exact real arithmetic; the solution is assumed smooth with bounded derivatives on the interval. Burgers' equation with euler only; Kuramoto's equation of dynamics.py is not covered. C109_unstable: without 2*kappa*tau <= h^2 euler diverges."
 },
 "C110": {
  "note": "Axioms of the real numbers of the standard library and functional extensionality. Exact real arithmetic. euler and rk2 amplify every undamped oscillation at any step (C110_unstable)."
 },
 "C111": {
  "note": "Axioms of the real numbers of the standard library, classic and functional extensionality. Exact real arithmetic. Convergence is proved for constant winds; the energy bound for winds that do not vary along their own axis."
 },
 "C112": {
  "note": "No axioms. Values are in any commutative ring of random fields with derivations and an average (Reynolds.v). Winds, growth and source are functions, not constants of sympy."
 },
 "C113": {
  "note": "Exact real arithmetic. The winds do not depend on time (they are attributes of the generated class). C113_divergence_free_refuted: discretely divergence-free winds may increase the sum of squares."
 },
 "C114": {
  "note": "Exact real arithmetic. C114_equations links the text given to the generator with in_aspect by value: in_aspect keeps the inverse of the tensor as a symbol, sympy displays the simplified form (notebook, cell 12), which StatModel writes. C114_dynamics is the exact dynamics of the statistics, C114_converges the forecasts."
 },
 "C115": {
  "note": "Exact real arithmetic. The order of the seven terms after doit() is ours; over the reals it does not matter (C115_equation gives the value). rk4 between 2.78 and 2.79 is not decided (the exact limit is the root 2.7853 of a cubic)."
 },
 "C116": {
  "note": "Exact real arithmetic. Convergence for variable tensors with a mixed component is not claimed: the scheme has no maximum principle there (C116_positivity_refuted)."
 },
 "C117": {
  "note": "Exact real arithmetic. The claim that forecasts approach the carried field is refuted by C117_advection_refuted (finding in DESIGN.md)."
 },
 "C118": {
  "note": "Exact real arithmetic."
 },
 "C119": {
  "note": "Exact real arithmetic. Existence of smooth solutions is not claimed; the example for kuramoto is a constant solution, no other periodic one has a closed form. The order in time of rk2 and rk4 does not show: the step is at most a multiple of h^2."
 },
 "C120": {
  "note": "The condition on the names is necessary: C120_order_refuted. C120_docstring_refuted: the documented place of the time tag is wrong (findings in DESIGN.md)."
 },
 "C121": {
  "note": "The expectation that averages left in an equation are needed is refuted by C121_closure_refuted (finding in DESIGN.md)."
 },
 "C122": {
  "note": "Exact conservation of the sum and exact reversibility of leapfrog are refuted in double precision (C122_sum_refuted, C122_leapfrog_refuted)."
 },
 "C123": {
  "note": "Exact arithmetic. That the result is the tangent linear forecast for some h is refuted (C123_exact_refuted)."
 },
 "C124": {
  "note": "Exact arithmetic; no exogenous function; right-hand sides are polynomials (natural powers). The names of the perturbations must not occur in the equations."
 },
 "C125": {
  "note": "The sets of a system are not changed in place; a cached list of Meta objects is represented by the set it comes from. The mixture of two systems is given property by property (C125_assign); the stronger claims on repair, rename and assign are refuted with witnesses."
 },
 "C126": {
  "note": "Over the reals. The statistics are np.mean and np.cov over the members. matrix_refuted and mean_refuted give witnesses."
 },
 "C127": {
  "note": "Slices in system[..] are not modelled; str of a sympy expression is an arbitrary function. iteration_ends_refuted, attributes_refuted and text_refuted give witnesses."
 }
}