#!/usr/bin/env python3
"""Writes /verif/properties.jsonl (kept as a script so that the list is easy to edit)."""
import json, os
P = []
def p(title, statement, quantifier, why, anchors):
    P.append(dict(id="C%02d" % (len(P) + 1), title=title, statement=statement,
                  quantifier=quantifier, why_tests_cant=why, anchors=anchors))
IA = "autobound/interval_arithmetic.py:"
PO = "autobound/polynomials.py:"
EA = "autobound/enclosure_arithmetic.py:"
EF = "autobound/elementwise_functions.py:"
PE = "autobound/primitive_enclosures.py:"
GE = "autobound/graph_editor.py:"
JE = "autobound/jax/jaxpr_editor.py:"
JB = "autobound/jax/jax_bound.py:"

# ---- interval arithmetic -------------------------------------------------
p("Interval add / subtract / negative are exact",
  "IntervalArithmetic.add, subtract and negative, on any mix of arrays and intervals with broadcastable shapes, return an interval that contains op(A,B) for every choice of arrays A, B inside the arguments, and each endpoint is attained elementwise, so no smaller interval would do. When no argument is an interval the result is the plain array.",
  "all shapes, all broadcastable operand pairs, all real endpoints, all members of the intervals",
  "a test samples a few endpoint values and shapes; containment and tightness range over a continuum of members and all shapes",
  [IA+"IntervalArithmetic.add", IA+"IntervalArithmetic.subtract", IA+"IntervalArithmetic.negative"])
p("Interval multiply is exact",
  "IntervalArithmetic.multiply returns, elementwise, exactly the range of the product: it contains A*B for all members A, B of the arguments, and both endpoints are products of members.",
  "all shapes, all broadcastable operand pairs, all real endpoints, all members",
  "the nine sign patterns in the tests are single points in a continuum of endpoint pairs",
  [IA+"IntervalArithmetic.multiply", IA+"IntervalArithmetic.arbitrary_bilinear"])
p("General bilinear interval rule contains every result",
  "IntervalArithmetic.arbitrary_bilinear with assume_product=False contains bilinear(A,B) for all members A, B, for every bilinear operation whose entries are sums of products with non-negative weights (matmul, tensordot, convolution); tensordot inherits this for every number of contracted axes.",
  "all bilinear operations with non-negative weights, all shapes, endpoints and members",
  "the operation itself is a parameter: no finite set of operations or values covers it",
  [IA+"IntervalArithmetic.arbitrary_bilinear", IA+"IntervalArithmetic.tensordot"])
p("'Arbitrary bilinear' claim fails for operations with negative weights",
  "The documentation says arbitrary_bilinear applies any bilinear operation to two intervals. For a bilinear operation with a negative weight (for example (a,b) -> -(a*b)) the returned pair does not contain the true results.",
  "the documented claim ranges over all bilinear operations; one operation refutes it",
  "the tests only try operations with non-negative weights",
  [IA+"IntervalArithmetic.arbitrary_bilinear"])
p("Interval power is the exact range",
  "IntervalArithmetic.power(a, n) for an interval and an integer n >= 1 returns exactly the elementwise range of x**n over the interval (including 0 as lower endpoint for even n when the interval straddles 0); n = 0 gives ones and n < 0 raises NotImplementedError.",
  "all integer exponents, all shapes, all endpoints lo <= hi",
  "exponents and endpoints are unbounded; the parity/sign case split needs every case",
  [IA+"IntervalArithmetic.power"])
p("Outer power contains every repeated outer product",
  "IntervalArithmetic.outer_power(a, n, batch_dims) contains the repeated batched outer product of every member of a; for batch_dims = 0, vectors and n = 2 the diagonal entries are the exact range of the square (hence never negative).",
  "all n >= 0, all shapes and batch dims, all members",
  "the result rank grows with n; tests use n <= 2 and length-2 vectors",
  [IA+"IntervalArithmetic.outer_power", IA+"IntervalArithmetic.outer_product", IA+"_generalized_diag_ndarray"])
p("Batched outer product index law",
  "outer_product of two arrays with batch_dims = b satisfies c[I+J+K] = a[I+J]*b[I+K] for all index tuples, has shape a.shape + b.shape[b:], and rejects batch_dims larger than either rank.",
  "all shapes, all batch_dims, all indices",
  "the einsum equation is built at run time from the ranks",
  [IA+"_ndarray_outer_product", IA+"IntervalArithmetic.outer_product", IA+"_stringify"])
# ---- polynomials ----------------------------------------------------------
p("eval_polynomial sums coefficient-power inner products",
  "eval_polynomial returns the fold of add over inner_product(c_i, z^i) in index order, with z^0 the multiplicative identity and z^i = outer_power(z,i); for numbers this is the usual value of the polynomial.",
  "all coefficient sequences, all z, all callback implementations",
  "length and callbacks are arbitrary", [PO+"eval_polynomial"])
p("Polynomial product",
  "polynomials.arbitrary_bilinear(a, b) returns coefficients whose value at any z is the product of the values of a and b, and its length is len(a)+len(b)-1.",
  "all sequences of real coefficients, all real z", "unbounded length",
  [PO+"arbitrary_bilinear"])
p("Partition enumeration is exact",
  "_iter_partitions(n, m, k) yields every length-k tuple of non-negative integers with sum m and weighted sum n exactly once and nothing else.",
  "all n, m >= 0 and k >= 1", "tests check two parameter triples", [PO+"_iter_partitions"])
p("Multinomial coefficients",
  "_multinomial_coefficient(ks) times the product of the factorials of ks is the factorial of sum(ks); an empty sequence raises ValueError.",
  "all non-empty sequences of non-negative integers", "unbounded", [PO+"_multinomial_coefficient"])
p("integer_power raises a polynomial to a power",
  "integer_power(a, n) with the default callbacks returns coefficients whose value at every z equals (value of a at z)**n, for every n >= 0 and non-empty a; it has (len(a)-1)*n+1 coefficients and n < 0 raises ValueError.",
  "all coefficient sequences, all exponents, all z", "unbounded degree and exponent; combinatorial sum",
  [PO+"integer_power"])
p("Evaluating a Taylor enclosure contains every selection",
  "eval_taylor_enclosure(enc, z) at a point z or at an interval z contains sum_i <C_i, Z^i> for every choice of coefficient arrays C_i inside the coefficients of enc and every Z inside z; at a point z both ends are attained.",
  "all degrees, all coefficient and input shapes, all selections", "continuum of selections, unbounded degree and rank",
  [PO+"eval_taylor_enclosure", PO+"eval_elementwise_taylor_enclosure"])
# ---- enclosure arithmetic ---------------------------------------------------
p("enclose_enclosure lowers the degree soundly",
  "enclose_enclosure(enc, trust_region, d) returns an enclosure of degree at most d; every function value enclosed by enc on the trust region is enclosed by the result; when enc already has degree <= d it is returned unchanged, and coefficients below d are never changed.",
  "all degrees, shapes, trust regions, enclosures and enclosed functions", "continuum, unbounded degree",
  [EA+"enclose_enclosure", EA+"TaylorEnclosureArithmetic._truncate_if_necessary"])
p("Enclosure add, subtract, negative are sound",
  "If a encloses f and b encloses g on the trust region then add(a,b), subtract(a,b), negative(a) enclose f+g, f-g, -f (with numpy broadcasting).",
  "all functions, degrees, shapes, trust regions, points of the trust region", "property of functions over a continuum",
  [EA+"TaylorEnclosureArithmetic.add", EA+"TaylorEnclosureArithmetic.subtract", EA+"TaylorEnclosureArithmetic.negative"])
p("Enclosure multiply is sound",
  "If a encloses f and b encloses g on the trust region then multiply(a,b) encloses f*g.",
  "all functions, degrees, shapes (with broadcasting), trust regions, points", "property of functions over a continuum",
  [EA+"TaylorEnclosureArithmetic.multiply", EA+"_pairwise_batched_multiply", EA+"_elementwise_term_product_coefficient"])
p("Enclosure integer power is sound",
  "If a encloses f on the trust region then power(a, n) encloses f**n for every integer n >= 0.",
  "all functions, degrees, exponents, shapes, trust regions, points", "unbounded exponent and degree",
  [EA+"TaylorEnclosureArithmetic.power", EA+"_elementwise_term_power_coefficient"])
p("Enclosure bilinear operations are sound",
  "If a encloses f and b encloses g on the trust region, then TaylorEnclosureArithmetic.arbitrary_bilinear(a, b, op) encloses bilinear(f,g), for every operation with non-negative weights whose pairwise batched version obeys the documented index law.",
  "all such operations, functions, degrees, shapes, trust regions, points", "operation is a parameter",
  [EA+"TaylorEnclosureArithmetic.arbitrary_bilinear"])
p("Composition with an elementwise enclosure is sound",
  "If e is an elementwise enclosure of sigma about f(x0) valid for the range of f, and a encloses f with exact constant term, then compose_enclosures(e, a) encloses sigma(f), provided every coefficient of a has the full rank (rank of f plus i times rank of x).",
  "all sigma, f, degrees, shapes, trust regions, points", "higher-order property over functions",
  [EA+"TaylorEnclosureArithmetic.compose_enclosures", EA+"TaylorEnclosureArithmetic.get_elementwise_fun", EA+"_left_broadcasting_multiply"])
p("Composition loses soundness on rank-deficient coefficients",
  "compose_enclosures aligns the elementwise coefficient with the left axes of a coefficient array. When an earlier broadcasted addition left a coefficient without the leading axes (for example constant vector + x.sum()), the result is accepted by the shape validation yet does not enclose sigma(f).",
  "the documented contract ranges over all enclosures; one enclosure refutes it", "no test mixes ranks before an elementwise function",
  [EA+"TaylorEnclosureArithmetic.compose_enclosures", EA+"_left_broadcasting_multiply", JB+"_validate_taylor_enclosure"])
p("Division is sound",
  "If a encloses f and b encloses g on the trust region and the derived range of g excludes 0, then divide(a,b) encloses f/g.",
  "all functions, degrees, shapes, trust regions, points (endpoint distances outside the 1e-12 cap)", "continuum",
  [EA+"TaylorEnclosureArithmetic.divide", PE+"pow_enclosure"])
p("Degree bound and exact lower coefficients",
  "Every operation of TaylorEnclosureArithmetic returns at most max_degree+1 coefficients, and if the coefficients below max_degree of the arguments are plain arrays then so are those of the result (only the last coefficient can be an interval).",
  "all operations, degrees, shapes, arguments", "invariant over all operation histories",
  [EA+"TaylorEnclosureArithmetic"])
# ---- elementwise functions ------------------------------------------------------
p("get_function(derivative_id(k)) is the k-th derivative",
  "For exp, log (on x>0), sigmoid (k<=4), softplus (k<=5) and swish (k<=4) the callable returned for derivative order k+1 is the derivative of the callable for order k at every real point of the domain; sigmoid equals 1/(1+exp(-x)) and softplus equals log(1+exp(x)); for abs order 1 is the derivative away from 0. Orders beyond the table raise NotImplementedError.",
  "all real x in the domain, all supported orders (all orders for exp and log)", "derivative identities at every real",
  [EF+"get_function", EF+"_sigmoid_derivative", EF+"_softplus_derivative", EF+"_swish_derivative"])
p("Monotonicity and symmetry flags are true",
  "Whenever get_function_data flags a function as monotonically increasing / decreasing / even symmetric, the function has that property on its whole domain, for every derivative order (all orders for exp and log).",
  "all function ids, all pairs of points of the domain", "universally quantified over reals",
  [EF+"get_function_data", EF+"_FUNCTION_DATA"])
p("monotone_over is right whenever the listed extrema are",
  "If a function is monotone between consecutive listed extrema (falling into each minimum, rising into each maximum) then monotone_over(region) answers decreasing/increasing only for regions on which the function really is.",
  "all functions, all finite extrema lists, all regions", "function and lists are parameters",
  [EF+"FunctionData.monotone_over"])
p("What get_range returns, for every function id",
  "For every function id, get_range(function_id, (lo, hi)) does one of four things, and which one is known: (exact: exp and log of every order, abs up to order 1, sigmoid up to 1, softplus up to 2) it returns the least and the greatest value of the function on the region; (rounded: sigmoid of order 2-3, softplus of order 3-4, swish of order 0-2) both ends are values on the region and no value on the region is outside by more than 4e-12, the error made by listing extrema as decimals; (wrong: sigmoid of order 4, softplus of order 5, swish of order 3 and 4) there is a region with a value more than 1/1000 below the returned range; every other order raises NotImplementedError.",
  "all function ids and orders, all regions, all points", "continuum of regions and points",
  [EF+"get_range", EF+"minimum_value", EF+"maximum_value"])
p("minimum_value/maximum_value ignore the end points",
  "minimum_value returns the best listed local minimum inside the region without comparing it to the end points, so a region that contains a shallow listed minimum and stops just before a deep one gets a wrong range. This already happens for the third derivative of swish on [-5, 0.9], and it makes the degree-3 swish enclosure at x0 = 0.5 invalid.",
  "the documented claim 'returns exact range' ranges over all regions; one region refutes it", "no test has a region of this shape",
  [EF+"minimum_value", EF+"_FUNCTION_DATA", PE+"get_elementwise_taylor_enclosure"])
p("The table for the fourth derivative of swish misses extrema",
  "The listed extrema for swish order 4 omit the two outer minima (near +-5.4). monotone_over therefore reports 'decreasing' on [6,10] where the function increases, and the degree-4 swish enclosure there has its interval reversed.",
  "the documented claim (lists include all minima/maxima) ranges over all reals; one region refutes it", "the tests only check that listed points are critical",
  [EF+"_FUNCTION_DATA", EF+"FunctionData.monotone_over"])
p("Taylor coefficients",
  "get_taylor_polynomial_coefficients(f, d, x0) returns d+1 numbers, the i-th being the i-th derivative at x0 divided by i!.",
  "all supported functions, degrees and x0", "continuum", [EF+"get_taylor_polynomial_coefficients"])
# ---- primitive enclosures -------------------------------------------------------
p("Sharp enclosure for monotone derivative is valid",
  "If the k-th derivative of sigma is monotone (in the stated direction) on an interval containing x0 and the trust region, then the interval returned by sharp_enclosure_monotonic_derivative makes sigma(x) lie in the enclosure for every x of the trust region, provided each end point either equals x0 or is at least (1e-12)**(1/k) away from it.",
  "all k >= 0, all functions with k continuous derivatives, all x0, all trust regions, all x", "quantifies over functions",
  [PE+"sharp_enclosure_monotonic_derivative", PE+"taylor_remainder_ratio"])
p("Sharp enclosure is sharp",
  "Under the same conditions, at each end point of the trust region different from x0 the corresponding bound equals sigma exactly, so no interval strictly inside the returned one is valid.",
  "all k, functions, x0, trust regions", "quantifies over functions and over all competing intervals",
  [PE+"sharp_enclosure_monotonic_derivative"])
p("The 1e-12 cap can make enclosures invalid",
  "When an end point is closer to x0 than the cap allows, the enclosure returned for exp does not contain exp at that end point (in exact arithmetic).",
  "the documented claim ranges over all trust regions; one refutes it", "the violation is below floating-point resolution",
  [PE+"taylor_remainder_ratio"])
p("Bounded-derivative enclosure is valid",
  "If the k-th derivative of sigma stays within derivative_bound on an interval containing x0 and x, then bounded_derivative_enclosure contains sigma(x); a wrong number of coefficients raises ValueError.",
  "all k >= 0, functions, x0, x", "quantifies over functions", [PE+"bounded_derivative_enclosure"])
p("Even-symmetric-Hessian enclosure is valid",
  "If sigma is twice differentiable with an even second derivative that decreases on x >= 0, then sharp_quadratic_enclosure_even_symmetric_hessian contains sigma(x) for every x of a trust region containing x0 (end-point distances outside the cap).",
  "all such functions, x0, trust regions, x", "quantifies over functions",
  [PE+"sharp_quadratic_enclosure_even_symmetric_hessian"])
p("Built-in elementwise enclosures are valid",
  "abs_enclosure (degree 0,1), exp_enclosure and log_enclosure (every degree), sigmoid_enclosure (degree 0,1), softplus_enclosure (degree 0,1,2) enclose their function for every x0 and trust region of the domain containing x0 (end-point distances outside the cap). The same holds for sigmoid_enclosure (degree 2,3), softplus_enclosure (degree 3,4) and swish_enclosure (degree 0,1,2) once the final interval is widened by 4e-12/degree! (the extrema are listed as decimals).",
  "all x0, trust regions, x, listed degrees", "continuum; unbounded degree",
  [PE+"get_elementwise_taylor_enclosure", PE+"abs_enclosure", PE+"exp_enclosure", PE+"log_enclosure", PE+"sigmoid_enclosure", PE+"softplus_enclosure"])
p("Sign of derivatives of powers",
  "_pow_kth_deriv_sign(x_sign, p, k) is the sign of the k-th derivative of x**p at every x of the given sign.",
  "all real p (integer p for negative x), all k, all x", "continuum", [PE+"_pow_kth_deriv_sign"])
p("Power enclosure is valid away from zero",
  "pow_enclosure(p, x0, (lo,hi), k) encloses x**p on [lo,hi] whenever x0 is in [lo,hi] and lo > 0, or hi < 0 with integer p; the enclosure is all of the extended line when the region meets the part of the line where x**p is undefined or unbounded.",
  "all real p, all degrees, all regions, all x", "continuum", [PE+"pow_enclosure"])
p("Power enclosure is invalid across zero",
  "For a non-negative integer exponent and a region straddling 0, pow_enclosure combines only the two one-sided end-point candidates; for exponent 4, degree 2, x0 = 1 and region [-2,2] the result does not contain x**4 at x = -1.",
  "the documented claim ranges over all regions; one refutes it", "no test straddles zero with an interior extremum",
  [PE+"pow_enclosure"])
# ---- graph editor -----------------------------------------------------------------
p("match is sound and complete",
  "graph_editor.match(pattern, subject, can_bind) returns a mapping iff one exists: the mapping it returns turns the pattern into the subject, satisfies can_bind on every pair and binds exactly the pattern's variables; it returns None only if no such mapping exists.",
  "all operation sequences and all can_bind predicates", "unbounded graphs and arbitrary predicates", [GE+"match", GE+"Operation.subs"])
p("replace rewrites greedily and touches nothing else",
  "graph_editor.replace partitions the subject's operations, left to right, into maximal greedy matches (each replaced by the substituted replacement) and untouched operations (kept in order); inputs, outputs and data are unchanged. ComputationGraph.intermediate_variables() is exactly the set of variables that are an input or output of the graph or of one of its operations.",
  "all patterns (non-empty), replacements, subjects", "unbounded sequences", [GE+"replace", GE+"ComputationGraph.intermediate_variables"])
p("replace terminates exactly for non-empty patterns",
  "graph_editor.replace terminates for every subject when the pattern is non-empty; with an empty pattern and a non-empty subject it never terminates.",
  "all inputs, all numbers of steps", "non-termination cannot be tested", [GE+"replace"])
p("Rewriting preserves the meaning of the program",
  "If pattern and replacement compute the same function, then evaluating the graph after replace gives the same outputs as before, provided, for every match, internal variables of the match are not used elsewhere, no input of the match is assigned inside it, and the replacement's internal variables are fresh. Each of the three conditions is needed and the code checks none of them.",
  "all patterns, replacements, subjects, inputs and operation semantics", "quantifies over programs and semantics",
  [GE+"replace", JE+"replace", JB+"_rewrite_jaxpr"])
p("Jaxpr replace can capture variables",
  "jaxpr_editor.replace numbers the replacement's internal variables after the pattern's, not the subject's, so a replacement with an internal variable can overwrite a live variable of the subject and change the meaning of the program.",
  "the documented claim ranges over all Jaxprs; one refutes it", "the tests' multi-operation replacement does not collide",
  [JE+"replace", JE+"_jaxpr_to_graph"])
p("Jaxpr/graph conversion round-trips",
  "_graph_to_jaxpr(_jaxpr_to_graph(j)) is j up to renaming of variable objects: same equations, literals, constvars, invars and outvars.",
  "all Jaxprs whose variables have unique counts", "unbounded programs", [JE+"_jaxpr_to_graph", JE+"_graph_to_jaxpr"])
p("Jaxpr equivalence check",
  "_same_jaxpr_up_to_variable_renaming(j0, j1) is True only if some renaming of variables turns j0 into j1 (up to ignored parameters), and it is True whenever j1 is an injective renaming of j0.",
  "all Jaxprs", "unbounded programs", [JE+"_same_jaxpr_up_to_variable_renaming", JE+"_jaxpr_eqn_params_equiv"])
# ---- taylor_bounds ----------------------------------------------------------------
p("taylor_bounds is sound",
  "For a function given by a Jaxpr over the supported primitives, taylor_bounds(f, d)(x0, region) either raises or returns bounds with lower(x) <= f(x) <= upper(x) for every x in the region, when x0 is in the region, registered elementwise enclosures are valid on the regions used (for the built-in ones: the conditions of C35 and C37), and the program avoids the combinations shown elsewhere to be unsound: nested jit or unregistered primitives applied to the argument, batched dot_general with a left operand depending on a vector argument, reshape for an argument of shape (1,), and reductions, dot products or elementwise functions of a broadcast sum. ",
  "all programs, degrees, inputs shapes (scalar or vector), x0, regions, x", "quantifies over programs and a continuum of points",
  [JB+"taylor_bounds", JB+"_pushforward_funs", JB+"TaylorBounds"])
p("Trust-region propagation is sound",
  "With propagate_trust_regions=True the bounds are still sound, and the per-variable trust regions contain every value the variable takes on the region.",
  "all programs, degrees, x0, regions, x", "quantifies over programs",
  [JB+"taylor_bounds", JB+"_intersect_intervals"])
p("Bounds are exact at x0 and of bounded degree",
  "For max_degree >= 1 the returned bounds satisfy lower(x0) = upper(x0) = f(x0), have at most max_degree+1 coefficients and only the last one is an interval.",
  "all programs, degrees, x0, regions", "invariant over programs", [JB+"taylor_bounds", JB+"TaylorBounds.__call__"])
p("Nested jit is passed through unsoundly",
  "jit_p is treated as a primitive to be applied to every coefficient separately. For a jitted nonlinear function (x*x) the returned bounds exclude the true value, and for a jitted negation interval coefficients come out reversed.",
  "the documented claim ranges over all traceable functions; one refutes it", "no test bounds a jitted nonlinear function",
  [JB+"_PASS_THRU_PRIMITIVES", JB+"_pass_thru_pushforward_fun"])
p("Batched dot_general puts derivative axes in the wrong place",
  "The dot_general rule subtracts the batch dimensions as well as the contracting ones when locating the derivative axes, so with a batch dimension and a left operand depending on x the coefficient axes are permuted wrongly; with equal sizes this passes validation and gives wrong bounds. Without batch dimensions the rule obeys the documented index law.",
  "all dimension numbers; one with a batch dimension refutes it", "the test file says TODO for batch dimensions",
  [JB+"_dot_general_pushforward_fun"])
p("Broadcasted additions followed by reductions lose soundness",
  "add keeps a higher-degree coefficient in the operand's smaller shape; a following reduce_sum then sums over too few elements: sum(constant vector + x) for x of shape (1,) gets slope 1 instead of the vector length.",
  "the documented claim ranges over all traceable functions; one refutes it", "no test reduces a broadcasted sum",
  [EA+"TaylorEnclosureArithmetic.add", JB+"_pass_thru_pushforward_fun"])
p("pow with propagated trust regions always raises",
  "With propagate_trust_regions=True (and max_degree >= 1), any program containing x**p with a constant exponent operand (lax.pow) raises NotImplementedError, although the same call without propagation succeeds.",
  "all programs containing such an equation with a non-constant base", "ranges over programs",
  [JB+"taylor_bounds", JB+"_pushforward_funs"])
p("TaylorBounds accessors agree",
  "TaylorBounds.lower(x) and upper(x) are the two ends of TaylorBounds(x) (both equal to it when no coefficient is an interval) with lower(x) <= upper(x) whenever every interval coefficient is ordered, and final_interval is the last coefficient as an interval.",
  "all bounds objects and x", "continuum", [JB+"TaylorBounds"])
p("pow with an integer-valued floating point exponent raises",
  "lax.pow with a constant exponent that is a positive integer value (x ** 2.0) raises TypeError for every max_degree and propagation setting, because the exponent is passed to range as a float.",
  "all programs containing such an equation with a non-constant base", "ranges over programs",
  [JB+"_pushforward_funs", EA+"TaylorEnclosureArithmetic.power", "autobound/polynomials.py:integer_power"])
p("Rewriting the Jaxpr keeps the bounds sound for the original function",
  "taylor_bounds first rewrites calls of registered functions (jax.nn.sigmoid, softplus, swish) into its own primitives and then bounds the rewritten Jaxpr. If each registered call and its replacement compute the same function, the bounds it returns are bounds of the function that was passed in, at every x of the region where that function is defined, with and without trust-region propagation.",
  "all Jaxprs, any list of registered function calls in any order, degrees, x0, regions, x", "quantifies over programs, registries and a continuum of points",
  [JB+"taylor_bounds", JB+"_rewrite_jaxpr", JE+"replace"])
p("Rewriting changes exactly the calls of registered functions and terminates",
  "Rewriting a traced Jaxpr with the registered rules always terminates and yields the same Jaxpr (same constvars, inputs, outputs, equations in the same order, same wiring of variables and literals) except that every equation that is a call of a registered function on a variable has the registered primitive in place of the call; if no replacement is itself a registered call then no such call is left and rewriting again changes nothing.",
  "all traced Jaxprs and lists of rules", "unbounded programs and rule lists",
  [JB+"_rewrite_jaxpr", JE+"replace"])
p("The registry of elementwise functions",
  "Registering a function under a name already used raises ValueError and changes nothing; otherwise it succeeds, and after any later sequence of registrations the function is still rewritten to its own primitive, its rule keeps its place in the order of registration, and the primitive's enclosure is the registered one unless that primitive is registered again; for a primitive registered several times the last registration is used.",
  "all histories of registrations", "ranges over all call sequences",
  [JB+"register_elementwise_primitive", JB+"_register_elementwise_function"])
p("A registered function of a constant cannot be bounded",
  "The primitives created for registered functions have no evaluation rule, so any program in which sigmoid, softplus or swish is called on a value that does not depend on the argument (for instance x + softplus(c) for an array constant c) makes taylor_bounds raise NotImplementedError, for every degree, region and propagation setting, although the function is defined everywhere.",
  "all programs containing such an equation", "ranges over programs; no test applies a registered function to a constant array",
  [JB+"_register_elementwise_function", JB+"taylor_bounds"])
p("Replacing a pattern in a Jaxpr keeps the function it computes",
  "jaxpr_editor.replace(pattern, replacement, subject): if the replacement computes what the pattern computes wherever the pattern is defined, computes nothing but its outputs, and every occurrence of the pattern in the subject is self-contained (no pattern input stands for a variable computed inside the occurrence, no intermediate result of the occurrence is used later, no dropped result), then the result computes the same outputs from the same constants and inputs as the subject. None of these conditions is checked by the code, and without them the result can compute something else.",
  "all patterns, replacements and subjects of any number of equations, all occurrences, all meanings of the operations that respect the comparison of equations", "quantifies over programs and over the meaning of primitives",
  [JE+"replace", JE+"_jaxpr_to_graph", JE+"_graph_to_jaxpr", JE+"_can_bind", "autobound/graph_editor.py:replace"])
p("taylor_bounds returns: it raises only what an enclosure generator raises",
  "For a well-formed Jaxpr whose equations are supported (C46) and not in the list of cases that always raise (0-th power, pow with propagation or integer-valued exponent, registered function of a constant, array operations on vector-argument coefficients), with x0 inside the region, taylor_bounds either returns or raises an exception raised by the enclosure generator of one of the equations at the requested degree or at degree 0. If no generator raises it returns bounds valid on the whole region. In particular programs of sums, products, dot products, reductions and non-negative integer powers always return, and so do programs that also use exp (any degree), abs, logistic, sigmoid (degree <= 1) and softplus (degree <= 2), for every region containing x0.",
  "all programs, constants, degrees, x0, regions, propagation settings", "quantifies over programs; every shape and intermediate region has to be considered",
  [JB+"taylor_bounds", JB+"_pushforward_funs", EA+"TaylorEnclosureArithmetic", "autobound/primitive_enclosures.py:get_elementwise_taylor_enclosure"])
p("A smaller region never gives looser bounds",
  "For the same function, degree and x0, if taylor_bounds returns for a region and for a region inside it, then at every x of the shape of x0 the bounds for the smaller region are at least as tight: lower' <= lower <= upper <= upper'. This holds for the registered functions on the degrees and regions with correct tables (and away from rounded extrema), without any condition on how close the ends of the region are to x0, and for user-registered primitives whose enclosures have this property.",
  "all programs, constants, degrees, x0, pairs of nested regions, points x", "quantifies over programs, pairs of regions and a continuum of points",
  [JB+"taylor_bounds", JB+"TaylorBounds", PE+"get_elementwise_taylor_enclosure"])
p("propagate_trust_regions never loosens the bounds",
  "For the same function, degree, x0 and region, the bounds returned with propagate_trust_regions=True are at least as tight as those returned with False, at every x of the shape of x0 (under the conditions of the previous property).",
  "all programs, constants, degrees, x0, regions, points x", "quantifies over programs and a continuum of points",
  [JB+"taylor_bounds", JB+"TaylorBounds"])
p("Interval operations are inclusion isotone",
  "If the interval arguments of __neg__, __add__, __sub__, __mul__, __pow__, tensordot, outer_product or outer_power, or of the evaluation of an enclosure, are replaced by intervals inside them, the result is inside the previous result (entry by entry).",
  "all pairs of nested intervals of arrays of any shape", "continuum of interval ends, unbounded shapes",
  ["autobound/interval_arithmetic.py:IntervalArithmetic", EA+"TaylorEnclosureArithmetic"])
p("Elementwise enclosures are isotone in the trust region",
  "For each supported elementwise function, degree and centre, the enclosure computed for a trust region inside another one has the same Taylor coefficients and a final interval inside the other final interval, including regions whose ends are within 1e-12 of the centre (where validity itself fails, C32). For powers on positive, zero-touching and (integer exponents) negative regions too.",
  "all supported functions and degrees, centres, pairs of nested regions", "continuum of centres and regions",
  [PE+"get_elementwise_taylor_enclosure", PE+"pow_enclosure"])
p("Convolutions: bounds for a function of a number, an exception for a function of an array",
  "jax.lax.conv_general_dilated is bilinear with weights 0 and 1 for every stride, padding, dilation, dimension order and grouping (the value is the sum of the products of the entries that meet; the size is the number of window positions that fit), so for a number as argument the bounds of C46 hold for programs with convolutions of values depending on the argument, without any assumption on the convolution. For an argument that is an array and degree >= 1, taylor_bounds never returns bounds for a program that convolves a value depending on the argument (a leading axis is added that the dimension numbers do not allow for), although the convolution itself is fine and degree 0 works.",
  "all convolution parameters, shapes, programs, degrees, x0, regions", "unbounded shapes and parameters; the repository's TODO says the array case is untested",
  [JB+"_conv_general_dilated_pushforward_fun", JB+"taylor_bounds", EA+"TaylorEnclosureArithmetic.arbitrary_bilinear"])
p("Below the maximum degree the coefficients are Taylor coefficients",
  "As the README says, taylor_bounds generalises automatic differentiation: the polynomial made of the coefficients of degree below max_degree approximates the function at x0 with an error of order max_degree; for max_degree >= 2 the function is differentiable at an interior x0 and the coefficient of degree 1 is its gradient (no differentiability assumed); along any line on which the function is max_degree times differentiable the coefficient of degree i < max_degree is the i-th Taylor coefficient at x0 (also when x0 is on the boundary of the region). So these coefficients depend neither on the trust region nor on max_degree, propagation or the enclosure generators.",
  "all programs, constants, degrees, x0, regions, directions", "quantifies over programs, directions and limits",
  [JB+"taylor_bounds", JB+"TaylorBounds"])
p("Integral bounds contain the integral",
  "integral_bound_v0 and integral_bound_v1 (notebook bounding_integrals): for an even degree, any positive number of grid cells and any supported function integrable on [a, b], the two numbers returned are a lower and an upper bound of the integral of the function over [a, b]; odd degrees raise NotImplementedError.",
  "all functions, a <= b, even degrees, numbers of cells", "continuum of functions and intervals, unbounded number of cells",
  ["autobound/notebooks/bounding_integrals.ipynb:integrate", "autobound/notebooks/bounding_integrals.ipynb:integral_bound_v0", "autobound/notebooks/bounding_integrals.ipynb:integral_bound_v1"])
p("minimize_1d_quadratic returns a minimiser",
  "minimize_1d_quadratic(c1, c2, (a, b)) (notebook safe_learning_rates) returns a point of [a, b] at which c1*x + c2*x**2 is at most its value at every point of [a, b], for all real c1 and c2 (of any sign, or zero) and a <= b.",
  "all real c1, c2, a <= b and all x in [a, b]", "continuum",
  ["autobound/notebooks/safe_learning_rates.ipynb:minimize_1d_quadratic"])
p("Safe learning rates never increase the loss",
  "safe_learning_rate(loss, x, update_dir, max_learning_rate) returns a rate in [0, max_learning_rate] with loss(x + rate*update_dir) <= loss(x), strictly smaller (and a positive rate) if the derivative of the loss along update_dir is negative. Hence along every run of the SafeRate optimizer, of any number of steps, the loss never increases; each step's rate is at most the current maximum rate, which is then halved if the rate is below half of it and doubled otherwise. The documented handling of NaN does not work: a NaN rate doubles the maximum rate instead of halving it, because NaN > NaN is false.",
  "all losses, parameters, directions, maximum rates, and all runs of the optimizer", "quantifies over losses and over histories of the optimizer",
  ["autobound/notebooks/safe_learning_rates.ipynb:bound_loss", "autobound/notebooks/safe_learning_rates.ipynb:safe_learning_rate", "autobound/notebooks/safe_learning_rates.ipynb:saferate_optimizer"])
p("Polynomials are bounded exactly",
  "For a program that computes a polynomial of degree d <= max_degree (sums, products, dot products, convolutions, integer powers >= 0, divisions by constants, reductions, reshapes, and anything applied to constants only), taylor_bounds returns at most d+1 coefficients, none of which is an interval; both bounds are equal to the function at every point of the region. Hence the integral bounds of bounding_integrals are equal to the integral for polynomials of degree <= `degree`, with any number of grid cells, and the safe learning rate of safe_learning_rates minimises a quadratic loss exactly, as the notebooks claim.",
  "all programs of degree <= max_degree, constants, x0, regions, points of the region", "quantifies over programs and real inputs",
  [JB+"taylor_bounds", EA+"TaylorEnclosureArithmetic", "autobound/notebooks/bounding_integrals.ipynb:integral_bound_v0", "autobound/notebooks/safe_learning_rates.ipynb:safe_learning_rate"])
p("Degree 0 in floating point: the bounds contain the computed values",
  "If every sum, difference and product is rounded by one monotone, symmetric rounding (such as binary32 to nearest), then the bounds of max_degree 0, computed in this arithmetic without any outward rounding, contain the value the program computes in this arithmetic, at every float of the region, for programs made of +, -, *, unary minus, integer powers, reductions, reshapes, broadcasts and elementwise functions with valid degree-0 enclosures. It does not extend further: the bounds need not contain the exact real value, at degree 1 or more they may miss the computed value (the bounds of x + 1 around 2**25 are 4 and 4 at x = 4), a correctly rounded quotient may exceed its upper bound (the code multiplies by the rounded reciprocal), and so may a dot product with weights of both signs (positive and negative weights are summed apart).",
  "all roundings, programs, constants, regions and floats of the region", "quantifies over programs and all floats",
  [JB+"taylor_bounds", JB+"TaylorBounds", "autobound/interval_arithmetic.py:IntervalArithmetic"])
p("Shape operations on a function of an array raise",
  "reshape, broadcast_in_dim, transpose and reduce_window_sum of a value that depends on an argument that is an array: for max_degree >= 1 taylor_bounds never returns bounds (the coefficients of degree >= 1 have extra axes the parameters of the operation do not allow for; broadcast_in_dim tries to allow for them in the new shape but not in the dimensions), except that reshape goes through for an argument with one entry, and then returns bounds of a wrong shape ((3, 3) instead of (3, 1)). Also for an argument that is a number, broadcast_in_dim raises AttributeError whenever the coefficient of degree 1 is an interval, as at max_degree 1.",
  "all programs containing such an equation, constants, x0, regions, degrees", "ranges over programs, shapes and degrees; the unit tests of these operations use scalar arguments or degree 0",
  [JB+"_broadcast_in_dim_pushforward_fun", JB+"_pushforward_funs", JB+"taylor_bounds"])
p("The squared error loss of any multi-layer perceptron can be bounded",
  "README: \"what is supported is bounding the squared error loss of a multi-layer perceptron\". For a perceptron with any number of layers of any widths, activations sigmoid, softplus, swish, exp, abs or none, a batch of any size, as a function of its input vector or of a number that moves the parameters (such as a learning rate; in a batch, a layer whose biases move and whose weights do not has an activation or is the last): the Jaxpr, with biases broadcast to (1, k) as JAX traces them, computes the sum of the squared errors; whenever the conditions of the registered enclosures hold in each call (C35), the bounds of any degree contain the loss on the whole region. For activations with exact data at the degree (sigmoid up to 1, softplus up to 2, exp and none at any degree) taylor_bounds returns for every such network, data, x0 and region containing x0, the bounds of degree 0 contain the loss on the whole region and those of degree >= 1 are equal to the loss at x0.",
  "all networks (layers, widths, weights, data, targets), degrees, x0, regions, points of the region", "unbounded depth, widths and batch sizes; real parameters and data",
  [JB+"taylor_bounds", JB+"_pushforward_funs", "README.md:Limitations"])
p("A function of one variable applied to an array plus the argument always raises",
  "For an array v with at least one axis and a number x, taylor_bounds of degree >= 1 of f(v + x), f any registered elementwise function or a negative integer power, raises for every v, x0 and region (the slope of v + x is a number, and the multiplication by the coefficients of f refuses a left operand with more axes), although f(v + x) is defined; more generally f(u) raises for every intermediate u with two plain coefficients whose slope has fewer axes than its value.",
  "all registered functions, arrays v, x0, regions, degrees >= 1, programs before and after the equation", "arrays of any rank and shape, unbounded programs, every degree",
  [EA+"_left_broadcasting_multiply", EA+"compose_enclosures", JB+"taylor_bounds"])
p("The gap between the bounds is of order max_degree",
  "For a fixed x0 and program: for every entry of the result there is a constant M such that, for the bounds returned over any region that contains x0 and lies in a given one, upper(x) - lower(x) is at least 0 and at most M * r**max_degree at every x within r of x0 (in each coordinate). So the bounds tighten at this rate as x approaches x0 or as the region shrinks, with one constant for all regions.",
  "all programs, constants, degrees, x0, nested regions, points x and distances r", "a statement about limits, over all regions and points",
  [JB+"taylor_bounds", JB+"TaylorBounds"])
p("The squared error loss of any convolutional neural network can be bounded",
  "README: \"what is supported is bounding the squared error loss of a ... convolutional neural network\". For a batch of images of any size with any number of channels and spatial axes, any number of convolutions (any kernels, strides and zero padding; biases broadcast over batch and positions; activations sigmoid, softplus, swish, exp, abs or none), flattened and followed by any number of dense layers, as a function of a number that moves the parameters (the first layer's among them; a convolution whose biases move and whose kernel does not has an activation): the Jaxpr computes the sum of the squared errors of the network written out as sums over windows; whenever the conditions of the registered enclosures hold in each call (C35), the bounds of any degree contain the loss on the whole region. For activations with exact data at the degree (sigmoid up to 1, softplus up to 2, exp and none at any degree) taylor_bounds returns for every such network, data, x0 and region containing x0; the bounds of degree 0 contain the loss on the whole region and those of degree >= 1 are equal to the loss at x0. (As a function of the images themselves it raises: C65.)",
  "all networks (layers, sizes, strides, paddings, weights, data, targets), degrees, x0, regions, points of the region", "unbounded depth and sizes; real parameters and data",
  [JB+"taylor_bounds", JB+"_conv_general_dilated_pushforward_fun", "README.md:Limitations"])
p("The quadratic bounds of the README are the best quadratics",
  "For f(x) = a*exp(b*x) - c*x**2 (README quickstart), any numbers a, b, c, x0 in [l, h], l < h, as long as the cap 1e-12 is inactive, taylor_bounds of max_degree 2 returns coefficients f(x0), f'(x0) and an interval; the bounds contain f on [l, h], meet it at x0, and at the ends: lower(l) == f(l) and upper(h) == f(h) for a*b >= 0 (the other way round for a*b <= 0). No quadratic that meets f at x0 and bounds it on [l, h] is better at any point x. In the README's case upper(1) == f(1) and lower(0) == f(0), and the coefficients are the exact values its comment approximates. The same for log in place of exp on positive numbers.",
  "all numbers a, b, c, x0, regions, points and competing quadratics", "compares with every other quadratic bound, over real parameters",
  [JB+"taylor_bounds", JB+"TaylorBounds", "autobound/primitive_enclosures.py:sharp_enclosure_monotonic_derivative", "README.md:quickstart"])
p("The bounds do not depend on how the computation is written down",
  "If taylor_bounds returns bounds for a Jaxpr, then any selection of its equations, in any order, that defines every variable it uses once and before its uses (so: a reordering, or the Jaxpr without unused equations) returns exactly the same bounds; and whatever selection and order returns bounds, they are the same. Renaming the variables (different ones to different names) and passing literals as constants of the same value changes neither the bounds nor the exception. This holds in any arithmetic, also in floating point.",
  "all programs, reorderings, unused equations, renamings, literals made constants, constants, x0, regions, degrees, numbers", "ranges over all programs and all schedules of their equations",
  [JB+"taylor_bounds", JB+"taylor_bounds.bound_fun"])
p("How much the coefficients hold: n**i numbers for coefficient i",
  "For x0 of shape () or (n,), every bounds returned, in any arithmetic: the shape of coefficient i (its lower end, for an interval) ends with i copies of x0.shape. For a result y of a supported program, what precedes these copies broadcasts to y.shape, so with n entries in x0 and degree d all coefficients together hold at most y.size * (1 + n + ... + n**d + n**d) numbers: linear in n at degree 1 (README: \"the memory requirements are linear in the input dimension\"). At higher degrees they are not: for every degree m >= 1 and length n, sum(x**m) is bounded and its coefficient i is an array of exactly n**i numbers, so for m >= 2 no constant K makes K*n enough.",
  "all programs, constants, degrees, x0, regions, numbers; all degrees and lengths for the counterexample", "sizes, degrees and programs are unbounded",
  [JB+"taylor_bounds", JB+"_validate_taylor_enclosure", "README.md:39-47"])
p("The centre x0 may lie outside the trust region, for some functions",
  "The docstring of taylor_bounds promises bounds on the trust region with no condition on x0, and nothing checks that x0 lies in it. For programs whose elementwise functions are among abs, exp, log, sqrt, rsqrt and cbrt (and any of +, -, *, integer powers that need no enclosure, reductions, dot products, shape operations), at every degree, the bounds returned are valid at every point of the region wherever x0 lies; likewise for any program whose generators are valid for any centre. For other functions it fails: the bounds of 1/x**2 with x0 = -1 over [1, 4], degree 1, are returned without an exception, and the lower bound at 2 is 7/16, above the value 1/4.",
  "all programs, constants, degrees, regions, centres x0 in or out of the region, points of the region", "quantifies over programs, degrees, centres and points",
  [JB+"taylor_bounds", "autobound/primitive_enclosures.py:sharp_enclosure_monotonic_derivative", "autobound/primitive_enclosures.py:pow_enclosure"])
p("Bounds of degree 0 are interval arithmetic: any centre, and the exact range when nothing is combined with itself",
  "At max_degree 0 the coefficients do not depend on x0 at all: another x0 of the same shape gives the same interval (in any arithmetic). In exact arithmetic, for a program of one argument in which no equation has two operands that depend on it (+, -, *, /, negation, integer powers, abs, exp, log, sqrt, rsqrt, cbrt, sigmoid, softplus, conversions; on arrays also broadcasts, reshapes, squeezes and transposes, powers below 2), the bounds are the exact range: for every entry of the result, a number lies between lower and upper if and only if the program takes it at that entry at some point of the trust region. Without the condition they are not: x - x over [0, 1] gets [-1, 1]. Powers of arrays are looser than powers of numbers: x**2 over [-1, 2] gets [0, 4] for a number and [-2, 4] for an array of one element.",
  "all programs of the kind described, constants, regions, centres and points, values v", "an equality of sets of real numbers, for all programs and regions",
  [JB+"taylor_bounds", EA+"TaylorEnclosureArithmetic.power", IA+"outer_power"])
p("The gap shrinks uniformly over all centres, and the integral bounds converge under subdivision",
  "For a program built of +, -, *, negation, powers of exponent >= 0, dot products, convolutions, reductions, shape operations and abs, exp, sigmoid, softplus and swish (anything that is defined and bounded on bounded sets), given any max_degree and any bound B on the numbers of x0 and of the trust region, there is one constant M such that whatever x0 and region containing it are chosen, the bounds returned satisfy upper(x) - lower(x) <= M * r**max_degree at every entry and every x with |x - x0| <= r. (C75 has a constant for each centre.) So the bounds of an integral in bounding_integrals.ipynb, with n grid cells and degree d, satisfy u - l <= M / n**d for all n with M independent of n; where the bounds enclose the integral (C67), both ends converge to it at this rate. For programs made of functions that never raise (C60: exp at any degree; abs, sigmoid up to 1, softplus up to 2) they are returned for every number of cells.",
  "all programs of the kind described, constants, degrees, centres, regions, points, intervals of integration and numbers of cells", "a constant uniform over all centres and regions, and a limit over all subdivisions",
  [JB+"taylor_bounds", JB+"TaylorBounds", "autobound/notebooks/bounding_integrals.ipynb"])
with open(os.path.join(os.path.dirname(os.path.abspath(__file__)), "properties.jsonl"), "w") as f:
    for r in P: f.write(json.dumps(r) + "\n")
print(len(P))
for r in P: print(r["id"], r["title"])
