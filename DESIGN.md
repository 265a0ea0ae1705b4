# A Rocq model of google/autobound

Build: `cd rocq && coq_makefile -f _CoqProject -o Makefile && make -j4` (Coq 8.16.1).
`properties.jsonl` lists the properties (generated by `gen_properties.py`),
`MANIFEST.json` the theorems proved for each (generated by `gen_manifest.py`
from `manifest_table.py`), `ASSUMPTIONS.md` the output of Print Assumptions per
theorem (generated by `tools/assumptions.py`), `seeded/LOG.jsonl` the runs of
the theorems against edited models (harness: `tools/mutate.py`).

## 1. What is modelled

Every Python module that computes something has a Gallina counterpart, function
by function; each definition cites the lines it models.

| repo file | model file (rocq/theories) | contents |
|---|---|---|
| (numpy / jax.numpy semantics, `types.py` NumpyLike) | `Base.v`, `Tensor.v` | exceptions as values; n-dimensional arrays (shape + index function), broadcasting, tensordot, einsum outer product, diag, expand_dims, transpose, reductions, dot_general |
| `interval_arithmetic.py` | `IntervalArith.v` | all methods of `IntervalArithmetic` |
| `polynomials.py` | `Polynomials.v` | all functions, polymorphic in the coefficient type, callbacks are arguments as in the code |
| `enclosure_arithmetic.py` | `Enclosure.v` | all methods of `TaylorEnclosureArithmetic` and the module functions |
| `elementwise_functions.py` | `Elementwise.v` | `FunctionId`, `FunctionData`, tables, ranges, Taylor coefficients (over the real numbers) |
| `primitive_enclosures.py` | `Primitive.v` | all enclosure generators (over the real numbers) |
| `graph_editor.py` | `GraphEditor.v` | `match`, `replace`, `subs`; the `while` loop with fuel (`None` = still running) |
| `jax/jaxpr_editor.py` | `JaxprEditor.v` | conversions, equivalence, `replace` |
| `jax/jax_bound.py` | `JaxBound.v`, `JaxTable.v`, `JaxPipeline.v` | interpreter of a Jaxpr with and without trust-region propagation, pushforward functions, `TaylorBounds`; the table of built-in enclosure generators and scalar functions; the registry, `_rewrite_jaxpr` and `bound_fun` as a whole |
| `notebooks/bounding_integrals.ipynb`, `notebooks/safe_learning_rates.ipynb` | `Notebooks.v` | `integrate`, `integral_bound_v0/v1`, `minimize_1d_quadratic`, `safe_learning_rate`, `saferate_optimizer` (not the plots) |

Not modelled: `jax.make_jaxpr` (tracing; programs are Jaxprs), the `jax.lax`
primitives' own implementation other than their documented array semantics,
`test_utils.py`, the type annotations of `types.py`, dtypes, floating-point
rounding.

The array model is generic in the scalar type (`Num` class). At `Q`/`Z` it runs
(`vm_compute` reproduces the repository's unit tests in `TestsArith.v` and
`TestsJax.v`: evidence of fidelity, not proofs); theorems are about the instance at `R`.

### Simplifications (also stated at each definition)

* Scalars are exact reals: no floating-point rounding (the code's own docs say
  results are "only correct up to floating point roundoff error"), no dtypes.
* nan/inf: operations that would produce a non-finite number from finite ones
  (`log` of a non-positive number, `0**-1`, negative base with fractional
  exponent) are partial in the model (`Err NonFinite`), except that
  `pow_enclosure`'s explicit `-inf/inf` end points are kept (as `Rbar`).
* Python exceptions are values of type `exn`; messages are dropped.
* Elementwise code (`elementwise_functions.py`, `primitive_enclosures.py`) is
  modelled on one array element and lifted pointwise; the code branches on data
  only through `np.where`, so each element is processed independently.
* `conv_general_dilated` is modelled with its parameters (strides, padding,
  dilations, dimension numbers, groups); the kinds of its exceptions for invalid
  parameters other than rank mismatches are not distinguished.
* A Jaxpr keeps variables (object identity, count, aval), literals, equations
  (primitive, params, invars, outvars); effects are dropped (as
  `_graph_to_jaxpr` does). Numbers stand for primitives, parameter names, dtypes.
* Objects created by `_graph_to_jaxpr` are numbered from an arbitrary start.
* `eqn.primitive.bind` on concrete arrays is the mathematical meaning of the
  primitive, except that the primitives created by
  `_register_elementwise_function` raise (they have no evaluation rule).

## 2. Statements

Specification notions are separate from the model: `Spec.v` (membership in an
interval, "encloses", regions), `ElementSpec.v` (derivative chains, valid
one-dimensional enclosures), `GraphSpec.v` (matches, greedy rewriting, meaning
of a graph), `JaxprSpec.v` (equality up to renaming, copies), `JaxSpec.v`
(meaning of a program, supported programs, valid generators), `PipelineSpec.v`
(traced Jaxprs, registered calls, histories of registrations). They use from
the model only data types (arrays, intervals, Jaxprs) and the meaning of
primitives. Property theorems are in `Prop*.v` under names `Cxx_...`; names
ending in `_refuted` prove that a documented or natural claim is false, by a
concrete counterexample inside the model. Beside each theorem
(`Cxx_nonvacuous`, or in `Examples*.v`) a concrete non-trivial case meets its
hypotheses.

## 3. How each property is proved

* C01-C03, C05: case analysis on end points, index-wise lifting; exactness by
  exhibiting the attained end points. C04: the operation `-(a*b)`, evaluated.
* C06, C07: index laws for outer products; induction on the exponent.
* C08-C12: induction on coefficient lists; C10 by induction on k; C12 by the
  multinomial theorem (induction on the number of coefficients).
* C13-C19, C22: parametricity lemmas for the polymorphic polynomial code
  (`Graded.v`), instantiated with a graded relation "coefficient c can
  contribute v at (output index s, point z)" (`EnclosureOps.v`,
  `EnclosureProofs.v`, `BilinearProofs.v`, `ComposeProofs.v`).
* C20, C51: concrete enclosure/program evaluated in the model. C21: C16 + C19 + C37.
* C23, C24, C29: derivative computations over Coq's reals.
* C25: induction over the sorted extrema list.
* C26: every function id is classified: exact table, table rounded to about
  1e-12 (the true extrema are located by sign changes with rational bounds on
  exp, `ExpBounds.v`, `Extrema.v`; a function within 2e-12 has the tabulated
  points as its exact turning points, `NearTable.v`), wrong table
  (SIGMOID 4th, SOFTPLUS 5th, SWISH 3rd and 4th derivative: counterexample), no
  table (raises). C27, C28, C32, C38: numeric witnesses.
* C30, C31, C33: monotone l'Hopital rule by induction on k / Taylor-Lagrange.
* C34: sign of the derivative of the quadratic remainder ratio.
* C35 (PropExported.v states it for each exported function): instances of C30/C33/C34, exact or up to the rounding of the tables
  (`NearMono.v`); exact again on regions that keep 1e-12 away from the rounded
  extrema, since moving the extrema monotonically changes no comparison
  (`PropClear.v`). C36, C37: derivative chain of x**p.
* C39-C42: induction on operation lists; C41 by fuel. C43: concrete witness.
* C44, C45: induction on equations, mutual with nested Jaxprs.
* C46-C48, C53: `supported` (JaxSpec.v) follows the evaluation of the equations
  and assigns each variable a kind: does not depend on the argument (KConst), two
  plain coefficients (KLin), at least two (KTwo), coefficients of full shape
  (KFull), coefficients known up to broadcasting, with as many axes (KRank) or not
  (KCast). The last two arise when arrays of different shapes are added; powers
  and products with an array of the result's shape restore the full shape; then elementwise functions are supported
  only if the argument is a number (C19_compose_number_sound; otherwise C20).
* C46-C48, C53: induction over the equations of a Jaxpr with an invariant
  relating each variable's enclosure to its value (`JaxPush.v` ... `JaxRun.v`);
  C46 with the registered generators wrapped in checks of their validity
  conditions (`checked_generators`; every degree with a correct table, the
  rounded ones on regions away from the rounded extrema): a run that returns with the checks is a
  run of the code, and its bounds hold.
* C49-C51: concrete programs. C52, C54, C58: the run reaches the raising step.
* C55, C56: each rule's effect on the graph is characterised by C40 and the
  conversions by their back-translation; the copy is related to the original by
  a simulation on variables. C57: induction over the history. C59: objects and
  intermediate variables are related by simulations in both directions, the
  graph step is C42; its side conditions follow from `clean` (ReplaceSpec.v).
* C60: a second invariant over the equations (every coefficient a pushforward
  needs is there and has the right rank and shape: `TotalRun.v`) with the
  invariant of C46 at z = 0, which keeps x0 inside every propagated region; the
  generators need to be valid at their centre only (and everywhere at degree
  0), which `PropCentre.v` proves for the built-in functions without the 1e-12
  condition.
* C61, C62: a relation between two runs (`drel`, IsoRun.v): the same kinds,
  coefficients narrower, propagated regions narrower, and every region an
  operation would use on the left inside the one used on the right; each
  pushforward preserves it (Iso.v, IsoEnc.v, IsoJax.v), using C46's invariant at
  z = 0 for the centre. C63: per operation. C64: the capped ratio is a convex
  combination of the remainder ratio and its value at the centre with a weight
  that grows with the distance (IsoScalar.v); the four branches of the code
  (monotone table, even second derivative, monotone over the region, range) are
  compared pairwise, and shrinking a region can only move to a sharper branch.
* C65: the index arithmetic of the model is compared with `meets` (ConvSpec.v):
  along each axis the enumeration of window positions is the set of pairs that
  meet. Array arguments: the coefficient of degree 1 has extra axes on one side
  only, for which the code always raises.
* C66: the invariant of C46 says the output lies in the enclosure, whose
  coefficients below max_degree are plain; the last one is bounded, so the rest
  is O(r^max_degree); two polynomials that agree to that order along a line are
  equal (PropTaylor.v), and Taylor's theorem (Coquelicot) gives the derivatives.
* C67-C69: the notebooks are modelled in Notebooks.v. C67: bounds of C46 at each
  point, with an even last power, then integrate (Coquelicot's RInt); the grid by
  Chasles. C68: case analysis on the sign of c2. C69: C46 for the function of the
  learning rate, exactness at 0, C68; strictness by C66; runs by induction. The
  Jaxpr of next_loss is a parameter together with the hypothesis that it computes
  loss(x + eta * v); so are the gradient and the type of parameters.
* C70: DegreeSpec.v assigns degrees to variables syntactically; invariant: a
  variable of degree d <= max_degree has at most d+1 coefficients, all plain (any
  number type). With C46 both bounds are then equal to the value; integrals and
  learning rates via C67, C68.
* C71: the same model (it is generic in the number type) over `NumF rnd`
  (FloatSpec.v): reals with every +, -, * followed by a rounding. Invariant at
  degree 0: one coefficient per variable, its ends below and above the computed
  value; each rule preserves it because the rounding is monotone (FloatProofs.v).
  Refutations in binary32, with Flocq's `round` (Binary32.v, ExamplesFloat.v).
  Simplifications: no overflow, NaN, signed zeros or dtypes; integer powers are
  repeated products (lax.integer_pow squares repeatedly) and sums have a fixed
  order (XLA's is unspecified), the same for program and bounds.
* C72: the rules of these operations are applied to each coefficient with the
  same parameters, so the first and the second coefficient must have the same
  rank (or, for reshape, the same number of entries).
* C73: Mlp.v defines networks as functions (`squared_error`) and as Jaxprs
  (`net_program`; not code of the repository: it stands for JAX's trace of a user's
  program). By induction on the layers the program computes the function, every
  equation is supported (C46) and accepted (C60); the theorems then follow from
  C46, C48 and C60.
* C74: the coefficients of f have the shape of v, the first power of the slope has
  no axes (totality lemma for powers, Total.v), and `left_broadcasting_multiply`
  raises; the state before the equation is computed symbolically.
* C76: Cnn.v, like Mlp.v: `cnn_loss` is written with sums over windows of the padded
  images, `cnn_program` is the Jaxpr. The value of a convolution is computed from its
  list of source positions; each layer is run symbolically, the rest is C73's lemma for
  the dense layers.
* C75: the gap over a smaller region is at most the one over the given region (C61);
  the ends of the bounds of one region are attained by polynomials (C13), whose
  distance to their common part of lower degree is of order max_degree (C66's remainder).
* C77: Quickstart.v is the traced program; its result is computed symbolically (the
  kernel reduces the whole interpreter, leaving real arithmetic and the call of the
  generator). PropQuickstart.v states "best" against every quadratic through
  (x0, f(x0)); the slope of a competitor is forced at an interior x0.
* C78: ScheduleSpec.v says what an executable order is. A finished run leaves for each
  equation the operands' and outputs' values in the dictionary (values are never
  overwritten), so any other run over some of these equations stays inside the
  dictionary of the first; renaming and hoisting literals is a simulation.
* C79: MemorySpec.v counts entries. Every stored enclosure passes
  `validate_shapes`, also the constants and the argument, which gives the
  trailing axes; the size bound follows from the shapes the soundness proof
  records (`hcast`). Refutation: the run of sum (x ** m) is unfolded, its length
  computed, its shapes come from `pow_full`; it returns by C60.
* C80: Outside.v repeats the soundness proof without `x0` in the region, for
  generators valid for any centre: the invariant then claims containment on the
  region only. For a monotone k-th remainder ratio the extremes are at the ends of
  the region wherever x0 is, which covers exp, log, roots (x0 must be in the
  domain, otherwise the generator raises) and abs up to degree 1.
* C81: DegreeZero*.v. At degree 0 every enclosure is one coefficient and the
  region minus `x0` is used nowhere but to truncate, which does nothing. The
  invariant of the exact range: the coefficient of each variable is exactly the
  set of values it takes over the region, and at most one operand of an equation
  is such a set (the others are points), so each operation maps exact sets to
  exact sets. The registered functions reach every value between the ends by
  their inverses.
* C82: Magnitude*.v, PropConverge.v, PropIntegralTotal.v, ExamplesConverge.v,
  ExamplesIntegralTotal.v. The model is run a second
  time in the arithmetic of magnitudes (numbers `m >= 0`; sums for sums, differences,
  minima and maxima, products for products), starting from tensors
  filled with `B`; the relation "every entry is at most the magnitude's" is kept by
  each operation, so the magnitude run gives one bound on the coefficients of
  every run with data within `B`. The gap is the width of the last coefficient
  times powers of `x - x0`. Each registered generator is shown to be bounded on
  bounded data (through the cap 1e-12 in denominators, so the constant is large).
  `entries_within` speaks of all indices, also those outside the shape, which the
  model's tensors have and arrays do not.

Nothing in the list was found inexpressible. Other than C71, properties about
rounding errors and dtypes are outside the model and are not listed.

## 4. Findings about the code (all are theorems or examples in the model)

C04 (negative weights), C20/C51 (rank-deficient coefficients / broadcast sums),
C27 (get_range ignores end points), C28 (swish'''' table), C26 (four wrong
tables), C32 (1e-12 cap), C38 (powers across zero), C42 side conditions and C43
(variable capture in Jaxpr replace), C45 (constants of closed Jaxprs ignored),
C41 (empty pattern does not terminate), C49 (nested jit), C50 (batched
dot_general), C52 (pow with propagation), C54 (x ** 2.0), C58 (registered
function of a constant), C65 (convolutions of functions of an array), C59 (a dropped result of a replacement captures the
pattern's last variable), C69 (SafeRate doubles the maximum rate on NaN, contrary to
its comment), C71 (bounds computed in floating point can miss the computed value
at degree >= 1, for quotients and for dot products), C72 (reshape, broadcast_in_dim, transpose and
reduce_window_sum of functions of an array; broadcast_in_dim at degree 1), C74 (f(v + x) for an array v
and a number x), C79 (the README's claim of linear memory fails above degree 1), C80 (with x0
outside the trust region, which nothing checks, the bounds of 1/x**2 are wrong), C81 (x**2 of an
array is bounded less tightly than x**2 of a number: outer_power skips its diagonal code when
batch_dims is not 0).

## 5. Trusted base

* Coq 8.16.1 kernel (no native_compute, no plugins, no switched-off checks).
* Axioms, all from Coq's standard library through its real numbers:
  `ClassicalDedekindReals.sig_forall_dec`, `ClassicalDedekindReals.sig_not_dec`,
  `FunctionalExtensionality.functional_extensionality_dep`,
  `Classical_Prop.classic`. Per theorem: `ASSUMPTIONS.md` (the graph and Jaxpr
  editor theorems, and the registry and rewriting ones, use none).
* Flocq's `round` defines binary32 in C71's refutations and example; no axiom of
  it is used.
* Coquelicot's definitions of derivatives appear in some statements
  (`is_derive`); no axiom of it is used.
* The reading of the Python code recorded in the comments of the model files.
