# Formal model of PyProximal — design

Written before the proofs; updated as the model grows.  Properties are in
`properties.jsonl`, what was proved about each in `MANIFEST.json`.

## 1. What is modelled, and at which level

* **Numbers.** Python/numpy floats are modelled by Coq's standard real numbers
  `R` (exact arithmetic).  Rounding, overflow, NaN and signed zeros are *not*
  modelled, except where a property is precisely about them: the
  `sum(weights) != 1.0` test of `GeneralizedProximalGradient` uses the pure
  IEEE-754 specification functions of `Coq.Floats.SpecFloat`; the prox of L1,
  L2, L0 and Box, the dual prox of L1, and one-entry EuclideanBall and HalfSpace
  are modelled a second time on IEEE-754 numbers of any precision (`M_FP.v`, on
  Flocq's `binary_float`, with infinities, NaN and signed zeros); and SR3, LSQR,
  Anderson and a few divisions carry an explicit NaN / ZeroDivisionError
  outcome.  `float('inf')` that takes part in control flow (previous objective
  value, infinite bounds) is an explicit option.
* **Arrays.**  Operators whose code is coordinate free (`np.dot`,
  `np.linalg.norm`, `+`, scalar `*`) are modelled over an arbitrary real inner
  product space (record `IPS` in `Space.v`, with instances `R`, `Vec n` =
  length-indexed lists of reals, products and powers).  Operators that look at
  entries are modelled over `Vec n` or `list R`; matrices are flat arrays in C
  order or lists of rows/columns.
* **Exceptions** are values (`result A := Ok a | Err e`), with one constructor
  per python exception class plus `Diverges` for exhausted fuel.
* **Mutable state** (call counters, cached factors, warm starts, stored factors
  of a bilinear operator, in-place updates of an argument, aliasing) is
  explicit: `state -> args -> state * result`; theorems about it quantify over
  all call histories.
* **External code** (linear solvers, SVD, eigenvalues, argsort, scipy's
  bisect where not re-implemented, Lambert W, user callables, denoisers) is a
  function argument; what is assumed about it is a hypothesis of the theorem
  that needs it.  scipy's `bisect` is modelled itself.
* **Loops** are structural recursion on the iteration budget (`M_Loop.v`);
  `while` loops without a syntactic bound use fuel and report exhaustion.

## 2. Layout

* `Base.v` (results, exceptions, Boolean tests on R), `Space.v` (inner product
  spaces), `Spec.v` and `SpecOps.v` (the specification vocabulary below),
  `ConvexFacts.v`, `Smooth.v`, `Sep.v`, `VSum.v`, `MatFacts.v`, `Compact.v`, `Fejer.v`, `IterMath.v`, `IterMath2.v`, `IterMath3.v`, `DykMath.v`,
  `LoopFacts*.v`, `Trace.v`, `SeqFacts.v` (general facts).
* `M_X.v`: the model of part X of the code, definitions only, each with the
  file and lines of /repo it models and what is simplified.
* `S_X.v`: the specification vocabulary particular to part X (objectives,
  constraint sets, solution and multiplier sets, reference iterations written
  from the literature), definitions only.  The statements of `P_X.v` use
  `M_X.v`, `S_X.v` and the general vocabulary below.
* `P_X.v`: proofs.  Lemmas tagged `(*! C.. : english *)` are the properties.
* `Props_X.v`: generated from the tags; each theorem is stated again in full,
  proved by `exact` and followed by `Print Assumptions`.  Examples beside them
  show that the hypotheses are met by concrete cases.

Specification vocabulary (mentions no model function): a function with values
in R ∪ {+inf} is `efun` = (domain predicate, value);

* `is_prox f tau x p`  : p in dom f and p minimises f(y) + |y-x|^2/(2 tau);
* `is_proj C x p`      : p in C and p is a nearest point of C to x;
* `is_min f p`, `is_subgrad f x g`, `convex f`, `is_conj f fs` (conjugate via
  least upper bounds), `is_grad`, `smooth_convex`;
* `impl_prox o f` (and `impl_call`, `impl_grad`, `impl_proxdual`): the object o
  returns the proximal point of f for every x and tau > 0 (resp. the value,
  the gradient, the prox of the conjugate).

## 3. Per property: model and method

`X` in the third column stands for `M_X.v`/`P_X.v`/`Props_X.v` (some proof
files use the model of a neighbouring file, see their imports).

| id | property | files | method |
|----|----------|-------|--------|
| C01 | Non-positive step sizes are rejected | L1, ProxOp | case analysis on tau; counter and keyword claims refuted by witness |
| C02 | Derived dual prox obeys the Moreau decomposition | ProxOp | class dispatch with default methods; subgradient characterisation of prox, Fenchel inequality |
| C03 | An operator defining neither prox nor proxdual fails instead of answering | ProxOp | induction on the recursion limit |
| C04 | Adjoint operator exchanges primal and dual prox | ProxOp | wrapper object; change of sides; refutation of the value |
| C05 | Adding a linear term | ProxOp | completing the square in the argmin; refutation for Boolean calls |
| C06 | Scaling an operator | ProxOp | change of step in the argmin; refutation for python ints |
| C07 | Scaling/translating the argument | ProxOp | affine change of variable in the argmin |
| C08 | Chaining operators applies them in documented order | Norms, ProxOp | evaluation of the python dispatch order; refutations |
| C09 | Default gradient is the gradient of the Moreau envelope | ProxOp | two-sided quadratic bound on the Moreau envelope |
| C10 | moreau() self-test verdict | ProxOp | list model of allclose; Moreau decomposition |
| C11 | L1 prox is exact soft-thresholding and its dual a box projection | L1 | scalar argmin plus separability by induction on the array; state machine for the counter |
| C12 | Euclidean norm and ball | Norms | subgradient certificates in an arbitrary inner product space |
| C13 | L2 prox and gradient | L2, L2b | normal equations as optimality conditions; induction over call sequences; error bound for inexact solvers |
| C14 | L2 factorisation cache is coherent | L2 | state machine with cache, simulation by the uncached machine |
| C15 | Box projection | L1 | scalar projection plus separability |
| C16 | Half-space projection | Norms | variational inequality |
| C17 | Affine set projection | Norms | variational inequality; residual identity |
| C18 | Quadratic prox and gradient | Nonlin, Norms | optimality of a convex quadratic |
| C19 | L21 and L21+L1 | L21 | column-wise Euclidean prox plus separability |
| C20 | Huber operators | Norms, Pen | scalar argmin, exact characterisation of the failing band |
| C21 | Orthogonal composition | Norms | decomposition along the range of Q^T |
| C22 | Stacked operators act blockwise | VStack | induction on the list of blocks; index lists as permutations |
| C23 | Hyperplane-box / simplex projection | Opts, Proj, Proj2 | KKT certificates, bracketing loops with fuel, bisection invariant, error propagation from mu to the point |
| C24 | L1-ball projection | Proj3 | reduction to C23; witnesses |
| C25 | L0-ball projection | L0 | exchange argument over all sorting permutations |
| C26 | Hankel projection | Hankel | antidiagonal means minimise the squared distance |
| C27 | L0 penalty prox | Pen | scalar global minimisation, exact characterisation |
| C28 | Log penalty prox | Log1, Pen2 | scalar global minimisation by sign of the derivative; refutations for all parameters |
| C29 | SCAD prox | Pen2 | weak convexity plus stationarity; universal refutation |
| C30 | Relaxed Mumford-Shah prox | Pen2 | scalar global minimisation |
| C31 | Quadratic envelope of the cardinality | Pen2, QE4, QE6 | scalar global minimisation; level search with exchange arguments; von Neumann trace inequality for ranks |
| C32 | Singular-value operators | SVD | existence and uniqueness of singular values (compactness), trace inequality, unitarily invariant prox |
| C33 | Call-indexed parameters | L1 | state machine, induction over call histories |
| C34 | prox leaves the caller's array untouched | L2 | heap cell for the caller array in every configuration |
| C35 | Two-operator Dykstra | Dyk, Dyk2, Dyk3, Dyk5 | loop invariants; Boyle-Dykstra convergence: the gap to any common point decreases, the moves are square-summable, hence some sweep pairs the moves with the accumulated normals to 0, lower semicontinuity then identifies the limit; stopping by summability |
| C36 | Parallel Dykstra and weights | Dyk4, Dyk5 | the same in a weighted product space |
| C37 | Pairwise intersection projection | Inter, Inter2 | loop invariants; convergence of cyclic Dykstra on half-space pairs |
| C38 | Dispatch by arity | Dyk3 | case analysis on arity |
| C40 | Proximal point algorithm | PG | telescoping of the prox inequality |
| C41 | Proximal gradient descent | PG2, PG3, PGB | descent lemma, telescoping; backtracking as a bounded search |
| C42 | FISTA acceleration | PG2 | FISTA potential with the exact t-recursions of both modes |
| C43 | Relaxation and acceleration compose as documented | PG2, PG3 | refinement to the documented recursion; refutations by evaluation |
| C44 | Backtracking | PG3 | search invariant |
| C45 | Tolerance stopping and callbacks | PG, PG3 | loop exits characterised by the stop rule |
| C46 | Initial guesses | Split2, Split3 | evaluation of the initialisation branches |
| C47 | ADMM optimality and monotonicity | Split2 | Lyapunov function |
| C48 | ADMM is Douglas-Rachford | Split2 | bisimulation of the two loops |
| C49 | Douglas-Rachford convergence certificate | Split | firm non-expansiveness of the DR operator |
| C50 | HQS | Split2 | alternating minimisation inequality |
| C51 | Linearised ADMM and ADMM-L2 fixed points | Split3 | Lyapunov functions with a linear operator |
| C52 | TwIST | Split3 | refinement to the recursion; fixed points |
| C53 | PPXA | Multi, Multi2 | Lyapunov function in the weighted product space |
| C54 | Consensus ADMM | Multi2 | Lyapunov function with zero-sum duals |
| C55 | Generalised proximal gradient | Multi3 | forward-backward on a product space; IEEE-754 evaluation with SpecFloat |
| C56 | Anderson acceleration | AndShow, Anderson3 | least-squares characterisation of the coefficients, window invariant; refutations by evaluation |
| C57 | Primal-dual (Chambolle-Pock) | PD, PD2, Show4 | primal-dual potential for both orders |
| C58 | Adaptive primal-dual step sizes and convergence | Apd, PD3 | invariants of the adaptation; the steps converge because the changes are summable; Fejer monotonicity in the changing metrics; refutations |
| C59 | Bregman iterations | Breg | subgradient invariant of Bregman iterations |
| C60 | PALM / iPALM | PALM, PALM2 | block descent lemma; inertial potential |
| C61 | Low-rank bilinear operator | Bilin2 | matrix calculus over flat arrays |
| C62 | Gradient self-test | GradTest | evaluation of the test over all draws |
| C63 | Plug-and-play is ADMM with a denoiser | Breg | refinement to ADMM |
| C64 | Segmentation output | Seg2 | refinement to PrimalDual, gap bound, argmax specification |
| C65 | SR3 extrapolation | SR3b | FISTA-type potential on the reduced problem; NaN propagation model |
| C66 | Total variation prox | TV3 | refinement of the dual FGP loop, potential for its momentum |
| C67 | Projections are idempotent, feasible and non-expansive | Sets | consequences of is_proj, and of C23 with tolerance |
| C68 | Option validation | Opts, PG3 | case analysis over all strings |
| C69 | Inner least-squares solver of SR3 | SR3 | exact-arithmetic LSQR as a line-search method |
| C70 | ETP penalty prox | Pen3 | scalar global minimisation through Lambert W |
| C71 | Geman penalty prox | Pen3 | scalar global minimisation through the cubic |
| C72 | Proximal gradient on a low-rank factorisation follows the true gradient | PGB | simulation with the stateless run |
| C73 | Nonlinear hands the user's optimiser the right problem, start and derivatives | Nonlin | state-machine induction over the calls; monotonicity of the gradient |
| C74 | L2Convolve is the least-squares term of a convolution | Conv2, Conv3, Conv4 | DFT inversion, convolution theorem and Parseval from the defining sums; normal equations |
| C75 | The iterates of the solvers converge to a solution | Iter, Iter2, Iter3, Iter4 | Fejer monotone sequences, asymptotic regularity and a convergent subsequence (Bolzano-Weierstrass proved from the reals); for the accelerated runs closedness along a subsequence on which the values tend to the minimum |
| C76 | The thresholding and box operators in floating-point arithmetic | FP2 | IEEE-754 numbers of any precision (Flocq): rounding is monotone and exact on representable numbers, Sterbenz; witnesses by computation |
| C77 | The GPU engine of Simplex does not depend on the schedule | Cuda | nondeterministic interleaving of the threads' stores; invariant by induction on runs; thread grid covers the rows |
| C78 | The library's own L2 and L1 objects plugged into its solvers solve the LASSO problem | Lasso | class dispatch of the two objects composed with the operator and solver theorems; existence by a minimising sequence (the solver itself) and compactness; soft conditions coordinate by coordinate |
| C79 | Operators that write into the array they are given, inside the solvers | Heap, Heap2, Heap3 | arrays as cells of a heap; simulation of the by-value run under a read or read/write contract for prox; closed forms of the corrupted recursions |
| C80 | Operators on complex arrays | Cx, Cx2, Cx3, Cx4, Cx5, Cx6, CxBilin | reduction of a complex prox to the prox on moduli (phase alignment minimises the distance), witnesses for the operators that do not handle phases |
| C81 | The solvers converge whenever a minimiser exists and Slater's condition holds | Apd, Qual | Hahn-Banach in finite dimension by induction over the coordinates, applied to the infimum of difference quotients; a sum rule for subgradients under Slater's condition; then the convergence theorems of C75 |
| C82 | Every operator expression built with the library's algebra is exact | Expr, Expr2 | structural induction over the expression, with the conjugate as a function (supremum) and biconjugation for f.H; then C75 and C81 |
| C83 | Arrays of integers | Int, Int2, Int3 | one Boolean says whether an array holds integers; dropping the fractional part commutes with the branches of each operator; evaluation for the refutations; simulation with the float run after the first iteration |
| C84 | Printing the progress does not change the result | Show, Show2, Show3, Show4 | heap of arrays with __call__ as a program on it; step-by-step simulation of the logged run by the silent by-value run; closed forms of the iterates for the refutations; the aliased primal-dual run is the plain run on a shifted function |
| C85 | The problems have solutions, and the solvers find them | Apd, Exist, Exist2, Exist3, Iter4 | minimise f plus a vanishing multiple of the squared norm (nested level sets with diameters tending to 0 close in on a point) and pass to the limit by Bolzano-Weierstrass, without any axiom of choice; closedness of every operator expression by induction over its syntax; then the theorems of C75, C81 and C82 |
| C86 | An interrupted run can be resumed from what it returned | Resume | splitting of the loop at an iteration and a simulation between the states of the continued and the restarted run; evaluation for the refutations |
| C87 | Special cases and equivalent formulations of the solvers agree | Equiv | step-by-step simulation between the loops of the two solvers, the relation between their states being the change of variables known from the literature; evaluation for the refutations |
| C88 | Results do not depend on the units or on the order of the functions | Units | simulation between the run on f and the run on c f(a x + b), related by the change of variables; permutations of the list of (operator, weight, start) commute with the sums |
| C89 | Inexact proximal operators and gradients: errors add up but are not amplified | Inexact | perturbation: the iteration map is Lipschitz (for PrimalDual in the primal-dual metric, an inner product space of its own), induction over the run for two operators accurate to e, then combination with the convergence theorems of C75 |
| C90 | Linear convergence on strongly convex problems, with the rate | Rates | the iteration map is a contraction (strong monotonicity of subgradients, cocoercivity of the shifted gradient, the primal-dual metric); comparison of the run with the constant run at the solution |
| C91 | How far step sizes and relaxation may go | Limit | the run is Fejer monotone in a seminorm and the next iterate depends Lipschitz-continuously on the part it measures (C75 at the limit); explicit eigenvector runs for the failures |
| C92 | Sparse recovery and bounded least squares, end to end | Sparse | the objects are expressions with known meaning (C82, C85); recovery by comparing absolute sums on and off the support; certificates from the multiplier rule (C81) |
| C93 | Bregman iterations solve the equality-constrained problem, whatever the weight | Breg2 | the dual variable is the sum of the residuals and its distance to every multiplier never grows (a proximal point method in the dual); existence of the inner minimisers by C85; limits by compactness |
| C94 | Non-convex penalties: the solvers descend and their limit points are stationary | Noncvx | sufficient decrease of the objective (ADMM: of the linearised merit function) gives summable steps; closedness of the prox graph under limits turns limit points into stationary points; each penalty is lower semicontinuous |
| C95 | What grad returns, and what hasgrad promises, for every operator expression | Grad | induction over expressions; the envelope is differentiable with 1-Lipschitz gradient by firm non-expansiveness; the solver never evaluates the term, so its theorems apply to the smoothed function |
| C96 | Iterative hard thresholding with L2 and L0Ball recovers sparse vectors | Iht | polarisation bound on the inner product of sparse vectors, projection inequality, geometric recursions with noise; counterexample for L10Ball |
| C97 | Low-rank estimation: completion with Nuclear, Hankel estimation with the rank envelope, and the ball constraints | Low | the dual characterisation of the nuclear norm gives its subgradients; the existence and convergence theorems of C42 and C85 instantiated with the proximal maps of C26, C31 and C32; the envelope is finite everywhere by the top singular triple; counterexamples for the balls |
| C98 | Image denoising with total variation, end to end | Denoise | L21 on flat arrays and TV as operators; exact pixelwise shrinkage and its conjugate; |gradient|^2 at most 4 ndim c^2; the general convergence of PrimalDual and LinearizedADMM; existence from growth of the objective modulo constants; multipliers from qualification |
| C99 | Non-negative matrix factorisation with PALM, end to end | Nmf | a projected step from a non-zero non-negative point cannot reach zero; block descent; closedness of the prox along subsequences; entrywise optimality in boxes; exact rational runs for the refutations |
| C100 | Call-indexed parameters inside the solvers | Count | a non-expansive map whose iterations converge still converges when its steps carry errors with a finite sum; the counters are threaded through the loops and compared with the loops without counters |
| C101 | Plug-and-play with denoisers that are not proximal operators | Pnp | the iterations are those of averaged maps (Krasnoselskii-Mann) or of contractions (Banach) built from the prox and the denoiser; fixed points are translated back; a bounded non-expansive map has a fixed point by approximating it with contractions |
| C102 | Problems without a solution: incompatible constraints and runs that go to infinity | Incons | the iterations of non-expansive maps: a bounded orbit has a fixed point (means), an orbit that does not go to infinity is bounded (recurrence); for two sets the projections are constant along the gap, so the iteration minus the drift is Fejer monotone; many sets by a weighted product space |
| C103 | How the regularisation weight and the data act on the result of ProximalGradient | Path | a limit is a fixed point of the iteration map, hence a minimiser; comparison of optimal values at two weights; monotonicity of the subdifferential; lower semicontinuity along subsequences |
| C104 | PrimalDual, LinearizedADMM and ADMM without assuming a solution, with denoisers and with changing operators | Metric | the iteration is a firmly non-expansive map in the inner product |a|^2/tau + |b|^2/mu - 2<Aa,b>, LinearizedADMM being the same map with the roles of the two spaces exchanged; the alternative for orbits of such maps, errors with a finite sum |
| C105 | The size of the last change: never increasing, at most of order one over the square root of the number of iterations, and a bound for the error | Resid | the solver maps are averaged (in the solver metric for PrimalDual and LinearizedADMM), so steps never grow and their squares sum up; the subgradients that a prox step produces give the error bounds |
| C106 | Stopping by tolerance: which iterate is returned, how accurate it is, and when the run ends | Stop | the loops with a tolerance as prefixes of the loops without one, then the decrease of the objective in each iteration against the relative change |
| C107 | Runs with a tolerance end, and how long they can be | Iters | the loops with their stopping tests, with bounds on the number of iterations |
| C108 | ProximalGradient with L1 or Box finds the zeros and the active bounds exactly, after finitely many iterations | Ident | the solver loop with the entrywise soft threshold and clip of L1 and Box |
| C109 | What every exact prox does to its argument, convex or not: monotone, larger steps move farther, signs and order kept, no entry enlarged | Shape | the prox methods of the non-convex penalties with the minimization property of any exact prox |
| C110 | ProximalPoint and ProximalGradient reach sharp minima exactly after finitely many iterations, and when several steps are one longer step | Sharp | the solver loops of ProximalPoint and ProximalGradient with the prox of L1, Euclidean and L2 |
| C111 | Linear convergence without strong convexity: quadratic growth and least squares with a null space | Growth | the solver loops of ProximalPoint and ProximalGradient with the prox of L2 |

Naming: a theorem `..._refuted` proves that a broader claim (usually the
documented one) is false of the model, with a witness or for all parameters;
the property statement then carries the condition under which it does hold and
names the deviation.  No theorem currently ends in `_partial`.

## 4. Not modelled

* The text printed with `show=True`; what the evaluations made for it do to the
  result is modelled for AndersonProximalGradient (`M_AndShow.v`) and, on arrays
  in memory, for the solvers of C84 (`M_Show.v`); timing; `utils/utils.py`
  (version report); deprecation warnings; type annotations.
* numba/cuda compilation.  The numba bisection is modelled as ordinary code;
  the cuda kernel as threads whose stores interleave in any order
  (`M_Cuda.v`), each thread's own computation being deterministic; its
  use without `dims` is not modelled.
* Floating-point rounding beyond the cases named in section 1; integer dtypes
  and dtype casts except where a property names them.
* Complex arrays, except in L1, L2Convolve, Log1, the gradient self-tests and the
  operators listed in C80 (`M_Cx.v`); models over an arbitrary inner product
  space also cover complex arrays, with the real part of the inner product.
* cupy/jax backends (`utils/backend.py` returns numpy here).
* The internals of numpy, scipy and pylops: linear solvers, SVD, sorting,
  the FFT algorithm (the transform is modelled by its defining sum in
  `M_Conv.v`), finite-difference operators other than those written out in `M_TV.v`
  and `M_Seg.v`.

## 5. Trusted base

* The Coq 8.16.1 kernel (and `vm_compute` where used in an example).
* The axioms listed by `Print Assumptions` for the theorems in `Props_*.v`, all
  from the standard library: `ClassicalDedekindReals.sig_forall_dec`,
  `ClassicalDedekindReals.sig_not_dec`,
  `FunctionalExtensionality.functional_extensionality_dep` (these come with the
  real numbers) and, in 201 of the 718 theorems, `Classical_Prop.classic`.  Three theorems
  are closed under the global context.  The example `C97_example` alone also
  uses `IndefiniteDescription.constructive_indefinite_description` (from
  `Coq.Logic`), to show that a function returning a singular value
  decomposition of every matrix exists; no theorem depends on it.  The exact list is printed under every
  theorem when `Props_*.v` is compiled.
* That the definitions in `M_*.v` say what the cited lines of /repo do.  This
  is checked by reading only; `seeded/LOG.jsonl` records how the theorems react
  to deliberate changes of the model.
* The reading of the specification vocabulary in `Spec.v` and `SpecOps.v`.

## 6. Deviations of the code from its documentation found on the way

Every `_refuted` theorem is one; the property statements name them.  Those a
user is most likely to meet:

* `L1Ball` and `NuclearBall` move points that are already inside the ball (C24, C32).
* `Huber.prox` is wrong in the band alpha < |x| < alpha + tau (C20); `L0.prox`
  thresholds at tau*sigma (C27); `SCAD` and the quadratic envelopes need small
  steps (C29, C31); `Log1` uses half the documented weight (C28).
* `Sum` with default weights computes the prox with steps tau/sum(w) instead
  of the documented tau*w_i (C36), and float-array weights are overwritten.
* With eta != 1 the acceleration of `ProximalGradient` is ignored, and with
  backtracking the relaxation is applied twice (C43).
* `PALM` with backtracking for y never uses the operator g (C60).
* `AdaptivePrimalDual` stops when one of the two residuals is small (C58).
* `ADMML2` with gfirst=True need not converge (C51).
* `AndersonProximalGradient` starts with swapped histories, and its safeguard
  can accept an increase without a tolerance (C56).
* SR3's LSQR returns NaN after reaching an exact solution (C65, C69).
* The TV stopping test can fire at once far from the proximal point (C66).
* `gradtest_proximal` checks nothing for half of its random draws (C62).
* `L2Convolve.prox` is exact only when nfft equals the array length, and returns
  nfft samples of longer arrays (C74).
* `Simplex(engine="cuda", axis=-2)` can return uninitialised memory (C77).
* `L2(q=...)` without data and `Intersection` overwrite the array given to prox;
  with them `DouglasRachfordSplitting` converges to a wrong point and `PPXA` and
  `Sum` can diverge (C79).
* On complex arrays `ETP`, `L21`, `Box`, `HalfSpace` and the backtracking of
  `ProximalGradient` are wrong; with numpy < 2 so are `Log`, `Geman`, `SCAD` and
  `QuadraticEnvelopeCard` (C80).
* A step passed by keyword (`prox(x, tau=t)`) raises IndexError (C01).
