{"id": "C01", "title": "Non-positive step sizes are rejected", "statement": "A prox or proxdual call with tau <= 0 (or one non-positive entry of a vector tau) raises ValueError before anything is computed, whatever methods the class overrides; with tau > 0 passed positionally the guard is transparent. Known deviations, proved: a rejected call still advances the call counter of a counting operator, and tau passed by keyword always raises IndexError.", "quantifier": "every operator, every input vector, every real tau (scalar or vector), every call history", "why_tests_cant": "the set of step sizes is a continuum and the effect on counters depends on the full call history", "anchors": ["pyproximal/ProxOperator.py:_check_tau", "pyproximal/proximal/L1.py:L1.prox", "pyproximal/proximal/L0.py:L0.prox"]}
{"id": "C02", "title": "Derived dual prox obeys the Moreau decomposition", "statement": "If prox is the exact proximal map of a convex f, the default proxdual returns the exact proximal map of the convex conjugate f* (and symmetrically the default prox derived from proxdual), and x = prox_{tau f}(x) + tau*proxdual(x/tau, 1/tau) for every x and tau>0.", "quantifier": "all convex functions f on all finite-dimensional (inner product) spaces, all x, all tau>0", "why_tests_cant": "quantifies over all functions and all points", "anchors": ["pyproximal/ProxOperator.py:ProxOperator._prox_moreau,_proxdual_moreau,prox,proxdual"]}
{"id": "C03", "title": "An operator defining neither prox nor proxdual fails instead of answering", "statement": "A subclass that overrides neither prox nor proxdual never yields a value from either method: the two defaults call each other for ever (recursion error), for every x, tau>0.", "quantifier": "all x, all tau>0, all recursion depths", "why_tests_cant": "non-termination is not testable", "anchors": ["pyproximal/ProxOperator.py:ProxOperator.prox,proxdual"]}
{"id": "C04", "title": "Adjoint operator exchanges primal and dual prox", "statement": "f.H has prox = f.proxdual and proxdual = f.prox, hence its prox is the prox of the conjugate; taking the adjoint twice restores prox and proxdual. Known deviation, proved: the value reported by f.H is f(x), not that of the conjugate.", "quantifier": "all operators, all x, tau>0", "why_tests_cant": "universal over operators", "anchors": ["pyproximal/ProxOperator.py:_AdjointOperator"]}
{"id": "C05", "title": "Adding a linear term", "statement": "f+v has the exact prox of x -> f(x)+<v,x> and its gradient, and its value when f's call returns a number; f-v is f+(-v); a non-array v raises NotImplementedError. Known deviation, proved: for an indicator operator (call returns a boolean) the value of f+v is wrong.", "quantifier": "all f, v, x, tau>0", "why_tests_cant": "universal over functions and points", "anchors": ["pyproximal/ProxOperator.py:ProxOperator.affine_addition,__add__,__sub__", "pyproximal/ProxOperator.py:_SumOperator"]}
{"id": "C06", "title": "Scaling an operator", "statement": "sigma*f with a float sigma > 0 represents x -> sigma*f(x): value, exact prox and gradient; a non-positive float sigma makes every prox call raise ValueError. Known deviation, proved: a python int scale never works (NotImplementedError).", "quantifier": "all f, sigma>0 (python int and float), x, tau>0", "why_tests_cant": "universal; scalar type is part of the input space", "anchors": ["pyproximal/ProxOperator.py:ProxOperator.postcomposition,__rmul__", "pyproximal/ProxOperator.py:_PostcompositionOperator"]}
{"id": "C07", "title": "Scaling/translating the argument", "statement": "f.precomposition(a,b) with a float a != 0 and an array b represents x -> f(a x+b): value, exact prox and gradient; an int a or a non-array b is refused with NotImplementedError.", "quantifier": "all f, a!=0, b, x, tau>0", "why_tests_cant": "universal over functions and points", "anchors": ["pyproximal/ProxOperator.py:ProxOperator.precomposition", "pyproximal/ProxOperator.py:_PrecompositionOperator"]}
{"id": "C08", "title": "Chaining operators applies them in documented order", "statement": "Chaining two operators as f*g applies the prox of g and then the prox of f to the result (the documented order), with the same tau, and chaining is associative on prox. Known deviations, proved: f*g of two operators of the same class raises TypeError instead of chaining, the value of a chain is one operator applied to the number the other returns (not the sum of the values), its grad returns None although hasgrad may be True, and its prox is in general not the prox of the sum.", "quantifier": "all operators, x, tau>0", "why_tests_cant": "universal over operators", "anchors": ["pyproximal/ProxOperator.py:ProxOperator.chain,__rmul__,__mul__", "pyproximal/ProxOperator.py:_ChainOperator"]}
{"id": "C09", "title": "Default gradient is the gradient of the Moreau envelope", "statement": "For convex f the default grad(x) with parameter sigma is the gradient of the Moreau envelope of f: the envelope is differentiable there with that gradient (quadratic error bound) and the gradient map is 1/sigma-Lipschitz.", "quantifier": "all convex f, x, sigma>0, all perturbations", "why_tests_cant": "statement about limits over all perturbations", "anchors": ["pyproximal/ProxOperator.py:ProxOperator.grad"]}
{"id": "C10", "title": "moreau() self-test verdict", "statement": "moreau(prox,x,tau) returns True exactly when x and prox+tau*proxdual(x/tau,1/tau) agree entrywise within atol+rtol*|.|; an operator whose dual prox is derived from its prox always passes; on disagreement it raises or returns False according to raiseerror.", "quantifier": "all operators, x, tau, tolerances", "why_tests_cant": "universal over operators", "anchors": ["pyproximal/utils/moreau.py:moreau"]}
{"id": "C11", "title": "L1 prox is exact soft-thresholding and its dual a box projection", "statement": "L1(sigma,g).prox(x,tau) minimises sum_i w_i |y_i-g_i| + ||y-x||^2/(2 tau) over all y, real or complex, for scalar sigma, per-entry sigma or the sigma of the current call; call returns that norm for scalar sigma; for a sigma that is not callable proxdual is the exact prox of the conjugate (box projection) and the Moreau identity holds. Known deviations, proved: with per-entry sigma on a 1-D array call returns (sum sigma)(sum |x|); with a callable sigma proxdual keeps the box of sigma(0).", "quantifier": "all lengths, x, g, sigma>=0 (scalar/vector), tau>0, all competitors y", "why_tests_cant": "optimality against all competitor vectors", "anchors": ["pyproximal/proximal/L1.py:L1,_softthreshold"]}
{"id": "C12", "title": "Euclidean norm and ball", "statement": "For sigma > 0 Euclidean(sigma).prox minimises sigma||y||+||y-x||^2/(2tau), proxdual projects on the ball of radius sigma, grad is the gradient away from 0; for radius > 0 EuclideanBall.prox is the projection and the result is a member according to its own call. Known deviations, proved: sigma = 0 and radius = 0 divide 0 by 0 at the centre.", "quantifier": "all x, center, radius>=0, sigma>0, tau>0", "why_tests_cant": "optimality against all competitors", "anchors": ["pyproximal/proximal/Euclidean.py:Euclidean,EuclideanBall", "pyproximal/projection/Euclidean.py:EuclideanBallProj"]}
{"id": "C13", "title": "L2 prox and gradient", "statement": "L2(Op,b,q,sigma,alpha).prox returns the minimiser of sigma/2||Op y-b||^2+alpha<q,y>+||y-x||^2/(2tau) in every configuration (Op explicit, Op with exact inner solver, b only, neither) and grad is the gradient of the value returned by call.", "quantifier": "all operators, b, q, sigma>=0, alpha, x, tau>0", "why_tests_cant": "optimality against all competitors", "anchors": ["pyproximal/proximal/L2.py:L2"]}
{"id": "C14", "title": "L2 factorisation cache is coherent", "statement": "With densesolver='factorize' every prox call gives exactly the result of the uncached solve, for every sequence of calls with changing tau and with assignments of positive values to sigma. Known deviations, proved: an assigned sigma is not honoured in the data term (in either mode), and with sigma = 0 the cached mode always fails.", "quantifier": "all call sequences", "why_tests_cant": "depends on unbounded call histories", "anchors": ["pyproximal/proximal/L2.py:L2.prox"]}
{"id": "C15", "title": "Box projection", "statement": "When lower <= upper (bounds scalar, vector or absent) Box.prox is the Euclidean projection on the box for every tau > 0, its call is exactly membership, and projecting twice is projecting once. Crossed bounds are accepted silently and give a result the operator's own call rejects.", "quantifier": "all lengths, bounds (scalar/vector/infinite), x", "why_tests_cant": "optimality against all competitors", "anchors": ["pyproximal/proximal/Box.py:Box", "pyproximal/projection/Box.py:BoxProj"]}
{"id": "C16", "title": "Half-space projection", "statement": "HalfSpace(w,b).prox is the Euclidean projection onto {w.x<=b} (w != 0), result satisfies its own call, idempotent.", "quantifier": "all w!=0, b, x", "why_tests_cant": "optimality against all competitors", "anchors": ["pyproximal/proximal/HalfSpace.py:HalfSpace", "pyproximal/projection/HalfSpace.py:HalfSpaceProj"]}
{"id": "C17", "title": "Affine set projection", "statement": "AffineSet(Op,b).prox is the Euclidean projection onto {Op x=b} whenever the inner solver solves the normal equations and the system is consistent.", "quantifier": "all linear operators, consistent b, x", "why_tests_cant": "optimality against all competitors", "anchors": ["pyproximal/proximal/AffineSet.py:AffineSet", "pyproximal/projection/AffineSet.py:AffineSetProj"]}
{"id": "C18", "title": "Quadratic prox and gradient", "statement": "For Op symmetric positive semidefinite (or absent) and an exact inner solve Quadratic.prox minimises x'Op x/2 + b'x + c + |y-x|^2/(2 tau), the function call evaluates; for symmetric Op grad is the gradient of call. Over every history of prox calls with a non-explicit Op, the inner solver starts from the last accepted result when warm=True and from x0 otherwise. Known deviation, proved: for a non-symmetric Op neither holds although it is accepted.", "quantifier": "all operators, b, c, x, tau>0", "why_tests_cant": "optimality against all competitors", "anchors": ["pyproximal/proximal/Quadratic.py:Quadratic"]}
{"id": "C19", "title": "L21 and L21+L1", "statement": "L21(sigma > 0): call, prox and proxdual are those of sigma times the sum of column norms; L21_plus_L1 with 0 <= rho < 1: prox is the exact prox of rho*sigma*|x|_1 + (1-rho)*sigma*sum of column norms, the function call evaluates. Known deviation, proved: rho = 1 gives NaN on zero columns.", "quantifier": "all block counts and sizes, x, sigma, tau>0", "why_tests_cant": "optimality against all competitors", "anchors": ["pyproximal/proximal/L21.py:L21", "pyproximal/proximal/L21_plus_L1.py:L21_plus_L1"]}
{"id": "C20", "title": "Huber operators", "statement": "HuberCircular.prox is the exact prox of the norm-based Huber function. Huber.call is the entrywise Huber function, and Huber.prox is its exact prox exactly for inputs with no entry in the band alpha < |x_i| < alpha + tau (known deviation, proved: inside the band the result is not a minimiser).", "quantifier": "all x, alpha>0, tau>0", "why_tests_cant": "the failing region is a thin band depending on alpha and tau", "anchors": ["pyproximal/proximal/Huber.py:Huber,HuberCircular"]}
{"id": "C21", "title": "Orthogonal composition", "statement": "For an operator with Q Q^T=alpha I (partial) or orthogonal Q, Orthogonal(f,Q,b,alpha).prox is the exact prox of x->f(Qx+b).", "quantifier": "all f, all such Q, b, x, tau>0", "why_tests_cant": "universal over functions and operators", "anchors": ["pyproximal/proximal/Orthogonal.py:Orthogonal"]}
{"id": "C22", "title": "Stacked operators act blockwise", "statement": "VStack with one size per operator, or index lists using every index exactly once, represents the sum of the f_i on its parts: value (for operators whose call is a number), exact prox equal to the concatenated block results, gradient when every operator has one; wrong sizes raise. Known deviations, proved: boolean calls are added as numbers, hasgrad is True as soon as one operator has a gradient, extra sizes and overlapping index lists are accepted.", "quantifier": "all numbers of blocks, all block sizes, x, tau", "why_tests_cant": "unbounded numbers of blocks", "anchors": ["pyproximal/proximal/VStack.py:VStack"]}
{"id": "C23", "title": "Hyperplane-box / simplex projection", "statement": "Whenever HyperPlaneBoxProj/Simplex returns, the set {c.x=s, l<=x<=u} is not empty and the result is within an explicit multiple of the root-search tolerance of the Euclidean projection; it returns whenever the set is not empty and enough bisection steps are allowed; with dims, axis 0, 1 and -1 project exactly the columns or rows, independently; the numba engine has the same accuracy for 0 < radius <= 1e10. Known deviations, proved: an empty set makes the call run for ever, axis = -2 projects the wrong axis or raises, the numba engine never returns for radius > n 1e10, and with dims the call only tests the sum from above.", "quantifier": "all lengths, x, c, s, bounds, numbers of bisection steps", "why_tests_cant": "loop termination and optimality", "anchors": ["pyproximal/projection/Box.py:HyperPlaneBoxProj", "pyproximal/projection/Simplex.py:SimplexProj", "pyproximal/proximal/_Simplex_numba.py:bisect_jit"]}
{"id": "C24", "title": "L1-ball projection", "statement": "For inputs on or outside the ball (sum |x_i| >= radius) L1Ball.prox is the Euclidean projection on {||x||_1 <= radius} up to an explicit multiple of the root-search tolerance; its call accepts x exactly when sum |x_i| < radius + tol. Known deviation, proved: points strictly inside the ball are not left unchanged; without zero entries they are sent to the sphere.", "quantifier": "all lengths, x, radius>0", "why_tests_cant": "optimality against all competitors, and whole interior", "anchors": ["pyproximal/projection/L1.py:L1BallProj", "pyproximal/proximal/L1.py:L1Ball"]}
{"id": "C25", "title": "L0-ball projection", "statement": "For every radius >= 1 L0Ball.prox is a Euclidean projection on {at most radius non-zeros}, whatever argsort does with ties, and its own call accepts the result; L10Ball.prox keeps at most radius columns and is nearest in the entrywise L1 distance. Known deviations, proved: radius 0 returns the input unchanged, and L10Ball.prox is not the Euclidean projection.", "quantifier": "all lengths, x, all radius >=0", "why_tests_cant": "boundary radius 0 and ties", "anchors": ["pyproximal/projection/L0.py:L0BallProj", "pyproximal/projection/L0.py:L10BallProj", "pyproximal/proximal/L0.py:L0Ball,L10Ball"]}
{"id": "C26", "title": "Hankel projection", "statement": "Hankel.prox returns the closest Hankel matrix (antidiagonal means) for every shape and tau > 0; it is idempotent, 1-Lipschitz, fixes Hankel matrices, and call accepts every Hankel matrix. Known deviation, proved: call also accepts matrices that are not Hankel.", "quantifier": "all matrix shapes and entries", "why_tests_cant": "optimality against all competitors", "anchors": ["pyproximal/projection/Hankel.py:HankelProj"]}
{"id": "C27", "title": "L0 penalty prox", "statement": "L0.call counts the non-zero entries; L0(sigma).prox(x,tau) is a minimiser of (tau sigma^2/2) #nonzeros(y) + ||y-x||^2/(2tau) for every x, so of the documented sigma #nonzeros(y) + ||y-x||^2/(2tau) for every x exactly when tau*sigma = 2 or sigma = 0 (known deviation, proved: the threshold is tau*sigma instead of sqrt(2 tau sigma)).", "quantifier": "all lengths, x, sigma>0, tau>0", "why_tests_cant": "optimality against all competitors", "anchors": ["pyproximal/proximal/L0.py:L0,_hardthreshold"]}
{"id": "C28", "title": "Log penalty prox", "statement": "Log(sigma,gamma).prox with sigma >= 0, gamma > 0 is a global minimiser of the log penalty its call evaluates plus quadratic, for every x and tau > 0. Log1.prox on real arrays with 2 delta^2 <= sigma tau sets entries up to sqrt(2 sigma tau) - delta to zero and maps every other entry to a local minimiser, of the same sign and smaller modulus, of (sigma/2) log(|z|+delta) plus quadratic; it is a global one for all inputs when 2 delta^2 = sigma tau, and for entries of modulus at least sigma tau/(2 delta) in general. Known deviations, proved for all parameters: a non-zero result is never a minimiser for the documented weight sigma; if 2 delta^2 < sigma tau some results are not minimisers for sigma/2 either; for smaller sigma tau positive entries become negative or prox(0) is positive; the complex branch disagrees with the real one.", "quantifier": "all x, sigma, gamma, delta, tau>0", "why_tests_cant": "non-convex optimality against all competitors", "anchors": ["pyproximal/proximal/Log.py:Log,Log1"]}
{"id": "C29", "title": "SCAD prox", "statement": "SCAD.call is the documented penalty and SCAD(sigma,a).prox is a global minimiser of it plus quadratic for every x whenever tau <= a-1; for every tau > a-1 this fails at some x (known deviation, proved).", "quantifier": "all x, sigma>0, a>2, tau>0", "why_tests_cant": "non-convex optimality; failing region depends on tau", "anchors": ["pyproximal/proximal/SCAD.py:SCAD"]}
{"id": "C30", "title": "Relaxed Mumford-Shah prox", "statement": "RelaxedMumfordShah.prox is a global minimiser for the separable penalty sum_i min(sigma x_i^2, kappa), which on one-entry arrays is the function call evaluates. Known deviation, proved: with two or more entries call evaluates min(sigma |x|^2, kappa), of which prox is not a minimiser.", "quantifier": "all lengths, x, sigma, kappa, tau>0", "why_tests_cant": "optimality against all competitors and all lengths", "anchors": ["pyproximal/proximal/RelaxedMS.py:RelaxedMumfordShah"]}
{"id": "C31", "title": "Quadratic envelope of the cardinality", "statement": "QuadraticEnvelopeCard.prox is a global minimiser of its call plus quadratic for every x when tau <= 1; QuadraticEnvelopeCardIndicator.prox for r0 >= 1 and 0 < tau < 1 is a global minimiser for the quadratic envelope of {at most r0 non-zeros}, which its call evaluates for r0 >= 2; QuadraticEnvelopeRankL2.prox is a global minimiser for the rank envelope plus data term for every tau > 0 when 1 <= r0 <= min(m,n) and min(m,n) >= 3 (or = 2 under an explicit condition). The bounds on tau, r0 and min(m,n) are necessary (proved), call of the indicator raises for r0 = 1, and call of RankL2 reports |x-M|/2 instead of |x-M|^2/2.", "quantifier": "all lengths, x, mu, tau>0", "why_tests_cant": "non-convex optimality", "anchors": ["pyproximal/proximal/QuadraticEnvelope.py:QuadraticEnvelopeCard,QuadraticEnvelopeCardIndicator"]}
{"id": "C32", "title": "Singular-value operators", "statement": "Every real matrix has exactly one non-increasing list of singular values. Nuclear.prox with a number sigma >= 0 returns the unique proximal point of sigma times the nuclear norm (a convex function), whatever singular vectors the svd returns; with non-descending weights it returns a global minimiser of the weighted problem, with non-ascending weights it need not. Nuclear's value is the (weighted) sum of singular values, but evaluating it with one weight per singular value raises when the matrix has more columns than rows. NuclearBall.prox is the projection up to the root-search tolerance for matrices on or outside the ball; inside it moves full-rank matrices to the sphere. SingularValuePenalty.prox is exact for every even entrywise penalty smallest at 0, convex or not; a penalty treating entries differently is evaluated and applied in opposite orders.", "quantifier": "all shapes, all real matrices, all valid outputs of svd/eigvalsh, all tau > 0, weights and penalties", "why_tests_cant": "global optimality over all matrices and independence of the svd's choice of singular vectors", "anchors": ["pyproximal/proximal/Nuclear.py:Nuclear", "pyproximal/proximal/Nuclear.py:NuclearBall", "pyproximal/projection/Nuclear.py:NuclearBallProj", "pyproximal/proximal/SingularValuePenalty.py:SingularValuePenalty"]}
{"id": "C33", "title": "Call-indexed parameters", "statement": "For every history of prox, proxdual and value calls on one L1 object with a callable sigma, the next prox call with tau > 0 uses sigma(1 + number of earlier prox attempts, rejected ones included, plus earlier accepted proxdual calls when g is given). Known deviations, proved: the documented indexing (the k-th successful call, from 0, uses sigma(k)) fails already for the first call, and no constant offset repairs it.", "quantifier": "all interleavings of prox/proxdual/call with any arguments", "why_tests_cant": "property of unbounded histories", "anchors": ["pyproximal/proximal/L1.py:L1", "pyproximal/proximal/L0.py:L0,L0Ball", "pyproximal/proximal/RelaxedMS.py"]}
{"id": "C34", "title": "prox leaves the caller's array untouched", "statement": "L2.prox leaves the array passed as x untouched, also when it raises, in every configuration except two: with a q-term and neither Op nor b, and with a q-term and the cgls solver (known deviation, proved: there x is overwritten by x - tau*alpha*q).", "quantifier": "all operators configurations, all inputs", "why_tests_cant": "aliasing: needs every configuration and every content", "anchors": ["pyproximal/proximal/L2.py:L2.prox", "pyproximal/projection/Intersection.py:IntersectionProj"]}
{"id": "C35", "title": "Two-operator Dykstra", "statement": "Sum of two operators / intersection of sets: throughout the loop x+p+q (or u+sum z_i) equals the input; the loop stops at the first iterate passing the test, and by itself for tol > 0; agreeing iterates give the exact prox of the sum (projection on the intersection); with tol = 0, in finite dimension, the results for niter = 0, 1, 2, ... converge to the prox of f+g (the projection on the intersection of any number of sets) whenever the lower semicontinuous functions (closed sets) have a common point, with no condition on subgradients; when the subdifferential sum rule also holds at the solution the squared distances are summable and an explicit error bound holds at a stop by tol. Known deviations, proved: with tol = 0 the call of the intersection is always False, and on long arrays it can reject a result that passed the stopping test.", "quantifier": "all f,g (or sets), x, tau>0, niter, tol", "why_tests_cant": "loop invariants over all iterations", "anchors": ["pyproximal/proximal/_Dykstra.py:dykstra_two", "pyproximal/proximal/Sum.py:Sum", "pyproximal/projection/GenericIntersection.py:GenericIntersectionProj"]}
{"id": "C36", "title": "Parallel Dykstra and weights", "statement": "Sum of m operators in parallel: with the weights divided by their sum the weighted mean of the z_i equals the input at every iteration, the loop stops at the first iteration moving less than tol, consensus gives the prox of sum_i c_i f_i with c_i = tau w_i / sum w (use_original_tau) or tau / sum w (default), and with tol = 0, in finite dimension, the results converge to that prox whenever the lower semicontinuous functions are finite at a common point. Known deviations, proved: the default is not the documented prox of tau sum_i w_i f_i, float-array weights are overwritten by a call and change the next one, and a small move is not consensus.", "quantifier": "all m, weights, operators, call sequences", "why_tests_cant": "histories and aliasing", "anchors": ["pyproximal/proximal/_Dykstra.py:parallel_dykstra_prox,parallel_dykstra_projection", "pyproximal/proximal/Sum.py:Sum"]}
{"id": "C37", "title": "Pairwise intersection projection", "statement": "IntersectionProj preserves column sums, does not change feasible inputs, and terminates within niter sweeps; with the stopping test disabled it converges to the projection on constraints within 1e-10 of the given ones. Known deviations, proved: the result need not be feasible, the caller's array is overwritten, and the stopping test can end far from the projection.", "quantifier": "all k, n, sigma, x, niter, tol", "why_tests_cant": "loop invariants", "anchors": ["pyproximal/projection/Intersection.py:IntersectionProj"]}
{"id": "C38", "title": "Dispatch by arity", "statement": "Sum and GenericIntersection choose a method by the number of operators: no projection raises ValueError, one delegates exactly to the operator's own prox, two or more use Dykstra; a Sum evaluates to False when a constraint fails and otherwise to the sum of its values. Known deviation, proved: Sum([]) without weights raises ZeroDivisionError instead of ValueError.", "quantifier": "all lists of operators", "why_tests_cant": "all arities", "anchors": ["pyproximal/proximal/_Dykstra.py:_select_impl_by_arity", "pyproximal/proximal/Sum.py:Sum"]}
{"id": "C40", "title": "Proximal point algorithm", "statement": "ProximalPoint returns the niter-fold iterate of prox; for convex f the objective never increases, f(x_k)-f(y)<=||x0-y||^2/(2 tau k) for every y and k, and x0 is returned unchanged forever iff x0 is a minimiser.", "quantifier": "all convex f, x0, tau>0, niter", "why_tests_cant": "rates hold for all iteration counts and all f", "anchors": ["pyproximal/optimization/primal.py:ProximalPoint"]}
{"id": "C41", "title": "Proximal gradient descent", "statement": "ProximalGradient without acceleration, tau<=1/L: objective non-increasing and F(x_k)-F(y)<=||x0-y||^2/(2 tau k) for all y,k; fixed points are exactly minimisers.", "quantifier": "all convex L-smooth f, convex g, x0, tau in (0,1/L], eps>=0, niter", "why_tests_cant": "rates for all iteration counts", "anchors": ["pyproximal/optimization/primal.py:ProximalGradient"]}
{"id": "C42", "title": "FISTA acceleration", "statement": "With acceleration='fista' and eta=1, F(x_k)-F(x*)<=2||x0-x*||^2/(tau (k+1)^2) for every k.", "quantifier": "all convex smooth f, convex g, x0, tau<=1/L, niter", "why_tests_cant": "accelerated rate for all iterations", "anchors": ["pyproximal/optimization/primal.py:ProximalGradient"]}
{"id": "C43", "title": "Relaxation and acceleration compose as documented", "statement": "For eta = 1 and a fixed step ProximalGradient executes the documented recursion in every acceleration mode; for eta != 1 the acceleration option has no effect, and for 0 < eta < 1 the relaxed run decreases the objective with an explicit rate. Known deviations, proved: for eta != 1 with acceleration, and for eta != 1 with backtracking, the executed recursion is not the documented one.", "quantifier": "all eta, acceleration modes, histories", "why_tests_cant": "parameter interactions", "anchors": ["pyproximal/optimization/primal.py:ProximalGradient"]}
{"id": "C44", "title": "Backtracking", "statement": "For niterback >= 1 backtracking either returns the first trial step passing the sufficient decrease test, with the point computed with that step, or exhausts its trials; it accepts once a trial step is <= 1/L and never increases the step (beta <= 1). Known deviations, proved: after exhaustion the returned point and step do not belong together, and niterback = 0 raises UnboundLocalError.", "quantifier": "all f (smooth), g, x, tau, beta, niterback", "why_tests_cant": "termination for all inputs", "anchors": ["pyproximal/optimization/primal.py:_backtracking"]}
{"id": "C45", "title": "Tolerance stopping and callbacks", "statement": "Whenever ProximalPoint or ProximalGradient with tol returns, it stopped at the first iteration whose relative objective change is below tol, otherwise after exactly niter; the callback is called once per executed iteration with that iteration's iterate, the last being the returned vector. Known deviation, proved: reaching objective value 0 raises ZeroDivisionError instead of stopping.", "quantifier": "all objectives, tolerances, niter", "why_tests_cant": "all stopping patterns", "anchors": ["pyproximal/optimization/primal.py:ProximalPoint,ProximalGradient", "pyproximal/optimization/primal.py:PPXA,ConsensusADMM"]}
{"id": "C46", "title": "Initial guesses", "statement": "HQS/ADMM/ADMML2/LinearizedADMM: no guess at all raises ValueError; given one, the other is derived as documented; the guess documented as not required does not influence the run. Known deviation, proved: LinearizedADMM given both guesses does not use A x0 - z0 in its first update.", "quantifier": "all combinations of x0,z0,gfirst,niter", "why_tests_cant": "all option combinations and all data", "anchors": ["pyproximal/optimization/primal.py:_x0z0_init,HQS,ADMM,ADMML2,LinearizedADMM"]}
{"id": "C47", "title": "ADMM optimality and monotonicity", "statement": "At a fixed point of ADMM x=z is a minimiser of f+g; along iterations the Lyapunov function ||z_k-z*||^2+||u_k-u*||^2 never increases (gfirst=False) and the primal residuals are square-summable; x_k is in dom f, z_k in dom g.", "quantifier": "all convex f,g, x0,z0,tau>0, niter", "why_tests_cant": "all iterations and all functions", "anchors": ["pyproximal/optimization/primal.py:ADMM"]}
{"id": "C48", "title": "ADMM is Douglas-Rachford", "statement": "ADMM and DouglasRachfordSplitting(eta=1) produce corresponding iterates for every f,g, tau, starting point and iteration count.", "quantifier": "all prox maps (not only convex), all starts and niter", "why_tests_cant": "equivalence for all iteration counts", "anchors": ["pyproximal/optimization/primal.py:ADMM,DouglasRachfordSplitting"]}
{"id": "C49", "title": "Douglas-Rachford convergence certificate", "statement": "For 0 < eta < 2 and niter >= 1, y_k is Fejer monotone w.r.t. fixed points, the squared residuals sum to at most ||y0-y*||^2/(eta(2-eta)) and never increase, the summed objective gap is bounded, and fixed points are exactly minimisers. Known deviation, proved: niter = 0 raises UnboundLocalError.", "quantifier": "all convex f,g, tau>0, eta in (0,2), niter", "why_tests_cant": "all iterations", "anchors": ["pyproximal/optimization/primal.py:DouglasRachfordSplitting"]}
{"id": "C50", "title": "HQS", "statement": "HQS alternates the two prox maps in the documented order; x in dom f and z in dom g after each iteration; the penalised objective f(x)+g(z)+||x-z||^2/(2tau) never increases and is within O(1/k) of its infimum; with one tau per iteration, iteration k uses tau[k]. Known deviation from the documented problem, proved: f+g itself is not minimised, for any number of iterations.", "quantifier": "all f,g, tau schedules, niter", "why_tests_cant": "all iterations", "anchors": ["pyproximal/optimization/primal.py:HQS"]}
{"id": "C51", "title": "Linearised ADMM and ADMM-L2 fixed points", "statement": "LinearizedADMM (mu |A|^2 <= tau) and ADMML2 with gfirst=False and exact inner solves follow the documented recursion, fixed points minimise f(x)+g(Ax) resp. 1/2||Op x-b||^2+g(Ax), and an explicit Lyapunov function never increases. Known deviation, proved: ADMML2 with gfirst=True uses a stale A x and need not converge.", "quantifier": "all convex f,g, linear A, tau, mu>0", "why_tests_cant": "universal", "anchors": ["pyproximal/optimization/primal.py:LinearizedADMM,ADMML2"]}
{"id": "C52", "title": "TwIST", "statement": "TwIST with both alpha and beta given follows the two-step recursion with them; with alpha=beta=1 it equals proximal gradient with unit step; fixed points are exactly minimisers; with neither given the documented values are used. Known deviations, proved: giving only one of alpha and beta does not work, and user-supplied eigs are not floored as documented.", "quantifier": "all A,b,g,x0,alpha,beta,niter", "why_tests_cant": "all iteration counts", "anchors": ["pyproximal/optimization/primal.py:TwIST"]}
{"id": "C53", "title": "PPXA", "statement": "PPXA with tol given, a common start with admissible weights or one start per function with default weights: it follows the documented recursion, fixed points minimise sum f_i, and the weighted distance of the y_i to every solution decreases. Known deviations, proved: one start per function with other weights converges to a wrong point, a stop by tol does not certify a minimiser, and tol=None raises TypeError.", "quantifier": "all m, convex f_i, weights, initial vectors, eta, tau", "why_tests_cant": "initialisation/weights interaction", "anchors": ["pyproximal/optimization/primal.py:PPXA"]}
{"id": "C54", "title": "Consensus ADMM", "statement": "ConsensusADMM with tol given: the dual variables always sum to zero, fixed points have all copies equal to a minimiser of sum f_i, and the Lyapunov function decreases at every iteration. Known deviations, proved: a stop by tol does not certify near optimality, and tol=None raises TypeError.", "quantifier": "all m, convex f_i, tau, niter", "why_tests_cant": "all iterations", "anchors": ["pyproximal/optimization/primal.py:ConsensusADMM"]}
{"id": "C55", "title": "Generalised proximal gradient", "statement": "Weights summing to one are accepted, others rejected; x is always the weighted mean of the z_j; at a fixed point x minimises sum f_i+sum eps_j g_j; without acceleration the weighted distance to every solution decreases. Known deviations, proved: in binary64 the default weights 1/n are rejected for n = 6 and 7, and eta has an effect with acceleration although documented otherwise.", "quantifier": "all numbers of terms, weights, eta, tau, niter", "why_tests_cant": "floating-point weight check fails only for particular counts", "anchors": ["pyproximal/optimization/primal.py:GeneralizedProximalGradient"]}
{"id": "C56", "title": "Anderson acceleration", "statement": "AndersonProximalGradient never fails on shapes for nhistory>=1: it combines the nhistory most recent steps with coefficients that sum to one and minimise the combined residual, whatever epsr>0; it reduces to ProximalGradient for nhistory=1; it breaks down (0/0) only after a minimiser has been reached, and then always, at the latest nhistory iterations later; with a tolerance it stops where the relative-change rule says, the safeguard accepts only sufficient decrease or the plain step, and show=True changes nothing. Known deviations, proved: the initial history entry is swapped, without a tolerance safeguard=True can accept an increase of f and show=True changes the result.", "quantifier": "all nhistory>=1, niter, f,g,x0", "why_tests_cant": "all iterations; initialisation bug hidden by later steps", "anchors": ["pyproximal/optimization/primal.py:AndersonProximalGradient"]}
{"id": "C57", "title": "Primal-dual (Chambolle-Pock)", "statement": "For tau*mu*||A||^2<=1, theta=1 the iterates are Fejer monotone in the natural metric and the ergodic primal-dual gap is bounded by C/N; fixed points are saddle points; both update orders follow the documented recursion, provided rmatvec returns a fresh array or z is None. Known deviation, proved: an rmatvec that returns its argument lets the addition of z corrupt the dual variable.", "quantifier": "all convex f,g, linear A, step sizes, niter", "why_tests_cant": "all iterations", "anchors": ["pyproximal/optimization/primaldual.py:PrimalDual"]}
{"id": "C58", "title": "Adaptive primal-dual step sizes and convergence", "statement": "AdaptivePrimalDual: tau*mu stays constant, tau,mu>0 and alpha in (0,1) is non-increasing for the whole run; histories have one entry per executed iteration plus one; without z the residuals vanish exactly at saddle points. With 0 < eta < 1, tau mu |A|^2 <= kappa < 1, a saddle point and no early stop, the steps converge to positive limits and the iterates converge to a solution in finite dimension. Known deviations, proved: the loop stops as soon as one residual is small, and with z the residuals do not vanish at a solution or raise for non-square operators.", "quantifier": "all inputs, niter", "why_tests_cant": "invariants over runs", "anchors": ["pyproximal/optimization/primaldual.py:AdaptivePrimalDual"]}
{"id": "C59", "title": "Bregman iterations", "statement": "Bregman hands the inner solver f - <alpha q_k,.> and alpha g with the current solution (warm) or x0 as start, in every iteration; with an exact inner solver and a float alpha > 0, q_k is always a subgradient of g(A .) at x_k, f(x_k) is non-increasing with rate O(1/k), and it stops where documented. Known deviation, proved: an integer alpha always raises.", "quantifier": "all convex f (differentiable), g, alpha>0, outer iteration counts", "why_tests_cant": "all iterations", "anchors": ["pyproximal/optimization/bregman.py:Bregman"]}
{"id": "C60", "title": "PALM / iPALM", "statement": "PALM with steps dominating the block constants does not increase f+g+H, in every combination of fixed steps and backtracking in which the operator used for y is the right one; iPALM without inertia equals PALM, and with inertia an explicit potential never increases. Known deviations, proved: with backtracking for y the operator g is never used, the first x step reads the y stored in H, a zero start divides by zero, iPALM with gammaf given and gammag=None never runs, and in backtracking mode the inertia of y has no effect.", "quantifier": "all H, f, g, starts, options, niter", "why_tests_cant": "option combinations", "anchors": ["pyproximal/optimization/palm.py:PALM,iPALM,_backtracking"]}
{"id": "C61", "title": "Low-rank bilinear operator", "statement": "call returns 1/2|d - Op(XY)|^2 and restores the stored factors; gradx/grady (and grad after updatexy) are its partial gradients; without a linear operator lx/ly bound the block Lipschitz constants; matvec dispatch is unambiguous for n != m and refused for n = m; fixed-step PALM on it never increases the objective. Known deviations, proved: a failing call leaves the wrong factor stored, grad without the update is not the gradient, and with a linear operator lx/ly (so fixed-step PALM) always raise.", "quantifier": "all sizes n,k,m, all factors", "why_tests_cant": "all shapes", "anchors": ["pyproximal/utils/bilinear.py:LowRankFactorizedMatrix"]}
{"id": "C62", "title": "Gradient self-test", "statement": "With the real draw (or a complex x) gradtest_proximal passes exactly when the difference quotient of the drawn entry is within atol of the gradient entry, hence for curvature L it accepts only entries within atol + L|delta|/2 of the derivative; gradtest_bilinear likewise. Known deviations, proved: with a real x half of the draws check nothing, the default tolerances reject correct gradients, rtol has no influence, a negative delta compares with the opposite derivative, and the caller's x is left perturbed.", "quantifier": "all operators, points and random draws", "why_tests_cant": "random draws hide it", "anchors": ["pyproximal/utils/gradtest.py:gradtest_proximal"]}
{"id": "C63", "title": "Plug-and-play is ADMM with a denoiser", "statement": "PlugAndPlay with the default solver produces exactly the documented recursion with the denoiser in place of prox_g, passing tau unchanged, for any denoiser.", "quantifier": "all denoisers, f, x0, tau, niter", "why_tests_cant": "universal over callables", "anchors": ["pyproximal/optimization/pnp.py:PlugAndPlay,_Denoise"]}
{"id": "C64", "title": "Segmentation output", "statement": "Segment returns, after at least one iteration, a probability vector on the simplex for every pixel (up to the accuracy of Simplex's bisection), and the label of a pixel is the first class of largest probability. For 1-D and 2-D images and alpha > 0 it never raises, and the mean of the iterates is feasible with an objective within O(1/n) of every feasible point's, with an explicit constant. (With niter=0 the start is returned unprojected; for 3-D images the hard-coded step sizes violate the primal-dual step condition.)", "quantifier": "all images, classes, weights, standard deviations, starts, numbers of iterations", "why_tests_cant": "all inputs", "anchors": ["pyproximal/optimization/segmentation.py:Segment"]}
{"id": "C65", "title": "SR3 extrapolation", "statement": "SR3 with an exact inner solver follows the extrapolated recursion, its weights stay in (0,1], strictly decrease and are at most 2/(k+2), it stops at the first iteration passing the error test, and the gap of the relaxed objective is bounded by the tested error. Known deviations, proved: the recursion is not the documented one, and with the default inner solver zero data or a single unknown give NaN.", "quantifier": "all problems, iteration counts", "why_tests_cant": "all iterations", "anchors": ["pyproximal/optimization/sr3.py:SR3"]}
{"id": "C66", "title": "Total variation prox", "statement": "TV(x) is sigma times the documented isotropic total variation for 1 to 4 dimensions; TV.prox keeps its dual iterates in the pixelwise unit ball at every iteration and applies projected gradient steps with momentum (k+1)/(k+3)-type weights; with the tolerance test off (rtol=0) its result is within 12*sigma*tau*sqrt(d*N)/niter of the exact proximal point; the sum of x is preserved. The stop test and FISTA's t-recursion do not hold as documented.", "quantifier": "all dims with every axis >= 2, all x, sigma, tau > 0, niter", "why_tests_cant": "all iterations", "anchors": ["pyproximal/proximal/TV.py:TV"]}
{"id": "C67", "title": "Projections are idempotent, feasible and non-expansive", "statement": "Box (lower <= upper), HalfSpace (w != 0), EuclideanBall (radius > 0), AffineSet (exact inner solve), Hankel and the dual ball of Euclidean: the prox result is feasible per the operator's own call, applying it twice equals once, it fixes exactly the members, is 1-Lipschitz, and tau is irrelevant; Simplex obeys the same laws up to the accuracy of its root search. Known deviation, proved: L1Ball does not (it expands distances).", "quantifier": "all sets, inputs, tau>0", "why_tests_cant": "universal", "anchors": ["pyproximal/proximal/Box.py", "pyproximal/proximal/HalfSpace.py", "pyproximal/proximal/Euclidean.py:EuclideanBall", "pyproximal/proximal/AffineSet.py"]}
{"id": "C68", "title": "Option validation", "statement": "Unknown option values raise the documented error and accepted ones never do: L2 solver, Simplex engine/dims/axis, acceleration of ProximalGradient and GeneralizedProximalGradient, parameters of SCAD, Log, Log1, Quadratic. Known deviation, proved: Log accepts gamma = 0 and is then useless.", "quantifier": "all strings/values", "why_tests_cant": "unbounded value spaces", "anchors": ["pyproximal/optimization/primal.py:ProximalGradient", "pyproximal/proximal/L2.py:L2", "pyproximal/proximal/Simplex.py:Simplex"]}
{"id": "C69", "title": "Inner least-squares solver of SR3", "statement": "The LSQR used by SR3, started at a point that is not a least-squares solution, strictly decreases the residual at every pass by an exact line search and returns the last iterate unless an exact solution was reached on the way. Known deviation, proved: a start that is already a least-squares solution gives NaN.", "quantifier": "all operators, data, starts, iteration limits", "why_tests_cant": "all inputs, including exact breakdown points", "anchors": ["pyproximal/optimization/sr3.py:_lsqr"]}
{"id": "C70", "title": "ETP penalty prox", "statement": "ETP(sigma, gamma) evaluates the exponential-type penalty sum_i sigma (1 - exp(-gamma |x_i|)) / (1 - exp(-gamma)), and its prox, computed with the Lambert W function, is a global minimiser of penalty plus quadratic for every input and step; invalid sigma or gamma are rejected at construction.", "quantifier": "all x, sigma >= 0, gamma > 0, tau > 0", "why_tests_cant": "non-convex optimality against all competitors", "anchors": ["pyproximal/proximal/ETP.py:ETP"]}
{"id": "C71", "title": "Geman penalty prox", "statement": "Geman(sigma, gamma) evaluates sum_i sigma |x_i| / (|x_i| + gamma), and its prox, computed from the trigonometric root of a cubic, is a global minimiser of penalty plus quadratic for every input and step; every intermediate quantity is defined (no NaN).", "quantifier": "all x, sigma >= 0, gamma > 0, tau > 0", "why_tests_cant": "non-convex optimality against all competitors; the cubic has three real roots in part of the parameter space", "anchors": ["pyproximal/proximal/Geman.py:Geman"]}
{"id": "C72", "title": "Proximal gradient on a low-rank factorisation follows the true gradient", "statement": "When a LowRankFactorizedMatrix whose stored factors equal x0 is passed as f to ProximalGradient, and the run uses either eta = 1 without acceleration or eta != 1 with a fixed step, the result, the callbacks and any exception are exactly those of the same run with the true value and gradient of 1/2 |d - Op(XY)|^2 in the concatenated factors; with backtracking (eta = 1, one epsg, no acceleration) every iteration either does not increase 1/2 |d - Op(XY)|^2 + epsg g or exhausted its line search. Both conditions are needed: with acceleration, or with other stored factors, the gradient is evaluated with stale factors.", "quantifier": "all sizes n, k, m, data, linear operators, starting points, operators g, steps, numbers of iterations and tolerances", "why_tests_cant": "The stored factors are hidden state that is updated once per iteration; whether every gradient of every run is taken with the right factors depends on the whole call history, and the objective is not convex, so no reference minimum exists to compare with.", "anchors": ["pyproximal/optimization/primal.py:ProximalGradient", "pyproximal/optimization/primal.py:_backtracking", "pyproximal/utils/bilinear.py:LowRankFactorizedMatrix", "pyproximal/utils/bilinear.py:BilinearOperator.updatexy"]}
{"id": "C73", "title": "Nonlinear hands the user's optimiser the right problem, start and derivatives", "statement": "For a Nonlinear object (user-supplied fun, grad and optimize): in every sequence of prox calls, failing and rejected ones included, a call with tau <= 0 raises ValueError and leaves the object as it was, and any other call runs optimize on the point and step of that call, started from the last returned result when warm=True (x0 before there is one) and from x0 when warm=False. _gradprox is the gradient of _funprox and _fungradprox returns both. If optimize minimises _funprox, prox is the exact proximal point; if fun is convex and grad its gradient, the result p of any optimize is within tau*|_gradprox(p)| of the exact proximal point.", "quantifier": "all inner product spaces, user functions, optimisers (including ones that raise), starts, steps and histories of calls", "why_tests_cant": "The start and the subproblem depend on the whole history of calls on one object, and the accuracy statement ranges over every user function and optimiser.", "anchors": ["pyproximal/proximal/Nonlinear.py:Nonlinear"]}
{"id": "C74", "title": "L2Convolve is the least-squares term of a convolution", "statement": "For every kernel h, data b, nfft >= 1 and array (real or complex, one- or multi-dimensional): call evaluates sigma/2 |h * x - b|^2 with the circular convolution of period nfft along dir, arrays being cut or padded with zeros to nfft samples; it is the ordinary convolution when nfft >= len(h)+len(x)-1. For arrays of at most nfft samples grad is the gradient of that function, Lipschitz with constant sigma*max|F(h)|^2. For arrays of exactly nfft samples, sigma >= 0 and tau > 0, prox is the exact proximal point; real inputs give zero imaginary parts. Known deviations, proved: with nfft > len(x) prox returns the cut proximal point of the padded problem, which is not the proximal point of the function call evaluates; with nfft < len(x) (nfft defaults to 1024) call ignores the samples beyond nfft and prox without dims returns only nfft samples, without an error (grad, and prox with dims, raise IndexError).", "quantifier": "all kernels, data, arrays, lengths, transform lengths, shapes and directions, weights and steps", "why_tests_cant": "The existing test checks a spike in the middle with b = 0 and Moreau's identity, which holds whatever prox returns; exactness depends on the relation between nfft and the array length, for all values.", "anchors": ["pyproximal/proximal/L2.py:L2Convolve"]}
{"id": "C75", "title": "The iterates of the solvers converge to a solution", "statement": "On finite-dimensional arrays, for convex functions and a problem that has a solution (with multipliers where the method needs them), for every start and every admissible parameter: the vectors returned by ProximalPoint (tau > 0), ProximalGradient (0 < eta < 2 - tau L/2, or eta = 1 with backtracking that has enough trials), DouglasRachfordSplitting (0 < eta < 2), ADMM, HQS with one fixed tau (for its penalised problem), PrimalDual (theta = 1, tau mu |A|^2 <= 1), LinearizedADMM (mu |A|^2 <= tau), ADMML2 (gfirst=False, exact inner solves), PPXA (0 < eta < 2), ConsensusADMM and GeneralizedProximalGradient (no acceleration, 0 < eta < 2 - tau L/2) with 0, 1, 2, ... iterations form one sequence, and that sequence converges to a minimiser of the documented objective; with tol given, PPXA and ConsensusADMM return the member of the sequence at which the change first falls below tol. With acceleration ('fista' or 'vandenberghe', fixed step up to 1/L or backtracking) and bounded level sets, the vectors returned by ProximalGradient approach the set of minimisers and converge when the minimiser is unique.", "quantifier": "all convex functions, operators, starts, admissible step sizes, relaxations, weights and iteration counts, all finite dimensions", "why_tests_cant": "A limit statement: a test sees finitely many iterations on one problem and cannot distinguish slow convergence from convergence to a wrong point or from cycling.", "anchors": ["pyproximal/optimization/primal.py:ProximalPoint", "pyproximal/optimization/primal.py:ProximalGradient", "pyproximal/optimization/primal.py:GeneralizedProximalGradient", "pyproximal/optimization/primal.py:HQS", "pyproximal/optimization/primal.py:ADMM", "pyproximal/optimization/primal.py:ADMML2", "pyproximal/optimization/primal.py:LinearizedADMM", "pyproximal/optimization/primal.py:DouglasRachfordSplitting", "pyproximal/optimization/primal.py:PPXA", "pyproximal/optimization/primal.py:ConsensusADMM", "pyproximal/optimization/primaldual.py:PrimalDual"]}
{"id": "C76", "title": "The thresholding and box operators in floating-point arithmetic", "statement": "With IEEE-754 arithmetic of any precision (rounding to nearest) instead of exact reals, for finite inputs, sigma >= 0 and tau > 0: L1.prox and L2.prox return finite entries, never larger than the input and never of the opposite sign, within a few units of roundoff of the exact proximal point, even when tau*sigma overflows; without overflow each entry of L1.prox is the floating-point number nearest to the exact soft-thresholding by the number nearest to tau*sigma, exact when |x| <= 2t and zero exactly when |x| <= t; L1.prox preserves order, and with g sends every entry within the threshold of g to g exactly; Box.prox and L1.proxdual are exact projections, Box accepts its own result and projecting again changes no bit; L0.prox applied twice is L0.prox; a NaN entry stays NaN and a NaN step is not rejected. On the other hand EuclideanBall and HalfSpace can reject their own projection, and L1.prox is not non-expansive to the last bit.", "quantifier": "all precisions and exponent ranges, all finite inputs (bounds may be infinite), all array lengths", "why_tests_cant": "Tests compare with a tolerance on a few inputs; they see neither every rounding, overflow and underflow case nor the exact claims (nearest number, idempotence, membership).", "anchors": ["pyproximal/proximal/L1.py:L1.prox", "pyproximal/proximal/L1.py:_softthreshold", "pyproximal/proximal/L2.py:L2.prox", "pyproximal/proximal/L0.py:L0.prox", "pyproximal/proximal/Box.py:Box", "pyproximal/projection/Box.py:BoxProj", "pyproximal/proximal/Euclidean.py:EuclideanBall", "pyproximal/proximal/HalfSpace.py:HalfSpace"]}
{"id": "C77", "title": "The GPU engine of Simplex does not depend on the schedule", "statement": "With engine=\"cuda\", dims = (r, c), axis 0, 1 or -1, ftol > 0 and any number of threads per block, Simplex.prox returns the same array whatever the order in which the threads run and whatever the output memory held before: exactly the array the sequential numba engine returns, so that (radius <= 1e10) every row or column is the projection of the input row on the simplex up to the tolerances. With axis = -2, which names the same dimension as 0, this is false: part of the result may be uninitialised memory.", "quantifier": "all array sizes, inputs, tolerances, block sizes, initial memory contents and interleavings of the threads' stores", "why_tests_cant": "A test sees one schedule on one device and one initial memory content; the claim ranges over all interleavings and all grid sizes.", "anchors": ["pyproximal/proximal/_Simplex_cuda.py:simplex_jit_cuda", "pyproximal/proximal/_Simplex_cuda.py:bisect_jit_cuda", "pyproximal/proximal/_Simplex_cuda.py:fun_jit_cuda", "pyproximal/proximal/Simplex.py:_Simplex_cuda"]}
{"id": "C78", "title": "The library's own L2 and L1 objects plugged into its solvers solve the LASSO problem", "statement": "For L2(Op=A, b=b, sigma=s) and L1(sigma=lam) objects (inner solvers exact), s, lam > 0 and A any operator on vectors: the problem min s/2|Ax-b|^2 + lam|x|_1 has a solution, characterised by the correlation c = s A^T(b-Ax) (|c_i| <= lam, c_i = lam sign(x_i) on the support); ProximalGradient with a fixed step below 2/L, ADMM, DouglasRachfordSplitting, LinearizedADMM and PrimalDual (with L2(b=b)) return vectors that converge to a solution as niter grows, without raising; ProximalGradient with tau <= 1/L is within |x0-z|^2/(2 tau k) of the minimum after k iterations, and within 2|x0-z|^2/(tau (k+1)^2) with either acceleration.", "quantifier": "every size, operator A, data b, weights s, lam > 0, start, admissible step, order of the two functions, inner-solver option, and every history of earlier calls on the two objects", "why_tests_cant": "Tests run one solver on one random problem for a fixed number of iterations and compare with another solver; they cannot show that the limit is a solution for every operator, including rank-deficient ones, nor that object state left by earlier calls never matters.", "anchors": ["pyproximal/proximal/L2.py:L2", "pyproximal/proximal/L1.py:L1", "pyproximal/optimization/primal.py:ProximalGradient", "pyproximal/optimization/primal.py:ADMM", "pyproximal/optimization/primal.py:DouglasRachfordSplitting", "pyproximal/optimization/primal.py:LinearizedADMM", "pyproximal/optimization/primaldual.py:PrimalDual"]}
{"id": "C79", "title": "Operators that write into the array they are given, inside the solvers", "statement": "The solvers hand arrays to prox methods. If no prox method changes the array it is given, ProximalPoint, HQS, DouglasRachfordSplitting, PPXA and Sum return what their recursions say, the arrays seen by callbacks keep their content and the caller's arrays are untouched. ADMM and ConsensusADMM hand over temporaries only, so this holds for them even when the operators write into their argument. L2 with a q-term and no data, and Intersection, do write into their argument: with them DouglasRachfordSplitting converges to a wrong point, PPXA and Sum diverge, the z returned by HQS is outside the domain of g, HQS overwrites the caller's z0, the callback history of ProximalPoint is one array, and the inherited gradient of Intersection is zero.", "quantifier": "All contents of memory, all operators meeting the stated read/write contract, all vectors, steps and numbers of iterations.", "why_tests_cant": "Aliasing effects depend on which operator meets which solver and on the evaluation order inside an expression; a test compares one combination on one input and the wrong limit looks like a plausible vector.", "anchors": ["pyproximal/optimization/primal.py: ProximalPoint, HQS, ADMM, DouglasRachfordSplitting, PPXA, ConsensusADMM", "pyproximal/proximal/_Dykstra.py: parallel_dykstra_prox", "pyproximal/ProxOperator.py: grad", "pyproximal/proximal/L2.py: L2.prox", "pyproximal/projection/Intersection.py: IntersectionProj.__call__"]}
{"id": "C80", "title": "Operators on complex arrays", "statement": "On complex arrays the proximal operators of functions of the moduli (Huber, L0, Log, Geman, QuadraticEnvelopeCard, RelaxedMumfordShah, SCAD, the L1 and L0 balls, L21_plus_L1) are exact: they apply the real proximal operator to the moduli and keep the phases, and every proximal point of such a function keeps the phases. For Log, Geman, QuadraticEnvelopeCard and SCAD this needs the np.sign of numpy 2; with the earlier np.sign the result is real and is not a minimiser. Several operators do not handle complex arrays: ETP, L21, Box, HalfSpace, Quadratic, SCAD's value, L2 with a non-real q, Sum with a non-real v in its value, Nuclear's value, and the backtracking test of ProximalGradient, which accepts steps that make the iterates diverge.", "quantifier": "Every complex array, every admissible parameter, every tau > 0, both definitions of np.sign; the refutations name the inputs on which the result is wrong.", "why_tests_cant": "Tests compare with reference values on a few real arrays; whether a formula written for real numbers is still a minimiser when the entries have phases, and for which of them it fails, is a statement about all complex inputs.", "anchors": ["pyproximal/proximal/Huber.py: Huber", "pyproximal/proximal/L0.py: L0, L0Ball", "pyproximal/proximal/Log.py: Log", "pyproximal/proximal/Geman.py: Geman", "pyproximal/proximal/SCAD.py: SCAD", "pyproximal/proximal/QuadraticEnvelope.py: QuadraticEnvelopeCard", "pyproximal/proximal/RelaxedMS.py: RelaxedMumfordShah", "pyproximal/proximal/ETP.py: ETP", "pyproximal/proximal/L21.py: L21", "pyproximal/proximal/L21_plus_L1.py: L21_plus_L1", "pyproximal/projection/L1.py: L1BallProj", "pyproximal/projection/Box.py: BoxProj", "pyproximal/projection/HalfSpace.py: HalfSpaceProj", "pyproximal/proximal/Quadratic.py: Quadratic", "pyproximal/proximal/L2.py: L2", "pyproximal/ProxOperator.py: _SumOperator", "pyproximal/proximal/Nuclear.py: Nuclear", "pyproximal/optimization/primal.py: _backtracking"]}
{"id": "C81", "title": "The solvers converge whenever a minimiser exists and Slater's condition holds", "statement": "For convex functions on finite-dimensional arrays, if the objective has a minimiser and Slater's condition holds (a point of the domain of one function in the interior of the domain of the other, automatic for functions that are finite everywhere), DouglasRachfordSplitting, ADMM, LinearizedADMM, ADMML2, PrimalDual, AdaptivePrimalDual (without early stop), PPXA, ConsensusADMM and GeneralizedProximalGradient converge to a minimiser. The existence of multipliers, which their convergence theorems otherwise assume, follows from these conditions. Without Slater's condition it may fail, already for the library's ball and half-space.", "quantifier": "Every finite-dimensional real or complex array space, every pair or list of convex functions with a qualification point and a minimiser, every operator returning their proximal points, every admissible step and relaxation, every start.", "why_tests_cant": "A multiplier is not visible in any output, and whether one exists depends on the whole functions, not on sampled values; convergence for all starts and steps cannot be observed in a finite run.", "anchors": ["pyproximal/optimization/primal.py: DouglasRachfordSplitting, ADMM, ADMML2, LinearizedADMM, PPXA, ConsensusADMM, GeneralizedProximalGradient", "pyproximal/optimization/primaldual.py: PrimalDual, AdaptivePrimalDual"]}
{"id": "C82", "title": "Every operator expression built with the library's algebra is exact", "statement": "Take any expression a user can write from the objects of L1, L2 (all branches), Quadratic, Euclidean, HuberCircular, L21, EuclideanBall, Box, HalfSpace, AffineSet or any other exact operator, and the operations f + v, f - v, s * f, f.precomposition(a, b), f.H and Orthogonal(f, Q, partial, b, alpha), nested in any way and to any depth. With admissible arguments the object python builds computes the proximal point of exactly the function the expression stands for, its dual prox that of the conjugate; its value and gradient are those of that function where the class has them; and DouglasRachfordSplitting, ADMM, LinearizedADMM, PrimalDual, ProximalGradient, PPXA and ConsensusADMM applied to such objects converge to a minimiser of the sum of the functions written down.", "quantifier": "Every expression (by induction over its syntax, any nesting), every admissible parameter, every array, every tau > 0, every recursion limit of at least two frames; for the solvers every start and every admissible step in finite dimension, under Slater's condition and existence of a minimiser.", "why_tests_cant": "Tests instantiate a handful of combinations; the combinations of operators and operations are infinitely many, and an error in one operation (a factor, a sign, an order) shows only for some nestings and some arguments.", "anchors": ["pyproximal/ProxOperator.py: ProxOperator, _AdjointOperator, _SumOperator, _PostcompositionOperator, _PrecompositionOperator", "pyproximal/proximal/Orthogonal.py: Orthogonal", "pyproximal/proximal/L1.py: L1", "pyproximal/proximal/L2.py: L2", "pyproximal/proximal/Quadratic.py: Quadratic", "pyproximal/proximal/Euclidean.py: Euclidean, EuclideanBall", "pyproximal/proximal/Huber.py: HuberCircular", "pyproximal/proximal/L21.py: L21", "pyproximal/proximal/Box.py: Box", "pyproximal/proximal/HalfSpace.py: HalfSpace", "pyproximal/proximal/AffineSet.py: AffineSet"]}
{"id": "C83", "title": "Arrays of integers", "statement": "A user who passes an array of integers (x = np.array([3, 0, -2]), np.arange, a label image) gets the same proximal points and solutions as with the same numbers stored as floats. This holds for the operators whose result is computed by arithmetic, and DouglasRachfordSplitting started from integers still converges to a minimiser; it is false for the operators and loops that store their result in an array of the type of x: Huber, Log, Log1, SCAD, QuadraticEnvelopeCard, ETP, Geman, Simplex with dims and VStack with restrictions return the float result with the fractional part of every entry dropped (exact only when the proximal point has integer entries, possibly with a larger objective than the input; Simplex returns zero rows); calling Huber and SCAD gives wrong values; the Dykstra projection on three or more sets can stop at once outside of the intersection; GeneralizedProximalGradient, L2 with q and without b, and calling Orthogonal raise TypeError.", "quantifier": "Every array of integers, every admissible parameter of each operator, every tau > 0; for the solvers every start of integers, any number of iterations, any exact operators.", "why_tests_cant": "The tests draw normal random floats; whether an entry is damaged depends on its value, the parameter and tau, and the cases where nothing is lost (integer proximal points) are exactly those a hand-written integer test would choose.", "anchors": ["pyproximal/proximal/Huber.py: Huber", "pyproximal/proximal/Log.py: Log, Log1", "pyproximal/proximal/SCAD.py: SCAD", "pyproximal/proximal/QuadraticEnvelope.py: QuadraticEnvelopeCard", "pyproximal/proximal/ETP.py: ETP", "pyproximal/proximal/Geman.py: Geman", "pyproximal/proximal/Simplex.py: Simplex", "pyproximal/proximal/VStack.py: VStack", "pyproximal/proximal/_Dykstra.py: parallel_dykstra_projection", "pyproximal/optimization/primal.py: ProximalPoint, GeneralizedProximalGradient, DouglasRachfordSplitting", "pyproximal/proximal/L2.py: L2", "pyproximal/proximal/Orthogonal.py: Orthogonal"]}
{"id": "C84", "title": "Printing the progress does not change the result", "statement": "Calling a solver with show=True returns the same vectors as the silent call, hands the same vectors to the callback and leaves the caller's arrays unchanged, except that evaluating f or g or printing a line may raise; the same holds for the evaluations made by the tolerance test. This holds for ProximalPoint, ProximalGradient, HQS, ADMM, DouglasRachfordSplitting and PrimalDual with functions whose __call__ leaves its argument alone, which calling Orthogonal does when its operator returns new arrays. It is false for Orthogonal(f, Q, b) with an operator that returns the array it is given (pylops.Identity by default): calling it adds b to the array of the caller, so ADMM with show=True returns x + b instead of x, and ProximalPoint on 1/2|x + b|^2 with show=True or with a tolerance heads for b/tau instead of the minimiser -b. With such an operator PrimalDual given z adds z to its own dual variable in every iteration.", "quantifier": "Every number of iterations, start, step size, order of the operators, every function and proximal operator on arrays in memory that does what its value-level description says (proximal operators may write into their argument where the solver passes a temporary array), and every format function for the printed line, including ones that raise.", "why_tests_cant": "No test compares the two settings of show; whether an evaluation changes the iterate depends on which array the linear operator returns and on which iterations are logged (the first 10, the last 10 and every tenth).", "anchors": ["pyproximal/optimization/primal.py: ProximalPoint, ProximalGradient, HQS, ADMM, DouglasRachfordSplitting", "pyproximal/optimization/primaldual.py: PrimalDual", "pyproximal/proximal/Orthogonal.py: Orthogonal", "pyproximal/ProxOperator.py: _SumOperator"]}
{"id": "C85", "title": "The problems have solutions, and the solvers find them", "statement": "The convergence of the solvers does not need the user to know that a solution exists: for closed convex functions with Slater's condition and bounded level sets, f + g, f + g(A .) and f_1 + ... + f_m have minimisers and the vectors returned by DouglasRachfordSplitting, ADMM, PrimalDual, AdaptivePrimalDual (without early stop), LinearizedADMM, ADMML2, PPXA, ConsensusADMM, ProximalGradient (fixed step or backtracking) and ProximalPoint converge to one. Every expression built from the library's classes and operators stands for a closed convex function above an affine one. When f is strongly convex (L2 with data b: denoising) the minimiser is unique and found from every start with all admissible steps, for every regulariser and operator A: in particular L2 plus L1 or L21 of any linear operator (total-variation denoising). Without bounded level sets the iterates may go to infinity.", "quantifier": "Every finite-dimensional space of real or complex arrays, every closed convex function with an exact proximal operator, every bounded linear operator, start, step sizes within the documented ranges, order, number of functions, weights; every admissible operator expression.", "why_tests_cant": "Existence and uniqueness of a minimiser and convergence to it concern infinitely many points and iterations; a test sees one problem and a finite run.", "anchors": ["pyproximal/optimization/primal.py: ProximalPoint, ProximalGradient, ADMM, ADMML2, LinearizedADMM, DouglasRachfordSplitting, PPXA, ConsensusADMM", "pyproximal/optimization/primaldual.py: PrimalDual, AdaptivePrimalDual", "pyproximal/ProxOperator.py: ProxOperator", "pyproximal/proximal/L2.py: L2", "pyproximal/proximal/L21.py: L21", "pyproximal/proximal/L1.py: L1"]}
{"id": "C86", "title": "An interrupted run can be resumed from what it returned", "statement": "A run of k + m iterations is a run of k iterations followed by a run of m iterations started from what the first one returned, with the same result, the same callbacks and the same exceptions: for ProximalPoint and ProximalGradient (without acceleration and with a given step) from x, for HQS from x and z, for DouglasRachfordSplitting from y, for PrimalDual from x and y with gfirst=False (or theta = 0), for PALM with given factors from x and y; step sizes or factors given as arrays are those of the remaining iterations. With a tolerance, ProximalPoint interrupted at least two iterations before it stopped goes on to the same result. It is false, with witnesses, for ADMM, LinearizedADMM, ConsensusADMM, PPXA and GeneralizedProximalGradient (the multipliers or auxiliary vectors are neither returned nor accepted), for PrimalDual with gfirst=True (the extrapolated point), TwIST (the last but one iterate), accelerated ProximalGradient (momentum) and ProximalGradient with backtracking (the reduced step).", "quantifier": "Every interruption point k, number of further iterations m, operator (also ones that raise), start, step size or array of step sizes.", "why_tests_cant": "The property compares runs cut at every possible iteration for arbitrary operators; a test interrupts one run at one point.", "anchors": ["pyproximal/optimization/primal.py: ProximalPoint, ProximalGradient, GeneralizedProximalGradient, HQS, ADMM, LinearizedADMM, TwIST, DouglasRachfordSplitting, PPXA, ConsensusADMM", "pyproximal/optimization/primaldual.py: PrimalDual", "pyproximal/optimization/palm.py: PALM"]}
{"id": "C87", "title": "Special cases and equivalent formulations of the solvers agree", "statement": "Solvers that coincide on paper coincide in the code, for arbitrary operators (not only convex ones, also ones that raise): gfirst=True is gfirst=False with the two operators exchanged (DouglasRachfordSplitting, HQS, ADMM), and for PrimalDual a shift of the dual iterates; LinearizedADMM and ADMML2 with the identity are ADMM; PrimalDual with the identity, theta = 1 and mu = 1/tau is DouglasRachfordSplitting started at x0 - tau y0; AdaptivePrimalDual with alpha = 0 and A x0 = 0 is PrimalDual; TwIST with alpha = beta = 1 is ProximalGradient on the least-squares term; GeneralizedProximalGradient with one smooth and one other function is ProximalGradient, and without smooth functions it is PPXA; PPXA with step tau/m is ConsensusADMM with step tau; ConsensusADMM on one function is ProximalPoint; AndersonProximalGradient with a history of one is ProximalGradient; iPALM without inertia is PALM. It is false for LinearizedADMM with a z0 other than x0, for the accelerated GeneralizedProximalGradient, and for AdaptivePrimalDual when A x0 is not 0.", "quantifier": "All operators, linear operators, starting vectors, step sizes, relaxation parameters, tolerances and numbers of iterations (for the reductions to ProximalPoint and PPXA: up to the iteration where the tolerance stops the run).", "why_tests_cant": "Equality of two solvers concerns every operator and every number of iterations; a test compares final vectors on one convex problem, up to a tolerance.", "anchors": ["pyproximal/optimization/primal.py: ProximalPoint, ProximalGradient, AndersonProximalGradient, GeneralizedProximalGradient, HQS, ADMM, ADMML2, LinearizedADMM, TwIST, DouglasRachfordSplitting, PPXA, ConsensusADMM", "pyproximal/optimization/primaldual.py: PrimalDual, AdaptivePrimalDual", "pyproximal/optimization/palm.py: PALM, iPALM"]}
{"id": "C88", "title": "Results do not depend on the units or on the order of the functions", "statement": "If every function of a problem is replaced by c f(a x + b) (which c * f.precomposition(a, b) computes exactly, for whatever operator f), and the start and the steps are converted accordingly, then ProximalPoint, ProximalGradient with all its options (backtracking, acceleration, relaxation, list of epsg, tolerance), HQS, ADMM, DouglasRachfordSplitting, PPXA, ConsensusADMM, GeneralizedProximalGradient, LinearizedADMM and PrimalDual return the converted result, call back with the converted vectors, stop at the same iteration and raise the same errors. PPXA, ConsensusADMM and GeneralizedProximalGradient give the same result in whatever order the functions are listed. Known deviation, proved: PPXA accepts weights that do not sum to 1, and then the result depends on where the origin is.", "quantifier": "all operators (also ones that raise), all c > 0, a <> 0, b, starting vectors, positive steps, iteration counts, orders, tolerances, any number of functions and every permutation of them", "why_tests_cant": "an identity between two runs for every function, every change of units and every number of iterations", "anchors": ["pyproximal/optimization/primal.py:ProximalPoint", "pyproximal/optimization/primal.py:ProximalGradient", "pyproximal/optimization/primal.py:GeneralizedProximalGradient", "pyproximal/optimization/primal.py:HQS", "pyproximal/optimization/primal.py:ADMM", "pyproximal/optimization/primal.py:LinearizedADMM", "pyproximal/optimization/primal.py:DouglasRachfordSplitting", "pyproximal/optimization/primal.py:PPXA", "pyproximal/optimization/primal.py:ConsensusADMM", "pyproximal/optimization/primaldual.py:PrimalDual", "pyproximal/ProxOperator.py:_PostcompositionOperator", "pyproximal/ProxOperator.py:_PrecompositionOperator"]}
{"id": "C89", "title": "Inexact proximal operators and gradients: errors add up but are not amplified", "statement": "If the prox (or gradient) used by ProximalPoint, ProximalGradient (fixed step, no acceleration), DouglasRachfordSplitting, ADMM, HQS or PrimalDual is only accurate to within e, the run returns after n iterations a point whose distance to the result of an exact run (or of another inexact run, from another start) is at most the distance of the starts plus a constant times n e; when the problem contracts (q < 1, for example strong convexity) it is at most q^n times the distance of the starts plus a constant times e/(1-q). Consequently, whenever the exact solver converges, any accuracy d can be reached: for every large enough niter there is an e such that every operator accurate to e gives a result within d of a solution.", "quantifier": "for every space, convex f and g, operator accurate to within e in any (also adversarial, input-dependent) way, start, step, order of the two operators and number of iterations", "why_tests_cant": "a test compares one inner tolerance with one reference; the bound is over all error patterns an inner solver can produce and all iteration counts", "anchors": ["pyproximal/optimization/primal.py: ProximalPoint, ProximalGradient, DouglasRachfordSplitting, HQS, ADMM", "pyproximal/optimization/primaldual.py: PrimalDual", "pyproximal/proximal/L2.py: L2.prox (niter)"]}
{"id": "C90", "title": "Linear convergence on strongly convex problems, with the rate", "statement": "When the problem is strongly convex the solvers converge geometrically and the factor is known in advance: ProximalPoint contracts the distance to the solution by 1/(1+tau s) per iteration; ProximalGradient (fixed step, no acceleration) by |1-eta| + eta max(|1-tau sf|,|1-tau L|)/(1+eps tau sg); DouglasRachfordSplitting and ADMM, when one of the two functions is s-strongly convex with L-Lipschitz gradient, by a factor built on max((1-tau s)/(1+tau s),(tau L-1)/(tau L+1)); HQS by 1/((1+tau sf)(1+tau sg)) towards the minimiser of its penalised problem; PrimalDual by 1/(1+min(sf tau, sg mu)/(1+sqrt kappa)). The number of iterations for a wanted accuracy follows. The best steps are 2/(s+L) for the gradient step and 1/sqrt(sL) for the splitting, and the ProximalPoint and ProximalGradient factors are attained.", "quantifier": "for every inner product space (no dimension bound), functions with the stated moduli, admissible step, relaxation, order of the two operators, start and number of iterations", "why_tests_cant": "a test sees some iterates of some problem; the rate is a bound for all problems of a class, all starts and all iteration counts", "anchors": ["pyproximal/optimization/primal.py: ProximalPoint, ProximalGradient, DouglasRachfordSplitting, HQS, ADMM", "pyproximal/optimization/primaldual.py: PrimalDual"]}
{"id": "C91", "title": "How far step sizes and relaxation may go", "statement": "PrimalDual and LinearizedADMM converge at the very limit of the admissible steps, which the tutorials use: tau mu |A|^2 = 1 and mu |A|^2 = tau; in particular denoising with L2 and L1 or L21 of any operator, mu = 1/(tau Lm) or mu = tau/Lm for any bound Lm on the largest eigenvalue of A^T A, converges to the only minimiser. Beyond, convergence can fail: from tau mu |A|^2 = 4/3 (PrimalDual), mu |A|^2 = 4/3 tau (LinearizedADMM), tau = 2/L (ProximalGradient) on, and at eta = 2 for DouglasRachfordSplitting and PPXA, which the documentation (eta between 0 and 2, 0 excluded) does not exclude.", "quantifier": "every tau > 0, bound Lm, start, order, size and operator for the convergence; every step at or beyond the stated thresholds for the failures", "why_tests_cant": "a test runs one problem with one step size; neither convergence for every problem at the limit nor the first step size that fails can be read off runs", "anchors": ["pyproximal/optimization/primaldual.py: PrimalDual", "pyproximal/optimization/primal.py: LinearizedADMM, DouglasRachfordSplitting, PPXA, ProximalGradient", "tutorials/denoising.py"]}
{"id": "C92", "title": "Sparse recovery and bounded least squares, end to end", "statement": "Basis pursuit solved with AffineSet and L1 objects by ADMM or Douglas-Rachford converges to a solution of min sum|x_i| s.t. A x = b, and the x of ADMM satisfies A x = b exactly after every iteration. It recovers every vector supported on S exactly if and only if A has the null space property on S, and solutions are characterised by a dual certificate. With noise, L1 and EuclideanBall objects in PrimalDual or LinearizedADMM converge to a solution of min sum|x_i| s.t. |A x - b| <= r, whose distance to any feasible vector is bounded by its part outside S and the noise level. ProximalGradient with L2 and Box objects stays within the bounds, converges to a bounded least-squares solution at the stated rates, and solutions are characterised by signs of the residual correlation.", "quantifier": "every linear operator, data, size, start, admissible step, order, support set and noise level", "why_tests_cant": "a test recovers one sparse vector with one matrix; the recovery condition is about all vectors supported on S and all null vectors of A", "anchors": ["tutorials/basispursuit.py", "tutorials/constrained.py", "pyproximal/proximal/AffineSet.py:AffineSet", "pyproximal/proximal/L1.py:L1", "pyproximal/proximal/Euclidean.py:EuclideanBall", "pyproximal/proximal/Box.py:Box", "pyproximal/optimization/primal.py:ADMM", "pyproximal/optimization/primal.py:ProximalGradient", "pyproximal/optimization/primaldual.py:PrimalDual"]}
{"id": "C93", "title": "Bregman iterations solve the equality-constrained problem, whatever the weight", "statement": "With an L2(Op=B, b=b) data term and a convex regulariser g(A .), Bregman(proxf, proxg, x0, solver, alpha) with an inner solver that returns a minimiser whenever there is one: iteration j + 1 solves the plain penalised problem for the data with all earlier residuals added back; an iterate that fits the data exactly solves: minimise g(A x) subject to B x = b; for a solution with multiplier v the residual after j iterations is at most (alpha / sigma) |v| / sqrt j and the value of g is within 2 |v| times the residual of the optimal one; with closed g and bounded level sets the returned vectors approach the solutions of the constrained problem as niterouter grows, and converge if the solution is unique. With L1 as regulariser they approach the basis pursuit solutions, and converge to the sparse vector that produced the data under the null space property, for every alpha > 0.", "quantifier": "every linear operator B, data b, weights sigma, alpha, lambda > 0, regulariser, start, warm flag, tolerances, niterouter and inner solver", "why_tests_cant": "a test runs a few iterations on one problem and cannot show a rate for every iteration count, nor that the limit does not depend on alpha", "anchors": ["pyproximal/optimization/bregman.py:Bregman", "pyproximal/proximal/L2.py:L2", "pyproximal/proximal/L1.py:L1", "pyproximal/ProxOperator.py:_SumOperator"]}
{"id": "C94", "title": "Non-convex penalties: the solvers descend and their limit points are stationary", "statement": "With a smooth data term and any closed penalty g, convex or not, whose prox(x, tau) returns a global minimiser of g + |.-x|^2/(2 tau) (Log, ETP, Geman, SCAD, QuadraticEnvelopeCard, RelaxedMumfordShah, L0, L0Ball and the like): ProximalGradient with tau < 1/L, ADMM and DouglasRachford with tau < 1/(2L) and HQS decrease their objective or merit function at every iteration, their steps vanish, and every limit point of the iterates is stationary; PALM with both gammas above 1 does so in each block. With tau above 1/L ProximalGradient can oscillate for ever, although tau < 2/L is enough when g is convex.", "quantifier": "every smooth function, every closed penalty with exact prox (convex or not), every step in the stated range, every starting point and every number of iterations; the listed library penalties for every parameter their constructor accepts", "why_tests_cant": "a run on a non-convex problem only shows where one trajectory went: that no trajectory can increase the objective, keep moving for ever or accumulate at a non-stationary point is a statement about all of them and about infinitely many iterations", "anchors": ["pyproximal/optimization/primal.py:ProximalGradient", "pyproximal/optimization/primal.py:ADMM", "pyproximal/optimization/primal.py:HQS", "pyproximal/optimization/primal.py:DouglasRachfordSplitting", "pyproximal/optimization/palm.py:PALM", "pyproximal/proximal/Log.py:Log", "pyproximal/proximal/ETP.py:ETP", "pyproximal/proximal/Geman.py:Geman", "pyproximal/proximal/SCAD.py:SCAD", "pyproximal/proximal/QuadraticEnvelope.py:QuadraticEnvelopeCard", "pyproximal/proximal/RelaxedMS.py:RelaxedMumfordShah", "pyproximal/proximal/L0.py:L0", "pyproximal/proximal/L0.py:L0Ball"]}
{"id": "C95", "title": "What grad returns, and what hasgrad promises, for every operator expression", "statement": "hasgrad of an expression built with + v, - v, s *, precomposition, .H and Orthogonal is that of its leaf (True for L2, Quadratic, Euclidean; False for Orthogonal). grad(x) is the gradient of the expression in which every object without a gradient of its own is replaced by its Moreau envelope (parameter 1); where hasgrad is True and no .H is involved that is the gradient of the function itself. ProximalGradient with such an expression in place of the smooth term solves the problem for the smoothed function, with the usual rate. Known deviations, proved: s * f returns s times the envelope gradient of f, not the envelope gradient of s f; an adjoint keeps hasgrad True although its grad is only that of an envelope; HuberCircular is differentiable but hasgrad is False.", "quantifier": "every expression of any depth over the library's convex operators, every point, every step size up to 1/L and number of iterations", "why_tests_cant": "the expressions are infinitely many and nest to any depth; a finite-difference test at sample points neither covers them nor identifies the function whose gradient is returned", "anchors": ["pyproximal/ProxOperator.py:ProxOperator.grad", "pyproximal/ProxOperator.py:_SumOperator", "pyproximal/ProxOperator.py:_PostcompositionOperator", "pyproximal/ProxOperator.py:_PrecompositionOperator", "pyproximal/ProxOperator.py:_AdjointOperator", "pyproximal/proximal/Orthogonal.py:Orthogonal", "pyproximal/optimization/primal.py:ProximalGradient"]}
{"id": "C96", "title": "Iterative hard thresholding with L2 and L0Ball recovers sparse vectors", "statement": "If the data are b = A x* + e with x* having at most r non-zeros, and the scaled operator sqrt(tau sigma) A has a restricted isometry constant delta below 1/2 at sparsity 3r, ProximalGradient(L2(A, b, sigma), L0Ball(r), tau) started from an r-sparse x0 returns r-sparse iterates with |x_k - x*| <= (2 delta)^k |x0 - x*| + 2 sqrt(tau sigma (1 + delta)) |e| / (1 - 2 delta); without noise it converges to x*, the only r-sparse solution, and finds the exact support after an explicit number of iterations. With any acceleration the same holds at rate (6 delta)^ceil(k/2) if the constant at 4r is below 1/6. With L10Ball, whose prox is not the Euclidean projection, one step at tau = 1/L can increase the misfit and the result stay worse than the start.", "quantifier": "all dimensions, linear operators with the restricted isometry property, data and noise, sparsity levels, sorting permutations, steps, epsg > 0, iteration counts and acceleration modes", "why_tests_cant": "Tests run one random matrix and compare with one known signal; the guarantee is for every sparse signal, every noise vector, every operator satisfying the isometry bound and every tie-breaking of argsort.", "anchors": ["pyproximal/optimization/primal.py:ProximalGradient", "pyproximal/proximal/L0.py:L0Ball", "pyproximal/proximal/L0.py:L10Ball", "pyproximal/projection/L0.py:L0BallProj", "pyproximal/proximal/L2.py:L2", "tutorials/twist.py"]}
{"id": "C97", "title": "Low-rank estimation: completion with Nuclear, Hankel estimation with the rank envelope, and the ball constraints", "statement": "Matrix completion with L2(A, b, sigma=s) and Nuclear(dims, sigma=mu): ProximalGradient (plain or accelerated), DouglasRachford and ADMM return for every niter, and converge to a minimiser of s/2 |A X - b|^2 + lam |X|_nuclear (accelerated: objective gap <= 2 |x0 - Z|^2/(tau (N+1)^2)), whatever decomposition numpy's svd returns; a matrix X solves the problem exactly when G = s A^T(b - A X) has no singular value above lam and <G, X> = lam |X|_nuclear. Hankel estimation with QuadraticEnvelopeRankL2(dims, r0, M) and Hankel(dims): ADMM and DouglasRachford converge from any start to a Hankel matrix that minimises the convex relaxation, and is a nearest Hankel matrix of rank <= r0 to M whenever its rank is <= r0. With NuclearBall or L1Ball as the constraint, the solver does not return a minimiser that lies inside the ball.", "quantifier": "all shapes, linear operators, data, weights, admissible steps, starts, iteration counts, orders, acceleration modes and all singular value decompositions the factorisation may return", "why_tests_cant": "convergence to a global minimiser from every start and for every operator, and optimality against all matrices (all low-rank Hankel matrices), quantify over infinite sets and limits; a test compares a few final iterates with a reference solver", "anchors": ["pyproximal/proximal/Nuclear.py:Nuclear", "pyproximal/proximal/Nuclear.py:NuclearBall", "pyproximal/proximal/L1.py:L1Ball", "pyproximal/proximal/Hankel.py:Hankel", "pyproximal/proximal/QuadraticEnvelope.py:QuadraticEnvelopeRankL2", "pyproximal/optimization/primal.py:ProximalGradient", "pyproximal/optimization/primal.py:ADMM", "pyproximal/optimization/primal.py:DouglasRachford"]}
{"id": "C98", "title": "Image denoising with total variation, end to end", "statement": "On images of any shape with axes of length at least 2, PrimalDual (4 ndim c^2 tau mu <= 1) and LinearizedADMM (4 ndim c^2 mu <= tau) with L21(ndim, sigma=lam), respectively L1(sigma=lam), and the forward-difference gradient scaled by c return for every niter and converge from any start to an image that minimises data term + lam c times the isotropic, respectively anisotropic, total variation, for the data terms L2(b), L1(g=b) and L2(Op, b) with Op not annihilating constants. The limit is characterised by a dual field of pixel norms at most lam. For L2(b) the solution is unique, keeps the mean and the bounds of b, is a non-expansive function of b, and is constant for lam large enough. ProximalGradient on L2(b) with the TV operator, rtol=0 and K inner iterations approaches the same image up to an explicit error of order 1/K; with the default early stop it can stay at a wrong image for every number of outer and inner iterations.", "quantifier": "all image shapes and sizes, data, operators, weights, steps in the stated range, starts, iteration counts and orders of the updates", "why_tests_cant": "the claims are about limits, about all images as competitors and all data and starts; a test compares a finite number of iterations on one image with a stored picture", "anchors": ["pyproximal/proximal/L21.py:L21", "pyproximal/proximal/TV.py:TV", "pyproximal/proximal/L1.py:L1", "pyproximal/proximal/L2.py:L2", "pyproximal/optimization/primaldual.py:PrimalDual", "pyproximal/optimization/primal.py:LinearizedADMM", "pyproximal/optimization/primal.py:ProximalGradient", "tutorials/denoising.py"]}
{"id": "C99", "title": "Non-negative matrix factorisation with PALM, end to end", "statement": "PALM with fixed steps on LowRankFactorizedMatrix (no linear operator, stored y equal to y0) never divides by zero and returns for every niter in two situations: (1) non-negative data, Box objects with lower bound 0, non-zero starts in the boxes and gammaf, gammag > 1: the iterates stay in the boxes and non-zero; (2) any non-negative f and g with correct proximal operators, gammas at least 1, and a start better than the zero product: the product never gets smaller than an explicit bound. The objective decreases by an explicit multiple of the squared moves, and limit points (in the first case those with two non-zero factors) are pairs where neither factor can be improved alone, which for boxes is equivalent to an entrywise sign condition on the derivatives. With bounded level sets the iterates approach the set of such pairs and the smallest move among N iterations is of order 1/N. Such a pair need not be a best factorisation. With negative data, with gamma = 1, or with iPALM and the parameters of the tutorial, ZeroDivisionError can be raised.", "quantifier": "all sizes and ranks, data, bounds, penalties, starts, step factors in the stated range and iteration counts", "why_tests_cant": "that no iteration ever divides by zero and what all limit points satisfy concerns unboundedly many iterations and all data and starts; a test runs one factorisation and plots its error", "anchors": ["pyproximal/optimization/palm.py:PALM", "pyproximal/optimization/palm.py:iPALM", "pyproximal/utils/bilinear.py:LowRankFactorizedMatrix", "pyproximal/proximal/Box.py:Box", "tutorials/matrixfactorization.py"]}
{"id": "C100", "title": "Call-indexed parameters inside the solvers", "statement": "L1, L0 and L0Ball accept a function of the number of prox calls as parameter. In HQS, ADMM, DouglasRachfordSplitting and ProximalGradient with a fixed step such an operator is called exactly once per iteration: iteration k = 0, 1, ... of a run started with the counter at c uses the parameter of index c + k + 1, and the counter ends at c + the number of iterations; operators that do not count behave exactly as in the other properties. If the k-th call is an exact proximal point up to an error whose sum is finite (for L1: step times the distance of sigma(k) to a limit weight), the iterates of the four solvers still converge to a minimiser of the limit problem; in particular the LASSO with a settling weight is solved. For the deblending tutorial (HQS with AffineSet and Orthogonal around L0 with summable thresholds) every iterate fits the data exactly, the iterates converge, and the limit is no further from the first iterate than a multiple of the sum of the thresholds. The counter is never reset, so running a solver twice with the same object can return different vectors; with backtracking the counter advances by the number of trial steps, not of iterations; and as second operator of PrimalDual an L1 object without offset ignores its schedule.", "quantifier": "all operators, schedules, counter states, starts, steps and orders in the stated ranges, all iteration counts and sizes", "why_tests_cant": "which parameter each of unboundedly many iterations uses, and where the iterates go when the parameter settles, concern infinite runs and all schedules; a test runs one schedule for a few iterations and looks at the misfit", "anchors": ["pyproximal/proximal/L1.py:L1", "pyproximal/proximal/L0.py:L0", "pyproximal/proximal/L0.py:L0Ball", "pyproximal/proximal/Orthogonal.py:Orthogonal", "pyproximal/optimization/primal.py:ProximalGradient", "pyproximal/optimization/primal.py:HQS", "pyproximal/optimization/primal.py:ADMM", "pyproximal/optimization/primal.py:DouglasRachfordSplitting", "pyproximal/optimization/primaldual.py:PrimalDual", "tutorials/deblending.py"]}
{"id": "C101", "title": "Plug-and-play with denoisers that are not proximal operators", "statement": "PlugAndPlay accepts any denoising function, usually not the proximal map of a regulariser, so no objective is being minimised. If the denoiser is firmly non-expansive at the parameter it is called with (a symmetric filter, the mean of the identity and a non-expansive map, a proximal map, ...), the data term is convex with an exact prox and the equations x = prox_(tau f)(x - u), x = D(x + u) have a solution, then plug-and-play with ADMM (either order), DouglasRachfordSplitting (0 < eta < 2), HQS and ProximalGradient (fixed step below the usual bound) converges to a solution of these equations (for HQS x = prox_(tau f)(z), z = D(x); for ProximalGradient x = D(x - tau grad f(x)), which has the same x). When the denoiser is a proximal map the limit minimises f + g. A solution exists when tau <= 2/L and the output of the denoiser is bounded; so on L2 with tau = 1/L, as in the tutorial, both ProximalGradient without acceleration and ADMM converge to solutions of the same equation. For a strongly convex data term a denoiser whose residual is a small enough Lipschitz map, or for HQS and ProximalGradient one that is Lipschitz with a constant not too large, gives a unique limit and geometric convergence. Non-expansive denoisers alone are not enough: the iterates can oscillate for ever.", "quantifier": "all denoisers with the stated Lipschitz or firmness property, all convex data terms, starts, orders, steps and relaxations in the stated ranges, all iteration counts and sizes", "why_tests_cant": "the property ranges over all denoising functions and concerns the limit of infinite runs; a test plugs in one denoiser and looks at an error curve over a few iterations, which cannot tell convergence from slow drift or oscillation", "anchors": ["pyproximal/optimization/pnp.py:PlugAndPlay", "pyproximal/optimization/pnp.py:_Denoise", "pyproximal/optimization/primal.py:ADMM", "pyproximal/optimization/primal.py:ProximalGradient", "pyproximal/optimization/primal.py:HQS", "pyproximal/optimization/primal.py:DouglasRachfordSplitting", "tutorials/plugandplay.py"]}
{"id": "C102", "title": "Problems without a solution: incompatible constraints and runs that go to infinity", "statement": "With two convex sets that do not meet, ADMM, HQS and DouglasRachfordSplitting still never raise: the x and z of ADMM and HQS converge to a pair of points of the two sets at the least distance from each other, the x of DouglasRachfordSplitting converges to a member of such a pair while its y moves by the gap in every iteration (and stays bounded exactly when the sets meet); PPXA and ConsensusADMM on any number of incompatible sets converge to a point with the least weighted sum of squared distances. For general convex functions ProximalPoint, ProximalGradient, DouglasRachfordSplitting and HQS either converge to a solution or there is none and the norms of the iterates tend to infinity. Hence iterates that settle down do not show that the constraints can be satisfied.", "quantifier": "all finite-dimensional spaces, all convex sets with projections / convex functions with proximal maps, all starts, all tau > 0, all relaxations in (0, 2) or (0, 2 - tau L/2), either order, all admissible weights, all numbers of iterations and tolerances", "why_tests_cant": "A statement about the limit of infinitely many iterations on problems with no solution at all; a finite run on an incompatible problem looks like one that converges slowly.", "anchors": ["pyproximal/optimization/primal.py:DouglasRachfordSplitting", "pyproximal/optimization/primal.py:ADMM", "pyproximal/optimization/primal.py:HQS", "pyproximal/optimization/primal.py:PPXA", "pyproximal/optimization/primal.py:ConsensusADMM", "pyproximal/optimization/primal.py:ProximalPoint", "pyproximal/optimization/primal.py:ProximalGradient", "pyproximal/proximal/Box.py:Box", "pyproximal/proximal/AffineSet.py:AffineSet", "pyproximal/proximal/Euclidean.py:EuclideanBall"]}
{"id": "C103", "title": "How the regularisation weight and the data act on the result of ProximalGradient", "statement": "The limits ProximalGradient can have, over all starts and admissible steps, are exactly the minimisers of f + eps g. A larger weight never gives a smaller data term f nor a larger penalty g, and the optimal value is concave in the weight. A limit also solves the constrained problems: least f among vectors with no larger penalty, and least g among vectors with no larger data term. With L2 data terms the fit A l moves no more than the data b, and all limits for the same data and weight share fit and penalty, although the limit itself can depend on the start. For weights tending to 0 the limits approach the minimisers of f with the least penalty, for weights tending to infinity the minimisers of g with the least data term; with noisy data b_k at distance d_k -> 0 from exact data and weights with d_k^2/eps_k -> 0 they approach the exact solutions with the least penalty. For L2 and L1 objects limits exist for every weight, tend to the least squares solutions with the least l1 norm, and are zero from an explicit weight on.", "quantifier": "every inner product space, every convex differentiable f with Lipschitz gradient and every convex g with the corresponding operators, every linear operator, data, weight, start, step and relaxation, and every sequence of weights and of noisy data", "why_tests_cant": "the statements compare whole families of infinite runs (all weights, all data, sequences of weights); a test sees finitely many truncated runs", "anchors": ["pyproximal/optimization/primal.py:ProximalGradient", "pyproximal/proximal/L2.py:L2", "pyproximal/proximal/L1.py:L1"]}
{"id": "C104", "title": "PrimalDual, LinearizedADMM and ADMM without assuming a solution, with denoisers and with changing operators", "statement": "On convex problems with exact prox maps and steps inside the stated bound, PrimalDual, LinearizedADMM and ADMM never raise, and the vectors returned with niter = 0, 1, 2, ... have exactly two behaviours: they converge to a solution together with a multiplier, or no multiplier exists and the pair of primal and dual vectors is unbounded (its norm tends to infinity). The same alternative holds with a firmly non-expansive denoiser in the place of g, with balanced pairs as the limits, and for operators that only have a prox and inherit proxdual. When the operators change from call to call with errors whose sum is finite and a multiplier exists, the limits are still solutions; in particular L1 with a callable sigma and an offset is a valid schedule for PrimalDual. A minimiser alone is not enough: for two touching balls and a linear term the dual vectors of PrimalDual diverge for every start and all steps.", "quantifier": "every pair of finite-dimensional inner product spaces, every linear operator between them, all convex functions with the corresponding operators, every firmly non-expansive denoiser, every start, order of the updates and admissible step sizes, every sequence of operator errors with a finite sum", "why_tests_cant": "convergence or divergence of infinite runs for all problems, solvable or not, cannot be decided from finitely many iterations", "anchors": ["pyproximal/optimization/primaldual.py:PrimalDual", "pyproximal/optimization/primal.py:LinearizedADMM", "pyproximal/optimization/primal.py:ADMM", "pyproximal/optimization/pnp.py:_Denoise", "pyproximal/ProxOperator.py:ProxOperator.proxdual", "pyproximal/proximal/L1.py:L1.proxdual"]}
{"id": "C105", "title": "The size of the last change: never increasing, at most of order one over the square root of the number of iterations, and a bound for the error", "statement": "For convex functions with exact prox the solvers ProximalPoint, ProximalGradient (fixed step, relaxed or not), ADMM, DouglasRachfordSplitting, PrimalDual and LinearizedADMM satisfy: the change made by an iteration, measured in the distance that belongs to the solver, never increases from one iteration to the next; n + 1 times its square is at most a fixed multiple of the squared distance of the start from any solution (for ADMM and LinearizedADMM this holds for the primal and the dual residual of the last iterate); and the change bounds the error of the last iterate with respect to every point of the domain (for PrimalDual the gap of the Lagrangian). The first two hold for plug-and-play with firmly non-expansive denoisers too. A small change alone says nothing about the distance from a solution, and the bound on the error is attained.", "quantifier": "All convex functions, operators with exact prox, starts, admissible steps, relaxations, orders and numbers of iterations; all firmly non-expansive denoisers.", "why_tests_cant": "A test compares the last iterate with one known solution at one accuracy; it cannot show that looking at the last change is a valid way of deciding when to stop, for every problem and at every iteration.", "anchors": ["pyproximal/optimization/primal.py:ProximalPoint", "pyproximal/optimization/primal.py:ProximalGradient", "pyproximal/optimization/primal.py:ADMM", "pyproximal/optimization/primal.py:LinearizedADMM", "pyproximal/optimization/primal.py:DouglasRachfordSplitting", "pyproximal/optimization/primaldual.py:PrimalDual", "pyproximal/optimization/pnp.py:PlugAndPlay"]}
{"id": "C106", "title": "Stopping by tolerance: which iterate is returned, how accurate it is, and when the run ends", "statement": "With a tolerance 0 < tol <= 1 and a convex objective F that is positive on its domain, ProximalPoint and ProximalGradient (fixed step with tau L < 2, no acceleration) return an iterate of the run without tolerance: that of the first iteration, from the second on, whose relative change of F is below tol, or of the last one if there is none. If the run ended by the tolerance at iteration m, F(x_m) exceeds F(xo) at a minimiser by at most sqrt(tol F(x_1)/tau) |x0 - xo| (divided by sqrt(1 - tau L/2) for ProximalGradient), and the like against every other point. If F >= c > 0, at least two iterations having been made, c <= (1 - tol)^(m-2) F(x_1), so the run does end by the tolerance and larger niter do not change the result. When the infimum of F is 0 this is false: on s/2 |x|^2 a tolerance up to 1 - 1/(1 + tau s)^2 never ends the run. And the criterion depends on constants: adding a large enough constant to the value returned by the operator makes the run end after two iterations whatever the problem.", "quantifier": "all real inner product spaces, operators with exact prox (and gradient, call), starts, steps, tolerances in (0, 1], niter", "why_tests_cant": "the accuracy bound, the bound on the number of iterations and the absence of any stop hold over all convex functions, all tolerances and all niter; a test sees one run", "anchors": ["pyproximal/optimization/primal.py:ProximalPoint", "pyproximal/optimization/primal.py:ProximalGradient"]}
{"id": "C107", "title": "Runs with a tolerance end, and how long they can be", "statement": "PPXA (common start x0, convex functions, exact prox, positive weights w_i summing to one, tau > 0, 0 < eta < 2) with a tolerance tol > 0 makes at most k iterations with (k-1) tol^2 <= eta/(2-eta) (|x0-xo|^2 + tau^2 sum |v_i|^2/w_i), where xo is any solution with multipliers v_i; ConsensusADMM at most k with (k-1) tol^2 <= |x0-xo|^2 + tau^2/m sum |v_i|^2; for both, from some niter on the result no longer depends on niter. Bregman with an exact inner solver, g bounded below by b and a point u with f(u) < tolf makes at most k outer iterations with (k-1)(tolf - f(u)) <= alpha (g(Au) - b). AdaptivePrimalDual with tol > 0, under the hypotheses of its convergence theorem, gives the same result for every large enough maxiter. Without a solution this fails: for one linear function PPXA and ConsensusADMM make every iteration allowed, for tolerances up to the step.", "quantifier": "all inner product spaces, lists of proximal objects, weights, starts, steps, relaxations, tolerances, measures of the change bounded by the norm, solutions with multipliers and iteration limits", "why_tests_cant": "a test sees finitely many runs; the bound holds for every problem, start and limit, and the independence of the limit speaks about all limits at once", "anchors": ["pyproximal/optimization/primal.py:PPXA", "pyproximal/optimization/primal.py:ConsensusADMM", "pyproximal/optimization/bregman.py:Bregman", "pyproximal/optimization/primaldual.py:AdaptivePrimalDual"]}
{"id": "C108", "title": "ProximalGradient with L1 or Box finds the zeros and the active bounds exactly, after finitely many iterations", "statement": "ProximalGradient with a smooth convex f (Lipschitz constant L of the gradient), step 0 < tau <= 2/L, no relaxation or acceleration. With g = L1(sigma=lam) and epsg = e: for every solution xo and d > 0, at most |x0-xo|^2/(tau d)^2 iterations return a vector with a non-zero entry where |grad f(xo)_i| <= e lam - d, however many iterations are made; from some iteration on every entry with |grad f(xo)_i| < e lam is exactly 0, as in xo. For f = L2(Op=A, b, sigma=s) this is the LASSO with the condition |s A^T(b - A xo)|_i < e lam. With g = Box(lower, upper) the same holds for the entries where xo is at a bound and the gradient points outwards by at least d: they take exactly the value of the bound. The strict inequality is needed: for 1/2 (x-1)^2 + |x| with tau = 1/2 the iterates are (1/2)^k, never 0 although the solution is 0.", "quantifier": "all sizes, smooth convex functions and L2 objects, weights, boxes with any optional bounds, starts, steps up to 2/L, solutions, margins d, numbers of iterations and ways of marking iterations", "why_tests_cant": "the bound counts over runs of every length and every problem; a test on one problem cannot tell exact zeros forever from zeros so far", "anchors": ["pyproximal/optimization/primal.py:ProximalGradient", "pyproximal/proximal/L1.py:L1", "pyproximal/proximal/Box.py:Box", "pyproximal/proximal/L2.py:L2"]}
{"id": "C109", "title": "What every exact prox does to its argument, convex or not: monotone, larger steps move farther, signs and order kept, no entry enlarged", "statement": "For any function g, convex or not, and any operator whose prox is a minimizer of t g + 1/2|.-x|^2: <prox(x,t) - prox(y,t), x - y> >= 0; with steps s < t, prox(x,t) is at least as far from x as prox(x,s) and has no larger g; for x in the domain g(prox) + |prox - x|^2/(2 step) <= g(x). If g does not increase when an entry gets smaller in absolute value or changes sign, prox keeps the sign of every entry and enlarges none; if g also does not depend on the order of the entries, prox keeps their order and the order of their absolute values. Log, ETP, Geman, SCAD (t <= a-1), QuadraticEnvelopeCard (t <= 1), RelaxedMumfordShah, L0 and L0Ball have all these properties for every vector and t > 0. Unlike for convex functions the prox does not have to be Lipschitz: for L0 and every K there are x, y with |prox(x)-prox(y)| > K|x-y|.", "quantifier": "every inner product space, function, operator with exact prox, pair of arguments and pair of steps; for the penalties every size, vector, parameter accepted by the constructor and t > 0", "why_tests_cant": "the inequalities hold for every pair of arguments and steps, including those at the thresholds where the prox jumps and several minimizers exist; a test evaluates a few vectors", "anchors": ["pyproximal/ProxOperator.py:ProxOperator.prox", "pyproximal/proximal/L0.py:L0.prox", "pyproximal/proximal/L0.py:L0Ball.prox", "pyproximal/proximal/Log.py:Log.prox", "pyproximal/proximal/ETP.py:ETP.prox", "pyproximal/proximal/Geman.py:Geman.prox", "pyproximal/proximal/SCAD.py:SCAD.prox", "pyproximal/proximal/QuadraticEnvelope.py:QuadraticEnvelopeCard.prox", "pyproximal/proximal/RelaxedMS.py:RelaxedMumfordShah.prox"]}
{"id": "C110", "title": "ProximalPoint and ProximalGradient reach sharp minima exactly after finitely many iterations, and when several steps are one longer step", "statement": "If the convex f grows at least with slope c > 0 around its minimiser xo (f(y) >= f(xo) + c|y-xo|), ProximalPoint comes nearer to xo by c tau in every iteration until it has reached it: from |x0-xo|/(c tau) iterations on the result is exactly xo. The same holds for ProximalGradient on f + e g with 0 < tau <= 2/L without relaxation and acceleration; in particular with L2(Op=A, b, sigma=s) and L1(sigma=lam) the result is exactly the zero vector from |x0|/(c tau) iterations on if |s A^T b|_i <= e lam - c for every i. For functions whose subgradients stay subgradients after a proximal step - the Euclidean norm, the L1 norm, linear functions, every indicator - prox(prox(x,s),t) = prox(x,s+t) and k iterations of ProximalPoint return prox(x0, k tau). So with L1(sigma=lam) the entries up to k tau lam are exactly 0 and the others moved by exactly k tau lam, and with Euclidean(sigma) x0 is shortened by exactly k tau sigma, to exactly 0 once that is at least |x0|. It is not true of every convex function: for L2 two steps differ from one step of twice the size.", "quantifier": "every inner product space, exact prox of a convex function, start, step and number of iterations; for L1 every size, weight and vector; for Euclidean every weight and start", "why_tests_cant": "the exact end of the run after a computable number of iterations, and the identity between k steps and one step, are claims about every start, step and k; a test runs a few", "anchors": ["pyproximal/optimization/primal.py:ProximalPoint,ProximalGradient", "pyproximal/proximal/L1.py:L1.prox", "pyproximal/proximal/Euclidean.py:Euclidean.prox", "pyproximal/proximal/L2.py:L2.prox", "pyproximal/proximal/Box.py:Box.prox"]}
{"id": "C111", "title": "Linear convergence without strong convexity: quadratic growth and least squares with a null space", "statement": "If every point of the domain has a nearest minimiser z and the convex objective is at least its minimum plus mu/2 |y-z|^2, with any number of minimisers, then after k iterations of ProximalPoint some minimiser z has (1 + tau mu/2)^k |x-z| <= |x0-z0| for every minimiser z0; after k iterations of ProximalGradient with 0 < tau <= 1/L, without relaxation and acceleration, (1 + tau mu)^k |x-z|^2 <= |x0-z0|^2 and the objective is within |x0-z0|^2/(2 tau (1+tau mu)^(k-1)) of its minimum. s/2|Ax-b|^2 has this growth with mu = s m when the squares of the non-zero singular values of A are at least m > 0 and a solution exists, whatever the null space of A, so ProximalPoint with L2(Op=A, b, sigma=s) approaches the set of least squares solutions by the factor 1 + tau s m/2 per iteration. Restarting ProximalGradient with acceleration every N iterations from its last result, with 8 <= tau mu (N+1)^2, at least halves the distance of the objective from its minimum in every run. Gradient descent for least squares (ProximalGradient with L2 and a Box without bounds, 0 < tau <= 1/L) approaches the set of solutions with (1 + tau s m)^k |x-z|^2 <= |x0-z0|^2.", "quantifier": "every inner product space, exact prox of a convex function with this growth, start, step and number of iterations; every operator A, data, weight for least squares", "why_tests_cant": "a bound for every number of iterations, start and step, for problems with infinitely many solutions; a test compares a final iterate with one of them", "anchors": ["pyproximal/optimization/primal.py:ProximalPoint,ProximalGradient", "pyproximal/proximal/L2.py:L2.prox"]}
