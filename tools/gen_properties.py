#!/usr/bin/env python3
"""Writes properties.jsonl.  Kept in the tree so that the list is easy to review and extend."""
import json, os
B = "bayesian_sde_solver/"
P = []
def prop(title, statement, quantifier, why, *anchors):
    P.append(dict(id=f"C{len(P)+1:02d}", title=title, statement=statement, quantifier=quantifier,
                  why_tests_cant=why, anchors=[{"file": f, "symbols": s} for f, s in anchors]))

# ---------------------------------------------------------------- layout
prop("interlace layout is exact and invertible",
     "interlace((a_0,...,a_{n-1})) of n arrays of common length d has length n*d, its entry k*n+i is a_i[k], and the strided slice [i::n] of the result is a_i again; arrays of different lengths are rejected, never silently truncated.",
     "every number of arrays n, every length d, every content", "layout must be right for every (n,d); a test fixes one shape",
     (B+"ode_solvers/probnum/_utils.py", ["interlace"]))
prop("interlace_matrix is the covariance of the interlaced vector",
     "interlace_matrix(v,w,x,y) is the 2d x 2d matrix whose strided blocks [::2,::2],[::2,1::2],[1::2,::2],[1::2,1::2] are v,w,x,y (every cell written, none left from the block layout); it is the same permutation of rows and columns that interlace applies, so outer products of interlaced vectors are interlaced outer products, and symmetric / positive semi-definite joint covariances stay so.",
     "every d and all four blocks", "a permutation error can be invisible on symmetric or low dimensional examples",
     (B+"ode_solvers/probnum/_utils.py", ["interlace_matrix"]))
prop("insert prepends the initial value",
     "insert(x,0,y,axis=0) returns y followed by x, one element longer; on a tuple of arrays it does that to every component with the matching component of y, so (sample, mean, variance) trajectories stay aligned.",
     "every trajectory length (including 0), every tuple width", "alignment must hold for every length and arity",
     (B+"utils/insert.py", ["insert"]))
prop("dim-replicated priors act coordinate by coordinate",
     "A prior built for dim coordinates (kron with the identity) applied to an interlaced state applies the one-coordinate transition to each coordinate's own block of states and mixes no two coordinates; its covariance has zero blocks between different coordinates.",
     "every dim, every number of states per coordinate, every one-coordinate transition", "wrong kron order agrees with the right one when dim=1 or when the block is scalar",
     (B+"ode_solvers/probnum/IOUP.py", ["transition_function"]), (B+"ode_solvers/probnum/matern.py", ["transition_function"]))
# ---------------------------------------------------------------- parabola
prop("the parabola path has the prescribed end points, slope and area",
     "eval_parabola(t,dt,a,b) is 0 at t=0 and a at t=dt; its time derivative at t (the one the solver feeds to the ODE) is (a + sqrt(6) b (1-2t/dt))/dt; its integral over [0,dt] is dt (a/2 + b/sqrt(6)).",
     "all dt != 0, all t, all coefficients", "identities over all reals",
     (B+"foster_polynomial.py", ["get_approx", "eval_parabola"]))
prop("the sampled parabola has the Brownian second moments",
     "With independent standard normal draws, the coefficients returned by parabolas(key,dt) are centred, uncorrelated, with variances dt and dt/2 per coordinate, hence increment and area of the path have exactly the Brownian covariances Var W=dt, Cov(W,int W)=dt^2/2, Var(int W)=dt^3/3.",
     "all dt >= 0, all dimensions, every expectation operator with the moments of independent standard normals", "a Monte-Carlo test sees two decimals only",
     (B+"foster_polynomial.py", ["get_approx", "parabolas"]))
prop("the coarse parabola of get_approx_fine matches the fine path",
     "The coefficients (a,b) returned by get_approx_fine describe the parabola over [0,dt] that has exactly the same increment and the same time integral as the piecewise parabola path made of the N fine pieces.",
     "every N >= 1, every dt != 0, every sequence of fine draws", "exact aggregation identity for unbounded N",
     (B+"foster_polynomial.py", ["get_approx_fine", "update_eps"]))
prop("aggregated coefficients keep the parabola law",
     "The (a,b) returned by get_approx_fine are centred and uncorrelated with variances dt and dt/2, whatever the number N of fine pieces.",
     "every N >= 1, all dt > 0, every i.i.d. expectation operator with standard normal moments", "statistical tests fix one N and few digits",
     (B+"foster_polynomial.py", ["get_approx_fine"]))
prop("get_approx_and_brownian summarises its own Brownian path",
     "Expected: eps_0 is the end point of the path built from the returned increments and eps_1 is sqrt(6) (area/dt - eps_0/2) for the trapezoidal area of that path (over its N+1 points, starting at 0). Verdict: eps_0 is right; eps_1 is not, because the quadrature reads path indices 1..N of an array with indices 0..N-1 (the last read is out of bounds and clamped) and uses N-1 intervals; the exact defect is characterised.",
     "every N >= 1, every dt, every increment sequence", "the error is O(1/N) and drowns in Monte-Carlo noise",
     (B+"foster_polynomial.py", ["get_approx_and_brownian"]))
prop("the fine coefficients returned by get_approx_fine can be evaluated",
     "Expected: each returned fine pair (fine_eps_0,fine_eps_1) is a coefficient pair for the library's own eval_parabola on its sub-interval. Verdict: the second coefficient is returned divided by sqrt(6), so re-evaluating it gives a different path unless the coefficient is 0.",
     "every N, dt and draw", "no test evaluates the fine pieces",
     (B+"foster_polynomial.py", ["get_approx_fine"]))
# ---------------------------------------------------------------- ito / stratonovich
prop("Ito/Stratonovich conversions are mutually inverse",
     "to_stratonovich(*to_ito(f,g)) and to_ito(*to_stratonovich(f,g)) return a drift that agrees with f everywhere and the diffusion unchanged.",
     "all drifts and diffusions, all states and times, all state and noise dimensions", "tests check one point of two models",
     (B+"ito_stratonovich.py", ["to_ito", "to_stratonovich"]))
prop("the conversion uses the Kloeden-Platen correction",
     "to_ito adds to component i of the drift 1/2 sum_{j,k} g_{jk} d g_{ik}/d x_j (to_stratonovich subtracts it): zero for state-independent diffusions, g g'/2 in one dimension, x_i/2 for diag(x); it transforms correctly under linear invertible changes of coordinates.",
     "all (differentiable) diffusions, states, times, dimensions", "index order errors vanish on symmetric examples",
     (B+"ito_stratonovich.py", ["drift_correction"]))
# ---------------------------------------------------------------- sde_solver
prop("sde_solver returns aligned grids",
     "sde_solver returns N+1 times k*delta, N+1 states the first of which is x0, and one coefficient record per interval.",
     "every N >= 0, every delta, every integrator", "must hold for every N",
     (B+"sde_solver.py", ["sde_solver"]))
prop("sde_solver solves the parabola ODE on every interval",
     "For every k<N the state at k+1 is what the integrator returns, from the state at k, for the field drift(z,t+k delta)+sigma(z,t+k delta) dW_k/dt(t) on [0,delta], where W_k is the path made from the k-th key's first half and the integrator receives the other half; the coefficients reported for interval k are the ones used there.",
     "every N, every k, every key, every integrator and path approximation", "off-by-one in time shift or key reuse is invisible for autonomous fields",
     (B+"sde_solver.py", ["sde_solver", "body"]))
prop("sde_solver is causal and restartable",
     "States up to k depend only on the first k interval keys; running the first n intervals and restarting from the state reached, with the remaining keys and start time n*delta, gives the rest of the trajectory.",
     "every split point, every key sequence", "history quantification",
     (B+"sde_solver.py", ["sde_solver", "body"]))
prop("pure noise is reproduced exactly by the EKF0 based solver",
     "With zero drift and constant sigma, sde_solver with ekf0 (mean output, integrated Brownian prior) and any number M of filter steps per interval returns exactly x0 + sigma times the accumulated parabola increments, at every grid time; with Euler sub-steps the result is off by sigma sqrt(6) b_k/M per interval.",
     "every N, M >= 1, delta > 0, dimension, constant sigma, draws", "exactness for all step counts",
     (B+"sde_solver.py", ["sde_solver"]), (B+"ode_solvers/ekf0.py", ["solver"]), (B+"ode_solvers/euler.py", ["solver"]))
# ---------------------------------------------------------------- euler
prop("euler is the explicit Euler scheme",
     "euler(init,f,h,N) is the N-th iterate of x -> x + h f(x, k h), k=0..N-1; for linear fields it is (1+h a)^N x0 (matrix power in general), and for fields that depend on time only it is the left Riemann sum.",
     "every N >= 0, h, field, dimension", "every N",
     (B+"ode_solvers/euler.py", ["solver"]))
prop("euler converges with order one",
     "If f is L-Lipschitz in x and the exact solution has second derivative bounded by K on [0,N h], the error after N steps is at most (h K/2)((1+hL)^N-1)/L <= (h K/(2L)) (exp(L N h)-1) in the maximum norm.",
     "all dimensions, Lipschitz fields, step counts and step sizes", "a convergence rate is a statement about all h",
     (B+"ode_solvers/euler.py", ["solver"]))
# ---------------------------------------------------------------- EM
prop("Euler-Maruyama recursion and grid",
     "euler_maruyama(_pathwise) returns N+1 times k h and N+1 states with X_0=init and X_{k+1}=X_k+h drift(X_k,k h)+sigma(X_k,k h) dW_k.",
     "every N, h, drift, sigma, increments", "every N",
     (B+"sde_solvers/euler_maruyama.py", ["solver", "solver_pathwise"]))
prop("the three Euler-Maruyama entry points agree",
     "euler_maruyama(key) equals euler_maruyama_pathwise on the same standard draws with standard=True; standard=True equals standard=False on increments pre-multiplied by sqrt(h); with sigma=0 the last state is the one of the euler ODE solver.",
     "every key, N, h, drift, sigma", "equality for every input",
     (B+"sde_solvers/euler_maruyama.py", ["solver", "solver_pathwise"]), (B+"ode_solvers/euler.py", ["solver"]))
prop("chunked Euler-Maruyama equals the uninterrupted run",
     "Running the pathwise scheme on consecutive chunks of increments, each restarted from the previous last state with time-shifted coefficients, gives the same states as one run over the concatenated increments (the experiments rely on this to save memory).",
     "every number and size of chunks", "history quantification",
     (B+"sde_solvers/euler_maruyama.py", ["solver_pathwise"]), ("scripts/pathwise_convergence_experiment_2_RAM.py", ["sde_solver"]))
prop("Euler-Maruyama of integrated Brownian motion has the closed form",
     "On the ibm problem with given increments the scheme returns V_n = v0 + B_n and U_n = u0 + n h v0 + h sum_{k<n} B_k, B the partial sums.",
     "every N, h, initial state and increments", "every N",
     (B+"sde_solvers/euler_maruyama.py", ["solver_pathwise"]), (B+"utils/ivp.py", ["ibm"]))
prop("moments of Euler-Maruyama on linear problems",
     "For drift M x and constant sigma with independent standard draws the mean after n steps is (I+hM)^n x0 and the centred covariance follows C_{n+1}=(I+hM)C_n(I+hM)^T+h sigma sigma^T; for geometric Brownian motion (a,b) the mean is (1+ah)^n x0 and the second moment ((1+ah)^2+b^2 h)^n x0^2.",
     "every n, h, M, sigma, and every i.i.d. expectation operator with standard normal moments", "Monte-Carlo tests see one decimal",
     (B+"sde_solvers/euler_maruyama.py", ["solver"]), (B+"utils/ivp.py", ["gbm"]))
prop("pathwise increments are not modified",
     "Expected: calling euler_maruyama_pathwise leaves the caller's increments unchanged. Verdict: true for standard=False and for immutable (JAX) arrays; with standard=True and a mutable NumPy buffer the in-place product rescales the caller's array, so a second identical call computes with increments scaled twice.",
     "every buffer kind, every h, flag and content", "requires a two-call history on a mutable buffer",
     (B+"sde_solvers/euler_maruyama.py", ["solver_pathwise"]))
# ---------------------------------------------------------------- 1.5
prop("the 1.5 scheme is right for additive noise",
     "For state-independent sigma with diagonal sigma sigma^T, one step of diag_15_scheme is the Kloeden-Platen order 1.5 Taylor step x+h a+sigma eta+(h^2/2)L0 a+J_a sigma zeta.",
     "every drift, state, h, draw, dimension", "identity over all inputs",
     (B+"sde_solvers/diag_15_scheme.py", ["solver", "body"]))
prop("the 1.5 scheme for multiplicative scalar noise",
     "Expected: in one dimension one step equals the Kloeden-Platen order 1.5 Taylor step. Verdict: false; the last correction lacks the factor eta, the difference from the textbook step is exactly 1/2 s(s s''+s'^2)(eta^2/3-h)(1-eta), and it biases the one-step mean by -h/3 s(s s''+s'^2), an order-h drift error.",
     "every drift, sigma, state, h and draw in one dimension", "existing tests use problems whose diagonal noise is constant or zero",
     (B+"sde_solvers/diag_15_scheme.py", ["solver", "body"]))
prop("the joint noise covariance of the 1.5 scheme is the Brownian one",
     "The covariance used for (zeta,eta) is symmetric positive semi-definite and is the covariance of (int_0^h W, W_h): entries h^3/3, h^2/2, h per coordinate, no cross-coordinate terms.",
     "every h >= 0 and dimension", "all h and dims",
     (B+"sde_solvers/diag_15_scheme.py", ["body"]))
prop("the hypoelliptic scheme draws from a genuine covariance",
     "The covariance matrix handed to multivariate_normal by hypoelliptic_diffusion_15_scheme is symmetric positive semi-definite, equal to the covariance of (int_0^h p.Gamma W, Gamma W_h) with p the gradient of the smooth drift component w.r.t. the rough coordinates.",
     "every x, drift, sigma, h >= 0, dimension >= 1", "all inputs",
     (B+"sde_solvers/hypoelliptic_diffusion__diag_15_scheme.py", ["solver", "body"]))
prop("mean step of the 1.5 schemes",
     "For zero draws both 1.5 schemes step to x+h a+(h^2/2)(J_a a + 1/2 sum (sigma sigma^T)_{jk} d_jk a) (diag scheme: additive noise); on linear drift M x this is the second order Taylor polynomial of exp(hM) x.",
     "every drift, state, h", "identity over all inputs",
     (B+"sde_solvers/hypoelliptic_diffusion__diag_15_scheme.py", ["body"]), (B+"sde_solvers/diag_15_scheme.py", ["body"]))
# ---------------------------------------------------------------- Kalman
prop("square-root and plain prediction agree",
     "predict with lower_sqrt=True on factors returns the same mean and a lower triangular factor of the covariance that predict returns without it.",
     "all sizes, A, xi, factors; every QR implementation with orthogonal Q", "tests use one random 2x2 case",
     (B+"ode_solvers/probnum/ekf.py", ["predict", "tria"]))
prop("square-root and plain update agree",
     "update with lower_sqrt=True on factors returns the same mean and a lower triangular factor of the covariance returned without it, and (return_S) a factor of the same innovation covariance; one is defined exactly when the other is.",
     "all sizes, H, residuals, factors; every QR implementation", "tests use one random 2x2 case",
     (B+"ode_solvers/probnum/ekf.py", ["update", "tria"]))
prop("square-root and plain filters agree over whole runs",
     "ekf run with lower_sqrt=True on factors and without on the corresponding covariances returns the same mean and factor/covariance after any number of steps.",
     "all run lengths, observation functions, models", "unbounded number of steps",
     (B+"ode_solvers/probnum/ekf.py", ["ekf"]))
prop("filter covariances stay covariances",
     "Starting from symmetric positive semi-definite P, Q, R, every covariance produced by predict, update and ekf is symmetric positive semi-definite, and an update never increases it.",
     "all run lengths, sizes and observation functions", "invariant over all executions",
     (B+"ode_solvers/probnum/ekf.py", ["predict", "update", "ekf"]))
prop("the update is the optimal linear correction",
     "The gain used by update minimises the posterior error covariance over all gains, and the posterior equals Gaussian conditioning: residual and posterior error are uncorrelated.",
     "all gains, sizes, models", "minimum over all gains",
     (B+"ode_solvers/probnum/ekf.py", ["update"]))
prop("noise-free updates reproduce the observed quantity",
     "With zero observation noise and regular innovation covariance the posterior satisfies the linearised observation exactly, with zero remaining variance; for the EKF0 the derivative state afterwards is exactly vector_field at the predicted mean.",
     "all states, fields, times", "identity over all inputs",
     (B+"ode_solvers/probnum/ekf.py", ["update"]), (B+"ode_solvers/ekf.py", ["_solver"]))
prop("EKF0 and EKF1 linearise as documented",
     "The Jacobian used by EKF0 ignores the vector field (it is the selector of the derivative state); the one used by EKF1 is that selector minus J_f applied to the selector of the position state; residuals coincide.",
     "all fields, states, times, dims, number of states", "all inputs",
     (B+"ode_solvers/ekf.py", ["_solver", "observation_function"]))
prop("EKF0 with integrated Brownian prior is a predictor-corrector scheme",
     "ekf0 (mean output, one derivative, no noise) returns after N steps the iterate of p=x+h v, v'=f(p,t+h), x'=x+h(v+v')/2 started at v=f(x,0); for N=1 it is Heun's method. The prior's sigma does not matter.",
     "every field, dimension, N, h > 0, sigma != 0", "closed form for unbounded N",
     (B+"ode_solvers/ekf0.py", ["solver"]), (B+"ode_solvers/ekf.py", ["_solver"]), (B+"ode_solvers/probnum/IOUP.py", ["transition_function"]))
prop("EKF0 posterior variance in closed form",
     "In the same setting the returned covariance after N >= 1 steps has position variance N sigma^2 h^3/12 per coordinate and zero elsewhere; it does not depend on the vector field, the initial state or the draws.",
     "every field, dimension, N >= 1, h > 0, sigma", "closed form for unbounded N",
     (B+"ode_solvers/ekf0.py", ["solver"]), (B+"ode_solvers/probnum/ekf.py", ["ekf"]))
prop("EKF0 based integration converges with order two",
     "For fields Lipschitz in x with smooth exact solutions the EKF0 mean after N steps of size h is within C h^2 of the exact solution, C depending only on the Lipschitz constant, the solution's derivative bounds and N h.",
     "all dimensions, fields, step counts and sizes", "asymptotic statement",
     (B+"ode_solvers/ekf0.py", ["solver"]))
prop("prior scale only scales the uncertainty",
     "Multiplying the initial covariance, process noise and observation noise by c > 0 leaves every filter mean unchanged and multiplies every returned covariance and innovation covariance by c (EKF0 and EKF1).",
     "all models, run lengths, c > 0", "all executions",
     (B+"ode_solvers/probnum/ekf.py", ["ekf"]), (B+"ode_solvers/probnum/calibration.py", ["mle_diffusion"]))
prop("mle_diffusion is the maximum likelihood scale",
     "For residuals z_k and positive definite S_k, mle_diffusion returns the maximiser over s > 0 of the Gaussian log-likelihood with covariances s S_k; it is non-negative, quadratic in the residuals, inversely proportional to the S_k, so re-calibrating with the calibrated scale returns 1.",
     "all N >= 1, dims, residual and covariance sequences", "maximum over a continuum",
     (B+"ode_solvers/probnum/calibration.py", ["mle_diffusion"]))
prop("requesting uncertainty output does not change the filter",
     "ekf with return_UC=True returns the same state as without, together with the last innovation covariance and the last residual.",
     "all models and run lengths", "all executions",
     (B+"ode_solvers/probnum/ekf.py", ["ekf", "body_return_UC"]))
prop("order of the calibration outputs",
     "Expected (docstring): with return_all the fourth and fifth outputs of ekf0_2/ekf1_2 are the residual mean z and its covariance S. Verdict: they are returned in the opposite order (covariance first).",
     "all inputs with at least one step", "no test uses return_all",
     (B+"ode_solvers/ekf1_2.py", ["solver"]), (B+"ode_solvers/ekf0_2.py", ["solver"]), (B+"ode_solvers/probnum/ekf.py", ["body_return_UC"]))
prop("meaning of the noise argument",
     "Expected: noise is the observation covariance R in both modes. Verdict: with sqrt=True it is used as a factor, so the effective covariance is noise noise^T; both modes agree when noise noise^T = noise (in particular noise=None) and differ in general.",
     "all noise matrices", "tests never pass noise",
     (B+"ode_solvers/ekf.py", ["_solver"]))
prop("Algorithm 3 propagates a law, not a sample",
     "ekf0_2/ekf1_2 ignore the sample component of their input: means and covariances along an sde_solver run do not depend on the sampling keys; with key=None the sample equals the mean; with IBM prior ekf0_2's covariance grows by M sigma^2 h^3/12 per interval.",
     "all keys, run lengths, fields", "all executions",
     (B+"ode_solvers/ekf0_2.py", ["solver"]), (B+"ode_solvers/ekf1_2.py", ["solver"]))
prop("samples have the filter's law",
     "mean + sqrtP @ standard normals has mean m and covariance P, in plain mode (sqrtP a matrix square root of P) and sqrt mode (sqrtP the triangular factor).",
     "all m, P, every expectation operator with standard normal moments", "distributional statement",
     (B+"ode_solvers/ekf0.py", ["solver"]), (B+"ode_solvers/ekf1.py", ["solver"]), (B+"ode_solvers/ekf0_2.py", ["solver"]), (B+"ode_solvers/ekf1_2.py", ["solver"]))
prop("default arguments work",
     "Expected: ekf0/ekf1 can be called without prior, as their signature, docstring and tests say. Verdict: they raise TypeError for every input when prior is None; ekf0_2/ekf1_2 do fall back to the integrated Brownian prior.",
     "all other arguments", "the failure must be shown for every other argument",
     (B+"ode_solvers/ekf0.py", ["solver"]), (B+"ode_solvers/ekf1.py", ["solver"]), (B+"ode_solvers/ekf.py", ["_solver"]))
prop("exact initialisation of higher derivatives",
     "Expected (comment in the code): with three states the initialisation is exact, i.e. equals (y,y',y'') of the solution. Verdict: exact for autonomous fields; for time-dependent fields (every parabola ODE) the time derivative of the field is missing. With four or more states ekf1's initial covariance frees the wrong entries when dim > 1, and ekf0 raises TypeError.",
     "all fields, dims, numbers of states", "tests use two states only",
     (B+"ode_solvers/ekf0.py", ["solver"]), (B+"ode_solvers/ekf1.py", ["solver"]))
# ---------------------------------------------------------------- priors
prop("integrated Brownian prior is exact",
     "For theta=0 IOUP_transition_function returns A_ij = dt^(j-i)/(j-i)! (0 below the diagonal) and Q = sigma^2 int_0^dt (exp(Fs)L)(exp(Fs)L)^T ds, for every order q.",
     "every q, dt, sigma, dim", "all orders",
     (B+"ode_solvers/probnum/IOUP.py", ["transition_function"]))
prop("integrated Brownian prior is consistent under step splitting",
     "For theta=0: A(s+t)=A(s)A(t) and Q(s+t)=A(s)Q(t)A(s)^T+Q(s): predicting over s then t equals predicting over s+t.",
     "every q, s, t, sigma", "all orders and times",
     (B+"ode_solvers/probnum/IOUP.py", ["transition_function"]))
prop("integrated Brownian prior has a Cholesky factor",
     "For dt > 0 and sigma != 0 the covariance Q is symmetric positive definite for every q and dim, so the sqrt mode's Cholesky factorisation exists.",
     "every q, dt > 0, sigma != 0, dim", "all orders",
     (B+"ode_solvers/probnum/IOUP.py", ["transition_function"]), (B+"ode_solvers/ekf.py", ["_solver"]))
prop("integrated Ornstein-Uhlenbeck prior",
     "Expected (docstring: closed formula): for every theta the returned (A,Q) is the transition of the process. Verdict: Q ignores theta, so for theta != 0 it is not the transition covariance and step splitting fails.",
     "theta != 0", "no test uses theta != 0",
     (B+"ode_solvers/probnum/IOUP.py", ["transition_function"]))
prop("Matern-3/2 closed form is exact",
     "For k=1 the returned A is exp(F dt) and Q is int_0^dt exp(Fs)LL^T exp(Fs)^T ds for F=[[0,1],[-lam^2,-2 lam]], lam=sqrt(3)/length; A is a semigroup and (A,Q) consistent under step splitting; Q is symmetric positive semi-definite.",
     "all magnitudes, lengths != 0, dt", "transcendental identities",
     (B+"ode_solvers/probnum/matern.py", ["transition_function"]))
prop("Matern general branch",
     "Expected: the drift matrix of the general branch is the companion matrix of (z+lam)^(k+1), so mc=True agrees with the closed form at k=1. Verdict: the exponent is inverted, it is the companion matrix of (z+1/lam)^(k+1); the branches disagree unless lam=1.",
     "every k, lam > 0", "no test uses the general branch",
     (B+"ode_solvers/probnum/matern.py", ["transition_function"]))
prop("numerically integrated transitions are valid",
     "transition_function returns a symmetric positive semi-definite Q and xi=0 when u=0, for any number of quadrature nodes; for F=0 it is exact (A=I, xi=h u, Q=h L L^T).",
     "all F,u,L,h >= 0, node counts >= 2", "all inputs",
     (B+"ode_solvers/probnum/transition_function.py", ["transition_function"]))
prop("independent priors stay independent",
     "Predicting with get_independently_factorized_prior predicts every block with its own transition: block means are the block predictions and cross-covariances of initially uncorrelated blocks stay zero; d copies of one transition give the kron prior.",
     "any number and sizes of transitions", "arbitrary arity",
     (B+"ode_solvers/probnum/transition_function.py", ["get_independently_factorized_prior"]))
prop("padding a prior",
     "pad_prior extends (xi,Q,A) by zeros: predictions of the original states are unchanged, padded states are predicted as exactly 0 with variance 0; it is rejected when the requested order does not exceed the current one, and a padded Q never has a Cholesky factor (sqrt mode is unusable with it).",
     "all transitions and orders", "all sizes",
     (B+"ode_solvers/probnum/transition_function.py", ["pad_prior"]))
# ---------------------------------------------------------------- ssm
prop("Algorithm 4 starts from the joint law of field and coefficients",
     "The initial mean and covariance built by the marginalised solver are those of (x, drift+sigma dW/dt(0), a, b) for the parabola coefficients (a,b) with variances delta, delta/2; the covariance is symmetric positive semi-definite.",
     "all drift, diffusion values, delta > 0, dims", "block index errors are invisible for dim=1 or symmetric sigma",
     (B+"ssm_parabola/ekf.py", ["_solver", "block"]))
prop("Algorithm 4 observes the same ODE as Algorithm 2",
     "The extended vector field evaluated at (x,v,a,b) and time t is drift(x,t)+diffusion(x,t) times the derivative at t of eval_parabola with coefficients (a,b), i.e. the field sde_solver integrates.",
     "all states, times, delta != 0, dims", "identity over all inputs",
     (B+"ssm_parabola/ekf.py", ["extended_vector_field", "pol"]), (B+"sde_solver.py", ["sde_solver"]))
prop("Algorithm 4 solvers run",
     "Expected: ekf0_marginal_parabola / ekf1_marginal_parabola return a sample. Verdict: the call to ekf omits the required argument xi, so they raise TypeError for every input that passes the shape checks (and AssertionError otherwise).",
     "all inputs", "must be shown for every input",
     (B+"ssm_parabola/ekf.py", ["_solver"]), (B+"ode_solvers/probnum/ekf.py", ["ekf"]))
prop("ssm_parabola_ode_solver recursion",
     "The driver returns N+1 times and states, starting at x0, each next state being the solver's first output for coefficients shifted to the interval's start time; an exception of the solver is propagated.",
     "every N, solver, key", "every N",
     (B+"ssm_parabola/ssm_parabola_ode.py", ["sde_solver"]))
# ---------------------------------------------------------------- progress bar
prop("the progress bar accounts for every iteration",
     "Over a scan of num_samples iterations the bar is created exactly once before any update, the update increments sum to exactly num_samples, the running total never exceeds it, and the bar is closed exactly once, after the last update.",
     "every num_samples >= 0", "remainder arithmetic for every length",
     (B+"utils/progress_bar.py", ["progress_bar"]))
prop("the progress bar is transparent",
     "Decorating a scan body with progress_bar changes neither carry nor outputs.",
     "every body, every input sequence", "every body",
     (B+"utils/progress_bar.py", ["progress_bar", "wrapper_progress_bar"]))
# ---------------------------------------------------------------- ivp
prop("reference covariances solve the moment equation",
     "The var functions of ibm and double_ibm, and mean/variance of gbm, satisfy the moment ODEs of the SDE returned beside them (V'=MV+VM^T+sigma sigma^T, V(0)=0).",
     "all t", "identities over all t",
     (B+"utils/ivp.py", ["ibm", "double_ibm", "gbm"]))
prop("square-matrix variants describe the same SDE",
     "square_matrix_ibm/square_matrix_fhn have the same drift and the same sigma sigma^T as the original problem for every state and time.",
     "all states and times", "all inputs",
     (B+"utils/ivp.py", ["square_matrix_ibm", "square_matrix_fhn"]))
prop("FitzHugh-Nagumo reference mean",
     "Expected: theoretical_mean_up_to_order_2 is x0+t f+t^2/2 (J_f f + 1/2 tr(sigma sigma^T Hess f)). Verdict: the second component is; the first has the wrong sign of alpha, off by t^2 alpha/eps.",
     "all t", "the test tolerance hides it",
     (B+"utils/ivp.py", ["fhn"]))
prop("synaptic conductance references",
     "Expected: drift/sigma of the reduced model act on (G_E,G_I); the order 2 mean and order 3 variance of the full model are the Taylor expansions. Verdict: the reduced model reads index 1 and the clamped index 2, so it never depends on G_E, and its reference mean is the expansion of that shifted drift (off by 16.2 t^2 from the intended one with the shipped constants); the full model's mean uses x0[1]-V_E instead of x0[0]-V_E, and its variance uses x0[2] twice.",
     "all states / times", "values coincide on the default initial state or within tolerance",
     (B+"utils/ivp.py", ["synaptic_conductance_reduced", "synaptic_conductance"]))
prop("random_linear_sde draws two matrices",
     "Expected: drift and diffusion matrices are separate random draws. Verdict: both are drawn from the same key, so the diffusion matrix always equals the drift matrix (up to std1/std2).",
     "every key and dim", "relation between two outputs for every key",
     (B+"utils/ivp.py", ["random_linear_sde"]))
# ---------------------------------------------------------------- found while modelling
prop("the 1.5 scheme couples independent coordinates",
     "Expected: for a product system (each drift and diagonal diffusion entry depends on its own coordinate only) the step of diag_15_scheme treats coordinates independently. Verdict: false in dimension two or more with multiplicative noise: two correction terms are dot products broadcast over all coordinates, so for geometric Brownian motions every coordinate receives the sum of all coordinates' corrections.",
     "every dimension, state, step and draw", "the shipped tests run multiplicative noise in one dimension only",
     (B+"sde_solvers/diag_15_scheme.py", ["solver"]))
prop("when the 1.5 schemes return numbers",
     "A step of hypoelliptic_diffusion_15_scheme returns numbers if and only if h > 0, the rough rows of sigma have full row rank and the gradient of the smooth drift component with respect to the rough coordinates is non-zero (otherwise the Cholesky factor of the draw is NaN); a step of diag_15_scheme if and only if h > 0.",
     "every drift, sigma, state, h, key", "degenerate states form a null set that random testing never hits",
     (B+"sde_solvers/hypoelliptic_diffusion__diag_15_scheme.py", ["solver"]), (B+"sde_solvers/diag_15_scheme.py", ["solver"]))
prop("FitzHugh-Nagumo reference variance",
     "theoretical_variance of fhn vanishes at 0 and satisfies the moment equation linearised at x0 up to an explicit residual of order t^2 (t^3 for the first component).",
     "all constants with eps<>0, all x0, all t", "identities over all t", ("bayesian_sde_solver/utils/ivp.py", ["fhn"]))
prop("harmonic oscillator third order variance",
     "theoretical_variance_up_to_order3 vanishes at 0 and satisfies V'=MV+VM^T+sigma sigma^T up to t^3 times a constant matrix.",
     "all gamma, D, sig, t", "identities over all t", ("bayesian_sde_solver/utils/ivp.py", ["harmonic_oscillator_square"]))
prop("linearisations used by Algorithm 4",
     "At a state (x,v,a,b) both observation functions return the ODE residual v - (drift + diffusion dW/dt). The EKF0 Jacobian is exact in v and in the parabola coefficients and ignores the dependence on x; the EKF1 Jacobian adds exactly the derivative in x of drift + diffusion dW/dt.",
     "all drifts, diffusions (smooth or not), states, directions, times, delta != 0, dims",
     "stop_gradient on a strided slice: values never show which partial derivatives are dropped",
     (B + "ssm_parabola/ekf.py", ["_solver", "observation_function", "extended_vector_field"]))
prop("the EKF solvers always return numbers",
     "With a positive definite prior covariance (any integrated Brownian motion or OU prior with h > 0, sigma non-zero) and no noise or a usable one, ekf0 (two or three states) and ekf1 return a value for every vector field, differentiable or not; whole runs of sde_solver with them, or with Algorithm 3, never produce NaN or an exception, and the covariance Algorithm 3 hands on stays positive semi-definite.",
     "every field, step count, key, both sqrt modes, every number of intervals", "no Cholesky factor along any run may fail",
     (B+"ode_solvers/ekf0.py", ["solver"]), (B+"ode_solvers/ekf1.py", ["solver"]), (B+"ode_solvers/ekf0_2.py", ["solver"]), (B+"ode_solvers/ekf1_2.py", ["solver"]), (B+"sde_solver.py", ["sde_solver"]))
prop("Algorithm 4 with its missing argument supplied",
     "If the filter call of Algorithm 4 passed xi = 0 (the shipped call does not, see the property on running), the solver would return for every input, and the joint posterior of state, slope and path coefficients would satisfy the random ODE linearised at the predicted state exactly at the last grid point, in mean and on the whole range of the covariance.",
     "every drift, diffusion, initial state, number of steps, both modes and both linearisations", "relation between posterior mean, covariance and the field for every input",
     (B+"ssm_parabola/ekf.py", ["_solver"]))
prop("Algorithm 3 starts from the right joint law",
     "With zero steps, Algorithm 3 returns the mean and covariance of (X, f(m0,0) + H (X - m0)) for every random X with the given mean m0 and covariance P00, H = 0 in ekf0_2 and the Jacobian of the field at m0 in ekf1_2; requesting all outputs never changes the carried result.",
     "every field, law of X with those moments, mode, accepted prior and noise", "an identity of second moments for every input law",
     (B+"ode_solvers/ekf0_2.py", ["solver"]), (B+"ode_solvers/ekf1_2.py", ["solver"]))
prop("Algorithm 3 from a point is Algorithm 2",
     "Started from a point mass (covariance 0), ekf0_2 and ekf1_2 return the same sample, or raise the same exception, as ekf0 and ekf1 from that point with the same two-state prior; the sample carried in plays no role.",
     "every field, key, step count, mode, prior, noise", "two solvers compared on every input",
     (B+"ode_solvers/ekf0_2.py", ["solver"]), (B+"ode_solvers/ekf1_2.py", ["solver"]), (B+"ode_solvers/ekf0.py", ["solver"]), (B+"ode_solvers/ekf1.py", ["solver"]))
prop("polynomial solutions are followed exactly",
     "Without a key, ekf0 and ekf1 with the order 1 integrated Brownian prior reproduce every solution that is affine in t at the grid points; with the order 2 prior (ekf0) and any order >= 2 (ekf1) every solution quadratic in t whose second derivative at 0 is J f. Noise and mode do not matter.",
     "every field with such a solution, every step count and step", "exactness for infinitely many fields and all step counts",
     (B+"ode_solvers/ekf0.py", ["solver"]), (B+"ode_solvers/ekf1.py", ["solver"]), (B+"ode_solvers/ekf.py", ["_solver"]))
prop("linear stability of EKF1 and EKF0",
     "On x' = lam x with the order 1 integrated Brownian prior, EKF1 multiplies x0 by an explicit scalar recursion; its first step is (1 - z^2/6)/(1 - z + z^2/3) with z = lam h, and for lam < 0 every step contracts at least by that factor, which is < 1 for every step length. EKF0 grows at least like 2^N once lam h <= -2.",
     "every lam, h, sigma, dimension, initial value, step count, mode", "asymptotic behaviour over all step counts",
     (B+"ode_solvers/ekf1.py", ["solver"]), (B+"ode_solvers/ekf0.py", ["solver"]), (B+"ode_solvers/ekf.py", ["_solver"]))
prop("quadrature error of transition_function",
     "Entrywise, the covariance computed by transition_function with n nodes differs from the true transition covariance of dX = F X dt + L dW by at most a^2 e^(2ha) |L|^2 h^3 / (3 (n-1)^2), a the sum of |F_ij|; the mean shift satisfies a similar bound. For the Matern prior outside its closed form (any order, or test mode) this gives an explicit error with 10000 nodes, an exact transition matrix and exact block structure.",
     "every F, L, u, h >= 0, node count >= 2; every Matern order, length, magnitude, dimension", "an a-priori error bound against an integral over all parameters",
     (B+"ode_solvers/probnum/transition_function.py", ["transition_function"]), (B+"ode_solvers/probnum/matern.py", ["transition_function"]))
prop("harmonic oscillator mean and numerical variance",
     "theoretical_mean of the harmonic oscillator solves the mean ODE from x0, the covariance integral solves the Lyapunov equation from 0, and theoretical_variance approximates it with an explicit quadrature error.",
     "all gamma, D, noise matrices, t >= 0, node counts", "identities and bounds over all t",
     (B+"utils/ivp.py", ["harmonic_oscillator", "harmonic_oscillator_square"]))
prop("the parabola is the best predictor of the path",
     "With the increment A of a Brownian path over [0,h] and the coefficient b = sqrt 6 (I/h - A/2) built from its integral I: b has variance h/2 and is uncorrelated with A (the law the code draws), and the parabola at time s is the best linear predictor of W_s from A and I: its error is uncorrelated with both, has variance h(u(1-u) - 3u^2(1-u)^2) with u = s/h, and any other combination is worse by an explicit amount.",
     "every s in [0,h], h > 0, every probability model with the Brownian second moments", "optimality among all linear predictors, any s and h",
     (B+"foster_polynomial.py", ["eval_parabola", "get_approx"]))
prop("splitting a run of the filter",
     "N + M steps of the EKF ODE solver are N steps followed by M steps from the state reached, with the clock of the field advanced by N h; exceptions and NaN included.",
     "every field, state, prior, noise, step counts, modes", "composition law over all step counts",
     (B+"ode_solvers/ekf.py", ["_solver"]), (B+"ode_solvers/probnum/ekf.py", ["ekf"]))
prop("related fields give related EKF solutions",
     "If p has orthonormal rows and p f(x,t) = g(p x,t), then p applied to the EKF0 solution for f is the EKF0 solution for g (autonomous subsystems, rotations); with related Jacobians the same holds for EKF1 and for three-state priors. In particular product fields are solved coordinate by coordinate, and renaming coordinates renames the result.",
     "every such pair of fields (smooth or not), dimension, prior treating coordinates alike, step count, step, mode", "relation between two runs in different dimensions",
     (B+"ode_solvers/ekf0.py", ["solver"]), (B+"ode_solvers/ekf1.py", ["solver"]), (B+"ode_solvers/ekf.py", ["_solver"]))
prop("whole runs of the order 1.5 schemes",
     "Both order 1.5 schemes return the grid i h, start at the initial state and apply one scheme step per split key, the noise drawn from the key's first child with the stated covariance. For linear drift M x and constant diffusion no state is NaN, the mean after n steps is A^n x0 with A = 1 + hM + h^2 M^2/2, and the covariance obeys C' = A C A^T + B K B^T, K the covariance of (int W, W_h).",
     "every drift and diffusion for the recursion; every matrix, step count, step > 0 and generator with independent standard draws for the moments", "law of the state after n steps of a random recursion",
     (B+"sde_solvers/hypoelliptic_diffusion__diag_15_scheme.py", ["solver", "body"]), (B+"sde_solvers/diag_15_scheme.py", ["solver", "body"]))
prop("joint law of Algorithm 4's output",
     "With the missing argument xi = 0 supplied, Algorithm 4 returns the mean of state and path coefficients when no key is given, and otherwise one joint sample whose mean and covariance are the filter's, in the order state, increment, area coefficient.",
     "every drift, diffusion, number of steps, mode, accepted prior and noise, generator with standard draws", "second moments of a random output for every input",
     (B+"ssm_parabola/ekf0.py", ["solver"]), (B+"ssm_parabola/ekf1.py", ["solver"]))
prop("the path coefficients Algorithm 4 returns are Brownian",
     "False, even with xi supplied: for constant diffusion D the returned increment has the right law, but the second coefficient has precision 2/delta + 24 N h/(delta^4 s^2) D^T D instead of 2/delta (s the prior scale), however many steps are used. The state is D times the returned path plus an uncorrelated error of covariance N s^2 h^3/12.",
     "every drift (EKF0; state-independent drift for EKF1), diffusion matrix, delta, h, N, prior scale, mode", "posterior law after any number of filter updates",
     (B+"ssm_parabola/ekf.py", ["_solver"]), (B+"ssm_parabola/ekf0.py", ["solver"]))
RAM = "scripts/pathwise_convergence_experiment_2_RAM.py"
RAM2 = "scripts/pathwise_convergence_experiment_2_RAM_2.py"
SAMP = "scripts/sampling_from_posterior_alg3/pathwise_sampling_from_posterior.py"
CAL = "scripts/sampling_from_posterior_alg3/uncertainty_calibration.py"
prop("low-memory experiment against the plain one",
     "The low-memory driver returns the samples of sde_solver and, beside them, Euler-Maruyama on the fine increments of the same run at every fine-th point. For noise independent of the state this is what the plain script computes; for multiplicative noise it is false, since the Stratonovich drift is handed to the Ito scheme.",
     "every field, generator, key, ODE solver, number of intervals and fine steps", "relation between two programs over whole runs",
     (RAM, ["sde_solver", "body", "experiment"]), (RAM2, ["sde_solver", "body"]), ("scripts/pathwise_convergence_experiment_2.py", ["experiment"]))
prop("the two Euler-Maruyama runs of EM_FHN share a path",
     "The coarse run uses the increments over the intervals and the fine run the increments over their parts, of one Brownian path; the fine increments of each interval sum to the coarse one.",
     "every drift, diffusion, key, step counts", "invariant coupling two recursions",
     ("scripts/EM_FHN/pathwise_convergence_experiment_2_RAM.py", ["sde_solver", "body"]))
prop("the local order experiment",
     "Every call of local_step raises TypeError, as ekf0 gets no prior. The reference it would compare with multiplies the noise by sqrt(1/h) (a factor 100 with the script's numbers), so it solves another equation; with standard=True it would be the intended one.",
     "every drift, diffusion, step, key", "comparison of a reference solution with the intended one for every input",
     ("scripts/local_order_experiment_from_scratch.py", ["local_step", "wrapped"]))
prop("the closed-form step of breaking_multidimensionnal",
     "The step computed is exp(delta A)(x + S W), every fine increment with the same weight, since arange(0, delta, M) has one entry; the docstring's formula weights increment i by exp((delta - s_i) A). The difference is given exactly and is nonzero for the script's delta.",
     "every matrix A, S, increments, delta <= M", "identity between matrix-exponential sums of any length",
     ("scripts/breaking_multidimensionnal.py", ["experiment", "sde_solver", "body", "integrand"]))
prop("posterior samples of the sampling script",
     "The sample has the stacked posterior means as mean, but covariance U U^T with U the transposed Cholesky factor, that is L^T L instead of L L^T in every time block; trace and determinant agree, and the covariance is the intended one exactly when every posterior covariance is diagonal.",
     "every number of times, dimension, positive definite covariances, generator with standard draws", "second moments of a sampler for every input",
     (SAMP, ["sample", "experiment"]), ("scripts/sampling_from_posterior_alg3/sanity_check_calibration_ode.py", ["experiment"]))
prop("the calibration script",
     "The estimate is the maximum likelihood one for the residuals at the end of every interval of the Algorithm 3 run, whose driver is sde_solver. Multiplying the prior scale by a divides the estimate of the whole run by a^2. With prior scale s the script estimates v, reruns with scale sqrt(v) and then estimates s^2, not 1; starting from sqrt(10) it finds 10. Multiplying the old scale by sqrt(v) would give 1. It returns numbers for every input except when v = 0.",
     "every drift, diffusion, interval count, step count, key and scale", "scaling law of an estimator over whole runs",
     (CAL, ["custom_sde_solver", "experiment"]), (B+"ode_solvers/probnum/calibration.py", ["mle_diffusion"]))
prop("samples saved with a reference of another path",
     "The Algorithm 3 experiments save the samples of every key but, by sol2[0], the fine reference of the first key only. For pure noise each sample equals its own reference, so comparing with the saved one measures the distance of two independent paths.",
     "every field, list of keys, step counts", "pairing of outputs over all keys",
     (RAM2, ["experiment"]), ("scripts/EKF0_FHN/pathwise_convergence_experiment_2_RAM_2.py", ["experiment"]))
prop("the four curves of the sampling script",
     "The filter run, the Euler run of the random ODE, and the two Euler-Maruyama runs are driven by one Brownian path; the second is Euler's method with fine steps per interval.",
     "every drift, diffusion, filter, key, step counts", "relation between four recursions over whole runs",
     (SAMP, ["experiment", "wrapped_euler"]))
prop("which experiment scripts return numbers",
     "With the integrated Brownian prior and no noise, every entry of both trajectories of the low-memory scripts is a number. The plain script passes a (1,1) noise for a two-dimensional problem, so each filter call raises AssertionError. A prior of order 2 combined with a padded prior of order 1 works in plain mode and gives NaN in square-root mode.",
     "every drift, diffusion, key, order, step counts, mode", "no failure along any run",
     (RAM, ["experiment"]), ("scripts/pathwise_convergence_experiment_2.py", ["experiment"]), ("scripts/EKF0_Mat_vs_IBM_FHN/comparison_2_RAM_setup_in_the_response_to_the_reviewer.py", ["experiment"]), (B+"ode_solvers/probnum/transition_function.py", ["pad_prior", "get_independently_factorized_prior"]))
prop("linear equations with exactly solved random ODEs",
     "For dX = A X dt + S dW, with an integrator that solves affine ODEs exactly, one interval of Algorithm 1 is the variation of constants formula along the drawn parabola. After n intervals the mean is that of the SDE, the covariance never exceeds the SDE's, and every entry of the difference is at most n h (alpha^4 e^(2 n h alpha) gamma / 80) h^4. It is exact when A(A S) = 0 and not in general: a twice integrated Brownian motion loses h^5/720.",
     "every A, S, dimension, step, interval count, initial value, generator with standard draws", "law of the whole run and its global error",
     (B+"sde_solver.py", ["sde_solver"]), (B+"foster_polynomial.py", ["get_approx"]), (B+"ito_stratonovich.py", ["to_stratonovich"]))
prop("the Lipschitz constant experiment",
     "The trapezoidal total variation L of a parabola satisfies |a| <= L <= |a| + sqrt(6)/2 |b| with both ends attained. The mean over independent keys is unbiased for E exp(L). The plotted bound 1 + (sqrt(3/(2 pi)) + sqrt(2/pi)) sqrt(delta) holds for the small steps of the script and fails for every delta >= 9, although it is announced without restriction.",
     "every coefficient, even node count, delta, monotone expectation with standard draws", "inequality between an expectation of an exponential and a closed form, for all steps in a range",
     ("scripts/experiment_exp_lipschitz.py", ["experiment", "integrand_mean", "theoretical_bound"]), (B+"foster_polynomial.py", ["get_approx"]))
prop("linear equations with sub-stepped ODE solvers",
     "For dX = A X dt + S dW, every interval of the driver with M Euler steps or M EKF0 steps is an explicit linear map of the state and the two drawn coefficients; this gives mean and covariance of the whole run. Euler inflates the variance of pure noise by 1 + 3/M^2. For A^2 = 0 the EKF0 run has the SDE's mean, and its covariance is too large by n h^3 (c + 3 c^2) (A S)(A S)^T with c = 5/(6 M^2) - 1/(2 M^3), so one step per interval triples the variance of the integrated Brownian motion.",
     "every A, S, dimension, step, sub-step count, interval count, mode, generator with standard draws", "law of the whole run with a discretised inner solver",
     (B+"sde_solver.py", ["sde_solver"]), (B+"ode_solvers/euler.py", ["solver"]), (B+"ode_solvers/ekf0.py", ["solver"]), (B+"foster_polynomial.py", ["get_approx"]))
prop("EKF1 converges with order two",
     "With the integrated Brownian prior of order 1 and no noise, EKF1 is within C h^2 of the exact solution, in both modes and whatever the scale of the prior; C depends only on bounds for the field, its Jacobian and three derivatives of the solution, and on the horizon. The covariance trace of the returned point is at most sigma^2 c h^2. One step is a closed form in which the matrix to invert is positive definite for every step length and Jacobian.",
     "every field with bounded Lipschitz Jacobian, dimension, step, step count, prior scale, mode", "global error of a recursion with a state-dependent gain, uniformly in the step",
     (B+"ode_solvers/ekf1.py", ["solver"]), (B+"ode_solvers/ekf.py", ["_solver"]), (B+"ode_solvers/probnum/ekf.py", ["ekf", "update"]))
prop("pathwise error for additive noise",
     "Let X solve dX = f dt + S dW along a path W whose increments are the drawn ones and whose distance to the drawn parabolas is at most eta. If the integrator is within eps of the random ODE on every interval, state n is within (eta + eps/(e^(L delta) - 1)) (e^(L n delta) - 1) of X(n delta). With M Euler steps the bound is (eta + (omega + sqrt(6) beta/(M delta))/L)(e^(L n delta) - 1), with M EKF0 steps (eta + omega/L + sqrt(6) beta/M^2)(e^(L n delta) - 1), where omega is the drift's change over a sub-step and beta bounds S times the second coefficient.",
     "every Lipschitz drift, diffusion matrix, dimension, key, generator, path, interval and step counts", "global error along every path, comparing a recursion with a differential equation",
     (B+"sde_solver.py", ["sde_solver"]), (B+"foster_polynomial.py", ["get_approx"]), (B+"ode_solvers/euler.py", ["solver"]), (B+"ode_solvers/ekf0.py", ["solver"]))
prop("law of the parabola of a sampled Brownian path",
     "With standard draws the pair returned by get_approx_and_brownian with N samples is centred, its first entry has variance dt, but the pair is correlated: the covariance is sqrt(6) dt (N-2)/N^2 and the second variance dt/2 (N^3 - 13N + 18)/N^3. For no N is it the law of get_approx (uncorrelated, dt and dt/2). The area under the returned path has variance dt^3/3 (1 + 3/N - 37/(4N^2) + 9/(2N^3)) and covariance dt^2/2 (1 + 2(N-2)/N^2) with the increment.",
     "every generator with standard draws, dimension, sample count, step", "exact moments, for all sample counts",
     (B+"foster_polynomial.py", ["get_approx_and_brownian", "get_approx"]))
prop("geometric Brownian motion through the driver",
     "For dX = a X dt + b diag(X) dW, passed through to_stratonovich, with an integrator exact for y_i' = u_i(t) y_i, every path of the driver is x0 exp((a - b^2/2) t + b W) at the sum W of the returned increments. If the draws have the normal exponential moments at b sqrt(h) and 2 b sqrt(h), mean and variance are those declared by gbm, for every step. Passing the Ito drift unconverted multiplies every path and the mean by exp(b^2 t/2). With M Euler steps per interval the run is an explicit product, within an explicit pathwise bound of order 1/M of the exact path.",
     "every a, b, dimension, step, interval and sub-step count, key, generator, law of the draws", "closed form and law of whole runs with state-dependent noise",
     (B+"sde_solver.py", ["sde_solver"]), (B+"foster_polynomial.py", ["get_approx"]), (B+"ito_stratonovich.py", ["to_stratonovich"]), (B+"utils/ivp.py", ["gbm"]), (B+"ode_solvers/euler.py", ["solver"]))
prop("when the declared variances are covariance matrices",
     "The variances of ibm and double_ibm, the trapezoidal variance of the harmonic oscillators and the variance of gbm are positive semidefinite at every t >= 0. The local expansion of FitzHugh-Nagumo is so exactly for 0 <= t <= 1/4, whatever the noise and time scale; that of the harmonic oscillator exactly while 3 + 6 gamma t - (gamma^2 + 4D) t^2 >= 0, with the constants of the file up to (3 + 2 sqrt(6))/5. Beyond these times the functions return matrices that no random vector has as covariance.",
     "every time, constants, node count", "definiteness of a matrix function on the whole time axis",
     (B+"utils/ivp.py", ["fhn", "ibm", "double_ibm", "harmonic_oscillator_square", "harmonic_oscillator", "gbm"]))
prop("strong order two against the fine path",
     "Run sde_solver with the parabolas of get_approx_fine on dX = A X dt + S dW with an ODE solver that is exact for affine equations, and compare with the solution of the same equation along the returned fine path (exactly one exists). The error is centred, its second moment matrix is the covariance of the fine solution minus that of the run, and each component has mean square at most T (alpha^4 e^(2 T alpha) gamma/80) h^4, so the strong error is of order two; up to the same expression in h/N it equals the covariance the run loses against the SDE. If A A S = 0 there is no error for any key; if A A A S = 0 the second moment is T h^4/720 (1 - 1/N^4) (AAS)(AAS)^T, so the order is sharp.",
     "every A, S, step, numbers of intervals and fine pieces, key or key law", "exact mean square distance of two solutions driven by the same random path",
     (B+"foster_polynomial.py", ["get_approx_fine"]), (B+"sde_solver.py", ["sde_solver"]))

prop("the quantity measured by test_path_integral has the law the test expects",
     "Along the parabola with coefficients (a, b) the trapezoidal sum over K intervals of t dW(t) is h (a/2 - sqrt 6 (1/6 + 1/(3 K^2)) b), and the integral it stands for h (a/2 - sqrt 6 b / 6). Under standard draws it has mean zero and covariance h^3/3 (1 + 1/K^2 + 1/K^4) times the identity for get_approx and for get_approx_fine with any number of fine parabolas. For get_approx_and_brownian the exact covariance is displayed; at the parameters of the test (h = 1/2, K = 500, 1000 samples) it is too small by about h^3/1000, an order of magnitude below the tolerance, so the test accepts all three.",
     "all dimensions, h > 0, K >= 1, numbers of fine steps, and every expectation operator with standard (i.i.d.) draws", "the test sees one seed and three digits, which hide the bias of the sampled-path variant",
     (B+"foster_polynomial.py", ["get_approx", "get_approx_fine", "get_approx_and_brownian"]))
prop("euler on the two problems of its tests is within explicit two-sided bounds",
     "For x' = x from 1 over unit time, N Euler steps give at most e and at least e (1 - 1/(2N)); for x' = sin t from 1 they give at most 2 - cos 1 and at least 2 - cos 1 - (sin 1)/N. With the 1000 steps used by the tests both values are within the tolerance 1.5e-3.",
     "every number of steps N >= 1", "the tests fix N = 1000",
     (B+"ode_solvers/euler.py", ["solver"]))

prop("on equations with an explicit solution the solver follows that solution",
     "Let X(t, w) solve dX = f dt + s o dW, in the sense that t -> X(t, W(t)) has derivative f + s W' along every differentiable path W, with f and s Lipschitz. If the integrator solves each interval equation exactly, sde_solver returns X(t_n, W_n), where W_n is the sum of the drawn increments. If it is off by at most eps_n on interval n, the error at t_n is at most the sum of eps_j times the exponential of the later Lipschitz amplification, L delta + K (|a| + sqrt 6 |b|) per interval. With M Euler steps per interval the error is at most delta^2/(2M) times a sum in which the second derivatives of the explicit solution along the parabola appear.",
     "all dimensions, Lipschitz coefficients, step sizes, interval counts, keys, step indices, and all three path approximations (any whose eval is a parabola)", "needs a quantification over integrators and equations; tests cover a few linear equations statistically",
     (B+"sde_solver.py", ["sde_solver"]), (B+"foster_polynomial.py", ["get_approx", "get_approx_fine", "get_approx_and_brownian"]), (B+"ode_solvers/euler.py", ["solver"]))

prop("weak error of the solver with EKF0 sub-steps on the equation of the end-to-end test",
     "On dX = a X dt + s dW with a > 0, sde_solver with M EKF0 steps per interval and the integrated Brownian prior passed explicitly has mean r exp(a t) x0 with 1 - n z^3/6 <= r <= 1, z = a delta, and variance between (1 - 5/12 z^2 - n z^3/3) and (1 + 3 (e^z - 1)^2) times the variance of the equation, for every M >= 1 and every scale of the prior. At the parameters of test_end_to_end.py mean and standard deviation are within 1/1000 of the references, the test allows 1/10. As the test is written, however, ekf0 and ekf1 get no prior, and every state after the first is a TypeError. The ekf0_2 cases run as written and meet the same tolerances.",
     "all a > 0, s, initial values, step sizes, sub-step counts, interval counts, prior scales, square-root flags and step indices", "a law of a random output; the test estimates it with 10000 samples at one parameter set, and the cases for ekf0 and ekf1 cannot run",
     (B+"sde_solver.py", ["sde_solver"]), (B+"ode_solvers/ekf0.py", ["solver"]), (B+"ode_solvers/ekf1.py", ["solver"]), (B+"ode_solvers/ekf0_2.py", ["solver"]), (B+"ito_stratonovich.py", ["to_stratonovich"]))

prop("Algorithm 3 uses one prior for the whole trajectory",
     "The docstrings of ekf0_2 and ekf1_2 say that starting each interval from the previous posterior leads to one prior for the whole trajectory. For EKF1 on an autonomous affine equation without noise this is exact: the means and covariances after n intervals of M steps are those of one call with n M steps, for every prior of order one with positive definite covariance, in both arithmetic modes and for all sampling keys. For EKF0 it is false (25/4 against 23/4 on x' = x): the means are those of Algorithm 2, which restarts in every interval, whatever the scales of the two priors, and the position covariance grows by M sigma^2 h^3/12 per interval. With EKF1 Algorithms 2 and 3 differ (25/4 against 25/7 on the same example).",
     "all dimensions, affine fields (EKF1) or arbitrary drifts, diffusions and path approximations (EKF0), priors, interval and sub-step counts, modes, keys and step indices", "relates runs of different solvers over all equations; the tests only compare final averages at one tiny step size, where the difference cannot be seen",
     (B+"ode_solvers/ekf0_2.py", ["solver"]), (B+"ode_solvers/ekf1_2.py", ["solver"]), (B+"ode_solvers/ekf0.py", ["solver"]), (B+"ode_solvers/ekf1.py", ["solver"]), (B+"sde_solver.py", ["sde_solver"]))

prop("Law of Algorithm 4 with one step per interval",
     "As shipped, ssm_parabola's solvers raise (C60). With the missing argument supplied and used as in tests/test_ssm_parabola_ode.py (EKF0, h = delta, N = 1, constant diffusion D), the state returned for one interval has mean one Heun step of the drift and covariance delta D D^T + sigma^2 delta^3/12, whatever the drift. Through ssm_parabola_ode_solver this gives mean and covariance of the trajectory for linear equations. On dX = aX dt + s dW the mean agrees with the equation to second order, but the variance is too small by a relative a delta to first order, so no second-order bound holds, in contrast with Algorithm 2 on the same problem (C109). At the test's parameters the comparisons still hold, with 1/1000 instead of 1/10. On integrated Brownian motion the mean is exact and the covariance is the left-point sum plus the filter's own noise.",
     "all dimensions, drifts, diffusion matrices, step sizes, prior scales, numbers of intervals, both arithmetic modes, every generator and expectation with centred, uncorrelated, unit-variance draws", "statement about the law of whole trajectories for all equations; the test draws one set of samples for three equations and cannot run the solver as shipped",
     (B+"ssm_parabola/ekf0.py", ["solver"]), (B+"ssm_parabola/ekf.py", ["_solver"]), (B+"ssm_parabola/ssm_parabola_ode.py", ["sde_solver"]), (B+"utils/ivp.py", ["square_matrix_ibm", "ibm"]))

prop("What the shipped test problems describe",
     "With the constants of utils/ivp.py: fhn has exactly one rest state, with first coordinate between -0.76 and -0.75, and it is a stable focus (trace between -9 and -7, determinant above 21, negative discriminant); synaptic_conductance has exactly one, at V = -21263/386 and the mean conductances 17.8 and 9.4; synaptic_conductance_reduced, which should have the same conductances at rest, has none. ibm and double_ibm without noise follow (1+t, 1) and (t^2/2, t, 1). The means of both oscillators obey p' = q, q' = -(p+q)/10 (resp. -(p+q)) and never exceed their initial energy. gbm has mean exp t and variance exp(2t)(exp t - 1). The rates of the noise (sigma sigma^T) and the velocities at the starting points are as stated.",
     "all states, all times", "facts about every state and time (uniqueness of the rest state, bounds on the energy), which no run establishes",
     (B+"utils/ivp.py", ["fhn", "ibm", "double_ibm", "gbm", "harmonic_oscillator", "harmonic_oscillator_square", "synaptic_conductance", "synaptic_conductance_reduced"]))

prop("What a run of the solver does not depend on",
     "Without noise the driver with M Euler steps per interval is one run of euler with n M steps up to time n delta, whatever the key and the path approximation. If an affine map x -> p x + c carries one equation (drift and diffusion) to another, it carries the run with a given key to the run with the same key, for euler sub-steps and for euler_maruyama; for EKF0 sub-steps with the integrated Brownian prior, whatever its scale, and with any other prior of the first order if the rows of p are orthonormal (permutations, rotations, projections on a closed subsystem). Multiplying the drift by c, the diffusion by sqrt c and dividing delta by c (another unit of time) changes no state of the run, for euler and EKF0 sub-steps with get_approx (any scales of the two priors) and for euler_maruyama. Example: ibm is the lower part of double_ibm and so are its runs.",
     "all dimensions, drifts and diffusions (also time dependent), affine maps, step sizes, numbers of steps and intervals, generators and keys", "equalities between pairs of whole runs for all equations",
     (B+"sde_solver.py", ["sde_solver"]), (B+"ode_solvers/euler.py", ["solver"]), (B+"ode_solvers/ekf0.py", ["solver"]), (B+"sde_solvers/euler_maruyama.py", ["solver"]), (B+"foster_polynomial.py", ["get_approx"]), (B+"utils/ivp.py", ["ibm", "double_ibm"]))

prop("Euler-Maruyama on geometric Brownian motion is of weak order one",
     "euler_maruyama on the shipped gbm problem, T = n h: the mean lies between exp(T - T h/2) and exp T, the second moment between exp(3T - 7/2 T h) and exp(3T); the upper ends are the exact values. Hence the four comparisons of tests/test_euler_maruyama.py (100 steps of 1/100) hold for the law itself: mean at the end within 2/100, standard deviation at the end within 14/100 (less than 15/100 is wanted for both), mean and variance after one step within 1/1000 (less than 15/1000 is wanted). Mean-square stability for dX = a X dt + b X dW: with s = 2a + b^2 + a^2 h the second moment is at most exp(s T) times the initial one, and at least 1 + s T times it if s >= 0.",
     "all step sizes h >= 0, all numbers of steps, for stability all a, b and dimensions, every generator and expectation with independent keys and centred, uncorrelated, unit-variance draws", "statement about the law for all step sizes; the test estimates it once from a million samples",
     (B+"sde_solvers/euler_maruyama.py", ["solver"]), (B+"utils/ivp.py", ["gbm"]))

prop("covariance of Euler-Maruyama at all times, and its bias on the damped oscillator",
     "euler_maruyama on dX = M X dt + s dW: if a step leaves the covariance S unchanged, the covariance after n steps is S - A^n S A^nT with A = I + h M. For the oscillators, if D h < gamma and 4 - 2 gamma h + D h^2 > 0, S is given in closed form, is positive semi-definite and bounds the covariance of every state; at h = 0 it is the stationary covariance of the equation, and for h > 0 its velocity variance is strictly larger than the true sig^2/(2 gamma). For h > 0 and sig != 0 the two conditions are necessary and sufficient for a stationary covariance to exist, and it is then S; both shipped oscillators have none for steps of 1.",
     "all linear problems, all damping, stiffness and noise constants, all such step sizes, all numbers of steps", "closed form at every time and step size, including the long-time bias no short run shows",
     (B+"sde_solvers/euler_maruyama.py", ["solver"]), (B+"utils/ivp.py", ["harmonic_oscillator", "harmonic_oscillator_square"]))

prop("one-step mean of diag_15_scheme in every dimension",
     "One step of diag_15_scheme has the second-order expansion of the true mean plus h (d/3 - 1)/2 times an explicit combination of derivatives of the diffusion, because eta @ eta.T is the sum of the squares. On synaptic_conductance_reduced the mean is the declared one plus h sig_I^2/(24 sqrt(G_I)) (sig_I, sig_E), so never equal to it; at the step 1/100 of tests/test_diag_15_scheme.py the difference is below 10^-6, where the test wants less than 15/1000. On synaptic_conductance (d = 3) the mean of a step is the true expansion, and the declared mean is short by 27.3 h^2 in the potential.",
     "all drifts, all diagonal diffusions, all dimensions, step sizes and states, every expectation with the first two moments of the draws", "exact for all inputs; the tolerance of the test is ten thousand times the error",
     (B+"sde_solvers/diag_15_scheme.py", ["solver"]), (B+"utils/ivp.py", ["synaptic_conductance_reduced", "synaptic_conductance"]))

prop("covariance of one step of the order 1.5 schemes on linear problems",
     "diag_15_scheme on dX = M X dt + s dW: mean (I + h M + h^2/2 M^2) x, covariance h S + h^2/2 (M S + S M^T) + h^3/3 M S M^T with S = s s^T. On harmonic_oscillator_square it differs from the declared local covariance by sig^2 h^3 times (0, gamma/6; gamma/6, (D - gamma^2)/3); the hypoelliptic scheme's differs already in the second order, by sig^2 gamma h^2 for the velocity. The quantities compared by the two tests are within 10^-6 and 2/1000, where the tests want less than 15/1000.",
     "all linear drifts, all diffusions with diagonal covariance, all dimensions, steps and states, every expectation with the first two moments of the draws", "exact for all inputs; the tests use 1000 samples at one step size",
     (B+"sde_solvers/diag_15_scheme.py", ["solver"]), (B+"sde_solvers/hypoelliptic_diffusion__diag_15_scheme.py", ["solver"]), (B+"utils/ivp.py", ["harmonic_oscillator_square"]))
# EXTRA-PROPERTIES-HERE
out = os.path.join(os.path.dirname(os.path.abspath(__file__)), "..", "properties.jsonl")
with open(out, "w") as f:
    for p in P:
        f.write(json.dumps(p, ensure_ascii=False) + "\n")
print(len(P))
