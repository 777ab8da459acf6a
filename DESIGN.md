# Verification design: bayesianSDEsolver

Target: the Python package `/repo/bayesian_sde_solver` (read as text, never executed).
Method: a Rocq (Coq 8.16.1 + mathcomp 1.x + Coquelicot) model of every function of the package,
small independent specifications, and theorems for all inputs.
Properties are in `properties.jsonl` (C01 ...), the claim table is `MANIFEST.json`.

## 1. Files (`rocq/theories`)

| file | content |
|---|---|
| `Rstruct.v` | mathcomp structures on the standard library's `R` (no model content) |
| `Base.v` | results (`Val`/`Nan`/`Raise`), `linspace`, `arange`, `scan`, `cumsum`, `trapz`, slices |
| `Linalg.v` | symmetric / psd / pd, LAPACK contracts (`qr`, `cholesky`, `sqrtm`, `solve`) |
| `Calc.v` | Jacobians, Hessians, dual numbers (`jacfwd`, `stop_gradient`), `expm` |
| `Prob.v` | PRNG interface, expectation operators |
| `M_*.v` | the model, one file per module of the package, every definition cites file and lines |
| `M_Scripts.v`, `M_Lipschitz.v` | the experiment scripts of `/repo/scripts` |
| `M_Tests.v` | the quantity measured by `/repo/tests/test_foster.py` |
| `Spec.v`, `Spec2.v`, `Spec3.v`, `Spec4.v`, `Spec5.v`, `Spec6.v` | specifications written without the model's helpers |
| `L_*.v` | lemmas |
| `T_*.v` | only the property theorems, their examples and `Print Assumptions` |

## 2. Modelling conventions

* Scalars are exact reals.  Rounding, overflow and dtype promotion are not modelled.
* A 1-D array of length n is `'cV[R]_n`, a 2-D array `'M[R]_(m,n)`; a leading "time" axis is a `seq`.
* Interlaced states of length dim*n are indexed by mathcomp-real_closed's `mxtens_index (k,i)`, whose value is
  `k*n+i`; `x[i::n]` collects these entries for fixed i and `jnp.kron(eye(dim),A)` is `1%:M *t A`.
* A computation returns `Val v`, `Nan` (the array contains non finite values) or `Raise e`
  (Python exception).  `Nan` and `Raise` absorb.  Shapes are checked dynamically exactly where the Python code's
  behaviour depends on them (`prior` shapes, `noise` shape, `dim == dim_brownian`, `pad_prior`); elsewhere they are types.
* LAPACK routines are *contracts* (a record quantified over in the theorems):
  `qr` returns some R with A = Q R, Q orthogonal, R upper trapezoidal; `cholesky` returns a lower triangular factor for
  positive definite input and NaN otherwise; `sqrtm` returns a symmetric psd square root for symmetric psd input;
  `solve(..., assume_a='pos')` is the inverse for symmetric positive definite input and NaN otherwise.
  The record is shown to be inhabited, so no theorem is vacuous through it.
* Automatic differentiation: forward mode is modelled by dual numbers; a user function is lifted with its true Jacobian
  (Coquelicot `Derive` of each component along each axis); `stop_gradient` zeroes the tangent.
  `jax.hessian` is the matrix of iterated partial derivatives.
* `linalg.expm` is the entrywise power series (`Series`).
* PRNG: an arbitrary record with a key type, `split`, and normal draws.  Moment statements quantify over every linear
  expectation operator under which the draws are centred, uncorrelated, of unit variance (and independent from step to
  step where needed); examples instantiate it with fair signs.
* JAX reads out of bounds indices by clamping (`x[i]`, `.at[i].get()`).
* `lax.scan` is a left fold; the progress bar decorator is modelled by the list of events it emits.
* In place `*=` on an argument: rebinding for JAX arrays, mutation for NumPy arrays; modelled where observable (C24).

## 3. Trusted base

* The Coq kernel (also `coqchk`).
* Axioms: those of the standard library's reals (`ClassicalDedekindReals.sig_forall_dec`, `sig_not_dec`),
  `functional_extensionality_dep`, `Classical_Prop.classic`, `Epsilon.epsilon_statement` /
  `constructive_indefinite_description`.  `Print Assumptions` is under each theorem; section 6 tabulates the result.
* The reading of Python/JAX semantics written down in section 2 and in the comments of the `M_*` files.

Modelled: every function of `bayesian_sde_solver` except plotting/IO (there is none).
Not modelled: floating point, `jit`/`vmap` batching rules and `jnp.vectorize` (a function is modelled at one batch
element), random bit generation, tqdm rendering, `solver_commutativenoise` (raises NotImplementedError), plotting and
file output of `scripts/` (the computations of the experiment scripts are modelled, C88-C98), `tests/` (the quantities
measured by test_foster.py and test_euler.py are modelled in `M_Tests.v`, C106 and C107, and C109 states what `test` of
test_end_to_end.py measures for ekf0 and ekf0_2, C114 what test_gbm_moment of test_euler_maruyama.py measures, C116 test_diag_15_scheme.py and the synaptic mean in
test_exact_hypoelliptic_diffusion_15_scheme.py, C117 the local covariances of the two test_harmonic_oscillator of the 1.5
schemes; the rest is only read, to see how
the API is used).

## 4. Properties: what is modelled and how it is proved

* **C01 interlace layout is exact and invertible** - `M_Utils.interlace` at list level (vstack, column-major reshape); length, nth and slice lemmas by `mkseq` arithmetic; matrix-level twin shown equal.
* **C02 interlace_matrix is the covariance of the interlaced vector** - `M_Utils.interlace_matrix` as the four strided overwrites of the block matrix; entry lemma by case on index parity; psd via congruence with the permutation.
* **C03 insert prepends the initial value** - `M_Utils.insert` on lists and tuples of lists.
* **C04 dim-replicated priors act coordinate by coordinate** - `1%:M *t A` applied to interlaced states, entrywise via `tensmxE`.
* **C05 the parabola path has the prescribed end points, slope and area** - `M_Foster.eval_parabola`; `is_derive`, `is_RInt` from Coquelicot.
* **C06 the sampled parabola has the Brownian second moments** - expectation operator, `parabolas` as function of the draws; linearity.
* **C07 the coarse parabola of get_approx_fine matches the fine path** - `get_approx_fine` scan; invariant of the scan = partial increment / partial integral; exact integral of the piecewise path.
* **C08 aggregated coefficients keep the parabola law** - closed form of the scan as weighted sums, sums of squares of the weights.
* **C09 get_approx_and_brownian summarises its own Brownian path** - model with clamped gather and trapezoid over N samples; closed form of the defect; `_refuted` with a concrete instance.
* **C10 the fine coefficients returned by get_approx_fine can be evaluated** - `_refuted` plus exact ratio.
* **C11 Ito/Stratonovich conversions are mutually inverse** - pointwise algebra over the model of both conversions.
* **C12 the conversion uses the Kloeden-Platen correction** - `drift_correction` einsum unfolded; derivative lemmas; chain rule for linear change of coordinates.
* **C13 sde_solver returns aligned grids** - scan length lemmas.
* **C14 sde_solver solves the parabola ODE on every interval** - nth of scan outputs.
* **C15 sde_solver is causal and restartable** - scan over concatenation; prefix lemma.
* **C16 pure noise is reproduced exactly by the EKF0 based solver** - uses C37 closed form of EKF0, and Riemann sum of the linear derivative for Euler.
* **C17 euler is the explicit Euler scheme** - fold over linspace.
* **C18 euler converges with order one** - discrete Gronwall + Taylor-Lagrange.
* **C19 Euler-Maruyama recursion and grid** - fold over linspace.
* **C20 the three Euler-Maruyama entry points agree** - pointwise equality of scan bodies.
* **C21 chunked Euler-Maruyama equals the uninterrupted run** - scan over concatenated increments.
* **C22 Euler-Maruyama of integrated Brownian motion has the closed form** - induction on the number of steps.
* **C23 moments of Euler-Maruyama on linear problems** - induction with the i.i.d. expectation operator.
* **C24 pathwise increments are not modified** - buffer model (mutable/immutable), two-call history.
* **C25 the 1.5 scheme is right for additive noise** - jacobian/hessian of constants, algebra.
* **C26 the 1.5 scheme for multiplicative scalar noise** - one dimensional instance; `_refuted` with a concrete sigma, exact difference.
* **C27 the joint noise covariance of the 1.5 scheme is the Brownian one** - entrywise + Schur/explicit square.
* **C28 the hypoelliptic scheme draws from a genuine covariance** - explicit factorisation of the covariance.
* **C29 mean step of the 1.5 schemes** - algebra; hessian of linear maps.
* **C30 square-root and plain prediction agree** - `tria` via the QR contract.
* **C31 square-root and plain update agree** - uniqueness of block triangular factor products (Schur complement).
* **C32 square-root and plain filters agree over whole runs** - induction on the scan with the relation P = L L^T.
* **C33 filter covariances stay covariances** - invariant of the scan; Joseph form.
* **C34 the update is the optimal linear correction** - completion of the square.
* **C35 noise-free updates reproduce the observed quantity** - algebra on `update` with R = 0.
* **C36 EKF0 and EKF1 linearise as documented** - dual numbers.
* **C37 EKF0 with integrated Brownian prior is a predictor-corrector scheme** - induction with the covariance of the form I (x) diag(p,0).
* **C38 EKF0 posterior variance in closed form** - same induction.
* **C39 EKF0 based integration converges with order two** - scalar/vector recursion, Gronwall for the pair (x,v), Taylor.
* **C40 prior scale only scales the uncertainty** - induction on the scan with scaled covariances.
* **C41 mle_diffusion is the maximum likelihood scale** - calculus: log s + c/s is minimal at c.
* **C42 requesting uncertainty output does not change the filter** - simulation of the two scan bodies.
* **C43 order of the calibration outputs** - inspection of the returned tuple; `_refuted`.
* **C44 meaning of the noise argument** - equality of the sqrt model with R R^T; `_refuted` instance.
* **C45 Algorithm 3 propagates a law, not a sample** - non-interference of the scan.
* **C46 samples have the filter's law** - expectation operator.
* **C47 default arguments work** - dynamic model of the None prior; exception for every input.
* **C48 exact initialisation of higher derivatives** - Taylor/chain rule for autonomous fields; `_refuted` with f(x,t)=t.
* **C49 integrated Brownian prior is exact** - nilpotent series; `is_RInt` of monomials.
* **C50 integrated Brownian prior is consistent under step splitting** - binomial theorem; integral additivity.
* **C51 integrated Brownian prior has a Cholesky factor** - Gram matrix of polynomials: quadratic form = integral of a square.
* **C52 integrated Ornstein-Uhlenbeck prior** - `_refuted` at q=0.
* **C53 Matern-3/2 closed form is exact** - series of (-lam I + N)^k; derivatives.
* **C54 Matern general branch** - entry comparison; `_refuted` at k=1.
* **C55 numerically integrated transitions are valid** - positive combination of B B^T.
* **C56 independent priors stay independent** - block diagonal products.
* **C57 padding a prior** - block products; zero row.
* **C58 Algorithm 4 starts from the joint law of field and coefficients** - explicit factor of the covariance; expectation operator.
* **C59 Algorithm 4 observes the same ODE as Algorithm 2** - kron algebra and derivative of eval_parabola.
* **C60 Algorithm 4 solvers run** - dynamic model of the missing keyword argument.
* **C61 ssm_parabola_ode_solver recursion** - scan lemmas.
* **C62 the progress bar accounts for every iteration** - arithmetic on the event list.
* **C63 the progress bar is transparent** - writer model erasure.
* **C64 reference covariances solve the moment equation** - is_derive entrywise.
* **C65 square-matrix variants describe the same SDE** - matrix algebra.
* **C66 FitzHugh-Nagumo reference mean** - `_refuted` + exact defect.
* **C67 synaptic conductance references** - `_refuted` + exact defects.
* **C68 random_linear_sde draws two matrices** - equality for every key.
* **C69 the 1.5 scheme couples independent coordinates** - `_refuted` for two geometric Brownian motions; exact step in any dimension.
* **C70 when the 1.5 schemes return numbers** - both directions through the Cholesky contract; rank conditions as kernel conditions.
* **C71 FitzHugh-Nagumo reference variance** - is_derive entrywise, explicit residual.
* **C72 harmonic oscillator third order variance** - is_derive entrywise, residual t^3 times a constant matrix.
* **C73 linearisations used by Algorithm 4** - dual numbers through `stop_positions` and the Kronecker products.
* **C74 the EKF solvers always return numbers** - H Q H^T is positive definite because H has a right inverse; invariant of the driver's scan.
* **C75 Algorithm 4 with its missing argument supplied** - padded prior = embedding of the two-state prior; C35's exactness lemma.
* **C76 Algorithm 3 starts from the right joint law** - covariance of an affine image of X; psd square root contract in sqrt mode.
* **C77 Algorithm 3 from a point is Algorithm 2** - interlaced zero covariance is zero and the square root of zero is zero.
* **C78 polynomial solutions are followed exactly** - invariant: the predicted mean satisfies the observation, the update keeps it (`ekf_follow`); totality from C74.
* **C79 linear stability** - the state covariance stays of rank one per coordinate, giving the scalar recursion `Spec.dahlquist`; lower bound for EKF0 from the PEC form (C37).
* **C80 quadrature error of transition_function** - second derivative of t -> (e^{tF}L)(e^{tF}L)^T bounded through the entry sum norm; trapezoid error with the sharp 1/12.
* **C81 harmonic oscillator mean and numerical variance** - derivative of expm; Lyapunov equation from integrating the derivative of the integrand; C80.
* **C82 the parabola is the best predictor of the path** - bilinear expansion of the three second moments, integrals of min; Pythagoras.
* **C83 splitting a run of the filter** - the filter over a concatenated grid; shift of the clock.
* **C84 related fields give related EKF solutions** - a pair of linear maps intertwining two filters (state map p (x) 1) is preserved by predict and update; product fields and permutations are instances; square-root mode through C44.
* **C85 whole runs of the order 1.5 schemes** - `scan` unfolded into a recursion on split keys; a linear chain driven by independent keys has mean A^n x0 and the usual covariance recursion (`L_Chain.chain_moments`); non-singularity of the drawn covariance makes every state a number.
* **C86 joint law of Algorithm 4's output** - affine image of standard draws by the filter's factor; the filter covariance is psd along the run.
* **C87 Algorithm 4's coefficients are not Brownian** - the covariance invariant after n updates is carried explicitly (`inv4`): increment untouched, precision of the second coefficient grows by 24 h/(delta^4 s^2) D^T D per update (Woodbury), state minus D path uncorrelated with the coefficients. Reason: the filter treats the slope's Brownian prior as information about the path.
* **C88 low-memory and plain experiments** - `M_Scripts.ram_solver` carries the pair (filter state, fine Euler-Maruyama state) through `scan`; the second component is cut out of one long pathwise run (`C21`-style chunking). The refutation is a geometric Brownian motion, one step, any draws.
* **C89 EM_FHN** - the same with two Euler-Maruyama states; the sum of the fine increments is the coarse one by `parabolas_fine`'s definition of the path.
* **C90 local order script** - `local_reference` as written (`standard` left False while the increments are rescaled); the factor is carried into the diffusion.
* **C91 breaking_multidimensionnal** - `arange 0 delta M` has one entry for delta <= M, and JAX clamps the out-of-range reads; the difference from the docstring's sum is an identity of matrix exponentials. Refutation with a nilpotent A.
* **C92 posterior samples** - Cholesky factor of a block diagonal matrix is block diagonal (uniqueness); `L^T L = L L^T` for triangular L with positive diagonal forces L diagonal.
* **C93 calibration** - the whole Algorithm 3 run is equivariant under scaling the prior (means unchanged, covariances times a^2, square-root factors up to sign), then `mle_diffusion` scales by 1/a^2.
* **C94 RAM_2 scripts** - `sols[0]`/`sol2[0]` modelled as tuple and array indexing respectively.
* **C95 sampling script** - `wrapped_euler` is `euler`; the increments used by the two reference runs are those of the filter run because both solvers split the keys alike.
* **C96 which scripts return** - uses C75-style totality for the filter call inside `ram_solver`; the mixed-order prior is positive semidefinite with a singular factor (Cholesky fails) but a regular innovation covariance. Not modelled: `strong_convergence_parabola_ode.py` imports `progress_bar_scan`, a name the package does not define, so it stops at import; `pathwise_convergence_experiment_3_ssm.py` calls Algorithm 4 and raises (C60).
* **C97 linear equations** - `L_Linear.voc`: an affine ODE solution is the variation of constants integral. The covariance of one interval is the projection of s -> exp((h-s)A)S on the polynomials of degree one, so the deficit is a squared distance (psd) and `L_Proj.proj_small` bounds it by h^5/80 times the squared Lipschitz constant of the derivative. The exact integrator is a hypothesis (`Spec3.solves_affine`), shown inhabited in the example.
* **C98 Lipschitz experiment** - `M_Lipschitz` is the script for one coordinate (the default `dim=1`). The trapezoidal sum of |v| is compared with |a| (triangle inequality), with |a| + sqrt6/2|b| (`W_abs`) and in mean with its second moment. The hypothesis on E exp(|xi0| + sqrt3/2|xi1|) is about 6.5 for normal draws, which covers delta <= 1e-4, the script's range. Its docstring's bound is for any delta: refuted for delta >= 9 by e^L >= 1 + L^2/2.
* **C99 linear equations, sub-stepped solvers** - the affine field makes each inner step affine, so an interval is `P x + U a + V b`; `Spec3.mpec` states predict-evaluate-correct for matrices without reference to the filter. C37 turns the EKF0 call into that recursion, and the EKF0 driver (on `res`) is shown to stay in `Val`. For A^2 = 0 the powers are summed in closed form.
* **C100 EKF1 has order two** - the position-conditioned covariance stays of the form `sigma^2 F W F^T` with `F = sel0^T + sel1^T J`: after an exact observation the slope is a function of the position. `L_Ekf1.e1_step` turns one filter step into a step on `(m, W)`; the innovation matrix is at least `(h/4) I`, so it never needs the data to be nice. The gain is `h/2 I` up to a bounded multiple of `h |D| + h^2`, `D` the change of the Jacobian over a step, which gives the trapezoidal rule up to `O(h^3)`; position, slope and linearisation errors are propagated together (`rec_step`). Example: x' = cos(x)^2, so n steps give pi/4 within C/n^2.
* **C101 pathwise error for additive noise** - no probability: the theorem holds for every key and every path that has the drawn increments. The error is measured after subtracting `S (W - parabola)`, which vanishes at both ends of an interval, so the distance `eta` enters only through the Lipschitz constant. `gronwall` (L_Gronwall.v) is proved by Picard iteration of the bound, without integrals. For Euler the parabola is integrated with an error `sqrt(6) S b / M^2` per sub-step, that is `sqrt(6) beta / M` per interval, which gives the term `beta/(M delta L)`; the EKF0 corrector is the trapezoidal rule, exact on the derivative of a parabola, so only the predictor error `beta/M^2` remains. Example: W = parabola + t(1 - t), f = W - z, X = W + e^(-t).

* **C102 law of the parabola of a sampled path** - the second coefficient is written as a combination of the N normal draws (`wb` in L_BmLaw.v) from the exact value of C09: weights (N-2)/(2N) for the first two draws and (N+3-2k)/(2N) for draw k. The wrong indices of C09 therefore bias the law by O(1/N) and correlate the pair; with the default N = 1000 the correlation is about 0.0035. N = 1 is treated apart (`C102_one`): the area coefficient is then a multiple of the increment. Example: fair signs, N = 1000.
* **C103 geometric Brownian motion through the driver** - `C103_exact` gives the path in closed form with the converted drift, `C103_unconverted` the factor between the two runs, `C103_law` all mixed moments in terms of the law of one draw, `C103_gaussian` the declared mean and variance, `C103_unconverted_refuted` shows the mean wrong without the conversion, `C103_euler` is the product form and pathwise bound with Euler sub-steps. The integrator exact for diagonal equations is `diag_solver`; the draws of the example take three values whose exponential moments at s and 2 s are those of the standard normal.
* **C104 declared variances as covariances** - a 2x2 symmetric matrix with positive corner is psd iff its determinant is nonnegative, which gives equivalences, not only sufficient conditions; the closed forms of the integrated Brownian motions are written as sums of squares, the trapezoidal sum as a sum of Gram matrices with nonnegative weights.
* **C105 strong error against the fine path** - the covariance of the fine noise of an interval with the coarse coefficients (a, b) is computed by recursion over the pieces (`I0_add`, `J1_add` split the two moment integrals of e^(A s) S); it equals that of the coarse noise, so the error is orthogonal to the run and its second moment is a difference of covariances. The bounds are then those of C97. `Spec5.follows` describes the reference solution piece by piece, with derivatives of the path and of the solution.
* **C106 what test_path_integral measures** - `M_Tests.path_integral` is the body of the test at one key; the trapezoidal sum of a quadratic by induction; second moments from C06, C08, C102.
* **C107 what test_euler measures** - 1 + x >= exp(x - x^2/2) for x >= 0 by the mean value theorem; monotone Riemann sum of sin.
* **C108 equations with an explicit solution** - the chain rule along the parabola makes X(t, W(t)) a solution of every interval equation (Wong-Zakai, Doss-Sussmann); Gronwall over the intervals; the example is the Ito equation dX = (sqrt(1 + X^2) + X/2) dt + sqrt(1 + X^2) dW, which `to_stratonovich` turns into one solved by sinh(t + W).
* **C109 weak error with EKF0 sub-steps** - the law of C99 for the scalar equation of `test_end_to_end.py`, compared with the exact mean and variance by elementary bounds on the exponential; the constants do not depend on the number of sub-steps. The test itself leaves the prior out, which raises (`C109_default_refuted`).
* **C110 one prior for the whole trajectory** - after a noise-free EKF1 update on an affine field the state lies on the constraint (C35), so the joint law rebuilt by `init_joint` is the filter's state and C83 glues the calls; square-root mode through C32. EKF0 by induction over the intervals from the closed forms of C37 and C45.
* **C111 Algorithm 4 with one step per interval** - the covariance is C87 at N = 1; the mean because the gain on x - D W(delta) is delta/2 whatever D. The driver is C61; the law of a chain driven by independent keys is a general lemma over conditional means and covariances. The solver is the repaired one (`marginal_xi (fun _ => Some 0)`); the shipped one raises (C60, C61).
* **C112 What the shipped test problems describe** - the root of x^3 + x/2 + 4/5 by the intermediate value theorem and monotonicity; the derivatives used for C66; energies from the mean equation of C81. The refutation is a consequence of the shifted index of C67: both equations then prescribe the same coordinate.
* **C113 What a run of the solver does not depend on** - simulation between two runs of the driver, interval by interval; EKF0 by C84 or, with the integrated Brownian prior, C37. The unit of time uses the scaling of the parabola's coefficients with sqrt(dt).
* **C114 Euler-Maruyama on geometric Brownian motion** - the moments of C23 and two elementary inequalities, exp(h - h^2/2) <= 1 + h and exp(3h - 7h^2/2) <= 1 + 3h + h^2 for h >= 0, by differentiation. Mean-square stability: the growth factor of the second moment is 1 + s h, bounded above by exp(s h) and below by Bernoulli.
* **C115 Euler-Maruyama on the damped oscillators** - the recursion of C23 minus its fixed point is a congruence; the fixed point by solving three linear equations, its denominator factors into the two stability conditions of the step.
* **C116 one-step mean of diag_15_scheme** - linearity of the expectation; the generator form of the drift terms is that of C25/C26. For the synaptic problem the derivatives of sqrt are computed along the second axis only, the index slip of C67 making both noise intensities functions of it.
* **C117 one step of the order 1.5 schemes on linear problems** - the step is affine in the joint draw, so its covariance is a congruence of that of C27; entries by computation.

A property whose expected form is false of the code is kept in its expected form in the title; the theorem named
`..._refuted` exhibits the failure and companion theorems state exactly what the code does instead.

### Modelling notes for the larger parts

* **LAPACK contracts** (`Linalg.lapack`) are shown inhabited in `Lapack.v` (`some_lapack`): QR and Cholesky by
  induction on the size, the psd square root by the monotone iteration for sqrt(1-B).
  `solve(assume_a='pos')` reads the upper triangle only (`symup`), as LAPACK does; on a symmetric matrix this is no change.
* **EKF solvers** (`M_OdeSolvers`): `prior` and `noise` are optional arrays of run-time shape (`any_transition`,
  sigma-types), so assertion failures, `None` arguments and unusable state counts are outcomes, not preconditions.
  Simplification: the three arrays of one prior fit together.
* **Algorithm 4** (`M_Ssm`): the keyword `xi` that the shipped call omits is an option; Python binds arguments before the
  body runs, so the exception comes first.  `lax.scan` traces the body even for N = 0; the trace is represented by one call
  at the initial state, since Python exceptions depend on shapes only.

### Findings (expected statement false of the code; each has a `_refuted` theorem and an exact companion)

| property | what the code does |
|---|---|
| C09 | the trapezoid of `get_approx_and_brownian` reads indices 1..N of an array of length N (the last read is clamped) and uses N-1 intervals |
| C10 | the fine second coefficients of `get_approx_fine` are divided by sqrt 6 and no longer fit `eval_parabola` |
| C24 | `solver_pathwise` scales a NumPy argument in place when `standard` |
| C26, C69 | `diag_15_scheme`: the last correction lacks the factor eta (order-h bias of the mean), and dot products are broadcast over coordinates |
| C43 | `ekf0_2`/`ekf1_2` with `return_all` unpack (z, S) in the opposite order |
| C44 | `noise` is a covariance in plain mode and a factor in square-root mode |
| C47 | `ekf0`/`ekf1` without a prior raise although `prior=None` is the default |
| C48 | second derivative initialised without the time derivative of the field; initial covariance of `ekf1` uses block instead of interlaced indices; `ekf0` raises for four or more states |
| C52 | `IOUP` covariance ignores theta |
| C54 | the general Matern branch uses negative powers of lambda |
| C60 | the Algorithm 4 solvers raise TypeError on every usable input |
| C66, C67 | sign and index slips in the reference moments |
| C68 | drift and diffusion matrix drawn from the same key |
| C88 | the low-memory scripts use the Stratonovich drift in the Ito reference scheme (harmless for additive noise) |
| C90 | `local_order_experiment_from_scratch.py`: no prior (raises); reference noise scaled by sqrt(1/h) |
| C91 | `arange(0, delta, M)` has one node, so the stochastic integral loses its weights |
| C92 | posterior samples multiply by the transposed Cholesky factor |
| C93 | recalibration replaces the scale by sqrt(v) instead of multiplying it |
| C94 | `sol2[0]` keeps one reference path for all samples |
| C96 | `pathwise_convergence_experiment_2.py` passes a (1,1) noise for a two-dimensional problem |
| C97 | the piecewise parabola with an exact ODE solver does not reproduce the covariance of a linear SDE; error of order h^4, zero when A(A S) = 0 |
| C98 | the plotted bound on E exp(L) fails for delta >= 9 |
| C99 | with M EKF0 steps per interval the variance of integrated Brownian motion is too large by n h^3 (c + 3 c^2), c = 5/(6 M^2) - 1/(2 M^3); with M Euler steps the variance of pure noise is too large by the factor 1 + 3/M^2 |
| C102 | `get_approx_and_brownian` returns a correlated pair: covariance sqrt(6) dt (N-2)/N^2 instead of 0, second variance dt/2 (1 - 13/N^2 + 18/N^3); the area variance is too large by a factor 1 + 3/N + O(1/N^2) |
| C103 | The driver integrates the Stratonovich equation. Giving it an Ito drift without `to_stratonovich` multiplies the paths of `gbm` by exp(b^2 t/2); with the conversion mean and variance are exact for every step size. |
| C104 | `fhn`'s variance expansion is not positive semidefinite for t > 1/4 (its determinant is proportional to t^4 (1 - 4t)); `harmonic_oscillator_square`'s for t > (3 + 2 sqrt 6)/5 |
| C106 | `test_path_integral` cannot see the bias of C102: the exact covariance of the sampled-path variant is too small by h^3/1000, the tolerance is more than ten times larger |
| C109 | the `ekf0` and `ekf1` cases of `tests/test_end_to_end.py` call the solvers without a prior and raise `TypeError`; with the prior supplied EKF0 is within 1/1000 of the references, where the test allows 1/10 |
| C110 | "one prior for the whole trajectory" (docstring of ekf0_2.py) is false for EKF0, which rebuilds the derivative at the posterior mean: it has the means of Algorithm 2; true for EKF1 on affine equations, where Algorithm 3 therefore differs from Algorithm 2 |
| C111 | Algorithm 4, once repaired, is only of weak order one on additive noise: the local covariance is delta D D^T whatever the drift, so the variance on dX = aX dt + s dW is short by a relative a delta; the tests' delta = 1/1000 and tolerance 1/10 hide it |
| C112 | `synaptic_conductance_reduced` has no rest state: because of the shifted index both equations prescribe the inhibitory conductance, one 17.8 and the other 9.4 |
| C116 | in dimension d the last correction of `diag_15_scheme` shifts the one-step mean by h (d/3 - 1)/2 times derivatives of the diffusion (zero for d = 3); on `synaptic_conductance_reduced` the shift is positive, about 10^-7 at the step of the test |

## 5. Mutation testing

`seeded/LOG.jsonl`: one line per edit of the model in a scratch copy, with the theorems whose proofs could not be
completed for the edited model (proofs of failing lemmas are replaced by a marker axiom and the property theorems whose
`Print Assumptions` then mention a marker are listed). 395 edits so far. Six survive and change nothing a caller can
see (their notes say why). Twenty-seven survived at first and led to new or stronger theorems, which now fail for the edit.
Four edits produce the program one would expect; they break the theorems that refute the expected claim. One further edit did not typecheck and is
not listed.

## 6. Assumptions per theorem

As reported by `Print Assumptions` (regenerate with `tools/assumptions.py`). Axioms that occur at all:

1. `ClassicalDedekindReals.sig_forall_dec`
2. `ClassicalDedekindReals.sig_not_dec`
3. `ClassicalEpsilon.constructive_indefinite_description`
4. `Classical_Prop.classic`
5. `Epsilon.epsilon_statement`
6. `FunctionalExtensionality.functional_extensionality_dep`
7. `IndefiniteDescription.constructive_indefinite_description`

**none** (6 theorems): `C01_interlace_layout`, `C01_interlace_rejects`, `C03_insert_array`, `C03_insert_tuple`, `C62_progress_accounting`, `C63_progress_transparent`

**axioms 1, 5, 6** (50 theorems): `C46_output_law`, `C46_output2_law`, `C48_initial_cov`, `C48_initial_cov_refuted`, `C17_euler_recursion`, `C17_euler_linear`, `C17_euler_scalar`, `C17_euler_quadrature`, `C30_predict_sqrt`, `C33_predict_psd`, `C41_quadratic`, `C41_inverse`, `C41_recalibration`, `C41_outcome`, `C65_ibm`, `C65_fhn`, `C67_reduced_drift`, `C67_reduced_drift_refuted`, `C68_same_draw`, `C68_separate_draws_refuted`, `C68_correlation`, `C71_default`, `C72_noise`, `C37_heun`, `C54_char`, `C54_char_refuted`, `C54_char_iff`, `C56_predict`, `C56_uncorrelated`, `C56_copies`, `C56_returns`, `C57_predict`, `C57_rejected`, `C57_no_cholesky`, `C104_ibm`, `C104_fhn`, `C104_harmonic3`, `C104_expansions_refuted`, `C92_stacking`, `C61_recursion`, `C61_exception`, `C01_state_vector`, `C02_interlace_matrix_blocks`, `C02_interlace_matrix_outer`, `C02_interlace_matrix_psd`, `C112_synaptic_rest`, `C112_reduced_rest_refuted`, `C112_starts`, `C115_equation`, `C115_stationary_iff`

**axioms 1, 2, 5, 6** (76 theorems): `C102_law_refuted`, `C102_law`, `C102_one`, `C19_pathwise_recursion`, `C19_pathwise_length`, `C19_key_recursion`, `C20_key_is_pathwise`, `C20_standard_flag`, `C20_noise_free_is_euler`, `C21_chunked`, `C22_ibm_closed_form`, `C23_linear_moments`, `C23_gbm_moments`, `C24_caller_array_kept`, `C24_caller_array_refuted`, `C24_caller_array_exact`, `C06_coefficients_law`, `C08_aggregated_law`, `C09_endpoint_and_defect`, `C09_area_refuted`, `C10_fine_coefficients`, `C10_fine_coefficients_refuted`, `C11_conversions_inverse`, `C12_correction_formula`, `C12_correction_columns`, `C12_additive_noise`, `C12_linear_coordinates`, `C67_reduced_ignores_G_E`, `C67_reduced_noise`, `C67_noise`, `C98_mean`, `C36_residual`, `C36_ekf0_jacobian`, `C36_ekf1_jacobian`, `C04_ioup`, `C04_matern`, `C52_A`, `C55_psd`, `C55_xi`, `C55_exact`, `C56_matern`, `C104_harmonic`, `C104_harmonic3_default`, `C85_diag_run`, `C85_hypo_run`, `C25_additive_noise`, `C26_exact_difference`, `C26_mean_bias`, `C26_textbook_mean`, `C26_textbook_step_refuted`, `C29_hypoelliptic_step`, `C88_pairs`, `C88_additive`, `C89_same_path`, `C89_total`, `C90_reference`, `C90_standard`, `C90_reference_refuted`, `C91_step`, `C93_driver`, `C94_saved`, `C95_curves`, `C13_aligned_grids`, `C14_interval_ode`, `C15_causal`, `C15_restart`, `C58_initial_psd`, `C112_gbm`, `C112_noise`, `C113_noise_free`, `C113_coordinates`, `C113_coordinates_em`, `C113_time_unit_em`, `C115_covariance`, `C115_oscillator`, `C116_mean`

**axioms 1, 5, 6, 7** (3 theorems): `C92_law`, `C92_exact`, `C92_covariance_refuted`

**axioms 1, 2, 4, 5, 6** (121 theorems): `C48_initial_mean`, `C48_exact_iff`, `C48_parabola`, `C48_time_dependent_refuted`, `C102_area`, `C108_exact`, `C108_any`, `C108_euler`, `C18_euler_order1`, `C82_best_parabola`, `C41_mle_maximises`, `C05_parabola_path`, `C06_path_law`, `C07_coarse_matches_fine`, `C07_coarse_unique`, `C09_path`, `C103_exact`, `C103_unconverted`, `C103_law`, `C103_gaussian`, `C103_unconverted_refuted`, `C103_euler`, `C12_scalar`, `C12_diagonal`, `C64_ibm`, `C64_double_ibm`, `C64_gbm`, `C66_exact_difference`, `C66_mean_refuted`, `C66_mean_error`, `C67_reduced_mean`, `C67_reduced_mean_error`, `C67_mean_difference`, `C67_variance_difference`, `C67_mean_refuted`, `C67_mean_error`, `C67_variance_default`, `C67_variance_refuted`, `C71_fhn_variance`, `C72_harmonic_variance`, `C99_euler`, `C99_euler_noise`, `C97_step`, `C97_law`, `C97_covariance`, `C97_exact`, `C97_exact_refuted`, `C98_pathwise`, `C98_bound`, `C98_bound_refuted`, `C80_covariance`, `C80_shift`, `C80_matern`, `C81_mean`, `C81_lyapunov`, `C81_variance`, `C16_pure_noise_euler`, `C36_true_jacobian`, `C101_any`, `C101_euler`, `C49_ibm_exact`, `C50_split`, `C51_cholesky`, `C52_Q_refuted`, `C52_Q_iff`, `C52_split_iff`, `C53_exact`, `C53_split`, `C53_psd`, `C54_branches_iff`, `C104_gbm`, `C85_diag_moments`, `C85_hypo_moments`, `C27_joint_covariance`, `C27_closed_form`, `C28_hypoelliptic_covariance`, `C29_linear_drift_hypoelliptic`, `C29_linear_drift_diag`, `C69_gbm_step`, `C69_independent_coordinates_refuted`, `C70_hypoelliptic_numbers`, `C70_diag_numbers`, `C88_multiplicative_refuted`, `C91_gap`, `C91_formula_refuted`, `C94_paired`, `C94_pairing_refuted`, `C58_initial_law`, `C58_parabola_law`, `C59_same_field`, `C73_ekf0_jacobian`, `C73_ekf1_jacobian`, `C73_residual`, `C105_reference`, `C105_strong`, `C105_once`, `C105_twice`, `C106_value`, `C106_law`, `C106_law_fine`, `C106_law_brownian`, `C106_tolerance`, `C107_exponential`, `C107_sin`, `C107_tolerance`, `C112_fhn_rest`, `C112_ibm_path`, `C112_double_ibm_path`, `C112_oscillators`, `C113_time_unit`, `C114_weak`, `C114_test`, `C114_stability`, `C116_synaptic`, `C116_test`, `C116_mean_refuted`, `C116_synaptic_full`, `C117_linear`, `C117_diag`, `C117_hypo`, `C117_tests`

**axioms 1, 3, 4, 5, 6** (12 theorems): `C31_update_sqrt`, `C31_defined`, `C32_ekf_sqrt`, `C32_ekf_sqrt_state`, `C33_update_psd`, `C33_ekf_psd`, `C34_optimal`, `C40_scale`, `C40_scale_sqrt`, `C42_same_state`, `C42_last_outputs`, `C35_filter`

**axioms 1, 2, 3, 4, 5, 6** (85 theorems): `C43_shapes`, `C43_values`, `C43_ibm_refuted`, `C44_ekf0_factor`, `C44_ekf1_factor`, `C44_alg3_factor`, `C44_agree`, `C44_same_noise_refuted`, `C44_one_step`, `C45_sample_ignored`, `C45_no_key`, `C45_law_of_run`, `C45_ibm_run`, `C45_ibm_call`, `C46_ekf0`, `C46_ekf1`, `C47_no_prior_refuted`, `C47_alg3_default`, `C48_ekf1_runs`, `C48_ekf0_runs`, `C111_heun`, `C111_linear`, `C111_weak`, `C111_second_order_refuted`, `C111_tolerance`, `C111_ibm`, `C100_one_step`, `C100_order2`, `C109_default_refuted`, `C109_weak`, `C109_tolerance`, `C109_alg3`, `C83_split`, `C84_ekf0_subsystem`, `C84_related`, `C84_product`, `C84_permutation`, `C99_ekf0`, `C99_nilpotent`, `C99_ibm`, `C110_ekf1`, `C110_ekf0`, `C110_ekf0_refuted`, `C110_algorithm2_refuted`, `C76_initial_law`, `C76_same_run`, `C77_ekf0`, `C77_ekf1`, `C78_linear`, `C78_quadratic`, `C79_recursion`, `C79_one_step`, `C79_stable`, `C79_ekf0_unstable`, `C16_pure_noise_ekf0`, `C35_solver`, `C37_ekf0_pec`, `C38_ekf0_cov`, `C38_sample_law`, `C39_ekf0_order2`, `C101_ekf0`, `C86_output_law`, `C87_brownian_refuted`, `C87_law`, `C90_raises`, `C93_estimate`, `C93_scale`, `C93_outcome`, `C93_right`, `C93_calibrated_refuted`, `C96_numbers`, `C96_noise`, `C96_mixed_orders`, `C60_runs_refuted`, `C60_outcome`, `C61_algorithm4`, `C74_ekf0`, `C74_ekf1`, `C74_ode_run`, `C74_alg3_run`, `C75_returns`, `C75_exact`, `C113_coordinates_ekf0`, `C113_coordinates_ibm`, `C113_time_unit_ekf0`
