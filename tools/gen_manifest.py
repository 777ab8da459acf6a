#!/usr/bin/env python3
"""Write MANIFEST.json: theorem names are collected from rocq/theories/T_*.v by
their C<nn>_ prefix; status and notes come from the table below."""
import glob, json, os, re
root = os.path.dirname(os.path.dirname(os.path.abspath(__file__)))
STATUS = {}   # property -> status when not simply "proved"
NOTES = {
 "C01": "Layout and strided slices for any number of arrays and any element type; unequal lengths raise.",
 "C02": "Strided blocks, outer products and quadratic forms of interlace_matrix.",
 "C03": "Array and tuple forms of insert at position 0.",
 "C05": "End points, derivative as taken by jax.jacfwd, and integral, per coordinate.",
 "C06": "Second moments of the coefficients, and of increment and area of the evaluated path; expectation over keys.",
 "C07": "Same increment and integral as the piecewise fine path; the pair with that property is unique.",
 "C08": "Expectation operator of independent sub-keys, every N and dimension.",
 "C09": "Expected statement refuted for the area coefficient (eps_1); exact defect proved, also for the evaluated path; eps_0 proved.",
 "C10": "Expected statement refuted; the returned pair evaluates right after multiplying the second member by sqrt 6.",
 "C11": "Both orders, for all drifts and diffusions.",
 "C12": "Componentwise formula, column form, additive, scalar and diagonal cases, linear changes of coordinates.",
 "C13": "Every N including 0.",
 "C14": "Every interval, polymorphic in the carried state of the integrator.",
 "C15": "Causality and restart.",
 "C17": "Recursion, linear fields (matrix power), scalar fields, quadrature; every N including 0.",
 "C18": "Global error bound in the maximum norm for Lipschitz fields, with its exponential form.",
 "C19": "Pathwise and keyed entry points, both flags; wrong number of increments raises.",
 "C20": "Keyed = pathwise on the same draws; flag = pre-scaling; noise-free = euler.",
 "C21": "Any list of chunks.",
 "C22": "Every N, h, flag, initial state and increments.",
 "C23": "Linear drift with constant diffusion, and geometric Brownian motion in any dimension; expectation over keys.",
 "C24": "Expected statement refuted for NumPy buffers with standard=True; exact behaviour proved; holds otherwise.",
 "C25": "All drifts, dimensions, draws; any sigma with diagonal sigma sigma^T.",
 "C26": "Expected statement refuted; exact difference and mean bias proved.",
 "C27": "Covariances defined from the kernel min(s,t) by iterated integrals.",
 "C28": "Congruence with the Brownian covariance; positive semi-definite.",
 "C29": "Generator form for every draw; linear drift for both schemes.",
 "C69": "Expected statement refuted; exact step for geometric Brownian motions of any dimension.",
 "C70": "Both directions, via the Cholesky contract.",
 "C66": "Expected statement refuted; exact difference for all constants.",
 "C67": "Expected statements refuted; exact differences for all constants and initial states.",
 "C68": "Expected statement refuted: same matrix for every key; correlation 1 where separate draws give 0.",
 "C30": "Every QR routine meeting the contract; such routines are shown to exist (Lapack.v).",
 "C31": "Same mean, factors of the same covariances, NaN together; defined exactly when S is positive definite.",
 "C32": "Whole runs, with and without the calibration outputs.",
 "C33": "Plain mode; in square-root mode covariances are factor times transpose by construction.",
 "C34": "For every expectation operator whose errors have covariances P and R and are uncorrelated.",
 "C40": "Plain and square-root mode, including the calibration outputs.",
 "C41": "Strict unique maximiser when some residual is nonzero; otherwise the likelihood decreases in s and 0 is returned. C41_outcome: exactly when it raises, is NaN or returns.",
 "C42": "State unchanged; last residual and last innovation covariance in closed form, both modes.",
 "C04": "IOUP and Matern priors; means, covariance blocks and cross blocks of one prediction.",
 "C49": "Entrywise, every order, step and dimension; matrix exponential defined by its series.",
 "C50": "Every real s and t.",
 "C51": "Positive definite by controllability; Cholesky routine as a contract.",
 "C52": "Expected statement refuted: Q is the transition covariance, and steps can be split, exactly when theta = 0; A is right for every theta.",
 "C53": "Matrix exponential and covariance integral, step splitting, (semi-)definiteness.",
 "C54": "Expected statement refuted: characteristic polynomial (z+1/lam)^(k+1), right exactly for lam = 1; branches agree exactly for length = sqrt 3.",
 "C55": "Every number of nodes for positive semi-definiteness, at least two for exactness.",
 "C56": "Any list of transitions, empty list rejected; d copies give the kron prior.",
 "C57": "Predictions, rejection, and absence of a Cholesky factor.",
 "C16": "Every N, M, delta, dimension, prior scale, both filter modes; Euler's defect exact.",
 "C35": "Any observation model, both modes; for the solvers the derivative state is the field at the prediction (EKF1: plus its linearisation).",
 "C36": "Every field and number of states; EKF1's is the Jacobian of the observation where the field has partial derivatives.",
 "C37": "Every field, dimension, N, step and prior scale, both filter modes.",
 "C38": "Filter covariance, and mean and covariance of the returned sample.",
 "C39": "Explicit constant, maximum norm.",
 "C43": "Expected statement refuted: covariance first, residual second, for all inputs; closed form with the integrated Brownian prior.",
 "C44": "Expected statement refuted; the square-root mode with noise V is the plain mode with V V^T, all solvers.",
 "C45": "One call and whole sde_solver runs, any choice of sampling keys.",
 "C46": "Outputs given the filter state, and runs of ekf0 and ekf1; every expectation with standard normal moments.",
 "C47": "Expected statement refuted for ekf0 and ekf1 (all inputs); proved for ekf0_2 and ekf1_2.",
 "C48": "Expected statement refuted: exact if and only if the field's time derivative vanishes (parabola ODE: sigma b = 0); covariance right only in dimension 1.",
 "C58": "Stated for any coefficients with the stated first and second moments and for the package's own; expectations are abstract positive linear functionals.",
 "C60": "Expected behaviour refuted; C60_outcome gives the exact exception for every input. The exception is raised at call time (missing keyword xi), whatever the values.",
 "C61": "Exceptions are raised while jax.lax.scan traces the body (also for N = 0); the trace is modelled by one call at the initial state.",
 "C73": "Jacobian entries are partial derivatives (Coquelicot Derive); no differentiability is assumed because every identity is between functions of one variable.",
 "C74": "Any positive definite prior; ekf0 accepts two or three states per coordinate only (C48).",
 "C75": "About the call with xi = 0, not the shipped one (C60 shows that the shipped call raises).",
 "C76": "Any expectation operator under which X has the given moments; P00 positive semi-definite, prior and noise accepted.",
 "C77": "Values, NaN and exceptions agree; two-state priors given explicitly (the defaults differ, C47).",
 "C78": "Without a sampling key; the noise, if any, is positive semi-definite in plain mode.",
 "C79": "Order 1 integrated Brownian prior, no noise, no sampling key; EKF0's growth is stated for N+2 steps.",
 "C80": "Entrywise bounds; the true covariance is Coquelicot's integral of expm L L^T expm^T. The Matern matrix bounded here is the one the code uses (C54 shows its coefficients are not Matern's).",
 "C81": "Node count is a parameter (1000 in the code).",
 "C82": "Second moments only: any probability model with the Brownian moments.",
 "C84": "Mean output (no key); priors with zero shift and covariance/matrix of the form 1 (x) M, as IOUP and Matern produce; no observation noise; two or three states.",
 "C85": "Recursion for every drift and diffusion; moments for linear drift and constant diffusion (the hypoelliptic scheme needs its covariance positive definite).",
 "C86": "For the call with xi = 0 supplied (marginal_xi); the shipped call raises, see C60.",
 "C87": "For the call with xi = 0 supplied; constant diffusion, integrated Brownian prior of scale sg (default 1), no observation noise.",
 "C88": "Multiplicative noise refuted; the scripts say that they assume additive noise.",
 "C89": "All inputs.",
 "C90": "One dimension, as in the script.",
 "C91": "The reference step; the filter run beside it is that of sde_solver.",
 "C92": "Covariance refuted; exact covariance and exact condition proved.",
 "C93": "The recalibration step is refuted for the script's scale sqrt(10); exact outcome for every scale.",
 "C94": "Pairing refuted; what is saved is proved for every input.",
 "C95": "All inputs.",
 "C96": "Failures are outcomes of the model (Raise, Nan).",
 "C99": "Whole-run mean and covariance of linear equations with M Euler or M EKF0 steps per interval; closed forms for pure noise and for A^2 = 0, including the integrated Brownian motion of the repository.",
 "C100": "Order two for EKF1 with constants fixed before field, step and step count; the reported covariance is of order h^2; one step in closed form.",
 "C101": "Pathwise global error of the driver for additive noise: any accurate integrator (Gronwall), Euler sub-steps and EKF0 sub-steps.",
 "C102": "Expected law refuted for every sample count; exact moments of the coefficients and of the area proved.",
 "C62": "Events of the decorated scan: one Define first, one Close last, exact total, never below the iterations done, at most 1999 updates.",
 "C63": "Carry and outputs unchanged by the decorator.",
}
exec(open(os.path.join(root, "tools", "manifest_notes.py")).read()) if os.path.exists(os.path.join(root, "tools", "manifest_notes.py")) else None
names = {}
for f in sorted(glob.glob(os.path.join(root, "rocq/theories/T_*.v"))):
    for m in re.finditer(r"^Theorem\s+((C\d\d+)_\w+)", open(f).read(), re.M):
        names.setdefault(m.group(2), []).append(m.group(1))
claims = []
ids = [json.loads(l)["id"] for l in open(os.path.join(root, "properties.jsonl"))]
for i in ids:
    if i not in names: continue
    claims.append({"property": i, "status": STATUS.get(i, "proved"),
                   "theorems": names[i], "note": NOTES.get(i, "")})
json.dump({"claims": claims}, open(os.path.join(root, "MANIFEST.json"), "w"), indent=1, ensure_ascii=False)
print(len(claims), "claims,", sum(len(c["theorems"]) for c in claims), "theorems; missing:", [i for i in ids if i not in names])
