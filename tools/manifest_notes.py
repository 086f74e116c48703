P="proved"
notes.update({
"C01":(P,"any list of substates, any dofs"),
"C02":(P,"any nesting depth with non-empty composites; for an empty composite minus raises (C02_empty_refuted)"),
"C03":(P,"any nesting depth"),
"C04":(P,"slice-wise update, extra entries ignored, non-interference; short perturbation raises for vector leaves"),
"C05":(P,""),
"C06":(P,""),
"C07":(P,""),
"C08":(P,"the property as stated is FALSE of the code: C08_plus_by_id_refuted; what the code does is C08_plus_by_id_returns_unchanged"),
"C09":(P,""),
"C10":(P,""),
"C11":(P,""),
})
notes.update({
"C12":(P,"any filter (arbitrary correct/predict which may raise), any stamps in any order; schedule_spec is in RunFilterSpec.v"),
"C13":(P,"any filter satisfying the visible stamp contract"),
"C14":(P,"the property as stated is FALSE of the code when all measurements or all inputs are stale (two _refuted theorems); C14_stale_data_ignored_partial is the part that holds"),
"C29":(P,"note the IMM runner records the estimate before fusing"),
})

notes.update({
"C15":(P,"any process model, any dimension; also default dt, unstamped states, exceptions"),
"C16":(P,"with and without outlier rejection; also predict-then-correct decomposition"),
"C17":(P,""),
"C18":(P,"EKF and sigma-point filter"),
"C19":(P,"promise broken by the EKF (refuted); holds for the iterated and sigma-point filters"),
"C20":(P,""),
"C21":(P,"also: max_iters = 0 always raises UnboundLocalError"),
"C22":(P,"over any archimedean ordered field; diverges for a negative tolerance"),
"C23":(P,"any dimension; cubature needs dimension >= 1"),
"C24":(P,"any square root, any rule with standard moments; equality with the EKF model, with and without input, with and without outlier rejection"),
"C25":(P,""),
"C68":(P,"promise broken by the code"),
"C69":(P,"promise broken by the code"),
"C70":(P,"promise broken by the code"),
"C71":(P,"promise broken by the code; C24_predict shows the stamp is right for models that leave it alone"),
})

notes.update({
"C26":(P,"any number of modes; also total probability and preservation of the mixture's first two moments on vector states"),
"C27":(P,"promise broken for small likelihoods (refuted); C27_gsf_correct_partial is restricted to scalar measurements because of C72"),
"C28":(P,"PSD, single component and stamp results hold for any state type; moments for vector states"),
"C72":(P,"promise broken by the code"),
})

notes.update({
"C30":(P,"any history of add_variable, set_variables_constant, add_residual, solve, get_covariance_block; a variable made constant after a solve keeps its stale columns (C30_stale_columns_refuted)"),
"C31":(P,"both solvers, any residuals, losses, iteration limits"),
"C32":(P,"any residuals and losses, tau >= 0; strict decrease at every recorded step; LM returns on every well-formed problem"),
"C33":(P,"any state type with affine residuals; any number of iterations >= 1"),
"C34":(P,"any losses; duplicate keys and short loss lists break the promise (two _refuted theorems)"),
"C35":(P,"promise broken after a second solve (stale cache) and by Gauss-Newton on nonlinear problems (information of the previous iterate)"),
"C73":(P,"promise broken by Gauss-Newton, kept by Levenberg-Marquardt"),
})

notes.update({
"C36":(P,"real numbers; derivative in the sense of the standard library"),
"C38":(P,"any number of components, any error dimensions"),
"C39":(P,"the constant is the sum of the alphas"),
"C40":(P,"holds for one-dimensional error arrays only; with the (n,1) errors every residual of the library returns, it always raises (refuted)"),
"C41":(P,"fails only for one component with a scalar error (refuted)"),
"C42":(P,"C42_gradient_is_derivative shows that the responsibility-weighted sum is the derivative of the negative log-likelihood"),
"C74":(P,"any components, keys, states and Jacobian requests"),
})

notes.update({
"C37":(P,"any dimension, any states; the square root is the modelled Cholesky factorisation, proved correct in CholProof; None measurements raise (refuted)"),
"C75":(P,"any models with exact Jacobians, any states, derivatives by epsilon-delta; on group states the first process Jacobian is not the derivative unless the error is zero (refuted with the exact value)"),
"C56":(P,"any stamps, offset and tolerance; greedy by increasing difference; docstring length claim refuted"),
"C57":(P,"any number of models, any positive frequency"),
"C58":(P,"int query refuted"),
"C59":(P,"linear method on states with the plus/minus law; documented single queries and unsorted lists refuted; C59_uniform_motion: exact on uniform motion"),
"C60":(P,"any dimension and step; error formulas for quadratics"),
})

notes.update({
"C61":(P,"any dimension, positive definite covariance; also |e_i| <= md*sigma_i; singular covariances raise; the chi-square quantile is any function monotone in the probability"),
"C62":(P,"in-range keys; five documented or natural indexings raise or mix times (refuted)"),
})

notes.update({
"C43":(P,"any data, any process model; rounding is any monotone map that keeps data stamps apart; four ways in which the promise fails are refuted"),
})

notes.update({
"C44":(P,"with and without bias, any state and input matrices depending on the input and the time step; bias correction is exact on the first read of value, the model reads it twice (refuted)"),
"C45":(P,"pose, biases, 15x15 covariance and stamp, both directions; pymlg's Exp, adjoint and right Jacobian are parameters with their laws as hypotheses"),
"C46":(P,"mean and covariance, both directions, any matrix group satisfying group_laws (two instances proved); bias correction has the wrong sign (refuted, with the exact value)"),
"C47":(P,"stamps and copies of all three kinds of increment; copies of corrected increments lose the correction (refuted)"),
"C48":(P,"any rotation, vectors and times"),
})

notes.update({
"C49":(P,"any dimension; random-walk input of the bias variant refuted"),
"C50":(P,"every measurement model of lib/models.py, every state kind, both directions; derivatives by epsilon-delta; pymlg's Exp is any retraction with the right first derivative"),
"C51":(P,"any composite of leaves, any position and order of the two substates; SLAM model refuted for every pose"),
"C52":(P,"altitude, camera bounds and depth; camera validity without the depth test refuted"),
"C63":(P,"any camera and landmark with non-zero depth; composition of the two conversions as written refuted"),
"C76":(P,"any matrix group satisfying lie_laws (Heisenberg group as instance)"),
"C77":(P,"Jacobian and flow proved; documented sign and covariance refuted"),
})

notes.update({
"C53":(P,"process model with the flow property; any rounding of stamps that is monotone and idempotent; independence of schedule and noise; without the flow property when all measurements fall on input times (C53_aligned_*)"),
"C54":(P,"exactly the schedule, stable-sorted, each value at the true state at its own stamp; measurements at the last time are returned empty (C54_rounding_refuted, for every decimal rounding); configuration behaviour incl. four broken promises"),
"C55":(P,"any truth-preserving filter, instantiated with the EKF; stamps equal or more than 1e-11 apart (C55_grid: sufficient condition)"),
})

notes.update({
"C64":(P,"any trajectory in a matrix group with the stated Exp/Log laws; derivatives by epsilon-delta, at knots and between them; rotation part orthogonal"),
"C65":(P,"construction and the exact domain; end_time and max_dt as documented refuted"),
})

notes.update({
"C66":(P,"generic matrix group, both directions, with the Jacobians; instances: Heisenberg group (any ordered field) and SO(2) over the reals with arctan2 (exact range (-pi, pi]); construction, copies, blocks, VectorState; five broken promises"),
})
notes.update({"C67": (P, "Explicit heap of objects, arrays and buffers (HeapModel.v). For every client execution (any sequence of writes to any reachable attribute, list element or array, and of allocations): a copy and its original never affect each other, and the copy reads the same to any depth. Library process models, plus, and predict with such models change nothing that existed; correct keeps the estimate handed in unchanged whatever the models do with what they are given. Refuted: VectorInput.copy shares the covariance; IMUState.copy restamps and renames substates; predict with a model returning its argument restamps the caller's estimate.")})

notes.update({
"C78":(P,"any measurement model and prior, any step size; linear case equals the Kalman filter"),
"C79":(P,"any problem, both solvers, any tolerances and limits"),
})

notes.update({
"C80":(P,"any state type, any dimensions; convergence by epsilon-delta; overridden input_jacobian ignored (refuted)"),
})

notes.update({
"C81":(P,"over Coq's reals with Rodrigues' formula: existence and uniqueness of the solution and equality with it; the small-angle branch refuted for position"),
"C82":(P,"pose, accelerometer and (attitude, velocity) gyro columns, both directions; existence of the right Jacobian of SE_2(3) at every point proved; position rows of the gyro columns refuted"),
"C83":(P,"any number of readings; position part for gyro bias refuted"),
})

notes.update({
"C84":(P,"any depth of nesting and any leaf input; wrong lengths and lost ids of nested inputs refuted"),
"C05":(P,"wrong shapes: ValueError, or repeated single rows (refuted)"),
"C06":(P,"row mismatch: ValueError, or repeated single rows (refuted)"),
"C07":(P,"also: identity for composites of vector states, of any depth"),
"C09":(P,"getters, setters, add, remove; stale dof after set_value_by_id (refuted)"),
})

notes.update({
"C85":(P,"over Coq's reals with the matrix exponential defined by its power series; expm taken as exact, arguments two-dimensional of matching sizes"),
"C86":(P,"moments over any finite distribution with zero mean and identity covariance; singular and scalar covariances and None refuted"),
})

notes.update({
"C46":(P,"any group satisfying the visible laws; SO(2), SO(3), SE(2), SE(3), SE_2(3) over the reals do (C46_real_groups); bias update refuted"),
"C50":(P,"any exponential; the matrix exponential over the reals on every state class (C50_real_groups)"),
"C76":(P,"any group satisfying the visible laws; proved of SO(2), SO(3), SE(2), SE(3), SE_2(3) over the reals with the matrix exponential (C76_real_groups)"),
"C77":(P,"the sign of the first input and the covariance as documented refuted; where the covariance is right, and of what it is the covariance otherwise"),
})

notes.update({
"C87":(P,"any kind of state; truth sorted by stamp, an unsorted truth refuted; interp1d(nearest) modelled by midpoints and searchsorted"),
"C88":(P,"any kind of state with invertible plus/minus Jacobians; exact moments for vector states"),
"C91":(P,"exact real arithmetic and trigonometry"),
"C92":(P,"measurement frequency dividing the input frequency (needed: C92_split_step_refuted shows that the IMU model with a walking bias is not a flow); steps outside the small-angle band of N_matrix (see C81)"),
"C93":(P,"invertible transition matrices; the process covariance of the EKF being B Q B^T with the input covariance Q the sigma-point filter uses; GSF on scalar measurements only (C72)"),
"C94":(P,"expectation is any normalised linear functional with square-integrable variables (a finite weighted sample is one); outlier rejection off; NEES where the reported covariance is invertible (else GaussianResult raises)"),
"C95":(P,"run_filter with the EKF (any states, models, changes of coordinates and clock shifts satisfying the stated relations; stamps of inputs and measurements not None), instances for vectors and for the real groups; the iterated filter for one correction. A sensor that raises is not modelled as raising; on these states none of the five does"),
"C96":(P,"exact arithmetic; for DataGenerator.generate the rounding np.round(., 12) is assumed to commute with the change of stamps (true of shifts by multiples of 2e-12, and of any change if it is not applied), and randomness is an oracle indexed by the sample number"),
"C97":(P,"the general statement (C97_solve) for any states and residuals related as stated; instances for vectors and for the real groups with direction right (for states perturbed on the left the Levenberg-Marquardt damping and the gradient test depend on the frame). Log and the Jacobian of minus are arbitrary functions of Y^-1 X. A residual that raises is modelled as zeros; stamps of variables are those given at the start"),
"C98":(P,"which exception is raised may depend on the order when two modes fail differently; the statement is that both runs fail. The vector statement asks for strictly positive transition probabilities (a zero column divides by zero in the code)"),
"C90":(P,"exact arithmetic; outlier rejection off; a variable of the problem is its value, its stamp fixed by its key; Gauss-Newton only (LM is covered by C32)"),
"C89":(P,"joblib.Parallel taken as an order-preserving map"),
"C11":(P,"any wrapped model; the composite Jacobian is the derivative with respect to the whole state whenever the wrapped one is (C11_jacobian_correct)"),
})
