import json
P=[]
def p(title,statement,quant,why,*anchors):
    P.append(dict(id="C%02d"%(len(P)+1),title=title,statement=statement,quantifier=quant,why_tests_cant=why,anchors=list(anchors)))
CO="navlie/composite.py"; FI="navlie/filters.py"; PR="navlie/batch/problem.py"; UC="navlie/utils/common.py"; UM="navlie/utils/mixture.py"
DG="navlie/datagen.py"; LO="navlie/batch/losses.py"; GM="navlie/batch/gaussian_mixtures.py"; RE="navlie/batch/residuals.py"; ES="navlie/batch/estimator.py"
PI="navlie/lib/preintegration.py"; MO="navlie/lib/models.py"; IM="navlie/lib/imu.py"; ST="navlie/lib/states.py"; CA="navlie/lib/camera.py"; BS="navlie/bspline.py"; TY="navlie/types.py"; AL="navlie/utils/alignment.py"
# --- composite
p("Composite slices partition the degrees of freedom",
  "For a CompositeState, get_slices() returns one slice per substate, in order, each as long as that substate's dof; consecutive slices touch, the first starts at 0 and the last ends at the composite dof, so every index of [0, dof) lies in exactly one slice.",
  "every list of substates of any length, any dofs (including 0), any nesting depth","The number, order and dofs of substates are unbounded; a test fixes a handful.",
  CO+":CompositeState.get_slices",CO+":CompositeState.dof",CO+":CompositeState.get_slice_by_id")
p("Composite minus undoes plus at any nesting depth",
  "If every leaf state satisfies (x.plus(d)).minus(x) = d, then for every composite x built from such leaves, at any nesting depth, and every dx of length x.dof, x.plus(dx).minus(x) = dx.",
  "every tree of composite states, every dx of matching length","Requires an induction over arbitrarily nested state trees.",
  CO+":CompositeState.plus",CO+":CompositeState.minus")
p("Composite plus undoes minus",
  "If every leaf satisfies x.plus(y.minus(x)) = y (up to stamps), then for composites x and y with the same shape x.plus(y.minus(x)) has exactly y's substate values.",
  "every pair of equally shaped composite trees","Arbitrary shapes and nesting; a test only samples a few shapes.",
  CO+":CompositeState.plus",CO+":CompositeState.minus")
p("Composite plus updates each substate with its own slice only",
  "The i-th substate of x.plus(dx) is exactly x.value[i].plus(dx[slice_i]) where slice_i = get_slices()[i]; other entries of dx do not influence it, entries past dof are ignored and the number, order and ids of substates are unchanged.",
  "every composite, every index i, every dx of length at least dof","Non-interference must hold for all other entries of dx.",
  CO+":CompositeState.plus",CO+":CompositeState.get_slices")
p("Matrix block get/set by ids is a lens",
  "After set_matrix_block_by_ids(B, M, a, b), get_matrix_block_by_ids(M, a, b) returns B, every entry of M outside rows slice(a) x columns slice(b) is unchanged, setting the block just read is the identity, and blocks of distinct id pairs do not overlap.",
  "all composites, ids, matrices and blocks of matching shapes","Frame condition ranges over every other entry and every composite.",
  CO+":CompositeState.get_matrix_block_by_ids",CO+":CompositeState.set_matrix_block_by_ids")
p("jacobian_from_blocks places blocks and zeros elsewhere",
  "jacobian_from_blocks(blocks) has dof columns; multiplying it by any perturbation dx gives the sum over the dictionary's ids of block_id times the slice of dx belonging to id; columns of absent ids are zero; an empty dictionary or an unknown id raises.",
  "all composites, all dictionaries with distinct ids, all dx","All subsets and orders of ids, all dimensions.",
  CO+":CompositeState.jacobian_from_blocks")
p("Composite plus/minus Jacobians are block diagonal",
  "plus_jacobian(dx) and minus_jacobian(x) of a composite act on a perturbation slice by slice: the slice of the product belonging to substate i is substate i's Jacobian (evaluated with its own slice of dx / the other substate) times the slice of the perturbation.",
  "all composites, any nesting depth, all perturbations","Unbounded shapes; off-diagonal zeros are a universal claim.",
  CO+":CompositeState.plus_jacobian",CO+":CompositeState.minus_jacobian")
p("plus_by_id perturbs the named substate",
  "x.plus_by_id(dx, id) returns a composite whose substate id equals x.get_state_by_id(id).plus(dx) and whose other substates are unchanged.",
  "all composites, ids and dx","Universal over states and dx; the code discards the result of plus so the property fails.",
  CO+":CompositeState.plus_by_id")
p("Lookup by id, add and remove",
  "get_state_by_id returns the first substate carrying the id and raises ValueError when absent; set_state_by_id changes only that position; remove_state_by_id removes exactly that substate and keeps the order of the others; add_state followed by lookup of a fresh id finds the added state; dof changes by exactly the dof of the added/removed state.",
  "all composites and ids, including duplicate ids","All histories of additions and removals.",
  CO+":CompositeState.get_index_by_id",CO+":CompositeState.add_state",CO+":CompositeState.remove_state_by_id",CO+":CompositeState.set_state_by_id")
p("CompositeProcessModel decouples substates",
  "CompositeProcessModel.evaluate propagates substate i with model i (and input i, or the shared input) and nothing else; its jacobian and covariance are block diagonal, so A*dx and Q restricted to slice i are those of model i.",
  "all numbers of substates, models, inputs, dt","Unbounded composition; non-interference.",
  CO+":CompositeProcessModel.evaluate",CO+":CompositeProcessModel.jacobian",CO+":CompositeProcessModel.covariance")
p("CompositeMeasurementModel lifts a model to one substate",
  "Wrapping a measurement model to a substate id: evaluate and covariance equal those of the inner model at that substate; jacobian(x) times dx equals the inner jacobian times the slice of dx for that id, so perturbing any other substate has no first-order effect.",
  "all composites, ids, inner models, dx","All shapes of the enclosing state.",
  CO+":CompositeMeasurementModel")
# --- filters
p("run_filter fuses every usable measurement exactly once, in time order",
  "run_filter sorts inputs and measurements by stamp, drops leading data older than the initial state, and then fuses each remaining measurement whose stamp is before the stamp of the last remaining input exactly once, in non-decreasing stamp order (ties in original order), using the last remaining input not later than it (or the first remaining input if it precedes all of them); no other measurement is fused.",
  "all input and measurement lists in any order with any stamps, any filter","Schedules are unbounded and arbitrarily interleaved.",
  FI+":run_filter")
p("run_filter outputs one estimate per input interval with non-decreasing stamps and never steps backwards",
  "When at least one input is not older than x0, run_filter returns max(0, n-1) results for n kept inputs; the k-th result (k>=1) has a stamp between the k-th and (k+1)-th kept input stamps, so result stamps are non-decreasing, and no negative time step is ever requested from a filter whose correct moves the stamp at most to the measurement's stamp.",
  "all schedules","Every interleaving of stamps must be covered.",
  FI+":run_filter")
p("run_filter ignores data older than the initial state",
  "No measurement with stamp earlier than x0.stamp is ever passed to the filter's correct, and no input with stamp earlier than x0.stamp is used.",
  "all schedules, including those where all data is older than x0","Requires considering all schedules; the trimming loop does nothing when every datum is old.",
  FI+":run_filter")
p("EKF prediction keeps a valid covariance",
  "If the covariance is symmetric positive semidefinite and the process-noise covariance is, ExtendedKalmanFilter.predict returns a symmetric positive semidefinite covariance equal to A P A^T + Q, with the state stamp advanced by dt; a negative dt raises and a missing input returns an unchanged copy.",
  "all dimensions, matrices, states, dt","Matrix inequalities over all real matrices of all sizes.",
  FI+":ExtendedKalmanFilter.predict",TY+":StateWithCovariance.symmetrize")
p("EKF correction keeps a valid covariance and never inflates it",
  "If P is symmetric PSD and R symmetric positive definite, ExtendedKalmanFilter.correct returns a symmetric PSD covariance that is at most P in the Loewner order, and the solve inside never fails.",
  "all dimensions and matrices","Loewner order over all matrices of all sizes.",
  FI+":ExtendedKalmanFilter.correct")
p("EKF correction is the minimum-variance linear update",
  "The covariance produced by the correction is, in Loewner order, no larger than that produced by any other gain (I-LG)P(I-LG)^T + LRL^T, and for invertible P it satisfies the information form inv(P+) = inv(P) + G^T inv(R) G with state update x.plus(P+ G^T inv(R) z).",
  "all gains L, all dimensions","Optimality is a universal statement over all gains.",
  FI+":ExtendedKalmanFilter.correct")
p("Rejected or unavailable measurements leave the estimate unchanged",
  "If the measurement model returns None at the current estimate, or outlier rejection is enabled and the normalised innovation squared exceeds the chi-square bound, ExtendedKalmanFilter.correct returns the prior state and covariance unchanged.",
  "all states, measurements, thresholds","Every state/measurement pair.",
  FI+":ExtendedKalmanFilter.correct",FI+":check_outlier")
p("Measurements older than the state are refused",
  "ExtendedKalmanFilter.correct raises when the measurement stamp is earlier than the state stamp, as its own comment promises.",
  "all stamps","Guard must hold for every pair of stamps; the threshold in the code is -1e10.",
  FI+":ExtendedKalmanFilter.correct")
p("The Kalman gain computed with np.linalg.solve is P G^T inv(S)",
  "The gain used by ExtendedKalmanFilter.correct equals P G^T inv(G P G^T + R) whenever P and R are symmetric and S is invertible; when S is singular correct raises LinAlgError.",
  "all dimensions","All matrices.",
  FI+":ExtendedKalmanFilter.correct")
p("Iterated EKF never increases the MAP cost",
  "With line search on, every accepted iteration of IteratedKalmanFilter.correct strictly decreases the cost, the accepted iterates' costs form a decreasing chain, and the returned state has a cost no larger than the prior state's; on an outlier the state and covariance are unchanged.",
  "all models, states, iteration limits >= 1, step tolerances","Any nonlinear model; number of iterations unbounded.",
  FI+":IteratedKalmanFilter.correct")
p("Iterated EKF line search terminates",
  "For every positive step tolerance the backtracking line search stops after finitely many step reductions (factor 0.9), whatever the cost function.",
  "all cost functions and tolerances > 0","Termination for all inputs.",
  FI+":IteratedKalmanFilter.correct")
p("Sigma points match mean and covariance",
  "For the unscented, cubature and third-order Gauss-Hermite rules of any dimension, the weights sum to one, the weighted sum of unit sigma points is zero, and the weighted sum of their outer products is the identity.",
  "all dimensions n >= 1","All dimensions; n unbounded (3^n points).",
  FI+":generate_sigmapoints")
p("Sigma-point filter equals the Kalman filter on linear-Gaussian models",
  "On a vector state with linear process and measurement models, SigmaPointKalmanFilter.predict and .correct give exactly the Kalman filter mean and covariance, for every square root of the covariance and every rule with the right moments.",
  "all dimensions, linear models, covariances, noise","All linear systems.",
  FI+":SigmaPointKalmanFilter.predict",FI+":SigmaPointKalmanFilter.correct")
p("mean_state is the weighted mean on vector states",
  "For vector states and weights summing to one, mean_state returns the weighted average, independent of the first state used to start the iteration, and always stops within a fixed number of iterations.",
  "all lists of states and weights","All lists of any length.",
  FI+":mean_state")
p("IMM mixing probabilities are a stochastic matrix",
  "With a row-stochastic transition matrix and mode probabilities that are non-negative and sum to one, the mixing probabilities are non-negative, each column with non-zero predicted probability sums to one, and the predicted mode probabilities sum to one.",
  "all numbers of models, all transition matrices","All sizes and values.",
  FI+":InteractingModelFilter.interaction")
p("IMM/GSF posterior mode probabilities follow Bayes' rule",
  "After a correction, the mode probabilities are non-negative, sum to one and are proportional to prior times likelihood.",
  "all model counts, likelihoods and priors","All reals; the code replaces small values by uniform ones.",
  FI+":InteractingModelFilter.correct",FI+":GaussianSumFilter.correct")
p("gaussian_mixing matches the first two moments",
  "For vector states and weights that are non-negative and sum to one, gaussian_mixing returns the mean and covariance of the mixture; the covariance is symmetric PSD; a single component is returned unchanged.",
  "all component counts, dimensions, weights","All mixtures.",
  UM+":gaussian_mixing",UM+":gaussian_mixing_vectorspace")
p("run_imm_filter / run_gsf_filter fuse the same schedule as run_filter",
  "run_imm_filter and run_gsf_filter pass the same measurements, in the same order, to the filter as run_filter would, with one interaction immediately before each fused measurement for the IMM.",
  "all schedules","All schedules.",
  FI+":run_imm_filter",FI+":run_gsf_filter")
# --- batch
p("Problem columns are partitioned among the free variables",
  "The solver assigns to the non-constant variables, in insertion order, disjoint consecutive column ranges that cover exactly the total number of free degrees of freedom; constant variables receive none.",
  "all sets of variables, constants, insertion histories","All histories of add_variable/set_variables_constant.",
  PR+":Problem._compute_size_of_problem",PR+":Problem.add_variable",PR+":Problem.set_variables_constant")
p("Constant variables never change and the initial guess is preserved",
  "After solve (GN or LM, any number of iterations, any outcome of steps) every variable in constant_variable_keys has its initial value in the returned variables, and variables_init is unmodified.",
  "all problems, all iteration counts","All solver histories.",
  PR+":Problem.solve",PR+":Problem._correct_states")
p("Levenberg-Marquardt cost is monotone",
  "The cost recorded by Levenberg-Marquardt is non-increasing along iterations, and the returned variables have a cost no larger than the initial guess.",
  "all residuals, losses, variables, damping and iteration limits","Any nonlinear problem and any number of iterations.",
  PR+":Problem._solve_LM")
p("Gauss-Newton solves linear least squares in one step",
  "On a problem whose residuals are affine in vector variables (L2 loss, full column rank), the variables after the first Gauss-Newton update minimise the cost.",
  "all affine problems of all sizes","All dimensions and data.",
  PR+":Problem._solve_gauss_newton",PR+":Problem.compute_error_jac_cost")
p("Total cost and stacked Jacobian match the residual blocks",
  "The total cost is the sum over residuals of loss(norm(e_i)); the stacked error and Jacobian place residual i's weighted error in its rows and its Jacobian blocks in the columns of the variables it names, with zeros elsewhere.",
  "all problems","All numbers and shapes of residuals.",
  PR+":Problem.compute_error_jac_cost")
p("Recovered covariance block corresponds to the named variables",
  "get_covariance_block(k1,k2) returns the block of inv(H^T H) for the columns of k1 and k2 of the most recently solved problem.",
  "all problems, all solve histories","Histories of repeated solves; the code caches the covariance.",
  PR+":Problem.get_covariance_block",PR+":Problem.compute_covariance")
p("Robust loss weights are consistent with the loss",
  "For the L2 and Cauchy losses, loss(0)=0, loss >= 0, loss is non-decreasing in |u|, weight(u)=loss'(u)/u for u != 0, weights lie in (0,1], and Cauchy loss never exceeds the L2 loss.",
  "all residual magnitudes and all scale parameters c != 0","Calculus over the reals.",
  LO+":CauchyLoss",LO+":L2Loss")
p("Whitened residuals give the Mahalanobis cost",
  "For prior, process and measurement residuals with sqrt_information L such that L L^T = inv(P), the squared norm of the returned error equals e^T inv(P) e of the unweighted error.",
  "all dimensions and covariances","All matrices.",
  RE+":PriorResidual.evaluate",RE+":ProcessResidual.evaluate",RE+":MeasurementResidual.evaluate")
p("Max-mixture residual equals the max-mixture cost",
  "Half the squared norm of the max-mixture residual equals min_k(-log alpha_k + 1/2||e_k||^2) + log alpha_max, which is a constant away from the max-mixture negative log-likelihood; the radicand is never negative.",
  "all component counts, weights > 0, errors","All reals.",
  GM+":MaxMixtureResidual.mix_errors")
p("Sum-mixture residual equals the mixture NLL",
  "Half the squared sum-mixture residual differs from the Gaussian-mixture negative log-likelihood by a constant independent of the state, and the radicand is non-negative.",
  "all component counts, weights, errors","All reals.",
  GM+":SumMixtureResidual.mix_errors")
p("Max-sum-mixture residual equals the mixture NLL",
  "Half the squared norm of the max-sum-mixture residual differs from the NLL by the constant log(K alpha_max + damping), and the radicand is non-negative.",
  "all component counts, weights, errors, damping >= 0","All reals.",
  GM+":MaxSumMixtureResidual.mix_errors")
p("Hessian-sum-mixture residual equals the mixture NLL",
  "Half the squared norm of the Hessian-sum-mixture residual differs from the NLL by a state-independent constant; the radicand is non-negative.",
  "all component counts, weights, errors","All reals.",
  GM+":HessianSumMixtureResidual.mix_errors",GM+":HessianSumMixtureResidual.mix_jacobians")
p("Mixture residual gradients are exact",
  "J^T e of the sum-, max-sum- and Hessian-sum-mixture residuals equals the responsibility-weighted sum of component gradients J_k^T e_k (for max-mixture: the dominant component's gradient).",
  "all components, Jacobians and errors","All dimensions and reals.",
  GM+":SumMixtureResidual.mix_jacobians",GM+":MaxSumMixtureResidual.mix_jacobians",GM+":HessianSumMixtureResidual.mix_jacobians",GM+":MaxMixtureResidual.mix_jacobians")
p("Batch estimator builds one state per unique stamp with the right residuals",
  "BatchEstimator.solve creates exactly one variable per distinct stamp of x0/inputs/measurements in increasing order, one process residual between consecutive input stamps and one measurement residual per measurement at its own stamp, and never fails on sorted data.",
  "all schedules","All schedules; measurement-only stamps break it.",
  ES+":BatchEstimator.solve")
# --- preintegration
p("Preintegration equals sequential propagation (linear)",
  "Applying the preintegrated LinearIncrement of n inputs to a state gives the same mean and covariance as n sequential predictions with the same matrices.",
  "all n, all matrices and inputs","Induction on an unbounded number of increments.",
  PI+":LinearIncrement",PI+":PreintegratedLinearModel")
p("Preintegration equals sequential propagation (IMU)",
  "Applying the IMU increment accumulated over n inputs to an extended pose gives the same extended pose as n sequential IMUKinematics.evaluate steps with the same biases and gravity.",
  "all n, all inputs, time steps and biases","Unbounded number of increments.",
  PI+":IMUIncrement.increment",PI+":PreintegratedIMUKinematics.evaluate",IM+":IMUKinematics.evaluate",IM+":G_matrix",IM+":U_matrix",IM+":N_matrix")
p("Preintegration equals sequential propagation (body velocity)",
  "Applying the BodyVelocityIncrement over n inputs equals n sequential BodyFrameVelocity steps for all n, in mean and (with the matching noise) in covariance.",
  "all n, all inputs","Unbounded number of increments.",
  PI+":BodyVelocityIncrement",PI+":PreintegratedBodyVelocity",MO+":BodyFrameVelocity.evaluate")
p("Increment time bookkeeping",
  "After any sequence of increments, stamps[1] - stamps[0] equals the sum of the time steps supplied, stamps[0] is the stamp of the first input, and copies do not share or lose bookkeeping.",
  "all sequences of increments and copies","All histories.",
  PI+":LinearIncrement.increment",PI+":IMUIncrement.increment",PI+":BodyVelocityIncrement.increment")
p("IE3 helper algebra",
  "inverse_IE3 is a two-sided inverse on IE(3) matrices, adjoint_IE3 is multiplicative and satisfies the adjoint relation, and G_matrix(g,s)*G_matrix(g,t)=G_matrix(g,s+t).",
  "all rotations, vectors, times","Matrix identities for all reals.",
  IM+":inverse_IE3",IM+":adjoint_IE3",IM+":G_matrix",IM+":U_matrix",IM+":U_matrix_inv")
# --- models
p("Linear process models have the flow property and exact Jacobians",
  "For SingleIntegrator, DoubleIntegrator and their bias variants, propagating by a then b with the same input equals propagating by a+b, and evaluate(x+dx) - evaluate(x) = jacobian*dx exactly.",
  "all states, inputs, times, dimensions","All reals and dimensions.",
  MO+":SingleIntegrator",MO+":DoubleIntegrator",MO+":DoubleIntegratorWithBias")
p("Position measurement Jacobians are the derivatives of evaluate",
  "For the range-to-anchor, relative-position and absolute-position/velocity/altitude models, the directional derivative of evaluate along x.plus(t*dx) at t=0 equals jacobian(x)*dx for every dx wherever the model is differentiable, for left and right perturbation directions.",
  "all states, directions, dimensions","Calculus over all states.",
  MO+":RangePointToAnchor",MO+":PointRelativePosition",MO+":RangePoseToAnchor",MO+":AbsolutePosition",MO+":Altitude")
p("Multi-state relative models read the substates they are configured with",
  "A measurement model configured with state ids produces a Jacobian whose nonzero columns are those of the configured ids, whatever the order of the substates in the composite state.",
  "all orders of substates","All permutations of substates.",
  MO+":PointRelativePositionSLAM",MO+":RangePoseToPose",MO+":RangeRelativePose")
p("Altitude and camera validity gates",
  "Altitude.evaluate returns None exactly when the altitude is not above the configured minimum; PoseMatrix camera measurements are valid exactly when the point is in front of the camera and inside the image.",
  "all states","All reals.",
  MO+":Altitude.evaluate",CA+":PinholeCamera.is_measurement_valid")
# --- datagen
p("Generated ground truth is consistent with the process model",
  "DataGenerator.generate returns one state per requested time with that stamp, each obtained from the previous by evaluate over the actual time difference; the states do not depend on the measurement schedule when the model has the flow property.",
  "all models, time grids, measurement schedules","All schedules and models.",
  DG+":DataGenerator.generate")
p("Every scheduled measurement is generated once, at its own time",
  "Each scheduled measurement with stamp in the simulated window is filled exactly once, with the value of its own model at the true state at exactly its stamp, and the returned list is sorted by stamp.",
  "all frequencies, offsets, models","All schedules.",
  DG+":DataGenerator.generate",DG+":generate_measurement")
p("A filter started at the truth on noiseless data stays on the truth",
  "With noiseless generated data, an EKF run via run_filter from the true initial state produces the true state at every result stamp.",
  "all models with the flow property, all schedules","Whole-pipeline property over all schedules and horizons.",
  DG+":DataGenerator.generate",FI+":run_filter",FI+":ExtendedKalmanFilter")
# --- utils
p("associate_stamps is a one-to-one matching within tolerance",
  "The pairs returned by associate_stamps are valid indices, within max_difference after offset, use no index twice, are sorted, and leave no further associable pair.",
  "all stamp lists, offsets, tolerances","All lists of any length.",
  UC+":associate_stamps")
p("schedule_sequential_measurements interleaves models without collisions",
  "The offsets and frequencies returned make the per-model measurement times pairwise disjoint, and their union is exactly the multiples of 1/freq.",
  "all numbers of models and frequencies","All model counts and all times.",
  UC+":schedule_sequential_measurements")
p("find_nearest_stamp_idx returns the closest stamp",
  "The returned index minimises |stamp - query| (lowest index on ties) for every non-empty list.",
  "all stamp lists and queries","All lists.",
  UC+":find_nearest_stamp_idx")
p("state_interp interpolates within and clamps outside",
  "At a knot stamp it returns that state's value; between knots it returns x1.plus(alpha*(x2.minus(x1))) with alpha in (0,1); before the first / after the last stamp it returns the end state; each result carries the query stamp and results keep the query order.",
  "all sorted state lists and query lists","All lists and queries.",
  UC+":state_interp")
p("Finite-difference Jacobians are exact on affine maps",
  "The forward and central difference Jacobians of an affine function on a vector state equal its matrix for every nonzero step; central differences are also exact for quadratics.",
  "all dimensions, functions, steps","All functions in the class.",
  UC+":jacobian",TY+":ProcessModel.jacobian_fd",TY+":MeasurementModel.jacobian_fd",TY+":State.plus_jacobian_fd")
p("Estimation-error metrics",
  "GaussianResult's ees is the squared error norm, nees equals e^T inv(P) e, md is its square root, all non-negative; MonteCarloResult averages them and sqrt(average nees)-type bounds are ordered.",
  "all states and covariances","All dimensions and values.",
  UC+":GaussianResult",UC+":GaussianResultList",UC+":MonteCarloResult")
p("GaussianResultList slicing selects one consistent sub-block",
  "Slicing a GaussianResultList over time and over degrees of freedom gives error, covariance and three-sigma entries for the same times and same dof indices.",
  "all slices including negative, open-ended and over-range","All slice values.",
  UC+":GaussianResultList.__getitem__" if True else "")
# --- camera
p("Camera projection and back-projection",
  "For a point in front of the camera, projecting and normalising returns p/z, projection is invariant under scaling of depth along a ray, and pixel -> normalised -> pixel is the identity.",
  "all points and intrinsics with nonzero focal lengths","All reals.",
  CA+":PinholeCamera")
# --- bspline
p("B-spline trajectories are C2 across knots",
  "The cumulative cubic basis stays in [0,1], its derivatives are the coded derivatives, and at a knot the pose, velocity and acceleration from the left segment equal those from the right segment.",
  "all control points and times","Calculus over all times and control points.",
  BS+":SE3Bspline")
p("B-spline query domain",
  "The trajectory returns a pose for every stamp between start_time and end_time.",
  "all times in the advertised interval","All reals in the interval.",
  BS+":SE3Bspline")
# --- Lie states
p("Lie-group states satisfy the plus/minus laws for both perturbation directions",
  "Given the matrix group laws and Exp/Log inverse on a neighbourhood, x.plus(y.minus(x)) = y and x.plus(dx).minus(x) = dx for dx in that neighbourhood, for left and right directions; any other direction raises ValueError.",
  "all group elements and directions","All group elements.",
  ST+":MatrixLieGroupState")
# --- heap
p("Copies are independent of their originals",
  "After copying a StateWithCovariance/State/CompositeState, no sequence of API mutations on the copy changes what is observed of the original, and conversely; filters do not modify the estimate handed to them.",
  "all mutation histories","All interleavings of mutations on aliased objects.",
  TY+":StateWithCovariance.copy",TY+":State.copy",CO+":CompositeState.copy",FI+":ExtendedKalmanFilter.predict")
# --- added as the model grew
p("x_jac selects where Jacobians are evaluated",
  "ExtendedKalmanFilter.predict/correct document x_jac as the state at which Jacobians are evaluated.",
  "all models, states and x_jac","All models and evaluation points.",
  FI+":ExtendedKalmanFilter.predict",FI+":ExtendedKalmanFilter.correct")
p("Unavailable measurements are skipped by the iterated and sigma-point filters",
  "A measurement model may return None to mean the measurement is not to be fused; correct then returns the estimate.",
  "all models, estimates and iteration limits","All models returning None anywhere.",
  FI+":IteratedKalmanFilter.correct",FI+":SigmaPointKalmanFilter.correct")
p("Sigma-point predict without an input is a no-op",
  "SigmaPointKalmanFilter.predict(x, None) returns the estimate unchanged, as its own guard intends.",
  "all estimates","All estimates.",
  FI+":SigmaPointKalmanFilter.predict")
p("Sigma-point predict advances the stamp by dt",
  "SigmaPointKalmanFilter.predict returns an estimate stamped dt later, whatever the process model does with the stamp (as ExtendedKalmanFilter.predict does).",
  "all process models, dt, estimates","All process models.",
  FI+":SigmaPointKalmanFilter.predict")
p("The Gaussian sum filter accepts measurements of any dimension",
  "GaussianSumFilter.correct fuses a measurement of any dimension.",
  "all measurement dimensions, models and mixtures","All dimensions.",
  FI+":GaussianSumFilter.correct")
p("Zero iterations return the initial guess",
  "With max_iters = 0, solve returns the initial guess and its cost.",
  "all problems","All problems.",
  PR+":Problem.solve",PR+":Problem._solve_gauss_newton",PR+":Problem._solve_LM")
p("A mixture residual evaluates each component at its own states",
  "The keys of a mixture residual are the keys of its components, each once; every component is evaluated at the states of its own keys in its own order; its Jacobian with respect to a state of the mixture is its own Jacobian if it depends on it, zeros if not, and absent exactly when not requested.",
  "all component lists, overlapping or disjoint keys, states and Jacobian requests","All overlaps of keys.",
  GM+":GaussianMixtureResidual.__init__",GM+":GaussianMixtureResidual.evaluate_component_residuals")
p("Residual Jacobians are exact and returned only where requested",
  "The Jacobians returned by the prior, process and measurement residuals are the exact derivatives of the returned (whitened) error; the list has one entry per state, absent exactly where it was not requested.",
  "all models with exact Jacobians, states, covariances, dimensions and Jacobian requests","All models and states.",
  RE+":PriorResidual.evaluate",RE+":ProcessResidual.evaluate",RE+":MeasurementResidual.evaluate")
p("The body-frame velocity model is exact on every matrix Lie group",
  "For BodyFrameVelocity, propagating by a then b with the same input equals propagating by a+b; perturbing the state by any dx and propagating equals propagating and then perturbing by jacobian*dx (left and right directions); the covariance is L Q L^T where L is the derivative of the propagated state with respect to the input.",
  "all groups, states, inputs, times, perturbations and both directions","All group elements and perturbations.",
  MO+":BodyFrameVelocity.evaluate",MO+":BodyFrameVelocity.jacobian",MO+":BodyFrameVelocity.covariance")
p("The relative body-frame velocity model matches its documented motion, Jacobian and noise",
  "RelativeBodyFrameVelocity.evaluate returns exp(dt u1) T exp(dt u2); its jacobian is the exact state Jacobian and its covariance is the first-order covariance of the two input noises.",
  "all groups, states, inputs and times","All group elements and inputs.",
  MO+":RelativeBodyFrameVelocity.evaluate",MO+":RelativeBodyFrameVelocity.jacobian",MO+":RelativeBodyFrameVelocity.covariance")
p("The iterated Kalman filter takes Gauss-Newton steps on the MAP cost",
  "Every step of IteratedKalmanFilter.correct is (step size times) the minimiser of the MAP cost linearised at the current iterate; iteration stops once the step is below tolerance, leaving the mean there; on a linear measurement the result is the Kalman filter's.",
  "all measurement models, priors, iterates, gains and dimensions","All models and iterates.",
  FI+":IteratedKalmanFilter.correct")
p("A solver run stops when it says it does and records every iterate",
  "Problem.solve visits the iterates of Gauss-Newton or Levenberg-Marquardt from the initial guess: a Levenberg-Marquardt step is taken exactly when it decreases the cost; the run ends at the first iterate that meets a tolerance or at the iteration limit, and returns that iterate with its cost history.",
  "all problems, tolerances, iteration limits and initial guesses","All problems and histories of iterates.",
  PR+":Problem.solve",PR+":Problem._solve_gauss_newton",PR+":Problem._solve_LM",PR+":Problem.is_converged",PR+":Problem.add_residual")
p("Default Jacobians and covariances of user-defined classes are those of the class",
  "A state, process model, measurement model or residual that does not implement its Jacobian gets one that tends to the true Jacobian as the step size goes to zero, and is exact for affine models of vector states; a process model that implements input_covariance (and possibly input_jacobian) gets the covariance L Q L^T with L its input Jacobian.",
  "all states, models, residuals, dimensions and step sizes","All functions and step sizes.",
  "navlie/types.py:State.plus_jacobian_fd","navlie/types.py:State.minus_jacobian_fd","navlie/types.py:MeasurementModel.jacobian_fd","navlie/types.py:ProcessModel.jacobian_fd","navlie/types.py:ProcessModel.input_jacobian_fd","navlie/types.py:ProcessModel.covariance",RE+":Residual.jacobian_fd")
p("IMU propagation is the exact solution of the continuous-time kinematics",
  "With constant readings over a step, IMUKinematics.evaluate returns the value at dt of the solution of C' = C w^, v' = C a + g, r' = v from the given state, for every rotation angle; two consecutive steps with the same readings equal one step of the total length.",
  "all states, biases, readings, gravity vectors and step lengths","A differential equation quantified over all readings and step lengths.",
  "navlie/lib/imu.py:IMUKinematics.evaluate","navlie/lib/imu.py:U_matrix","navlie/lib/imu.py:G_matrix","navlie/lib/imu.py:N_matrix")
p("The Jacobians of the IMU kinematics are derivatives",
  "IMUKinematics.jacobian is the derivative of evaluate with respect to the pose and both biases, and L_matrix that of the pose with respect to the readings, for left and right perturbations.",
  "all states, readings, step lengths, directions of perturbation","All readings and directions; a limit, not a finite difference.",
  "navlie/lib/imu.py:IMUKinematics.jacobian","navlie/lib/imu.py:L_matrix")
p("First-order bias correction of IMU increments",
  "After update_bias, an IMU increment is to first order in the change of bias what integrating the same readings with the new bias would give; bias_jacobian is the derivative of the integrated value.",
  "all sequences of readings, initial biases and directions of change","All sequences of readings, of any length.",
  "navlie/lib/preintegration.py:IMUIncrement.increment","navlie/lib/preintegration.py:IMUIncrement.update_bias","navlie/lib/preintegration.py:IMUIncrement.value")
p("Composite inputs",
  "A CompositeInput has the total dof of its inputs; plus perturbs input number k with exactly its slice of the noise vector and keeps stamps and ids; a noise vector of the wrong length is refused; lookups by id find the first input with that id and raise ValueError otherwise, in a copy as in the original; add, remove and the setters change only what they name; the stamp is that of the first input.",
  "all composite inputs of any depth, noise vectors, ids","All nestings, sizes and noise vectors.",
  "navlie/composite.py:CompositeInput","navlie/lib/states.py:VectorInput.plus")
p("Exact discretization by van_loans",
  "van_loans returns the exact discrete-time model of x' = A x + L w: the first matrix maps every solution without noise from the start of the step to its end, the second is the covariance that white noise of density Q accumulates over the step (the integral, equivalently the solution of the Lyapunov equation), is symmetric positive semidefinite when Q is, and two steps compose to one.",
  "all A, L, Q of matching sizes, all step lengths","A limit/integral identity over all matrices and step lengths.",
  "navlie/utils/common.py:van_loans")
p("Generated measurements",
  "randvec returns vectors with mean zero and the covariance asked for, for every covariance matrix; generate_measurement returns for each state, in order, a measurement with the state's stamp and the given model and id, whose value is evaluate(x) without noise and has mean evaluate(x) and covariance covariance(x) with noise.",
  "all covariances, states, models and distributions of draws with zero mean and identity covariance","A statement about moments of a distribution.",
  "navlie/utils/common.py:randvec","navlie/datagen.py:generate_measurement")
p("Results built from estimates",
  "GaussianResultList.from_estimates returns one result per estimate, in order, carrying the estimate's stamp, state and covariance; the estimate is compared with the true state closest in time (method nearest) or interpolated at its stamp (method linear), with exactly the true state of the same stamp when there is one; error, EES, NEES, Mahalanobis distance, RMSE and three-sigma are those of that error; a filter that reproduces the truth scores zero everywhere; estimates without stamps, unknown methods, empty truths and singular covariances are refused.",
  "all lists of estimates and true states, all stamps, any kind of state","All lists, orders and stamps.",
  "navlie/utils/common.py:GaussianResultList.from_estimates","navlie/utils/common.py:GaussianResult","navlie/utils/common.py:state_interp")
p("Mixture results",
  "MixtureResultList.from_estimates returns one result per mixture, in order, with the mixture's stamp and mode probabilities; it scores the moment-matched Gaussian (for vector states exactly the mean and covariance of the mixture) against the true state closest in time; a mixture in which one mode has all the probability is scored exactly as that mode; a mixture without modes is refused.",
  "all lists of mixtures with any number of modes, any weights","All numbers of modes and weights.",
  "navlie/utils/common.py:MixtureResult","navlie/utils/common.py:MixtureResultList.from_estimates","navlie/lib/states.py:MixtureState")
p("Monte-Carlo runs",
  "monte_carlo calls the trial function for the numbers 0 to num_trials-1, once each, and returns the averages over exactly these trials; the first failing trial's exception reaches the caller; zero trials are refused.",
  "all trial functions and numbers of trials","All trial functions and counts.",
  "navlie/utils/common.py:monte_carlo","navlie/utils/common.py:MonteCarloResult")
p("Batch estimation and the Kalman filter agree on linear problems",
  "For vector states with affine process and measurement models and Gaussian noise of positive definite covariance, take any history of predictions and measurements. Running ExtendedKalmanFilter over it never fails and ends at the last state of the trajectory minimising the sum of the prior, process and measurement Mahalanobis costs. Building the Problem with the PriorResidual, ProcessResiduals and MeasurementResiduals of the same history (in any order, from any initial guess) and solving it with Gauss-Newton succeeds, returns the filter's estimate for the last state, and get_covariance_block of that state is the filter's covariance.",
  "all linear-Gaussian histories of any length and dimension, all initial guesses, all orders of adding residuals","Holds for every history, dimension, model and initial guess; a test compares two numbers on one run.",
  "navlie/filters.py:ExtendedKalmanFilter","navlie/batch/residuals.py:PriorResidual","navlie/batch/residuals.py:ProcessResidual","navlie/batch/residuals.py:MeasurementResidual","navlie/batch/problem.py:Problem.solve","navlie/batch/problem.py:Problem.get_covariance_block")
p("Landmarks of the simulated dataset",
  "generate_landmark_positions returns n_levels * n_landmarks_per_level points, level by level: the j-th of a level at angle 2 pi j / n_landmarks_per_level on the circle of the given radius, the levels equally spaced from 0 to max_height. All points lie on the cylinder between floor and top, and no two coincide if the radius is not zero and there is one level or a non-zero height.",
  "all radii, heights and counts (including zero)","All radii, heights and counts; that no two points coincide is a statement about real trigonometry.",
  "navlie/lib/datasets.py:generate_landmark_positions")
p("Simulated inertial datasets are physically consistent",
  "SimulatedInertialGPSDataset and SimulatedInertialLandmarkDataset succeed on every non-empty interval. If the measurement frequency divides the input frequency: there is one true state per input time, starting at the given one; all attitudes are rotations; between consecutive true states the pose solves the IMU equations exactly, with the prescribed acceleration at the start of the step, and the biases move by the drawn random walk; without noise, dead reckoning of the returned inputs reproduces the truth exactly, with noise the returned inputs have zero random walk; every measurement is the position (or the landmark in the body frame) at the true state with its stamp, and the landmark measured under id i is the i-th returned landmark.",
  "all initial states, frequencies, intervals, roundings of stamps, random draws and sensor sets","All intervals, frequencies and random draws; exact solution of a differential equation at every step.",
  "navlie/lib/datasets.py:SimulatedInertialGPSDataset","navlie/lib/datasets.py:SimulatedInertialLandmarkDataset","navlie/datagen.py:DataGenerator.generate","navlie/lib/imu.py:IMUKinematics.evaluate")
p("The filters agree where they should",
  "On vector states with affine process and measurement models, inputs and measurements with positive definite covariances, take any history of predict and correct calls. SigmaPointKalmanFilter with any of its three methods, iterating the mean or not, rejecting outliers or not, never fails and returns exactly the state, stamp and covariance of ExtendedKalmanFilter (and, if the process noise has full rank, of the Gauss-Newton batch solution). IteratedKalmanFilter, with any number of iterations and with or without line search, returns the same too if no measurement moves the estimate by less than its step tolerance; its covariance and stamp are the same in any case. For arbitrary models and states, InteractingModelFilter (with positive transition probabilities) and GaussianSumFilter (scalar measurements) whose modes are the same filter and start from the same estimate reproduce that filter, call by call and exception by exception, whatever their weights; the combined estimate is the filter's.",
  "all linear-Gaussian histories of any length and dimension; for the mixture filters all models, call sequences, numbers of modes and weights","Every history, dimension, sigma-point rule and number of modes; tests compare filters on one trajectory within a tolerance.",
  "navlie/filters.py:ExtendedKalmanFilter","navlie/filters.py:IteratedKalmanFilter","navlie/filters.py:SigmaPointKalmanFilter","navlie/filters.py:InteractingModelFilter","navlie/filters.py:GaussianSumFilter","navlie/batch/problem.py:Problem.solve")
p("The reported covariance is the covariance of the error",
  "Simulate a linear system whose truth is disturbed as the process model states and measured with noise as the measurement models state (means zero, the models' covariances, uncorrelated with each other and with the initial error), and run ExtendedKalmanFilter.predict and correct along any history, starting from an estimate whose error has mean zero and the covariance handed over. Then the filter returns the same covariance in every outcome, its error has mean zero, and E[e e^T] is that covariance. Hence the NEES of GaussianResult has expectation n (the expected_nees of MonteCarloResult) whenever it is defined. The innovation z reported with output_details has mean zero and covariance S, the statistic z^T S^-1 z thresholded by the outlier test has expectation the measurement dimension, and innovations of different measurements are uncorrelated.",
  "all linear models, histories, dimensions and probability spaces (only first and second moments are used; no Gaussian assumption)","A statement about expectations over all noise realisations and all histories; Monte-Carlo tests only sample.",
  "navlie/filters.py:ExtendedKalmanFilter.predict","navlie/filters.py:ExtendedKalmanFilter.correct","navlie/filters.py:check_outlier","navlie/utils/common.py:GaussianResult","navlie/utils/common.py:MonteCarloResult")
p("The answer does not depend on the coordinates of the problem or the origin of its clock",
  "State the same estimation problem in other coordinates, and with all stamps shifted by a constant, and run_filter gives the same answer in those coordinates with its stamps shifted, or raises the same exception. For vector states, x' = T x + b (other units, another origin, components in another order), with the models rewritten accordingly and each sensor's reading in its own units or axes W y + w: every estimate is T x + b, its covariance T P T^T, and a measurement is rejected as an outlier in one coordinate system exactly when it is in the other. For poses on SE(2), SE(3) and SE_2(3), move the world frame by any rotation and translation A (and velocity, for extended poses): with BodyFrameVelocity and the same body-frame inputs, landmarks, anchors and field vectors expressed in the new frame, and positions and velocities measured in it, every estimate is A X, with the same covariance for states perturbed on the right and with Ad(A) P Ad(A)^T for states perturbed on the left. The same holds for a correction of the iterated filter when the change keeps the length of increments (the step tolerance compares a length).",
  "all changes of coordinates, initial estimates, input and measurement histories, noise covariances, outlier rejection on or off","It compares two runs for every choice of frame and every history; tests fix one frame.",
  "navlie/filters.py:ExtendedKalmanFilter","navlie/filters.py:IteratedKalmanFilter.correct","navlie/filters.py:run_filter","navlie/filters.py:check_outlier","navlie/lib/models.py:BodyFrameVelocity","navlie/lib/models.py:PointRelativePosition","navlie/lib/models.py:RangePoseToAnchor","navlie/lib/models.py:AbsolutePosition","navlie/lib/models.py:AbsoluteVelocity","navlie/lib/models.py:Gravitometer","navlie/lib/states.py:MatrixLieGroupState.plus")
p("The helpers do not depend on the unit or the origin of time",
  "Replace every stamp t by s t + c with s > 0 (another unit, another epoch) and every duration by s times itself. associate_stamps returns the same pairs (its offset and max_difference being durations). find_nearest_stamp_idx returns the same indices. state_interp returns the same states at the new stamps, or raises the same exception. schedule_sequential_measurements, at freq/s, returns the offsets times s and the new frequency divided by s. DataGenerator.generate, with frequencies divided by s and offsets multiplied by s, returns the same truth, inputs and measurements at the new stamps, or raises the same exception, as long as its models are rewritten in the new unit (evaluate over s dt does what evaluate did over dt) and its rounding of stamps commutes with the change.",
  "all stamp lists, offsets, thresholds, queries, state lists, process and measurement models, input functions, schedules, noise samples, and all s > 0 and c","Two calls are compared for every list and every change of unit; tests use one.",
  "navlie/utils/common.py:associate_stamps","navlie/utils/common.py:find_nearest_stamp_idx","navlie/utils/common.py:state_interp","navlie/utils/common.py:schedule_sequential_measurements","navlie/datagen.py:DataGenerator.generate")
p("The batch estimate does not depend on the frame the problem is written in",
  "Write the same batch problem in another frame and with all stamps shifted, and Problem.solve, with Gauss-Newton or Levenberg-Marquardt and any settings, losses and constant variables, makes the same iterations: the returned variables are the original ones moved to the new frame, the cost history, the information matrix and every block returned by get_covariance_block are equal, or both runs raise the same exception. This holds for vector states when the origin is moved, x' = x + b, with the models rewritten accordingly and each sensor's reading in its own units or axes W y + w; and for poses on SE(2), SE(3) and SE_2(3) perturbed on the right, for problems made of priors, BodyFrameVelocity odometry and PointRelativePosition, RangePoseToAnchor, AbsolutePosition, AbsoluteVelocity and gravity or magnetic-field sensors, when the world frame is moved by any rotation and translation (and velocity): the solution is A X. In general it holds whenever the residuals of the two problems agree up to an orthogonal change of each whitened error.",
  "all problems (any number of variables and residuals, any initial guess, solver settings, losses, noise covariances, held-constant keys) and all changes of frame","Two whole solver runs are compared, for every frame and problem; a test fixes both.",
  "navlie/batch/problem.py:Problem.solve","navlie/batch/problem.py:Problem.compute_error_jac_cost","navlie/batch/problem.py:Problem.get_covariance_block","navlie/batch/residuals.py:PriorResidual","navlie/batch/residuals.py:ProcessResidual","navlie/batch/residuals.py:MeasurementResidual","navlie/lib/models.py:BodyFrameVelocity")
p("The mixture filters do not depend on the order in which the modes are listed",
  "List the modes of an InteractingModelFilter (their models, outlier switches, rows and columns of the transition matrix, initial estimates and probabilities) in another order, and after any sequence of interaction, predict and correct calls every mode has the estimate and the probability it had before, at its new place, the combined estimate of gaussian_mixing is the same, and one run raises exactly when the other does. The same holds for GaussianSumFilter. On vector states whose modes have one stamp this holds without condition; on other states it holds when modes in different states never tie for the greatest weight at a mixing, because gaussian_mixing expands about the heaviest component.",
  "all numbers of modes, permutations of them, models, transition matrices, initial mixtures and finite sequences of calls","All permutations and all histories of calls; a test compares a few.",
  "navlie/utils/mixture.py:gaussian_mixing","navlie/filters.py:InteractingModelFilter.interaction","navlie/filters.py:InteractingModelFilter.predict","navlie/filters.py:InteractingModelFilter.correct","navlie/filters.py:GaussianSumFilter.correct")
# --- promises the code does not keep: what is proved of the code instead
actual={
"C87":"this holds for true states sorted by stamp; with method nearest an unsorted list of true states is read with sorted stamps but unsorted states, so the estimate is compared with a wrong state.",
"C86":"this holds for positive definite covariances; a singular covariance (such as zero) is refused, a model with a 1x1 covariance and several measured numbers gets one noise sample added to all of them, and a model that returns None makes the whole call raise AttributeError.",
"C84":"all of this holds except for lengths and nested ids: a noise vector that is too long is cut, and a single number left over for the last input is added to all its components; a nested CompositeInput is built without a state_id, copy and plus drop the id assigned later, and every lookup by id in the enclosing input then raises AttributeError.",
"C05":"this holds; a block of the wrong shape raises ValueError, except that a block with a single row (or column) is silently repeated over all rows (columns).",
"C06":"this holds; blocks with different row counts raise ValueError, except that a later block with a single row is silently repeated.",
"C09":"this holds; set_value_by_id with a vector of another size leaves the recorded dof as it was: slices no longer describe the values, plus raises ValueError, and a copy has another dof than the original.",
"C81":"this holds for attitude and velocity always, and for position when the rotation over the step is zero or at least the small-angle tolerance; below the tolerance N_matrix is replaced by the identity, and for a suitable acceleration the position is not that of the solution.",
"C82":"the columns of the pose, the accelerometer (bias) and, in the attitude and velocity rows, the gyro (bias) are the derivatives, in both directions; the position rows of the gyro columns are not: at rest they are 5/24 dt^3 w x a where the exact kinematics have 1/6 dt^3 w x a (and the code itself, 0).",
"C83":"this holds for the accelerometer bias, and for attitude and velocity under a change of gyro bias; the position correction for the gyro bias is not first-order correct (one step at rest already shows it).",
"C80":"the Jacobians converge and are exact on affine models (and on BodyFrameVelocity on any group); the covariance is positive semidefinite and tends to L Q L^T, but an overridden input_jacobian is never called; a measurement model that returns None raises AttributeError, or TypeError when only a perturbed state is out of range.",
"C75":"this holds for arbitrary differentiable models on vector states; on Lie group states the prior and measurement Jacobians are exact, while the Jacobian of the process residual with respect to its first state is exact only where the error is zero.",
"C67":"copies of states, estimates, composites, mixtures and IMU inputs share nothing with their originals; VectorInput.copy shares the covariance although its docstring promises fully separate memory; IMUState.copy gives the substates the stamp of the whole and fixed names. predict leaves the estimate alone when the process model returns a new state (all library models do); with a process model that returns or modifies its argument, predict writes the new stamp into the caller's estimate. correct works on a copy and leaves the estimate alone whatever the models do.",
"C66":"the laws hold for every pair of elements (with Log inverse to Exp) and for both directions, and the Jacobians returned are the derivatives; for SO2State plus-then-minus returns the angle exactly when it lies in (-pi, pi], else it plus a multiple of 2 pi. minus uses the direction of its left operand only; an array of the wrong length raises IndexError, and a square matrix of the wrong size is accepted and fails later; SE3State.random returns an SE2State; VectorState.minus broadcasts a one-element state.",
"C65":"control points are the trajectory interpolated every dt from its first stamp, with dt = max(max_dt, average spacing): max_dt is a lower bound, not the documented maximum. A pose is returned exactly from the second control point up to, not including, the last but two; at end_time the methods return None.",
"C64":"further, get_velocity returns the derivative of the position and the body-frame angular velocity (C' = C w^), and get_acceleration the derivatives of both, at every stamp strictly inside the query domain, and these are continuous.",
"C54":"this holds for every measurement stamped before the last time; np.round can place a scheduled measurement exactly at the last time (3 Hz inputs and 3 Hz measurements over one second), and it is returned with value None. A model that declines to measure makes the generator raise AttributeError; the documented single float offset raises TypeError; a frequency list shorter than the model list silently drops models; a one-element offset list of the caller is overwritten.",
"C55":"this holds when any two stamps are equal or more than 1e-11 apart, the tolerance of the EKF (always the case when start, periods and offsets are multiples of a step above 1e-11).",
"C49":"all of this holds, and the covariances are those of the input noise; the bias variant with a nonzero random-walk input does not have the flow property (the bias moves during the step but is held constant in the position update).",
"C50":"this holds wherever the measurement is differentiable, for SO3, SE2, SE3, SE23 and IMU states; the Jacobian of an invariant innovation is the derivative only where the innovation is zero.",
"C51":"this holds for RangePoseToPose and CameraProjection; PointRelativePositionSLAM assigns its blocks to the first two substates of the composite state, so it is right only when those are the pose and the landmark in that order: otherwise it raises ValueError or returns a Jacobian with zero landmark columns.",
"C52":"Altitude does this; is_measurement_valid tests the image bounds only and is_landmark_in_front_of_cam the depth only: a landmark behind the camera projects to the same pixel as its mirror image in front and passes as valid; Gravitometer and Magnetometer with a scalar R raise on the documented SO3State.",
"C63":"this holds on the two image coordinates; to_normalized_coords returns three numbers, which to_pixel_coors rejects with ValueError.",
"C77":"what is computed is exp(-dt u1) T exp(dt u2); its Jacobian is exact (left perturbations raise NotImplementedError); the covariance uses the adjoint of T exp(dt u2) where that of its inverse is needed, and is not the covariance of the input noises.",
"C44":"this holds for an increment whose bias was not corrected; after update_bias every read of value adds the correction again and the model reads it twice, so the prediction applies it twice and changes the increment; the state's own bias never enters the prediction although the Jacobian has that block.",
"C45":"this holds, with the covariance, for readings without bias random walk and a state carrying the increment's biases; the documented 6x6 input covariance raises AttributeError, and a reading built with a random walk of None cannot be copied.",
"C46":"this holds for an increment whose bias was not corrected; update_bias moves the increment in the opposite direction of the bias.",
"C47":"the stamps always hold; a copy of a bias-corrected body-velocity or IMU increment forgets the correction, copying a fresh LinearIncrement without bias raises AttributeError, and IMUIncrement.new ignores the bias it is given.",
"C43":"the structure holds for all data; it never fails when inputs have distinct stamps and every measurement lies between the first and last input; a measurement after the last input, or no inputs, raises IndexError; a measurement at a stamp that is not an input stamp gets a state no process residual touches; if the data starts after x0, measurements at the first data stamp are attached to the state stamped with x0's stamp.",
"C62":"this holds for in-range slices and index lists on both axes (not two lists) and for a single component; results[:, j] reports one EES summed over time, results[k] raises ValueError for two or more components, negative slice bounds and stops beyond the end raise, two index lists are paired instead of selecting a block.",
"C37":"this holds whenever the measurement model returns a value; a model returning None (unavailable measurement) makes the measurement residual raise AttributeError.",
"C56":"all of this holds; the docstring's claim that the list is as long as the shorter stamp list is false.",
"C58":"this holds for float queries and lists of stamps; a single query of any other number type (for example an int) is answered with a list.",
"C59":"this holds for lists of float stamps or a single float; a single int or a single stamped object raises although documented, and an unsorted state list is read with sorted stamps but unsorted states.",
"C40":"this holds when the components return one-dimensional errors; with the (n,1) column errors that every residual in residuals.py returns, evaluating the residual always raises ValueError.",
"C41":"this holds unless the mixture has a single component with a single error entry, in which case evaluating the residual raises ValueError.",
"C30":"for every history the free variables get consecutive disjoint column ranges covering exactly the free degrees of freedom; a variable that was free in an earlier solve and then made constant keeps its stale range.",
"C34":"this holds whenever each residual names distinct known variables and there is one loss per residual; a residual naming a variable twice keeps only the last Jacobian block, and residuals beyond the end of the loss list are silently dropped.",
"C35":"the block matches for the first query after a solve; the cached covariance is never refreshed by a later solve, and Gauss-Newton reports the information of the iterate before the last update (Levenberg-Marquardt, and Gauss-Newton on affine problems, report it at the solution).",
"C73":"Gauss-Newton raises UnboundLocalError; Levenberg-Marquardt keeps the promise.",
"C08":"plus_by_id always returns the composite unchanged (a dropped copy is perturbed), so the promise fails on a concrete composite.",
"C14":"this holds when at least two inputs and at least one measurement (or no measurement at all) are not stale; if every measurement is stale all of them are fused, and if every input is stale run_filter raises.",
"C19":"ExtendedKalmanFilter.correct raises only when the measurement is more than 1e10 s older and otherwise fuses a stale measurement as if it were current; IteratedKalmanFilter and SigmaPointKalmanFilter do refuse every stale measurement.",
"C27":"the result is always a probability vector and follows Bayes' rule whenever some prior*likelihood exceeds 1e-8; when all are at most 1e-8 the probabilities are reset to uniform.",
"C72":"the call raises (ValueError from the density evaluation) for every dimension other than one; for scalar measurements Bayes' rule holds (C27).",
"C68":"x_jac only reaches the noise covariances; with state-independent noise the result does not depend on x_jac at all.",
"C69":"IteratedKalmanFilter.correct raises AttributeError when the model returns None at the estimate, InteractingModelFilter.correct raises KeyError, and SigmaPointKalmanFilter.correct when it returns None at a sigma point.",
"C70":"it raises AttributeError unless both dt and input_covariance are given explicitly, in which case it is a no-op.",
"C71":"for a process model that advances the stamp itself the result is stamped 2*dt later.",
}
for x in P:
    if x["id"] in actual:
        x["statement"]="Promise: "+x["statement"]+" The code breaks this promise; proved of the code: "+actual[x["id"]]
json_lines="\n".join(json.dumps(x) for x in P)+"\n"
open("/verif/properties.jsonl","w").write(json_lines)
print(len(P))
