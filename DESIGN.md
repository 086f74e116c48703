# DESIGN: a Rocq (Coq 8.16.1) model of decargroup/navlie

## 1. How the model is organised

`rocq/theories/` is split by area.  For every area there is

* `<Area>Model.v`  : the executable model, function by function, each definition citing `/repo` file and lines;
* `<Area>Proof.v`  : lemmas;
* `<Area>Props.v`  : only the property theorems (`Theorem ... Proof. exact lemma. Qed. Print Assumptions ...`) and
                    the `Example`s that show hypotheses are met by a concrete non-trivial case.

Theorem-name suffixes: `_partial` (only part of the property; missing part stated in a comment),
`_refuted` (the faithful model violates the property as stated: concrete witness).

### Modelling conventions

* **Numbers.** Python floats are idealised as elements of an ordered field: an arbitrary `realFieldType`
  (`rcfType` where square roots are needed) of mathcomp for order/linear algebra, or the standard library's `R`
  (with Coquelicot) where exp, log, trigonometry or derivatives occur. Rounding, NaN, infinities and overflow are
  NOT modelled. Concrete witnesses and refutations are computed over `rat`.
* **Matrices** are mathcomp matrices with dimensions in the type, except in dynamic-shape code
  (composite slices, Jacobian block placement), where vectors/matrices are sequences and Python slice clipping is written out.
* **Exceptions** are values: `result A := Ok a | Raise e`.
* **Mutation**: a method that mutates returns the new value; aliasing is modelled explicitly only in the Heap area (C67).
* **External calls** (pymlg Exp/Log, scipy chi2, cholesky, roots of Hermite polynomials) are section variables / record
  fields, with the assumed laws as hypotheses visible in the theorem statement.
  `np.linalg.solve` is modelled concretely by `invmx` with `LinAlgError` on singular matrices.

## 2. Plan per property

| id | files | model | proof |
|----|-------|-------|-------|
| C01-C09 | `Composite{Model,Proof,Proof2,Proof3,Props}` | states as trees (leaf with abstract plus/minus, nodes with list of substates), vectors as sequences, Python slices with clipping, id lookup as the code does it | structural induction on trees / lists |
| C10, C11 | `Composite*` | composite process / measurement models as lists of sub-models with dynamic shapes | block-diagonal placement lemmas, induction on the list |
| C12-C14, C29 | `RunFilter*` | the loops of run_filter / run_imm / run_gsf over stamped lists, the filter an abstract record of operations | loop invariant; trace of predict/correct calls = merge of the two sorted lists |
| C15-C22, C52, C68, C69, C73 | `Ekf*`, `LinAlg` | EKF/IEKF predict and correct on mathcomp matrices, every exit of the functions | PSD algebra (Joseph form, Schur complement), completing the square, Archimedean bound on halvings |
| C23-C25, C70, C71 | `Sigma*` | unit sigma points in every dimension, SPKF predict/correct, mean_state | big-operator sums |
| C26-C28, C72 | `Mixture*` | interaction, mode probabilities (with the allclose patch), gaussian_mixing | big-operator algebra |
| C30-C35, C79 | `Problem*` | dict = association list in insertion order, residuals as functions, GN and LM loops | induction over iterations; normal equations |
| C36 | `Loss*` | stdlib `R`, Coquelicot derivatives | calculus |
| C37, C75 | `Residual*`, `Deriv` | residual evaluation with and without Jacobians | matrix algebra; epsilon-delta derivatives of `Deriv.v` |
| C38-C42, C74 | `Gm*` | mixture residuals on stdlib `R`, including normalisation of weights and evaluation order | log/exp algebra |
| C43 | `Estimator*` | schedule construction of BatchEstimator.solve | sorted/unique list lemmas, refutations |
| C44-C48 | `Preint*`, `Imu*` | increments as folds; IE(3) matrices as blocks over a field with abstract Exp/N matrices | induction over increments, block matrix algebra |
| C49-C51, C63, C76, C77 | `ModelsModel`, `PairModel`, `MeasureProps*`, `ProcessProps`, `PairProps`, `CameraProps`, `InnovationProps` | process and measurement models | field algebra; derivatives as in `Deriv.v` under visible group laws |
| C53-C55 | `Datagen*`, `Truth*` | data generator with noise as an input stream; composition with the filter | induction over the merged schedule |
| C56-C60 | `Utils*` | associate_stamps, schedule, nearest stamp, interpolation, finite differences | greedy-matching invariant, search lemmas, field algebra |
| C61, C62 | `Result*` | results and result lists, numpy indexing | PSD algebra, Python slice semantics |
| C64, C65 | `Bspline*` | cubic cumulative B-spline with abstract Exp/Log | polynomial identities, `Deriv.v` |
| C66 | `LieModel`, `LieProps`, `RealStruct`, `RealTrig`, `RealProps` | abstract matrix Lie group; SO(2) and SE(2) pieces over stdlib `R` | group algebra, trigonometry |
| C67 | `Heap*` | store of objects with references, deep copy | separation invariant on reachable locations |
| C78 | `IekfProps` | same model as C21 | the iteration is a Gauss-Newton step, fixed points are stationary |
| C80 | `Fd*` | default finite-difference Jacobians of types.py and residuals.py | `Deriv.v` |
| C81 | `So3*` | IMU kinematics with concrete SO(3) maps over R; existence and uniqueness of the ODE solution | Coquelicot/stdlib reals, `Deriv.v` |
| C82 | `ImuJacProps`, `ImuBiasProps` | L_matrix and IMUKinematics.jacobian against derivatives of the propagated state | chain rule on the closed forms, adjoint relation (C48) |
| C83 | `ImuBiasProps`, `ImuBiasProps2` | bias_jacobian and the corrected value of IMU increments | induction over the readings from C82 |
| C84 | `CompositeInputModel`, `CompositeInputProps` | CompositeInput and VectorInput, nested to any depth, lookups, copy, plus | structural induction over nested inputs |
| C85 | `PSer`, `MatExp`, `VanLoanModel`, `VanLoanProps` | van_loans with the matrix exponential defined as its power series over R | e^(A t) as unique solution of its ODE, block ODE uniqueness, integral by Coquelicot's fundamental theorem |
| C46, C50, C76, C82 | `LieExp`, `LieLaws`, `LieReal`, `LieRealProps` | the facts assumed of pymlg, for the matrix exponential on SO(2), SO(3), SE(2), SE(3), SE_2(3) over R; Rodrigues' formula and the SO(3)/SE_2(3) closed forms are that exponential | Fréchet derivative of the exponential by series bounds; block exponentials and ODE uniqueness for the left Jacobian |
| C86 | `SampleModel`, `SampleProps` | randvec (through the modelled Cholesky) and generate_measurement, draws as an argument | moments over a finite distribution of draws |
| C11, C51 | `RelPoseModel`, `RelPoseProps` | RangeRelativePose, CompositeMeasurement | the single-substate version of C51's lifting; rotation invariance of the norm |
| C64-C66, C23-C62 | `BsplineProps2`, `LieProps2`, `TightProps` | no new model: theorems added because a mutant survived (see section 4) | as in the claims they belong to |
| C87-C89 | `EstResultModel`, `EstResultProps` | state_interp's methods, GaussianResult(List).from_estimates, MixtureResult(List), monte_carlo | induction over the lists, on top of C28, C58, C59, C61 |
| C90 | `BatchKalmanModel`, `MarginalProof`, `BatchKalmanProof`, `BatchKalmanProof2`, `BatchKalmanProps` | a history of EKF calls, and the batch problem of the same history over ResidualModel and ProblemModel | completing the square, induction over the history; the batch side reduces to C33, C34, C35, C37; the covariance by the marginal of a quadratic form |
| C91 | `DatasetModel`, `DatasetProps` | np.linspace and generate_landmark_positions over Coq's reals | index arithmetic; injectivity of (cos, sin) on [0, 2 pi) |
| C92 | `DatasetModel`, `AlignProps`, `InertialProps` | input profile, sensors and constructors of the two inertial datasets over DatagenModel and So3Model | DataGenerator for non-flow processes with aligned measurements (C53/C54_aligned), then C81 per step |
| C93 | `FilterAgreeProps`, `ImmAgreeProps` | histories of calls of the modelled EKF, IEKF, SPKF, IMM and GSF | induction over the history with C24 (SPKF step), C78 (IEKF step), C90 (batch); mixing of equal components for the mixture filters |
| C94 | `StatModel`, `StatProps` | simulated runs (truth moved by the model plus a random disturbance, measurements at the truth plus noise, as DataGenerator does) of the modelled EKF; expectation as an abstract normalised linear functional, with the finite weighted sample as an instance | induction over the history: the error is a linear combination of the old error and the new disturbance, the Joseph form gives the covariance; traces for NEES and NIS |
| C95 | `EquivarianceProps`, `FrameProps` | the modelled EKF, IEKF and run_filter (EkfModel, RunFilterModel), BodyFrameVelocity and five measurement models (PreintModel, ModelsModel), run twice: on a problem and on the problem in other coordinates | a relation between states (x' is x in the other coordinates) carried through predict, correct, the sort by stamp and the merge loop; that Jacobians follow the values is uniqueness of derivatives and C50; the group laws of LieLaws for the frame change |
| C96 | `UnitsProps` | the modelled associate_stamps, schedule_sequential_measurements, find_nearest_stamp_idx, state_interp (UtilsModel) and DataGenerator.generate (DatagenModel), called on stamps t and on stamps s t + c | sorting related lists by related keys gives related lists; midpoints, gaps and interpolation factors are equivariant; the generator by induction on its schedule with a relation between states, inputs and measurements |
| C97 | `BatchFrameProps`, `BatchWorldProps` | Problem.solve and get_covariance_block (ProblemModel) with prior, process and measurement residuals (ResidualModel), run on a problem and on the same problem in another frame | an invariant of the stacking loop: equal Gram matrices and right-hand sides (each residual's rows turn by an orthogonal matrix, which for measurements comes from the two Cholesky factors); then the GN and LM loops step by step. The sensors, odometry and groups are those of C95 |
| C98 | `ImmOrderProps` | the IMM and GSF of MixtureModel run on two lists of modes related by a permutation | reindexing of every sum over the modes; the loops over the modes succeed or fail together; the choice of the reference component by argmax is the only place where the order enters |

No property was found inexpressible; where the code breaks the promise, the claim's text in
`properties.jsonl` says both what is promised and what is proved of the code, and `_refuted` theorems give the witnesses.

## 3. Trusted base

* The Coq 8.16.1 kernel, including the VM used by `vm_compute`/`Eval` on concrete witnesses.
* What `Print Assumptions` lists, theorem by theorem (regenerate with `tools/gen_axioms.py` after a build):

<!-- AXIOMS BEGIN -->
* **Closed under the global context** (471 theorems: every theorem not listed below): AlignProps (3), BatchFrameProps (6), BatchKalmanProps (2), BsplineProps (7), BsplineProps2 (3), CameraProps (13), CompositeInputProps (13), CompositeProps (29), CompositeProps3 (9), DatagenProps (16), EkfProps (30), EquivarianceProps (4), EstResultProps (16), EstimatorProps (6), FdProps (13), FilterAgreeProps (4), FrameProps (3), GmProps2 (2), HeapProps (9), IekfProps (3), ImmAgreeProps (2), ImmOrderProps (6), ImuPreintProps (8), ImuProps (7), InnovationProps (3), LieProps (21), LieProps2 (3), MeasureProps (5), MeasureProps2 (10), MeasureProps3 (3), MixtureProps (19), PairProps (7), PreintProps (13), ProblemProps (11), ProblemProps2 (4), ProblemProps3 (12), ProblemProps4 (3), ProcessProps (21), ProcessProps2 (3), RelPoseProps (4), ResidualProps (10), ResidualProps2 (7), ResultProps (15), RunFilterProps (9), SampleProps (8), SigmaProps (18), StatProps (4), TightProps (10), TruthProps (3), UnitsProps (5), UtilsProps (12), UtilsProps2 (14).
* `ClassicalDedekindReals.sig_forall_dec` (1): `GmProps2.C74_component_jacobians`.
* `ClassicalDedekindReals.sig_forall_dec`, `ClassicalDedekindReals.sig_not_dec`, `Classical_Prop.classic`, `Epsilon.epsilon_statement`, `FunctionalExtensionality.functional_extensionality_dep` (29): `BatchWorldProps.C97_world_frame`, `FrameProps.C95_world_frame`, `FrameProps.C95_world_frame_iekf`, `ImuBiasProps.C82_state_jacobian`, `ImuBiasProps.C83_accel_bias_correction`, `ImuBiasProps2.C83_gyro_position_refuted`, `ImuJacProps.C82_gyro_position_refuted`, `InertialProps.C92_truth`, `InertialProps.C92_measurements`, `LieRealProps.C76_real_groups`, `LieRealProps.C76_real_body_velocity`, `LieRealProps.C46_real_groups`, `LieRealProps.C50_real_groups`, `LieRealProps.C82_real_left_jacobian`, `RealProps.C66_so2_minus_then_plus`, `RealProps.C66_so2_plus_then_minus`, `RealProps.C66_so2_jacobians`, `RealProps.C66_so2_wraps_refuted`, `So3Props.C81_exact_solution`, `So3Props.C81_attitude_velocity`, `So3Props.C81_solution_exists`, `So3Props.C81_split_step`, `So3Props.C81_small_angle_refuted`, `VanLoanProps.C85_transition`, `VanLoanProps.C85_transition_solves`, `VanLoanProps.C85_covariance_is_integral`, `VanLoanProps.C85_propagates_covariance`, `VanLoanProps.C85_covariance_psd`, `VanLoanProps.C85_steps_compose`.
* `ClassicalDedekindReals.sig_forall_dec`, `ClassicalDedekindReals.sig_not_dec`, `Classical_Prop.classic`, `FunctionalExtensionality.functional_extensionality_dep` (24): `GmProps.C38_max_mixture`, `GmProps.C39_sum_mixture`, `GmProps.C40_max_sum_mixture`, `GmProps.C40_column_errors_refuted`, `GmProps.C41_hessian_sum_mixture`, `GmProps.C41_single_scalar_refuted`, `GmProps2.C42_max_mixture`, `GmProps2.C42_sum_mixture`, `GmProps2.C42_max_sum_mixture`, `GmProps2.C42_hessian_sum_mixture`, `GmProps2.C42_gradient_is_derivative`, `GmProps3.C39_evaluate`, `GmProps3.C41_evaluate`, `GmProps3.C40_evaluate`, `GmProps3.C40_evaluate_refuted`, `GmProps3.C38_evaluate`, `GmProps3.C42_evaluate_sum`, `GmProps3.C42_evaluate_hessian_sum`, `GmProps3.C42_evaluate_max_sum`, `GmProps3.C42_evaluate_max`, `GmProps3.C74_weight_scale`, `LossProps.C36_l2`, `LossProps.C36_cauchy`, `LossProps.C36_cauchy_below_l2`.
* `ClassicalDedekindReals.sig_forall_dec`, `ClassicalDedekindReals.sig_not_dec`, `Epsilon.epsilon_statement`, `FunctionalExtensionality.functional_extensionality_dep` (16): `DatasetProps.C91_landmarks`, `DatasetProps.C91_count`, `DatasetProps.C91_on_cylinder`, `DatasetProps.C91_distinct`, `ImuBiasProps.C82_gyro_bias_columns`, `ImuBiasProps.C83_accel_bias_jacobian`, `ImuBiasProps2.C83_gyro_bias_jacobian`, `ImuJacProps.C82_accelerometer_columns`, `ImuJacProps.C82_gyro_attitude_velocity`, `InertialProps.C92_inputs`, `InertialProps.C92_dead_reckoning`, `InertialProps.C92_total`, `InertialProps.C92_landmark_ids`, `InertialProps.C92_split_step_refuted`, `So3SeriesProps.C81_M_series_converges`, `So3SeriesProps.C81_M_series_at_zero`.
* `ClassicalDedekindReals.sig_forall_dec`, `ClassicalDedekindReals.sig_not_dec`, `FunctionalExtensionality.functional_extensionality_dep` (3): `GmProps4.C42_missing_jacobian_raises`, `GmProps4.C42_first_without_jacobian_refuted`, `LossProps.C36_weight_is_slope_over_u`.
* `ClassicalDedekindReals.sig_forall_dec`, `FunctionalExtensionality.functional_extensionality_dep` (1): `LossProps.C36_cauchy_bounded_influence`.
<!-- AXIOMS END -->

  All of these are axioms of Coq's standard library (`Coq.Reals`, `Coq.Logic`); they come in with the classical real numbers.
  No axiom is declared in `theories/`.  Mathcomp and the standard library seal some definitions behind module types
  (`bigop`'s `locked`, `ssrunder`, `Rdefinitions.RbaseSymbolsImpl`); a tool that counts sealed fields of loaded libraries
  reports these names, but they have bodies and `Print Assumptions` does not list them.
* The reading of the Python source recorded in the comments beside each definition (file and lines), and the recorded behaviour of numpy, scipy and pymlg.
  Nothing was executed.

### Idealisations

* floats are elements of an ordered field; no rounding, NaN, infinity or overflow;
* `np.linalg.solve/inv` fail exactly on singular matrices; `np.linalg.cholesky` fails exactly on non-positive-definite ones
  (C16-C17 and `Chol*`: `cholesky` is written out as a recursive function and proved to be a factorisation);
* pymlg's `Exp, Log, left_jacobian, ...` are section variables; the laws used are hypotheses of the theorem, and are shown satisfiable
  by a concrete instance (a nilpotent (Heisenberg) group over any field, vectors, or SO(2)/SE(2) over `R`);
* random numbers are an input stream; `scipy.stats.chi2` and `expm` are functions of which only the listed hypotheses are used;
* dictionaries keep insertion order; object identity matters only in `Heap*`;
* warnings, printing, logging, `joblib` parallelism and progress bars are dropped.

### What is modelled, file by file

| /repo/navlie | modelled | not modelled |
|---|---|---|
| types.py | Input/State/Measurement constructors as used, plus/minus Jacobians by finite differences, MeasurementModel and ProcessModel defaults, sqrt_information, StateWithCovariance (symmetrize, stamp, copy) | `__repr__`, the constructor's shape checks beyond what dimension-typed matrices give, abstract Dataset |
| filters.py | all of it: check_outlier, mean_state, EKF, IEKF, generate_sigmapoints, SPKF (and its three subclasses), IMM, GSF, run_filter, run_imm_filter, run_gsf_filter | progress bars, messages |
| composite.py | all of CompositeState (`CompositeModel`, value accessors and stored dof in `CompositeModel2`), CompositeInput (`CompositeInputModel`), CompositeProcessModel, CompositeMeasurementModel | pickling (`__getstate__`, `__setstate__`), `__repr__`, `to_list` (returns the list itself) |
| datagen.py | DataGenerator.generate, generate_measurement, argument checks of `__init__` | warnings |
| bspline.py | basis functions, control-point construction, get_pose/velocity/acceleration, bounding search | printing |
| batch/problem.py | all of it | `_display_header`, summary text, sparse storage (dense matrices) |
| batch/residuals.py | all of it | - |
| batch/losses.py | all of it | - |
| batch/gaussian_mixtures.py | all of it | - |
| batch/estimator.py | solve's schedule and keys | printing |
| lib/states.py | VectorState, MatrixLieGroupState and subclasses (constructors, plus, minus, Jacobians, dot, jacobian_from_blocks), VectorInput, MixtureState | `from_ros`/`to_ros`, SL3State (its group pymlg.SL3), `random()` beyond its type |
| lib/imu.py | IMU, IMUState, bias handling, matrices of IE(3), IMUKinematics | `IMU.random`, `__repr__`, pymlg's own small-angle series (its maps are replaced by their exact closed forms in `So3Model.v`, abstract with hypotheses elsewhere) |
| lib/preintegration.py | all increments and preintegrated models | - |
| lib/models.py | all process and measurement models | `InvariantMeasurement.__init__`, message texts |
| lib/camera.py | PinholeCamera projection, validity, back-projection, copy | constructor, `PoseMatrix`, `get_cam_to_enu`, plotting, noise of generated points |
| lib/datasets.py | generate_landmark_positions, SimulatedInertialGPSDataset, SimulatedInertialLandmarkDataset (C91, C92) | SimulatedPoseRangingDataset (covered by C53-C54, its process model being a flow), default covariances |
| utils/common.py | state_interp, schedule_sequential_measurements, associate_stamps, find_nearest_stamp_idx, jacobian, van_loans, randvec, GaussianResult, GaussianResultList, MixtureResult, MixtureResultList, MonteCarloResult, monte_carlo | load_tum_trajectory, randvec's generator, chi-square quantiles, joblib's scheduling |
| utils/mixture.py | all of it | - |
| utils/alignment.py, utils/plot.py | - | wrappers of `evo` and `matplotlib` |

## 4. Mutation testing

`seeded/LOG.jsonl` has one line per wrong program: the definition edited in a scratch copy, the edit, the claim it breaks,
the theorems whose proofs no longer go through (the lemma where the build stops is given as well) and, for edits that were
not caught at first, the theorems added or tightened because of it.
