tight={
 ('So3Model','M_matrix','factorial'):['C81_M_series_converges'],
 ('DatasetModel','gravity','gravity upwards'):['C92_truth','C92_inputs'],
('CompositeModel','set_stamp','stamp of a nested composite substate not set'):['C09_set_fields'],
('CompositeModel','get_stamp_by_id','returns no stamp'):['C09_getters'],
('GmModel','all_some','missing Jacobians skipped'):['C42_missing_jacobian_raises'],
('ImuModel','irmi_value','bias correction sign'):['C83_accel_bias_correction'],
('LieModel','so2_init','sign of a scalar angle'):['C66_so2_from_number'],
('LieModel','se2_from_blocks','widths exchanged'):['C66_blocks_se2'],
('BsplineModel','se3_minus','reversed'):['C65_control_points','C64_constant_velocity'],
('BsplineModel','om21','wrong pair'):['C64_constant_velocity'],
('Base','bcast_ok','numpy broadcasting of single rows ignored'):['C05_single_row_repeated_refuted','C06_single_row_repeated_refuted'],
('Base','aident','matrix of ones'):['C07_vector_plus_jacobian_is_identity','C07_vector_minus_jacobian_is_identity'],
('ModelsModel','relvel_cov','the two noise covariances exchanged'):['C77_covariance_second_input','C77_covariance_at_identity'],
('ModelsModel','so3_view','extra blocks silently dropped'):['C50_attitude_only_state_refused'],
('ModelsModel','iplus','bias perturbations exchanged'):['C66_imu_state_plus'],
('ModelsModel','vel_cov','scalar treated as a standard deviation'):['C50_velocity_covariance'],
('PreintModel','B_full','bias walk not scaled'):['C44_bias_walk_covariance'],
('PreintModel','brmi_copy','copy forgets the updated bias'):['C47_bias_copy'],
('PreintModel','brmi_new','requested bias ignored'):['C47_bias_new'],
('ProblemModel','dindex','wrong exception'):['C34_unknown_key_raises'],
('ProblemModel','cnorm','squared norm in the step test'):['C79_gauss_newton_run','C79_levenberg_marquardt_run'],
('ProblemModel','maxabs','absolute value missing'):['C79_gauss_newton_run','C79_levenberg_marquardt_run'],
('ResultModel','np_index','negative indices not wrapped'):['C62_negative_index'],
('SigmaModel','generate_sigmapoints','wrong rule (also valid moments)'):['C23_number_of_points'],
('SigmaModel','em6','tolerance of mean_state'):['C25_stops_at_tolerance'],
('MixtureModel','ekf_correct_details','details missing for outliers'):['C27_imm_weights'],
}
equiv={
 ('DatasetModel','kin_step','stamp advanced twice'):'equivalent: the generator overwrites the stamp after every evaluation, so no output changes.',
('GmModel','pymin','first error instead of the minimum (a numerically equivalent shift)'):'equivalent in exact arithmetic: subtracting any common shift inside log-sum-exp gives the same value, so no claim is broken',
('BsplineModel','basis1','(no change; control)'):'control: no edit was made, everything builds',
}
