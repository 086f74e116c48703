-Q theories Verif
theories/Base.v
theories/CompositeModel.v
theories/CompositeProof.v
theories/CompositeProof2.v
theories/CompositeProof3.v
theories/CompositeProps.v
theories/Tac.v
theories/LinAlg.v
theories/EkfModel.v
theories/EkfProps.v
theories/SigmaModel.v
theories/SigmaProps.v
theories/RunFilterModel.v
theories/RunFilterSpec.v
theories/RunFilterProof.v
theories/RunFilterProof2.v
theories/RunFilterProps.v
theories/MixtureModel.v
theories/MixtureProps.v
theories/ProblemModel.v
theories/ProblemProof.v
theories/ProblemProps.v
theories/ProblemProps2.v
theories/ProblemProps3.v
theories/LossModel.v
theories/LossProps.v
theories/GmModel.v
theories/GmProps.v
theories/GmProps2.v
theories/CholModel.v
theories/CholProof.v
theories/ResidualModel.v
theories/ResidualProps.v
theories/UtilsModel.v
theories/UtilsProps.v
theories/UtilsProps2.v
theories/ResultModel.v
theories/ResultProps.v
theories/EstimatorModel.v
theories/EstimatorProps.v
theories/PreintModel.v
theories/PreintProps.v
theories/ImuModel.v
theories/ImuProps.v
theories/ImuPreintProps.v
theories/Deriv.v
theories/ModelsModel.v
theories/ProcessProps.v
theories/MeasureProps.v
theories/MeasureProps2.v
theories/PairModel.v
theories/PairProps.v
theories/CameraProps.v
theories/DatagenModel.v
theories/DatagenProof.v
theories/DatagenProps.v
theories/TruthProof.v
theories/TruthProps.v
theories/BsplineModel.v
theories/BsplineProof.v
theories/BsplineCalc.v
theories/BsplineProps.v
theories/RealStruct.v
theories/LieModel.v
theories/LieProps.v
theories/RealTrig.v
theories/RealProps.v
theories/HeapModel.v
theories/HeapProof.v
theories/HeapOps.v
theories/HeapProps.v
theories/IekfProps.v
theories/ResidualProps2.v
theories/ProblemProps4.v
theories/GmProps3.v
theories/InnovationProps.v
theories/FdModel.v
theories/FdProps.v
theories/So3Model.v
theories/So3Props.v
theories/So3Jac.v
theories/ImuJacProps.v
theories/ImuBiasProps.v
theories/ImuBiasProps2.v
theories/CompositeInputModel.v
theories/CompositeInputProps.v
theories/CompositeModel2.v
theories/CompositeProps3.v
theories/GmProps4.v
theories/MeasureProps3.v
theories/PSer.v
theories/MatExp.v
theories/VanLoanModel.v
theories/VanLoanProps.v
theories/SampleModel.v
theories/SampleProps.v
theories/LieExp.v
theories/LieLaws.v
theories/LieReal.v
theories/LieRealProps.v
theories/ProcessProps2.v
theories/TightProps.v
theories/EstResultModel.v
theories/EstResultProps.v
theories/RelPoseModel.v
theories/RelPoseProps.v
theories/MarginalProof.v
theories/So3SeriesProps.v
theories/DatasetModel.v
theories/DatasetProps.v
theories/AlignProps.v
theories/InertialProps.v
theories/FilterAgreeProps.v
theories/ImmAgreeProps.v
theories/ImmOrderProps.v
theories/StatModel.v
theories/StatProps.v
theories/EquivarianceProps.v
theories/FrameProps.v
theories/UnitsProps.v
theories/BatchFrameProps.v
theories/BatchWorldProps.v
theories/BatchKalmanModel.v
theories/BatchKalmanProof.v
theories/BatchKalmanProof2.v
theories/BatchKalmanProps.v
theories/BsplineProps2.v
theories/LieProps2.v
