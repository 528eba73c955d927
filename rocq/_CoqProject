-Q theories Verif

theories/Prelude.v
theories/ParallelModel.v
theories/ParallelProofs.v
theories/VecSpaceModel.v
theories/VecSpaceProofs.v
theories/ParallelProps.v
theories/Spmd.v
theories/SpmdFacts.v
theories/SpmdLock.v
theories/SpmdEnds.v
theories/ReductionsModel.v
theories/ReductionsProofs.v
theories/ReductionsProps.v
theories/InnerProdModel.v
theories/ArrayProofs.v
theories/RingProofs.v
theories/TaskProofs.v
theories/InnerProdProofs.v
theories/InnerProdProps.v
theories/SpmdWrites.v
theories/LinCombModel.v
theories/LinCombProofs.v
theories/LinCombProps.v
theories/SymmModel.v
theories/SymmProofs.v
theories/SymmProps.v
theories/TagProofs.v
theories/TagProps.v
theories/DerivsModel.v
theories/DerivsProofs.v
theories/DerivsProps.v
theories/Field.v
theories/Matrix.v
theories/FieldInst.v
theories/NdArray.v
theories/DecompModel.v
theories/DecompProofs.v
theories/DecompProps.v
theories/HankelModel.v
theories/HankelProps.v
theories/VSArraysModel.v
theories/VSArraysProofs.v
theories/VSArraysProps.v
theories/PodModel.v
theories/PodProofs.v
theories/PodProps.v
theories/BpodModel.v
theories/BpodProofs.v
theories/BpodProps.v
theories/DmdModel.v
theories/DmdProofs.v
theories/DmdCore.v
theories/DmdSnaps.v
theories/DmdProps.v
theories/DmdFit.v
theories/DmdExamples.v
theories/TlsModel.v
theories/TlsProofs.v
theories/TlsProps.v
theories/TlsExamples.v
theories/EraModel.v
theories/EraProofs.v
theories/EraProps.v
theories/EraExamples.v
theories/Lti.v
theories/OkidModel.v
theories/OkidProofs.v
theories/OkidProps.v
theories/LtiModel.v
theories/LtiProps.v
theories/BalProps.v
theories/HandlesModel.v
theories/HandlesProofs.v
theories/SpmdSeq.v
theories/HandlesSeqProofs.v
theories/HandlesSpace.v
theories/HandlesExamples.v
theories/PodHandlesModel.v
theories/PodHandlesProps.v
theories/BpodHandlesModel.v
theories/BpodHandlesProps.v
theories/DmdHandlesModel.v
theories/DmdHandlesProofs.v
theories/DmdHandlesModes.v
theories/DmdHandlesDecomp.v
theories/DmdHandlesProps.v
theories/DmdHistory.v
theories/DmdHandlesExamples.v
theories/GalerkinModel.v
theories/GalerkinProps.v
theories/GalerkinHandlesModel.v
theories/GalerkinHandlesProps.v
theories/VecHandleModel.v
theories/VecHandleProps.v
theories/TrapzModel.v
theories/TrapzProps.v
theories/SanityModel.v
theories/SanityProps.v
theories/TextModel.v
theories/TextProofs.v
theories/TextProps.v
theories/DecompIOModel.v
theories/DecompIOProofs.v
theories/DecompIOProps.v
theories/SignalsModel.v
theories/SignalsProps.v
theories/FloatModel.v
theories/FloatProofs.v
theories/FloatProps.v
theories/SpmdTrace.v
theories/ReadsProofs.v
theories/ReadsProps.v
theories/DoneProofs.v
theories/DoneProps.v
theories/ModesProps.v
theories/OptimalProofs.v
theories/OptimalProps.v
theories/OptimalHandlesProps.v
theories/BpodEraProofs.v
theories/BpodEraProps.v
theories/SpmdAgree.v
theories/ModelIOModel.v
theories/ModelIOProofs.v
theories/ModelIOProps.v
theories/RandomModel.v
theories/RandomProofs.v
theories/RandomProps.v
theories/UtilModel.v
theories/UtilProps.v
theories/EqualModel.v
theories/EqualProps.v
theories/PipelineProps.v
theories/PipelineExamples.v
theories/MainModel.v
theories/MainProofs.v
theories/ProgramsModel.v
theories/ProgramsProofs.v
theories/MainProps.v
theories/MainExamples.v
theories/CglModel.v
theories/CglProofs.v
theories/CglProps.v
theories/CglExamples.v
theories/HermiteModel.v
theories/Poly.v
theories/HermiteProofs.v
theories/HermiteRoots.v
theories/HermiteProps.v
theories/HermiteExamples.v
theories/CglInputModel.v
theories/CglInputProofs.v
theories/CglInputProps.v
theories/CglInputExamples.v
theories/CustomModel.v
theories/CustomProps.v
theories/MatlabModel.v
theories/MatlabProofs.v
theories/MatlabProps.v
theories/MatlabExamples.v
theories/MatlabTextModel.v
theories/MatlabTextProofs.v
theories/MatlabTextProps.v
theories/HeldModel.v
theories/HeldProofs.v
theories/HeldBounds.v
theories/HeldProps.v
theories/FailProofs.v
theories/FailProps.v
theories/ObjectsModel.v
theories/ObjectsSim.v
theories/ObjectsProofs.v
theories/ObjectsProps.v
theories/TutorialModel.v
theories/TutorialProps.v
theories/DoubleModel.v
theories/ReproProps.v
theories/AccuracyModel.v
theories/AccuracyProps.v
theories/UnsetProps.v
theories/LeftModel.v
theories/LeftProps.v
theories/ModesAllProps.v
theories/HistoryModel.v
theories/HistoryProps.v
theories/CaughtModel.v
theories/CaughtProps.v
theories/DmdSeqProps.v
theories/DmdSeqHandles.v
theories/GetLeftModel.v
theories/GetLeftProps.v
theories/BalancedProps.v
theories/BalancedHandlesProps.v
theories/DmdExactProps.v
theories/DmdExactHandles.v
theories/DmdPredictHandles.v
theories/DmdPairsHandles.v
theories/GramProofs.v
theories/GramProps.v
theories/GramMoreProps.v
theories/NoAtolProps.v
theories/MoveProps.v
theories/MoveBpodProps.v
theories/MoveTlsProps.v
theories/MoveGalerkinProps.v
