-Q theories Verif
theories/PyBase.v
theories/PermModel.v
theories/PermProofs.v
theories/PermSign.v
theories/IrrepsModel.v
theories/IrrepsProofs.v
theories/IrrepsProofs2.v
theories/IrrepsStr.v
theories/IrrepsStrProofs.v
theories/PermProps.v
theories/IrrepsProps.v
theories/ArrayModel.v
theories/ArrayProofs.v
theories/ArrayOps.v
theories/RechunkProofs.v
theories/SliceProofs.v
theories/SliceProofs2.v
theories/ArithProofs.v
theories/LeadModel.v
theories/LeadProofs.v
theories/BlockProofs.v
theories/AxisProofs.v
theories/StackProofs.v
theories/BilinProofs.v
theories/ActProofs.v
theories/EquivProofs.v
theories/EquivProofs2.v
theories/HistoryProofs.v
theories/FlagProofs.v
theories/ArrayProps.v
theories/ArrayProps2.v
theories/ArrayProps3.v
theories/SumR.v
theories/EntryProofs.v
theories/LinearModel.v
theories/LinearProofs.v
theories/LinearProps.v
theories/TPModel.v
theories/TPProofs.v
theories/StableSort.v
theories/TPProofs2.v
theories/TPProofs3.v
theories/TPProps.v
theories/TPProps2.v
theories/TPProps3.v
theories/ScatterModel.v
theories/ScatterProps.v
theories/RotationModel.v
theories/RotationProofs.v
theories/RotationProofs2.v
theories/RotationProofs3.v
theories/RotationProps.v
theories/CGModel.v
theories/CGProofs.v
theories/CGProofs2.v
theories/CGProofs3.v
theories/CGProofs4.v
theories/CGProofs5.v
theories/CGProofs6.v
theories/CGProofs7.v
theories/CGProofs8.v
theories/CGProofs9.v
theories/CGProofs10.v
theories/CGProofs11.v
theories/JTables.v
theories/CGProofs12.v
theories/WignerModel.v
theories/CGProofs13.v
theories/WignerProofs.v
theories/WignerProofs2.v
theories/WignerProps.v
theories/WignerProps2.v
theories/ActivationModel.v
theories/ActivationProofs.v
theories/GateProofs.v
theories/NormActProofs.v
theories/ActivationProps.v
theories/ActivationProps2.v
theories/RadiusModel.v
theories/RadiusProps.v
theories/RadialModel.v
theories/RadialProofs.v
theories/RadialProofs2.v
theories/RadialProofs3.v
theories/RadialProofs4.v
theories/RadialProps.v
theories/NormModel.v
theories/NormProofs.v
theories/NormProps.v
theories/NormProps2.v
theories/S2Model.v
theories/TrigProofs.v
theories/PolyProofs.v
theories/LegendreProofs.v
theories/S2Proofs.v
theories/S2Proofs2.v
theories/S2Props.v
theories/S2Proofs3.v
theories/S2Props2.v
theories/S2Props3.v
theories/SHModel.v
theories/SHProofs.v
theories/SHProofs2.v
theories/SHProofs3.v
theories/SHProofs4.v
theories/SHProofs5.v
theories/SHProofs6.v
theories/SHProofs7.v
theories/SHProofs8.v
theories/SHProps.v
theories/SHProps2.v
theories/SHProps3.v
theories/S2PointModel.v
theories/S2PointProps.v
theories/S2PointProps2.v
theories/S2Props4.v
theories/SymModel.v
theories/SymProofs.v
theories/SymProofs2.v
theories/SymProps.v
theories/SymProps2.v
theories/SymProps3.v
theories/GradModel.v
theories/GradProofs.v
theories/GradProps.v
theories/CGComplete.v
theories/TPProps4.v
theories/MathModel.v
theories/MathProofs.v
theories/GSProofs.v
theories/MathProps.v
theories/BasisProofs.v
theories/MathProps2.v
theories/LegacyModel.v
theories/LegacyProofs.v
theories/LegacyProofs2.v
theories/LegacyProofs3.v
theories/LegacyProofs4.v
theories/LegacyProofs5.v
theories/LegacyProofs6.v
theories/LegacyProofs7.v
theories/LegacyProofs8.v
theories/LegacyProps.v
theories/LegacyProps2.v
theories/LegacyProps3.v
theories/LegacyProps4.v
theories/LegacyProps5.v
theories/LegacyProps6.v
theories/SchurProofs.v
theories/MultProofs.v
theories/CouplingProofs.v
theories/ReducedProofs.v
theories/BasisProofs2.v
theories/ConstrainProofs.v
theories/RtpModel.v
theories/RtpSpace.v
theories/RtpTools.v
theories/RtpArr.v
theories/RtpConstrain.v
theories/RtpConstrain2.v
theories/RtpMasks.v
theories/RtpPerm.v
theories/RtpMain.v
theories/RtpSpec.v
theories/RtpResult.v
theories/SpectralProofs.v
theories/RtpProps.v
theories/RtpSymModel.v
theories/RtpWords.v
theories/RtpSymmetrize.v
theories/RtpFamily.v
theories/RtpTuples.v
theories/RtpChain.v
theories/RtpTerm.v
theories/RtpTerm2.v
theories/RtpTerm3.v
theories/RtpOpt.v
theories/RtpTotal.v
theories/RtpUnique.v
theories/RtpProps2.v
theories/TpshCG.v
theories/TpshModel.v
theories/TpshProofs.v
theories/TpshProofs2.v
theories/TpshProofs3.v
theories/TpshProps.v
theories/LinearComplete.v
theories/LinearProps2.v
theories/LinModModel.v
theories/LinModProofs.v
theories/LinModProofs2.v
theories/LinModProps.v
theories/LinModProps2.v
theories/LinModProps3.v
theories/StpModel.v
theories/StpProofs.v
theories/StpProofs2.v
theories/StpProps.v
theories/StpProps2.v
theories/StpProps3.v
theories/MlpModel.v
theories/MlpProps.v
theories/MlpProps2.v
theories/ConvModel.v
theories/ConvProofs.v
theories/ConvProofs2.v
theories/ConvProofs3.v
theories/ConvProofs4.v
theories/ConvProofs5.v
theories/ConvProofs6.v
theories/ConvProps.v
theories/ConvProps2.v
theories/ConvProps3.v
theories/ConvProps4.v
theories/ConvProps5.v
theories/VoxelModel.v
theories/VoxelProps.v
theories/TransformerModel.v
theories/TransformerProofs.v
theories/TransformerProofs2.v
theories/TransformerProofs3.v
theories/TransformerProofs4.v
theories/TransformerProps.v
theories/TransformerProps2.v
theories/TransformerProps3.v
theories/TransformerProps4.v
theories/TransformerProps5.v
theories/TransformerProps6.v
theories/ShtpModel.v
theories/ShtpProofs.v
theories/ShtpProofs2.v
theories/ShtpProofs3.v
theories/ShtpProofs4.v
theories/ShtpProofs5.v
theories/ShtpProofs6.v
theories/ShtpProps.v
theories/ShtpProofs7.v
theories/ShtpProps2.v
theories/VconvModel.v
theories/VconvProofs.v
theories/VconvProofs2.v
theories/VconvProofs3.v
theories/VconvProofs4.v
theories/VconvProps.v
theories/VconvProps2.v
theories/VconvProps3.v
theories/VconvProps4.v
theories/LinShtpModel.v
theories/LinShtpProofs.v
theories/LinShtpProofs2.v
theories/LinShtpProofs3.v
theories/LinShtpProofs4.v
theories/LinShtpProps.v
theories/LinShtpProps2.v
