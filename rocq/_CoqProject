-Q theories Verif
theories/Base/Arr.v
theories/Base/ExpTaylor.v
theories/Base/Ext.v
theories/Base/Float64.v
theories/Base/IntvMx.v
theories/Base/IntvZ.v
theories/Base/LinSolve.v
theories/Base/Outcome.v
theories/Base/PolyInt.v
theories/Base/PolyInterp.v
theories/Base/QcEmb.v
theories/Base/QcField.v
theories/Base/RField.v
theories/Base/RRcf.v
theories/Base/Str.v
theories/Model/Butcher.v
theories/Model/Cache.v
theories/Model/Collocation.v
theories/Model/Fejer.v
theories/Model/Gen.v
theories/Model/Lagrange.v
theories/Model/MinCoeffs.v
theories/Model/Nodes.v
theories/Model/NumUtil.v
theories/Model/QGen.v
theories/Model/Register.v
theories/Model/Registry.v
theories/Model/Rounded.v
theories/Model/RoundedSdc.v
theories/Model/RoundedSolve.v
theories/Model/RoundedSweeps.v
theories/Model/Sdc.v
theories/Model/Shipped.v
theories/Model/Sparse.v
theories/Model/Sweeps.v
theories/Proofs/AStabP.v
theories/Proofs/ButcherP.v
theories/Proofs/CExpP.v
theories/Proofs/CacheP.v
theories/Proofs/ChebNodesP.v
theories/Proofs/ChebP.v
theories/Proofs/ChebSharpP.v
theories/Proofs/CollP.v
theories/Proofs/ConvP.v
theories/Proofs/EquidSharpP.v
theories/Proofs/ExtrapP.v
theories/Proofs/FactorP.v
theories/Proofs/FejerP.v
theories/Proofs/GenP.v
theories/Proofs/LagrangeInit.v
theories/Proofs/LagrangeP.v
theories/Proofs/LagrangeThms.v
theories/Proofs/LegEncl.v
theories/Proofs/LegStabP.v
theories/Proofs/LegendreP.v
theories/Proofs/NilP.v
theories/Proofs/NodesP.v
theories/Proofs/NodesThms.v
theories/Proofs/OracleP.v
theories/Proofs/OrderP.v
theories/Proofs/OrthoP.v
theories/Proofs/PadP.v
theories/Proofs/QuadP.v
theories/Proofs/RegrP.v
theories/Proofs/RootsP.v
theories/Proofs/RoundAbsP.v
theories/Proofs/RoundDerivP.v
theories/Proofs/RoundExactP.v
theories/Proofs/RoundP.v
theories/Proofs/RoundRowP.v
theories/Proofs/RoundSdc2P.v
theories/Proofs/RoundSdcP.v
theories/Proofs/RoundSolveP.v
theories/Proofs/RoundSweepP.v
theories/Proofs/SchemeP.v
theories/Proofs/SdcOrderP.v
theories/Proofs/SdcP.v
theories/Proofs/SensitivityP.v
theories/Proofs/SharpP.v
theories/Proofs/SoeP.v
theories/Proofs/SoeThms.v
theories/Proofs/SparseP.v
theories/Proofs/StabFunP.v
theories/Proofs/StabP.v
theories/Proofs/StiffC.v
theories/Proofs/StiffP.v
theories/Proofs/StoredP.v
theories/Proofs/SweepP.v
theories/Proofs/UnsortedP.v
theories/Properties/AlgProps.v
theories/Properties/CacheProps.v
theories/Properties/ChebNodesProps.v
theories/Properties/CollProps.v
theories/Properties/ConvProps.v
theories/Properties/DiagProps.v
theories/Properties/EquidOrderProps.v
theories/Properties/ErrorProps.v
theories/Properties/FejerProps.v
theories/Properties/GenProps.v
theories/Properties/IntervalProps.v
theories/Properties/LagrangeProps.v
theories/Properties/MinProps.v
theories/Properties/NodeSweepProps.v
theories/Properties/NodesProps.v
theories/Properties/NumProps.v
theories/Properties/OrderTableProps.v
theories/Properties/RKProps.v
theories/Properties/RealProps.v
theories/Properties/RegisterProps.v
theories/Properties/RegistryProps.v
theories/Properties/RoundDerivProps.v
theories/Properties/RoundIntegProps.v
theories/Properties/RoundProps.v
theories/Properties/RoundSdcProps.v
theories/Properties/RoundSolveProps.v
theories/Properties/RoundSweepProps.v
theories/Properties/SdcOrderProps.v
theories/Properties/SdcProps.v
theories/Properties/SensitivityProps.v
theories/Properties/SharpProps.v
theories/Properties/SparseProps.v
theories/Properties/StabilityProps.v
theories/Properties/StoredProps.v
theories/Properties/TimeStepProps.v
theories/Properties/TotalProps.v
theories/Properties/TotalSdcProps.v
theories/Properties/UnsortedProps.v
theories/Spec/ButcherSpec.v
theories/Spec/CacheSpec.v
theories/Spec/CollSpec.v
theories/Spec/ConvSpec.v
theories/Spec/GenSpec.v
theories/Spec/LagrangeSpec.v
theories/Spec/NodeSweepSpec.v
theories/Spec/NodesSpec.v
theories/Spec/NumSpec.v
theories/Spec/QCoeffSpec.v
theories/Spec/RegisterSpec.v
theories/Spec/RoundSdcSpec.v
theories/Spec/RoundSolveSpec.v
theories/Spec/RoundSpec.v
theories/Spec/SdcSpec.v
theories/Spec/SensitivitySpec.v
theories/Spec/SparseSpec.v
theories/Spec/StabSpec.v
theories/Spec/StoredSpec.v
theories/Spec/SweepSpec.v
theories/Spec/TotalSpec.v
