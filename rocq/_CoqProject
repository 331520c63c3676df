-Q theories Verif
theories/AbModel.v
theories/AbProofs.v
theories/AbProps.v
theories/AbSpec.v
theories/ArrayModel.v
theories/ArrayProofs.v
theories/ArrayProps.v
theories/ArraySpec.v
theories/AverageModel.v
theories/AverageProofs.v
theories/AverageProofs2.v
theories/AverageProofs3.v
theories/AverageProps.v
theories/AverageSpec.v
theories/Base.v
theories/BfactModel.v
theories/BfactProofs.v
theories/BfactProps.v
theories/BfactSpec.v
theories/BndryModel.v
theories/BndryProofs.v
theories/BndryProofs2.v
theories/BndryProofs3.v
theories/BndryProofs4.v
theories/BndryProofs5.v
theories/BndryProofs6.v
theories/BndryProps.v
theories/BndrySpec.v
theories/BoundsModel.v
theories/BoundsProofs.v
theories/BoundsProofs2.v
theories/BoundsProofs3.v
theories/BoundsProofs4.v
theories/BoundsProofs5.v
theories/BoundsProps.v
theories/BoundsSpec.v
theories/BracketModel.v
theories/BracketProofs.v
theories/BracketProofs2.v
theories/BracketProps.v
theories/BracketSpec.v
theories/CmdlineModel.v
theories/CmdlineProofs.v
theories/CmdlineProps.v
theories/CmdlineSpec.v
theories/CommModel.v
theories/CommProofs.v
theories/CommProofs2.v
theories/CommProofs3.v
theories/CommProofs4.v
theories/CommProps.v
theories/CommSpec.v
theories/CyclicModel.v
theories/CyclicProofs.v
theories/CyclicProofs2.v
theories/CyclicProofs3.v
theories/CyclicProofs4.v
theories/CyclicProps.v
theories/CyclicSpec.v
theories/DerivModel.v
theories/DerivProofs.v
theories/DerivProofs2.v
theories/DerivProps.v
theories/DerivSpec.v
theories/ExprEvalModel.v
theories/ExprEvalProofs.v
theories/ExprEvalSpec.v
theories/ExprModel.v
theories/ExprProofs.v
theories/ExprProofs2.v
theories/ExprProofs3.v
theories/ExprProofs4.v
theories/ExprProofs5.v
theories/ExprProps.v
theories/ExprSpec.v
theories/FactoryModel.v
theories/FactoryProofs.v
theories/FactoryProofs2.v
theories/FactoryProofs3.v
theories/FactoryProofs4.v
theories/FactoryProps.v
theories/FactorySpec.v
theories/FciModel.v
theories/FciProofs.v
theories/FciProps.v
theories/FciSpec.v
theories/FftModel.v
theories/FftProofs.v
theories/FftProofs2.v
theories/FftProofs3.v
theories/FftProofs4.v
theories/FftProofs5.v
theories/FftProps.v
theories/FftSpec.v
theories/FgenModel.v
theories/FgenProps.v
theories/FvModel.v
theories/FvProofs.v
theories/FvProps.v
theories/FvSpec.v
theories/FvalModel.v
theories/FvalProofs.v
theories/FvalProofs2.v
theories/FvalProofs3.v
theories/FvalProofs4.v
theories/FvalProofs5.v
theories/FvalProps.v
theories/FvalSpec.v
theories/GeomModel.v
theories/GeomProps.v
theories/GeomSpec.v
theories/GfieldModel.v
theories/GfieldProofs.v
theories/GfieldProps.v
theories/GfieldSpec.v
theories/GridModel.v
theories/GridProofs.v
theories/GridProps.v
theories/GridSpec.v
theories/GyroModel.v
theories/GyroProofs.v
theories/GyroProofs2.v
theories/GyroProps.v
theories/GyroSpec.v
theories/ImexCoef.v
theories/ImexCoef4.v
theories/ImexModel.v
theories/ImexProofs.v
theories/ImexProps.v
theories/ImexRun.v
theories/ImexSpec.v
theories/ImexTop.v
theories/IndexerModel.v
theories/IndexerProofs.v
theories/IndexerProofs2.v
theories/IndexerProofs3.v
theories/IndexerProofs4.v
theories/IndexerProofs5.v
theories/IndexerProofs6.v
theories/IndexerProps.v
theories/IndexerSpec.v
theories/IniModel.v
theories/IniProofs.v
theories/IniProofs2.v
theories/IniProofs3.v
theories/IniProofs4.v
theories/IniProps.v
theories/IniSpec.v
theories/IniWriteModel.v
theories/IniWriteProofs.v
theories/IniWriteProofs2.v
theories/IniWriteProofs3.v
theories/IniWriteProps.v
theories/IniWriteSpec.v
theories/InterpModel.v
theories/InterpProofs.v
theories/InterpProps.v
theories/InterpSpec.v
theories/LaplaceModel.v
theories/LaplaceProofs.v
theories/LaplaceProofs10.v
theories/LaplaceProofs2.v
theories/LaplaceProofs3.v
theories/LaplaceProofs4.v
theories/LaplaceProofs5.v
theories/LaplaceProofs6.v
theories/LaplaceProofs7.v
theories/LaplaceProofs8.v
theories/LaplaceProofs9.v
theories/LaplaceProps.v
theories/LaplaceSpec.v
theories/LoopModel.v
theories/LoopProofs.v
theories/LoopProps.v
theories/LoopSpec.v
theories/MaskModel.v
theories/MaskProofs.v
theories/MaskProps.v
theories/MaskSpec.v
theories/MeshModel.v
theories/MeshProofs.v
theories/MeshProps.v
theories/MeshSpec.v
theories/MonitorModel.v
theories/MonitorProofs.v
theories/MonitorProps.v
theories/MonitorSpec.v
theories/MpiModel.v
theories/MpiProofs.v
theories/MpiRounds.v
theories/NaulinModel.v
theories/NaulinProofs.v
theories/NaulinProofs2.v
theories/NaulinProofs3.v
theories/NaulinProps.v
theories/NaulinSpec.v
theories/NcModel.v
theories/NcProofs.v
theories/NcProofs2.v
theories/NcProofs3.v
theories/NcProofs4.v
theories/NcProofs5.v
theories/NcProofs6.v
theories/NcProofs7.v
theories/NcProofs8.v
theories/NcProps.v
theories/NcSpec.v
theories/OptConvModel.v
theories/OptConvProofs.v
theories/OptionsModel.v
theories/OptionsProofs.v
theories/OptionsProofs2.v
theories/OptionsProps.v
theories/OptionsSpec.v
theories/ParInvModel.v
theories/ParInvProofs.v
theories/ParInvProofs2.v
theories/ParInvProofs3.v
theories/ParInvProofs4.v
theories/ParInvProofs5.v
theories/ParInvProps.v
theories/ParInvSpec.v
theories/PcrModel.v
theories/PcrProofs.v
theories/PcrProofs2.v
theories/PcrProofs3.v
theories/PcrProofs4.v
theories/PcrProofs5.v
theories/PcrProofs6.v
theories/PcrProofs7.v
theories/PcrProofs8.v
theories/PcrProps.v
theories/PcrSpec.v
theories/RangeModel.v
theories/RangeProofs.v
theories/RangeProps.v
theories/RangeSpec.v
theories/ReduceModel.v
theories/ReduceProofs.v
theories/ReduceProofs2.v
theories/ReduceProps.v
theories/ReduceSpec.v
theories/RegionModel.v
theories/RegionProofs.v
theories/RegionProps.v
theories/RegionSpec.v
theories/RkLocal.v
theories/RkModel.v
theories/RkOrder.v
theories/RkProofs.v
theories/RkProps.v
theories/RkSpec.v
theories/RklModel.v
theories/RklProofs.v
theories/RklProps.v
theories/SmoothModel.v
theories/SmoothProps.v
theories/SmoothSpec.v
theories/SnbModel.v
theories/SnbProofs.v
theories/SnbProofs2.v
theories/SnbProofs3.v
theories/SnbProps.v
theories/SnbSpec.v
theories/SolverModel.v
theories/SolverProofs.v
theories/SolverProofs2.v
theories/SolverProofs3.v
theories/SolverProps.v
theories/SolverSpec.v
theories/SptModel.v
theories/SptProofs.v
theories/SptProofs2.v
theories/SptProps.v
theories/SptSpec.v
theories/SptcModel.v
theories/SptcProofs.v
theories/SptcProofs2.v
theories/SptcProofs3.v
theories/SptcProps.v
theories/SptcSpec.v
theories/StencilProps.v
theories/StringsModel.v
theories/StringsProofs.v
theories/StringsProps.v
theories/StringsSpec.v
theories/SysModel.v
theories/SysProofs.v
theories/SysProps.v
theories/SysSpec.v
theories/TopoModel.v
theories/TopoProofs.v
theories/TopoProofs2.v
theories/TopoProofs3.v
theories/TopoProofs4.v
theories/TopoProofs5.v
theories/TopoProps.v
theories/TopoSpec.v
theories/XzModel.v
theories/XzProofs.v
theories/XzProofs2.v
theories/XzProofs3.v
theories/XzProps.v
theories/XzSpec.v
theories/YcommModel.v
theories/YcommProofs.v
theories/YcommProofs2.v
theories/YcommProofs3.v
theories/YcommProps.v
theories/YcommSpec.v
