-Q theories Verif
theories/Arith.v
theories/TimeModel.v
theories/ArithLaws.v
theories/TimeSpec.v
theories/TimeProof.v
theories/TimeNum.v
theories/TimeTerm.v
theories/TimeMain.v
theories/TimeProps.v
theories/Vec.v
theories/StatsModel.v
theories/StatsProps.v
theories/NodeModel.v
theories/NodeProps.v
theories/Sums.v
theories/SparseModel.v
theories/SparseProof.v
theories/ConcModel.v
theories/ConcProof.v
theories/SparseProps.v
theories/IterModel.v
theories/IterProof.v
theories/Ieee.v
theories/IterMask.v
theories/IterExact.v
theories/IterProps.v
theories/StdModel.v
theories/MeshModel.v
theories/MeshProof.v
theories/MeshProps.v
theories/ElemModel.v
theories/ElemProof.v
theories/AvgModel.v
theories/ElemProps.v
theories/QuadProps.v
theories/LinAlg.v
theories/AsmModel.v
theories/AsmProof.v
theories/AsmProps.v
theories/LlgProps.v
theories/CtrlModel.v
theories/CtrlProof.v
theories/CtrlSpec.v
theories/CtrlFace.v
theories/CtrlMain.v
theories/CtrlProps.v
theories/ChargeProps.v
theories/EnergyModel.v
theories/EnergyProps.v
theories/RecenterModel.v
theories/RecenterProps.v
theories/CountProps.v
theories/TextModel.v
theories/TextProof.v
theories/TextProps.v
theories/YamlProps.v
theories/SolModel.v
theories/SolProof.v
theories/SolProps.v
theories/ColumnModel.v
theories/ColumnProps.v
theories/MainModel.v
theories/MainProps.v
theories/SettingsModel.v
theories/SettingsProps.v
theories/WeakProps.v
theories/DemagModel.v
theories/DemagProof.v
theories/DemagProps.v
theories/PotentialProps.v
theories/CgProof.v
theories/CgProps.v
theories/TransportModel.v
theories/BoundaryProps.v
theories/TransportProof.v
theories/ElectroProps.v
theories/SpinProps.v
theories/ParserModel.v
theories/ParserProps.v
theories/JsLibProps.v
theories/ReadModel.v
theories/ReadProps.v
theories/RestoreProps.v
theories/TimeB64.v
theories/PrintModel.v
theories/PrintProps.v
theories/DissipProps.v
theories/RoundModel.v
theories/RoundProof.v
theories/RoundProps.v
theories/RotProps.v
theories/ThetaModel.v
theories/ThetaProps.v
theories/StModel.v
theories/StProps.v
theories/StartModel.v
theories/StartProps.v
theories/BasisProps.v
theories/ReproProps.v
theories/RowProps.v
theories/FileModel.v
theories/FileProps.v
theories/PrecessProps.v
theories/ConvProps.v
theories/SecondProps.v
theories/RelaxProps.v
theories/UenergyProps.v
theories/OrientProps.v
theories/FiniteProps.v
theories/NeelModel.v
theories/NeelProps.v
theories/RenumProps.v
theories/PinProps.v
theories/RenumPotProps.v
theories/DirModel.v
theories/DirProps.v
