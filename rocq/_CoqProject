-Q theories Verif
theories/DependModel.v
theories/DependSpec.v
theories/DependProofs.v
theories/NetBuild.v
theories/DependViewModel.v
theories/DependViewProofs.v
theories/DependThms.v
theories/DependInstances.v
theories/DependProps.v
theories/SockModel.v
theories/SockSpec.v
theories/SockProofs.v
theories/SockThms.v
theories/SockAge.v
theories/SockPoll.v
theories/SockLegacyModel.v
theories/SockLegacyProofs.v
theories/SockProps.v
theories/WireModel.v
theories/WireSpec.v
theories/WireProofs.v
theories/WireReject.v
theories/WireDriver.v
theories/WireProps.v
theories/DirectModel.v
theories/DirectProofs.v
theories/DirectProps.v
theories/RaceModel.v
theories/RaceProps.v
theories/BeadModel.v
theories/BeadProps.v
theories/ActiveModel.v
theories/ActiveProps.v
theories/RSum.v
theories/CommModel.v
theories/CommProofs.v
theories/CommProps.v
theories/RotModel.v
theories/RotProps.v
theories/PairModel.v
theories/PairProofs.v
theories/PairProps.v
theories/TrigSum.v
theories/Ortho.v
theories/NMModel.v
theories/NMProofs.v
theories/RPCProofs.v
theories/NMProps.v
theories/SpringModel.v
theories/SpringProofs.v
theories/SpringProps.v
theories/SpringBab.v
theories/FSumModel.v
theories/FSumProps.v
theories/ForceNet.v
theories/ExtraModel.v
theories/ExtraProps.v
theories/SCModel.v
theories/SCProps.v
theories/MTSModel.v
theories/MTSSched.v
theories/MTSProofs.v
theories/MTSProps.v
theories/ThermoModel.v
theories/ThermoProofs.v
theories/ThermoProps.v
theories/CellModel.v
theories/CellProps.v
theories/CholModel.v
theories/CholProps.v
theories/RemdModel.v
theories/RemdProps.v
theories/ExchModel.v
theories/ExchProofs.v
theories/ExchPerm.v
theories/ExchSym.v
theories/ExchProps.v
theories/ExchNM.v
theories/SoftModel.v
theories/SoftProps.v
theories/SimModel.v
theories/SimProps.v
theories/FileModel.v
theories/FileProps.v
theories/TextLib.v
theories/UnitModel.v
theories/UnitProps.v
theories/ValModel.v
theories/ValProps.v
theories/XyzModel.v
theories/XyzProps.v
theories/PdbModel.v
theories/PdbProps.v
theories/AutoModel.v
theories/AutoProps.v
theories/CellSeries.v
theories/PrngModel.v
theories/PrngProps.v
theories/RampModel.v
theories/RampProps.v
theories/MultiModel.v
theories/MultiProps.v
theories/ReplayModel.v
theories/ReplayProps.v
theories/SwapModel.v
theories/SwapProps.v
theories/MpiModel.v
theories/MpiProofs.v
theories/MpiProps.v
theories/InitModel.v
theories/InitProps.v
theories/PesModel.v
theories/PesProps.v
theories/MinModel.v
theories/MinLin.v
theories/MinSearch.v
theories/MinProps.v
theories/BrentModel.v
theories/BrentProps.v
theories/ConstrModel.v
theories/ConstrLin.v
theories/ConstrProps.v
theories/ConstrJac.v
theories/ConstrCons.v
theories/ConstrCases.v
theories/ConstrSched.v
theories/PhonModel.v
theories/PhonAsr.v
theories/PhonProps.v
theories/PhonOut.v
theories/PhonCases.v
theories/HessModel.v
theories/HessProps.v
theories/BaroModel.v
theories/BaroIso.v
theories/BaroRate.v
theories/BaroCons.v
theories/BaroCell.v
theories/BaroProps.v
theories/BaroMask.v
theories/BaroLevel.v
theories/KmcModel.v
theories/KmcLattice.v
theories/KmcIndex.v
theories/KmcProps.v
theories/KmcThreads.v
theories/KmcCache.v
theories/KmcLink.v
theories/XmlModel.v
theories/XmlProps.v
theories/InpModel.v
theories/InpText.v
theories/InpProofs.v
theories/InpProps.v
theories/XmlWrite.v
theories/EstModel.v
theories/EstLib.v
theories/EstKin.v
theories/EstTemp.v
theories/EstDisp.v
theories/EstThermo.v
theories/EstScaled.v
theories/EstIso.v
theories/EstProps.v
theories/CavModel.v
theories/CavProps.v
theories/InstFix.v
theories/InstFixProps.v
theories/InstModel.v
theories/InstHess.v
theories/InstProps.v
theories/InstPath.v
theories/DrivModel.v
theories/DrivProps.v
theories/PlanModel.v
theories/PlanProps.v
theories/SparseProps.v
theories/NebModel.v
theories/NebProps.v
theories/NebConv.v
theories/BuildModel.v
theories/BuildProps.v
theories/BeadsNet.v
theories/ScpModel.v
theories/ScpProps.v
theories/ScpAvg.v
theories/ScpMat.v
theories/VscfModel.v
theories/VscfProps.v
theories/VscfSolve.v
theories/VscfMap.v
theories/PlumedModel.v
theories/PlumedProps.v
theories/FrameModel.v
theories/FrameProps.v
theories/SortModel.v
theories/SortProps.v
theories/SortRemd.v
theories/ScriptModel.v
theories/ScriptProps.v
theories/TrajModel.v
theories/TrajProps.v
theories/DmdModel.v
theories/DmdProps.v
theories/RewModel.v
theories/RewProps.v
theories/ToolModel.v
theories/ToolProps.v
theories/AcfModel.v
theories/AcfLin.v
theories/AcfProps.v
theories/GleModel.v
theories/GleLin.v
theories/GleProps.v
theories/PpiModel.v
theories/PpiProps.v
theories/ScpTight.v
theories/VscfTight.v
theories/PostLin.v
theories/PostModel.v
theories/PostProps.v
theories/ScpTight2.v
theories/StrModel.v
theories/StrProps.v
theories/NebiModel.v
theories/NebiProps.v
theories/StrTight.v
theories/PostTight.v
theories/MsgModel.v
theories/MsgProps.v
theories/FfinModel.v
theories/FfinProps.v
theories/BathModel.v
theories/BathProps.v
theories/SmoModel.v
theories/SmoProps.v
theories/OutsModel.v
theories/OutsProps.v
theories/IniModel.v
theories/IniProps.v
theories/NmiModel.v
theories/NmiProps.v
theories/TmplModel.v
theories/TmplProps.v
theories/AseModel.v
theories/AseProps.v
theories/AscpModel.v
theories/AscpProps.v
theories/A2bModel.v
theories/A2bProps.v
theories/PolyModel.v
theories/PolyProps.v
theories/RdfModel.v
theories/RdfProps.v
theories/JsonModel.v
theories/JsonProps.v
theories/PbcModel.v
theories/PbcProps.v
theories/JsonTight.v
