-Q theories Verif
theories/Base.v
theories/AuxModel.v
theories/AuxProofs.v
theories/AuxProps.v
theories/DimModel.v
theories/DimProofs.v
theories/DimProps.v
theories/IntModel.v
theories/IntProofs.v
theories/IntProps.v
theories/SctreeModel.v
theories/SctreeProofs.v
theories/SctreeProps.v
theories/LayoutModel.v
theories/LayoutSpec.v
theories/LayoutProofs.v
theories/LayoutIpmProofs.v
theories/LayoutProps.v
theories/ArithF.v
theories/CoreModel.v
theories/CoreProofs.v
theories/CoreProps.v
theories/RSum.v
theories/Blas.v
theories/OcpModel.v
theories/ResSpec.v
theories/ResProofs.v
theories/ResProofs2.v
theories/ResProps.v
theories/NamesAux.v
theories/QpDataModel.v
theories/QpDataSpec.v
theories/QpDataProofs.v
theories/QpDataProofs2.v
theories/QpDataProofs3.v
theories/QpDataProofs4.v
theories/QpDataProofs5.v
theories/QpDataProps.v
theories/Blas2.v
theories/CholProofs.v
theories/KktModel.v
theories/KktSpec.v
theories/CholPD.v
theories/KktProofs.v
theories/KktProofs2.v
theories/KktProofs3.v
theories/KktProofs4.v
theories/KktProofs5.v
theories/KktProofs6.v
theories/KktProofs7.v
theories/KktProps.v
theories/UncModel.v
theories/UncProofs.v
theories/UncProps.v
theories/SolModel.v
theories/SolProofs.v
theories/SolProps.v
theories/ArgModel.v
theories/ArgProps.v
theories/DenModel.v
theories/DenSpec.v
theories/DenProofs.v
theories/DenProps.v
theories/IpmModel.v
theories/IpmProofs.v
theories/IpmProofs2.v
theories/IpmProps.v
theories/IpmFloat.v
theories/IpmInit.v
theories/IpmInitProps.v
theories/IpmReal.v
theories/CondModel.v
theories/ExpModel.v
theories/CondSpec.v
theories/CondProofs.v
theories/CondCost.v
theories/CondCost2.v
theories/CondCost3.v
theories/CondCon.v
theories/CondCon2.v
theories/CondCon3.v
theories/CondSem.v
theories/CondFull.v
theories/CondProps.v
theories/ExpProofs.v
theories/ExpKkt.v
theories/ExpProps.v
theories/RedModel.v
theories/RedSpec.v
theories/RedSem.v
theories/RedProofs.v
theories/RedFull.v
theories/RedRest.v
theories/RedRest2.v
theories/RedProps.v
theories/ErkModel.v
theories/ErkSpec.v
theories/ErkProofs.v
theories/ErkSens.v
theories/ErkApi.v
theories/ErkLin.v
theories/ErkProps.v
theories/PartModel.v
theories/PartSpec.v
theories/PartProofs.v
theories/PartSem.v
theories/PartProps.v
theories/PartExp.v
theories/PartKkt.v
theories/PartExpProps.v
theories/SolveModel.v
theories/SolveProofs.v
theories/SolveProofs2.v
theories/SolveProofs3.v
theories/SolveProofs4.v
theories/NewtonUniq.v
theories/SolveProps.v
theories/SensModel.v
theories/SensSpec.v
theories/SensProofs.v
theories/SensProofs2.v
theories/SensProofs3.v
theories/SensProps.v
theories/DenKktModel.v
theories/DenKktSpec.v
theories/DenKktProofs.v
theories/DenKktAlg.v
theories/DenKktProofs2.v
theories/DenKktProofs3.v
theories/DenKktProofs4.v
theories/DenKktProofs5.v
theories/DenKktProofs6.v
theories/DenKktProofs7.v
theories/DenKktProps.v
theories/SolverModel.v
theories/SolverSpec.v
theories/SolverProofs.v
theories/SolverProps.v
theories/SolverProofs2.v
theories/SensRedProps.v
theories/CholPSD.v
theories/CsplitModel.v
theories/CsplitSpec.v
theories/CsplitProofs.v
theories/CsplitProofs2.v
theories/CsplitCon.v
theories/CsplitFull.v
theories/CsplitProps.v
theories/RunModel.v
theories/RunProofs.v
theories/RunProofs2.v
theories/RunProofs3.v
theories/RunProofs4.v
theories/RunProps.v
theories/TreeModel.v
theories/TreeSpec.v
theories/TreeProofs.v
theories/TreeProps.v
theories/TreeKktModel.v
theories/TreeKktProofs.v
theories/TreeKktProofs2.v
theories/TreeKktProofs3.v
theories/TreeKktProofs4.v
theories/TreeKktSpec.v
theories/TreeUniq.v
theories/TreeKktProps.v
theories/DenIpmModel.v
theories/DenIpmProofs.v
theories/DenIpmProofs2.v
theories/DenIpmInit.v
theories/DenIpmProps.v
theories/DenInitProps.v
theories/DenIpmReal.v
theories/DenIpmFloat.v
theories/DenSolveModel.v
theories/DenSolveProofs.v
theories/DenSolveProofs2.v
theories/DenSolveProofs3.v
theories/DenSolveProps.v
theories/QcqpModel.v
theories/QcqpSpec.v
theories/QcqpProofs.v
theories/QcqpProofs2.v
theories/QcqpProofs3.v
theories/QcqpProps.v
theories/QcqpLinSpec.v
theories/QcqpLin.v
theories/QcqpNewton.v
theories/QcqpMask.v
theories/QcqpLinProps.v
theories/QipmModel.v
theories/QipmProofs.v
theories/QipmProps.v
theories/Qinit.v
theories/QinitProps.v
theories/QipmRealProps.v
theories/QrunSpec.v
theories/QrunProofs.v
theories/QrunProofs2.v
theories/QrunProofs3.v
theories/QrunProofs4.v
theories/QrunProps.v
theories/PcsplitModel.v
theories/PcsplitProofs.v
theories/PcsplitProofs2.v
theories/PcsplitSeed.v
theories/PcsplitExp.v
theories/PcsplitProps.v
theories/CsplitSeedProps.v
theories/KktTerm.v
theories/KktTermProps.v
theories/CupdModel.v
theories/CupdSpec.v
theories/CupdProofs.v
theories/CupdCost.v
theories/CupdCon.v
theories/CupdFull.v
theories/CupdDet.v
theories/CupdProps.v
theories/RicModel.v
theories/RicSpec.v
theories/RicProofs.v
theories/RicProofs2.v
theories/RicProofs3.v
theories/RicProps.v
theories/CsolModel.v
theories/CsolProofs.v
theories/CsolPart.v
theories/CsolProps.v
theories/CsolPartProps.v
theories/TipmModel.v
theories/TipmProofs.v
theories/TipmProofs2.v
theories/TipmProps.v
theories/TipmFloat.v
theories/TipmInit.v
theories/TipmInitProps.v
theories/TipmReal.v
theories/TrunModel.v
theories/TrunProofs.v
theories/TrunProofs2.v
theories/TrunProofs3.v
theories/TrunProofs4.v
theories/TrunProps.v
theories/DrunModel.v
theories/DrunProofs.v
theories/DrunProofs2.v
theories/DrunProofs3.v
theories/DrunProofs4.v
theories/DrunProps.v
theories/DqcModel.v
theories/DqcSpec.v
theories/DqcProofs.v
theories/DqcProps.v
theories/DqlModel.v
theories/DqlSpec.v
theories/DqlProofs.v
theories/DqlProps.v
theories/DqiModel.v
theories/DqiProofs.v
theories/DqiProps.v
theories/DqiInit.v
theories/DqiInitProps.v
theories/DqiReal.v
theories/DqiEx.v
theories/DqrunSpec.v
theories/DqrunProofs.v
theories/DqrunProofs2.v
theories/DqrunProofs3.v
theories/DqrunProofs4.v
theories/DqrunProps.v
theories/PupdModel.v
theories/PupdProofs.v
theories/PupdBlk.v
theories/PupdSpec.v
theories/PupdProofs2.v
theories/PupdProps.v
theories/PupdExpProps.v
