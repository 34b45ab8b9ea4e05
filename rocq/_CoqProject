-Q theories Verif
theories/BandModel.v
theories/BandProofs.v
theories/BandProps.v
theories/BandSpec.v
theories/BzModel.v
theories/BzProofs.v
theories/BzProps.v
theories/BzSpec.v
theories/Chi2Model.v
theories/Chi2Proofs.v
theories/Chi2Props.v
theories/Chi2Spec.v
theories/Common.v
theories/CommonProofs.v
theories/CompModel.v
theories/CompProofs.v
theories/CompProps.v
theories/CompSpec.v
theories/CoulModel.v
theories/CoulProofs.v
theories/CoulProps.v
theories/CoulSpec.v
theories/CplModel.v
theories/CplProofs.v
theories/CplProps.v
theories/CplSpec.v
theories/Cx.v
theories/CxProofs.v
theories/DdModel.v
theories/DdProofs.v
theories/DdProps.v
theories/DdSpec.v
theories/DecModel.v
theories/DecProofs.v
theories/DecProps.v
theories/DecSpec.v
theories/DiagModel.v
theories/DiagMoreProofs.v
theories/DiagMoreProps.v
theories/DiagProofs.v
theories/DiagProofs2.v
theories/DiagProofs3.v
theories/DiagProofs4.v
theories/DiagProps.v
theories/DiagSpec.v
theories/DispModel.v
theories/DispProofs.v
theories/DispProps.v
theories/DosInt.v
theories/DosModel.v
theories/DosProofs.v
theories/DosProofs2.v
theories/DosProps.v
theories/DosSpec.v
theories/DrvModel.v
theories/DrvProofs.v
theories/DrvProps.v
theories/DrvSpec.v
theories/EbandModel.v
theories/EbandProofs.v
theories/EbandProps.v
theories/EbandSpec.v
theories/ElModel.v
theories/ElProofs.v
theories/ElProofs2.v
theories/ElProofs3.v
theories/ElProofs4.v
theories/ElProps.v
theories/ElSpec.v
theories/ElelModel.v
theories/ElelProofs.v
theories/ElelProps.v
theories/EliashModel.v
theories/EliashProofs.v
theories/EliashSpec.v
theories/ElphModel.v
theories/ElphProofs.v
theories/ElphProofs2.v
theories/ElphProofs3.v
theories/ElphProps.v
theories/ElphQModel.v
theories/ElphQProofs.v
theories/ElphQProps.v
theories/ElphSCModel.v
theories/ElphSCProofs.v
theories/ElphSCProps.v
theories/ElphSpec.v
theories/EpmatModel.v
theories/EpmatProofs.v
theories/EpmatProps.v
theories/EpwmModel.v
theories/EpwmProofs.v
theories/EpwmProps.v
theories/EpwmSpec.v
theories/EpwoModel.v
theories/EpwoProofs.v
theories/EpwoProps.v
theories/EpwoSpec.v
theories/FilbModel.v
theories/FilbProofs.v
theories/FilbProps.v
theories/FilbSpec.v
theories/FmtProps.v
theories/FourModel.v
theories/FourProofs.v
theories/FrcModel.v
theories/FrcProofs.v
theories/FrcProofs2.v
theories/FrcProps.v
theories/FrcSpec.v
theories/FreeProofs.v
theories/FreeProps.v
theories/FreeSpec.v
theories/FullModel.v
theories/FullProofs.v
theories/FullProofs2.v
theories/FullProofs3.v
theories/FullProps.v
theories/FullSpec.v
theories/GaussProofs.v
theories/GeoModel.v
theories/GeoProofs.v
theories/GeoProps.v
theories/GeoSpec.v
theories/GmkgModel.v
theories/GmkgProofs.v
theories/GmkgProps.v
theories/GmkgSpec.v
theories/GridModel.v
theories/GridProofs.v
theories/GridProofs2.v
theories/GridProps.v
theories/GridSpec.v
theories/HermPath.v
theories/HermProofs.v
theories/HermSpec.v
theories/HrModel.v
theories/HrProofs.v
theories/HrProofs2.v
theories/HrProps.v
theories/HrSpec.v
theories/IsoCover.v
theories/IsoJoin.v
theories/IsoModel.v
theories/IsoProofs.v
theories/IsoProps.v
theories/IsoSpec.v
theories/KrModel.v
theories/KrProofs.v
theories/KrProps.v
theories/LatModel.v
theories/LatProofs.v
theories/LatProps.v
theories/LatSpec.v
theories/LinModel.v
theories/LinProofs.v
theories/LinProps.v
theories/LinSpec.v
theories/MPIModel.v
theories/MPIMoreProofs.v
theories/MPIProofs.v
theories/MPIProps.v
theories/MPISharedProofs.v
theories/MdExample.v
theories/MdModel.v
theories/MdProofs.v
theories/MdProofs2.v
theories/MdProofs3.v
theories/MdProps.v
theories/MdSpec.v
theories/MiscModel.v
theories/MiscProofs.v
theories/MiscProps.v
theories/MiscSpec.v
theories/ModelsModel.v
theories/ModelsProofs.v
theories/ModelsProps.v
theories/ModelsSpec.v
theories/NmlModel.v
theories/NmlProofs.v
theories/Num.v
theories/NumC.v
theories/NumProofs.v
theories/OField.v
theories/OccFermi.v
theories/OccMats.v
theories/OccModel.v
theories/OccProofs.v
theories/OccProofs2.v
theories/OccProps.v
theories/OccSpec.v
theories/OrbModel.v
theories/OrbProofs.v
theories/OrbProps.v
theories/OrbSpec.v
theories/PatModel.v
theories/PatProofs.v
theories/PatProps.v
theories/PatSpec.v
theories/PathModel.v
theories/PathProofs.v
theories/PathProofs2.v
theories/PathProps.v
theories/PathSpec.v
theories/PhCellModel.v
theories/PhCellProofs.v
theories/PhCellProps.v
theories/PhCellSpec.v
theories/PhLRModel.v
theories/PhLRProofs.v
theories/PhModel.v
theories/PhProofs.v
theories/PhProofs2.v
theories/PhProps.v
theories/PhSumModel.v
theories/PhSumProofs.v
theories/PhSumSpec.v
theories/PhUpdModel.v
theories/PhUpdProofs.v
theories/PhUpdProps.v
theories/PixModel.v
theories/PixProofs.v
theories/PixProps.v
theories/PixSpec.v
theories/PltModel.v
theories/PltProofs.v
theories/PltProofs2.v
theories/PltProofs3.v
theories/PltProps.v
theories/PltSpec.v
theories/PrimModel.v
theories/PrimProofs.v
theories/PrimProps.v
theories/PrimSpec.v
theories/ProjModel.v
theories/ProjProofs.v
theories/ProjProps.v
theories/ProjReadProofs.v
theories/ProjReadProps.v
theories/ProjSpec.v
theories/PwoModel.v
theories/PwoProofs.v
theories/PwoProofs2.v
theories/PwoProofs3.v
theories/PwoProofs4.v
theories/PwoProps.v
theories/PwoSpec.v
theories/QeCards.v
theories/QeModel.v
theories/QeProofs.v
theories/QeProps.v
theories/QePw.v
theories/QeSpec.v
theories/QuadModel.v
theories/QuadProofs.v
theories/QuadProps.v
theories/QuadSpec.v
theories/RootsProofs.v
theories/SampModel.v
theories/SampProofs.v
theories/SampProps.v
theories/SampSpec.v
theories/SaveModel.v
theories/SaveProps.v
theories/SpecFModel.v
theories/SpecFProofs.v
theories/SpecFProps.v
theories/SpecFSpec.v
theories/SplitModel.v
theories/SplitProofs.v
theories/SplitProps.v
theories/SplitSpec.v
theories/StackModel.v
theories/StackProofs.v
theories/StackSpec.v
theories/SuperModel.v
theories/SuperProofs.v
theories/SuperProps.v
theories/SuperSpec.v
theories/SymModel.v
theories/SymProofs.v
theories/SymProofs2.v
theories/SymProofs3.v
theories/SymProps.v
theories/SymSpec.v
theories/TabModel.v
theories/TabProofs.v
theories/TabProofs2.v
theories/TabProofs3.v
theories/TabProps.v
theories/TabSpec.v
theories/Text.v
theories/TextE.v
theories/TextEProofs.v
theories/TextG.v
theories/TextGProofs.v
theories/TextProofs.v
theories/UnfoldModel.v
theories/UnfoldProofs.v
theories/UnfoldProofs2.v
theories/UnfoldProps.v
theories/UnfoldSpec.v
theories/VorModel.v
theories/VorProofs.v
theories/VorSpec.v
theories/WSModel.v
theories/WSProofs.v
theories/WSProofs2.v
theories/WSProps.v
theories/WSSpec.v
theories/WedgeModel.v
theories/WedgeProofs.v
theories/WedgeProofs2.v
theories/WedgeProofs3.v
theories/WedgeProofs4.v
theories/WedgeProps.v
theories/WedgeSpec.v
theories/WinModel.v
theories/WinProofs.v
theories/WinProofs2.v
theories/WinProps.v
theories/WinSpec.v
theories/WsvModel.v
theories/WsvProofs.v
theories/WsvProps.v
theories/WsvSpec.v
theories/XmlModel.v
theories/XmlProofs.v
theories/XmlProps.v
theories/XmlSpec.v
theories/XsfModel.v
theories/XsfProofs.v
theories/XsfProofs2.v
theories/XsfProps.v
theories/XsfSpec.v
theories/XyzModel.v
theories/XyzProofs.v
theories/XyzProps.v
theories/XyzSpec.v
