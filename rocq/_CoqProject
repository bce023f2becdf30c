-Q theories Verif

theories/StdAlg.v
theories/StdAlgProofs.v
theories/RngModel.v
theories/RngSpec.v
theories/RngProofs.v
theories/RngProps.v
theories/MeshModel.v
theories/MeshSpec.v
theories/MeshProofs.v
theories/MeshProps.v
theories/RUtil.v
theories/GeomModel.v
theories/GeomProofs.v
theories/GeomProps.v
theories/McModel.v
theories/McProofs.v
theories/McProps.v
theories/TallyModel.v
theories/TallyProofs.v
theories/TallyProps.v
theories/AngModel.v
theories/AngProofs.v
theories/AngProps.v
theories/BcModel.v
theories/BcProofs.v
theories/BcProps.v
theories/ListUtil.v
theories/ScatModel.v
theories/ScatProofs.v
theories/ScatProps.v
theories/MatModel.v
theories/MatProps.v
theories/CoreModel.v
theories/CoreProofs.v
theories/LatProps.v
theories/PlaneProps.v
theories/EquivProps.v
theories/AsmModel.v
theories/AsmProps.v
theories/CoreMapProps.v
theories/MacroProps.v
theories/RayModel.v
theories/RayProofs.v
theories/RayProps.v
theories/RatModel.v
theories/RatProofs.v
theories/RatProps.v
theories/ExpModel.v
theories/ExpProps.v
theories/MocModel.v
theories/MocProofs.v
theories/MocProps.v
theories/VolModel.v
theories/VolProps.v
theories/CurModel.v
theories/CurProofs.v
theories/CurProps.v
theories/PflModel.v
theories/PflProps.v
theories/XsModel.v
theories/XsProps.v
theories/HomProps.v
theories/SrcModel.v
theories/SrcProps.v
theories/SolModel.v
theories/SolProps.v
theories/MgModel.v
theories/MgProps.v
theories/SnModel.v
theories/SnEqProps.v
theories/SnProofs.v
theories/SnProps.v
theories/SnCurProps.v
theories/SnSweepProps.v
theories/SnGroupModel.v
theories/SnGroupProps.v
theories/EigProps.v
theories/EigSnProps.v
theories/SnIncModel.v
theories/SnIncProps.v
theories/TlModel.v
theories/TlProps.v
theories/CorrModel.v
theories/CorrProps.v
theories/SnPinModel.v
theories/SnPinProps.v
theories/CmfdModel.v
theories/CmfdProps.v
theories/CmfdMacroProps.v
theories/StrModel.v
theories/StrProps.v
theories/PmModel.v
theories/PmProps.v
theories/PmTraceProps.v
theories/PmCylTrace.v
theories/PmCylChord.v
theories/PmAreaProps.v
theories/MgInnerProps.v
theories/FpModel.v
theories/FpProps.v
theories/PartModel.v
theories/PartProps.v
theories/PartFlightProps.v
theories/PartRegProps.v
theories/HistModel.v
theories/HistProps.v
theories/LocProps.v
theories/RayTrModel.v
theories/RayTrProps.v
theories/RayCmModel.v
theories/RayCmProps.v
theories/CvolProps.v
theories/RegModel.v
theories/RegProps.v
theories/SnOutModel.v
theories/SnOutProps.v
theories/CmdoModel.v
theories/CmdoProps.v
theories/CorwModel.v
theories/CorwProofs.v
theories/CorwProps.v
theories/MsfModel.v
theories/MsfProps.v
theories/XshModel.v
theories/XshProps.v
theories/AqModel.v
theories/AqProps.v
theories/AqwProps.v
theories/GaussProps.v
theories/CmsModel.v
theories/CmsProps.v
theories/InpModel.v
theories/InpProps.v
theories/H5Model.v
theories/H5Props.v
theories/UtilModel.v
theories/UtilProps.v
theories/AqxModel.v
theories/AqxProps.v
theories/MocMaxProps.v
theories/MocEigProps.v
theories/InfProps.v
theories/InfSnProps.v
theories/McEigModel.v
theories/McEigProofs.v
theories/McEigProps.v
theories/MocBalProps.v
theories/OrdProps.v
theories/MocSetModel.v
theories/MocSetProofs.v
theories/MocSetProps.v
theories/MocBuildProofs.v
theories/MocBuildProps.v
theories/MocOptModel.v
theories/MocOptProps.v
theories/MocLinProofs.v
theories/MocConvProps.v
theories/CmPosProps.v
theories/EigAccModel.v
theories/EigAccProofs.v
theories/EigAccProps.v
theories/DrvModel.v
theories/DrvProps.v
theories/FixModel.v
theories/FixProofs.v
theories/FixProps.v
theories/MocReflProofs.v
theories/MocReflProps.v
theories/LibFileModel.v
theories/LibFileProofs.v
theories/LibFileProps.v
theories/XsFileModel.v
theories/XsFileProofs.v
theories/XsFileProps.v
theories/MocRecipProofs.v
theories/MocRecipProps.v
theories/MocTurnProps.v
theories/CmoModel.v
theories/CmoProps.v
theories/ResModel.v
theories/ResProofs.v
theories/ResProps.v
theories/MocOrdProps.v
theories/MocKeffProps.v
theories/MocBracketProps.v
theories/SurfPtModel.v
theories/SurfPtProps.v
theories/DrawModel.v
theories/DrawProps.v
theories/RayPyModel.v
theories/RayPyProps.v
theories/CmKeffProps.v
theories/MocAccProps.v
theories/ResPowProps.v
theories/LayModel.v
theories/LayProofs.v
theories/LayPaths.v
theories/LayShape.v
theories/LayProps.v
theories/LibStreamModel.v
theories/LibStreamProps.v
theories/SrcFacModel.v
theories/SrcFacProps.v
