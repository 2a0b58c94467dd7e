-Q theories Verif
theories/Base.v
theories/Loops.v
theories/InterleaverModel.v
theories/InterleaverSpec.v
theories/InterleaverProofs.v
theories/InterleaverGenProofs.v
theories/InterleaverStdModel.v
theories/InterleaverStdProofs.v
theories/InterleaverProps.v
theories/Float32.v
theories/BitPackerModel.v
theories/BitPackerSpec.v
theories/BitPackerProofs.v
theories/BitPackerProps.v
theories/GF2.v
theories/CRCModel.v
theories/CRCSpec.v
theories/CRCProofs.v
theories/CRCFastProofs.v
theories/CRCInterProofs.v
theories/CRCProps.v
theories/PolarModel.v
theories/PolarSpec.v
theories/PolarProofs.v
theories/PolarSCProofs.v
theories/PolarMKProofs.v
theories/PolarProps.v
theories/Copy.v
theories/PunctModel.v
theories/PunctSpec.v
theories/PunctProofs.v
theories/PunctProps.v
theories/WLoops.v
theories/ConvModel.v
theories/ConvSpec.v
theories/ConvProofs.v
theories/ConvTrellisProofs.v
theories/ConvCodeProofs.v
theories/TurboProofs.v
theories/DbProofs.v
theories/ConvProps.v
theories/RepModel.v
theories/RepSpec.v
theories/RepProofs.v
theories/RepProps.v
theories/GField.v
theories/BMTheory.v
theories/GaloisModel.v
theories/GaloisSpec.v
theories/GaloisTheory.v
theories/GaloisPrim.v
theories/GaloisProofs.v
theories/GaloisProps.v
theories/GFTab.v
theories/BCHModel.v
theories/BCHSpec.v
theories/BCHSets.v
theories/BCHEncProofs.v
theories/BCHCode.v
theories/BCHEncProps.v
theories/BMProofs.v
theories/LocProofs.v
theories/BCHDecProofs.v
theories/BCHDecProps.v
theories/RSModel.v
theories/RSSpec.v
theories/RSEncProofs.v
theories/RSDecProofs.v
theories/RSBits.v
theories/RSProps.v
theories/SparseModel.v
theories/SparseSpec.v
theories/SparseProofs.v
theories/SparseProps.v
theories/FullModel.v
theories/FullSpec.v
theories/FullProofs.v
theories/FullProps.v
theories/LDPCModel.v
theories/LDPCSpec.v
theories/LDPCProofs.v
theories/LUProofs.v
theories/GenProofs.v
theories/DiagProofs.v
theories/LDPCProps.v
theories/DVBS2Model.v
theories/DVBS2Spec.v
theories/DVBS2Proofs.v
theories/DVBS2Props.v
theories/AListModel.v
theories/AListSpec.v
theories/TextProofs.v
theories/AListProofs.v
theories/AListFile.v
theories/QCProofs.v
theories/AListProps.v
theories/HardModel.v
theories/HardProofs.v
theories/HardProps.v
theories/PeelModel.v
theories/PeelSpec.v
theories/PeelProofs.v
theories/PeelProps.v
theories/FloatQ.v
theories/PRNGModel.v
theories/PRNGSpec.v
theories/PRNGProofs.v
theories/PRNGReal.v
theories/PRNGProps.v
theories/UtilModel.v
theories/UtilSpec.v
theories/UtilProofs.v
theories/UtilProps.v
theories/AdaptorModel.v
theories/AdaptorSpec.v
theories/AdaptorProofs.v
theories/AdaptorProps.v
theories/ReorderModel.v
theories/ReorderProofs.v
theories/ReorderProps.v
theories/SortModel.v
theories/SortProofs.v
theories/SortProps.v
theories/QuantModel.v
theories/QuantProps.v
theories/SocketModel.v
theories/SocketProps.v
theories/ControlModel.v
theories/ControlProps.v
theories/DistModel.v
theories/DistProps.v
theories/HistModel.v
theories/HistProps.v
theories/MonitorModel.v
theories/MonitorProps.v
theories/TaskModel.v
theories/FrameProps.v
theories/TaskProps.v
theories/SeqModel.v
theories/SeqProps.v
theories/SeqRunProps.v
theories/PatternModel.v
theories/PatternProps.v
theories/FrozenModel.v
theories/FrozenProps.v
theories/MLModel.v
theories/MLProps.v
theories/NoiseModel.v
theories/NoiseProps.v
theories/SnrModel.v
theories/SnrProps.v
theories/LDPCBPModel.v
theories/LDPCBPSpec.v
theories/LDPCBPProofs.v
theories/LDPCBPGraph.v
theories/LDPCBPFlood.v
theories/LDPCBPLayer.v
theories/LDPCBPLoop.v
theories/LDPCBPProps.v
theories/ModemModel.v
theories/ModemSpec.v
theories/ModemProofs.v
theories/ModemProps.v
theories/ModemFastProps.v
theories/ModemReal.v
theories/ModemGray.v
theories/ModemCstlProps.v
theories/ModemSoftProps.v
theories/SourceModel.v
theories/SourceSpec.v
theories/SourceProofs.v
theories/SourceProps.v
theories/ChannelModel.v
theories/ChannelProofs.v
theories/ChannelProps.v
theories/BcjrModel.v
theories/BcjrSpec.v
theories/BcjrProofs.v
theories/BcjrCodeProofs.v
theories/BcjrMaxProofs.v
theories/BcjrSetupProofs.v
theories/BcjrLogProofs.v
theories/BcjrProps.v
theories/BcjrRealProps.v
theories/TurboDecModel.v
theories/TurboDecSpec.v
theories/TurboDecProofs.v
theories/TurboDecProps.v
theories/TurboBcjrProofs.v
theories/TurboBcjrProps.v
theories/TurboPostProps.v
theories/SclModel.v
theories/SclSpec.v
theories/SclTreeProofs.v
theories/SclListProofs.v
theories/SclSpecProofs.v
theories/SclProps.v
theories/GalModel.v
theories/GalSpec.v
theories/GalProofs.v
theories/GalSpecProofs.v
theories/GalInst.v
theories/GalProps.v
theories/FlipModel.v
theories/FlipSpec.v
theories/FlipProofs.v
theories/FlipProps.v
theories/RaDecModel.v
theories/RaDecSpec.v
theories/RaDecProofs.v
theories/RaDecProps.v
theories/TpcModel.v
theories/TpcSpec.v
theories/TpcProofs.v
theories/TpcProps.v
theories/PyndModel.v
theories/PyndSpec.v
theories/PyndPat.v
theories/PyndProofs.v
theories/PyndProps.v
theories/TpdModel.v
theories/TpdSpec.v
theories/TpdProofs.v
theories/TpdProps.v
theories/GeniusModel.v
theories/GeniusSpec.v
theories/GeniusProps.v
theories/UserEncModel.v
theories/UserEncSpec.v
theories/UserEncProps.v
theories/ExtractModel.v
theories/ExtractSpec.v
theories/ExtractProps.v
theories/BchInterModel.v
theories/BchInterProps.v
theories/ProbeModel.v
theories/ProbeSpec.v
theories/ProbeProps.v
theories/ExtractEndProps.v
theories/DbCrcModel.v
theories/DbCrcSpec.v
theories/DbCrcProps.v
theories/Assumptions.v
