-Q theories Verif
theories/Common.v
theories/CommonFacts.v
theories/PatternModel.v
theories/PatternSpec.v
theories/PatternProofs.v
theories/PatternProps.v
theories/OrderingModel.v
theories/OrderingSpec.v
theories/OrderingProofs.v
theories/OrderingProofs2.v
theories/OrderingProofs3.v
theories/OrderingProofs4.v
theories/OrderingProofs5.v
theories/OrderingProofs6.v
theories/OrderingProps.v
theories/MultiIndexModel.v
theories/MultiIndexSpec.v
theories/MultiIndexProofs.v
theories/MultiIndexProps.v
theories/ClockModel.v
theories/ClockSpec.v
theories/ClockProofs.v
theories/ClockProps.v
theories/RKModel.v
theories/RKSpec.v
theories/RKProofs.v
theories/RKProofs2.v
theories/RKProofs3.v
theories/RKProps.v
theories/DriverModel.v
theories/DriverSpec.v
theories/DriverProofs.v
theories/DriverProps.v
theories/EngineModel.v
theories/EngineSpec.v
theories/EngineProofs.v
theories/EngineProofs2.v
theories/EngineProofs3.v
theories/EngineProps.v
theories/OneStepModel.v
theories/OneStepSpec.v
theories/OneStepProofs.v
theories/OneStepProofs2.v
theories/OneStepProofs3.v
theories/OneStepProofs4.v
theories/OneStepProps.v
theories/MethodModel.v
theories/MethodSpec.v
theories/MethodProofs.v
theories/MethodProofs2.v
theories/MethodProofs3.v
theories/MethodProps.v
theories/NewtonModel.v
theories/NewtonSpec.v
theories/NewtonProofs.v
theories/NewtonProofs2.v
theories/NewtonProofs3.v
theories/NewtonProps.v
theories/ConsModel.v
theories/ConsSpec.v
theories/ConsProofs.v
theories/ConsProofs2.v
theories/ConsProofs3.v
theories/ConsProofs4.v
theories/ConsProps.v
theories/LfsModel.v
theories/LfsSpec.v
theories/LfsProofs.v
theories/LfsProps.v
theories/CsrModel.v
theories/CsrSpec.v
theories/CsrProofs.v
theories/CsrProofs2.v
theories/CsrProps.v
theories/AdaptModel.v
theories/AdaptSpec.v
theories/AdaptProofs.v
theories/AdaptProps.v
theories/TransferModel.v
theories/TransferSpec.v
theories/TransferProofs.v
theories/TransferProofs2.v
theories/TransferProofs3.v
theories/TransferProofs4.v
theories/TransferProps.v
theories/PartModel.v
theories/PartSpec.v
theories/PartProofs.v
theories/PartProofs2.v
theories/PartProofs3.v
theories/PartProofs4.v
theories/PartProofs5.v
theories/PartProps.v
theories/ParModel.v
theories/ParSpec.v
theories/ParProofs.v
theories/ParProofs2.v
theories/ParProofs3.v
theories/ParProps.v
theories/WireModel.v
theories/WireSpec.v
theories/WireProofs.v
theories/WireProps.v
theories/NumModel.v
theories/NumSpec.v
theories/NumProofs.v
theories/NumProofs2.v
theories/NumProofs3.v
theories/NumProps.v
theories/CombModel.v
theories/CombSpec.v
theories/CombProofs.v
theories/CombProofs2.v
theories/CombProps.v
theories/DiagModel.v
theories/DiagSpec.v
theories/DiagProofs.v
theories/DiagProofs2.v
theories/DiagProps.v
theories/LinModel.v
theories/LinSpec.v
theories/LinProofs.v
theories/LinProofs2.v
theories/LinProps.v
theories/LeafModel.v
theories/LeafSpec.v
theories/LeafProofs.v
theories/LeafProofs2.v
theories/LeafProofs3.v
theories/LeafProps.v
theories/FastModel.v
theories/FastSpec.v
theories/FastProofs.v
theories/FastProofs2.v
theories/FastProofs3.v
theories/FastProofs4.v
theories/FastProps.v
theories/DirModel.v
theories/DirSpec.v
theories/DirProofs.v
theories/DirProofs2.v
theories/DirProps.v
theories/HangModel.v
theories/HangSpec.v
theories/HangProofs.v
theories/HangProps.v
theories/CcfvModel.v
theories/CcfvSpec.v
theories/CcfvProofs.v
theories/CcfvProofs2.v
theories/CcfvProps.v
theories/QkModel.v
theories/QkSpec.v
theories/QkProofs.v
theories/QkProofs2.v
theories/QkProofs3.v
theories/QkProps.v
theories/CacheModel.v
theories/CacheSpec.v
theories/CacheProps.v
theories/GeneoModel.v
theories/GeneoSpec.v
theories/GeneoProofs.v
theories/GeneoProofs2.v
theories/GeneoProofs3.v
theories/GeneoProofs4.v
theories/GeneoProps.v
theories/FunModel.v
theories/FunSpec.v
theories/FunProofs.v
theories/FunProofs2.v
theories/FunProofs3.v
theories/FunProofs4.v
theories/FunProps.v
theories/IstlModel.v
theories/IstlSpec.v
theories/IstlProofs.v
theories/IstlProofs2.v
theories/IstlProofs3.v
theories/IstlProofs4.v
theories/IstlProps.v
theories/EsetModel.v
theories/EsetSpec.v
theories/EsetProofs.v
theories/EsetProofs2.v
theories/EsetProofs3.v
theories/EsetProps.v
theories/CdModel.v
theories/CdSpec.v
theories/CdProofs.v
theories/CdProofs2.v
theories/CdProofs3.v
theories/CdProps.v
theories/DdModel.v
theories/DdSpec.v
theories/DdProofs.v
theories/DdProofs2.v
theories/DdProps.v
theories/BordModel.v
theories/BordSpec.v
theories/BordProofs.v
theories/BordProofs2.v
theories/BordProofs3.v
theories/BordProps.v
theories/MfpModel.v
theories/MfpSpec.v
theories/MfpProofs.v
theories/MfpProps.v
theories/OrthModel.v
theories/OrthSpec.v
theories/OrthProofs.v
theories/OrthProofs2.v
theories/OrthProofs3.v
theories/OrthProofs4.v
theories/OrthProps.v
theories/WaveModel.v
theories/WaveSpec.v
theories/WaveProofs.v
theories/WaveProofs2.v
theories/WaveProofs3.v
theories/WaveProofs4.v
theories/WaveProofs5.v
theories/WaveProps.v
theories/FlowModel.v
theories/FlowSpec.v
theories/FlowProofs.v
theories/FlowProofs2.v
theories/FlowProofs3.v
theories/FlowProofs4.v
theories/FlowProps.v
theories/TpModel.v
theories/TpSpec.v
theories/TpProofs.v
theories/TpProps.v
theories/EstModel.v
theories/EstSpec.v
theories/EstProofs.v
theories/EstProofs2.v
theories/EstProofs3.v
theories/EstProps.v
theories/VelModel.v
theories/VelSpec.v
theories/VelProofs.v
theories/VelProps.v
theories/EdModel.v
theories/EdSpec.v
theories/EdProofs.v
theories/EdProps.v
theories/GfModel.v
theories/GfSpec.v
theories/GfProofs.v
theories/GfProps.v
theories/LbModel.v
theories/LbSpec.v
theories/LbProofs.v
theories/LbProps.v
theories/SubModel.v
theories/SubSpec.v
theories/SubProofs.v
theories/SubProofs2.v
theories/SubProps.v
theories/AmgModel.v
theories/AmgSpec.v
theories/AmgProofs.v
theories/AmgProofs2.v
theories/AmgProofs3.v
theories/AmgProps.v
theories/AmgParModel.v
theories/AmgParSpec.v
theories/AmgParProofs.v
theories/AmgParProps.v
theories/DgnsModel.v
theories/DgnsSpec.v
theories/DgnsProofs.v
theories/DgnsProofs2.v
theories/DgnsProofs3.v
theories/DgnsProps.v
theories/SpaceModel.v
theories/SpaceSpec.v
theories/SpaceProofs.v
theories/SpaceProofs2.v
theories/SpaceProofs3.v
theories/SpaceProps.v
theories/FemModel.v
theories/FemSpec.v
theories/FemProofs.v
theories/FemProofs2.v
theories/FemProps.v
theories/DfModel.v
theories/DfSpec.v
theories/DfProofs.v
theories/DfProps.v
theories/EigModel.v
theories/EigSpec.v
theories/EigProps.v
theories/BenchModel.v
theories/BenchSpec.v
theories/BenchProps.v
theories/VvModel.v
theories/VvSpec.v
theories/VvProofs.v
theories/VvProofs2.v
theories/VvProps.v
theories/BpModel.v
theories/BpSpec.v
theories/BpProofs.v
theories/BpProps.v
theories/NameModel.v
theories/NameSpec.v
theories/NameProps.v
theories/HangTriModel.v
theories/HangTriSpec.v
theories/HangTriProps.v
theories/LifeModel.v
theories/LifeSpec.v
theories/LifeProofs.v
theories/LifeProofs2.v
theories/LifeProps.v
theories/ViewModel.v
theories/ViewSpec.v
theories/ViewProofs.v
theories/ViewProofs2.v
theories/ViewProps.v
theories/HangStepModel.v
theories/HangStepSpec.v
theories/HangStepProofs.v
theories/HangStepProps.v
theories/LinStepModel.v
theories/LinStepSpec.v
theories/LinStepProofs.v
theories/LinStepProps.v
theories/TopoModel.v
theories/TopoSpec.v
theories/TopoProofs.v
theories/TopoProps.v
theories/ParamModel.v
theories/ParamSpec.v
theories/ParamProofs.v
theories/ParamProps.v
theories/ErrModel.v
theories/ErrSpec.v
theories/ErrProofs.v
theories/ErrProps.v
theories/EgsModel.v
theories/EgsSpec.v
theories/EgsProofs.v
theories/EgsProps.v
theories/StatModel.v
theories/StatSpec.v
theories/StatProofs.v
theories/StatProps.v
theories/MfbModel.v
theories/MfbSpec.v
theories/MfbProofs.v
theories/MfbProps.v
theories/OldModel.v
theories/OldSpec.v
theories/OldProofs.v
theories/OldProofs2.v
theories/OldProofs3.v
theories/OldProofs4.v
theories/OldProofs5.v
theories/OldProps.v
theories/VtkModel.v
theories/VtkSpec.v
theories/VtkProofs.v
theories/VtkProofs2.v
theories/VtkProps.v
theories/HistoModel.v
theories/HistoSpec.v
theories/HistoProofs.v
theories/HistoProps.v
