-Q theories Verif
theories/AGroup.v
theories/AMGInput.v
theories/AMGModel.v
theories/AMGProofs.v
theories/AMGProofs2.v
theories/AMGProofs3.v
theories/AMGProps.v
theories/AMGSpec.v
theories/AggMapModel.v
theories/AggMapProofs.v
theories/AggMapProofs2.v
theories/AggMapProps.v
theories/AnnoyProofs.v
theories/ArraysModel.v
theories/ArraysProofs.v
theories/ArraysProofs2.v
theories/ArraysProps.v
theories/AuxModel.v
theories/AuxProofs.v
theories/AuxProofs2.v
theories/AuxProps.v
theories/AuxSpec.v
theories/Base.v
theories/Block2Model.v
theories/Block2Proofs.v
theories/Block2Proofs2.v
theories/Block2Props.v
theories/BlockModel.v
theories/BlockProofs.v
theories/BlockProofs2.v
theories/BlockProps.v
theories/CDataModel.v
theories/CDataProofs.v
theories/CDataProps.v
theories/CDataSpec.v
theories/CMapProps.v
theories/CtrModel.v
theories/CtrProofs.v
theories/CtrProofs2.v
theories/CtrProofs3.v
theories/CtrProps.v
theories/DataModel.v
theories/DataProofs.v
theories/DataProofs2.v
theories/DataProofs3.v
theories/DataProofs4.v
theories/DataProps.v
theories/DataSpec.v
theories/DccModel.v
theories/DccProofs.v
theories/DccProps.v
theories/DofMapModel.v
theories/DofMapProofs.v
theories/DofMapProofs2.v
theories/DofMapProps.v
theories/DofMapSpec.v
theories/DynModel.v
theories/DynProofs.v
theories/DynProofs2.v
theories/DynProofs3.v
theories/DynProofs4.v
theories/DynProofs5.v
theories/DynProofs6.v
theories/DynProofs7.v
theories/DynProps.v
theories/ECDataModel.v
theories/ECDataProofs.v
theories/ECDataProps.v
theories/ECDataSpec.v
theories/EQCModel.v
theories/EQCProofs.v
theories/EQCProofs2.v
theories/EQCProofs3.v
theories/EQCProps.v
theories/EdgeDataProofs.v
theories/EdgeDataProofs2.v
theories/EdgeDataProps.v
theories/EdgeDataSpec.v
theories/EdgeMapModel.v
theories/EdgeMapProofs.v
theories/EdgeMapProofs2.v
theories/EdgeMapProofs3.v
theories/EdgeMapProofs4.v
theories/EdgeMapProofs5.v
theories/EdgeMapProps.v
theories/EnergyModel.v
theories/EnergyProofs.v
theories/EnergyProps.v
theories/EnergySpec.v
theories/FLoopModel.v
theories/FLoopProofs.v
theories/FLoopProps.v
theories/FLoopSpec.v
theories/FactoryModel.v
theories/FactoryProofs.v
theories/FactoryProps.v
theories/FauxModel.v
theories/FauxProofs.v
theories/FauxProps.v
theories/FauxSpec.v
theories/GCModel.v
theories/GCProofs.v
theories/GCProofs2.v
theories/GCProofs3.v
theories/GCProps.v
theories/GECheck.v
theories/GEModel.v
theories/GEProofs.v
theories/GEProofs10.v
theories/GEProofs2.v
theories/GEProofs3.v
theories/GEProofs4.v
theories/GEProofs5.v
theories/GEProofs6.v
theories/GEProofs7.v
theories/GEProofs8.v
theories/GEProofs9.v
theories/GEProps.v
theories/GESpec.v
theories/GSModel.v
theories/GSProofs.v
theories/GSProofs2.v
theories/GSProps.v
theories/GSSpec.v
theories/GramModel.v
theories/GramProofs.v
theories/GramProps.v
theories/GramSpec.v
theories/HybMatModel.v
theories/HybMatProofs.v
theories/HybMatProofs2.v
theories/HybMatProps.v
theories/HybSmModel.v
theories/HybSmProofs.v
theories/HybSmProofs2.v
theories/HybSmProofs3.v
theories/HybSmProofs4.v
theories/HybSmProofs5.v
theories/HybSmProps.v
theories/Instances.v
theories/LSModel.v
theories/LSProps.v
theories/LinAlg.v
theories/LinTools.v
theories/LoopModel.v
theories/LoopProofs.v
theories/LoopProofs2.v
theories/LoopProofs3.v
theories/LoopProofs4.v
theories/LoopProofs5.v
theories/LoopProofs6.v
theories/LoopProps.v
theories/LoopSpec.v
theories/MISModel.v
theories/MISProofs.v
theories/MISProps.v
theories/MapDataProps.v
theories/MergeModel.v
theories/MergeProofs.v
theories/MeshDofsModel.v
theories/MeshDofsProofs.v
theories/MeshDofsProps.v
theories/MeshDofsSpec.v
theories/NetModel.v
theories/NetProofs.v
theories/PresModel.v
theories/PresProofs.v
theories/PresProps.v
theories/PresSpec.v
theories/ProlModel.v
theories/ProlProofs.v
theories/ProlProofs2.v
theories/ProlProofs3.v
theories/ProlProofs4.v
theories/ProlProps.v
theories/ProlSpec.v
theories/PrtModel.v
theories/PrtProps.v
theories/PrtSpec.v
theories/ReduceModel.v
theories/ReduceProofs.v
theories/ReduceProps.v
theories/SCtrModel.v
theories/SCtrProofs.v
theories/SCtrProofs2.v
theories/SCtrProofs3.v
theories/SCtrProofs4.v
theories/SCtrProps.v
theories/SMapModel.v
theories/SMapProofs.v
theories/SMapProofs2.v
theories/SMapProofs3.v
theories/SMapProofs4.v
theories/SMapProofs5.v
theories/SMapProofs6.v
theories/SMapProofs7.v
theories/SMapProofs8.v
theories/SMapProofs9.v
theories/SMapProps.v
theories/SMapSpec.v
theories/SMeshModel.v
theories/SMeshProofs.v
theories/SMeshProofs2.v
theories/SMeshProofs3.v
theories/SMeshProps.v
theories/SPWModel.v
theories/SPWProofs.v
theories/SPWProofs2.v
theories/SPWProofs3.v
theories/SPWProofs4.v
theories/SPWProofs5.v
theories/SPWProofs6.v
theories/SPWProofs7.v
theories/SPWProofs8.v
theories/SPWProofs9.v
theories/SPWProps.v
theories/SPWSpec.v
theories/ScatModel.v
theories/ScatProofs.v
theories/ScatProps.v
theories/ScatSpec.v
theories/Shm.v
theories/SparseModel.v
theories/SparseProofs.v
theories/SparseProofs2.v
theories/SparseProofs3.v
theories/SparseProps.v
theories/SparseSpec.v
theories/ThreadModel.v
theories/ThreadProofs.v
theories/ThreadProps.v
theories/UtilModel.v
theories/UtilProofs.v
theories/UtilProps.v
