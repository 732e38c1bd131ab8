-Q theories Verif
theories/Imp.v
theories/JagModel.v
theories/JagSpec.v
theories/JagProofs.v
theories/JagProofs2.v
theories/JagProofs3.v
theories/JagProofs4.v
theories/JagLemmas.v
theories/JagProps.v
theories/TopoModel.v
theories/TopoSpec.v
theories/TopoProofs1.v
theories/TopoProofs2.v
theories/TopoProofs3.v
theories/TopoProofs4.v
theories/TopoLemmas.v
theories/TopoProps.v
theories/DtriModel.v
theories/DtriSpec.v
theories/DtriProofs1.v
theories/DtriProofs2.v
theories/DtriProofs3.v
theories/DtriProofs4.v
theories/DtriProofs5.v
theories/DtriProofs6.v
theories/DtriProps.v
theories/Alg.v
theories/SpModel.v
theories/SpSpec.v
theories/SpProofs1.v
theories/SpProofs2.v
theories/SpProofs3.v
theories/SpProofs4.v
theories/SpProofs5.v
theories/SpProps.v
theories/MatnModel.v
theories/MatnSpec.v
theories/MatnProofs1.v
theories/MatnProofs2.v
theories/MatnProofs3.v
theories/MatnProofs4.v
theories/MatnProofs5.v
theories/MatnProofs6.v
theories/MatnProps.v
theories/CgModel.v
theories/CgSpec.v
theories/CgProofs1.v
theories/CgProofs2.v
theories/CgProofs3.v
theories/CgProps.v
theories/MortModel.v
theories/MortSpec.v
theories/MortProofs1.v
theories/MortProofs2.v
theories/MortProofs3.v
theories/MortProps.v
theories/BvModel.v
theories/BvSpec.v
theories/BvProofs1.v
theories/BvProofs2.v
theories/BvProofs3.v
theories/BvProps.v
theories/DijkModel.v
theories/DijkSpec.v
theories/DijkProofs1.v
theories/DijkProofs2.v
theories/DijkProofs3.v
theories/DijkProofs4.v
theories/DijkProofs5.v
theories/DijkProofs6.v
theories/DijkProps.v
theories/PexpModel.v
theories/PexpSpec.v
theories/PexpProofs1.v
theories/PexpProofs2.v
theories/PexpProofs3.v
theories/PexpProofs4.v
theories/PexpProps.v
theories/StrModel.v
theories/StrSpec.v
theories/StrProofs1.v
theories/StrProofs2.v
theories/StrProofs3.v
theories/StrProofs4.v
theories/StrProps.v
theories/CadModel.v
theories/CadSpec.v
theories/CadProofs1.v
theories/CadProofs2.v
theories/CadProofs3.v
theories/CadProps.v
theories/KdModel.v
theories/KdSpec.v
theories/KdProofs.v
theories/KdProps.v
theories/ParModel.v
theories/ParProofs.v
theories/ParProps.v
theories/VoxModel.v
theories/VoxSpec.v
theories/VoxProofs1.v
theories/VoxProofs2.v
theories/VoxProofs3.v
theories/VoxProofs4.v
theories/VoxProps.v
theories/SgModel.v
theories/SgSpec.v
theories/SgProofs.v
theories/SgProofs2.v
theories/SgProps.v
theories/PrModel.v
theories/PrSpec.v
theories/PrProofs.v
theories/PrProps.v
theories/QuatModel.v
theories/QuatSpec.v
theories/QuatProofs.v
theories/QuatProps.v
theories/BezModel.v
theories/BezSpec.v
theories/BezProofs.v
theories/BezProofs2.v
theories/BezProps.v
theories/PolyModel.v
theories/PolySpec.v
theories/PolyProofs.v
theories/PolyProps.v
theories/LoopSpec.v
theories/LoopProofs.v
theories/LoopProofs2.v
theories/LoopProofs3.v
theories/LoopProofs4.v
theories/LoopProps.v
theories/SubdModel.v
theories/SubdSpec.v
theories/SubdProofs.v
theories/SubdProofs2.v
theories/SubdProofs3.v
theories/SubdProofs4.v
theories/SubdProofs5.v
theories/SubdProps.v
theories/CluModel.v
theories/CluSpec.v
theories/CluProofs.v
theories/CluProofs2.v
theories/CluProofs3.v
theories/CluProps.v
theories/IluModel.v
theories/IluSpec.v
theories/IluProofs1.v
theories/IluProofs2.v
theories/IluProofs3.v
theories/IluProofs4.v
theories/IluProofs5.v
theories/IluProofs6.v
theories/IluProofs7.v
theories/IluProofs8.v
theories/IluProofs9.v
theories/IluProps.v
theories/LpModel.v
theories/LpSpec.v
theories/LpProofs1.v
theories/LpProofs2.v
theories/LpProofs3.v
theories/LpProofs4.v
theories/LpProofs5.v
theories/LpProofs6.v
theories/LpProps.v
theories/HullModel.v
theories/HullSpec.v
theories/HullProofs1.v
theories/HullProofs2.v
theories/HullProofs3.v
theories/HullProps.v
theories/PrimModel.v
theories/PrimSpec.v
theories/PrimProofs1.v
theories/PrimProofs2.v
theories/PrimProofs3.v
theories/PrimProofs4.v
theories/PrimProofs5.v
theories/PrimPi.v
theories/PrimProofs6.v
theories/PrimProofs7.v
theories/PrimProofs8.v
theories/PrimProps.v
theories/MsModel.v
theories/MsSpec.v
theories/MsProofs1.v
theories/MsProofs2.v
theories/MsProofs3.v
theories/MsProofs4.v
theories/MsProofs5.v
theories/MsProps.v
theories/CollModel.v
theories/CollSpec.v
theories/CollProofs1.v
theories/CollProofs2.v
theories/CollProofs3.v
theories/CollProofs4.v
theories/CollProofs5.v
theories/CollProofs6.v
theories/CollProofs7.v
theories/CollProofs8.v
theories/CollProps.v
theories/FanModel.v
theories/FanSpec.v
theories/FanProofs1.v
theories/FanProofs2.v
theories/FanProofs3.v
theories/FanProofs4.v
theories/FanProps.v
theories/DelaModel.v
theories/DelaSpec.v
theories/DelaProofs1.v
theories/DelaProofs2.v
theories/DelaProofs3.v
theories/DelaProofs4.v
theories/DelaProofs5.v
theories/DelaProofs6.v
theories/DelaProps.v
theories/FemModel.v
theories/FemSpec.v
theories/FemProofs1.v
theories/FemProofs2.v
theories/FemProofs3.v
theories/FemProofs4.v
theories/FemProofs5.v
theories/FemProps.v
theories/SolidSpec.v
theories/SolidProofs1.v
theories/SolidProofs2.v
theories/SolidProofs3.v
theories/SolidProofs4.v
theories/SolidProps.v
theories/GjkModel.v
theories/GjkSpec.v
theories/GjkProofs1.v
theories/GjkProofs2.v
theories/GjkProofs3.v
theories/GjkProofs4.v
theories/GjkProofs5.v
theories/GjkProps.v
theories/ProxModel.v
theories/ProxSpec.v
theories/ProxProofs1.v
theories/ProxProofs2.v
theories/ProxProofs3.v
theories/ProxProps.v
theories/IsecModel.v
theories/IsecSpec.v
theories/IsecProofs1.v
theories/IsecProofs2.v
theories/IsecProofs3.v
theories/IsecProps.v
theories/MeasModel.v
theories/MeasSpec.v
theories/MeasProofs1.v
theories/MeasProofs2.v
theories/MeasProofs3.v
theories/MeasProps.v
theories/EditModel.v
theories/EditSpec.v
theories/EditProofs1.v
theories/EditProofs2.v
theories/EditProofs3.v
theories/EditProps.v
theories/EnerModel.v
theories/EnerSpec.v
theories/EnerProofs1.v
theories/EnerProofs2.v
theories/EnerProofs3.v
theories/EnerProofs3b.v
theories/EnerProofs4.v
theories/EnerProofs5.v
theories/EnerProofs6.v
theories/EnerProps.v
theories/PbdModel.v
theories/PbdSpec.v
theories/PbdProofs1.v
theories/PbdProofs2.v
theories/PbdProofs3.v
theories/PbdProofs4.v
theories/PbdProofs5.v
theories/PbdProofs6.v
theories/PbdProofs7.v
theories/PbdProofs8.v
theories/PbdProps.v
theories/Mat4Model.v
theories/Mat4Spec.v
theories/Mat4Proofs1.v
theories/Mat4Proofs2.v
theories/Mat4Proofs3.v
theories/Mat4Proofs4.v
theories/Mat4Proofs5.v
theories/Mat4Props.v
theories/BruteModel.v
theories/BruteSpec.v
theories/BruteProofs1.v
theories/BruteProofs2.v
theories/BruteProofs3.v
theories/BruteProofs4.v
theories/BruteProps.v
theories/BspModel.v
theories/BspSpec.v
theories/BspProofs1.v
theories/BspProofs2.v
theories/BspProofs3.v
theories/BspProps.v
theories/FluModel.v
theories/FluSpec.v
theories/FluProofs1.v
theories/FluProofs2.v
theories/FluProps.v
theories/PlnModel.v
theories/PlnSpec.v
theories/PlnProofs1.v
theories/PlnProofs2.v
theories/PlnProps.v
theories/RndModel.v
theories/RndSpec.v
theories/RndProofs1.v
theories/RndProps.v
theories/BeamModel.v
theories/BeamSpec.v
theories/BeamProofs1.v
theories/BeamProps.v
theories/KernModel.v
theories/KernSpec.v
theories/KernProofs1.v
theories/KernProofs2.v
theories/KernProps.v
theories/SmpModel.v
theories/SmpSpec.v
theories/SmpProofs1.v
theories/SmpProofs2.v
theories/SmpProps.v
theories/CcdModel.v
theories/CcdSpec.v
theories/CcdProofs1.v
theories/CcdProofs2.v
theories/CcdProps.v
theories/UnixModel.v
theories/UnixSpec.v
theories/UnixProofs1.v
theories/UnixProofs2.v
theories/UnixProps.v
