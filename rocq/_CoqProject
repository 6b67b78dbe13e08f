-Q theories Verif

theories/CompEntryProps.v
theories/CompModel.v
theories/CompProofs.v
theories/CompProps.v
theories/CompSpec.v
theories/CondModel.v
theories/CondProofs.v
theories/CondProofs2.v
theories/CondProps.v
theories/CondSpec.v
theories/ConvModel.v
theories/ConvProofs.v
theories/ConvProofs2.v
theories/ConvProofs3.v
theories/ConvProps.v
theories/ConvSpec.v
theories/CsrCheckProps.v
theories/CsrModel.v
theories/CsrProofs.v
theories/CsrProofs2.v
theories/CsrProofs3.v
theories/CsrProofs4.v
theories/CsrProofs5.v
theories/CsrProofs6.v
theories/CsrProps.v
theories/CsrSpec.v
theories/CurvModel.v
theories/CurvProofs.v
theories/CurvProps.v
theories/CurvSpec.v
theories/DeliverModel.v
theories/DeliverProps.v
theories/DenseModel.v
theories/DenseProofs.v
theories/DenseProofs2.v
theories/DenseProofs3.v
theories/DenseProofs4.v
theories/DenseProps.v
theories/DenseSpec.v
theories/ElasModel.v
theories/ElasProofs.v
theories/ElasProps.v
theories/ElasSpec.v
theories/ErrFloatProofs.v
theories/ErrModel.v
theories/ErrProofs.v
theories/ErrProps.v
theories/ErrSpec.v
theories/FRModel.v
theories/FRProofs.v
theories/FRProofs2.v
theories/FRProps.v
theories/FRSpec.v
theories/FactorModel.v
theories/FilterModel.v
theories/FilterProofs.v
theories/FilterProps.v
theories/FilterSpec.v
theories/FloatBase.v
theories/FloatBridge.v
theories/FloatFacts.v
theories/FortModel.v
theories/FortProofs.v
theories/FortProps.v
theories/FortSpec.v
theories/FtbProofs.v
theories/FtbProps.v
theories/FtbSpec.v
theories/HessAlgModel.v
theories/HessAlgProofs.v
theories/HessAlgProofs2.v
theories/HessAlgSpec.v
theories/HessModel.v
theories/HessProofs.v
theories/HessProps.v
theories/HessSpec.v
theories/InertiaModel.v
theories/InertiaProofs.v
theories/InertiaProps.v
theories/InertiaSpec.v
theories/IpoptModel.v
theories/IpoptProofs.v
theories/IpoptProps.v
theories/IpoptSpec.v
theories/IrModel.v
theories/IrProofs.v
theories/IrProps.v
theories/IrSpec.v
theories/IterCbModel.v
theories/IterCbProofs.v
theories/IterCbProps.v
theories/KktFileModel.v
theories/KktFileProofs.v
theories/KktFileProofs2.v
theories/KktFileProofs3.v
theories/KktFileProps.v
theories/KktFileSpec.v
theories/KktModel.v
theories/KktModel2.v
theories/KktProofs.v
theories/KktProofs10.v
theories/KktProofs11.v
theories/KktProofs2.v
theories/KktProofs3.v
theories/KktProofs4.v
theories/KktProofs5.v
theories/KktProofs6.v
theories/KktProofs7.v
theories/KktProofs8.v
theories/KktProofs9.v
theories/KktProps.v
theories/KktSpec.v
theories/KronModel.v
theories/KronProofs.v
theories/KronProofs2.v
theories/KronProofs3.v
theories/KronProps.v
theories/KronSpec.v
theories/KrylovModel.v
theories/KrylovProofs.v
theories/KrylovProps.v
theories/KrylovSpec.v
theories/LinSelModel.v
theories/LinSelProofs.v
theories/LinSelProps.v
theories/LinSelSpec.v
theories/LineSearchModel.v
theories/LineSearchProofs.v
theories/LineSearchSpec.v
theories/LogBarModel.v
theories/LogBarProofs.v
theories/LogBarProps.v
theories/LogBarSpec.v
theories/LsqModel.v
theories/LsqProofs.v
theories/LsqProofs2.v
theories/LsqProps.v
theories/LsqSelModel.v
theories/LsqSelProofs.v
theories/LsqSelProps.v
theories/LsqSelSpec.v
theories/LsqSpec.v
theories/Ma57Model.v
theories/Ma57Proofs.v
theories/Ma57Proofs2.v
theories/Ma57Props.v
theories/Ma57Spec.v
theories/MdsMatModel.v
theories/MdsMatProofs.v
theories/MdsMatProps.v
theories/MdsMatSpec.v
theories/MoveModel.v
theories/MoveProofs.v
theories/MoveProps.v
theories/MoveSpec.v
theories/MuModel.v
theories/MuProofs.v
theories/MuProps.v
theories/MuSpec.v
theories/NlpModel.v
theories/NlpProofs.v
theories/NlpProps.v
theories/NlpSpec.v
theories/OptFileModel.v
theories/OptFileProofs.v
theories/OptFileProps.v
theories/OptFileSpec.v
theories/OptModel.v
theories/OptProofs.v
theories/OptProofs2.v
theories/OptProofs3.v
theories/OptProofs4.v
theories/OptProps.v
theories/OptSpec.v
theories/PackModel.v
theories/PackProofs.v
theories/PackProps.v
theories/PackSpec.v
theories/PdAlgModel.v
theories/PdAlgProofs.v
theories/PdAlgSpec.v
theories/PdHistModel.v
theories/PdHistProofs.v
theories/PdHistProps.v
theories/PdHistSpec.v
theories/PdModel.v
theories/PdProofs.v
theories/PdProofs2.v
theories/PdProofs3.v
theories/PdProps.v
theories/PdRatioProofs.v
theories/PdRatioProps.v
theories/PdSpec.v
theories/RecModel.v
theories/RecProofs.v
theories/RecProofs2.v
theories/RecProps.v
theories/RecSpec.v
theories/RedModel.v
theories/RedProofs.v
theories/RedProps.v
theories/RedSpec.v
theories/RefinModel.v
theories/RefinProofs.v
theories/RefinProps.v
theories/RefinSpec.v
theories/RegModel.v
theories/RegProofs.v
theories/RegProofs2.v
theories/RegProofs3.v
theories/RegProps.v
theories/RegSpec.v
theories/RelaxProofs.v
theories/RingKit.v
theories/RunExamples.v
theories/RunModel.v
theories/RunProofs.v
theories/RunProofs2.v
theories/RunProofs3.v
theories/RunProps.v
theories/ScaleModel.v
theories/ScaleProofs.v
theories/ScaleProofs2.v
theories/ScaleProofs3.v
theories/ScaleProps.v
theories/ScaleSpec.v
theories/SlackProps.v
theories/SocModel.v
theories/SocProofs.v
theories/SocProps.v
theories/SocSpec.v
theories/SparseModel.v
theories/SparseProofs.v
theories/SparseProofs2.v
theories/SparseProofs3.v
theories/SparseProofs4.v
theories/SparseProps.v
theories/SparseSpec.v
theories/StartModel.v
theories/StartProofs.v
theories/StartProps.v
theories/StartScaleProps.v
theories/StartSpec.v
theories/ThetaProofs.v
theories/ThetaProps.v
theories/ThetaSpec.v
theories/VecModel.v
theories/VecProofs.v
theories/VecProps.v
theories/VecSpec.v
theories/XformModel.v
theories/XformProofs.v
theories/XformProofs2.v
theories/XformProps.v
theories/XformSpec.v
