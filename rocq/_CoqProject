-Q theories Verif
theories/Base.v
theories/BaseProofs.v
theories/Mat3.v
theories/GridSpec.v
theories/GridModel.v
theories/Orbit.v
theories/GridProofs.v
theories/GridProps.v
theories/SnfModel.v
theories/SnfProofs.v
theories/SnfProps.v
theories/QMat.v
theories/RotModel.v
theories/RotProps.v
theories/BzModel.v
theories/BzSpec.v
theories/BzProofs.v
theories/BzProps.v
theories/TripletModel.v
theories/TripletSpec.v
theories/TripletProofs.v
theories/TripletProps.v
theories/TetraModel.v
theories/TetraSpec.v
theories/TetraProofs.v
theories/TetraProps.v
theories/TileProps.v
theories/Par.v
theories/IwModel.v
theories/IwProps.v
theories/Par2.v
theories/Fc3Model.v
theories/Fc3Spec.v
theories/Fc3Proofs.v
theories/Fc3Compact.v
theories/Fc3Transpose.v
theories/Fc3Trans.v
theories/Fc3Props.v
theories/Fc3Dist.v
theories/Fc3DistProps.v
theories/IseModel.v
theories/IseSpec.v
theories/IseProofs.v
theories/IseProps.v
theories/ColModel.v
theories/ColSpec.v
theories/ColProofs.v
theories/ColProps.v
theories/ColExpand.v
theories/ColExpandProps.v
theories/AvgModel.v
theories/AvgProps.v
theories/DsModel.v
theories/DsProps.v
theories/DispModel.v
theories/DispProps.v
theories/ForcesModel.v
theories/ForcesProps.v
theories/YamlModel.v
theories/YamlProps.v
theories/NameModel.v
theories/NameProps.v
theories/PpFileModel.v
theories/PpFileProps.v
theories/PhononModel.v
theories/PhononProps.v
theories/GammaModel.v
theories/GammaProps.v
theories/RestartModel.v
theories/RestartProps.v
theories/ColFileModel.v
theories/ColFileProps.v
theories/Cplx.v
theories/R2nModel.v
theories/R2nProps.v
theories/DynModel.v
theories/DynProofs.v
theories/DynProps.v
theories/GpwProps.v
theories/KaccumModel.v
theories/KaccumProps.v
theories/R2rModel.v
theories/R2rProofs.v
theories/R2rShort.v
theories/R2rProps.v
theories/R2rProps2.v
theories/R2rSym.v
theories/R2rEx.v
theories/DynSym.v
theories/DynSymEx.v
theories/IsoModel.v
theories/IsoProps.v
theories/IsoSym.v
theories/KapModel.v
theories/KapProofs.v
theories/KapProps.v
theories/KapTensor.v
theories/KapLbte.v
theories/NigModel.v
theories/NigProps.v
theories/VorProofs.v
theories/VorForm.v
theories/VorProps.v
theories/RseModel.v
theories/RseProps.v
theories/KkProps.v
theories/GruModel.v
theories/GruProofs.v
theories/GruProps.v
theories/JdosModel.v
theories/JdosProps.v
theories/WigModel.v
theories/WigProofs.v
theories/WigProps.v
theories/KuboProps.v
theories/LoadModel.v
theories/LoadProps.v
theories/StoreProps.v
theories/CalcModel.v
theories/CalcProps.v
theories/OptModel.v
theories/OptSpec.v
theories/OptProofs.v
theories/OptProps.v
theories/CuiModel.v
theories/CuiProps.v
theories/DirModel.v
theories/DirSpec.v
theories/DirProofs.v
theories/DirSpectral.v
theories/DirGroup.v
theories/DirMain.v
theories/DirPinv.v
theories/DirProps.v
theories/CfsModel.v
theories/CfsProps.v
theories/SschaModel.v
theories/SschaProps.v
theories/VelModel.v
theories/VelProps.v
theories/GvmModel.v
theories/GvmProps.v
theories/WlbModel.v
theories/WlbProps.v
theories/ChaModel.v
theories/ChaProofs.v
theories/ChaProps.v
theories/EvrModel.v
theories/EvrSpectrum.v
theories/EvrProofs.v
theories/EvrProps.v
theories/EvrEx.v
theories/GmModel.v
theories/GmProps.v
theories/GmEx.v
theories/FcoModel.v
theories/FcoAvg.v
theories/FcoDone.v
theories/FcoProps.v
theories/NigShort.v
theories/TightProps.v
theories/KscModel.v
theories/KscProps.v
theories/TiwModel.v
theories/TiwProps.v
theories/SigModel.v
theories/SigProps.v
theories/JdaModel.v
theories/JdaProps.v
theories/ColpyModel.v
theories/ColpyProps.v
theories/FdfModel.v
theories/FdfProps.v
theories/CfsTight.v
theories/DrfModel.v
theories/DrfProps.v
theories/SolModel.v
theories/SolProps.v
theories/MlpModel.v
theories/MlpProps.v
theories/WgpModel.v
theories/WgpProps.v
theories/GenModel.v
theories/GenProps.v
theories/SesModel.v
theories/SesProps.v
theories/FcsModel.v
theories/FcsProps.v
theories/EpsModel.v
theories/EpsProps.v
theories/PhfModel.v
theories/PhfProps.v
theories/IssModel.v
theories/IssProps.v
