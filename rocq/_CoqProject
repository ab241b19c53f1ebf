-Q theories Verif
theories/Base.v
theories/NumModel.v
theories/NumSpec.v
theories/NumProofs.v
theories/NumFloat.v
theories/StrNumModel.v
theories/StrNumProofs.v
theories/NumWitness.v
theories/NumProperties.v
theories/NumProperties2.v
theories/NumSpec2.v
theories/NumProperties3.v
theories/NumLitProofs.v
theories/NumLitSpec.v
theories/NumLitProperties.v
theories/StrNumProperties.v
theories/HeapModel.v
theories/EqModel.v
theories/ListModel.v
theories/ListSpec.v
theories/ListProofs.v
theories/ListProofs2.v
theories/EqSpec.v
theories/EqProofs.v
theories/ListWitness.v
theories/ListProperties.v
theories/AlistModel.v
theories/AlistSpec.v
theories/AlistProofs.v
theories/AlistProperties.v
theories/HashModel.v
theories/HashSpec.v
theories/HashProofs.v
theories/HashProperties.v
theories/VectorModel.v
theories/VectorProofs.v
theories/VectorProperties.v
theories/StringModel.v
theories/StringSpec.v
theories/StringProofs.v
theories/StringProperties.v
theories/ParseModel.v
theories/PrintModel.v
theories/PrintSpec.v
theories/PrintProperties.v
theories/ParseSpec.v
theories/ParseProofs.v
theories/ParseProofs2.v
theories/ParseProperties.v
theories/PortModel.v
theories/PortSpec.v
theories/PortProofs.v
theories/PortProperties.v
theories/PsysModel.v
theories/PsysSpec.v
theories/PsysProofs.v
theories/PsysProofs2.v
theories/PsysProofs3.v
theories/PsysProofs4.v
theories/PsysProperties.v
theories/PsysProperties2.v
theories/PsysProperties3.v
theories/ParseLocal.v
theories/ParseProperties2.v
theories/EnvModel.v
theories/EnvSpec.v
theories/EnvProofs.v
theories/EnvProperties.v
theories/ModsysModel.v
theories/ModsysSpec.v
theories/ModsysProofs.v
theories/ModsysProofs2.v
theories/ModsysProofs3.v
theories/ModsysProperties.v
theories/ModsysProperties2.v
theories/ModsysProperties3.v
theories/EvalModel.v
theories/EvalMono.v
theories/EvalInv.v
theories/EvalInv2.v
theories/EvalSpec.v
theories/EvalInv3.v
theories/EvalInv4.v
theories/EvalInv5.v
theories/CompareSpec.v
theories/ShapeSpec.v
theories/ShapeProofs.v
theories/CompareProperties.v
theories/ApiModel.v
theories/PredModel.v
theories/PredSpec.v
theories/PredProofs.v
theories/PredProperties.v
theories/ReplModel.v
theories/ReplSpec.v
theories/ReplProofs.v
theories/ApiSpec.v
theories/ApiProofs.v
theories/ApiProperties.v
theories/ReplProperties.v
theories/HostModel.v
theories/HostSpec.v
theories/HostProperties.v
theories/EvalProofs.v
theories/EvalWitness.v
theories/EvalProofs2.v
theories/EvalProofs3.v
theories/EvalProperties.v
theories/EvalProperties2.v
theories/EvalProofs4.v
theories/EvalProperties3.v
theories/EvalProofs5.v
theories/EvalProofs6.v
theories/EvalProofs7.v
theories/EvalProperties4.v
theories/EvalProperties5.v
theories/GcModel.v
theories/GcSpec.v
theories/GcProofs.v
theories/GcProofs2.v
theories/GcProofs3.v
theories/GcProofs4.v
theories/GcProofs5.v
theories/GcWitness.v
theories/GcProperties.v
theories/GcPacingSpec.v
theories/GcPacing.v
theories/GcPacing2.v
theories/GcPacingProperties.v
theories/RootModel.v
theories/RootProperties.v
theories/ConvModel.v
theories/ConvProperties.v
theories/OptModel.v
theories/OptSpec.v
theories/OptProofs.v
theories/OptProofs2.v
theories/OptProofs3.v
theories/OptProperties.v
theories/SmobModel.v
theories/SmobSpec.v
theories/SmobProofs.v
theories/SmobProperties.v
theories/SmobModel2.v
theories/SmobProperties2.v
theories/MachModel.v
theories/MachSpec.v
theories/MachProofs.v
theories/MachProofs2.v
theories/MachProofs3.v
theories/MachProofs4.v
theories/MachProofs5.v
theories/MachProofs6.v
theories/MachProofs7.v
theories/MachProofs8.v
theories/MachProofs9.v
theories/MachProperties.v
theories/MachNat.v
theories/MachNatProofs.v
theories/MachNatSim.v
theories/MachNatOk.v
theories/MachNatComplete.v
theories/MachProperties2.v
theories/LocModel.v
theories/LocSpec.v
theories/LocProofs.v
theories/LocProofs2.v
theories/LocProofs3.v
theories/LocProofs4.v
theories/LocProperties.v
theories/LocSpec2.v
theories/LocProperties2.v
theories/DiagModel.v
theories/DiagSpec.v
theories/DiagProperties.v
theories/CopyModel.v
theories/CopySpec.v
theories/CopyProofs.v
theories/CopyProperties.v
theories/CallModel.v
theories/CallSpec.v
theories/CallProperties.v
theories/RegModel.v
theories/RegSpec.v
theories/RegProperties.v
theories/RegSpec2.v
theories/RegProperties2.v
theories/HostModModel.v
theories/HostModSpec.v
theories/HostModProperties.v
theories/BinderModel.v
theories/BinderSpec.v
theories/BinderProperties.v
theories/CellModel.v
theories/CellSpec.v
theories/CellProofs.v
theories/CellProofs2.v
theories/CellProofs3.v
theories/CellProofs4.v
theories/CellProofs6.v
theories/CellProofs7.v
theories/CellProofs5.v
theories/CellWitness.v
theories/CellProperties.v
theories/LangSpec.v
theories/LangProofs.v
theories/LangProofs2.v
theories/LangProofs3.v
theories/LangProperties.v
theories/DivSpec.v
theories/DivProofs.v
theories/DivProperties.v
theories/HoSpec.v
theories/HoText.v
theories/HoProofs.v
theories/HoProperties.v
theories/HerSpec.v
theories/HerProofs.v
theories/HerProperties.v
theories/HdvSpec.v
theories/HdvProofs.v
theories/HdvProperties.v
theories/HofProperties.v
theories/TailModel.v
theories/TailProofs.v
theories/TailProperties.v
theories/SqrtModel.v
theories/SqrtProofs.v
theories/SqrtSpec.v
theories/SqrtSquares.v
theories/SqrtProperties.v
