-Q theories Verif
theories/Base.v
theories/BaseLemmas.v
theories/AsmModel.v
theories/AsmSpec.v
theories/AsmValid.v
theories/AsmEnum.v
theories/AsmBuild.v
theories/AsmProofs.v
theories/AsmSub.v
theories/AsmCheck.v
theories/AsmMore.v
theories/AsmProps.v
theories/AadtModel.v
theories/AadtProofs.v
theories/AadtProps.v
theories/Asm2Model.v
theories/Asm2Proofs.v
theories/Asm2Props.v
theories/AsmSigned.v
theories/AsmSignedProps.v
theories/AutoModel.v
theories/AutoProps.v
theories/BitfieldModel.v
theories/BitfieldProps.v
theories/RegModel.v
theories/RegProps.v
theories/FamModel.v
theories/FamProps.v
theories/BBModel.v
theories/BBProps.v
theories/IRModel.v
theories/IRProps.v
theories/MapIdxModel.v
theories/MapIdxProps.v
theories/BindModel.v
theories/BindProps.v
theories/CegisModel.v
theories/CegisProps.v
theories/BBFormModel.v
theories/BBFormProps.v
theories/MapModel.v
theories/MapProofs.v
theories/MapMain.v
theories/MapProps.v
theories/MapIff.v
theories/MapIffProps.v
theories/MapDirect.v
theories/SerModel.v
theories/SerProps.v
theories/VerModel.v
theories/VerProps.v
theories/FormModel.v
theories/FormProofs.v
theories/FormMain.v
theories/FormSimp.v
theories/FormProps.v
theories/MultiModel.v
theories/MultiProps.v
theories/StateModel.v
theories/StateProps.v
theories/BvModel.v
theories/BvLemmas.v
theories/RiscvModel.v
theories/RiscvSpec.v
theories/RiscvProofs.v
theories/RiscvBits.v
theories/RiscvProps.v
theories/RiscvAsmModel.v
theories/RiscvAsmProps.v
theories/PeModel.v
theories/PeProps.v
theories/PicoModel.v
theories/PicoProps.v
theories/Pdp8Model.v
theories/Pdp8Props.v
theories/Pdp8AsmProps.v
theories/FloatModel.v
theories/FloatProps.v
theories/SmallPeModel.v
theories/SmallPeProofs.v
theories/SmallPeProps.v
theories/OldMapModel.v
theories/OldMapProps.v
theories/PicoWordModel.v
theories/PicoWordProps.v
theories/ArmModel.v
theories/ArmProps.v
theories/Asm2ValidModel.v
theories/Asm2Valid.v
theories/Asm2ValidProps.v
theories/AsmAccept.v
theories/AsmAcceptProps.v
theories/RegPeModel.v
theories/RegPeProofs.v
theories/RegPeProps.v
theories/MapDirectProps.v
theories/RiscvMapModel.v
theories/RiscvMapProofs.v
theories/RiscvMapProps.v
theories/FamProgModel.v
theories/FamProgProofs.v
theories/FamProgProps.v
theories/AadtCallModel.v
theories/AadtCallProofs.v
theories/AadtCallProps.v
theories/FamSmtModel.v
theories/FamSmtProps.v
theories/RegGenModel.v
theories/RegGenProps.v
theories/MapBBModel.v
theories/MapBBProofs.v
theories/MapBBMachine.v
theories/MapBBProps.v
theories/FpPeModel.v
theories/FpPeProofs.v
theories/FpPeProps.v
theories/DemoPeModel.v
theories/DemoPeProps.v
theories/MultiBasicModel.v
theories/MultiBasicProofs.v
theories/MultiBasicProps.v
theories/AdtArchModel.v
theories/AdtArchProofs.v
theories/AdtArchMain.v
theories/AdtArchProps.v
theories/MapConst.v
theories/MapConstProps.v
theories/BasicMapModel.v
theories/BasicMapProofs.v
theories/BasicMapMain.v
theories/BasicMapProps.v
theories/RuleAppModel.v
theories/RuleAppProofs.v
theories/RuleAppEnc.v
theories/RuleAppMain.v
theories/RuleAppProps.v
theories/ArmWordModel.v
theories/ArmWordProps.v
theories/MultiClassModel.v
theories/MultiClassProofs.v
theories/MultiClassMain.v
theories/MultiClassAgree.v
theories/MultiClassProps.v
theories/MultiProgProofs.v
theories/MultiProgProps.v
theories/AadtPathModel.v
theories/AadtPathProofs.v
theories/AadtPathProps.v
theories/StateMapModel.v
theories/StateMapProofs.v
theories/StateMapProps.v
theories/SrcMapModel.v
theories/SrcMapProps.v
theories/SetFirstProps.v
theories/AutoLayModel.v
theories/AutoLayProps.v
theories/AadtCmpModel.v
theories/AadtCmpProps.v
theories/FamDecoModel.v
theories/FamDecoProps.v
theories/AsmFuncModel.v
theories/AsmFuncProps.v
theories/RiscvMapXModel.v
theories/RiscvMapXProofs.v
theories/RiscvMapXProps.v
