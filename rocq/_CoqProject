-Q theories Verif

theories/Model/Base.v
theories/Model/Common.v
theories/Model/Xml.v
theories/Model/Units.v
theories/Model/Field.v
theories/Model/FieldCommon.v
theories/Model/IntField.v
theories/Model/EnumField.v
theories/Model/SetField.v
theories/Model/FloatField.v
theories/Model/OptCond.v
theories/Model/Composite.v
theories/Model/Message.v
theories/Model/Frame.v
theories/Model/Protocol.v
theories/Spec/Texts.v
theories/Spec/Ints.v
theories/Spec/Versions.v
theories/Spec/IntSpec.v
theories/Spec/EnumSpec.v
theories/Spec/CondSpec.v
theories/Spec/XmlSpec.v
theories/Spec/FieldSpec.v
theories/Proofs/BaseFacts.v
theories/Proofs/CommonFacts.v
theories/Proofs/IntFacts.v
theories/Proofs/RangeFacts.v
theories/Proofs/IntInv.v
theories/Proofs/EnumInv.v
theories/Proofs/CondFacts.v
theories/Proofs/AllFacts.v
theories/Spec/PlatformSpec.v
theories/Proofs/PlatFacts.v
theories/Props/PPlatforms.v
theories/Proofs/HeaderFacts.v
theories/Spec/HeaderSpec.v
theories/Props/PHeader.v
theories/Spec/DslSpec.v
theories/Proofs/CaseFacts.v
theories/Spec/FrameSpec.v
theories/Proofs/FrameFacts.v
theories/Props/PFrame.v
theories/Spec/WholeSpec.v
theories/Proofs/WholeFacts.v
theories/Props/PWhole.v
theories/Model/GenUtil.v
theories/Model/GenComms.v
theories/Model/CommsInt.v
theories/Model/CommsEnum.v
theories/Spec/GenSpec.v
theories/Proofs/GenFacts.v
theories/Props/PGen.v
theories/Proofs/WrapFacts.v
theories/Proofs/TemplateFacts.v
theories/Props/PTemplate.v
theories/Spec/NameSpec.v
theories/Proofs/NameFacts.v
theories/Props/PNames.v
theories/Spec/RefSpec.v
theories/Proofs/GroundFacts.v
theories/Proofs/GroundMsg.v
theories/Props/PRefs.v
theories/Spec/TreeSpec.v
theories/Proofs/TreeFacts.v
theories/Spec/AttrSpec.v
theories/Spec/CppSpec.v
theories/Proofs/AttrFacts.v
theories/Proofs/AttrFacts2.v
theories/Proofs/ExtentFacts.v
theories/Props/PAttr.v
theories/Proofs/CommsIntFacts.v
theories/Proofs/CommsOptFacts.v
theories/Proofs/NsFacts.v
theories/Props/PComms.v
theories/Model/CommsCond.v
theories/Model/ProgOpts.v
theories/Spec/CondCode.v
theories/Spec/CondTyping.v
theories/Proofs/CondCodeFacts.v
theories/Proofs/CondTextFacts.v
theories/Proofs/CondExprFacts.v
theories/Proofs/CondMeanFacts.v
theories/Props/PCondCode.v
theories/Spec/BodySpec.v
theories/Spec/CmdSpec.v
theories/Spec/FloatSpec.v
theories/Proofs/FloatFacts.v
theories/Proofs/CmdFacts.v
theories/Props/PFloat.v
theories/Props/PFlags.v
theories/Props/PCmd.v
theories/Model/CommsFactory.v
theories/Model/CommsSet.v
theories/Model/CommsBits.v
theories/Model/GenSelect.v
theories/Model/CommsSeq.v
theories/Model/CommsPrefix.v
theories/Model/CommsRead.v
theories/Model/CommsVariant.v
theories/Spec/PrefixCode.v
theories/Spec/ReadCode.v
theories/Spec/VariantCode.v
theories/Proofs/PrefixFacts.v
theories/Proofs/PrefixRun.v
theories/Proofs/ReadFacts.v
theories/Proofs/VariantFacts.v
theories/Props/PPrefix.v
theories/Props/PRead.v
theories/Props/PVariant.v
theories/Model/GenOrder.v
theories/Spec/OrderSpec.v
theories/Spec/AliasSpec.v
theories/Spec/SeqCode.v
theories/Proofs/OrderFacts.v
theories/Proofs/OrderFrame.v
theories/Proofs/AliasFacts.v
theories/Proofs/SeqFacts.v
theories/Spec/SetCode.v
theories/Spec/BitCode.v
theories/Spec/SelectSpec.v
theories/Spec/TokenSpec.v
theories/Proofs/TokenFacts.v
theories/Spec/FactorySpec.v
theories/Spec/EnumCode.v
theories/Proofs/FactoryFacts.v
theories/Proofs/SetFacts.v
theories/Proofs/EnumTextFacts.v
theories/Proofs/EnumGenFacts.v
theories/Proofs/EnumRangeFacts.v
theories/Proofs/EnumValidFacts.v
theories/Props/PFactory.v
theories/Props/PEnumGen.v
theories/Props/PEnumValid.v
theories/Props/PEnumNames.v
theories/Proofs/SetValidFacts.v
theories/Proofs/BitFacts.v
theories/Proofs/SelectFacts.v
theories/Props/PLookup.v
theories/Props/PSelect.v
theories/Props/POrder.v
theories/Props/PAlias.v
theories/Props/PSeq.v
theories/Props/PSetGen.v
theories/Props/PSetValid.v
theories/Props/PSetBits.v
theories/Props/PTexts.v
theories/Props/PInt.v
theories/Props/PEnum.v
theories/Props/PCond.v
theories/Proofs/XmlFacts.v
theories/Proofs/FieldInv.v
theories/Proofs/FieldFacts.v
theories/Proofs/OwnFacts.v
theories/Proofs/SingleFacts.v
theories/Spec/Ex.v
theories/Proofs/ExFacts.v
theories/Spec/LengthSpec.v
theories/Spec/ProtocolSpec.v
theories/Spec/DeclSpec.v
theories/Proofs/LengthFacts.v
theories/Proofs/FuelFacts.v
theories/Proofs/MapFacts.v
theories/Proofs/ProtocolFacts.v
theories/Proofs/RefFacts.v
theories/Proofs/MsgFacts.v
theories/Proofs/DeclFacts.v
theories/Proofs/DeclKinds.v
theories/Proofs/BitfieldFacts.v
theories/Props/PField.v
theories/Props/PLength.v
theories/Props/ExProtocol.v
theories/Props/PProtocol.v
theories/Props/PMerge.v
theories/Props/PMessages.v
theories/Model/CommsStack.v
theories/Spec/StackCode.v
theories/Proofs/StackFacts.v
theories/Props/PStack.v
theories/Model/CommsConstruct.v
theories/Spec/ConstructCode.v
theories/Proofs/ConstructFacts.v
theories/Props/PConstruct.v
theories/Spec/ReadCond.v
theories/Proofs/ReadCondFacts.v
theories/Props/PReadCond.v
