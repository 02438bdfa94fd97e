-Q theories Verif
theories/Base.v
theories/Diag.v
theories/LexModel.v
theories/LexSpec.v
theories/LexProofs.v
theories/LexFacts.v
theories/LexProps.v
theories/TextModel.v
theories/TextSpec.v
theories/TextProofs.v
theories/TextFacts.v
theories/TextProps.v
theories/UriModel.v
theories/UriSpec.v
theories/UriProofs.v
theories/UriFacts.v
theories/UriProps.v
theories/ConnModel.v
theories/ConnSpec.v
theories/ConnProofs.v
theories/ConnFacts.v
theories/ConnProps.v
theories/AstModel.v
theories/PSupModel.v
theories/SemaModel.v
theories/ParseModel.v
theories/ParseSpec.v
theories/FixSpec.v
theories/ParseInv.v
theories/ParseTree.v
theories/ParseSema.v
theories/ParseStep.v
theories/ParseFun.v
theories/ParseFun2.v
theories/ParseFun3.v
theories/ParseFun4.v
theories/ParseFun5.v
theories/ParseFun6.v
theories/ParseFun7.v
theories/ParseFun8.v
theories/ParseProofs.v
theories/ParseFacts.v
theories/ParseProps.v
theories/VlaModel.v
theories/VlaSpec.v
theories/VlaPost.v
theories/VlaBase.v
theories/VlaProofs.v
theories/VlaDfs.v
theories/VlaMain.v
theories/VlaThms.v
theories/VlaFacts.v
theories/VlaProps.v
theories/NavModel.v
theories/NavSpec.v
theories/NavProofs.v
theories/NavFacts.v
theories/NavProps.v
theories/SemaSpec.v
theories/SemaProofs.v
theories/SemaFacts.v
theories/SemaProps.v
theories/FeatModel.v
theories/FeatSpec.v
theories/FeatProofs.v
theories/FeatFacts.v
theories/FeatProps.v
theories/EvalModel.v
theories/EvalSpec.v
theories/EvalProofs.v
theories/EvalFacts.v
theories/EvalProps.v
theories/CompModel.v
theories/CompSpec.v
theories/CompProofs.v
theories/CompPath.v
theories/CompFacts.v
theories/CompProps.v
theories/ActModel.v
theories/ActSpec.v
theories/ReadTools.v
theories/ReadString.v
theories/ReadJson.v
theories/ReadJson2.v
theories/ReadJson3.v
theories/ReadInd.v
theories/ActFacts.v
theories/ActProps.v
theories/LexLongSpec.v
theories/LexLongProofs.v
theories/LexLongDiags.v
theories/LexLongFacts.v
theories/LexLongProps.v
theories/GramSpec.v
theories/GramBase.v
theories/GramMono.v
theories/GramStep.v
theories/GramPost.v
theories/GramFun1.v
theories/GramFun2.v
theories/GramFun3.v
theories/GramFun4.v
theories/GramFun5.v
theories/GramProofs.v
theories/GramSub.v
theories/GramFacts.v
theories/GramProps.v
theories/SemaDyn.v
theories/RefModel.v
theories/RefSpec.v
theories/RefProofs.v
theories/RefWith.v
theories/RefFree.v
theories/RefFacts.v
theories/RefProps.v
theories/ActInd.v
theories/OpSpec.v
theories/ReadOp.v
theories/ProcModel.v
theories/ProcSpec.v
theories/ProcProofs.v
theories/ProcFacts.v
theories/ProcProps.v
theories/BindModel.v
theories/BindSpec.v
theories/BindLaid.v
theories/BindText.v
theories/BindKey.v
theories/BindProofs.v
theories/BindFacts.v
theories/BindProps.v
theories/IdTree.v
theories/IdSema.v
theories/IdStep.v
theories/IdSpec.v
theories/IdProofs.v
theories/IdFacts.v
theories/IdProps.v
theories/DocSpec.v
theories/DocBase.v
theories/DocStep.v
theories/DocProofs.v
theories/VlaClean.v
theories/VlaTotal.v
theories/AccSpec.v
theories/AccBase.v
theories/AccSema.v
theories/AccStep.v
theories/AccFun.v
theories/AccOp.v
theories/AccRun.v
theories/AccProofs.v
theories/AccFacts.v
theories/AccProps.v
theories/SafeProofs.v
theories/SafeRef.v
theories/SafeFacts.v
theories/SafeProps.v
theories/ReqModel.v
theories/ReqSpec.v
theories/ReqProofs.v
theories/ReqLinks.v
theories/ReqMore.v
theories/ReqFacts.v
theories/ReqProps.v
theories/MsgModel.v
theories/MsgSpec.v
theories/MsgProofs.v
theories/MsgFacts.v
theories/MsgProps.v
theories/ToolModel.v
theories/ToolSpec.v
theories/ToolProofs.v
theories/ToolFacts.v
theories/ToolProps.v
theories/FixFacts.v
theories/FixProps.v
theories/SeenBase.v
theories/SeenProofs.v
theories/SeenFacts.v
theories/SeenProps.v
theories/ShownSpec.v
theories/ShownBase.v
theories/ShownProofs.v
theories/ShownFacts.v
theories/ShownProps.v
