-Q theories Verif
theories/Bits.v
theories/Verilog.v
theories/CodegenModel.v
theories/BitsFacts.v
theories/CgLayout.v
theories/CodegenSpec.v
theories/CgArith.v
theories/CgShift.v
theories/CgMatch.v
theories/CgLegal.v
theories/CgEq.v
theories/MemModel.v
theories/MemSpec.v
theories/MemProofs.v
theories/InvModel.v
theories/InvProofs.v
theories/P_Layout.v
theories/P_Arith.v
theories/P_Codegen.v
theories/PatModel.v
theories/PatSpec.v
theories/PatProofs.v
theories/LowerModel.v
theories/LowerSpec.v
theories/LowerProofs.v
theories/P_Pattern.v
theories/PipeModel.v
theories/PipeSpec.v
theories/PipeProofs.v
theories/PipeRun.v
theories/PipeFun.v
theories/PipeCtrl.v
theories/PipeDelay.v
theories/P_Pipeline.v
theories/MirModel.v
theories/MirSpec.v
theories/MirAlias.v
theories/MirRename.v
theories/MirIdent.v
theories/MirDedup.v
theories/P_Mir.v
theories/RegModel.v
theories/RegSpec.v
theories/RegProofs.v
theories/P_Registers.v
theories/InferModel.v
theories/InferSpec.v
theories/InferChain.v
theories/InferState.v
theories/InferUnify.v
theories/InferCons.v
theories/InferTop.v
theories/InferFuel.v
theories/InferRoll.v
theories/InferTerm.v
theories/InferReach.v
theories/P_Infer.v
theories/ArgsModel.v
theories/ArgsSpec.v
theories/ArgsProofs.v
theories/P_Args.v
theories/ConcModel.v
theories/VcdModel.v
theories/VcdSpec.v
theories/VcdProofs.v
theories/P_Vcd.v
theories/SimModel.v
theories/SimSpec.v
theories/SimProofs.v
theories/P_Sim.v
theories/RegNames.v
theories/LocModel.v
theories/LocSpec.v
theories/LocProofs.v
theories/IdModel.v
theories/IdSpec.v
theories/IdProofs.v
theories/InstModel.v
theories/InstProofs.v
theories/P_Ids.v
theories/EvalModel.v
theories/EvalSpec.v
theories/EvalProofs.v
theories/P_Eval.v
theories/ParseModel.v
theories/ParseSpec.v
theories/ParseFuel.v
theories/ParseComplete.v
theories/ParseSound.v
theories/ParseRound.v
theories/P_Parse.v
theories/DiffModel.v
theories/DiffSpec.v
theories/DiffProofs.v
theories/P_Diff.v
theories/ImplModel.v
theories/ImplSpec.v
theories/P_Impl.v
theories/MonoModel.v
theories/MonoSpec.v
theories/MonoOrder.v
theories/MonoProofs.v
theories/P_Mono.v
theories/LinearModel.v
theories/LinearSpec.v
theories/LinearProofs.v
theories/P_Linear.v
theories/InlineModel.v
theories/InlineSpec.v
theories/InlineProofs.v
theories/P_Inline.v
theories/SymModel.v
theories/SymSpec.v
theories/SymProofs.v
theories/P_Sym.v
theories/GrayModel.v
theories/GrayProofs.v
theories/FifoModel.v
theories/FifoSpec.v
theories/FifoProofs.v
theories/P_Fifo.v
theories/CdcModel.v
theories/CdcSpec.v
theories/CdcProofs.v
theories/P_Cdc.v
theories/ArrModel.v
theories/ArrSpec.v
theories/ArrProofs.v
theories/P_Arr.v
theories/ExprModel.v
theories/ExprSpec.v
theories/ExprOps.v
theories/ExprProofs.v
theories/ExprNames.v
theories/P_Expr.v
theories/InferNum.v
theories/InferNumOps.v
theories/TypingModel.v
theories/TypingSpec.v
theories/TypingProofs.v
theories/TypingTop.v
theories/P_Typing.v
theories/ElabModel.v
theories/ElabSpec.v
theories/ElabProofs.v
theories/P_Elab.v
theories/MethodModel.v
theories/MethodSpec.v
theories/MethodProofs.v
theories/P_Method.v
theories/ElabShown.v
theories/ElabShownProofs.v
theories/DeclModel.v
theories/DeclSpec.v
theories/DeclProofs.v
theories/P_Decl.v
theories/UnitNameModel.v
theories/UnitNameSpec.v
theories/UnitNameProofs.v
theories/P_UnitName.v
theories/LamModel.v
theories/LamSpec.v
theories/LamProofs.v
theories/LamSim.v
theories/LamDecl.v
theories/P_Lam.v
theories/ConformModel.v
theories/ConformSpec.v
theories/ConformProofs.v
theories/ConformExact.v
theories/P_Conform.v
theories/SuperModel.v
theories/SuperSpec.v
theories/SuperProofs.v
theories/P_Super.v
theories/LexModel.v
theories/LexSpec.v
theories/LexProofs.v
theories/LexTop.v
theories/LexMore.v
theories/LexComment.v
theories/P_Lex.v
theories/SynModel.v
theories/SynSpec.v
theories/SynProofs.v
theories/SynTypes.v
theories/SynPats.v
theories/SynHeads.v
theories/P_Syn.v
theories/AutoModel.v
theories/AutoSpec.v
theories/AutoProofs.v
theories/P_Auto.v
theories/GenModel.v
theories/GenSpec.v
theories/GenProofs.v
theories/P_Gen.v
theories/PassModel.v
theories/PassSpec.v
theories/PassProofs.v
theories/P_Pass.v
theories/MacroModel.v
theories/MacroSpec.v
theories/MacroProofs.v
theories/P_Macro.v
theories/BlockModel.v
theories/BlockSpec.v
theories/BlockProofs.v
theories/P_Block.v
theories/WrapModel.v
theories/WrapSpec.v
theories/WrapProofs.v
theories/P_Wrap.v
theories/P_WrapValue.v
theories/ArgModel.v
theories/ArgSpec.v
theories/ArgProofs.v
theories/P_Arg.v
theories/P_LexPath.v
theories/P_ArgLex.v
