-Q theories Verif

theories/Base.v
theories/SparseSetModel.v
theories/SparseSetProofs.v
theories/Thm_SparseSet.v
theories/VmModel.v
theories/VmSpec.v
theories/VmIdeal.v
theories/VmSim.v
theories/VmSearch.v
theories/InstrModel.v
theories/VmGeneric.v
theories/VmCheck.v
theories/VmCalls.v
theories/VmStarts.v
theories/VmRunnable.v
theories/Thm_VmAny.v
theories/Thm_VmRun.v
theories/NfaModel.v
theories/CodegenModel.v
theories/CodegenSpec.v
theories/CodegenLayout.v
theories/CodegenCode.v
theories/CodegenAnn.v
theories/CodegenWf.v
theories/CodegenSem.v
theories/CodegenFilter.v
theories/CodegenRun.v
theories/CodegenTotal.v
theories/Thm_Codegen.v
theories/RangeSetModel.v
theories/RangeSetProofs.v
theories/Thm_RangeSet.v
theories/ByteSetModel.v
theories/ByteSetProofs.v
theories/Thm_ByteSet.v
theories/Thm_Instr.v
theories/UtfModel.v
theories/UtfProofs.v
theories/Thm_Utf.v
theories/EncModel.v
theories/EncProofs.v
theories/EncUtf.v
theories/Thm_Enc.v
theories/DecModel.v
theories/DecProofs.v
theories/Thm_Dec.v
theories/SerModel.v
theories/Thm_Ser.v
theories/LineModel.v
theories/Thm_Line.v
theories/EscModel.v
theories/Thm_Esc.v
theories/ReadModel.v
theories/Thm_Read.v
theories/HandleModel.v
theories/Thm_Handle.v
theories/ListModel.v
theories/Thm_List.v
theories/GraphModel.v
theories/GraphProofs.v
theories/Thm_Graph.v
theories/PatModel.v
theories/PatSpec.v
theories/RewriteProofs.v
theories/Thm_Rewrite.v
theories/BuildModel.v
theories/BuildSpec.v
theories/BuildProofs.v
theories/BuildTree.v
theories/BuildTail.v
theories/BuildEnc.v
theories/ReduceBuild.v
theories/ReduceEmpty.v
theories/ReduceSub.v
theories/Thm_Build.v
theories/OptModel.v
theories/OptSpec.v
theories/OptPrune.v
theories/OptMerge.v
theories/OptMergeLang.v
theories/OptMergeBest.v
theories/OptLive.v
theories/OptGuard.v
theories/OptZero.v
theories/OptPipe.v
theories/OptGroups.v
theories/OptSubset.v
theories/OptSubsetSem.v
theories/OptFinal.v
theories/Thm_Pipe.v
theories/Thm_Opt.v
theories/Thm_Api.v
theories/ParseModel.v
theories/ParseSets.v
theories/ParseGrammar.v
theories/ParseRun.v
theories/ParseFull.v
theories/ParseText.v
theories/ParseFixed.v
theories/Thm_Parse.v
theories/Thm_Fixed.v
theories/Thm_Class.v
theories/Thm_Meaning.v
theories/Thm_Text.v
theories/Thm_Grammar.v
theories/ParseRead.v
theories/Thm_Reading.v
theories/UnparseModel.v
theories/UnparseTree.v
theories/UnparseClass.v
theories/Thm_Unparse.v
