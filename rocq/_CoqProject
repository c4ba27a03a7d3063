-Q theories Verif
theories/ANF_Alpha.v
theories/ANF_Eval.v
theories/ANF_EvalProofs.v
theories/ANF_FreeProofs.v
theories/ANF_LR.v
theories/ANF_LRProofs.v
theories/ANF_Scope.v
theories/ANF_Spec.v
theories/ANF_Subst.v
theories/ANF_Syntax.v
theories/AN_Eval.v
theories/AN_Model.v
theories/AN_Prim.v
theories/AN_Proofs.v
theories/AN_Scope.v
theories/AN_Sig.v
theories/AN_Spec.v
theories/BW_Model.v
theories/BW_Proofs.v
theories/BW_Spec.v
theories/CC_Model.v
theories/CC_Proofs.v
theories/CC_Scope.v
theories/CC_Spec.v
theories/CC_Top.v
theories/CF_Model.v
theories/CF_Proofs.v
theories/CF_Spec.v
theories/CG_Clight.v
theories/CG_Collector.v
theories/CG_Layout.v
theories/CG_Model.v
theories/CG_Proofs.v
theories/CG_Spec.v
theories/CG_Stack.v
theories/CG_Top.v
theories/CP_Agree.v
theories/CP_End.v
theories/CP_Model.v
theories/CP_Prim.v
theories/CP_Proofs.v
theories/CP_Scope.v
theories/CP_Spec.v
theories/CP_Twin.v
theories/CV_Model.v
theories/CV_Proofs.v
theories/CV_Spec.v
theories/Comp_Model.v
theories/Comp_Proofs.v
theories/DPE_Model.v
theories/DPE_Proofs.v
theories/DPE_Sim.v
theories/DPE_Spec.v
theories/DPE_Tags.v
theories/EA_Model.v
theories/EA_Proofs.v
theories/EA_Spec.v
theories/End_C.v
theories/End_Front.v
theories/End_KC.v
theories/End_Wasm.v
theories/FF_Model.v
theories/FF_Names.v
theories/FF_Proofs.v
theories/FF_Spec.v
theories/FR_Model.v
theories/FR_Proofs.v
theories/GC_Counter.v
theories/GC_Export.v
theories/GC_Heap.v
theories/GC_Model.v
theories/GC_Modify.v
theories/GC_Mutator.v
theories/GC_Proofs.v
theories/GC_Spec.v
theories/GC_Step.v
theories/GC_Update.v
theories/GL_Link.v
theories/GL_Model.v
theories/GL_Proofs.v
theories/GL_Spec.v
theories/HM_Model.v
theories/HM_Proofs.v
theories/Hoist_Model.v
theories/Hoist_Proofs.v
theories/Hoist_Spec.v
theories/Inline_LetProofs.v
theories/Inline_Model.v
theories/Inline_Obs.v
theories/Inline_Sem.v
theories/Inline_Spec.v
theories/Inline_Syn.v
theories/KC_Model.v
theories/KC_Proofs.v
theories/KC_Spec.v
theories/KC_Top.v
theories/LB_Env.v
theories/LB_EnvProofs.v
theories/LB_EvalProofs.v
theories/LB_Model.v
theories/LB_Proofs.v
theories/LB_Spec.v
theories/LK_Model.v
theories/LK_Proofs.v
theories/LK_Spec.v
theories/LL_Closed.v
theories/LL_Free.v
theories/LL_Model.v
theories/LL_Proofs.v
theories/LL_Scope.v
theories/LL_Sim.v
theories/LL_Spec.v
theories/LL_Tags.v
theories/LL_Top.v
theories/LM_Model.v
theories/LM_Proofs.v
theories/LM_Spec.v
theories/LM_TransProofs.v
theories/Layout_Model.v
theories/Layout_Proofs.v
theories/Names_Model.v
theories/PP_Model.v
theories/PP_Proofs.v
theories/PP_Spec.v
theories/PP_Text.v
theories/PR_Decl.v
theories/PR_Exprs.v
theories/PR_Float.v
theories/PR_Fun.v
theories/PR_Lex.v
theories/PR_Model.v
theories/PR_Num.v
theories/PR_Read.v
theories/PR_Spec.v
theories/PR_Stmt.v
theories/PR_Types.v
theories/Pipe_DPE.v
theories/Pipe_Inv.v
theories/Pipe_Main.v
theories/Pipe_Model.v
theories/Pipe_Shapes.v
theories/Pipe_ShapesCC.v
theories/Pipe_ShapesOpt.v
theories/Pipe_ShapesPre.v
theories/Pipe_Spec.v
theories/Pipe_Steps.v
theories/Properties_ANF.v
theories/Properties_ANormal.v
theories/Properties_Bootstrap.v
theories/Properties_CFile.v
theories/Properties_CPS.v
theories/Properties_ClosedFuns.v
theories/Properties_Closure.v
theories/Properties_Codegen.v
theories/Properties_CodegenCPS.v
theories/Properties_Comp.v
theories/Properties_Convert.v
theories/Properties_DPE.v
theories/Properties_EndToEnd.v
theories/Properties_EndToEndC.v
theories/Properties_Erased.v
theories/Properties_ErasedEnd.v
theories/Properties_Evaluations.v
theories/Properties_FFI.v
theories/Properties_Float.v
theories/Properties_Foreign.v
theories/Properties_Freshen.v
theories/Properties_GC.v
theories/Properties_Glue.v
theories/Properties_Gmp.v
theories/Properties_Hoist.v
theories/Properties_Inline.v
theories/Properties_Int63.v
theories/Properties_Intern.v
theories/Properties_LambdaBoxLocal.v
theories/Properties_LambdaBoxMut.v
theories/Properties_LambdaLift.v
theories/Properties_Layout.v
theories/Properties_Linking.v
theories/Properties_Names.v
theories/Properties_Pipeline.v
theories/Properties_Printer.v
theories/Properties_Quoted.v
theories/Properties_Reify.v
theories/Properties_Rewriting.v
theories/Properties_Session.v
theories/Properties_Shrink.v
theories/Properties_ShrinkPass.v
theories/Properties_Sizes.v
theories/Properties_String.v
theories/Properties_Substitution.v
theories/Properties_Uncurry.v
theories/Properties_Values.v
theories/Properties_Wasm.v
theories/Properties_WasmRun.v
theories/Properties_Whole.v
theories/Properties_WholeCPS.v
theories/Properties_WholeCPSC.v
theories/QF_Model.v
theories/QF_Proofs.v
theories/QF_Spec.v
theories/RF_End.v
theories/RF_Model.v
theories/RF_Proofs.v
theories/RF_Spec.v
theories/RF_Subst.v
theories/RT_FFI.v
theories/RT_Float.v
theories/RT_FloatProofs.v
theories/RT_FloatSpec.v
theories/RT_Gmp.v
theories/RT_Int63AllocProofs.v
theories/RT_Int63Model.v
theories/RT_Int63Proofs.v
theories/RT_Int63Spec.v
theories/RT_Int63SpecCheck.v
theories/RT_String.v
theories/RT_StringProofs.v
theories/RT_StringSpec.v
theories/RT_Values.v
theories/RT_ValuesProofs.v
theories/RT_Word.v
theories/RW_Model.v
theories/RW_Proofs.v
theories/RW_Spec.v
theories/SN_Model.v
theories/SN_Proofs.v
theories/SN_Spec.v
theories/SU_Model.v
theories/SU_Proofs.v
theories/SU_Spec.v
theories/SV_Model.v
theories/SV_Proofs.v
theories/SV_Spec.v
theories/SZ_Model.v
theories/SZ_Proofs.v
theories/SZ_Spec.v
theories/Shrink_Bind.v
theories/Shrink_Census.v
theories/Shrink_CensusProofs.v
theories/Shrink_Env.v
theories/Shrink_Fold.v
theories/Shrink_FunSem.v
theories/Shrink_Funs.v
theories/Shrink_Inl.v
theories/Shrink_Inv.v
theories/Shrink_LetApp.v
theories/Shrink_Main.v
theories/Shrink_Model.v
theories/Shrink_Post.v
theories/Shrink_Sem.v
theories/Shrink_Top.v
theories/Shrink_Total.v
theories/UC_Model.v
theories/UC_Proofs.v
theories/UC_Spec.v
theories/UC_Top.v
theories/WA_Arith.v
theories/WA_Eval.v
theories/WA_Exec.v
theories/WA_Model.v
theories/WA_Prim.v
theories/WA_Proofs.v
theories/WA_Spec.v
theories/WA_Wasm.v
