-Q theories Verif
theories/Base.v
theories/Model_Vector.v
theories/Spec_Vector.v
theories/Proof_Vector.v
theories/Prop_Vector.v
theories/Model_HashTable.v
theories/Spec_HashTable.v
theories/Proof_HashTable.v
theories/Prop_HashTable.v
theories/Model_Names.v
theories/Spec_Names.v
theories/Proof_Names.v
theories/Prop_Names.v
theories/Model_Cli.v
theories/Spec_Cli.v
theories/Proof_Cli.v
theories/Prop_Cli.v
theories/Model_Token.v
theories/Spec_Token.v
theories/Proof_Token.v
theories/Proof_Token2.v
theories/Proof_Token3.v
theories/Proof_Token4.v
theories/Proof_Token5.v
theories/Prop_Token.v
theories/Model_Utf8.v
theories/Spec_Utf8.v
theories/Proof_Utf8.v
theories/Prop_Utf8.v
theories/Model_Classify.v
theories/Spec_Classify.v
theories/Proof_Classify.v
theories/Proof_Classify2.v
theories/Prop_Classify.v
theories/Model_Literal.v
theories/Spec_Literal.v
theories/Proof_Literal.v
theories/Proof_Literal2.v
theories/Prop_Literal.v
theories/Model_Parse.v
theories/Spec_Parse.v
theories/Proof_Parse.v
theories/Proof_Parse2.v
theories/Proof_Parse3.v
theories/Proof_Parse4.v
theories/Proof_Parse5.v
theories/Prop_Parse.v
theories/Model_Sem.v
theories/Spec_Sem.v
theories/Proof_Sem.v
theories/Proof_Sem2.v
theories/Proof_Sem3.v
theories/Proof_Sem4.v
theories/Proof_Sem5.v
theories/Proof_SemEx.v
theories/Prop_Sem.v
theories/Spec_Sem2.v
theories/Proof_Sem6.v
theories/Proof_Sem7.v
theories/Proof_Sem8.v
theories/Prop_Sem2.v
theories/Prop_Sem3.v
theories/Model_Types.v
theories/Spec_Types.v
theories/Proof_Types.v
theories/Prop_Types.v
theories/Model_CGen.v
theories/Spec_C.v
theories/Proof_C.v
theories/Proof_C2.v
theories/Spec_CGen.v
theories/Proof_CGen.v
theories/Proof_CGen2.v
theories/Prop_CGen.v
theories/Spec_Run.v
theories/Model_Helpers.v
theories/Proof_Helpers.v
theories/Prop_Helpers.v
theories/Spec_IR.v
theories/Model_LLVM.v
theories/Model_Link.v
theories/Spec_LLVM.v
theories/Spec_Link.v
theories/Proof_LLVM.v
theories/Proof_LLVM2.v
theories/Proof_LLVM3.v
theories/Proof_LLVM4.v
theories/Proof_LLVM5.v
theories/Proof_LLVM6.v
theories/Proof_LLVM7.v
theories/Proof_LLVM8.v
theories/Proof_LLVM9.v
theories/Proof_LLVM10.v
theories/Proof_Debug.v
theories/Proof_LLVM11.v
theories/Proof_RunEx.v
theories/Proof_Stuck.v
theories/Prop_LLVM.v
theories/Model_CFile.v
theories/Model_Pipeline.v
theories/Spec_Pipeline.v
theories/Proof_Pipeline.v
theories/Prop_Pipeline.v
theories/Spec_Shell.v
theories/Proof_Shell.v
theories/Prop_Shell.v
theories/Proof_Order.v
theories/Spec_Loops.v
theories/Proof_LLVM12.v
theories/Proof_LLVM13.v
theories/Proof_LLVM14.v
theories/Prop_LLVM2.v
theories/Spec_Order.v
theories/Proof_Order2.v
theories/Prop_Order.v
theories/Spec_Accept.v
theories/Proof_Accept.v
theories/Proof_Accept2.v
theories/Proof_Accept3.v
theories/Proof_Accept4.v
theories/Proof_Accept5.v
theories/Proof_AcceptEx.v
theories/Prop_Accept.v
theories/Spec_Grammar.v
theories/Proof_Grammar.v
theories/Prop_Grammar.v
theories/Proof_SymNames.v
theories/Spec_CProg.v
theories/Spec_CBack.v
theories/Proof_CProg.v
theories/Proof_CProg2.v
theories/Proof_CProg3.v
theories/Proof_CProg4.v
theories/Proof_CProg5.v
theories/Proof_CProg6.v
theories/Prop_CProg.v
theories/Spec_CRun.v
theories/Spec_CBehave.v
theories/Proof_CRun.v
theories/Proof_CRun2.v
theories/Proof_CRun3.v
theories/Proof_CRun4.v
theories/Proof_CRun5.v
theories/Proof_CRun6.v
theories/Proof_CRun7.v
theories/Proof_CRun8.v
theories/Proof_CRun9.v
theories/Proof_CRun10.v
theories/Proof_CRun11.v
theories/Proof_CRunEx.v
theories/Proof_CRunEx2.v
theories/Prop_CRun.v
theories/Prop_Backends.v
theories/Spec_Safe.v
theories/Proof_Safe.v
theories/Proof_Safe2.v
theories/Proof_Safe3.v
theories/Proof_Safe4.v
theories/Proof_Safe5.v
theories/Proof_Safe6.v
theories/Proof_Safe7.v
theories/Proof_Safe8.v
theories/Prop_Safe.v
theories/Spec_Valid.v
theories/Proof_Valid.v
theories/Proof_Valid2.v
theories/Prop_Valid.v
theories/Spec_Errors.v
theories/Proof_Told.v
theories/Model_Errors.v
theories/Spec_Printed.v
theories/Proof_Errors.v
theories/Proof_Errors2.v
theories/Prop_Printed.v
theories/Prop_Errors.v
theories/Spec_CCheck.v
theories/Spec_CReady.v
theories/Proof_CCheck.v
theories/Proof_CCheck2.v
theories/Proof_CCheck3.v
theories/Proof_CCheck4.v
theories/Prop_CCheck.v
theories/Proof_Link.v
theories/Proof_Link2.v
theories/Proof_Link3.v
theories/Proof_Link4.v
theories/Prop_Link.v
theories/Model_Local.v
theories/Spec_Local.v
theories/Proof_Local.v
theories/Prop_Local.v
theories/Spec_CLink.v
theories/Proof_CLink.v
theories/Prop_CLink.v
theories/Model_Debug.v
theories/Spec_Debug.v
theories/Prop_Debug.v
theories/Spec_Lines.v
theories/Proof_Lines.v
theories/Prop_Lines.v
theories/Model_Where.v
theories/Spec_Where.v
theories/Proof_Where.v
theories/Prop_Where.v
theories/Model_Vars.v
theories/Spec_Vars.v
theories/Proof_Vars.v
theories/Prop_Vars.v
