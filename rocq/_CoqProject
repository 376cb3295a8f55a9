-Q theories Verif
theories/Base.v
theories/Model_Charset.v
theories/Proof_Charset.v
theories/Props_Charset.v
theories/Model_Input.v
theories/Spec_Input.v
theories/Proof_Input.v
theories/Props_Input.v
theories/Model_Reader.v
theories/Proof_Reader.v
theories/Props_Reader.v
theories/Model_Isa.v
theories/Model_Capture.v
theories/Model_Pattern.v
theories/Model_Code.v
theories/Model_VM.v
theories/Spec_Peg.v
theories/Proof_Eval.v
theories/Spec_Scope.v
theories/Spec_Run.v
theories/Proof_Get.v
theories/Proof_Inline.v
theories/Props_Simplify.v
theories/Proof_Codegen.v
theories/Proof_Machine.v
theories/Proof_Frag.v
theories/Proof_Diverge.v
theories/Proof_Compile.v
theories/Proof_Emit.v
theories/Proof_Sim.v
theories/Proof_Optimize.v
theories/Proof_Encode.v
theories/Spec_Props.v
theories/Proof_Spec.v
theories/Proof_Capture.v
theories/Model_Checker.v
theories/Proof_Checker.v
theories/Proof_Props1.v
theories/Props_Encode.v
theories/Props_Optimize.v
theories/Proof_Main.v
theories/Proof_Props2.v
theories/Proof_Safe.v
theories/Proof_SafeCode.v
theories/Proof_SafeMain.v
theories/Props_Main.v
theories/Props_Pattern.v
theories/Proof_Term.v
theories/Spec_Wf.v
theories/Proof_Wf.v
theories/Proof_Props3.v
theories/Proof_Range.v
theories/Props_Capture.v
theories/Props_Compile.v
theories/Props_Wf.v
theories/Model_Interval.v
theories/Spec_Interval.v
theories/Proof_Interval.v
theories/Proof_Interval2.v
theories/Proof_Interval3.v
theories/Proof_Stage.v
theories/Proof_Interval4.v
theories/Proof_Interval5.v
theories/Model_Array.v
theories/Proof_Array.v
theories/Model_Detach.v
theories/Proof_Detach.v
theories/Proof_Props4.v
theories/Props_Interval.v
theories/Props_Detach.v
theories/Model_Race.v
theories/Spec_Race.v
theories/Proof_Race.v
theories/Proof_Race2.v
theories/Proof_Race3.v
theories/Props_Race.v
theories/Spec_Balance.v
theories/Proof_Balance.v
theories/Spec_BalanceLazy.v
theories/Proof_BalanceLazy.v
theories/Props_Balance.v
theories/Model_Table.v
theories/Spec_Memo.v
theories/Proof_Memo.v
theories/Proof_Memo2.v
theories/Proof_Memo3.v
theories/Proof_Memo4.v
theories/Proof_Flat.v
theories/Proof_Flat2.v
theories/Proof_Memo5.v
theories/Props_Memo.v
theories/Props_Rounds.v
theories/Model_Rope.v
theories/Spec_Rope.v
theories/Proof_Rope.v
theories/Proof_Rope2.v
theories/Props_Rope.v
theories/Spec_RopeShape.v
theories/Proof_RopeShape.v
theories/Props_RopeShape.v
theories/Model_RopeHeap.v
theories/Spec_RopeHeap.v
theories/Proof_RopeHeap.v
theories/Proof_RopeHeap2.v
theories/Proof_RopeHeap3.v
theories/Proof_RopeHeap4.v
theories/Props_RopeHeap.v
theories/Model_Rxconv.v
theories/Spec_Rx.v
theories/Proof_Rx.v
theories/Proof_Rx2.v
theories/Proof_Rx3.v
theories/Props_Rx.v
theories/Model_Re.v
theories/Spec_Re.v
theories/Proof_Re.v
theories/Proof_Re2.v
theories/Props_Re.v
theories/Model_Heap.v
theories/Spec_Heap.v
theories/Proof_Heap.v
theories/Proof_Heap2.v
theories/Proof_IntervalMap.v
theories/Proof_Heap3.v
theories/Props_Heap.v
theories/Model_Serial.v
theories/Spec_Serial.v
theories/Proof_Serial.v
theories/Props_Serial.v
theories/Model_Lazy.v
theories/Proof_Lazy.v
theories/Props_Lazy.v
theories/Spec_Encode.v
theories/Proof_Fits.v
theories/Model_Grammars.v
theories/Spec_Grammars.v
theories/Proof_Grammars.v
theories/Spec_GrammarSize.v
theories/Proof_GrammarSize.v
theories/Spec_Thresholds.v
theories/Proof_Thresholds.v
theories/Spec_GrammarMemo.v
theories/Proof_Shipped.v
theories/Props_Grammars.v
theories/Spec_Json.v
theories/Proof_Readers.v
theories/Proof_Json.v
theories/Proof_Json2.v
theories/Proof_Json3.v
theories/Props_Json.v
theories/Proof_GrammarMemo.v
theories/Props_GrammarMemo.v
theories/Spec_Rounds.v
theories/Proof_Tree.v
theories/Proof_Extent.v
theories/Proof_JsonNear.v
theories/Proof_Rounds.v
theories/Props_JsonRounds.v
theories/Model_Share.v
theories/Proof_Share.v
theories/Proof_Share2.v
theories/Proof_Share3.v
theories/Proof_Share4.v
theories/Proof_Share5.v
theories/Props_Share.v
theories/Spec_Cost.v
theories/Proof_Cost.v
theories/Proof_Cost2.v
theories/Model_String.v
theories/Spec_String.v
theories/Proof_String.v
theories/Model_Pretty.v
theories/Spec_Pretty.v
theories/Proof_Pretty.v
theories/Proof_PrettyGrammar.v
theories/Props_String.v
theories/Model_Listing.v
theories/Spec_Listing.v
theories/Proof_Listing.v
theories/Proof_Listing2.v
theories/Props_Listing.v
theories/Model_CapString.v
theories/Spec_CapString.v
theories/Proof_CapString.v
theories/Props_CapString.v
theories/Spec_Positions.v
theories/Proof_Positions.v
theories/Props_Positions.v
theories/Proof_Once.v
theories/Props_Cost.v
theories/Spec_Stack.v
theories/Proof_Stack.v
theories/Props_Stack.v
theories/Model_Source.v
theories/Spec_Source.v
theories/Proof_Source.v
theories/Spec_Editor.v
theories/Proof_Editor.v
theories/Props_Source.v
theories/Model_Labels.v
theories/Proof_Labels.v
theories/Props_Labels.v
theories/Model_Bench.v
theories/Spec_Bench.v
theories/Proof_Bench.v
theories/Props_Bench.v
theories/Model_Java.v
theories/Spec_Java.v
theories/Proof_Java.v
theories/Props_Java.v
