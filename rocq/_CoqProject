-Q theories Verif
theories/PField.v
theories/SMap.v
theories/Concrete.v
theories/IR.v
theories/IRSpec.v
theories/Wf.v
theories/IRProofs.v
theories/Interp.v
theories/Bits.v
theories/Optimizer.v
theories/InterpProofs.v
theories/OptimizerProofs.v
theories/OptPipeline.v
theories/OptExtra.v
theories/Flat.v
theories/FlatProofs.v
theories/Zir.v
theories/Codegen.v
theories/CgBase.v
theories/CgGadgets.v
theories/CgExpr.v
theories/CgStmt.v
theories/CgEmit.v
theories/CgProg.v
theories/CgWf.v
theories/CgEnd.v
theories/Refutations1.v
theories/PropIRLemmas.v
theories/PropIR.v
theories/Primality.v
theories/CgExamples.v
theories/CgCheck.v
theories/PropCodegen.v
theories/PropCompile.v
theories/UintOpt.v
theories/UintOptProofs.v
theories/UintRaw.v
theories/UintCheck.v
theories/PropUint.v
theories/Panic.v
theories/DeadCode.v
theories/Source.v
theories/NoFail.v
theories/PropSource.v
theories/PropChecked.v
theories/ArrayCmp.v
theories/PropArray.v
theories/ZProp.v
theories/ZPropVars.v
theories/ZPropStmt.v
theories/ZPropType.v
theories/PropFold.v
theories/Asm.v
theories/PropAsm.v
theories/PropCheck.v
theories/Backend.v
theories/OutOrder.v
theories/PropBackend.v
theories/Circom.v
theories/PropCircom.v
theories/Bytes.v
theories/WitnessIO.v
theories/PropWitness.v
theories/Cbor.v
theories/Sha256.v
theories/ProgIO.v
theories/ProgIOProofs.v
theories/ProgFile.v
theories/PropFile.v
theories/Fields.v
theories/CircomFile.v
theories/PropCircomFile.v
theories/Str.v
theories/PropStr.v
theories/Abi.v
theories/AbiJson.v
theories/PropAbi.v
theories/Typed.v
theories/Flatten.v
theories/FlattenOps.v
theories/FlattenSim.v
theories/FlattenRun.v
theories/FlattenTy.v
theories/FlattenShape.v
theories/Enforce.v
theories/FlattenEnd.v
theories/Closed.v
theories/PropTyped.v
theories/Writes.v
theories/Redefine.v
theories/WritesVal.v
theories/WritesExp.v
theories/WritesChoose.v
theories/WritesRun.v
theories/WritesEnd.v
theories/WritesWf.v
theories/ClosedW.v
theories/Bounds.v
theories/PropWrites.v
theories/PropWEnd.v
theories/PropBounds.v
theories/Src.v
theories/SrcTy.v
theories/TProp.v
theories/TPropOk.v
theories/Lower.v
theories/TPropArr.v
theories/TPropOps.v
theories/TPropExp.v
theories/TPropStmt.v
theories/TPropProg.v
theories/PropTProp.v
theories/Reduce.v
theories/ReduceRen.v
theories/ReduceExp.v
theories/ReduceStmt.v
theories/ReduceSimple.v
theories/ReduceMain.v
theories/ReduceBody.v
theories/ReduceCall.v
theories/ReduceFuel.v
theories/PropReduce.v
theories/ReduceOnce.v
theories/PropSrcEnd.v
theories/NoUint.v
theories/PropNoUint.v
theories/PropUnpack.v
theories/Std.v
theories/StdRun.v
theories/Edwards.v
theories/Fermat.v
theories/StdSpec.v
theories/StdEc.v
theories/StdTy.v
theories/PropStd.v
theories/PropDropped.v
theories/SmtSpec.v
theories/Smt.v
theories/PropSmt.v
theories/Sha.v
theories/ShaRun.v
theories/ShaRound.v
theories/ShaHash.v
theories/ShaPad.v
theories/ShaTy.v
theories/ShaSpec.v
theories/PropSha.v
theories/ShaCirc.v
theories/PropShaBytes.v
theories/Generics.v
theories/PropGenerics.v
theories/PropBlocks.v
