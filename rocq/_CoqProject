-Q theories Verif
theories/Core.v
theories/CoreFacts.v
theories/Str.v
theories/IP.v
theories/IPSpec.v
theories/IPFacts.v
theories/IPFacts2.v
theories/Arith.v
theories/ArithFacts.v
theories/PropArith.v
theories/DeepEq.v
theories/Equiv.v
theories/Find.v
theories/DeepEqFacts.v
theories/EquivFacts.v
theories/StrFacts.v
theories/DecSpec.v
theories/FindFacts.v
theories/PropNode.v
theories/Interp.v
theories/Cleanup.v
theories/Unresolved.v
theories/PropCleanup.v
theories/PropUnresolved.v
theories/PropInterp.v
theories/Comparison.v
theories/PropCompare.v
theories/RangeSlice.v
theories/PropRange.v
theories/Compare.v
theories/PropDiff.v
theories/ListFns.v
theories/PropList.v
theories/PropMap.v
theories/TextFns.v
theories/PropText.v
theories/PropText2.v
theories/Tags.v
theories/PropTags.v
theories/Files.v
theories/PropFiles.v
theories/Env.v
theories/Flow.v
theories/FlowSpec.v
theories/FlowFacts.v
theories/FlowPass.v
theories/FlowMerge.v
theories/FlowStable.v
theories/PropFlow.v
theories/PropFlow2.v
theories/Heap.v
theories/PropHeap.v
theories/PropArith2.v
theories/EncInj.v
theories/PropFix.v
theories/Info.v
theories/PropInfo.v
theories/PropInject.v
theories/Eval.v
theories/Control.v
theories/Engine.v
theories/EngineFacts.v
theories/Runs.v
theories/World0.v
theories/PropCond.v
theories/PropLambda.v
theories/PropControl.v
theories/PropSelect.v
theories/Context.v
theories/PropContext.v
theories/Keeps.v
theories/OSFns.v
theories/PropOS.v
theories/Values.v
theories/PropValues.v
theories/Validate.v
theories/PropValidate.v
theories/Peg.v
theories/Grammar.v
theories/Parser.v
theories/PegFacts.v
theories/ParserFacts.v
theories/ParserRead.v
theories/Written.v
theories/ParserWords.v
theories/ParserClean.v
theories/ParserLits.v
theories/ParserWritten.v
theories/ParserAll.v
theories/ParserOps.v
theories/ParserMerge.v
theories/ParserRun.v
theories/ParserAscii.v
theories/ParserRange.v
theories/PropParse.v
theories/PropAgg.v
theories/PropFail.v
theories/PropRef.v
theories/PropLit.v
theories/PropTpl.v
theories/DocSpec.v
theories/FlowDoc.v
theories/DocFacts.v
theories/DocEval.v
theories/PropDoc.v
theories/StuckSpec.v
theories/FlowStuck.v
theories/PropStuck.v
theories/MergeSpec.v
theories/FlowIns.v
theories/FlowDet.v
theories/PropMrg.v
theories/Crypt.v
theories/CryptSpec.v
theories/PropCrypt.v
theories/Convert.v
theories/ConvertSpec.v
theories/PropConvert.v
theories/Digest.v
theories/DigestSpec.v
theories/PropDigest.v
theories/Json.v
theories/JsonSpec.v
theories/PropJson.v
theories/Yaml.v
theories/YamlSpec.v
theories/PropYaml.v
theories/Scalars.v
theories/ScalarSpec.v
theories/PropScalars.v
theories/BlockSpec.v
theories/Blocks.v
theories/PropBlocks.v
