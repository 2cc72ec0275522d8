-Q theories Verif
theories/Base.v
theories/Utf8.v
theories/F64.v
theories/Lexer.v
theories/Driver.v
theories/Types.v
theories/Impls.v
theories/Ser.v
theories/JsonValue.v
theories/Derive.v
theories/Utf8Facts.v
theories/Grammar.v
theories/LexSpec.v
theories/LexFacts.v
theories/RunFacts.v
theories/RunText.v
theories/LexNumFacts.v
theories/Tree.v
theories/TreeFacts.v
theories/DriverMap.v
theories/DriverFacts.v
theories/GrammarFacts.v
theories/Unambiguous.v
theories/Denote.v
theories/HeapFacts.v
theories/HeapSeq.v
theories/HeapMap.v
theories/HeapMain.v
theories/Reading.v
theories/MapFacts.v
theories/ReadFacts.v
theories/ReadMain.v
theories/FromStr.v
theories/ParseSpec.v
theories/ParseFacts.v
theories/FloatOps.v
theories/FloatParts.v
theories/NumValue.v
theories/FloatLit.v
theories/FloatRead.v
theories/PanicSpec.v
theories/PanicFacts.v
theories/FailFast.v
theories/VisitFacts.v
theories/TokenFacts.v
theories/DocSpec.v
theories/ClaimsParse.v
theories/ClaimsPanic.v
theories/NumFacts.v
theories/ClaimsNum.v
theories/ClaimsFloat.v
theories/TypedFacts.v
theories/ClaimsTypes.v
theories/SerSpec.v
theories/EscFacts.v
theories/SerFacts.v
theories/RenderFacts.v
theories/WriteFacts.v
theories/FloatRT.v
theories/ExactPrint.v
theories/RenderRuns.v
theories/RoundTrip.v
theories/ClaimsSer.v
theories/ClaimsWrite.v
theories/OrderFacts.v
theories/ClaimsOrder.v
theories/SerPanicSpec.v
theories/SerPanic.v
theories/ClaimsSerPanic.v
theories/DeriveSpec.v
theories/ClaimsDerive.v
theories/ClaimsJson.v
theories/ClientSpec.v
theories/ClientFacts.v
theories/ClientInst.v
theories/ClientVis.v
theories/ClientMain.v
theories/ClaimsClient.v
theories/ArrOwn.v
theories/ArrSpec.v
theories/ArrFacts.v
theories/ClaimsArr.v
theories/BoxOwn.v
theories/BoxSpec.v
theories/BoxFacts.v
theories/ClaimsBox.v
theories/JsonOwn.v
theories/JsonOwnSpec.v
theories/JsonOwnFacts.v
theories/JsonOwnMain.v
theories/JsonOwnExec.v
theories/ClaimsOwn.v
theories/UserTypes.v
theories/UserSpec.v
theories/UserFacts.v
theories/UserMain.v
theories/UserText.v
theories/ClaimsUser.v
theories/ClaimsClosed.v
theories/OpenSer.v
theories/OpenSerSpec.v
theories/OpenSerFacts.v
theories/OpenSerMain.v
theories/ClaimsOpenSer.v
theories/RoundSpec.v
theories/ClaimsRound.v
theories/Generics.v
theories/GenericsSpec.v
theories/ClaimsGenerics.v
theories/EvolveSpec.v
theories/ClaimsEvolve.v
theories/ClaimsEnum.v
theories/OpenNumSpec.v
theories/ClaimsOpenJson.v
theories/SizeSpec.v
theories/SizeFacts.v
theories/ClaimsSize.v
theories/BorrowSpec.v
theories/BorrowFacts.v
theories/ClaimsBorrow.v
theories/LexCost.v
theories/FloatCost.v
theories/LexCostFacts.v
theories/DriverCost.v
theories/DriverCostFacts.v
theories/CostLower.v
theories/CostCalls.v
theories/ClaimsCost.v
theories/ClosedSerSpec.v
theories/ClosedSerFacts.v
theories/ClaimsOpenClosed.v
theories/DebugFmt.v
theories/DebugSpec.v
theories/DebugFacts.v
theories/DebugInj.v
theories/ClaimsDebug.v
theories/NormSpec.v
theories/NormFacts.v
theories/ClaimsNorm.v
theories/Conformance.v
theories/OrderAll.v
theories/ThroughSpec.v
theories/ThroughFacts.v
theories/ClaimsThrough.v
theories/FloatMono.v
theories/FloatOrder.v
theories/ClaimsMono.v
theories/CutFacts.v
theories/CutFeed.v
theories/ClaimsCut.v
theories/PrintSpec.v
theories/PrintFacts.v
theories/ClaimsPrint.v
theories/TemplateSpec.v
theories/TemplateFacts.v
theories/ClaimsTemplate.v
theories/ChunkFacts.v
theories/ClaimsChunk.v
theories/ClaimsChunkUser.v
theories/WideSpec.v
theories/WideFacts.v
theories/ClaimsWide.v
theories/ReorderSpec.v
theories/ReorderFacts.v
theories/ShuffleFacts.v
theories/ClaimsReorder.v
