-Q theories Verif
theories/Base.v
theories/AlgoError.v
theories/NumTypes.v
theories/AlgoBasic.v
theories/AlgoGamma.v
theories/AlgoFib.v
theories/AlgoPrime.v
theories/SpecNum.v
theories/ProofBasic.v
theories/ProofCrt.v
theories/ProofFib.v
theories/ProofSieve.v
theories/ProofPrime.v
theories/ProofCount.v
theories/ProofBezout.v
theories/ProofNumMisc.v
theories/PropNum.v
theories/ProofLegendre.v
theories/ProofTable.v
theories/PropTable.v
theories/Ast.v
theories/Display.v
theories/SmError.v
theories/Internal.v
theories/Eval.v
theories/Tex.v
theories/Wolfram.v
theories/Runner.v
theories/ParseFile.v
theories/SpecAst.v
theories/SpecSession.v
theories/SpecOrder.v
theories/SpecUtf8.v
theories/ProofUtf8.v
theories/ProofAst.v
theories/ProofOrder.v
theories/PropOrder.v
theories/ProofDisplay.v
theories/ProofEval.v
theories/ProofRunner.v
theories/ProofExport.v
theories/PropAst.v
theories/Peg.v
theories/Grammar.v
theories/Climber.v
theories/Build.v
theories/Steps.v
theories/Track.v
theories/SpecPeg.v
theories/SpecClimb.v
theories/SpecParse.v
theories/ProofPeg.v
theories/ProofPegShift.v
theories/ProofSym.v
theories/ProofGrammar.v
theories/ProofClimber.v
theories/ProofBuild.v
theories/ProofPos.v
theories/SpecPlace.v
theories/ProofPlace.v
theories/ProofSpace.v
theories/SpecSyntax.v
theories/ProofLex.v
theories/ProofToken.v
theories/ProofNode.v
theories/ProofAtom.v
theories/ProofString.v
theories/ProofTerm.v
theories/ProofExpr.v
theories/ProofGroup.v
theories/ProofCall.v
theories/ProofArgs.v
theories/ProofMark.v
theories/ProofSlice.v
theories/ProofProduct.v
theories/SpecSource.v
theories/SpecText.v
theories/ProofText.v
theories/ProofStatement.v
theories/ProofComment.v
theories/ProofSource.v
theories/ProofSyntax.v
theories/ProofKeyword.v
theories/ProofSample.v
theories/PropParse.v
theories/ProofRepl.v
theories/PropSyntax.v
theories/SpecAnswer.v
theories/ProofAnswer.v
theories/PropAnswer.v
theories/SpecRound.v
theories/ProofRound.v
theories/PropRound.v
theories/PropPlace.v
theories/SpecSafe.v
theories/ProofShape.v
theories/ProofSafe.v
theories/ProofQuiet.v
theories/PropSafe.v
theories/SpecTex.v
theories/ProofTex.v
theories/PropTex.v
theories/SpecPest.v
theories/Source.v
theories/ProofPest.v
theories/ProofFollow.v
theories/PropPest.v
theories/SpecValue.v
theories/ProofInside.v
theories/ProofValue.v
theories/ProofMeaning.v
theories/PropValue.v
theories/SpecReply.v
theories/ProofReply.v
theories/PropReply.v
theories/SpecPage.v
theories/ProofPage.v
theories/PropPage.v
theories/SpecCost.v
theories/SpecManual.v
theories/ProofSteps.v
theories/ProofTrack.v
theories/ProofStranger.v
theories/ProofExpect.v
theories/ProofFault.v
theories/ProofBracket.v
theories/ProofDepth.v
theories/ProofWork.v
theories/ProofManual.v
theories/SpecJuxta.v
theories/SpecFault.v
theories/SpecBracket.v
theories/SpecOutside.v
theories/ProofOutside.v
theories/ProofJuxta.v
theories/PropCost.v
theories/PropManual.v
theories/PropFault.v
theories/PropBracket.v
theories/PropOutside.v
theories/SpecUnfinished.v
theories/ProofUnfinished.v
theories/PropUnfinished.v
theories/SpecLayout.v
theories/ProofLayout.v
theories/SpecPieces.v
theories/ProofPieces.v
theories/SpecTest.v
theories/ProofTest.v
theories/PropTest.v
theories/SpecOrigin.v
theories/ProofOrigin.v
theories/PropOrigin.v
theories/SpecLetter.v
theories/ProofLetter.v
theories/ParseFiles.v
theories/SpecFiles.v
theories/ProofFiles.v
theories/PropFiles.v
theories/Threads.v
theories/SpecThreads.v
theories/ProofThreads.v
theories/PropThreads.v
theories/SpecImage.v
theories/ProofImage.v
theories/ProofProduced.v
theories/ProofRange.v
theories/PropImage.v
theories/Message.v
theories/SpecMessage.v
theories/ProofMessage.v
theories/PropMessage.v
theories/Debug.v
theories/SpecDebug.v
theories/ProofDebug.v
theories/PropDebug.v
theories/SpecAgain.v
theories/ProofAgain.v
theories/PropAgain.v
theories/SpecLength.v
theories/ProofLength.v
theories/PropLength.v
theories/ProofAlike.v
theories/PropLetter.v
theories/PropLayout.v
theories/SpecExport.v
theories/ProofInject.v
theories/PropExport.v
theories/SpecConvert.v
theories/ProofConvert.v
theories/PropConvert.v
theories/SpecLine.v
theories/ProofLine.v
theories/PropLine.v
theories/Effort.v
theories/ProofEffort.v
theories/PropEffort.v
