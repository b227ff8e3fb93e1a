-Q theories Verif
theories/Base.v
theories/Span.v
theories/Ast.v
theories/Nom.v
theories/Combinator.v
theories/Parse.v
theories/TestsParse.v
theories/SpecAst.v
theories/SpecErrors.v
theories/SpecParse.v
theories/SpecGrammar.v
theories/CharLevel.v
theories/CharLevel2.v
theories/CharLevel3.v
theories/ProofErrors.v
theories/ProofParse.v
theories/ProofParse2.v
theories/PropParse.v
theories/SpecExact.v
theories/ProofExact.v
theories/PropExact.v
theories/SpecEscaped.v
theories/ProofEscaped.v
theories/PropEscaped.v
theories/SpecBytes.v
theories/ProofBytes.v
theories/PropBytes.v
theories/ProofGrammar.v
theories/SpecReadme.v
theories/ProofReadme.v
theories/PropGrammar.v
theories/SpecPrefix.v
theories/ProofPrefix.v
theories/PropPrefix.v
theories/SpecRename.v
theories/ProofRename.v
theories/PropRename.v
theories/ProofDepth.v
theories/PropDepth.v
theories/Iter.v
theories/SpecIter.v
theories/ProofIter.v
theories/PropIter.v
theories/Regex.v
theories/Expand.v
theories/TestsExpand.v
theories/SpecExpand.v
theories/ProofMeaning.v
theories/ProofRegex.v
theories/ProofTypes.v
theories/ProofDecimal.v
theories/ProofExpand.v
theories/ProofExpand2.v
theories/ProofExpand3.v
theories/ProofExpand4.v
theories/PropExpand.v
theories/Hir.v
theories/Params.v
theories/TestsParams.v
theories/ProofFrame.v
theories/ProofInv.v
theories/SpecParams.v
theories/ProofHir.v
theories/ProofHir2.v
theories/ProofHir3.v
theories/ProofHir4.v
theories/ProofPrint.v
theories/ProofParams.v
theories/ProofParams2.v
theories/PropParams.v
theories/Messages.v
theories/SpecMessages.v
theories/ProofMessages.v
theories/ProofMessages2.v
theories/PropMessages.v
theories/SpecUnique.v
theories/ProofUnique.v
theories/PropUnique.v
theories/Match.v
theories/TestsMatch.v
theories/ProofMatch.v
theories/SpecMatch.v
theories/ProofMatch2.v
theories/ProofMatch3.v
theories/ProofMatch4.v
theories/PropMatch.v
theories/Steps.v
theories/ProofSteps.v
theories/ProofSteps2.v
theories/ProofSteps3.v
theories/ProofSteps4.v
theories/ProofSteps5.v
theories/SpecWordParts.v
theories/ProofWordParts.v
theories/ProofRescan3.v
theories/ProofRescan4.v
theories/SpecParens.v
theories/ProofParens.v
theories/PropSteps.v
theories/Captures.v
theories/SpecCaptures.v
theories/ProofCaptures.v
theories/PropCaptures.v
theories/Generic.v
theories/SpecGeneric.v
theories/ProofGeneric.v
theories/ProofGeneric2.v
theories/PropGeneric.v
theories/Lazy.v
theories/SpecLazy.v
theories/ProofLazy.v
theories/PropLazy.v
theories/SpecSame.v
theories/ProofSame.v
theories/ProofSame2.v
theories/PropSame.v
theories/SpecShort.v
theories/ProofShort.v
theories/PropShort.v
theories/SpecNesting.v
theories/ProofNesting.v
theories/PropNesting.v
theories/SpecLocation.v
theories/ProofLocation.v
theories/PropLocation.v
theories/SpecConcat.v
theories/ProofConcat.v
theories/PropConcat.v
theories/SpecSize.v
theories/ProofSize.v
theories/PropSize.v
theories/SpecUnchecked.v
theories/ProofUnchecked.v
theories/PropUnchecked.v
theories/LazySteps.v
theories/SpecLazySteps.v
theories/ProofLazySteps.v
theories/ProofLazySteps2.v
theories/PropLazySteps.v
theories/SpecSyntax.v
theories/ProofSyntax.v
theories/ProofSyntax2.v
theories/PropSyntax.v
theories/SpecMarks.v
theories/ProofMarks.v
theories/PropMarks.v
theories/SpecWords.v
theories/ProofWords.v
theories/SpecEdit.v
theories/ProofEdit.v
theories/PropEdit.v
theories/ProofLanguage.v
theories/PropLanguage.v
theories/SpecTrees.v
theories/ProofTrees.v
theories/PropTrees.v
theories/ProofKeys.v
theories/PropKeys.v
theories/SpecDocumented.v
theories/ProofDocumented.v
theories/PropDocumented.v
theories/Escaped.v
theories/SpecNomEscaped.v
theories/ProofNomEscaped.v
theories/PropNomEscaped.v
theories/Nest.v
theories/SpecNest.v
theories/ProofNest.v
theories/ProofNest2.v
theories/ProofNest3.v
theories/ProofNest4.v
theories/ProofNest5.v
theories/ProofNest6.v
theories/PropNest.v
theories/Equal.v
theories/ProofEqual.v
theories/PropEqual.v
theories/SpecHir.v
theories/Compiled.v
theories/ProofOrder.v
theories/ProofOrder2.v
theories/ProofOrder3.v
theories/ProofOrder4.v
theories/ProofOrder5.v
theories/ProofOrder6.v
theories/PropHir.v
theories/SpecNormal.v
theories/ProofNormal.v
theories/ProofReread.v
theories/ProofRelabel.v
theories/PropNormal.v
theories/ProofShift.v
theories/SpecPrefer.v
theories/ProofPrefer.v
theories/PropPrefer.v
theories/SpecScalar.v
theories/ProofScalar.v
theories/PropScalar.v
theories/SpecSpelled.v
theories/ProofSpelled.v
theories/PropSpelled.v
theories/SpecBlind.v
theories/ProofConcatIn.v
theories/PropConcatIn.v
theories/Automaton.v
theories/SpecAutomaton.v
theories/ProofBacktrack.v
theories/ProofAutomaton.v
theories/ProofAutomaton2.v
theories/ProofPaths.v
theories/ProofPaths2.v
theories/ProofAutomaton3.v
theories/ProofAutomaton4.v
theories/ProofAutomaton5.v
theories/ProofAutomaton6.v
theories/ProofAutomaton7.v
theories/SpecRuns.v
theories/ProofRuns.v
theories/ProofRuns2.v
theories/SpecSome.v
theories/ProofSome.v
theories/PropAutomaton.v
theories/Source.v
theories/ProofSource.v
theories/PropSource.v
theories/Limit.v
theories/SpecLimit.v
theories/ProofLimit.v
theories/PropLimit.v
theories/Debug.v
theories/SpecDebug.v
theories/ProofDebug.v
theories/ProofDebug2.v
theories/ProofDebug3.v
theories/SpecDeclared.v
theories/ProofDeclared.v
theories/SpecBare.v
theories/ProofBare.v
theories/SpecAstDeclared.v
theories/ProofAstDeclared.v
theories/SpecShown.v
theories/ProofShown.v
theories/PropDebug.v
theories/Lines.v
theories/SpecLines.v
theories/ProofTransfer.v
theories/ProofBelow.v
theories/ProofLines.v
theories/PropLines.v
theories/Asked.v
theories/SpecAsked.v
theories/ProofAsked.v
theories/PropAsked.v
theories/SpecEndless.v
theories/ProofEndless.v
theories/PropEndless.v
theories/SpecSizeIn.v
theories/ProofSizeIn.v
theories/PropSizeIn.v
theories/ProofLeast.v
theories/SpecRescan.v
theories/ProofRescan.v
theories/ProofRescan2.v
theories/ProofLeastLazy.v
theories/ProofEscape2.v
