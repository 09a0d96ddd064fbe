-Q theories Verif
theories/Base.v
theories/SpecStr.v
theories/LexFacts.v
theories/ModelCore.v
theories/DuvalProof.v
theories/PermFacts.v
theories/SortFacts.v
theories/LyndonProof.v
theories/LwgProof.v
theories/BorderProof.v
theories/LcpProof.v
theories/PropsLyndon.v
theories/PropsArrays.v
theories/SpecBwt.v
theories/BwtFacts.v
theories/BwtProof.v
theories/BbwtProof.v
theories/BbwtSurj.v
theories/PropsBwt.v
theories/ModelIo.v
theories/SpecIo.v
theories/RunFacts.v
theories/IterProof.v
theories/ModelTools.v
theories/ToolsProof.v
theories/ToolsProof2.v
theories/PropsIter.v
theories/PropsTools.v
theories/ModelLz.v
theories/SpecLz.v
theories/LzProof.v
theories/MusProof.v
theories/PropsLz.v
theories/ModelAttr.v
theories/SpecAttr.v
theories/AttrProof.v
theories/AttrOrder.v
theories/AttrProof2.v
theories/PropsAttr.v
theories/ModelWord.v
theories/SpecWord.v
theories/WordProof.v
theories/WordProof2.v
theories/WordProof3.v
theories/WordProof4.v
theories/PropsWord.v
theories/PropsWord2.v
theories/NeckProof.v
theories/NeckProof2.v
theories/PropsNeck.v
theories/SpecMain.v
theories/ModelMain.v
theories/MainProof.v
theories/MainProof2.v
theories/PropsMain.v
theories/ModelEntropy.v
theories/SpecEntropy.v
theories/EntropyProof.v
theories/EntropyProof2.v
theories/EntropyProof3.v
theories/PropsEntropy.v
theories/SpecPar.v
theories/ModelPar.v
theories/ModelPar2.v
theories/LockFacts.v
theories/ParProof.v
theories/ParProof2.v
theories/ParProof3.v
theories/ParProof4.v
theories/ParProof5.v
theories/ParProof6.v
theories/ParProof7.v
theories/ParProof8.v
theories/PropsPar.v
theories/FibFacts.v
theories/PdFacts.v
theories/PropsClassic.v
theories/EntropyProof4.v
theories/EntropyProof5.v
theories/PropsEntropy2.v
theories/SpecLex.v
theories/LexProof.v
theories/LexRuns.v
theories/ParseAttr.v
theories/RunAttr.v
theories/PropsLex.v
theories/ModelEnum.v
theories/SpecEnum.v
theories/EnumProof.v
theories/PropsEnum.v
theories/AttrProof3.v
theories/PropsAttr2.v
theories/SpecUtf8.v
theories/Utf8Proof.v
theories/PropsUtf8.v
theories/AttrZero.v
theories/PropsAttr3.v
theories/PropsPipe.v
theories/ModelRelease.v
theories/ReleaseProof.v
theories/ReleaseProof2.v
theories/PropsRelease.v
theories/SpecFs.v
theories/ModelFs.v
theories/FsProof.v
theories/FsProof2.v
theories/FsProof3.v
theories/FsProof4.v
theories/PropsFs.v
theories/ModelProbe.v
theories/SpecProbe.v
theories/UnifyProof.v
theories/ProbeProof.v
theories/PropsProbe.v
theories/FibBwt.v
theories/FibBwt2.v
theories/PropsFib.v
theories/ModelFloat.v
theories/SpecLog.v
theories/FloatFacts.v
theories/FloatProof.v
theories/FloatProof2.v
theories/FloatProof3.v
theories/FloatProof4.v
theories/FloatProof5.v
theories/FloatProof6.v
theories/FloatProof7.v
theories/FloatProof8.v
theories/FloatLog.v
theories/FloatLink.v
theories/FloatSign.v
theories/PropsFloat.v
theories/SpecResult.v
theories/ModelResult.v
theories/ResultProof.v
theories/PropsResult.v
theories/ModelPar3.v
theories/SpecStatus.v
theories/ParProof9.v
theories/PropsStatus.v
theories/PropsArrays2.v
theories/SpecCost.v
theories/ModelCost.v
theories/CostFacts.v
theories/CostProof.v
theories/CostProof2.v
theories/CostProof3.v
theories/PropsCost.v
theories/SpecSort.v
theories/ModelSort.v
theories/SortProof.v
theories/PropsSort.v
theories/ModelRelease2.v
theories/ReleaseProof3.v
theories/PropsRelease2.v
theories/ModelDebug.v
theories/DebugProof.v
theories/PropsDebug.v
theories/FibLz.v
theories/FibLex.v
theories/FibRuns.v
theories/FibLex2.v
theories/PropsFib2.v
theories/LwgCount.v
theories/LwgCost.v
theories/PropsLwg.v
theories/ModelFs2.v
theories/FsProof5.v
theories/PropsFs2.v
theories/SpecRename.v
theories/RenameProof.v
theories/RenameProof2.v
theories/PropsRename.v
theories/LzRel.v
theories/LzEdit.v
theories/PropsRel.v
theories/MorphBwt.v
theories/MorphBwt2.v
theories/MorphRuns.v
theories/PropsMorph.v
theories/SpecArgs.v
theories/SpecArgs2.v
theories/ModelArgs.v
theories/ModelFs3.v
theories/ModelArgs2.v
theories/ArgsProof.v
theories/ArgsProof2.v
theories/ArgsProof3.v
theories/ArgsProof4.v
theories/ArgsProof5.v
theories/ArgsProof6.v
theories/FsProofRle.v
theories/PropsArgs.v
theories/PropsArgs2.v
theories/ModelScripts.v
theories/ScriptProof.v
theories/ScriptProof2.v
theories/PropsScripts.v
theories/PropsSession.v
theories/LzMorph.v
theories/LzMorph2.v
theories/LzTrib.v
theories/LzLyn.v
theories/PropsLzMorph.v
theories/LynMorph.v
theories/LynFam.v
theories/LynFam2.v
theories/LynFam3.v
theories/LynFam4.v
theories/LynFam5.v
theories/PropsLynFam.v
theories/SpecSub.v
theories/SubCount.v
theories/PropsBounds.v
theories/MusRuns.v
theories/PropsMusRuns.v
theories/TextRuns.v
theories/TextRuns2.v
theories/PropsTextRuns.v
theories/PropsDebruijn.v
theories/PropsKolakoski.v
theories/PropsReverse.v
theories/RunFam.v
theories/PropsRunFam.v
theories/LetFam.v
theories/PropsLetFam.v
theories/PerFam.v
theories/PropsPerFam.v
theories/PowFam.v
theories/PropsPowFam.v
theories/RevFam.v
theories/PropsRevFam.v
theories/MorphBwt3.v
theories/MorphBwt4.v
theories/MorphBwt5.v
theories/MorphBwt6.v
theories/MorphBwt7.v
theories/PropsEndBwt.v
theories/MorphBwt8.v
theories/PropsPaperBwt.v
theories/RepoTests.v
