-Q theories Verif
theories/BlockModel.v
theories/BlockProofs.v
theories/BlockSpec.v
theories/BridgeLoaded.v
theories/BridgeModel.v
theories/BridgeProofs.v
theories/BridgeSpec.v
theories/BridgeThms.v
theories/BundleModel.v
theories/BundleProofs.v
theories/BundleSpec.v
theories/CnameModel.v
theories/CnameProofs.v
theories/CnameSpec.v
theories/ConlluAttach.v
theories/ConlluComments.v
theories/ConlluCommentsAll.v
theories/ConlluFileBundles.v
theories/ConlluFileModel.v
theories/ConlluFileProofs.v
theories/ConlluFileSpec.v
theories/ConlluFrame.v
theories/ConlluLines.v
theories/ConlluModel.v
theories/ConlluRe.v
theories/ConlluRead.v
theories/ConlluReadOk.v
theories/ConlluRound.v
theories/ConlluSent.v
theories/ConlluSpec.v
theories/ConlluTree.v
theories/ConlluWrite.v
theories/CorefIOEvents.v
theories/CorefIOItems.v
theories/CorefIOLoad.v
theories/CorefIOModel.v
theories/CorefIOPlace.v
theories/CorefIOSort.v
theories/CorefIOSpec.v
theories/CorefIOStore.v
theories/CorefIOText.v
theories/CorefIOThms.v
theories/CorefIds.v
theories/CorefLinks.v
theories/CorefModel.v
theories/CorefOrder.v
theories/CorefRoots.v
theories/CorefSpan.v
theories/CorefSpec.v
theories/DeprelModel.v
theories/DeprelProofs.v
theories/DepsModel.v
theories/DepsProofs.v
theories/DepsSpec.v
theories/DocModel.v
theories/DrawModel.v
theories/DrawProofs.v
theories/DrawSpec.v
theories/DrawTree.v
theories/DualDictModel.v
theories/DualDictProofs.v
theories/DualDictSpec.v
theories/EidModel.v
theories/EidProofs.v
theories/EidSpec.v
theories/EmptyProofs.v
theories/EmptySpec.v
theories/EnhModel.v
theories/EnhProofs.v
theories/EnhSpec.v
theories/EvalModel.v
theories/EvalProofs.v
theories/EvalSpec.v
theories/MwtProofs.v
theories/MwtSpaceModel.v
theories/MwtSpaceProofs.v
theories/MwtSpaceSpec.v
theories/MwtSpec.v
theories/NormModel.v
theories/NormProofs.v
theories/NormSpec.v
theories/ParsModel.v
theories/ParsProofs.v
theories/ParsSpec.v
theories/PcopModel.v
theories/PcopProofs.v
theories/PcopSpec.v
theories/Props_Block.v
theories/Props_Bridge.v
theories/Props_Bundle.v
theories/Props_Cname.v
theories/Props_Conllu.v
theories/Props_ConlluFile.v
theories/Props_Coref.v
theories/Props_CorefIO.v
theories/Props_Deps.v
theories/Props_Draw.v
theories/Props_DualDict.v
theories/Props_Eid.v
theories/Props_Empty.v
theories/Props_Enh.v
theories/Props_Eval.v
theories/Props_Files.v
theories/Props_Join.v
theories/Props_JoinToken.v
theories/Props_MaxDocs.v
theories/Props_Mwt.v
theories/Props_MwtSpace.v
theories/Props_Norm.v
theories/Props_Pars.v
theories/Props_Pcop.v
theories/Props_Punct.v
theories/Props_Reader.v
theories/Props_Rehang.v
theories/Props_Reseg.v
theories/Props_Run.v
theories/Props_SameSpan.v
theories/Props_Seg.v
theories/Props_Split.v
theories/Props_Steal.v
theories/Props_Subj.v
theories/Props_Text.v
theories/Props_Tok.v
theories/Props_Tree.v
theories/PunctFix.v
theories/PunctModel.v
theories/PunctPairs.v
theories/PunctProj.v
theories/PunctProofs.v
theories/PunctThms.v
theories/PyExn.v
theories/PyList.v
theories/PyListFacts.v
theories/PyStr.v
theories/PyStrFacts.v
theories/ReaderEq.v
theories/ReaderFiles.v
theories/ReaderFilesProofs.v
theories/ReaderMax.v
theories/ReaderModel.v
theories/ReaderProofs.v
theories/ReaderSlow.v
theories/ReaderSpec.v
theories/ReaderTerm.v
theories/ReaderTextSpec.v
theories/ReaderThms.v
theories/ReaderTotal.v
theories/RehangDeproj.v
theories/RehangFix.v
theories/RehangModel.v
theories/RehangProj.v
theories/RehangProofs.v
theories/RehangSpec.v
theories/ResegMerge.v
theories/ResegModel.v
theories/ResegProofs.v
theories/ResegSpec.v
theories/RunModel.v
theories/RunProofs.v
theories/RunSpec.v
theories/SameSpanModel.v
theories/SameSpanProofs.v
theories/SameSpanSpec.v
theories/SegModel.v
theories/SegProofs.v
theories/SegSpec.v
theories/SentencesProofs.v
theories/SplitModel.v
theories/SplitProofs.v
theories/SplitSpec.v
theories/StealModel.v
theories/StealProofs.v
theories/StealSpec.v
theories/StealThms.v
theories/SubjModel.v
theories/SubjProofs.v
theories/SubjSpec.v
theories/TextModel.v
theories/TextProofs.v
theories/TextSpace.v
theories/TextSpec.v
theories/TokFeats.v
theories/TokJoin.v
theories/TokModel.v
theories/TokProofs.v
theories/TokSpec.v
theories/TokToken.v
theories/TokTree.v
theories/TreeCalls.v
theories/TreeExamples.v
theories/TreeFacts.v
theories/TreeModel.v
theories/TreeOps.v
theories/TreeProps.v
theories/TreeQuery.v
theories/TreeRemove.v
theories/TreeRepr.v
theories/TreeShift.v
theories/TreeSpec.v
theories/TreeTreelet.v
