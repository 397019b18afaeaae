-Q theories Verif
theories/Model/AMap.v
theories/Model/AdaptDocx.v
theories/Model/ApertiumCmd.v
theories/Model/Base.v
theories/Model/BaumWelch.v
theories/Model/Caps.v
theories/Model/CapsRules.v
theories/Model/ChunkLoop.v
theories/Model/ChunkTokens.v
theories/Model/Cleanstream.v
theories/Model/Codec.v
theories/Model/Collection.v
theories/Model/ConstantManager.v
theories/Model/DictScripts.v
theories/Model/EndianDouble.v
theories/Model/FeatureVec.v
theories/Model/FilterAmb.v
theories/Model/Format.v
theories/Model/HMM.v
theories/Model/Interchunk.v
theories/Model/LSW.v
theories/Model/Latex.v
theories/Model/LexChoice.v
theories/Model/Modes.v
theories/Model/MorphoStream.v
theories/Model/Mtx.v
theories/Model/Perceptron.v
theories/Model/PerceptronTrain.v
theories/Model/PerceptronVM.v
theories/Model/Postchunk.v
theories/Model/PostchunkRules.v
theories/Model/PostchunkRun.v
theories/Model/Posttransfer.v
theories/Model/Pretransfer.v
theories/Model/Regex.v
theories/Model/Serialiser.v
theories/Model/Setvar.v
theories/Model/ShellUtils.v
theories/Model/Similar.v
theories/Model/Stream.v
theories/Model/TaggerData.v
theories/Model/TaggerDataCopy.v
theories/Model/TaggerMain.v
theories/Model/TaggerText.v
theories/Model/TaggerWord.v
theories/Model/TmxAlign.v
theories/Model/TmxBuild.v
theories/Model/TransferAct.v
theories/Model/TransferData.v
theories/Model/TransferMult.v
theories/Model/TransferRules.v
theories/Model/TransferUnit.v
theories/Model/TrxMachine.v
theories/Model/TrxPatterns.v
theories/Model/Tsx.v
theories/Model/Unigram.v
theories/Model/WblankAttach.v
theories/Model/WblankDetach.v
theories/Model/WblankMode.v
theories/Proofs/AdaptDocx.v
theories/Proofs/ApertiumCmd.v
theories/Proofs/Base.v
theories/Proofs/BaumWelch.v
theories/Proofs/Caps.v
theories/Proofs/CapsAlign.v
theories/Proofs/CapsCompile.v
theories/Proofs/CapsDocs.v
theories/Proofs/CapsRun.v
theories/Proofs/CapsState.v
theories/Proofs/CapsValid.v
theories/Proofs/CapsWords.v
theories/Proofs/ChunkLoop.v
theories/Proofs/ChunkTokens.v
theories/Proofs/Cleanstream.v
theories/Proofs/Codec.v
theories/Proofs/Collection.v
theories/Proofs/ConstantManager.v
theories/Proofs/Corpus.v
theories/Proofs/DictScripts.v
theories/Proofs/EndianDouble.v
theories/Proofs/FeatureVec.v
theories/Proofs/FilterAmb.v
theories/Proofs/Format.v
theories/Proofs/HMM.v
theories/Proofs/Interchunk.v
theories/Proofs/InterchunkRun.v
theories/Proofs/LSW.v
theories/Proofs/Latex.v
theories/Proofs/LexChoice.v
theories/Proofs/Modes.v
theories/Proofs/MorphoStream.v
theories/Proofs/Mtx.v
theories/Proofs/MtxDet.v
theories/Proofs/MtxDoc.v
theories/Proofs/MtxParse.v
theories/Proofs/MtxVals.v
theories/Proofs/Patterns.v
theories/Proofs/Perceptron.v
theories/Proofs/PerceptronTrain.v
theories/Proofs/Postchunk.v
theories/Proofs/PostchunkMachine.v
theories/Proofs/PostchunkRules.v
theories/Proofs/PostchunkRun.v
theories/Proofs/Posttransfer.v
theories/Proofs/Pretransfer.v
theories/Proofs/Regex.v
theories/Proofs/Serialiser.v
theories/Proofs/Setvar.v
theories/Proofs/ShellUtils.v
theories/Proofs/Similar.v
theories/Proofs/Stream.v
theories/Proofs/TaggerData.v
theories/Proofs/TaggerDataCopy.v
theories/Proofs/TaggerMain.v
theories/Proofs/TaggerText.v
theories/Proofs/TaggerWord.v
theories/Proofs/TmxAlign.v
theories/Proofs/TmxDoc.v
theories/Proofs/TmxPrint.v
theories/Proofs/TmxRead.v
theories/Proofs/TmxSegment.v
theories/Proofs/TmxSplit.v
theories/Proofs/TmxTool.v
theories/Proofs/TmxUtf8.v
theories/Proofs/TransferBlanks.v
theories/Proofs/TransferData.v
theories/Proofs/TransferDefined.v
theories/Proofs/TransferLocal.v
theories/Proofs/TransferMult.v
theories/Proofs/TransferNoMlu.v
theories/Proofs/TransferPure.v
theories/Proofs/TransferReject.v
theories/Proofs/TransferRules.v
theories/Proofs/TransferRun.v
theories/Proofs/TransferSeq.v
theories/Proofs/TransferText.v
theories/Proofs/TransferUnit.v
theories/Proofs/TrxExact.v
theories/Proofs/TrxMachine.v
theories/Proofs/TrxMatch.v
theories/Proofs/TrxPatterns.v
theories/Proofs/TrxReject.v
theories/Proofs/TrxRules.v
theories/Proofs/Tsx.v
theories/Proofs/Unigram.v
theories/Proofs/WBlank.v
theories/Proofs/WblankAttach.v
theories/Proofs/WblankDetach.v
theories/Proofs/WblankMode.v
theories/Props/C01.v
theories/Props/C02.v
theories/Props/C03.v
theories/Props/C04.v
theories/Props/C05.v
theories/Props/C06.v
theories/Props/C07.v
theories/Props/C08.v
theories/Props/C09.v
theories/Props/C10.v
theories/Props/C11.v
theories/Props/C12.v
theories/Props/C13.v
theories/Props/C14.v
theories/Props/C15.v
theories/Props/C16.v
theories/Props/C17.v
theories/Props/C18.v
theories/Props/C19.v
theories/Props/C20.v
theories/Props/C21.v
theories/Props/C22.v
theories/Props/C23.v
theories/Props/C24.v
theories/Props/C25.v
theories/Props/C26.v
theories/Props/C27.v
theories/Props/C28.v
theories/Props/C29.v
theories/Props/C30.v
theories/Props/C31.v
theories/Props/C32.v
theories/Props/C33.v
theories/Props/C34.v
theories/Props/C35.v
theories/Props/C36.v
theories/Props/C37.v
theories/Props/C38.v
theories/Props/C39.v
theories/Props/C40.v
theories/Props/C41.v
theories/Props/C42.v
theories/Props/C43.v
theories/Props/C44.v
theories/Props/C45.v
theories/Props/C46.v
theories/Props/C47.v
theories/Props/C48.v
theories/Props/C49.v
theories/Props/C50.v
theories/Props/C51.v
theories/Props/C52.v
theories/Props/C53.v
theories/Props/C54.v
theories/Props/C55.v
theories/Props/C56.v
theories/Props/C57.v
theories/Props/C58.v
theories/Props/C59.v
theories/Props/C60.v
theories/Props/C61.v
theories/Props/C62.v
theories/Props/C63.v
theories/Props/C64.v
theories/Props/C65.v
theories/Props/C66.v
theories/Props/C67.v
theories/Props/C68.v
theories/Props/C69.v
theories/Props/C70.v
theories/Props/C71.v
theories/Props/C72.v
theories/Props/C73.v
theories/Props/C74.v
theories/Props/C75.v
theories/Spec/AdaptDocx.v
theories/Spec/ApertiumCmd.v
theories/Spec/BaumWelch.v
theories/Spec/Caps.v
theories/Spec/CapsRules.v
theories/Spec/ChunkLoop.v
theories/Spec/ChunkTokens.v
theories/Spec/Cleanstream.v
theories/Spec/Collection.v
theories/Spec/Corpus.v
theories/Spec/DictScripts.v
theories/Spec/FeatureVec.v
theories/Spec/FilterAmb.v
theories/Spec/Format.v
theories/Spec/HMM.v
theories/Spec/Interchunk.v
theories/Spec/LSW.v
theories/Spec/Latex.v
theories/Spec/LexChoice.v
theories/Spec/Modes.v
theories/Spec/MorphoStream.v
theories/Spec/Mtx.v
theories/Spec/Perceptron.v
theories/Spec/PerceptronTrain.v
theories/Spec/Postchunk.v
theories/Spec/PostchunkRules.v
theories/Spec/PostchunkRun.v
theories/Spec/Posttransfer.v
theories/Spec/Pretransfer.v
theories/Spec/Regex.v
theories/Spec/Setvar.v
theories/Spec/ShellUtils.v
theories/Spec/Stream.v
theories/Spec/TaggerMain.v
theories/Spec/TaggerText.v
theories/Spec/TaggerWord.v
theories/Spec/TmxAlign.v
theories/Spec/TmxBuild.v
theories/Spec/TransferBlanks.v
theories/Spec/TransferData.v
theories/Spec/TransferMult.v
theories/Spec/TransferReject.v
theories/Spec/TransferRules.v
theories/Spec/TransferRun.v
theories/Spec/TransferText.v
theories/Spec/TransferUnit.v
theories/Spec/TrxPatterns.v
theories/Spec/TrxReject.v
theories/Spec/Tsx.v
theories/Spec/Unigram.v
theories/Spec/WBlank.v
theories/Spec/WblankAttach.v
theories/Spec/WblankDetach.v
theories/Spec/WblankMode.v
