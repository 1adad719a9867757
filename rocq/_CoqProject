-Q theories Verif
theories/Base.v
theories/Utf8.v
theories/Types.v
theories/BinModel.v
theories/BinRead.v
theories/SpecBin.v
theories/BinRoundtrip.v
theories/BinLocal.v
theories/TyAll.v
theories/BinValid.v
theories/BinFuel.v
theories/BinPanic.v
theories/BinMore.v
theories/PropsBin.v
theories/Text.v
theories/TextModel.v
theories/TextSim.v
theories/TextToks.v
theories/TextPos.v
theories/TextLex.v
theories/SpecText.v
theories/SpecGram.v
theories/TextRead.v
theories/TextRound.v
theories/TextGram.v
theories/TextSpace.v
theories/TextMain.v
theories/TextFuel.v
theories/TextLocal.v
theories/TextRun.v
theories/SpecObj.v
theories/TextEmbed.v
theories/TextObj.v
theories/SpecList.v
theories/TextList.v
theories/TextEx.v
theories/SpecTerm.v
theories/TextTerm.v
theories/TextGood.v
theories/PropsText.v
theories/PropsObj.v
theories/PropsList.v
theories/PropsTok.v
theories/PropsTerm.v
theories/SpecRfc.v
theories/PropsRfc.v
theories/TomlModel.v
theories/SpecToml.v
theories/TomlRead.v
theories/TomlDoc.v
theories/TomlTerm.v
theories/PropsToml.v
theories/SpecPos.v
theories/PropsPos.v
theories/SpecValid.v
theories/TextValid.v
theories/PropsValid.v
theories/SpecStable.v
theories/TextStable.v
theories/PropsStable.v
theories/SpecDrop.v
theories/ArrayDrop.v
theories/ArrayDropProofs.v
theories/PropsDrop.v
theories/DeriveModel.v
theories/SpecDerive.v
theories/DeriveProofs.v
theories/PropsDerive.v
theories/GenModel.v
theories/SpecGen.v
theories/Gen.v
theories/PropsGen.v
theories/SpecGrow.v
theories/Grow.v
theories/PropsGrow.v
theories/SpecSize.v
theories/PropsSize.v
theories/ErrorModel.v
theories/SpecErr.v
theories/PropsErr.v
theories/SpecDoc.v
theories/Doc.v
theories/PropsDoc.v
theories/SpecShow.v
theories/Show.v
theories/ShowAll.v
theories/Carry.v
theories/PropsShow.v
theories/SpecRon.v
theories/RonDoc.v
theories/PropsRon.v
theories/SpecRonShow.v
theories/RonShow.v
theories/RonShowAll.v
theories/RonCarry.v
theories/PropsRonShow.v
theories/SpecTok.v
theories/TokLex.v
theories/SpecAcc.v
theories/AccBase.v
theories/AccDoc.v
theories/AccDe.v
theories/PropsAcc.v
theories/SpecRonAcc.v
theories/RonAccDoc.v
theories/RonAccDe.v
theories/PropsRonAcc.v
theories/GenJsonModel.v
theories/GenRonModel.v
theories/SpecGenText.v
theories/GenText.v
theories/GenPrint.v
theories/GenTextSer.v
theories/GenTextDe.v
theories/PropsGenText.v
theories/SpecMem.v
theories/BinMem.v
theories/BinMemAll.v
theories/TextMem.v
theories/PropsMem.v
theories/SpecDepth.v
theories/Depth.v
theories/PropsDepth.v
theories/SpecTomlAcc.v
theories/TomlAcc.v
theories/PropsTomlAcc.v
theories/SpecTomlErr.v
theories/TomlErr.v
theories/PropsTomlErr.v
theories/TomlMem.v
theories/SpecRoute.v
theories/Route.v
theories/PropsRoute.v
theories/SpecProg.v
theories/Prog.v
theories/PropsProg.v
theories/SpecCrash.v
theories/CrashBase.v
theories/Crash.v
theories/CrashDe.v
theories/CrashAll.v
theories/CrashTy.v
theories/PropsCrash.v
theories/SpecBinAcc.v
theories/BinAcc.v
theories/PropsBinAcc.v
theories/SpecSay.v
theories/Say.v
theories/PropsSay.v
theories/Work.v
theories/PropsWork.v
theories/SpecTomlJoin.v
theories/PropsTomlJoin.v
theories/SpecLine.v
theories/PropsLine.v
theories/SpecNewer.v
theories/Newer.v
theories/PropsNewer.v
theories/RonNewer.v
theories/PropsRonNewer.v
theories/SpecLayout.v
theories/Layout.v
theories/PropsLayout.v
theories/WorkBin.v
theories/SpecWorkBin.v
theories/WorkBinCost.v
theories/PropsWorkBin.v
theories/WorkToml.v
theories/PropsWorkToml.v
