-Q theories Verif
theories/Base.v
theories/BaseFacts.v
theories/SignedModel.v
theories/SignedSpec.v
theories/SignedProofs.v
theories/EncodingModel.v
theories/EncodingProofs.v
theories/ConversionModel.v
theories/ConversionProofs.v
theories/IntLemmas.v
theories/PropsInt.v
theories/AlgBase.v
theories/AlgFacts.v
theories/ShamirModel.v
theories/ShamirSpec.v
theories/ShamirProofs.v
theories/ThresholdModel.v
theories/ThresholdSpec.v
theories/ThresholdProofs.v
theories/ShareLemmas.v
theories/PropsShare.v
theories/ModArith.v
theories/FermatZ.v
theories/RsaFacts.v
theories/PaillierModel.v
theories/PaillierSpec.v
theories/PaillierProofs.v
theories/RnsProofs.v
theories/RpProofs.v
theories/PaillierLemmas.v
theories/PropsPaillier.v
theories/ZkBase.v
theories/ZkModel.v
theories/ZkSpec.v
theories/ZkFacts.v
theories/ZkExtract.v
theories/EncElgProofs.v
theories/AffGProofs.v
theories/AffGStarProofs.v
theories/DecProofs.v
theories/PrmProofs.v
theories/ModProofs.v
theories/FacProofs.v
theories/ElogModel.v
theories/ElogProofs.v
theories/SchModel.v
theories/SchProofs.v
theories/ZkToy.v
theories/ZkLemmas.v
theories/ZkTranscripts.v
theories/ZkRefute.v
theories/PropsZk1.v
theories/PropsZk2.v
theories/ParamSets.v
theories/ParamLemmas.v
theories/PropsParams.v
theories/PropsSch.v
theories/ProtoBase.v
theories/ProtoSpec.v
theories/ProtoFacts.v
theories/KeyInitModel.v
theories/KeyInitProofs.v
theories/PropsKeyInit.v
theories/ReshareModel.v
theories/ReshareProofs.v
theories/ReshareWitness.v
theories/PropsReshare.v
theories/AuxGenModel.v
theories/AuxGenSpec.v
theories/AuxGenProofs.v
theories/AuxGenToy.v
theories/AuxGenWitness.v
theories/PropsAuxGen.v
theories/AuxHonestSpec.v
theories/AuxHonestProofs.v
theories/AuxHonestToy.v
theories/AuxGenHonest.v
theories/KeyRefreshModel.v
theories/KeyRefreshSpec.v
theories/KeyRefreshProofs.v
theories/KeyRefreshHonest.v
theories/KeyRefreshToy.v
theories/KeyRefreshWitness.v
theories/PropsKeyRefresh.v
theories/AuxHonestCase.v
theories/PropsAuxHonest.v
theories/SigningModel.v
theories/SigningSpec.v
theories/SigningAlgebra.v
theories/SigningProofs.v
theories/SigningShares.v
theories/SigningMain.v
theories/SigningToy.v
theories/SigningWitness.v
theories/PropsSigning.v
theories/EntryModel.v
theories/EntryProofs.v
theories/EntryWitness.v
theories/PropsEntry.v
theories/BindSpec.v
theories/BindZk.v
theories/BindProofs.v
theories/PropsTranscripts.v
theories/PropsBinding.v
theories/MtaSpec.v
theories/MtaProofs.v
theories/PropsMta.v
theories/SigningSums.v
theories/SigningHonestSpec.v
theories/SigningHonest.v
theories/SigningHonestMain.v
theories/SigningHonestWitness.v
theories/PropsSigningHonest.v
theories/SigningEvidenceSpec.v
theories/SigningEvidence.v
theories/SigningEvidenceGaps.v
theories/SigningEvidenceToy.v
theories/SigningEvidenceWitness.v
theories/PropsSigningEvidence.v
theories/PartSpec.v
theories/PartProofs.v
theories/PropsParts.v
theories/PointModel.v
theories/PointSpec.v
theories/PointProofs.v
theories/PointToy.v
theories/CrashModel.v
theories/CrashProofs.v
theories/PropsPoint.v
theories/PropsCrash.v
theories/AgreeSpec.v
theories/AgreeProofs.v
theories/AgreeProofs2.v
theories/AgreeToy.v
theories/PropsAgree.v
theories/SigningBranchSpec.v
theories/SigningBranch.v
theories/SigningBranchToy.v
theories/PropsBranch.v
theories/DecForgeSpec.v
theories/DecForge.v
theories/PropsForge.v
theories/SigningErrorSpec.v
theories/ErrorProofs.v
theories/ErrorView.v
theories/SigningError.v
theories/SigningErrorMain.v
theories/SigningErrorToy.v
theories/ErrorNamesToy.v
theories/PropsError.v
theories/HideProofs.v
theories/PropsHide.v
theories/PropsHideSch.v
theories/HideSpec.v
theories/HideInt.v
theories/PropsHideInt.v
theories/LifeSpec.v
theories/LifeProofs.v
theories/LifeToy.v
theories/CentralModel.v
theories/CentralProofs.v
theories/PropsLife.v
theories/FreshSpec.v
theories/FreshProofs.v
theories/PropsFresh.v
theories/HideRpSpec.v
theories/HideRp.v
theories/HideFac.v
theories/PropsHideRp.v
theories/HideModSpec.v
theories/HideMod.v
theories/PropsHideMod.v
theories/HideMtaSpec.v
theories/HideMta.v
theories/PropsHideMta.v
theories/CommitSpec.v
theories/CommitProofs.v
theories/CommitToy.v
theories/PropsCommit.v
theories/KeygenModel.v
theories/KeygenSpec.v
theories/KeygenProofs.v
theories/PropsKeygen.v
theories/ModSoundSpec.v
theories/ModSoundFacts.v
theories/ModSoundProofs.v
theories/ModSoundCount.v
theories/ModSoundLemmas.v
theories/PropsModSound.v
theories/NonceSpec.v
theories/NonceProofs.v
theories/NonceToy.v
theories/PropsNonce.v
theories/PresignSpec.v
theories/PresignProofs.v
theories/PresignToy.v
theories/PropsPresign.v
theories/ModPeerSpec.v
theories/ModPeerProofs.v
theories/ModPeerToy.v
theories/PropsModPeer.v
theories/DecEvidence.v
theories/PropsDecEvidence.v
theories/BipPath.v
theories/PropsBipPath.v
