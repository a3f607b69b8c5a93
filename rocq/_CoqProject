-Q theories Verif
theories/Base.v
theories/BnModel.v
theories/BnProofs.v
theories/BnProps.v
theories/Alg.v
theories/Poly.v
theories/Fp.v
theories/NumTheory.v
theories/ShamirModel.v
theories/ShamirProofs.v
theories/ShamirProps.v
theories/SharingModel.v
theories/SharingProofs.v
theories/SharingInst.v
theories/SharingProps.v
theories/Lagrange.v
theories/HelpersModel.v
theories/HelpersSpec.v
theories/HelpersProofs.v
theories/HelpersProps.v
theories/UMod.v
theories/Fermat.v
theories/StrMap.v
theories/ClModel.v
theories/ClSpec.v
theories/ClLib.v
theories/ClKey.v
theories/ClIssue.v
theories/ClBlind.v
theories/ClSign.v
theories/ClPresent.v
theories/ClPred.v
theories/ClRevModel.v
theories/ClProofModel.v
theories/ClPresSpec.v
theories/ClPrimary.v
theories/ClPresentation.v
theories/ClVerify.v
theories/ClForge.v
theories/ClMore.v
theories/ClProps.v
theories/ClRevSpec.v
theories/ClNonRevoc.v
theories/ClRevProofs.v
theories/ClRevCred.v
theories/CurveInst.v
theories/ClRevMore.v
theories/ClRevProps.v
theories/BuilderModel.v
theories/BuilderProps.v
theories/BlsModel.v
theories/BlsProps.v
theories/Bls2Model.v
theories/Bls2Props.v
theories/Lin.v
theories/BbsModel.v
theories/BbsLib.v
theories/BbsProps.v
theories/BbsPokProps.v
theories/BbsSoundProps.v
theories/BbsHideProps.v
theories/BbsCodecModel.v
theories/BbsCodecProps.v
theories/BbsMoreProps.v
theories/BbsExProps.v
theories/ClProofProps.v
theories/PsModel.v
theories/PsLib.v
theories/PsProps.v
theories/PsPokProps.v
theories/PsExProps.v
theories/SmtModel.v
theories/SmtLib.v
theories/SmtProps.v
theories/R1csModel.v
theories/R1csSpec.v
theories/R1csLib.v
theories/GadgetModel.v
theories/GadgetApiModel.v
theories/GadgetLib.v
theories/GadgetSim.v
theories/GadgetApiLib.v
theories/GadgetProps.v
theories/GadgetApiProps.v
theories/SetAltProps.v
theories/PoseidonLib.v
theories/PoseidonProps.v
theories/PoseidonPermProps.v
theories/MerkleSpec.v
theories/MerkleLib.v
theories/MerkleProps.v
theories/ClCtxProps.v
theories/ClBuildProps.v
theories/TranscriptModel.v
theories/IppModel.v
theories/IppSpec.v
theories/IppLib.v
theories/IppProps.v
theories/IppExProps.v
theories/IppSoundSpec.v
theories/IppSoundLib.v
theories/IppForkSpec.v
theories/IppForkProps.v
theories/IppForkExProps.v
theories/R1csProofModel.v
theories/R1csProofLib.v
theories/R1csProofMaster.v
theories/R1csProofSpec.v
theories/R1csProofComplete.v
theories/R1csProofProps.v
theories/R1csCheckProps.v
theories/R1csSoundSpec.v
theories/InterpLib.v
theories/R1csProofExProps.v
theories/GrothModel.v
theories/DelegModel.v
theories/GrothSpec.v
theories/GrothLib.v
theories/GrothProps.v
theories/DelegLib.v
theories/DelegProps.v
theories/DelegChainProps.v
theories/DelegBatchProps.v
theories/DelegForgeProps.v
theories/GrothExProps.v
theories/TokenModel.v
theories/TokenSpec.v
theories/TokenLib.v
theories/TokenRecon.v
theories/TokenRun.v
theories/TokenSoundProps.v
theories/TokenProps.v
theories/TokenHideProps.v
theories/TokenFindProps.v
theories/TokenExProps.v
theories/VerEncModel.v
theories/VerEncLib.v
theories/VerEncProps.v
theories/VerEncProofProps.v
theories/VerEncExProps.v
theories/BindProps.v
theories/BindExProps.v
theories/SymmModel.v
theories/SymmLib.v
theories/SymmProps.v
theories/SymmAuthProps.v
theories/SymmExProps.v
theories/SigModel.v
theories/SigLib.v
theories/SigProps.v
theories/SigEcdsaProps.v
theories/SigExProps.v
theories/IppFloatProps.v
theories/R1csSoundLib.v
theories/R1csSoundProps.v
theories/R1csSoundExProps.v
theories/R1csKnowSpec.v
theories/R1csKnowProps.v
theories/GadgetKnowLib.v
theories/GadgetKnowProps.v
theories/GadgetKnowExProps.v
theories/FfiModel.v
theories/FfiSpec.v
theories/FfiLib.v
theories/FfiProps.v
theories/FfiExProps.v
theories/BnOsslModel.v
theories/BnOsslLib.v
theories/BnOsslProps.v
theories/ClOsslModel.v
theories/ClOsslLib.v
theories/ClOsslCl.v
theories/ClOsslSpec.v
theories/ClOsslPres.v
theories/ClOsslProps.v
theories/ClLinkProps.v
theories/ClHideSpec.v
theories/ClHideLib.v
theories/ClHideProps.v
theories/ClSoundSpec.v
theories/ClSoundLib.v
theories/ClSoundProps.v
theories/ClSoundNeSpec.v
theories/ClSoundNeLib.v
theories/ClSoundNeProps.v
theories/ClSwapProps.v
theories/Proth.v
theories/GadgetCaseProps.v
theories/ClCaseProps.v
theories/BbsBindProps.v
theories/PsBindProps.v
theories/ClKcpProps.v
