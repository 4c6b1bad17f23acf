-Q theories Verif
theories/Base.v
theories/ListAux.v
theories/MerkleModel.v
theories/MerkleSpec.v
theories/MerkleProofs.v
theories/MerklePrune.v
theories/MerkleAppend.v
theories/MerkleIter.v
theories/MerkleRange.v
theories/MerkleHist.v
theories/MerkleHistory.v
theories/MerkleApi.v
theories/MerkleProps.v
theories/MerkleFindings.v
theories/Alg.v
theories/Poly.v
theories/RSModel.v
theories/RSProofs.v
theories/ConvModel.v
theories/ConvProofs.v
theories/UtilProps.v
theories/CircuitModel.v
theories/CircuitProofs.v
theories/GadgetModel.v
theories/GadgetProofs.v
theories/RangeProofs.v
theories/BitProofs.v
theories/CmpProofs.v
theories/RangeLookup.v
theories/SatProofs.v
theories/SatGadget.v
theories/CircuitProps.v
theories/FinalModel.v
theories/FinalProofs.v
theories/PermProofs.v
theories/FinalizeProofs.v
theories/BuiltProofs.v
theories/FrozenProofs.v
theories/TableProofs.v
theories/GrandProd.v
theories/LookupProofs.v
theories/CosetProofs.v
theories/MergeProofs.v
theories/FinalProps.v
theories/VRing.v
theories/KzgModel.v
theories/KzgProofs.v
theories/KzgMulti.v
theories/KzgFft.v
theories/KzgFk.v
theories/PcsProps.v
theories/MlModel.v
theories/MlProofs.v
theories/MlBatch.v
theories/MlProps.v
theories/RescueModel.v
theories/FiniteField.v
theories/RescueProofs.v
theories/RescueConst.v
theories/RescueProps.v
theories/PoseidonModel.v
theories/PoseidonProofs.v
theories/PoseidonProps.v
theories/Group.v
theories/SigModel.v
theories/SigProps.v
theories/BlsModel.v
theories/BlsProps.v
theories/PlonkModel.v
theories/LagrangeProofs.v
theories/PlonkPoly.v
theories/PlonkHelpProps.v
theories/PlonkInst.v
theories/PlonkLin.v
theories/PlonkOpen.v
theories/PlonkCheck.v
theories/PlonkVanish.v
theories/PlonkRounds.v
theories/PlonkAccepted.v
theories/PlonkRun.v
theories/PlonkProps.v
theories/PlonkCases.v
theories/Proth.v
theories/TranscriptModel.v
theories/TranscriptProofs.v
theories/TranscriptProps.v
theories/TranscriptCases.v
theories/CodecProps.v
theories/EmulatedModel.v
theories/EmulatedProofs.v
theories/EmulatedMul.v
theories/EmulatedAdd.v
theories/IndepProofs.v
theories/EmulatedGate.v
theories/EmulatedExact.v
theories/EmulatedProps.v
theories/IndepProps.v
theories/Edwards.v
theories/EccModel.v
theories/EccProofs.v
theories/EccProps.v
theories/TableSpec.v
theories/EccMsm.v
theories/MsmProps.v
theories/ModArithModel.v
theories/ModArithProofs.v
theories/TruncProofs.v
theories/ModArithProps.v
theories/RescueGadgetModel.v
theories/RescueGadgetProofs.v
theories/RescueGadgetProps.v
theories/MerkleGadgetModel.v
theories/MerkleGadgetProofs.v
theories/MerkleGadgetTree.v
theories/MerkleGadgetProps.v
theories/SigGadgetModel.v
theories/SigGadgetProofs.v
theories/ElGamalGadgetProofs.v
theories/SigGadgetProps.v
theories/Pocklington.v
theories/Primes.v
theories/TranscriptGadgetModel.v
theories/TranscriptGadgetProofs.v
theories/TranscriptGadgetProps.v
theories/AeadModel.v
theories/AeadProps.v
theories/PlonkVerifierModel.v
theories/PlonkVerifierOps.v
theories/PlonkVerifierEval.v
theories/PlonkVerifierProps.v
theories/PlonkVerifierTranscript.v
theories/PlonkVerifierWhole.v
theories/PlonkVerifierFinal.v
theories/PlonkVerifierPoints.v
theories/PlonkVerifierCircuit.v
theories/GlvModel.v
theories/GlvArith.v
theories/GlvProofs.v
theories/GlvProps.v
theories/PlonkKeysProps.v
theories/NonNativeRescueModel.v
theories/NonNativeRescueProofs.v
theories/NonNativeRescueProps.v
theories/SwTeProps.v
theories/EmulatedEcc.v
theories/EmulatedEccProps.v
theories/PublicProps.v
