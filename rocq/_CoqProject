-Q theories Verif
theories/FieldTac.v
theories/Util.v
theories/M_FFT.v
theories/S_FFT.v
theories/L_FFT.v
theories/P_FFT.v
theories/M_Multiexp.v
theories/L_Multiexp.v
theories/P_Multiexp.v
theories/M_Poly.v
theories/L_Poly.v
theories/P_Poly.v
theories/M_Domain.v
theories/L_Domain.v
theories/P_Domain.v
theories/M_Assigned.v
theories/P_Assigned.v
theories/M_Evaluator.v
theories/S_Evaluator.v
theories/L_Evaluator.v
theories/P_Evaluator.v
theories/ModTac.v
theories/M_Env.v
theories/M_Transcript.v
theories/M_Commit.v
theories/S_Commit.v
theories/L_Commit.v
theories/Ex_Field.v
theories/Ex_Env.v
theories/P_Commit.v
theories/P_Transcript.v
theories/L_Transcript.v
theories/L_WP.v
theories/M_IPA.v
theories/L_IPA.v
theories/P_IPA.v
theories/M_Multiopen.v
theories/L_Multiopen.v
theories/L_Mono.v
theories/L_MoProof.v
theories/P_Multiopen.v
theories/M_Circuit.v
theories/S_Circuit.v
theories/P_Circuit.v
theories/M_Selectors.v
theories/S_Selectors.v
theories/L_Selectors.v
theories/P_Selectors.v
theories/M_Copy.v
theories/L_Copy.v
theories/P_Copy.v
theories/M_Keys.v
theories/M_Permutation.v
theories/S_Count.v
theories/L_PermMath.v
theories/L_Sigma.v
theories/P_Sigma.v
theories/L_Chunks.v
theories/S_Permutation.v
theories/L_PermRows.v
theories/L_WPR.v
theories/L_PermCommit.v
theories/P_Permutation.v
theories/M_Lookup.v
theories/L_Permute.v
theories/S_Plonk.v
theories/L_Expr.v
theories/L_LookupMath.v
theories/L_LookupRows.v
theories/P_Lookup.v
theories/M_Vanishing.v
theories/P_Vanishing.v
theories/M_Plonk.v
theories/M_Value.v
theories/P_Value.v
theories/M_Region.v
theories/S_Region.v
theories/M_Utilities.v
theories/S_Digits.v
theories/P_Bits.v
theories/L_Region.v
theories/P_RangeCheck.v
theories/P_CondSwap.v
theories/M_Batch.v
theories/L_Valid.v
theories/M_Assign.v
theories/M_Keygen.v
theories/Ex_Plonk.v
theories/P_Batch.v
theories/M_Poseidon.v
theories/S_Poseidon.v
theories/P_Poseidon.v
theories/P_MDS.v
theories/M_Layout.v
theories/S_Layout.v
theories/L_Gadget.v
theories/Ex_Layout.v
theories/M_Pow5.v
theories/P_Pow5.v
theories/S_Curve.v
theories/M_Ecc.v
theories/L_Curve.v
theories/P_Ecc.v
theories/M_EccMul.v
theories/L_Group.v
theories/L_Multiples.v
theories/L_EccMul.v
theories/P_EccMul.v
theories/P_EccMulSound.v
theories/M_Sinsemilla.v
theories/S_Sinsemilla.v
theories/L_Sinsemilla.v
theories/P_Sinsemilla.v
theories/P_SinsemillaComplete.v
theories/L_EccMulComplete.v
theories/P_EccMulComplete.v
theories/M_EccFixed.v
theories/P_EccFixed.v
theories/Ex_Field163.v
theories/Ex_Field181.v
theories/P_EccFixedComplete.v
theories/M_EccShort.v
theories/P_EccShort.v
theories/P_EccShortComplete.v
theories/Ex_EccFixed.v
theories/Ex_EccShort.v
theories/M_SinsCommit.v
theories/P_SinsCommit.v
theories/Ex_SinsCommit.v
theories/M_EccBase.v
theories/P_EccBase.v
theories/Ex_Field271.v
theories/Ex_EccBase.v
theories/Ex_Sinsemilla.v
theories/M_Merkle.v
theories/S_Merkle.v
theories/P_Merkle.v
theories/P_MerkleComplete.v
theories/Ex_Merkle.v
theories/M_Floor.v
theories/S_Floor.v
theories/L_Floor.v
theories/L_V1.v
theories/P_Floor.v
theories/M_Mock.v
theories/S_Assign.v
theories/L_Assign.v
theories/P_Assign.v
theories/P_Table.v
theories/S_Mock.v
theories/L_Mock.v
theories/P_Mock.v
theories/L_MockRun.v
theories/P_Prove.v
theories/Ex_Mock.v
theories/L_Wpe.v
theories/L_PlonkEval.v
theories/L_PlonkLeaves.v
theories/L_PlonkRun.v
theories/L_PlonkQuot.v
theories/L_PlonkDeg.v
theories/L_PlonkKey.v
theories/L_PlonkStages.v
theories/L_PlonkLk.v
theories/L_PlonkPerm.v
theories/L_PlonkCirc.v
theories/L_PlonkQ.v
theories/L_PlonkAfter.v
theories/L_PlonkMain.v
theories/L_PlonkKeygen.v
theories/P_Keygen.v
theories/P_Plonk.v
theories/L_PlonkTrace.v
theories/L_PlonkSound.v
theories/P_Sound.v
theories/P_Order.v
theories/Ex_Prove.v
