-Q theories Verif
theories/Accum/Model.v
theories/Accum/Proofs.v
theories/Accum/Props.v
theories/Accum/PropsBind.v
theories/Bbs/Model.v
theories/Bbs/PokProofs.v
theories/Bbs/Proofs.v
theories/Bbs/Props.v
theories/Bls/Model.v
theories/Bls/Props.v
theories/Bls/PropsAgg.v
theories/Bulletproof/IppProofs.v
theories/Bulletproof/Model.v
theories/Bulletproof/Props.v
theories/Bulletproof/RangeProofs.v
theories/Core/HashModel.v
theories/Core/HashProofs.v
theories/Core/ModModel.v
theories/Core/ModProofs.v
theories/Core/PropsHash.v
theories/Core/PropsMod.v
theories/Curves/AddModel.v
theories/Curves/AddProofs.v
theories/Curves/AddSpec.v
theories/Curves/EcPointModel.v
theories/Curves/EcScalarModel.v
theories/Curves/MsmModel.v
theories/Curves/MsmProofs.v
theories/Curves/PropsAdd.v
theories/Curves/PropsEcPoint.v
theories/Curves/PropsEcScalar.v
theories/Curves/PropsMsm.v
theories/Curves/PropsSswu.v
theories/Curves/SswuConst.v
theories/Curves/SswuIso.v
theories/Curves/SswuModel.v
theories/Curves/SswuParams.v
theories/Curves/SswuProofs.v
theories/Dkls/DkgModel.v
theories/Dkls/MulModel.v
theories/Dkls/MulProofs.v
theories/Dkls/PropsDkg.v
theories/Dkls/PropsMul.v
theories/Dkls/PropsSign.v
theories/Dkls/SignModel.v
theories/Dkls/SignProofs.v
theories/Drbg/Model.v
theories/Drbg/Props.v
theories/Frost/DkgModel.v
theories/Frost/DkgProofs.v
theories/Frost/PropsDkg.v
theories/Frost/PropsSign.v
theories/Frost/SignModel.v
theories/Frost/SignProofs.v
theories/Gennaro/Covers.v
theories/Gennaro/Model.v
theories/Gennaro/Proofs.v
theories/Gennaro/Props.v
theories/Gennaro/PropsTwo.v
theories/Gennaro/Spec.v
theories/Gennaro/TwoModel.v
theories/Gg20/DkgModel.v
theories/Gg20/DkgProofs.v
theories/Gg20/PropsBind.v
theories/Gg20/PropsDkg.v
theories/Gg20/PropsDkg2.v
theories/Gg20/PropsPrepare.v
theories/Gg20/PropsRounds.v
theories/Gg20/PropsRun.v
theories/Gg20/PropsSign.v
theories/Gg20/PropsZk.v
theories/Gg20/SignModel.v
theories/Gg20/SignProofs.v
theories/Gg20/ZkModel.v
theories/Gg20/ZkProofs.v
theories/Lib/Bytes.v
theories/Lib/FieldTac.v
theories/Lib/Inst.v
theories/Lib/Lagrange.v
theories/Lib/LmodTac.v
theories/Lib/Pairing.v
theories/Lib/Res.v
theories/Limbs/ApiProofs.v
theories/Limbs/BlsfqCode.v
theories/Limbs/BlsfqProofs.v
theories/Limbs/ChainCode.v
theories/Limbs/Checker.v
theories/Limbs/CmpProofs.v
theories/Limbs/Elim.v
theories/Limbs/Fermat.v
theories/Limbs/FieldInst.v
theories/Limbs/FieldModel.v
theories/Limbs/FieldProofs.v
theories/Limbs/K256fpCode.v
theories/Limbs/K256fqCode.v
theories/Limbs/Model.v
theories/Limbs/Ops.v
theories/Limbs/P256fpCode.v
theories/Limbs/P256fqCode.v
theories/Limbs/PallasProofs.v
theories/Limbs/PastafpCode.v
theories/Limbs/PastafqCode.v
theories/Limbs/PointModel.v
theories/Limbs/PointProofs.v
theories/Limbs/PropsCodec.v
theories/Limbs/PropsField.v
theories/Limbs/PropsPoint.v
theories/Limbs/PropsText.v
theories/Limbs/RootProofs.v
theories/Limbs/Spec.v
theories/Limbs/Sub.v
theories/Limbs/TextModel.v
theories/Limbs/TextProofs.v
theories/Mina/BitBytes.v
theories/Mina/BitModel.v
theories/Mina/BitProofs.v
theories/Mina/Model.v
theories/Mina/Proofs.v
theories/Mina/Props.v
theories/Mina/PropsBits.v
theories/Mina/PropsCodec.v
theories/Mina/PropsTxn.v
theories/Nem/Model.v
theories/Nem/Props.v
theories/OT/GfModel.v
theories/OT/GfProofs.v
theories/OT/KosModel.v
theories/OT/KosProofs.v
theories/OT/PropsGf.v
theories/OT/PropsKos.v
theories/OT/PropsSimplest.v
theories/OT/SimplestModel.v
theories/Paillier/Model.v
theories/Paillier/Proofs.v
theories/Paillier/Props.v
theories/Schnorr/Model.v
theories/Schnorr/Props.v
theories/Sharing/Model.v
theories/Sharing/Proofs.v
theories/Sharing/Props.v
theories/Sharing/Spec.v
theories/SharingV1/BlsModel.v
theories/SharingV1/EdModel.v
theories/SharingV1/InitModel.v
theories/SharingV1/Model.v
theories/SharingV1/Proofs.v
theories/SharingV1/Props.v
theories/SharingV1/PropsBls.v
theories/SharingV1/PropsEd.v
theories/SharingV1/PropsInit.v
theories/Ted/Model.v
theories/Ted/Proofs.v
theories/Ted/Props.v
theories/Tower/CodecInst.v
theories/Tower/CodecModel.v
theories/Tower/CodecProofs.v
theories/Tower/FinalProofs.v
theories/Tower/FrobProofs.v
theories/Tower/GtProofs.v
theories/Tower/Literals.v
theories/Tower/PairModel.v
theories/Tower/PairProofs.v
theories/Tower/PropsCodec.v
theories/Tower/PropsGt.v
theories/Tower/PropsPair.v
theories/Tower/PropsSswuG2.v
theories/Tower/PropsTower.v
theories/Tower/SqrtProofs.v
theories/Tower/SswuG2Model.v
theories/Tower/SswuG2Proofs.v
theories/Tower/TowerModel.v
theories/Tower/TowerProofs.v
theories/Verenc/CsModel.v
theories/Verenc/CsProofs.v
theories/Verenc/ElgModel.v
theories/Verenc/PropsCs.v
theories/Verenc/PropsCsBind.v
theories/Verenc/PropsElg.v
