-Q theories Verif
theories/Prelude.v
theories/BTreeMap.v
theories/Errors.v
theories/DisplayModel.v
theories/Engine.v
theories/PolyModel.v
theories/SigmaModel.v
theories/LibModel.v
theories/PvssModel.v
theories/Spec.v
theories/PreludeProofs.v
theories/AlgebraProofs.v
theories/PolyProofs.v
theories/Instance.v
theories/PropsPoly.v
theories/PropsSigma.v
theories/PvssProofs.v
theories/PropsShare.v
theories/AggProofs.v
theories/PropsAgg.v
theories/HistProofs.v
theories/PropsHist.v
theories/PropsEnd.v
theories/PropsLimits.v
theories/CodecModel.v
theories/CodecSpec.v
theories/CodecProofs.v
theories/PropsCodec.v
theories/Base64Model.v
theories/PropsText.v
theories/HashModel.v
theories/PropsHash.v
theories/PropsAttack.v
theories/PropsNet.v
theories/PropsVerdict.v
theories/SetupModel.v
theories/PropsSetup.v
theories/PropsForge.v
theories/PropsWire.v
theories/PropsSplit.v
theories/PropsExact.v
theories/PropsUniform.v
theories/PropsPrint.v
theories/PropsMix.v
theories/PropsParams.v
theories/PropsBuild.v
theories/TestModel.v
theories/PropsTests.v
theories/PropsTests2.v
theories/PropsQuorum.v
theories/PropsDisplay.v
theories/PropsReceive.v
theories/PropsSlots.v
theories/PropsHide.v
theories/PropsPublic.v
theories/PropsAuth.v
theories/PropsSim.v
theories/PropsLength.v
theories/PropsFree.v
theories/PropsOrder.v
theories/PropsKeys.v
theories/KeyModel.v
theories/PropsOrd.v
theories/PropsLinear.v
theories/PropsSharp.v
theories/PropsSharpText.v
theories/PropsSession.v
theories/PropsSharpRace.v
theories/PropsFrame.v
theories/Forking.v
theories/PropsForking.v
theories/PropsCma.v
theories/StdHashModel.v
theories/PropsStdHash.v
theories/Pratt.v
theories/PropsCurve.v
theories/PropsUnbiased.v
theories/Weights.v
theories/PropsOverride.v
theories/PropsWork.v
theories/PropsAdaptive.v
theories/PropsSmall.v
theories/PropsCost.v
theories/PropsRuin.v
theories/PropsReuse.v
theories/PropsCoins.v
theories/PropsCoalition.v
theories/EdModel.v
theories/EdProofs.v
theories/EdInstance.v
theories/PropsEd.v
theories/PropsEdBatch.v
theories/PropsEdUnique.v
theories/PropsEdDefault.v
theories/PropsSybil.v
theories/PropsEdSession.v
theories/PropsEdOdds.v
