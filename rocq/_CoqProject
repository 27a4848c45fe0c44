-Q theories Verif
theories/RingTac.v
theories/Base.v
theories/BaseTheory.v
theories/Spec.v
theories/TfTheory.v
theories/KronTheory.v
theories/ModelState.v
theories/Denote.v
theories/StateTheory.v
theories/StateOps.v
theories/StateMul.v
theories/StateProps.v
theories/PropsState.v
theories/ModelPoly.v
theories/PolyTheory.v
theories/PolyOps.v
theories/RankTheory.v
theories/GcdTheory.v
theories/AnnTheory.v
theories/LcmTheory.v
theories/PropsPoly.v
theories/ModelTransfer.v
theories/DenoteT.v
theories/TransferTheory.v
theories/TransferOps.v
theories/TransferProps.v
theories/PropsTransfer.v
theories/ModelObject.v
theories/ObjectTheory.v
theories/PropsObject.v
theories/ModelAux.v
theories/AuxTheory.v
theories/PropsAux.v
theories/ModelFeedback.v
theories/FeedbackTheory.v
theories/PropsFeedback.v
theories/ModelDiscrete.v
theories/DenoteD.v
theories/DiscreteTheory.v
theories/PropsDiscrete.v
theories/ModelSim.v
theories/SpecSim.v
theories/SimTheory.v
theories/PropsSim.v
theories/ModelKalman.v
theories/KalmanTheory.v
theories/PropsKalman.v
theories/ModelCtrl.v
theories/SpecCtrl.v
theories/CtrlTheory.v
theories/PropsCtrl.v
theories/ConvertTheory.v
theories/ConvertOps.v
theories/ConvertMimo.v
theories/ConvertState.v
theories/PropsConvert.v
theories/SpecConvert.v
theories/ModelConvert.v
theories/ConvertTf.v
theories/PropsStt.v
theories/ModelFeedbackT.v
theories/SpecFeedbackT.v
theories/FeedbackTTheory.v
theories/PropsFeedbackT.v
theories/ModelFreq.v
theories/SpecFreq.v
theories/FreqTheory.v
theories/PropsFreq.v
theories/ModelDc.v
theories/SpecDc.v
theories/PropsDc.v
theories/ModelPair.v
theories/PairTheory.v
theories/PropsPair.v
theories/ModelRandom.v
theories/SpecRandom.v
theories/PropsRandom.v
theories/ModelLyap.v
theories/SpecLyap.v
theories/LyapKernel.v
theories/LyapMini.v
theories/LyapTheory.v
theories/LyapBlocks.v
theories/PropsLyap.v
theories/ModelNorm.v
theories/SpecNorm.v
theories/NormTheory.v
theories/PropsNorm.v
theories/NormInf.v
theories/PropsNormInf.v
theories/PropsNormEx.v
theories/PdTheory.v
theories/NormMimo.v
theories/PropsNormMimo.v
theories/PropsNormMimoEx.v
theories/PropsNormDisc.v
theories/ModelMin.v
theories/SpecMin.v
theories/StairTheory.v
theories/PropsStair.v
theories/MinTheory.v
theories/PropsMin.v
theories/PropsMinEx.v
theories/Cplx.v
theories/ModelMinT.v
theories/SpecMinT.v
theories/MinTTheory.v
theories/PropsMinT.v
theories/ModelCi.v
theories/SpecCi.v
theories/CiTheory.v
theories/PropsCi.v
theories/SpecReach.v
theories/ReachTheory.v
theories/PropsReach.v
theories/ModelDcS.v
theories/SpecDcS.v
theories/DcSTheory.v
theories/PropsDcS.v
theories/PropsDcSEx.v
theories/ModelTz.v
theories/SpecTz.v
theories/TzTheory.v
theories/TzFinal.v
theories/PropsTz.v
theories/PropsTzS.v
theories/PropsTzEx.v
theories/ModelHorizon.v
theories/SpecHorizon.v
theories/HorizonTheory.v
theories/PropsHorizon.v
theories/ModelGrid.v
theories/SpecGrid.v
theories/GridTheory.v
theories/PropsGrid.v
theories/ModelPoleProps.v
theories/SpecPoleProps.v
theories/PropsPoleProps.v
theories/ModelPlots.v
theories/SpecPlots.v
theories/PlotsTheory.v
theories/PropsPlots.v
theories/SpecDiff.v
theories/DiffTheory.v
theories/DiffConvert.v
theories/ModelSimT.v
theories/PropsSimT.v
theories/ModelTimePlots.v
theories/SpecTimePlots.v
theories/TimePlotsTheory.v
theories/PropsTimePlots.v
theories/ModelDiscT.v
theories/SpecDiscT.v
theories/DiscTTheory.v
theories/PropsDiscT.v
theories/SpecNormT.v
theories/PropsNormT.v
theories/PropsNormTEx.v
theories/ModelCancel.v
theories/SpecCancel.v
theories/CancelTheory.v
theories/PropsCancel.v
theories/PropsCancelEx.v
theories/ModelMixed.v
theories/PropsMixed.v
theories/PropsMixedGain.v
