-Q theories Verif
theories/Aby2CircuitProofs.v
theories/Aby2ExecProofs.v
theories/Aby2LeakProofs.v
theories/Aby2Model.v
theories/Aby2PrivProofs.v
theories/Aby2PrivSpec.v
theories/Aby2PrivTheorems.v
theories/Aby2Proofs.v
theories/Aby2SetupProofs.v
theories/Aby2SetupTheorems.v
theories/Aby2Spec.v
theories/Aby2Theorems.v
theories/Aby2TwinProofs.v
theories/AdderData.v
theories/AdderProofs.v
theories/AdderProofs2.v
theories/AdderProofs3.v
theories/AdderTheorems.v
theories/AlignedModel.v
theories/AlignedProofs.v
theories/AlignedSpec.v
theories/AlignedTheorems.v
theories/AndTreeModel.v
theories/AndTreeTheorems.v
theories/ArithExecTheorems.v
theories/ArithGmwModel.v
theories/ArithGmwProofs.v
theories/ArithGmwSpec.v
theories/ArithGmwTheorems.v
theories/ArithPrivProofs.v
theories/ArithPrivSpec.v
theories/ArithPrivTheorems.v
theories/AsyncModel.v
theories/AsyncProofs.v
theories/AsyncTheorems.v
theories/BenchModel.v
theories/BenchTheorems.v
theories/BitMatModel.v
theories/BitMatProofs.v
theories/BitMatSpec.v
theories/BitMatTheorems.v
theories/BitVecModel.v
theories/BitVecProofs.v
theories/BitVecSpec.v
theories/BoolGmwModel.v
theories/BoolGmwProofs.v
theories/BoolGmwProofs2.v
theories/BoolGmwSpec.v
theories/BoolGmwTheorems.v
theories/BristolProofs.v
theories/BristolSpec.v
theories/BristolTheorems.v
theories/BristolToolModel.v
theories/BristolToolProofs.v
theories/BristolToolProofs2.v
theories/BristolToolProofs3.v
theories/BristolToolTheorems.v
theories/BuilderModel.v
theories/BuilderProofs.v
theories/BuilderProofs2.v
theories/BuilderSpec.v
theories/BuilderTheorems.v
theories/CallCountProofs.v
theories/CallCountTheorems.v
theories/CbcModel.v
theories/CbcProofs.v
theories/CbcScModel.v
theories/CbcScProofs.v
theories/CbcScProofs2.v
theories/CbcScProofs3.v
theories/CbcScProofs4.v
theories/CbcScTheorems.v
theories/CbcSpec.v
theories/CbcTheorems.v
theories/ChannelModel.v
theories/ChannelProofs.v
theories/ChannelSpec.v
theories/ChannelTheorems.v
theories/CircuitCheck.v
theories/CircuitModel.v
theories/CircuitProofs.v
theories/CircuitProofs2.v
theories/CircuitProofs3.v
theories/CircuitSpec.v
theories/CircuitTheorems.v
theories/ConnModel.v
theories/ConnProofs.v
theories/ConnProofs2.v
theories/ConnSpec.v
theories/ConnTheorems.v
theories/ConnectModel.v
theories/ConnectProofs.v
theories/ConnectSpec.v
theories/ConnectTheorems.v
theories/ExecBoolProofs.v
theories/ExecBoolSpec.v
theories/ExecCircuitProofs.v
theories/ExecCircuitSpec.v
theories/ExecLayerProofs.v
theories/ExecModel.v
theories/ExecProofs.v
theories/ExecSpec.v
theories/ExecTheorems.v
theories/FftModel.v
theories/FftTheorems.v
theories/FreeTheorems.v
theories/FuseModel.v
theories/FuseProofs.v
theories/FuseSpec.v
theories/FuseTheorems.v
theories/GateModel.v
theories/InlineModel.v
theories/InlineProofs.v
theories/InlineSpec.v
theories/InlineTheorems.v
theories/MixedB2aProofs.v
theories/MixedExecProofs.v
theories/MixedExecProofs2.v
theories/MixedModel.v
theories/MixedProgProofs.v
theories/MixedProgProofs2.v
theories/MixedProgProofs3.v
theories/MixedProgProofs4.v
theories/MixedProgSpec.v
theories/MixedSpec.v
theories/MixedTheorems.v
theories/MixedTheorems2.v
theories/MultiExecProofs.v
theories/MultiExecProofs2.v
theories/MultiExecSpec.v
theories/MultiExecTheorems.v
theories/MultiModel.v
theories/MultiProofs.v
theories/MultiProofs2.v
theories/MultiSpec.v
theories/MultiTheorems.v
theories/OtModel.v
theories/OtProofs.v
theories/OtSpec.v
theories/OtTheorems.v
theories/OtTripleModel.v
theories/OtTripleProofs.v
theories/OtTripleSpec.v
theories/OtTripleTheorems.v
theories/ParseModel.v
theories/ParseProofs.v
theories/ParseSpec.v
theories/ParseTheorems.v
theories/PartyModel.v
theories/PprfModel.v
theories/PprfProofs.v
theories/PprfProofs2.v
theories/PprfSpec.v
theories/PprfTheorems.v
theories/Prelude.v
theories/PreludeProofs.v
theories/PrivMailBits.v
theories/PrivMailModel.v
theories/PrivMailProofs.v
theories/PrivMailSpec.v
theories/PrivMailTheorems.v
theories/PrivacyBoolProofs.v
theories/PrivacyProofs.v
theories/PrivacySimdProofs.v
theories/PrivacySpec.v
theories/PrivacyTheorems.v
theories/ProtocolModel.v
theories/ReduceProofs.v
theories/RngModel.v
theories/RngProofs.v
theories/RngSpec.v
theories/RngTheorems.v
theories/RunResultModel.v
theories/RunResultTheorems.v
theories/SilentModel.v
theories/SilentProofs.v
theories/SilentProofs2.v
theories/SilentSpec.v
theories/SilentTheorems.v
theories/StatModel.v
theories/StatTheorems.v
theories/StaticExecProofs.v
theories/StaticExecTheorems.v
theories/StaticModel.v
theories/StaticProofs.v
theories/StaticProofs2.v
theories/StaticProofs3.v
theories/StaticSpec.v
theories/StaticTheorems.v
theories/SubChanErrors.v
theories/SubChanLive.v
theories/SubChanModel.v
theories/SubChanProofs.v
theories/SubChanSpec.v
theories/SubChanTheorems.v
theories/SubCircModel.v
theories/SubCircProofs.v
theories/SubCircSpec.v
theories/SubCircTheorems.v
theories/TensorCircuitProofs.v
theories/TensorExecProofs.v
theories/TensorModel.v
theories/TensorProofs.v
theories/TensorRunProofs.v
theories/TensorSetupProofs.v
theories/TensorSpec.v
theories/TensorTheorems.v
theories/TestUtilModel.v
theories/TestUtilTheorems.v
theories/TrackModel.v
theories/TrackTheorems.v
theories/TripleModel.v
theories/TripleProofs.v
theories/TripleSpec.v
theories/TripleTheorems.v
theories/ZMod.v
theories/ZapUtilModel.v
theories/ZapUtilProofs.v
theories/ZapUtilSpec.v
theories/ZapUtilTheorems.v
