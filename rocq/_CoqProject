-Q theories Verif
theories/L_Adj.v
theories/L_Convert.v
theories/L_DaqcIx.v
theories/L_DaqcLin.v
theories/L_Den.v
theories/L_Diag.v
theories/L_Exp.v
theories/L_ExpMul.v
theories/L_ExpOp.v
theories/L_Gates.v
theories/L_Gradient.v
theories/L_GradientDiff.v
theories/L_GradientRules.v
theories/L_Grammar.v
theories/L_Inner.v
theories/L_Loc.v
theories/L_Mat.v
theories/L_Names.v
theories/L_Near.v
theories/L_Ops.v
theories/L_Overlap.v
theories/L_PauliExp.v
theories/L_QubitSupport.v
theories/L_Serialize.v
theories/L_Support.v
theories/L_Tensor.v
theories/L_Transpile.v
theories/M_Addressing.v
theories/M_Ala.v
theories/M_Analog.v
theories/M_AnalogSwap.v
theories/M_Backend.v
theories/M_Basis.v
theories/M_Batches.v
theories/M_Block.v
theories/M_BlockOps.v
theories/M_Callbacks.v
theories/M_Cells.v
theories/M_Checkpoint.v
theories/M_Circuits.v
theories/M_Cloud.v
theories/M_Convert.v
theories/M_Daqc.v
theories/M_Dataset.v
theories/M_Decompose.v
theories/M_Density.v
theories/M_Derivative.v
theories/M_Diagonal.v
theories/M_Digitalize.v
theories/M_Divergences.v
theories/M_EarlyStop.v
theories/M_Embedding.v
theories/M_Engine.v
theories/M_Equality.v
theories/M_Execution.v
theories/M_FeatureMap.v
theories/M_Features.v
theories/M_Fill.v
theories/M_Formula.v
theories/M_Gradient.v
theories/M_Grammar.v
theories/M_Hamiltonians.v
theories/M_Hea.v
theories/M_Horqrux.v
theories/M_Hyperparams.v
theories/M_Iia.v
theories/M_Information.v
theories/M_Lattice.v
theories/M_Lookup.v
theories/M_Matrix.v
theories/M_Measure.v
theories/M_Model.v
theories/M_Modes.v
theories/M_Names.v
theories/M_Noise.v
theories/M_NoiseRun.v
theories/M_OpenFermion.v
theories/M_Overlap.v
theories/M_PSR.v
theories/M_ParamObjects.v
theories/M_Pauli.v
theories/M_Processes.v
theories/M_PulserBackend.v
theories/M_Pulses.v
theories/M_Qcnn.v
theories/M_Qft.v
theories/M_QftDaqc.v
theories/M_Qnn.v
theories/M_QnnConfig.v
theories/M_QubitSupport.v
theories/M_Readout.v
theories/M_Register.v
theories/M_Runs.v
theories/M_Rydberg.v
theories/M_RydbergHea.v
theories/M_SameBlock.v
theories/M_Samples.v
theories/M_SaveLoad.v
theories/M_Schedulers.v
theories/M_Serialize.v
theories/M_Shadow.v
theories/M_Shapes.v
theories/M_Spectra.v
theories/M_States.v
theories/M_Step.v
theories/M_Stretch.v
theories/M_Tags.v
theories/M_Tensor.v
theories/M_Together.v
theories/M_Tracking.v
theories/M_Trainable.v
theories/M_Trainer.v
theories/M_Transpile.v
theories/M_Validate.v
theories/M_Variance.v
theories/M_Waveforms.v
theories/M_Zne.v
theories/P_Addressing.v
theories/P_Ala.v
theories/P_Analog.v
theories/P_AnalogSwap.v
theories/P_Backend.v
theories/P_Basis.v
theories/P_Batch.v
theories/P_Batches.v
theories/P_Callbacks.v
theories/P_Cells.v
theories/P_ChainOps.v
theories/P_Checkpoint.v
theories/P_Circuits.v
theories/P_Cloud.v
theories/P_Convert.v
theories/P_Dagger.v
theories/P_Daqc.v
theories/P_Dataset.v
theories/P_Decompose.v
theories/P_Density.v
theories/P_DensityEx.v
theories/P_Derivative.v
theories/P_Diagonal.v
theories/P_Digitalize.v
theories/P_Divergences.v
theories/P_EarlyStop.v
theories/P_Embedding.v
theories/P_Engine.v
theories/P_Equality.v
theories/P_Execution.v
theories/P_FeatureMap.v
theories/P_Features.v
theories/P_Fill.v
theories/P_Flatten.v
theories/P_Formula.v
theories/P_Gradient.v
theories/P_Grammar.v
theories/P_Hamiltonians.v
theories/P_Hea.v
theories/P_Horqrux.v
theories/P_HorqruxRun.v
theories/P_Hyperparams.v
theories/P_Iia.v
theories/P_Information.v
theories/P_Invert.v
theories/P_Lattice.v
theories/P_Lookup.v
theories/P_Matrix.v
theories/P_Measure.v
theories/P_Model.v
theories/P_Modes.v
theories/P_Noise.v
theories/P_NoiseRun.v
theories/P_OpenFermion.v
theories/P_Operators.v
theories/P_Overlap.v
theories/P_PSR.v
theories/P_ParamObjects.v
theories/P_Pauli.v
theories/P_Processes.v
theories/P_PulserBackend.v
theories/P_Pulses.v
theories/P_Qcnn.v
theories/P_Qft.v
theories/P_QftDaqc.v
theories/P_Qnn.v
theories/P_QnnConfig.v
theories/P_QubitSupport.v
theories/P_Readout.v
theories/P_Register.v
theories/P_Runs.v
theories/P_Rydberg.v
theories/P_RydbergHea.v
theories/P_SameBlock.v
theories/P_Samples.v
theories/P_SaveLoad.v
theories/P_Schedulers.v
theories/P_Serialize.v
theories/P_Shadow.v
theories/P_ShadowBudget.v
theories/P_Shapes.v
theories/P_Spectra.v
theories/P_States.v
theories/P_Step.v
theories/P_Stretch.v
theories/P_Support.v
theories/P_Tags.v
theories/P_Tensor.v
theories/P_Together.v
theories/P_Tomography.v
theories/P_Tracking.v
theories/P_Trainable.v
theories/P_Trainer.v
theories/P_Unitary.v
theories/P_Validate.v
theories/P_Variance.v
theories/P_Waveforms.v
theories/P_Zne.v
theories/S_Den.v
theories/S_Gradient.v
theories/S_Grammar.v
theories/S_Mat.v
theories/S_Native.v
theories/S_Near.v
theories/S_Ops.v
theories/S_PSR.v
theories/S_Sets.v
theories/S_State.v
theories/S_Tensor.v
theories/S_Transpile.v
theories/S_Validate.v
