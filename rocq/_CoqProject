-Q theories Verif

theories/Base.v
theories/Spec.v
theories/LinAlg.v
theories/Model_Groups.v
theories/Proofs_Groups.v
theories/Proofs_Cont.v
theories/Model_Rep.v
theories/Proofs_Irreps.v
theories/Proofs_Rep.v
theories/Proofs_Restrict.v
theories/Prop_Groups.v
theories/Prop_Rep.v
theories/Model_Regular.v
theories/Proofs_Regular.v
theories/Proofs_Regular2.v
theories/Proofs_Induced.v
theories/Prop_Regular.v
theories/Spec_Fields.v
theories/Model_FieldType.v
theories/Proofs_FieldType.v
theories/Proofs_FieldType2.v
theories/Model_Tensor.v
theories/Proofs_Tensor.v
theories/Prop_Field.v
theories/Model_GSpace.v
theories/Spec_GSpace.v
theories/Proofs_GSpace.v
theories/Prop_GSpace.v
theories/Model_Kernels.v
theories/Spec_Kernels.v
theories/Proofs_Trig.v
theories/Proofs_Kernels.v
theories/Proofs_Kernels2.v
theories/Proofs_Kernels3.v
theories/Proofs_Kernels4.v
theories/Proofs_Kernels5.v
theories/Proofs_Kernels6.v
theories/Proofs_Kernels7.v
theories/Prop_Kernels.v
theories/Model_Utils.v
theories/Model_Expansion.v
theories/Proofs_Utils.v
theories/Proofs_Expansion.v
theories/Proofs_Expansion2.v
theories/Model_Conv.v
theories/Model_R2Diffop.v
theories/Model_Cache.v
theories/Spec_Cache.v
theories/Proofs_Cache.v
theories/Prop_Cache.v
theories/Model_Hist.v
theories/Spec_Hist.v
theories/Proofs_Hist.v
theories/Prop_Hist.v
theories/Proofs_Conv.v
theories/Proofs_Conv2.v
theories/Spec_Conv.v
theories/Proofs_Conv3.v
theories/Proofs_Conv4.v
theories/Proofs_Conv5.v
theories/Proofs_Conv6.v
theories/Spec_Expansion.v
theories/Proofs_Expansion3.v
theories/Proofs_Conv7.v
theories/Proofs_Conv8.v
theories/Proofs_Conv9.v
theories/Prop_Conv.v
theories/Prop_Conv2.v
theories/Model_Modules.v
theories/Spec_Modules.v
theories/Proofs_Modules.v
theories/Proofs_Modules2.v
theories/Proofs_Modules3.v
theories/Prop_Modules.v
theories/Model_Fieldwise.v
theories/Spec_Fieldwise.v
theories/Spec_Fieldwise2.v
theories/Proofs_Fieldwise.v
theories/Proofs_Fieldwise2.v
theories/Proofs_Fieldwise3.v
theories/Proofs_Fieldwise4.v
theories/Proofs_Fieldwise5.v
theories/Proofs_Fieldwise6.v
theories/Proofs_Fieldwise7.v
theories/Proofs_Fieldwise8.v
theories/Proofs_Fieldwise9.v
theories/Proofs_Fieldwise10.v
theories/Prop_Fieldwise.v
theories/Proofs_Fieldwise11.v
theories/Prop_Fieldwise2.v
theories/Prop_Fieldwise3.v
theories/Model_IGated.v
theories/Spec_IGated.v
theories/Proofs_IGated.v
theories/Proofs_IGated2.v
theories/Proofs_IGated3.v
theories/Prop_IGated.v
theories/Model_Pool.v
theories/Spec_Pool.v
theories/Proofs_Pool.v
theories/Proofs_Pool2.v
theories/Prop_Pool.v
theories/Prop_Pool2.v
theories/Model_Dropout.v
theories/Spec_Dropout.v
theories/Proofs_Dropout.v
theories/Prop_Dropout.v
theories/Model_Mask.v
theories/Prop_Mask.v
theories/Model_BatchNorm.v
theories/Spec_BatchNorm.v
theories/Proofs_BatchNorm.v
theories/Proofs_BatchNorm2.v
theories/Proofs_BatchNorm3.v
theories/Proofs_BatchNorm4.v
theories/Proofs_BatchNorm5.v
theories/Proofs_BatchNorm6.v
theories/Proofs_BatchNorm7.v
theories/Proofs_BatchNorm8.v
theories/Proofs_BatchNorm9.v
theories/Prop_BatchNorm.v
theories/Model_Init.v
theories/Proofs_Init.v
theories/Prop_Init.v
theories/Model_Disentangle.v
theories/Spec_Disentangle.v
theories/Proofs_Disentangle.v
theories/Proofs_Disentangle2.v
theories/Proofs_Disentangle3.v
theories/Proofs_Disentangle4.v
theories/Proofs_Disentangle5.v
theories/Prop_Disentangle.v
theories/Model_Diffops.v
theories/Spec_Diffops.v
theories/Spec_Fd.v
theories/Proofs_Diffops.v
theories/Proofs_Fd.v
theories/Prop_Diffops.v
theories/Model_Diffops2.v
theories/Proofs_Diffops2.v
theories/Prop_Diffops2.v
theories/Proofs_Stencil.v
theories/Proofs_R2Diffop.v
theories/Prop_R2Diffop.v
theories/Model_Support.v
theories/Spec_Support.v
theories/Proofs_Support.v
theories/Proofs_Support2.v
theories/Prop_Support.v
theories/Model_Upsample.v
theories/Proofs_Upsample.v
theories/Prop_Upsample.v
theories/Model_NormMax.v
theories/Spec_NormMax.v
theories/Proofs_NormMax.v
theories/Proofs_NormMax2.v
theories/Prop_NormMax.v
theories/Model_ConvT.v
theories/Proofs_ConvT.v
theories/Proofs_ConvT2.v
theories/Proofs_ConvT3.v
theories/Prop_ConvT.v
theories/Model_Restriction.v
theories/Prop_Restriction.v
theories/Model_Net.v
theories/Spec_Net.v
theories/Proofs_Net.v
theories/Proofs_Net2.v
theories/Proofs_Net3.v
theories/Proofs_Net4.v
theories/Proofs_Net5.v
theories/Proofs_Net6.v
theories/Prop_Net.v
theories/Model_Export.v
theories/Spec_Export.v
theories/Proofs_Export.v
theories/Prop_Export.v
theories/Model_Shape.v
theories/Spec_Shape.v
theories/Proofs_Shape.v
theories/Prop_Shape.v
theories/Model_Nested.v
theories/Spec_Nested.v
theories/Proofs_Nested.v
theories/Prop_Nested.v
theories/Spec_Move.v
theories/Proofs_Move.v
theories/Proofs_Move2.v
theories/Proofs_Move3.v
theories/Proofs_Move4.v
theories/Proofs_Move5.v
theories/Prop_Move.v
theories/Spec_Irred.v
theories/Proofs_Irred.v
theories/Proofs_Irred2.v
theories/Prop_Irred.v
theories/Model_Delta.v
theories/Spec_Delta.v
theories/Proofs_Delta.v
theories/Proofs_Delta2.v
theories/Prop_Delta.v
theories/Model_Graph.v
theories/Spec_Graph.v
theories/Proofs_Graph.v
theories/Proofs_Graph2.v
theories/Prop_Graph.v
theories/Model_Checkpoint.v
theories/Spec_Checkpoint.v
theories/Proofs_Checkpoint.v
theories/Proofs_Checkpoint2.v
theories/Prop_Checkpoint.v
theories/Spec_Motion.v
theories/Prop_Motion.v
theories/Model_Equality.v
theories/Spec_Equality.v
theories/Proofs_Equality.v
theories/Prop_Equality.v
theories/Model_Train.v
theories/Spec_Train.v
theories/Proofs_Train.v
theories/Proofs_Train2.v
theories/Prop_Train.v
theories/Model_Check.v
theories/Spec_Check.v
theories/Proofs_Check.v
theories/Proofs_Check2.v
theories/Proofs_Check3.v
theories/Prop_Check.v
theories/Model_Decompose.v
theories/Spec_Decompose.v
theories/Proofs_Decompose.v
theories/Proofs_Decompose2.v
theories/Proofs_Decompose3.v
theories/Proofs_Reduce.v
theories/Proofs_Decompose4.v
theories/Prop_Decompose.v
theories/Model_InduceO2.v
theories/Spec_InduceO2.v
theories/Proofs_InduceO2.v
theories/Prop_InduceO2.v
theories/Spec_Subfields.v
theories/Proofs_Subfields.v
theories/Prop_Subfields.v
