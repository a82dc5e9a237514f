-Q theories Verif

theories/Graph_Model.v
theories/Eval_Model.v
theories/Eval_Spec.v
theories/Eval_Proofs.v
theories/Eval_Proofs2.v
theories/Eval_Order.v
theories/Eval_Update.v
theories/Eval_Split.v
theories/Graph_Proofs.v
theories/Depends_Proofs.v
theories/Eval_Examples.v
theories/Grad_Model.v
theories/Grad_Spec.v
theories/Grad_Path_Proofs.v
theories/Grad_Proofs.v
theories/Grad_Final.v
theories/Grad_Frame.v
theories/Grad_Examples.v
theories/P_Eval.v
theories/P_Grad.v
theories/P_Graph.v
theories/Scalar_Model.v
theories/Scalar_Spec.v
theories/Scalar_Rules.v
theories/Scalar_Proofs.v
theories/Scalar_Grad.v
theories/Scalar_Final.v
theories/Scalar_Examples.v
theories/P_Scalar.v
theories/Var_Model.v
theories/Var_Spec.v
theories/Var_Proofs.v
theories/P_Var.v
theories/Slot_Model.v
theories/Slot_Spec.v
theories/Slot_Proofs.v
theories/P_Slot.v
theories/Builder_Model.v
theories/P_Builder.v
theories/Layout_Model.v
theories/Layout_Spec.v
theories/Layout_Proofs.v
theories/Layout_Ops.v
theories/P_Layout.v
theories/Array_Model.v
theories/Array_Proofs.v
theories/Array_Sum.v
theories/Vjp_Spec.v
theories/Vjp_Proofs.v
theories/Broadcast_Spec.v
theories/Arith_Model.v
theories/Arith_Proofs.v
theories/Arith_Final.v
theories/P_Arith.v
theories/Reduce_Model.v
theories/Reduce_Spec.v
theories/Array_Fold.v
theories/Reduce_Proofs.v
theories/P_Reduce.v
theories/Shape_Model.v
theories/Shape_Spec.v
theories/Clip_Model.v
theories/Shape_Proofs.v
theories/Shape_Proofs2.v
theories/Shape_Proofs3.v
theories/P_Shape.v
theories/Dot_Model.v
theories/Dot_Spec.v
theories/Dot_Proofs.v
theories/Batch_Model.v
theories/Batch_Proofs.v
theories/P_Dot.v
theories/Softmax_Model.v
theories/Softmax_Spec.v
theories/Softmax_Proofs.v
theories/Softmax_Proofs2.v
theories/Softmax_Proofs3.v
theories/Softmax_Xent.v
theories/P_Softmax.v
theories/Opt_Model.v
theories/Opt_Proofs.v
theories/Opt_Effect.v
theories/Joint_Model.v
theories/Opt_Joint.v
theories/Opt_Joint2.v
theories/Opt_Joint3.v
theories/Opt_Spec.v
theories/Opt_Steps.v
theories/Opt_State.v
theories/Opt_Train.v
theories/Opt_Witness.v
theories/P_Opt.v
theories/P_Joint.v
theories/Argx_Model.v
theories/Argx_Proofs.v
theories/P_Argx.v
theories/Kernel_Model.v
theories/Kernel_Proofs.v
theories/Conv_Model.v
theories/Conv_Loops.v
theories/Conv_Spec.v
theories/Conv_Proofs.v
theories/Conv_Forward.v
theories/Conv_Backward.v
theories/Conv_Filter.v
theories/P_Conv.v
theories/P_ConvGrad.v
theories/Pool_Model.v
theories/Pool_Spec.v
theories/Pool_Proofs.v
theories/Pool_Final.v
theories/P_Pool.v
theories/Mean_Model.v
theories/Tens_Model.v
theories/Tens_Spec.v
theories/Tens_Fwd.v
theories/Tens_Fwd2.v
theories/Tens_Fwd3.v
theories/Tens_Fwd4.v
theories/Tens_Fwd5.v
theories/Tens_Build.v
theories/Tens_Rules.v
theories/Tens_Rules2.v
theories/Tens_Rules3.v
theories/Tens_Rules4.v
theories/Tens_Rules5.v
theories/Tens_Rules6.v
theories/Tens_Rules7.v
theories/Tens_Rules8.v
theories/Tens_Ops.v
theories/Tens_Lax.v
theories/Tens_Grad.v
theories/Tens_Settle.v
theories/Tens_Deriv.v
theories/Tens_Final.v
theories/Tens_Examples.v
theories/P_Tens.v
theories/Tens_Comp.v
theories/Comp_Model.v
theories/Comp_Spec.v
theories/Comp_Proofs.v
theories/P_Comp.v
theories/Second_Spec.v
theories/Second_Clean.v
theories/Second_Rules.v
theories/Hess_Model.v
theories/Second_Grad.v
theories/P_Hess.v
theories/Rand_Model.v
theories/Rand_Spec.v
theories/Rand_Proofs.v
theories/P_Rand.v
theories/Check_Model.v
theories/Check_Spec.v
theories/Check_Proofs.v
theories/P_Check.v
theories/Jac_Model.v
theories/Jac_Proofs.v
theories/P_Jac.v
theories/Mem_Model.v
theories/Mem_Spec.v
theories/Mem_Proofs.v
theories/P_Mem.v
theories/Hook_Model.v
theories/Hook_Proofs.v
theories/P_Hook.v
theories/Num_Model.v
theories/Num_Spec.v
theories/Num_Proofs.v
theories/P_Num.v
theories/Tens_Joint.v
theories/Train_Spec.v
theories/Train_Proofs.v
theories/Train_Step.v
theories/Train_Witness.v
theories/P_Train.v
theories/Net_Model.v
theories/Net_Spec.v
theories/Net_Proofs.v
theories/P_ConvNet.v
theories/Alias_Model.v
theories/Alias_Spec.v
theories/Alias_Proofs.v
theories/P_Alias.v
theories/Float_Model.v
theories/Float_Spec.v
theories/Float_Proofs.v
theories/Float_Kernels.v
theories/Float_Kernels2.v
theories/Float_Kernels3.v
theories/Float_Kernels4.v
theories/P_Float.v
theories/P_Gather.v
theories/Lstm_Model.v
theories/Lstm_Spec.v
theories/Lstm_Proofs.v
theories/P_Lstm.v
theories/P_GatherStep.v
theories/Fopt_Model.v
theories/Fopt_Spec.v
theories/Fopt_Proofs.v
theories/P_Fopt.v
theories/Blas_Model.v
theories/Blas_Spec.v
theories/Blas_Proofs.v
theories/Blas_Copy.v
theories/P_Blas.v
theories/Helper_Model.v
theories/Helper_Proofs.v
theories/Helper_Tens.v
theories/P_Helper.v
theories/Grad_Room.v
theories/Returns_Spec.v
theories/Tens_Total.v
theories/Tens_New.v
theories/Tens_Returns.v
theories/P_Returns.v
theories/Place_Model.v
theories/Place_Spec.v
theories/Place_Proofs.v
theories/Place_Graph.v
theories/Place_Grad.v
theories/P_Place.v
theories/P_Flags.v
theories/Tdot_Model.v
theories/P_Tdot.v
theories/Sample_Model.v
theories/Sample_Spec.v
theories/Sample_Proofs.v
theories/P_Sample.v
theories/Acc_Model.v
theories/P_Acc.v
theories/Multi_Model.v
theories/Multi_Proofs.v
theories/P_Multi.v
theories/Grad_Cost.v
theories/Tens_Cost.v
theories/P_Cost.v
theories/Second_Model.v
theories/Second_Proofs.v
theories/P_Second.v
theories/P_Builds.v
theories/Sine_Model.v
theories/Sine_Spec.v
theories/Sine_Proofs.v
theories/P_Sine.v
theories/Trans_Model.v
theories/P_Trans.v
theories/High_Model.v
theories/High_Spec.v
theories/P_High.v
theories/Third_Model.v
theories/P_Third.v
theories/Gamma_Model.v
theories/P_Gamma.v
