-Q theories Verif
theories/Calculus.v
theories/Cerf.v
theories/Cplx.v
theories/CplxTaylor.v
theories/CurveDeriv.v
theories/Deriv.v
theories/Elliptic.v
theories/Fubini.v
theories/Integral.v
theories/Model_Alias.v
theories/Model_Alias2.v
theories/Model_Arrays.v
theories/Model_Arrays2.v
theories/Model_Arrays3.v
theories/Model_Arrays4.v
theories/Model_Batch.v
theories/Model_Construct.v
theories/Model_Electrodes.v
theories/Model_FDEM.v
theories/Model_Float.v
theories/Model_Float10.v
theories/Model_Float11.v
theories/Model_Float12.v
theories/Model_Float13.v
theories/Model_Float14.v
theories/Model_Float15.v
theories/Model_Float2.v
theories/Model_Float3.v
theories/Model_Float4.v
theories/Model_Float5.v
theories/Model_Float6.v
theories/Model_Float7.v
theories/Model_Float8.v
theories/Model_Float9.v
theories/Model_Gravity.v
theories/Model_Interf.v
theories/Model_Layered.v
theories/Model_Oksar.v
theories/Model_Plot.v
theories/Model_Prism.v
theories/Model_RTE.v
theories/Model_Setters.v
theories/Model_Spatial.v
theories/Model_Special.v
theories/Model_Static.v
theories/Model_TDEM.v
theories/Model_Utils.v
theories/Numpy.v
theories/Periodic.v
theories/Proof_Alias.v
theories/Proof_Alias2.v
theories/Proof_Arrays.v
theories/Proof_Arrays10.v
theories/Proof_Arrays2.v
theories/Proof_Arrays3.v
theories/Proof_Arrays4.v
theories/Proof_Arrays5.v
theories/Proof_Arrays6.v
theories/Proof_Arrays7.v
theories/Proof_Arrays8.v
theories/Proof_Arrays9.v
theories/Proof_Ball.v
theories/Proof_Ball2.v
theories/Proof_Ball3.v
theories/Proof_Ball4.v
theories/Proof_Batch.v
theories/Proof_Bessel.v
theories/Proof_Bessel2.v
theories/Proof_Bounds.v
theories/Proof_Construct.v
theories/Proof_Construct2.v
theories/Proof_Construct3.v
theories/Proof_Construct4.v
theories/Proof_Contracts.v
theories/Proof_Dates.v
theories/Proof_Depth.v
theories/Proof_Electrodes.v
theories/Proof_Electrodes2.v
theories/Proof_Electrodes3.v
theories/Proof_Electrodes4.v
theories/Proof_Electrodes5.v
theories/Proof_FDEM.v
theories/Proof_FDEM2.v
theories/Proof_FDEM3.v
theories/Proof_FDEM4.v
theories/Proof_FDEM5.v
theories/Proof_FDEM6.v
theories/Proof_FDEM7.v
theories/Proof_FDEM8.v
theories/Proof_Far.v
theories/Proof_Far2.v
theories/Proof_FarField.v
theories/Proof_FarField2.v
theories/Proof_FarField3.v
theories/Proof_Float.v
theories/Proof_Float10.v
theories/Proof_Float11.v
theories/Proof_Float12.v
theories/Proof_Float13.v
theories/Proof_Float14.v
theories/Proof_Float15.v
theories/Proof_Float16.v
theories/Proof_Float17.v
theories/Proof_Float18.v
theories/Proof_Float19.v
theories/Proof_Float2.v
theories/Proof_Float20.v
theories/Proof_Float21.v
theories/Proof_Float22.v
theories/Proof_Float23.v
theories/Proof_Float24.v
theories/Proof_Float25.v
theories/Proof_Float26.v
theories/Proof_Float27.v
theories/Proof_Float28.v
theories/Proof_Float3.v
theories/Proof_Float4.v
theories/Proof_Float5.v
theories/Proof_Float6.v
theories/Proof_Float7.v
theories/Proof_Float8.v
theories/Proof_Float9.v
theories/Proof_Flux.v
theories/Proof_Flux2.v
theories/Proof_Flux3.v
theories/Proof_Fourier.v
theories/Proof_Fourier2.v
theories/Proof_Fourier3.v
theories/Proof_Fourier4.v
theories/Proof_Fourier5.v
theories/Proof_Fourier6.v
theories/Proof_Fourier7.v
theories/Proof_Fourier8.v
theories/Proof_Gravity.v
theories/Proof_HalfSpace.v
theories/Proof_HalfSpace2.v
theories/Proof_HalfSpace3.v
theories/Proof_HalfSpace4.v
theories/Proof_Hankel.v
theories/Proof_Impedance.v
theories/Proof_Induction.v
theories/Proof_Induction2.v
theories/Proof_Interf.v
theories/Proof_Interf2.v
theories/Proof_Interior.v
theories/Proof_Jump.v
theories/Proof_Late.v
theories/Proof_Late2.v
theories/Proof_Layered.v
theories/Proof_Layered2.v
theories/Proof_Layered3.v
theories/Proof_Layered4.v
theories/Proof_Layered5.v
theories/Proof_Limits.v
theories/Proof_Limits2.v
theories/Proof_Limits3.v
theories/Proof_Limits4.v
theories/Proof_Line.v
theories/Proof_Line2.v
theories/Proof_Line3.v
theories/Proof_Linear.v
theories/Proof_Linear2.v
theories/Proof_Linkage.v
theories/Proof_Linkage2.v
theories/Proof_Loop.v
theories/Proof_Loop2.v
theories/Proof_Loop3.v
theories/Proof_Loop4.v
theories/Proof_Loop5.v
theories/Proof_LoopFar.v
theories/Proof_LoopFar2.v
theories/Proof_LoopFar3.v
theories/Proof_McNeill.v
theories/Proof_McNeill2.v
theories/Proof_Mirror.v
theories/Proof_Mirror2.v
theories/Proof_Mirror3.v
theories/Proof_Mirror4.v
theories/Proof_Oksar.v
theories/Proof_Oksar2.v
theories/Proof_Oksar3.v
theories/Proof_Oksar4.v
theories/Proof_Oksar5.v
theories/Proof_Oksar6.v
theories/Proof_Oksar7.v
theories/Proof_Plot.v
theories/Proof_Power.v
theories/Proof_Power2.v
theories/Proof_Power3.v
theories/Proof_Power4.v
theories/Proof_Prism.v
theories/Proof_Prism2.v
theories/Proof_Prism3.v
theories/Proof_Prism4.v
theories/Proof_PrismC.v
theories/Proof_RTE.v
theories/Proof_RTE10.v
theories/Proof_RTE11.v
theories/Proof_RTE12.v
theories/Proof_RTE13.v
theories/Proof_RTE2.v
theories/Proof_RTE3.v
theories/Proof_RTE4.v
theories/Proof_RTE5.v
theories/Proof_RTE6.v
theories/Proof_RTE7.v
theories/Proof_RTE8.v
theories/Proof_RTE9.v
theories/Proof_Reciprocity.v
theories/Proof_Reciprocity2.v
theories/Proof_Scaling.v
theories/Proof_Scaling2.v
theories/Proof_Scaling3.v
theories/Proof_Scaling4.v
theories/Proof_Scaling5.v
theories/Proof_Scaling6.v
theories/Proof_Setters.v
theories/Proof_Setters2.v
theories/Proof_Setters3.v
theories/Proof_Setters4.v
theories/Proof_Setters5.v
theories/Proof_Setters6.v
theories/Proof_Setters7.v
theories/Proof_Sign.v
theories/Proof_Sign2.v
theories/Proof_Spatial.v
theories/Proof_Special.v
theories/Proof_Special2.v
theories/Proof_Sphere.v
theories/Proof_Static.v
theories/Proof_Static2.v
theories/Proof_Static3.v
theories/Proof_Super.v
theories/Proof_Super2.v
theories/Proof_Super3.v
theories/Proof_Super4.v
theories/Proof_Super5.v
theories/Proof_Super6.v
theories/Proof_Symmetry.v
theories/Proof_Symmetry2.v
theories/Proof_TDEM.v
theories/Proof_TDEM2.v
theories/Proof_TDEM3.v
theories/Proof_TDEM4.v
theories/Proof_TPower.v
theories/Proof_Utils.v
theories/Proof_Volterra.v
theories/Proof_Volterra2.v
theories/Proof_Volterra3.v
theories/Proof_Volterra4.v
theories/Proof_Volterra5.v
theories/Proof_Wires.v
theories/Proof_Wires2.v
theories/Proof_Wires3.v
theories/Proof_Wires4.v
theories/Proof_Wires5.v
theories/Props_Alias2.v
theories/Props_Arrays.v
theories/Props_Arrays2.v
theories/Props_Arrays3.v
theories/Props_Arrays4.v
theories/Props_Ball.v
theories/Props_Batch.v
theories/Props_Bounds.v
theories/Props_Construct.v
theories/Props_Contracts.v
theories/Props_Depth.v
theories/Props_Electrodes.v
theories/Props_FDEM.v
theories/Props_Far.v
theories/Props_FarField.v
theories/Props_Float.v
theories/Props_Float10.v
theories/Props_Float11.v
theories/Props_Float12.v
theories/Props_Float13.v
theories/Props_Float14.v
theories/Props_Float15.v
theories/Props_Float2.v
theories/Props_Float3.v
theories/Props_Float4.v
theories/Props_Float5.v
theories/Props_Float6.v
theories/Props_Float7.v
theories/Props_Float8.v
theories/Props_Float9.v
theories/Props_Flux.v
theories/Props_Fourier.v
theories/Props_Gravity.v
theories/Props_HalfSpace.v
theories/Props_Hankel.v
theories/Props_Impedance.v
theories/Props_Induction.v
theories/Props_Interf.v
theories/Props_Interior.v
theories/Props_Late.v
theories/Props_Layered.v
theories/Props_Limits.v
theories/Props_Linear.v
theories/Props_Linkage.v
theories/Props_Loop.v
theories/Props_LoopFar.v
theories/Props_McNeill.v
theories/Props_Mirror.v
theories/Props_Oksar.v
theories/Props_Plot.v
theories/Props_Power.v
theories/Props_Prism.v
theories/Props_PrismC.v
theories/Props_RTE.v
theories/Props_Reciprocity.v
theories/Props_Relations.v
theories/Props_Scaling.v
theories/Props_Setters.v
theories/Props_Sign.v
theories/Props_Spatial.v
theories/Props_Special.v
theories/Props_Static.v
theories/Props_Super.v
theories/Props_Symmetry.v
theories/Props_TDEM.v
theories/Props_TPower.v
theories/Props_Utils.v
theories/Props_Volterra.v
theories/Props_Wires.v
theories/PyVal.v
theories/Radial.v
theories/SpecFun.v
theories/Spec_Alias.v
theories/Spec_Alias2.v
theories/Spec_Arrays.v
theories/Spec_Arrays2.v
theories/Spec_Arrays3.v
theories/Spec_Arrays4.v
theories/Spec_Ball.v
theories/Spec_Batch.v
theories/Spec_Construct.v
theories/Spec_Contracts.v
theories/Spec_Depth.v
theories/Spec_Electrodes.v
theories/Spec_FDEM.v
theories/Spec_Far.v
theories/Spec_Float.v
theories/Spec_Float2.v
theories/Spec_Float3.v
theories/Spec_Float4.v
theories/Spec_Float5.v
theories/Spec_Float6.v
theories/Spec_Float7.v
theories/Spec_Float8.v
theories/Spec_Float9.v
theories/Spec_Flux.v
theories/Spec_Fourier.v
theories/Spec_HalfSpace.v
theories/Spec_Hankel.v
theories/Spec_Impedance.v
theories/Spec_Induction.v
theories/Spec_Interf.v
theories/Spec_Interior.v
theories/Spec_Jump.v
theories/Spec_Layered.v
theories/Spec_Limits.v
theories/Spec_Linear.v
theories/Spec_Linkage.v
theories/Spec_Loop.v
theories/Spec_McNeill.v
theories/Spec_Mirror.v
theories/Spec_Oksar.v
theories/Spec_Plot.v
theories/Spec_Power.v
theories/Spec_Prism.v
theories/Spec_RTE.v
theories/Spec_RTE2.v
theories/Spec_Scaling.v
theories/Spec_Setters.v
theories/Spec_Special.v
theories/Spec_Static.v
theories/Spec_Super.v
theories/Spec_Symmetry.v
theories/Spec_TDEM.v
theories/Spec_Volterra.v
theories/Spec_Wires.v
theories/TripleParam.v
theories/Vec3.v
