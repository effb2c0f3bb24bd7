-Q theories Verif

theories/Base.v
theories/Num.v
theories/Linalg.v
theories/LinalgProofs.v
theories/LinalgProofs2.v
theories/LinalgSpec.v
theories/LinalgModes.v
theories/PropLinalg.v
theories/Stencils.v
theories/StencilProofs.v
theories/StencilProofs2.v
theories/Cheb.v
theories/ChebPoly.v
theories/ChebGrad.v
theories/ChebMat.v
theories/ChebPinv.v
theories/ChebPinv2.v
theories/ChebPinv3.v
theories/ChebDct.v
theories/ChebFacts.v
theories/ChebPinv4.v
theories/Compo.v
theories/PropCheb.v
theories/CompoProofs.v
theories/CompoFacts.v
theories/CompoFacts2.v
theories/CompoFacts3.v
theories/PropCompo.v
theories/Fourier.v
theories/FourierFacts.v
theories/FourierProofs.v
theories/FourierOps.v
theories/FourierSpec.v
theories/PropFourier.v
theories/FourierF64.v
theories/PropF64.v
theories/NdArray.v
theories/NdArrayFacts.v
theories/Bases.v
theories/AxisFacts.v
theories/BaseLin.v
theories/LibBase.v
theories/AxisProps.v
theories/PropAxis.v
theories/Space.v
theories/SpaceFacts.v
theories/SpaceBases.v
theories/SpaceStages.v
theories/Witness.v
theories/PropSpace.v
theories/MatOp.v
theories/SpaceOrder.v
theories/PropSpace2.v
theories/PropSpace3.v
theories/SpaceDeriv.v
theories/PropSpace4.v
theories/SpaceDeriv3.v
theories/PropSpace5.v
theories/PropSpace6.v
theories/PropSpace7.v
theories/MpiSem.v
theories/Decomp.v
theories/MpiSpec.v
theories/DistFacts.v
theories/TabFacts.v
theories/DecompFacts.v
theories/DistNew.v
theories/MergeFacts.v
theories/MpiRuns.v
theories/PropMpi.v
theories/PropMpi2.v
theories/PropMpi3.v
theories/PropMpi4.v
theories/SpaceMpi.v
theories/PropHandler.v
theories/SpaceMpiFacts.v
theories/PropSpaceMpi.v
theories/PropSpaceMpi2.v
theories/Utils.v
theories/PropUtils.v
theories/Elements.v
theories/ElemFacts.v
theories/PropElements.v
theories/PropElements2.v
theories/PropElements3.v
theories/PropElements4.v
theories/PropElements5.v
theories/PropElements6.v
theories/PropElements7.v
theories/PropElements8.v
theories/ExtLib.v
theories/AnyArith.v
theories/ExtFacts.v
theories/AnyBase.v
theories/PropAny.v
theories/PropAny2.v
theories/PropAny3.v
theories/ArithSteps.v
theories/Rounding.v
theories/RndTdma.v
theories/RndDirichlet.v
theories/PropRound.v
theories/RndGrad.v
theories/RndFinite.v
theories/PropRound2.v
theories/RndFourier.v
theories/PropRound3.v
theories/RndNeumann.v
theories/PropRound4.v
theories/LibAcc.v
theories/RndCheb.v
theories/RndFft.v
theories/RndR2c.v
theories/RndCompo.v
theories/PropTrans.v
theories/RndFinite2.v
theories/LibIdeal.v
theories/PropTrans2.v
theories/RndAxis.v
theories/RndOps.v
theories/SpaceAcc.v
theories/RndSpace.v
theories/PropTrans3.v
theories/RndAxis2.v
theories/RndOps2.v
theories/SpaceAcc2.v
theories/RndSpace2.v
theories/PropTrans4.v
theories/SpaceVal.v
theories/RndDN.v
theories/RndDN2.v
theories/RndVal.v
theories/RndVal2.v
theories/PropTrans5.v
theories/PropTrans6.v
theories/RndGrad2.v
theories/GradSpec.v
theories/GradOp.v
theories/RndGrad3.v
theories/RndGrad4.v
theories/RndGrad5.v
theories/RndGrad6.v
theories/PropGrad.v
theories/OrthoSpec.v
theories/RndOrtho.v
theories/PropOrtho.v
theories/MpiMix.v
theories/Examples.v
theories/PropExample.v
theories/PropExample2.v
theories/PropExample3.v
theories/Field.v
theories/FieldFacts.v
theories/PropField.v
theories/PropField2.v
theories/PropField3.v
theories/PropDistF64.v
theories/MatRel.v
theories/MatF64.v
theories/MatCheb.v
theories/MatPinv.v
theories/MatSten.v
theories/PropMat.v
theories/MatFourier.v
theories/PropMat2.v
theories/PropLen.v
theories/GridF64.v
theories/PropGrid.v
theories/RndScale.v
theories/PropGrad2.v
theories/PropDistF64b.v
theories/StencilInv.v
theories/PropMat3.v
theories/F32.v
theories/PropF32.v
theories/SpaceVal32.v
theories/RndVal32.v
theories/PropTrans7.v
theories/RndSpace32.v
theories/PropTrans8.v
theories/RndSpace2_32.v
theories/PropTrans9.v
theories/GradSpec32.v
theories/RndGrad32.v
theories/RndOrtho32.v
theories/PropGrad3.v
theories/PropOrtho2.v
theories/RndScale32.v
theories/PropGrad4.v
theories/PropDN.v
theories/PropDistF32.v
theories/RndOrtho3.v
theories/PropOrtho3.v
theories/RndOrtho4.v
theories/PropOrtho4.v
theories/PropC2c.v
theories/PropDistOrtho.v
theories/Display.v
theories/PropDisplay.v
theories/Trips.v
theories/PropTrips.v
theories/PropTrips2.v
theories/PropTrips3.v
theories/PropTrips4.v
theories/MpiProgram.v
theories/PropProgram.v
theories/PropProgram2.v
theories/ParProgram.v
theories/PropParProgram.v
theories/PropParProgram2.v
theories/PropMpiSem.v
theories/Cases.v
