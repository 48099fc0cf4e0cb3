-Q theories Verif
theories/NP.v
theories/NPReal.v
theories/KeplerModel.v
theories/ConvModel.v
theories/UnitModel.v
theories/OrbitModel.v
theories/Lists.v
theories/ConvCols.v
theories/ArraySpec.v
theories/NPToy.v
theories/PropsArray.v
theories/PropsAnomaly.v
theories/Spec.v
theories/RealBase.v
theories/KepReal.v
theories/PropsKep.v
theories/CartReal.v
theories/CartInv.v
theories/PropsCart.v
theories/AnomReal.v
theories/PropsAnomalyR.v
theories/PropsSolver.v
theories/PropsDegrees.v
theories/PropsScalar.v
theories/PropsUnit.v
theories/PropsScale.v
theories/PropsStumpff.v
theories/PropsEqui.v
theories/EllState.v
theories/PropsEquiCart.v
theories/PropsEquiv.v
theories/OrbitLists.v
theories/OrbitBase.v
theories/OrbitOps.v
theories/OrbitSetters.v
theories/OrbitInv.v
theories/NPToyN.v
theories/OrbitSpec.v
theories/PropsOrbitWidth.v
theories/PropsOrbitDirect.v
theories/OrbitGet.v
theories/PropsOrbitLazy.v
theories/PropsOrbitWrite.v
theories/PropsOrbitLost.v
theories/PropsOrbitModes.v
theories/OrbitReal.v
theories/PropsOrbitType.v
theories/PropsOrbitUpdate.v
theories/PropsOrbitUpdateR.v
theories/PropsOrbitItem.v
theories/PropsOrbitItemR.v
theories/PropsOrbitProp.v
theories/PropsOrbitPropR.v
theories/PropsOrbitAnomaly.v
theories/PropsOrbitDerived.v
theories/PropsNewton.v
theories/PropsOrbitNewton.v
theories/PropsOrbitEqui.v
theories/PropsOrbitEquiR.v
theories/FloatBase.v
theories/NPFloat.v
theories/PropsFloat.v
theories/PropsOrbitRec.v
theories/PropsOrbitCalc.v
theories/LagTrig.v
theories/LagReal.v
theories/PropsConverge.v
theories/PropsConvergeOrbit.v
theories/DtypeModel.v
theories/PropsDtype.v
theories/PropsDtypeR.v
theories/PropsDtypeEqui.v
theories/DtypeOrbit.v
theories/HeapModel.v
theories/HeapSim.v
theories/HeapSpec.v
theories/PropsHeap.v
theories/PropsFloatEll.v
theories/HypTrig.v
theories/LagHyp.v
theories/PropsConvergeHyp.v
theories/PropsConvergeHypOrbit.v
theories/PropsConvergeHypType.v
theories/PropsOrbitRead.v
theories/PropsOrbitReadR.v
theories/StrModel.v
theories/PropsOrbitStr.v
theories/PropsSymmetry.v
theories/PropsOrbitFrame.v
theories/LiveModel.v
theories/PropsOrbitLive.v
theories/PropsEquiDeg.v
theories/PropsNear.v
theories/PropsNearEqui.v
theories/FloatAcc.v
theories/PropsFloatAcc.v
theories/PropsFloatAnom.v
theories/FloatLag.v
theories/PropsFloatLag.v
theories/PropsFloatProp.v
theories/LagRobust.v
theories/FloatLagG.v
theories/FloatConvG.v
theories/PropsFloatLagG.v
theories/PropsFloatPropG.v
theories/FloatVec.v
theories/FloatC2K.v
theories/FloatC2KCol.v
theories/FloatC2KAcc.v
theories/PropsFloatC2K.v
theories/PropsFloatRT.v
theories/ElemPert.v
theories/PropsFloatRTK.v
theories/FlowPert.v
theories/FlowTraj.v
theories/PropsFloatPropC.v
theories/NewtonUniq.v
theories/PropsNewtonUniq.v
theories/NPB64.v
theories/PropsB64.v
theories/B64Sim.v
theories/B64Pi.v
theories/B64Lib.v
theories/B64K2C.v
theories/B64C2K.v
theories/PropsB64Conv.v
theories/PropsB64Orbit.v
theories/PropsB64Deg.v
theories/PropsB64Period.v
theories/PropsFloatScale.v
theories/PropsB64Scale.v
theories/PropsOrbitScale.v
theories/PropsEquiScale.v
theories/PropsOrbitDegrees.v
theories/PropsConserve.v
theories/PropsPole.v
theories/PropsAlone.v
