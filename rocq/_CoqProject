-Q theories Verif
theories/Base.v
theories/Linear.v
theories/Spec.v
theories/MCore.v
theories/MSim.v
theories/PCore.v
theories/PSim.v
theories/PEx.v
theories/PropsCore.v
theories/PropsSolve.v
theories/PropsLin.v
theories/MHeap.v
theories/PropsState.v
theories/MFilter.v
theories/PFilter.v
theories/PTanh.v
theories/PropsFilter.v
theories/PropsNl.v
theories/PropsIter.v
theories/MOpt.v
theories/PDiff.v
theories/PImpl.v
theories/PGrad.v
theories/PExOpt.v
theories/PropsGrad.v
theories/PropsGradNl.v
theories/PropsGradHz.v
theories/PropsGradTab.v
theories/POpt.v
theories/PropsOpt.v
theories/PropsOpt2.v
theories/PropsOpt3.v
theories/MMode.v
theories/PMode.v
theories/PropsFlux.v
theories/PropsMode.v
theories/PropsScan.v
theories/PropsStore.v
theories/MStruct.v
theories/PropsStruct.v
theories/MUtils.v
theories/PropsUtils.v
theories/PropsPml.v
theories/PSym.v
theories/PropsSym.v
theories/PropsUnit.v
theories/PropsRev.v
theories/PropsAscent.v
theories/PropsModes.v
theories/MPlot.v
theories/PropsPlot.v
theories/PropsShots.v
theories/PropsSymOpt.v
theories/PropsResume.v
theories/PropsFlat.v
theories/MDevice.v
theories/PropsDevice.v
theories/PropsTight.v
theories/MSpectrum.v
theories/PropsSpectrum.v
theories/PWeak.v
theories/PropsWeak.v
theories/PNewton.v
theories/PropsNewton.v
theories/PropsPower.v
theories/PropsNlPower.v
theories/MStats.v
theories/PropsStats.v
theories/PropsData.v
theories/PropsAdam.v
theories/MFloat.v
theories/PropsFloat.v
theories/MFloatGrid.v
theories/PropsFloatGrid.v
theories/PSolv.v
theories/PropsSolv.v
theories/PSymNl.v
theories/PropsSymNl.v
theories/MFloatFilter.v
theories/PropsFloatFilter.v
theories/PropsWave.v
theories/PropsAccuracy.v
theories/PropsSymKerr.v
theories/MEqual.v
theories/PropsEqual.v
theories/PropsDeviceHz.v
theories/PropsRest.v
theories/MFloatStep.v
theories/PropsFloatStep.v
theories/MConst.v
theories/PropsUnits.v
theories/MFigure.v
theories/PropsFigure.v
theories/PropsGuide.v
theories/PropsFund.v
theories/PropsGuideHz.v
theories/PropsModeDep.v
theories/MNotebook.v
theories/PropsNotebook.v
theories/MAccel.v
theories/PropsAccel.v
theories/MMulti.v
theories/PropsMulti.v
theories/MWidth.v
theories/PropsWidth.v
