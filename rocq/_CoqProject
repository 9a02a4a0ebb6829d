-Q theories Verif
theories/Base.v
theories/MapSpec.v
theories/AvlModel.v
theories/AvlProofs.v
theories/AvlRemove.v
theories/AvlQueries.v
theories/PropsTree.v
theories/LlrbModel.v
theories/LlrbProofs.v
theories/PropsLlrb.v
theories/SetModel.v
theories/SetProofs.v
theories/PropsSet.v
theories/SortModel.v
theories/SortProofs.v
theories/PropsSort.v
theories/KeySetModel.v
theories/KeySetProofs.v
theories/PropsKeySet.v
theories/TableModel.v
theories/TableProofs.v
theories/PropsTable.v
theories/SlabModel.v
theories/PropsSlab.v
theories/ListModel.v
theories/PropsList.v
theories/LeModel.v
theories/PropsLe.v
theories/PropsCalcCache.v
theories/GradModel.v
theories/PropsGrad.v
theories/ListenModel.v
theories/PropsListen.v
theories/AxisModel.v
theories/AxisSpec.v
theories/AxisProofs.v
theories/PropsAxis.v
theories/TaskModel.v
theories/PropsTask.v
theories/ConstStrModel.v
theories/PropsConstStr.v
theories/VariantModel.v
theories/PropsVariant.v
theories/TransposeModel.v
theories/PropsTranspose.v
theories/MathModel.v
theories/PropsMath.v
theories/EventModel.v
theories/PropsEvent.v
theories/TrafficModel.v
theories/PropsTraffic.v
theories/PropsWim.v
theories/RngModel.v
theories/PropsRng.v
theories/PropsNormal.v
theories/DiceModel.v
theories/PropsDice.v
theories/HandleModel.v
theories/PropsHandle.v
theories/LinBase.v
theories/LinDet.v
theories/GaussModel.v
theories/GaussProofs.v
theories/PropsGauss.v
theories/LuModel.v
theories/LuProofs.v
theories/PropsLu.v
theories/CholModel.v
theories/CholProofs.v
theories/LdlProofs.v
theories/PropsChol.v
theories/LinReal.v
theories/QrModel.v
theories/QrProofs.v
theories/PropsQr.v
theories/EigModel.v
theories/EigProofs.v
theories/QlProofs.v
theories/EigUse.v
theories/PropsEig.v
theories/LibopModel.v
theories/PropsLibop.v
theories/NumModel.v
theories/NumProofs.v
theories/NumZero.v
theories/PropsNum.v
theories/StressModel.v
theories/StressProofs.v
theories/PropsStress.v
theories/StressReal.v
theories/ThermalModel.v
theories/ThermalProofs.v
theories/ThermalAsm.v
theories/ThermalStep.v
theories/ThermalInterp.v
theories/PropsThermal.v
theories/ThermalReal.v
theories/FftModel.v
theories/FftSpec.v
theories/FftProofs.v
theories/PropsFft.v
theories/FftReal.v
theories/MatrixModel.v
theories/MatrixSpec.v
theories/MatrixProofs.v
theories/PropsMatrix.v
theories/SvdModel.v
theories/SvdMath.v
theories/SvdHouse.v
theories/SvdBidiag.v
theories/SvdQr.v
theories/SvdUse.v
theories/SvdSolve.v
theories/PropsSvd.v
theories/SvdReal.v
theories/BstModel.v
theories/BstProofs.v
theories/BstRemove.v
theories/BstHist.v
theories/PropsBst.v
theories/Dbl.v
theories/StatModel.v
theories/StatPoly.v
theories/StatCdf.v
theories/StatInv.v
theories/PropsStat.v
theories/SlistModel.v
theories/PropsSlist.v
theories/BowlModel.v
theories/PropsBrent.v
theories/PropsBrentReal.v
theories/PropsDsm.v
theories/KalmanModel.v
theories/KalmanProofs.v
theories/PropsKalman.v
theories/DeflgradModel.v
theories/CgProofs.v
theories/DeflgradProofs.v
theories/PropsDeflgrad.v
theories/DriverModel.v
theories/PropsDriver.v
theories/SmatModel.v
theories/SmatProofs.v
theories/SmatFill.v
theories/PropsSmat.v
theories/IncholModel.v
theories/IncholProofs.v
theories/PropsInchol.v
theories/PcgModel.v
theories/PcgMath.v
theories/PcgProofs.v
theories/PropsPcg.v
theories/BcModel.v
theories/BcProofs.v
theories/PropsBc.v
theories/MeshModel.v
theories/MeshProofs.v
theories/MeshP2.v
theories/PropsMesh.v
theories/ShapeModel.v
theories/PropsShape.v
theories/StiffModel.v
theories/StiffProofs.v
theories/PropsStiff.v
theories/CoordModel.v
theories/PropsCoord.v
theories/VarModel.v
theories/PropsVar.v
theories/PropsAdapt.v
theories/PrincModel.v
theories/PropsPrinc.v
