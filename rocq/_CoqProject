-Q theories Verif
theories/Res.v
theories/LobModel.v
theories/LobSpec.v
theories/LobProofs.v
theories/LobProps.v
theories/SpecialFns.v
theories/AdModel.v
theories/AdSpec.v
theories/AdProofs.v
theories/AdGradient.v
theories/AdProps.v
theories/DateModel.v
theories/CalModel.v
theories/CalProofs.v
theories/CalProps.v
theories/DayCountModel.v
theories/DayCountProps.v
theories/InterpModel.v
theories/InterpProofs.v
theories/InterpProps.v
theories/SplineProps.v
theories/CurveProps.v
theories/RootModel.v
theories/RootProps.v
theories/FftModel.v
theories/FftProps.v
theories/RList.v
theories/StatModel.v
theories/StatProps.v
theories/PayoffModel.v
theories/PayoffProps.v
theories/BsmModel.v
theories/BsmProofs.v
theories/BsmProps.v
theories/BachHestonProps.v
theories/FdModel.v
theories/FdProofs.v
theories/FdProps.v
theories/AcctModel.v
theories/CurrencyTable.v
theories/AcctProps.v
theories/SimModel.v
theories/SimProps.v
theories/GdModel.v
theories/GdProps.v
theories/NssModel.v
theories/NssProps.v
theories/ActModel.v
theories/ActProps.v
theories/KnnModel.v
theories/KnnProps.v
theories/MatLib.v
theories/RegModel.v
theories/RegProps.v
theories/LassoProps.v
theories/LogitProps.v
theories/DistModel.v
theories/DistDisc.v
theories/RGen.v
theories/DistPois.v
theories/DistCont.v
theories/DistGauss.v
theories/DistGamma.v
theories/DistChi.v
theories/DistNew.v
theories/DistCf.v
theories/DistEnt.v
theories/CountryModel.v
theories/CountrySpec.v
theories/CountryProps.v
theories/CountryMarket.v
theories/CountryLunar.v
theories/CountryMoon.v
theories/IvModel.v
theories/IvMath.v
theories/IvExp.v
theories/IvCubic.v
theories/IvBlack.v
theories/IvStep.v
theories/IvGuess.v
theories/IvApi.v
theories/IvConst.v
theories/FgnModel.v
theories/FgnMath.v
theories/FgnProps.v
theories/FracModel.v
theories/FracProps.v
theories/QuadModel.v
theories/QuadMath.v
theories/QuadProps.v
theories/HestonOde.v
theories/HestonPde.v
theories/HestonTrap.v
theories/HestonProps.v
theories/IsoModel.v
theories/IsoTable.v
theories/IsoProps.v
theories/BookModel.v
theories/BookProps.v
theories/DotModel.v
theories/DotProps.v
theories/SimMoments.v
theories/SimLimits.v
theories/GaussExp.v
theories/RiskNeutral.v
theories/McPrice.v
theories/McLimit.v
theories/FdLimit.v
theories/FdConverge.v
theories/FdPrice.v
theories/F64Model.v
theories/F64Base.v
theories/F64Sum.v
theories/F64Order.v
theories/F64Quantile.v
theories/F64Seq.v
theories/F64Interp.v
theories/F64RootModel.v
theories/F64Root.v
theories/F64Brent.v
theories/F64AdModel.v
theories/F64Ad.v
theories/F64AdOps.v
theories/F64VarModel.v
theories/F64Var.v
theories/F64QuadModel.v
theories/F64Quad.v
theories/F64PayModel.v
theories/F64Pay.v
theories/F64SimModel.v
theories/F64Sim.v
theories/F64DayModel.v
theories/F64Day.v
theories/F64FftModel.v
theories/F64Fft.v
theories/F64FdModel.v
theories/F64Fd.v
theories/F64FdGrid.v
theories/F64FdPrice.v
theories/F64ActModel.v
theories/F64Act.v
theories/F64ActMore.v
theories/F64BsmModel.v
theories/F64Bsm.v
theories/F64CashModel.v
theories/F64Cash.v
theories/F64KnnModel.v
theories/F64Knn.v
theories/F64GdModel.v
theories/F64Gd.v
theories/CoverProps.v
theories/F64Cov.v
theories/F64Corr.v
theories/F64SkewModel.v
theories/F64Skew.v
theories/F64Sym.v
