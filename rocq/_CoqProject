-Q theories Verif
theories/Num.v
theories/State.v
theories/DD.v
theories/Gates.v
theories/RNum.v
theories/Wf.v
theories/Sums.v
theories/Err.v
theories/Inv.v
theories/Wp.v
theories/Make.v
theories/Add.v
theories/MulV.v
theories/Canon.v
theories/MM.v
theories/MM2.v
theories/MMTol.v
theories/MMTol2.v
theories/GateP.v
theories/Spec.v
theories/Readout.v
theories/StateP.v
theories/Kron.v
theories/GC.v
theories/GCP.v
theories/Measure.v
theories/MeasureP.v
theories/SpecP.v
theories/MeasAllP.v
theories/MeasOneP.v
theories/ApplyP.v
theories/Api.v
theories/ApiP.v
theories/Obs.v
theories/Props1.v
theories/Props2.v
theories/Prog.v
theories/KronM.v
theories/Async.v
theories/MPI.v
theories/MPIP.v
theories/RingP.v
theories/Coll.v
theories/MPIB.v
theories/BcastP.v
theories/MPIM.v
theories/MPIMP.v
theories/Large.v
theories/LargeP.v
theories/Circuit.v
theories/GateMat.v
theories/CacheP.v
theories/Alloc.v
theories/Props3.v
theories/ErrLin.v
theories/Examples.v
theories/Shor.v
theories/Wsq.v
theories/Epoch.v
theories/Race.v
theories/Prune.v
theories/PruneP.v
theories/PruneX.v
theories/Backend.v
theories/BackSpec.v
theories/BackendP.v
theories/BackendQ.v
theories/BackendX.v
theories/Swap.v
theories/SwapP.v
theories/SwapX.v
theories/BackLink.v
theories/Sampler.v
theories/SamplerP.v
theories/Estimator.v
theories/PauliP.v
theories/EstimatorP.v
theories/EstimatorQ.v
theories/EstimatorR.v
theories/EstimatorS.v
theories/EstimatorT.v
theories/EstimatorM.v
theories/EstimatorX.v
theories/Qiskit.v
theories/QiskitP.v
theories/BackendY.v
theories/GCX.v
theories/Merge.v
theories/MergeP.v
theories/MergeX.v
theories/Grover.v
theories/GroverL.v
theories/GroverP.v
theories/Sched.v
theories/SchedP.v
theories/Steal.v
theories/StealP.v
theories/Print.v
theories/PrintP.v
theories/PrintX.v
theories/SafeA.v
theories/SafeW.v
theories/SafeO.v
theories/SafeG.v
theories/SafeM.v
theories/SafeR.v
theories/SafeP.v
theories/SafeC.v
theories/SafeF.v
theories/SafeX.v
theories/FpA.v
theories/FpE.v
theories/FpW.v
theories/FpM.v
theories/FpAdd.v
theories/FpMul.v
theories/FpMM.v
theories/FpMM2.v
theories/FpGate.v
theories/FpState.v
theories/FpRead.v
theories/FpMeas.v
theories/FpOne.v
theories/FpGC.v
theories/FpKron.v
theories/FpCirc.v
theories/FpProp.v
theories/FpMeasP.v
theories/FpOneP.v
theories/FpMMP.v
theories/FpLin.v
theories/FpF.v
theories/FpX.v
theories/FpQ.v
theories/FpMMX.v
theories/FpMMQ.v
theories/FpMeasX.v
theories/FpOneX.v
theories/FpBack.v
theories/FpBackS.v
theories/FpBackX.v
theories/Seeds.v
theories/SeedsP.v
theories/EstVar.v
theories/EstVarS.v
theories/EstVarP.v
theories/FpEst.v
theories/FpFreq.v
