-Q theories Verif
theories/Arith.v
theories/LineSearch.v
theories/LineSearchSpec.v
theories/LineSearchProofs.v
theories/LineSearchReal.v
theories/Float64.v
theories/LineSearchFloat.v
theories/LineSearchRun.v
theories/Driver.v
theories/DriverProofs.v
theories/DriverProofs2.v
theories/DriverProofs3.v
theories/DriverRun.v
theories/Dispatch.v
theories/Toys.v
theories/DriverWitness.v
theories/PropertiesLineSearch.v
theories/PropertiesDriver.v
theories/ChemPot.v
theories/ChemPotProofs.v
theories/PropertiesChemPot.v
theories/MVector.v
theories/Newton.v
theories/Mpi.v
theories/MpiProofs.v
theories/Containers.v
theories/GatherFacts.v
theories/Occupation.v
theories/PropertiesOccupation.v
theories/Erf.v
theories/Smearing.v
theories/SmearingProofs.v
theories/SmearingProofs2.v
theories/SmearingUse.v
theories/SmearingFind.v
theories/SmearingFacts.v
theories/PropertiesSmearing.v
theories/LinAlg.v
theories/Descent.v
theories/DescentProofs.v
theories/DescentFacts.v
theories/GradEtaFacts.v
theories/PropertiesDescent.v
theories/Geodesic.v
theories/GeodesicProofs.v
theories/PropertiesGeodesic.v
theories/DriverInv.v
theories/UsRun.v
theories/UsRunProofs.v
theories/UsCount.v
theories/UsRunFacts.v
theories/UsExample.v
theories/PropertiesRun.v
theories/LapackMem.v
theories/LapackMemProofs.v
theories/Cholesky.v
theories/LapackElt.v
theories/LapackFloat.v
theories/LapackFacts.v
theories/PropertiesLapack.v
theories/Layout.v
theories/Exchange.v
theories/EnvSwitch.v
theories/Logger.v
theories/Format.v
theories/OpIterator.v
theories/Teter.v
theories/PropertiesUtils.v
theories/MatFun.v
theories/Curve.v
theories/CurveProofs.v
theories/CurveMain.v
theories/CurveMu.v
theories/Spectral.v
theories/Stationary.v
theories/CurveExample.v
theories/PropertiesCurve.v
theories/FloatMono.v
theories/SmearFloat.v
theories/SmearFloatProofs.v
theories/CountFloat.v
theories/FloatSearch.v
theories/FloatLive.v
theories/FloatMain.v
theories/FloatLibm.v
theories/CountError.v
theories/PropertiesFloat.v
theories/StepMem.v
theories/StepProofs.v
theories/StepMain.v
theories/StepTrial.v
theories/StepLine.v
theories/StepExample.v
theories/PropertiesStep.v
theories/Handles.v
theories/HandlesProofs.v
theories/Datatype.v
theories/DatatypeProofs.v
theories/Device.v
theories/DeviceProofs.v
theories/PropertiesHandles.v
theories/StepLog.v
theories/StepLogProofs.v
theories/PropertiesLog.v
theories/HeapStep.v
theories/HeapProofs.v
theories/HeapRun.v
theories/HeapTrial.v
theories/HeapExample.v
theories/PropertiesHeap.v
theories/Parallel.v
theories/ParKernels.v
theories/ParExample.v
theories/PropertiesPar.v
theories/Simulate.v
theories/Distribution.v
theories/SumOrder.v
theories/PropertiesDist.v
theories/SelfConsistent.v
theories/PropertiesScf.v
theories/Success.v
theories/PropertiesSuccess.v
theories/DeviceStep.v
theories/DeviceStepProofs.v
theories/DeviceSpaces.v
theories/PropertiesDevice.v
theories/Helpers.v
theories/HelpersProofs.v
theories/PropertiesHelpers.v
theories/SimulateRel.v
theories/MemRun.v
theories/MemGeo.v
theories/MemRunProofs.v
theories/MemRunMain.v
theories/MemExample.v
theories/PropertiesMemRun.v
theories/NumStep.v
theories/NumRun.v
theories/ShapeStep.v
theories/ShapeRun.v
theories/ShapeMain.v
theories/ShapeExample.v
theories/NumExact.v
theories/PropertiesShape.v
theories/NumValues.v
theories/KernelError.v
theories/SlopeError.v
theories/RoundingExample.v
theories/TreeError.v
theories/PropertiesRounding.v
theories/LogFile.v
theories/PropertiesLogFile.v
theories/IntSizes.v
theories/PropertiesSizes.v
theories/Lifetime.v
theories/PropertiesLifetime.v
theories/Singleton.v
theories/PropertiesSingleton.v
theories/DeviceCopy.v
theories/PropertiesDeviceCopy.v
theories/Laps.v
theories/PropertiesLaps.v
