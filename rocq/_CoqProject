-Q theories Verif
theories/Base.v
theories/Tree.v
theories/Spec.v
theories/TreeFacts.v
theories/Walk.v
theories/WalkFacts.v
theories/Traversal.v
theories/GeomFacts.v
theories/SpecTraversal.v
theories/TraversalLists.v
theories/Coverage.v
theories/CoverageThm.v
theories/ListFacts.v
theories/LevelStarts.v
theories/MergeFacts.v
theories/CheckTree.v
theories/ExampleTree.v
theories/PropsTraversal.v
theories/Fmm.v
theories/SpecFmm.v
theories/FmmFacts.v
theories/FmmThm.v
theories/PropsFmm.v
theories/TreeOfBoxes.v
theories/SpecTob.v
theories/TobFacts.v
theories/TobCoarsen.v
theories/TobThm.v
theories/ExampleTob.v
theories/PropsTob.v
theories/TreeBuild.v
theories/ArrayFacts.v
theories/BuildInv.v
theories/BuildScan.v
theories/BuildIds.v
theories/BuildSort.v
theories/BuildAdvance.v
theories/BuildRenumber.v
theories/BuildStep.v
theories/BuildNext.v
theories/BuildLoop.v
theories/BuildDone.v
theories/BuildTerm.v
theories/BuildPrune.v
theories/BuildFull.v
theories/BuildSplit.v
theories/BuildFinish.v
theories/BuildGeom.v
theories/BuildLR.v
theories/BuildBounds.v
theories/SpecBuild.v
theories/BuildSkip.v
theories/BuildThm.v
theories/BuildThm2.v
theories/ExampleBuild.v
theories/PropsBuild.v
theories/Tools.v
theories/ToolsFacts.v
theories/Monoid.v
theories/Comm.v
theories/CommFacts.v
theories/CommRuns.v
theories/PropsTools.v
theories/PropsComm.v
theories/SpecArea.v
theories/AreaQuery.v
theories/AreaFacts.v
theories/AreaMore.v
theories/AreaBuilt.v
theories/PropsArea.v
theories/Classes.v
theories/SpecClasses.v
theories/ClassFacts.v
theories/ClassThm.v
theories/RotThm.v
theories/PropsClasses.v
theories/Partition.v
theories/PartitionFacts.v
theories/PropsPartition.v
theories/LocalTree.v
theories/LocalFacts.v
theories/Distributed.v
theories/SpecDist.v
theories/DistGeom.v
theories/DistRank.v
theories/DistThm.v
theories/PropsDist.v
theories/PropsDistBuild.v
theories/Cost.v
theories/SpecCost.v
theories/CostFacts.v
theories/CostThm.v
theories/CostCalib.v
theories/PropsCost.v
theories/ParticleLists.v
theories/SpecLists.v
theories/ParticleListFacts.v
theories/PropsLists.v
theories/BuildFront.v
theories/SpecFront.v
theories/FrontFacts.v
theories/PropsFront.v
theories/Floats.v
theories/FloatFacts.v
theories/PropsFloats.v
theories/FmmGen.v
theories/SpecFmmGen.v
theories/FmmGenFacts.v
theories/FmmGenThm.v
theories/QuadKernel.v
theories/DistributedGen.v
theories/PropsFmmGen.v
theories/PropsDistGen.v
theories/DistGenThm.v
theories/DistGenRank.v
theories/PropsFmmGenBuild.v
theories/PropsDistGenBuild.v
theories/Layout.v
theories/SpecLayout.v
theories/LayoutFacts.v
theories/PropsLayout.v
theories/CommFlat.v
theories/CommFlatFacts.v
theories/CommFlatSim.v
theories/PropsCommFlat.v
theories/SpecSep.v
theories/SepFacts.v
theories/SepThm.v
theories/PropsSep.v
theories/Scan.v
theories/ScanFacts.v
theories/PropsScan.v
theories/DistRun.v
theories/DistRunThm.v
theories/DistRunGen.v
theories/PropsDistRun.v
theories/Kernel.v
theories/Device.v
theories/DeviceRules.v
theories/BuildDevice.v
theories/BuildView.v
theories/DevMorton.v
theories/DevSplitScan.v
theories/DevSplitter.v
theories/DevParticles.v
theories/DevRealloc.v
theories/DevRestrict.v
theories/DevTrip.v
theories/DeviceRuns.v
theories/BuildDeviceEnd.v
theories/DeviceFacts.v
theories/DevTake.v
theories/DevPrune.v
theories/DevSplit.v
theories/DevInfo.v
theories/DevExtents.v
theories/SpecDeviceEnd.v
theories/DeviceSeq.v
theories/DevFinish.v
theories/PropsDeviceEnd.v
theories/SpecDevice.v
theories/PropsDevice.v
theories/ListBuilder.v
theories/ListBuilderFacts.v
theories/TravDevice.v
theories/DevTravGen.v
theories/DevTravHost.v
theories/DevTrav.v
theories/SpecDeviceTrav.v
theories/DevTravThm.v
theories/PropsDeviceTrav.v
theories/SpecDeviceChain.v
theories/PropsDeviceChain.v
theories/AreaDevice.v
theories/SpecDeviceArea.v
theories/DevArea.v
theories/PropsDeviceArea.v
theories/FmmLib.v
theories/SpecFmmLib.v
theories/FmmLibFacts.v
theories/FmmLibThm.v
theories/FmmLibCtor.v
theories/ScaledQuad.v
theories/PropsFmmLib.v
theories/PropsFmmLibBuild.v
theories/TravRounded.v
theories/CoverBy.v
theories/TravAgree.v
theories/TravFloat.v
theories/SpecRounding.v
theories/TravFloatFacts.v
theories/TravFloatThm.v
theories/PropsRounding.v
theories/FloatBuild.v
theories/SpecFloatBuild.v
theories/FloatBuildFacts.v
theories/FloatBuildThm.v
theories/PropsFloatBuild.v
theories/TobLevels.v
theories/SpecTobLevels.v
theories/TobLevelsFacts.v
theories/TobLevelsThm.v
theories/ExampleTobLevels.v
theories/PropsTobLevels.v
theories/FloatEnd.v
theories/PropsFloatEnd.v
theories/SpecExtLists.v
theories/ExtListFacts.v
theories/PropsExtLists.v
theories/Invader.v
theories/SpecInvader.v
theories/InvaderFacts.v
theories/PropsInvader.v
theories/DistDevice.v
theories/SpecDistDevice.v
theories/DevDist.v
theories/DevDistMasks.v
theories/DevDistLocal.v
theories/PropsDeviceDist.v
theories/ClassDevice.v
theories/SpecClassDevice.v
theories/DevClass.v
theories/PropsDeviceClass.v
theories/ClassFloat.v
theories/ClassFloatFacts.v
theories/PropsClassFloat.v
theories/ListDevice.v
theories/SpecListDevice.v
theories/DevList.v
theories/DevListLink.v
theories/DevListFilter.v
theories/PropsDeviceList.v
theories/Plot.v
theories/SpecPlot.v
theories/PlotFacts.v
theories/PlotThm.v
theories/PropsPlot.v
theories/Transfer.v
theories/SpecTransfer.v
theories/TransferFacts.v
theories/PropsTransfer.v
theories/FmmGrad.v
theories/SpecFmmGrad.v
theories/FmmGradFacts.v
theories/PropsFmmGrad.v
theories/FmmErr.v
theories/SpecFmmErr.v
theories/FmmErrFacts.v
theories/PropsFmmErr.v
theories/SpecDeviceWhole.v
theories/PropsDeviceWhole.v
theories/DistributedLib.v
theories/SpecDistLib.v
theories/DistLibThm.v
theories/PropsDistLib.v
theories/Runner.v
theories/RunnerFacts.v
theories/PropsRunner.v
theories/BalanceFacts.v
theories/PropsBalance.v
theories/PartitionFloat.v
theories/PropsPartitionFloat.v
theories/TobWrappers.v
theories/PropsTobUniform.v
theories/PropsTobCount.v
theories/PropsTobIds.v
