-Q theories Verif
theories/Base.v
theories/ListFacts.v
theories/LayoutModel.v
theories/LayoutSpec.v
theories/LayoutProofs.v
theories/LayoutModes.v
theories/LayoutMore.v
theories/LayoutProperties.v
theories/WrapModel.v
theories/WrapProofs.v
theories/DomainModel.v
theories/DomainFill.v
theories/DomainGeom.v
theories/DomainTargets.v
theories/DomainHome.v
theories/DomainAssign.v
theories/DomainProperties.v
theories/QSum.v
theories/WindowModel.v
theories/WindowStencil.v
theories/WindowSpread.v
theories/WindowKernels.v
theories/WindowAxis.v
theories/WindowNative.v
theories/WindowApi.v
theories/WindowPoints.v
theories/WindowGrad.v
theories/WindowTranslate.v
theories/WindowTables.v
theories/WindowProperties.v
theories/WindowProperties2.v
theories/WindowProperties3.v
theories/WindowProperties4.v
theories/MeshModel.v
theories/MeshAssign.v
theories/MeshRoute.v
theories/MeshPaint.v
theories/MeshTile.v
theories/MeshDistributed.v
theories/MeshProperties.v
theories/MeshProperties2.v
theories/MeshGrad.v
theories/MeshProperties3.v
theories/MeshResample.v
theories/MeshProperties4.v
theories/CacheModel.v
theories/RingModel.v
theories/FieldModel.v
theories/FieldFacts.v
theories/FieldProperties.v
theories/FieldSort.v
theories/FieldResample.v
theories/FieldNorm.v
theories/FourierModel.v
theories/FourierFacts.v
theories/FourierProperties.v
theories/FourierReal.v
theories/RanluxModel.v
theories/RanluxProofs.v
theories/NoiseModel.v
theories/NoiseFacts.v
theories/NoiseProofs.v
theories/NoiseLow.v
theories/InvariantModel.v
theories/InvariantBits.v
theories/InvariantFacts.v
theories/InvariantOrder.v
theories/InvariantProofs.v
theories/InvariantIndex.v
theories/SchedModel.v
theories/ToolsModel.v
theories/ToolsProofs.v
theories/CoarrayModel.v
theories/CoarrayProofs.v
theories/NdModel.v
theories/NdProofs.v
theories/NdSums.v
theories/NdProperties.v
theories/MeshTranspose.v
theories/FieldDot.v
theories/BufferModel.v
theories/BufferProofs.v
theories/BufferProperties.v
theories/FloatModel.v
theories/FloatRound.v
theories/FloatDomain.v
theories/FloatProperties.v
theories/FloatNearest.v
theories/FloatPaint.v
theories/FloatCic.v
theories/FloatCicProperties.v
theories/FwindowModel.v
theories/FwindowProperties.v
theories/MeshMoved.v
theories/LicModel.v
theories/LicProofs.v
theories/LicProperties.v
theories/LegacyModel.v
theories/LegacyProofs.v
theories/LegacyProperties.v
theories/LegacyTsc.v
theories/LegacyMesh.v
theories/TransferModel.v
theories/TransferProperties.v
theories/MeshTangent.v
theories/TangentProperties.v
theories/EngineModel.v
theories/EngineProperties.v
theories/TangentDecompose.v
theories/EnginePaint.v
theories/LanczosModel.v
theories/LanczosProperties.v
theories/UfuncModel.v
theories/UfuncProperties.v
theories/LegacyState.v
theories/LegacyStateProperties.v
theories/NbodyModel.v
theories/NbodyProperties.v
theories/NbodySteps.v
theories/NbodyStepsProperties.v
theories/NbodyReal.v
theories/NbodyPoisson.v
theories/NbodyPoissonReal.v
theories/CreateModel.v
theories/CreateProperties.v
theories/KleinModel.v
theories/KleinProperties.v
theories/GradModel.v
theories/GradProperties.v
theories/GradField.v
theories/NbodyOrder.v
theories/CoordsModel.v
theories/CoordsProperties.v
theories/PowerModel.v
theories/PowerProperties.v
theories/FloatSpline.v
theories/FloatSplineError.v
theories/FloatSplineAxis.v
theories/FloatSplineSlope.v
theories/FloatSplineFirst.v
theories/FloatSplineProperties.v
theories/WindowTableGrad.v
theories/EngineChain.v
theories/FieldCdot.v
theories/FloatOpen.v
theories/NbodyConverge.v
theories/MachineModel.v
theories/MachineDomain.v
theories/WindowResized.v
theories/NbodyRanks.v
theories/MachineWindow.v
theories/CoarrayObjects.v
theories/CoarrayHalo.v
theories/WindowNames.v
theories/ToolsCalls.v
theories/LegacyOps.v
theories/LanczosKernels.v
theories/LanczosReal.v
theories/InvariantArray.v
