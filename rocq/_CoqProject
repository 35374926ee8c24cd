-Q theories Verif
theories/Base.v
theories/Fld.v
theories/Witness.v
theories/SolversModel.v
theories/SolversSpec.v
theories/SolversProofs.v
theories/SolversProofs2.v
theories/SolversProofs3.v
theories/SolversProofs4.v
theories/SolversProofs5.v
theories/Dominant.v
theories/SolversProperties.v
theories/AxesModel.v
theories/AxesProofs.v
theories/AxesProperties.v
theories/SparseModel.v
theories/SparseSpec.v
theories/SparseProofs.v
theories/SparseProofs2.v
theories/SparseProofs3.v
theories/SparseProperties.v
theories/TPModel.v
theories/TPSpec.v
theories/TPProofs.v
theories/TPProofs2.v
theories/TPProofs3.v
theories/TPProofs4.v
theories/ExtractModel.v
theories/ExtractProofs.v
theories/TPProperties.v
theories/FourierModel.v
theories/FourierSpec.v
theories/FourierProofs.v
theories/FourierProofs2.v
theories/FourierProofs3.v
theories/FourierProofs4.v
theories/Complex.v
theories/FourierProperties.v
theories/MaskModel.v
theories/MaskProofs.v
theories/MaskProperties.v
theories/RPoly.v
theories/StencilModel.v
theories/StencilModel2.v
theories/StencilSpec.v
theories/StencilProofs.v
theories/StencilProofs2.v
theories/StencilProofs3.v
theories/StencilProofs4.v
theories/StencilProofs5a.v
theories/StencilProofs5.v
theories/StencilProofs6.v
theories/StencilProofs7.v
theories/StencilProofs8.v
theories/StencilProofs9.v
theories/StencilProperties.v
theories/JacobiModel.v
theories/JacobiProofs.v
theories/JacobiProofs2.v
theories/JacobiProofs3.v
theories/JacobiProofs4.v
theories/JacobiProofs5.v
theories/JacobiProperties.v
theories/ProductsModel.v
theories/ProductsProofs.v
theories/ProductsProperties.v
theories/DomainModel.v
theories/DomainProofs.v
theories/DomainProperties.v
theories/IntegratorsModel.v
theories/IntegratorsProofs.v
theories/IntegratorsProofs2.v
theories/IntegratorsProofs3.v
theories/IntegratorsProofs4.v
theories/IntegratorsProofs5.v
theories/IntegratorsProofs6.v
theories/IntegratorsProperties.v
theories/IntegratorsProperties2.v
theories/EvalModel.v
theories/EvalProofs.v
theories/EvalProperties.v
theories/EvalModel2.v
theories/EvalSpec2.v
theories/EvalProofs2.v
theories/EvalProofs3.v
theories/EvalProperties2.v
theories/SizesModel.v
theories/SizesProofs.v
theories/SizesProperties.v
theories/CompositeModel.v
theories/CompositeProofs.v
theories/CompositeProperties.v
theories/DealiasModel.v
theories/DealiasProperties.v
theories/FormsModel.v
theories/FormsSpec.v
theories/FormsProofs.v
theories/FormsProofs2.v
theories/FormsProofs3.v
theories/FormsProofs4.v
theories/FormsWitness.v
theories/FormsProperties.v
theories/CoordModel.v
theories/CoordSpec.v
theories/CoordProofs.v
theories/CoordProofs2.v
theories/CoordProofs3.v
theories/CoordProofs4.v
theories/CoordProofs5.v
theories/CoordProofs6.v
theories/CoordProofs7.v
theories/CoordProofs8.v
theories/CoordProofs9.v
theories/CoordWitness.v
theories/CoordProperties.v
theories/CoordExamples.v
theories/MatrixSpec.v
theories/MatrixProofs.v
theories/MatrixProofs2.v
theories/LegMatrixModel.v
theories/LegMatrixSpec.v
theories/LegMatrixProofs.v
theories/LegMatrixProofs2.v
theories/LegMatrixProofs3.v
theories/LegMatrixProofs4.v
theories/LegMatrixProofs5.v
theories/LegMatrixProofs6.v
theories/LegMatrixProperties.v
theories/ChebMatrixProofs.v
theories/ChebMatrixModel.v
theories/ChebMatrixSpec.v
theories/ChebMatrixProofs2.v
theories/ChebMatrixProofs3.v
theories/ChebMatrixProofs4.v
theories/ChebMatrixProofs5.v
theories/ChebMatrixProofs6.v
theories/ChebMatrixProofs7.v
theories/ChebMatrixProofs8.v
theories/ChebQuadModel.v
theories/ChebQuadProofs.v
theories/ChebMatrixProperties.v
theories/ChebTransModel.v
theories/ChebTransProofs.v
theories/ChebTransProofs2.v
theories/ChebTransProofs3.v
theories/ChebTransProperties.v
theories/HelmholtzModel.v
theories/HelmholtzSpec.v
theories/HelmholtzProofs.v
theories/HelmholtzProofs2.v
theories/HelmholtzProofs3.v
theories/HelmholtzProofs4.v
theories/HelmholtzProofs5.v
theories/HelmholtzProofs6.v
theories/HelmholtzProofs7.v
theories/HelmholtzProperties.v
theories/BiharmonicModel.v
theories/BiharmonicProofs.v
theories/BiharmonicProofs2.v
theories/BiharmonicProofs3.v
theories/BiharmonicProofs4.v
theories/BiharmonicProperties.v
theories/MatvecModel.v
theories/MatvecSpec.v
theories/MatvecProofs.v
theories/MatvecProofs2.v
theories/MatvecProofs3.v
theories/MatvecProofs4.v
theories/MatvecProofs5.v
theories/MatvecProofs6.v
theories/MatvecProofs7.v
theories/MatvecProofs8.v
theories/MatvecProperties.v
theories/Leg2ChebModel.v
theories/Leg2ChebSpec.v
theories/Leg2ChebProofs.v
theories/Leg2ChebProofs2.v
theories/Leg2ChebProofs3.v
theories/Leg2ChebProofs4.v
theories/Leg2ChebProperties.v
theories/FMMModel.v
theories/FMMSpec.v
theories/FMMProofs.v
theories/FMMProofs2.v
theories/FMMProofs3.v
theories/FMMProofs4.v
theories/FMMProperties.v
theories/FMMSweepModel.v
theories/FMMSweepSpec.v
theories/FMMSweepProofs.v
theories/FMMSweepProofs2.v
theories/FMMSweepProofs3.v
theories/FMMSweepProofs4.v
theories/FMMSweepProofs5.v
theories/FMMSweepProofs6.v
theories/FMMSweepProofs7.v
theories/FMMSweepProofs8.v
theories/FMMSweepProofs9.v
theories/FMMSweepProperties.v
theories/CheckpointModel.v
theories/CheckpointSpec.v
theories/CheckpointProofs.v
theories/CheckpointProperties.v
theories/InnerModel.v
theories/InnerSpec.v
theories/InnerProofs.v
theories/InnerProofs2.v
theories/InnerProofs3.v
theories/InnerProofs4.v
theories/InnerProofs5.v
theories/InnerProofs6.v
theories/InnerWitness.v
theories/InnerProperties.v
theories/InnerProperties2.v
theories/PencilModel.v
theories/PencilSpec.v
theories/PencilProofs.v
theories/PencilProofs2.v
theories/PencilProofs3.v
theories/PencilProofs4.v
theories/PencilProofs5.v
theories/PencilProofs6.v
theories/PencilProofs7.v
theories/PencilProperties.v
theories/PencilExamples.v
theories/BndModel.v
theories/BndSpec.v
theories/BndProofs.v
theories/BndProofs2.v
theories/BndProofs3.v
theories/BndProperties.v
theories/GenModel.v
theories/GenSpec.v
theories/GenProofs.v
theories/GenProofs2.v
theories/GenProofs3.v
theories/GenProofs4.v
theories/GenProofs5.v
theories/GenProperties.v
theories/FMatModel.v
theories/FMatSpec.v
theories/FMatProofs.v
theories/FMatProofs2.v
theories/FMatProofs3.v
theories/FMatProperties.v
theories/UTransModel.v
theories/UTransSpec.v
theories/UTransProofs.v
theories/UTransProofs2.v
theories/UTransProofs3.v
theories/UTransProperties.v
theories/IntModel.v
theories/IntSpec.v
theories/IntProofs.v
theories/IntProofs2.v
theories/IntProperties.v
theories/DLTModel.v
theories/DLTSpec.v
theories/DLTProofs.v
theories/DLTProofs2.v
theories/DLTProofs3.v
theories/DLTProofs4.v
theories/DLTProperties.v
theories/ProjModel.v
theories/ProjSpec.v
theories/ProjProofs.v
theories/ProjProofs2.v
theories/ProjProperties.v
theories/LHModel.v
theories/LHSpec.v
theories/LHProofs.v
theories/LHProofs2.v
theories/GaussInt.v
theories/LHProofs3.v
theories/LHProofs4.v
theories/LHProofs5.v
theories/LHProperties.v
theories/GaussRule.v
theories/LobModel.v
theories/LobSpec.v
theories/LobProofs.v
theories/LobProofs2.v
theories/LHGauss.v
theories/LobProperties.v
theories/XdmfModel.v
theories/XdmfSpec.v
theories/XdmfProofs.v
theories/XdmfProperties.v
theories/DeriveModel.v
theories/DeriveSpec.v
theories/DeriveProofs.v
theories/DeriveProperties.v
theories/GenProofs6.v
theories/GenProofs7.v
theories/GenProofs8.v
theories/GenProofs9.v
theories/GenProperties2.v
theories/ChebUMatModel.v
theories/ChebUMatSpec.v
theories/ChebUMatProofs.v
theories/ChebUMatProperties.v
theories/MDSolveModel.v
theories/MDSolveSpec.v
theories/MDSolveProofs.v
theories/MDSolveProofs2.v
theories/MDSolveProofs3.v
theories/MDSolveProperties.v
theories/NDSolveModel.v
theories/NDSolveSpec.v
theories/NDSolveProofs.v
theories/NDSolveProofs2.v
theories/NDSolveProperties.v
theories/BlockSolveModel.v
theories/BlockSolveProperties.v
theories/Helm2DModel.v
theories/Helm2DSpec.v
theories/Helm2DProofs.v
theories/Helm2DProperties.v
theories/ConfigModel.v
theories/ConfigSpec.v
theories/ConfigProofs.v
theories/ConfigProperties.v
theories/ParticlesModel.v
theories/ParticlesSpec.v
theories/ParticlesProofs.v
theories/ParticlesProperties.v
theories/IntLegProperties.v
theories/DispatchModel.v
theories/DispatchSpec.v
theories/DispatchProofs.v
theories/DispatchProperties.v
