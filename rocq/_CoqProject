-Q theories Verif
theories/Base.v
theories/Reach.v
theories/RoadmapModel.v
theories/RoadmapSpec.v
theories/RoadmapProofs.v
theories/RoadmapProofs2.v
theories/RoadmapProofs3.v
theories/RoadmapProofs4.v
theories/RoadmapProps.v
theories/AstarModel.v
theories/AstarSpec.v
theories/AstarProofs.v
theories/AstarProps.v
theories/NearestModel.v
theories/NearestProofs.v
theories/NearestProps.v
theories/Ext.v
theories/IntervalsModel.v
theories/IntervalsProofs.v
theories/IntervalsProps.v
theories/ContValModel.v
theories/ContValSpec.v
theories/ContValProofs.v
theories/ContValProofs2.v
theories/ContValProofs3.v
theories/ContValProps.v
theories/ValidationsModel.v
theories/ValidationsProofs.v
theories/ValidationsProps.v
theories/ContEditModel.v
theories/ContEditProofs.v
theories/ContEditProps.v
theories/VelocityModel.v
theories/VelocitySpec.v
theories/VelocityProofs.v
theories/VelocityProps.v
theories/QcTac.v
theories/PathModel.v
theories/PathSpec.v
theories/PathProofs.v
theories/PathProofs2.v
theories/PathProofs3.v
theories/PathProofs4.v
theories/PathProofs5.v
theories/PathProofs6.v
theories/PathProofs7.v
theories/PathProps.v
theories/PathVelModel.v
theories/PathVelSpec.v
theories/PathVelProofs.v
theories/PathVelProofs2.v
theories/PathVelProofs3.v
theories/PathVelProps.v
theories/RelMotionModel.v
theories/RelMotionSpec.v
theories/RelMotionProofs.v
theories/RelMotionProofs2.v
theories/RelMotionProps.v
theories/ObstacleModel.v
theories/ObstacleSpec.v
theories/ObstacleProofs.v
theories/ObstacleProofs2.v
theories/ObstacleProofs3.v
theories/ObstacleProps.v
theories/ConsSetModel.v
theories/ConsSetSpec.v
theories/ConsSetProps.v
theories/ContainerModel.v
theories/ContainerSpec.v
theories/ContainerProps.v
theories/ParamModel.v
theories/ParamSpec.v
theories/ParamProps.v
theories/ParamHeapModel.v
theories/ParamHeapSpec.v
theories/ParamHeapProps.v
theories/ProblemModel.v
theories/ProblemSpec.v
theories/ProblemProps.v
theories/TargetModel.v
theories/TargetProps.v
theories/SolverModel.v
theories/SolverSpec.v
theories/SolverProps.v
theories/LoopModel.v
theories/LoopSpec.v
theories/LoopProps.v
theories/PlannerModel.v
theories/PlannerSpec.v
theories/PlannerProofs.v
theories/PlannerProofs2.v
theories/PlannerProofs3.v
theories/PlannerProps.v
theories/KprmModel.v
theories/KprmSpec.v
theories/KprmProofs.v
theories/KprmProps.v
theories/StarModel.v
theories/StarSpec.v
theories/StarProofs.v
theories/StarProofs2.v
theories/StarProofs3.v
theories/StarProofs4.v
theories/StarProps.v
theories/VecModel.v
theories/VecSpec.v
theories/VecProofs.v
theories/VecStraight.v
theories/ShortcutModel.v
theories/ShortcutSpec.v
theories/ShortcutProofs.v
theories/ShortcutProps.v
theories/SimpleCutModel.v
theories/SimpleCutSpec.v
theories/SimpleCutProofs.v
theories/SimpleCutProofs2.v
theories/SimpleCutProps.v
theories/PartialCutModel.v
theories/PartialCutProofs.v
theories/PartialCutReal.v
theories/PartialCutProps.v
theories/PathProjModel.v
theories/PathProjSpec.v
theories/PathProjProofs.v
theories/PathProjProofs2.v
theories/PathProjProps.v
theories/XReal.v
theories/PolyModel.v
theories/PolySpec.v
theories/PolyProofs.v
theories/PolyProofs2.v
theories/PolyProps.v
theories/WDistModel.v
theories/WDistSpec.v
theories/WDistProofs.v
theories/WDistProps.v
theories/KinoModel.v
theories/KinoSpec.v
theories/KinoProofs.v
theories/KinoProofs2.v
theories/KinoProps.v
theories/KinoTimeModel.v
theories/KinoTimeSpec.v
theories/KinoTimeProofs.v
theories/KinoTimeProofs2.v
theories/KinoTimeProofs3.v
theories/KinoTimeProofs4.v
theories/KinoTimeProofs5.v
theories/KinoTimeProps.v
theories/SplineModel.v
theories/SplineSpec.v
theories/SplineProofs.v
theories/SplineProofs2.v
theories/SplineProofs3.v
theories/SplineProofs4.v
theories/SplineProofs5.v
theories/SplineProps.v
theories/KdTreeModel.v
theories/KdTreeSpec.v
theories/KdTreeProofs.v
theories/KdTreeProofs2.v
theories/KdTreeProofs3.v
theories/KdTreeProofs4.v
theories/KdTreeProps.v
theories/LinConsModel.v
theories/LinConsSpec.v
theories/LinConsProofs.v
theories/LinConsProofs2.v
theories/LinConsProps.v
theories/SplineOptModel.v
theories/SplineOptSpec.v
theories/SplineOptProofs.v
theories/SplineOptProofs2.v
theories/SplineOptProofs3.v
theories/SplineOptProofs4.v
theories/SplineOptProps.v
theories/SplineGradModel.v
theories/SplineGradSpec.v
theories/SplineGradProofs.v
theories/SplineGradProofs2.v
theories/SplineGradProofs3.v
theories/SplineGradProofs4.v
theories/SplineGradProofs5.v
theories/SplineGradProps.v
theories/CurvModel.v
theories/CurvSpec.v
theories/CurvProofs.v
theories/CurvProofs2.v
theories/CurvProofs3.v
theories/AngleProofs.v
theories/CurvProofs4.v
theories/CurvProps.v
theories/DubinsModel.v
theories/DubinsSpec.v
theories/DubinsProofs.v
theories/DubinsProofs2.v
theories/DubinsProofs3.v
theories/DubinsProofs4.v
theories/DubinsProps.v
theories/RSModel.v
theories/RSSpec.v
theories/RSProofs.v
theories/RSProofs2.v
theories/RSProofs3.v
theories/RSProofs4.v
theories/RSProofs5.v
theories/RSProofs6.v
theories/RSProofs7.v
theories/RSProps.v
theories/RSTimeModel.v
theories/RSTimeSpec.v
theories/RSTimeProofs.v
theories/RSTimeProofs2.v
theories/RSTimeProofs3.v
theories/RSTimeProps.v
theories/SnibudModel.v
theories/SnibudProps.v
theories/RecHermModel.v
theories/RecHermSpec.v
theories/RecHermProofs.v
theories/RecHermProps.v
theories/KinoVelModel.v
theories/KinoVelProps.v
theories/OrientModel.v
theories/OrientSpec.v
theories/OrientProps.v
theories/ShootModel.v
theories/ShootSpec.v
theories/ShootProps.v
theories/CarModel.v
theories/CarSpec.v
theories/CarProps.v
theories/CProjModel.v
theories/CProjProps.v
theories/SteerModel.v
theories/SteerProps.v
theories/MonModel.v
theories/MonProps.v
theories/PsModel.v
theories/PsProps.v
theories/DirectModel.v
theories/DirectProps.v
theories/GlobalModel.v
theories/GlobalSpec.v
theories/GlobalProofs.v
theories/GlobalProofs2.v
theories/GlobalProps.v
theories/ConfValModel.v
theories/ConfValSpec.v
theories/ConfValProofs.v
theories/ConfValProps.v
theories/SubchainModel.v
theories/SubchainSpec.v
theories/SubchainProps.v
theories/CollConsModel.v
theories/CollConsSpec.v
theories/CollConsProofs.v
theories/CollConsProps.v
theories/SerialModel.v
theories/SerialSpec.v
theories/SerialProps.v
theories/RoadSerModel.v
theories/RoadSerSpec.v
theories/RoadSerProofs.v
theories/RoadSerProps.v
theories/PluginModel.v
theories/PluginSpec.v
theories/PluginProps.v
theories/DistObjModel.v
theories/DistObjSpec.v
theories/DistObjProps.v
theories/GlobalTermProps.v
theories/TopModel.v
theories/TopSpec.v
theories/TopProofs.v
theories/TopProofs2.v
theories/TopProofs3.v
theories/TopProps.v
theories/SearchModel.v
theories/SearchProps.v
theories/GiModel.v
theories/GiSpec.v
theories/GiProofs.v
theories/GiProofs2.v
theories/GiProofs3.v
theories/GiProofs4.v
theories/GiProofs5.v
theories/GiProps.v
theories/SplineGiModel.v
theories/SplineGiProofs.v
theories/SplineGiProps.v
theories/ResampleModel.v
theories/ResampleSpec.v
theories/ResampleProps.v
theories/SplineCollProps.v
theories/ProjInitModel.v
theories/ProjInitProps.v
theories/SplineLinProps.v
