-Q theories Verif
theories/Base.v
theories/DisjointSetsModel.v
theories/DisjointSetsSpec.v
theories/DisjointSetsProofs.v
theories/QuantityModel.v
theories/QuantitySpec.v
theories/QuantityProofs.v
theories/UtilProperties.v
theories/DataModel.v
theories/DataSpec.v
theories/DataProofs.v
theories/DataProperties.v
theories/MeshModel.v
theories/MeshModel2.v
theories/MeshSpec.v
theories/MeshBase.v
theories/MeshExec.v
theories/MeshOrbit.v
theories/MeshFlip.v
theories/MeshAlloc.v
theories/MeshInsert.v
theories/MeshOpSpec.v
theories/MeshThms.v
theories/MeshIso.v
theories/MeshSwitch.v
theories/MeshConnect.v
theories/MeshDel.v
theories/MeshRemoveEdge.v
theories/MeshRemoveVertex.v
theories/MeshSplit.v
theories/MeshInsertVertex.v
theories/MeshCheck.v
theories/MeshBuildModel.v
theories/MeshExamples.v
theories/MeshCompressModel.v
theories/MeshCompress.v
theories/MeshCompressProperties.v
theories/MeshProperties.v
theories/MeshOpsProperties.v
theories/PolygonModel.v
theories/PolygonSpec.v
theories/PolygonProofs.v
theories/OrientModel.v
theories/OrientSpec.v
theories/OrientProofs.v
theories/PolygonProperties.v
theories/MeshDataModel.v
theories/MeshEvents.v
theories/CollapseEvents.v
theories/MeshHistoryModel.v
theories/MeshHistorySpec.v
theories/MeshHistory.v
theories/MeshHistoryCheck.v
theories/EulerProofs.v
theories/MeshHistoryProperties.v
theories/GraphModel.v
theories/GraphSpec.v
theories/GraphProofs.v
theories/GraphProperties.v
theories/NormalModel.v
theories/NormalSpec.v
theories/NormalProofs.v
theories/NormalTrace.v
theories/NormalCheck.v
theories/NormalExamples.v
theories/NormalProperties.v
theories/MatrixModel.v
theories/MatrixSpec.v
theories/MatrixProofs.v
theories/MatrixBlock.v
theories/MatrixMore.v
theories/MatrixProperties.v
theories/PointModel.v
theories/PointSpec.v
theories/PointProofs.v
theories/GeoModel.v
theories/GeoSpec.v
theories/GeoProofs.v
theories/GeoVec.v
theories/PointProperties.v
theories/GeoProperties.v
theories/BaryModel.v
theories/BarySpec.v
theories/BaryProofs.v
theories/BaryProperties.v
theories/MarchModel.v
theories/MarchSpec.v
theories/MarchProofs.v
theories/IsoProofs.v
theories/CurveProofs.v
theories/MarchProperties.v
theories/BuildSpec.v
theories/BuildProofs.v
theories/BuildLoops.v
theories/BuildWalk.v
theories/BuildValid.v
theories/BuildThm.v
theories/BuildList.v
theories/BuildLink.v
theories/BuildProperties.v
theories/DelaunayModel.v
theories/DelaunaySpec.v
theories/DelaunayProofs.v
theories/DelaunayRules.v
theories/DelaunayThms.v
theories/DelaunayExamples.v
theories/DelaunayProperties.v
theories/CollapseModel.v
theories/CollapseMap.v
theories/CollapseSpec.v
theories/CollapseProofs.v
theories/CollapseRun.v
theories/CollapseDone.v
theories/CollapseKeep.v
theories/CollapseTop.v
theories/CollapseBnd.v
theories/CollapseProperties.v
theories/ManagerModel.v
theories/ManagerSpec.v
theories/ManagerProofs.v
theories/ManagerProperties.v
theories/CountModel.v
theories/CountSpec.v
theories/CountProofs.v
theories/CountProperties.v
theories/CopyModel.v
theories/CopySpec.v
theories/CopyProofs.v
theories/CopyProperties.v
theories/GenModel.v
theories/GenSpec.v
theories/GenBase.v
theories/GenBuild1.v
theories/GenBuild2.v
theories/GenBuild3.v
theories/GenBuild4.v
theories/GenBuild5.v
theories/GenBuild6.v
theories/GenProperties.v
theories/GenOpsModel.v
theories/GenOpsSpec.v
theories/GenOps1.v
theories/GenOps2.v
theories/GenOps3.v
theories/GenOps4.v
theories/GenOps5.v
theories/GenOps6.v
theories/GenOpsProperties.v
theories/GenSepSpec.v
theories/GenSep1.v
theories/GenSep2.v
theories/GenSepProperties.v
theories/GenDupSpec.v
theories/GenDup1.v
theories/GenDup2.v
theories/GenDupProperties.v
theories/GenTopoModel.v
theories/GenTopoSpec.v
theories/GenTopo1.v
theories/GenTopo2.v
theories/GenTopo3.v
theories/GenTopo4.v
theories/GenTopoProperties.v
theories/GenOrientSpec.v
theories/GenOrient1.v
theories/GenOrientProperties.v
theories/RichModel.v
theories/RichSpec.v
theories/Rich1.v
theories/Rich2.v
theories/RichProperties.v
theories/IntrinsicModel.v
theories/IntrinsicSpec.v
theories/Intrinsic1.v
theories/Intrinsic2.v
theories/Intrinsic3.v
theories/Intrinsic4.v
theories/Intrinsic5.v
theories/Intrinsic6.v
theories/Intrinsic7.v
theories/Intrinsic8.v
theories/Intrinsic9.v
theories/Intrinsic10.v
theories/Intrinsic11.v
theories/Intrinsic12.v
theories/TangentSpec.v
theories/Intrinsic13.v
theories/Intrinsic14.v
theories/IntrinsicProperties.v
theories/OperatorProperties.v
theories/TangentProperties.v
theories/CRModel.v
theories/CRSpec.v
theories/CR1.v
theories/CR2.v
theories/CR3.v
theories/CRProperties.v
theories/EmbeddedModel.v
theories/EmbeddedSpec.v
theories/Embedded1.v
theories/Embedded2.v
theories/Embedded3.v
theories/Embedded4.v
theories/EmbeddedProperties.v
theories/MeshCutModel.v
theories/MeshCut1.v
theories/MeshCut2.v
theories/MeshCut3.v
theories/MeshCutProperties.v
theories/FrameModel.v
theories/FrameSpec.v
theories/Frame1.v
theories/Frame2.v
theories/Frame3.v
theories/Frame4.v
theories/FrameProperties.v
theories/PolyModel.v
theories/PolySpec.v
theories/Poly1.v
theories/Poly2.v
theories/Poly3.v
theories/Poly4.v
theories/Poly5.v
theories/Poly6.v
theories/Poly7.v
theories/Poly8.v
theories/PolyOpProperties.v
theories/FieldModel.v
theories/FieldSpec.v
theories/Field1.v
theories/Field2.v
theories/Field3.v
theories/Field4.v
theories/Field5.v
theories/FieldProperties.v
theories/FastModel.v
theories/FastSpec.v
theories/Fast1.v
theories/Fast2.v
theories/Fast3.v
theories/FastProperties.v
theories/QuatModel.v
theories/QuatSpec.v
theories/QuatProperties.v
theories/SubdivModel.v
theories/SubdivSpec.v
theories/Subdiv1.v
theories/Subdiv2.v
theories/Subdiv3.v
theories/Subdiv4.v
theories/SubdivProperties.v
theories/LoopModel.v
theories/LoopSpec.v
theories/Loop1.v
theories/Loop2.v
theories/LoopProperties.v
theories/KnnModel.v
theories/KnnSpec.v
theories/KnnProperties.v
