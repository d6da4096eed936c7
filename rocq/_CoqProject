-Q theories Verif
theories/ListAux.v
theories/StrAux.v
theories/IdSet_model.v
theories/IdSet_spec.v
theories/IdSet_proofs.v
theories/IdSet_props.v
theories/HopCache_model.v
theories/HopCache_spec.v
theories/HopCache_proofs.v
theories/HopCache_props.v
theories/Weights_model.v
theories/Weights_spec.v
theories/Weights_proofs.v
theories/Weights_props.v
theories/TripTrie_model.v
theories/TripTrie_spec.v
theories/TripTrie_proofs.v
theories/TripTrie_props.v
theories/Router_model.v
theories/Router_spec.v
theories/Router_proofs.v
theories/Router_props.v
theories/Hops_model.v
theories/Hops_spec.v
theories/Hops_proofs.v
theories/Hops_props.v
theories/Simi_model.v
theories/Simi_spec.v
theories/Simi_proofs.v
theories/Simi_props.v
theories/Restrictor_model.v
theories/Restrictor_spec.v
theories/Restrictor_proofs.v
theories/Restrictor_props.v
theories/Ecm_model.v
theories/Ecm_spec.v
theories/Ecm_proofs.v
theories/Ecm_props.v
theories/Cluster_model.v
theories/Cluster_spec.v
theories/Cluster_proofs.v
theories/Cluster_props.v
theories/Shapes_model.v
theories/Shapes_spec.v
theories/Shapes_proofs.v
theories/Shapes_props.v
theories/Workers_model.v
theories/Workers_spec.v
theories/Workers_proofs.v
theories/Workers_props.v
theories/Pipeline_model.v
theories/Pipeline_spec.v
theories/Pipeline_proofs.v
theories/Pipeline_props.v
theories/Colours_model.v
theories/Colours_spec.v
theories/Colours_proofs.v
theories/Colours_props.v
theories/ShapeStore_model.v
theories/ShapeStore_spec.v
theories/ShapeStore_proofs.v
theories/ShapeStore_props.v
theories/ShapesFile_model.v
theories/ShapesFile_spec.v
theories/ShapesFile_proofs.v
theories/ShapesFile_props.v
theories/StopTimesFile_model.v
theories/StopTimesFile_spec.v
theories/StopTimesFile_proofs.v
theories/StopTimesFile_props.v
theories/Writing_model.v
theories/Writing_spec.v
theories/Writing_proofs.v
theories/Writing_props.v
theories/OsmFilter_model.v
theories/OsmFilter_spec.v
theories/OsmFilter_proofs.v
theories/OsmFilter_props.v
theories/OsmGraph_model.v
theories/OsmGraph_spec.v
theories/OsmGraph_proofs.v
theories/OsmGraph_props.v
theories/Gaps_model.v
theories/Gaps_spec.v
theories/Gaps_proofs.v
theories/Gaps_props.v
theories/Payload_model.v
theories/Payload_spec.v
theories/Payload_proofs.v
theories/Payload_props.v
theories/BBoxIdx_model.v
theories/BBoxIdx_spec.v
theories/BBoxIdx_proofs.v
theories/BBoxIdx_props.v
theories/OsmRead_model.v
theories/OsmRead_spec.v
theories/OsmRead_proofs.v
theories/OsmRead_props.v
theories/Snap_model.v
theories/Snap_spec.v
theories/Snap_proofs.v
theories/Snap_props.v
theories/Attrs_model.v
theories/Attrs_spec.v
theories/Attrs_proofs.v
theories/Attrs_props.v
theories/Collect_model.v
theories/Collect_spec.v
theories/Collect_proofs.v
theories/Collect_props.v
theories/Config_model.v
theories/Config_spec.v
theories/Config_proofs.v
theories/Config_props.v
theories/Box_model.v
theories/Box_spec.v
theories/Box_proofs.v
theories/Box_props.v
theories/Main_model.v
theories/Main_spec.v
theories/Main_proofs.v
theories/Main_props.v
theories/Shapevl_model.v
theories/Shapevl_spec.v
theories/ShapevlU_proofs.v
theories/Shapevl_proofs.v
theories/Shapevl_props.v
theories/Args_model.v
theories/Args_spec.v
theories/Args_proofs.v
theories/Args_props.v
theories/Query_model.v
theories/Query_spec.v
theories/Query_proofs.v
theories/Query_props.v
theories/Trans_model.v
theories/Trans_spec.v
theories/Trans_proofs.v
theories/Trans_props.v
theories/NetGraph_model.v
theories/NetGraph_spec.v
theories/NetGraph_proofs.v
theories/NetGraph_props.v
theories/Finish_model.v
theories/Finish_spec.v
theories/Finish_proofs.v
theories/Finish_props.v
theories/Single_model.v
theories/Single_spec.v
theories/Single_proofs.v
theories/Single_props.v
theories/Astar_spec.v
theories/Astar_proofs.v
theories/Astar_props.v
theories/Labels_model.v
theories/Labels_spec.v
theories/Labels_proofs.v
theories/Labels_props.v
theories/Build_model.v
theories/Build_spec.v
theories/Build_proofs.v
theories/Build_props.v
theories/Turns_spec.v
theories/Turns_proofs.v
theories/Turns_props.v
theories/Whole_spec.v
theories/Whole_proofs.v
theories/Whole_props.v
theories/Output_model.v
theories/Output_spec.v
theories/Output_proofs.v
theories/Output_props.v
theories/Emission_model.v
theories/Emission_spec.v
theories/Emission_proofs.v
theories/Emission_props.v
theories/Optimal_spec.v
theories/Optimal_proofs.v
theories/Optimal_props.v
theories/RealNet_model.v
theories/RealNet_spec.v
theories/RealNet_proofs.v
theories/RealNet_props.v
theories/Default_spec.v
theories/Default_proofs.v
theories/Default_props.v
theories/Feedway_spec.v
theories/Feedway_proofs.v
theories/Feedway_props.v
theories/Allway_spec.v
theories/Allway_proofs.v
theories/Allway_props.v
theories/Tracks_model.v
theories/Tracks_spec.v
theories/Tracks_proofs.v
theories/Tracks_props.v
theories/Launch_model.v
theories/Launch_spec.v
theories/Launch_props.v
theories/Stats_model.v
theories/Stats_spec.v
theories/Stats_proofs.v
theories/Stats_props.v
theories/FeedFiles_model.v
theories/FeedFiles_spec.v
theories/FeedFiles_proofs.v
theories/FeedFiles_props.v
