{
 "claims": [
  {
   "property": "C01",
   "status": "proved",
   "theorems": [
    "C01_write_read",
    "C01_store_and_load",
    "C01_strans_word",
    "C01_write_read_exact",
    "C01_attribute_limit_refuted",
    "C01_trailing_nul_refuted",
    "C01_empty_name_refuted"
   ],
   "note": "Coordinates in database units. Side conditions (NUL, empty names, attribute >= 2^15) are shown necessary."
  },
  {
   "property": "C02",
   "status": "proved",
   "theorems": [
    "C02_exact",
    "C02_accepted",
    "C02_any_log2",
    "C02_te_meaning",
    "C02_inexact_refuted"
   ],
   "note": "numpy.log2 is a universally quantified parameter; exactness fails for some admissible log2 (witness)."
  },
  {
   "property": "C03",
   "status": "proved",
   "theorems": [
    "C03_normalised",
    "C03_reencode",
    "C03_out_of_range"
   ],
   "note": ""
  },
  {
   "property": "C04",
   "status": "proved",
   "theorems": [
    "C04_stream"
   ],
   "note": "Grammar in SpecFormat.v."
  },
  {
   "property": "C05",
   "status": "proved",
   "theorems": [
    "C05_patch",
    "C05_last_wins"
   ],
   "note": "C05_last_wins holds for arbitrary bytes."
  },
  {
   "property": "C06",
   "status": "proved",
   "theorems": [
    "C06_patch_is_rewrite",
    "C06_write_gds"
   ],
   "note": ""
  },
  {
   "property": "C07",
   "status": "proved",
   "theorems": [
    "C07_hash_invariant"
   ],
   "note": "For every hash engine."
  },
  {
   "property": "C08",
   "status": "proved",
   "theorems": [
    "C08_hash_injective"
   ],
   "note": "Equal digests imply equal cells up to order, or an explicit collision of the engine."
  },
  {
   "property": "C09",
   "status": "proved",
   "theorems": [
    "C09_binary_cells"
   ],
   "note": ""
  },
  {
   "property": "C10",
   "status": "proved",
   "theorems": [
    "C10_writer",
    "C10_any_sequence",
    "C10_library"
   ],
   "note": ""
  },
  {
   "property": "C11",
   "status": "proved",
   "theorems": [
    "C11_polygon",
    "C11_path"
   ],
   "note": ""
  },
  {
   "property": "C12",
   "status": "proved",
   "theorems": [
    "C12_units",
    "C12_header_only",
    "C12_agrees_with_reader"
   ],
   "note": "The division db_meters/db_user is left to the caller on both sides."
  },
  {
   "property": "C13",
   "status": "proved",
   "theorems": [
    "C13_import_maps",
    "C13_collision_raises"
   ],
   "note": ""
  },
  {
   "property": "C14",
   "status": "proved",
   "theorems": [
    "C14_history",
    "C14_single_library",
    "C14_add_never_replaces",
    "C14_add_raises",
    "C14_overwrite_redirects",
    "C14_shared_cell_refuted",
    "C14_failed_add_not_atomic_refuted"
   ],
   "note": ""
  },
  {
   "property": "C15",
   "status": "proved",
   "theorems": [
    "C15_remove",
    "C15_keep_references"
   ],
   "note": ""
  },
  {
   "property": "C16",
   "status": "proved",
   "theorems": [
    "C16_rename",
    "C16_raises"
   ],
   "note": ""
  },
  {
   "property": "C17",
   "status": "proved",
   "theorems": [
    "C17_replace",
    "C17_count",
    "C17_count_same_name"
   ],
   "note": ""
  },
  {
   "property": "C18",
   "status": "proved",
   "theorems": [
    "C18_direct",
    "C18_recursive",
    "C18_cyclic"
   ],
   "note": ""
  },
  {
   "property": "C19",
   "status": "proved",
   "theorems": [
    "C19_top_level",
    "C19_covers",
    "C19_nonempty",
    "C19_by_name_refuted"
   ],
   "note": ""
  },
  {
   "property": "C20",
   "status": "proved",
   "theorems": [
    "C20_fresh",
    "C20_cached",
    "C20_defined",
    "C20_stale_refuted",
    "C20_stale_top_refuted"
   ],
   "note": ""
  },
  {
   "property": "C21",
   "status": "proved",
   "theorems": [
    "C21_polygons",
    "C21_queries",
    "C21_labels",
    "C21_idempotent",
    "C21_defined",
    "C21_texttype_refuted",
    "C21_after_removal_refuted"
   ],
   "note": ""
  },
  {
   "property": "C22",
   "status": "proved",
   "theorems": [
    "C22_area",
    "C22_by_spec"
   ],
   "note": ""
  },
  {
   "property": "C23",
   "status": "proved",
   "theorems": [
    "C23_reference",
    "C23_similarity",
    "C23_composes"
   ],
   "note": ""
  },
  {
   "property": "C24",
   "status": "proved",
   "theorems": [
    "C24_array",
    "C24_cells",
    "C24_dictionary",
    "C24_zero_magnification_refuted"
   ],
   "note": ""
  },
  {
   "property": "C25",
   "status": "proved",
   "theorems": [
    "C25_written",
    "C25_exact",
    "C25_rounded",
    "C25_rotated"
   ],
   "note": "Rotation and magnification themselves are 8-byte reals (C02)"
  },
  {
   "property": "C26",
   "status": "proved",
   "theorems": [
    "C26_area",
    "C26_isometries",
    "C26_scale",
    "C26_vertex_order",
    "C26_rectangle",
    "C26_by_spec"
   ],
   "note": ""
  },
  {
   "property": "C27",
   "status": "proved",
   "theorems": [
    "C27_rotate",
    "C27_mirror",
    "C27_translate",
    "C27_scale",
    "C27_keeps_specs"
   ],
   "note": ""
  },
  {
   "property": "C28",
   "status": "proved",
   "theorems": [
    "C28_cuts",
    "C28_fracture",
    "C28_few",
    "C28_fuel",
    "C28_terminates",
    "C28_region"
   ],
   "note": "any engine; region for any engine correct at the point"
  },
  {
   "property": "C29",
   "status": "proved",
   "theorems": [
    "C29_slice",
    "C29_pieces"
   ],
   "note": "strips covered and pieces in order"
  },
  {
   "property": "C30",
   "status": "proved",
   "theorems": [
    "C30_boolean",
    "C30_layers",
    "C30_and_empty_refuted",
    "C30_empty_refuted",
    "C30_flexpath_refuted"
   ],
   "note": "exceptions refuted: and/or with empty operands, FlexPath inside a list"
  },
  {
   "property": "C31",
   "status": "proved",
   "theorems": [
    "C31_ends",
    "C31_bernstein",
    "C31_affine",
    "C31_hull",
    "C31_reverse"
   ],
   "note": "Exact reals."
  },
  {
   "property": "C32",
   "status": "proved",
   "theorems": [
    "C32_section",
    "C32_cubic",
    "C32_quadratic",
    "C32_general",
    "C59_smooth_cubic",
    "C59_smooth_quadratic",
    "C32_commands_terminate"
   ],
   "note": "Termination holds for any positive tolerance by a Lipschitz bound."
  },
  {
   "property": "C33",
   "status": "proved",
   "theorems": [
    "C33_relative",
    "C33_translate",
    "C33_translate_all"
   ],
   "note": "I/i under a translation-equivariant Hobby oracle."
  },
  {
   "property": "C34",
   "status": "proved",
   "theorems": [
    "C34_path",
    "C34_path_call",
    "C34_flex",
    "C34_robustpath",
    "C34_robustpath_sections",
    "C34_pair_refuted",
    "C34_failed_call_refuted"
   ],
   "note": "Path, FlexPath and RobustPath. Refuted: a start given as one pair of coordinates, and the state left by a call that raises"
  },
  {
   "property": "C35",
   "status": "proved",
   "theorems": [
    "C35_points",
    "C35_chain",
    "C35_directions",
    "C35_widths",
    "C35_array_refuted",
    "C35_width_transform_refuted"
   ],
   "note": "Points, directions and widths under translate, rotate, scale and transform, and their compositions. Refuted: transform with both an array translation and a magnification, and widths of a gdsii_path with width_transform=False"
  },
  {
   "property": "C36",
   "status": "proved",
   "theorems": [
    "C36_outline",
    "C36_uncut",
    "C36_end",
    "C36_size",
    "C36_defined",
    "C36_rotate",
    "C36_end_refuted",
    "C36_down_refuted"
   ],
   "note": "Refuted: the end point of a path whose last section goes towards -y, and a single section towards -y"
  },
  {
   "property": "C37",
   "status": "proved",
   "theorems": [
    "C37_translate",
    "C37_rotate",
    "C37_scale",
    "C37_transform",
    "C37_reflect",
    "C37_follow",
    "C37_chain",
    "C37_get_paths",
    "C37_robustpath",
    "C37_hobby",
    "C37_robust_follow",
    "C37_robust_chain",
    "C37_robust_paths",
    "C37_reflect_refuted",
    "C37_scale_negative_refuted",
    "C37_lengths_refuted",
    "C37_robust_reflect_refuted",
    "C37_robust_lengths_refuted"
   ],
   "note": "FlexPath: translation for every corner and end, the rest for outlines of straight lines. RobustPath: translation and rotation for all, reflection for flush ends, scaling for straight sections. Refuted: FlexPath reflection with offsets, negative scaling with offsets; RobustPath reflection with extended ends; end extensions given as lengths under magnification (both)"
  },
  {
   "property": "C38",
   "status": "proved",
   "theorems": [
    "C38_untouched",
    "C38_defined",
    "C38_contents",
    "C38_defined_at",
    "C38_get_polygons",
    "C38_labels",
    "C38_reflection_refuted",
    "C38_spacing_refuted",
    "C38_flexpaths",
    "C38_robustpaths"
   ],
   "note": "The copy shows the moved polygons of the original when the direct references are unreflected and direct arrays are not scaled; both conditions are shown necessary by counterexamples (findings)."
  },
  {
   "property": "C39",
   "status": "proved",
   "theorems": [
    "C39_expansion",
    "C39_by_spec",
    "C39_views",
    "C39_depth",
    "C39_rectangle"
   ],
   "note": ""
  },
  {
   "property": "C40",
   "status": "proved",
   "theorems": [
    "C40_polygons",
    "C40_list",
    "C40_elements",
    "C40_stale_box_refuted"
   ],
   "note": ""
  },
  {
   "property": "C41",
   "status": "proved",
   "theorems": [
    "C41_anchor_roundtrip",
    "C41_any_word",
    "C41_low_bits",
    "C41_labels"
   ],
   "note": ""
  },
  {
   "property": "C42",
   "status": "proved",
   "theorems": [
    "C42_properties",
    "C42_leak_refuted"
   ],
   "note": ""
  },
  {
   "property": "C43",
   "status": "proved",
   "theorems": [
    "C43_text",
    "C43_clean"
   ],
   "note": ""
  },
  {
   "property": "C44",
   "status": "proved",
   "theorems": [
    "C44_layout",
    "C44_rotation",
    "C44_tab",
    "C44_order",
    "C44_apart",
    "C44_box",
    "C44_glyph",
    "C44_ascii"
   ],
   "note": "The tab stops are the columns 3, 7, 11, ..."
  },
  {
   "property": "C45",
   "status": "proved",
   "theorems": [
    "C45_segments",
    "C45_area",
    "C45_total",
    "C45_turn",
    "C45_turn_zero_refuted"
   ],
   "note": "The length counts only sections that are drawn (some width). Refuted: a turn by the angle 0 reverses the direction"
  },
  {
   "property": "C46",
   "status": "proved",
   "theorems": [
    "C46_get_points",
    "C46_closed",
    "C46_single_refuted"
   ],
   "note": ""
  },
  {
   "property": "C47",
   "status": "proved",
   "theorems": [
    "C47_point",
    "C47_points",
    "C47_any",
    "C47_all",
    "C47_no_polygons_refuted"
   ],
   "note": "no polygons: out-of-bounds read"
  },
  {
   "property": "C48",
   "status": "proved",
   "theorems": [
    "C48_corner",
    "C48_room",
    "C48_clean",
    "C48_polygon",
    "C48_radii",
    "C48_fillet"
   ],
   "note": "Polygons that turn back on themselves at a vertex are excluded; fracture (when max_points is exceeded) is a parameter"
  },
  {
   "property": "C49",
   "status": "proved",
   "theorems": [
    "C49_add_closed",
    "C49_extract",
    "C49_one_shot_refuted",
    "C49_same_names_refuted"
   ],
   "note": ""
  },
  {
   "property": "C50",
   "status": "proved",
   "theorems": [
    "C50_selected",
    "C50_all",
    "C50_unknown_name"
   ],
   "note": ""
  },
  {
   "property": "C51",
   "status": "proved",
   "theorems": [
    "C51_factor",
    "C51_import",
    "C51_skip"
   ],
   "note": "Arithmetic: any with relative errors of at most 2^-53; 'skip' when the library has the units of the file"
  },
  {
   "property": "C52",
   "status": "proved",
   "theorems": [
    "C52_rounding",
    "C52_points"
   ],
   "note": ""
  },
  {
   "property": "C53",
   "status": "proved",
   "theorems": [
    "C53_flexpath",
    "C53_robustpath",
    "C53_polygons",
    "C53_label",
    "C53_reference",
    "C53_defined"
   ],
   "note": "Polygon sets, labels, references, arrays, FlexPath and RobustPath"
  },
  {
   "property": "C54",
   "status": "proved",
   "theorems": [
    "C54_labels",
    "C54_set_transform",
    "C54_reflection_refuted"
   ],
   "note": ""
  },
  {
   "property": "C55",
   "status": "proved",
   "theorems": [
    "C54_labels",
    "C55_polygonsets",
    "C55_paths",
    "C55_deep_enough"
   ],
   "note": ""
  },
  {
   "property": "C56",
   "status": "proved",
   "theorems": [
    "C56_normalised",
    "C56_snapped",
    "C56_points",
    "C56_stable"
   ],
   "note": ""
  },
  {
   "property": "C57",
   "status": "proved",
   "theorems": [
    "C57_box",
    "C57_box_unique"
   ],
   "note": ""
  },
  {
   "property": "C58",
   "status": "proved",
   "theorems": [
    "C58_layers",
    "C58_svg_classes",
    "C58_by_name_refuted",
    "C58_texttypes_refuted"
   ],
   "note": ""
  },
  {
   "property": "C59",
   "status": "proved",
   "theorems": [
    "C59_smooth_cubic",
    "C59_smooth_quadratic",
    "C59_memory"
   ],
   "note": ""
  },
  {
   "property": "C60",
   "status": "proved",
   "theorems": [
    "C60_end",
    "C60_empty_refuted"
   ],
   "note": "C and Q without arguments fail (finding)."
  },
  {
   "property": "C61",
   "status": "proved",
   "theorems": [
    "C61_ellipse",
    "C61_circle",
    "C61_tolerance_refuted"
   ],
   "note": ""
  },
  {
   "property": "C62",
   "status": "proved",
   "theorems": [
    "C62_through"
   ],
   "note": "The Hobby algorithm is an arbitrary function giving one pair of control points per point."
  },
  {
   "property": "C63",
   "status": "proved",
   "theorems": [
    "C63_taper",
    "C63_end",
    "C63_arc",
    "C63_arc_offset_refuted"
   ],
   "note": "FlexPath; arc raises with a very negative offset"
  },
  {
   "property": "C64",
   "status": "proved",
   "theorems": [
    "C64_sampled",
    "C64_bezier",
    "C64_terminates"
   ],
   "note": "FlexPath.parametric, bezier, smooth"
  },
  {
   "property": "C65",
   "status": "proved",
   "theorems": [
    "C65_again",
    "C65_forgets",
    "C65_current",
    "C65_layer_refuted",
    "C65_failed_refuted"
   ],
   "note": "FlexPath. Refuted: layers assigned by flatten after a query; a second call after one that raised"
  },
  {
   "property": "C66",
   "status": "proved",
   "theorems": [
    "C66_frame",
    "C66_section",
    "C66_mitered",
    "C66_defined"
   ],
   "note": "FlexPath"
  },
  {
   "property": "C67",
   "status": "proved",
   "theorems": [
    "C67_init",
    "C67_offsets"
   ],
   "note": "FlexPath"
  },
  {
   "property": "C68",
   "status": "proved",
   "theorems": [
    "C68_joined",
    "C68_negative_refuted"
   ],
   "note": "Refuted: a negative scale factor flips the offsets of the sections drawn later but not of the earlier ones"
  },
  {
   "property": "C69",
   "status": "proved",
   "theorems": [
    "C69_end",
    "C69_dimensions",
    "C69_turn",
    "C69_turn_refuted"
   ],
   "note": "Refuted: a turn after a rotation starts in the direction the path had before it"
  },
  {
   "property": "C70",
   "status": "proved",
   "theorems": [
    "C70_again",
    "C70_forgets",
    "C70_current",
    "C70_layer_refuted",
    "C70_failed_refuted"
   ],
   "note": "RobustPath. Refuted: layers assigned by flatten after a query; a second call after one that raised"
  },
  {
   "property": "C71",
   "status": "proved",
   "theorems": [
    "C71_section",
    "C71_defined",
    "C71_ends",
    "C71_round_defined",
    "C71_search",
    "C71_search_closer",
    "C71_sides_refuted"
   ],
   "note": "RobustPath: C71_section for one straight section; C71_ends for the ends of any path; C71_search for where the sides of two sections meet. C71_sides_refuted: the same offset is on opposite sides in FlexPath and RobustPath"
  },
  {
   "property": "C72",
   "status": "proved",
   "theorems": [
    "C72_outline",
    "C72_section",
    "C72_crossing",
    "C72_tangent",
    "C72_defined"
   ],
   "note": "Constant width and offset for paths of three or more points; any for two points. Smooth ends and corners and user functions are not described"
  },
  {
   "property": "C73",
   "status": "proved",
   "theorems": [
    "C73_segment",
    "C73_arc",
    "C73_turn",
    "C73_enough",
    "C73_parametric",
    "C73_bezier",
    "C73_layers_refuted"
   ],
   "note": "Widths other than zero. Refuted: with a list of layers, the layers change sides in right turns and in curves"
  },
  {
   "property": "C74",
   "status": "proved",
   "theorems": [
    "C74_call",
    "C74_calls"
   ],
   "note": ""
  },
  {
   "property": "C75",
   "status": "proved",
   "theorems": [
    "C75_translate",
    "C75_rotate",
    "C75_scale",
    "C75_mirror",
    "C75_scale_refuted",
    "C75_mirror_refuted"
   ],
   "note": "Scaling and mirroring for single paths: with parallel paths they do not commute (two refuted theorems). Arcs and turns by exactly zero are left out for mirroring"
  },
  {
   "property": "C76",
   "status": "proved",
   "theorems": [
    "C76_parametric",
    "C76_defined",
    "C76_bezier"
   ],
   "note": "Widths other than zero"
  },
  {
   "property": "C77",
   "status": "proved",
   "theorems": [
    "C77_call",
    "C77_curve",
    "C77_keeps"
   ],
   "note": "segment, arc, turn, parametric and bezier; parametric with its derivative"
  },
  {
   "property": "C78",
   "status": "proved",
   "theorems": [
    "C78_open",
    "C78_closed",
    "C78_ahead",
    "C78_defined",
    "C78_unique",
    "C78_follows",
    "C78_pair",
    "C78_no_corner",
    "C78_robust",
    "C78_path",
    "C78_flex",
    "C78_flex_defined",
    "C78_sized",
    "C78_moves",
    "C78_two_points_refuted",
    "C78_turn_refuted"
   ],
   "note": "The linear solver is any function that returns a solution, if it returns; Gauss.v has one"
  },
  {
   "property": "C79",
   "status": "proved",
   "theorems": [
    "C79_arc",
    "C79_circle",
    "C79_tolerance",
    "C79_turn",
    "C79_turn_tolerance",
    "C79_tolerance_refuted"
   ],
   "note": "Positive widths. The tolerance holds up to a factor of 25/16, for constant width and distance and either no limit of points or one of at least 50; the tolerance itself is refuted"
  },
  {
   "property": "C80",
   "status": "proved",
   "theorems": [
    "C80_sizes",
    "C80_disc",
    "C80_ring",
    "C80_slices",
    "C80_sections",
    "C80_direction",
    "C80_disc_tolerance",
    "C80_ring_tolerance",
    "C80_sections_tolerance",
    "C80_slices_tolerance",
    "C80_slices_tolerance_refuted",
    "C80_ellipse_tolerance_refuted",
    "C80_turns_refuted"
   ],
   "note": "Cuts of ellipses at odd multiples of pi other than pi are left out (refuted for 3 pi). The tolerance holds for whole discs; rings and sections of circular rings keep it up to a factor of 25/16, slices of circles up to 25/4 (no limit of points or one of at least 50), slices of ellipses not at all (refuted)"
  },
  {
   "property": "C81",
   "status": "proved",
   "theorems": [
    "C81_paths",
    "C81_straight",
    "C81_parallel",
    "C81_miter",
    "C81_names",
    "C81_defined",
    "C81_bevel_points_refuted",
    "C81_round_points_refuted",
    "C81_end_names_refuted",
    "C81_back_refuted",
    "C81_defined_refuted"
   ],
   "note": "Corners where the two lines are parallel within 1e-30 are left out, as in the code; the limit of points holds with miters, and up to two more with bevels"
  },
  {
   "property": "C82",
   "status": "proved",
   "theorems": [
    "C82_drawing",
    "C82_polygons",
    "C82_frame",
    "C82_visible",
    "C82_written",
    "C82_styles",
    "C82_anchors",
    "C82_hsv",
    "C82_colours",
    "C82_ids_refuted",
    "C82_by_name_refuted",
    "C82_labels_refuted",
    "C82_origin_refuted"
   ],
   "note": "The document is a tree here and numbers are exact (the `precision` argument is left out). Needs cells with different ids ('#' is written as '_'), references by name that name no cell of the document and origins that are not None; without these it is refuted. The view box needs a history without additions below a measured cell (C20)"
  },
  {
   "property": "C83",
   "status": "proved",
   "theorems": [
    "C83_joined",
    "C83_region",
    "C83_area",
    "C83_room",
    "C83_range",
    "C83_fits",
    "C83_exact",
    "C83_defined",
    "C83_one_hole",
    "C83_tree",
    "C83_tree_defined",
    "C83_total",
    "C83_area_refuted",
    "C83_inside_refuted",
    "C83_touching_refuted"
   ],
   "note": "The tree is what the Clipper sweep line returns, which is not modelled. Integers are unbounded; C83_fits gives the range in which 64 bits are enough"
  },
  {
   "property": "C84",
   "status": "proved",
   "theorems": [
    "C84_outline",
    "C84_result",
    "C84_zero",
    "C84_join_first",
    "C84_miter",
    "C84_miter_far",
    "C84_bevel",
    "C84_round",
    "C84_inner",
    "C84_straight",
    "C84_arc",
    "C84_arc_shrink",
    "C84_arc_refuted",
    "C84_python"
   ],
   "note": "The sweep line (Clipper.Execute) is assumed to be right at the point considered; everything around it is modelled. Regions are described up to a margin: a grid unit around the new outline, and (reach + 1) grid units at the ends of the rectangles beside the edges, because nearly straight vertices are skipped. Distances of less than reach + 1 grid units are left out, except 0. When shrinking with bevel or miter joins, edges that turn back on themselves are left out."
  },
  {
   "property": "C85",
   "status": "proved",
   "theorems": [
    "C85_outline",
    "C85_width",
    "C85_unique",
    "C85_spine",
    "C85_round_refuted"
   ],
   "note": "Smooth corners and ends and user functions are not described. The centre line must not repeat a point, widths at natural, round and circular corners must be positive, and the tolerance at most a quarter of the width at round corners and ends. That drawing does not fail is C72_defined"
  },
  {
   "property": "C86",
   "status": "proved",
   "theorems": [
    "C86_file",
    "C86_drawn",
    "C86_written",
    "C86_defaults",
    "C86_name_refuted",
    "C86_texttype_refuted"
   ],
   "note": "Number formatting is a parameter (digits, points and signs; what is read back is any function of the number written). The names of cells and of references by name, the background and the user's styles must not need escapes. C86_drawn supposes that formatting keeps the numbers of the drawing."
  },
  {
   "property": "C87",
   "status": "proved",
   "theorems": [
    "C87_placed",
    "C87_written",
    "C87_moved",
    "C87_double"
   ],
   "note": "The arithmetic is any with correctly rounded products, sums and quotients and an absolute error of 2^-52 in the cosine, the sine and pi; C87_double shows that doubles without a largest number are one. Rotations of references are at most a full turn. The polygons of paths are given; mirror() and numbers too large for doubles are left out."
  },
  {
   "property": "C88",
   "status": "proved",
   "theorems": [
    "C88_counts",
    "C88_balance",
    "C88_drawn",
    "C88_no_exception",
    "C88_ends",
    "C88_border"
   ],
   "note": "The events (which edges meet where, in which order) are given: every sequence is covered, so also those that the coordinates lead to, but it is not proved that the events found from the coordinates are those of the geometry (intersection points are rounded to the grid). Bounds that meet at a maximum are supposed to be of the same polygon type with opposite directions, as AddPath makes them for closed paths. Not modelled: joins of touching output polygons, the hole state, the tree of polygons, simplification of the output."
  },
  {
   "property": "C89",
   "status": "proved",
   "theorems": [
    "C89_found",
    "C89_order",
    "C89_kept",
    "C89_events",
    "C89_winding"
   ],
   "note": "Edges are numbers with an abscissa at the upper scanline (TopX, any integers); linked lists are lists. The points of intersection are not computed: every order that a sort by them may give is covered. C89_events and C89_winding join this with the sweep of C88."
  },
  {
   "property": "C90",
   "status": "proved",
   "theorems": [
    "C90_input",
    "C90_output",
    "C90_finish"
   ],
   "note": "Integers are unbounded and the area is exact (a double in the code). Closed paths only; the split of an outline into bounds and the joins between the orientation and the clean-up of the result are not modelled."
  },
  {
   "property": "C91",
   "status": "proved",
   "theorems": [
    "C91_apart",
    "C91_hole",
    "C91_begun",
    "C91_chains"
   ],
   "note": "GetLowermostRec may give any answer for each join. The joins of common edges after the sweep are not modelled; the tree is C92."
  },
  {
   "property": "C92",
   "status": "proved",
   "theorems": [
    "C92_once",
    "C92_above",
    "C92_levels"
   ],
   "note": "The outlines after the clean-up are given (none or at least three points each, as in C90); the joins of common edges before it, which may move references, are not modelled."
  },
  {
   "property": "C93",
   "status": "proved",
   "theorems": [
    "C93_heights",
    "C93_onward",
    "C93_minima"
   ],
   "note": "The bounds are given in the form that AddPath gives them (closed paths, collinear edges merged); how AddPath finds them is not modelled. An ordinate can be visited twice (C93_square); the code does so after a horizontal edge at a local minimum. Not said: at which scanline an edge leaves the list of active edges."
  }
 ]
}