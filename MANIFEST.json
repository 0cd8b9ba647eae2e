{
 "claims": [
  {
   "property": "C01",
   "status": "proved",
   "theorems": [
    "C01_inverse_round_trip",
    "C01_inverse_throws"
   ],
   "note": "Both as stored triples and as images of Euclidean points; plus the exact condition under which inverse() throws."
  },
  {
   "property": "C02",
   "status": "proved",
   "theorems": [
    "C02_product_composes",
    "C02_product_assoc"
   ],
   "note": "Composition on every stored triple, and associativity when all four products normalise."
  },
  {
   "property": "C03",
   "status": "partial",
   "theorems": [
    "C03_refuted"
   ],
   "note": "Refuted: mirror image of a line that is almost horizontal; the positive part is C138"
  },
  {
   "property": "C04",
   "status": "partial",
   "theorems": [
    "C04_refuted"
   ],
   "note": "Refuted: two points 10^6 apart, the line misses the second by more than 1e-5; the positive part is C139"
  },
  {
   "property": "C05",
   "status": "partial",
   "theorems": [
    "C05_refuted"
   ],
   "note": "Refuted by H*line; set(); H*line. The positive part is C140"
  },
  {
   "property": "C06",
   "status": "proved",
   "theorems": [
    "C06_chain"
   ],
   "note": "Every chain, by induction on the list; the chain never throws."
  },
  {
   "property": "C07",
   "status": "proved",
   "theorems": [
    "C07_isometry"
   ],
   "note": "Distances and signed areas of triangles are kept by every chain of translations and rotations."
  },
  {
   "property": "C08",
   "status": "partial",
   "theorems": [
    "C08_history_refuted"
   ],
   "note": "Refuted for histories with set() (the flag _isNormalized stays true); the positive part is C141"
  },
  {
   "property": "C09",
   "status": "proved",
   "theorems": [
    "C09_double_inverse",
    "C09_double_transpose"
   ],
   "note": "Double inverse is the original matrix divided by its last element; double transpose is the original."
  },
  {
   "property": "C10",
   "status": "partial",
   "theorems": [
    "C10_refuted"
   ],
   "note": "Refuted: determinant 1, the inverse has a null last element, inverse() throws after having replaced the matrix; the positive part is C142"
  },
  {
   "property": "C11",
   "status": "partial",
   "theorems": [
    "C11_race_refuted"
   ],
   "note": "Refuted by a 2-thread schedule; the positive part is C143"
  },
  {
   "property": "C12",
   "status": "proved",
   "theorems": [
    "C12_line_canonical",
    "C12_line_rejected"
   ],
   "note": "Proved for every accepted triple and every non-zero factor."
  },
  {
   "property": "C13",
   "status": "proved",
   "theorems": [
    "C13_dist_is_min"
   ],
   "note": "Greatest lower bound, attained."
  },
  {
   "property": "C14",
   "status": "proved",
   "theorems": [
    "C14_angle",
    "C14_parallel_relation"
   ],
   "note": "Proved for all non-degenerate lines."
  },
  {
   "property": "C15",
   "status": "partial",
   "theorems": [
    "C15_refuted"
   ],
   "note": "Refuted with stored lines about 10 units apart; no positive part claimed."
  },
  {
   "property": "C16",
   "status": "proved",
   "theorems": [
    "C16_meet"
   ],
   "note": "Soundness, uniqueness, symmetry, exact condition for the exception, never undefined."
  },
  {
   "property": "C17",
   "status": "proved",
   "theorems": [
    "C17_join_meet"
   ],
   "note": "Outside the sign-fix zone, which the statement excludes."
  },
  {
   "property": "C18",
   "status": "partial",
   "theorems": [
    "C18_orthog_refuted"
   ],
   "note": "getOrthogLine refuted for almost vertical lines; the positive part is C144"
  },
  {
   "property": "C19",
   "status": "partial",
   "theorems": [
    "C19_refuted"
   ],
   "note": "Refuted in the sign-fix zone; the positive part is C145"
  },
  {
   "property": "C20",
   "status": "proved",
   "theorems": [
    "C20_orthog_segment"
   ],
   "note": "Lines whose orthogonal direction is in the sign-fix zone are excluded (hypothesis orthOK)."
  },
  {
   "property": "C21",
   "status": "proved",
   "theorems": [
    "C21_points_at_distance",
    "C21_point_given_coord"
   ],
   "note": "Includes getPoint/getCoord."
  },
  {
   "property": "C22",
   "status": "proved",
   "theorems": [
    "C22_strict_total_order",
    "C22_fix_order"
   ],
   "note": "Proved for all points."
  },
  {
   "property": "C23",
   "status": "partial",
   "theorems": [
    "C23_transitive_refuted"
   ],
   "note": "Transitivity refuted; the positive part is C146"
  },
  {
   "property": "C24",
   "status": "partial",
   "theorems": [
    "C24_refuted"
   ],
   "note": "Refuted in the sign-fix zone with exactly aligned points; the positive part is C147"
  },
  {
   "property": "C25",
   "status": "proved",
   "theorems": [
    "C25_distance"
   ],
   "note": "Includes which of the three cases is reported."
  },
  {
   "property": "C26",
   "status": "proved",
   "theorems": [
    "C26_order",
    "C26_commutative"
   ],
   "note": "Histories of set/translate/moveTo from any constructed object, by induction."
  },
  {
   "property": "C27",
   "status": "partial",
   "theorems": [
    "C27_refuted"
   ],
   "note": "Refuted for a decreasing pair; the positive part is C148"
  },
  {
   "property": "C28",
   "status": "proved",
   "theorems": [
    "C28_split",
    "C28_split_at",
    "C28_split_at_range"
   ],
   "note": "Also the exact condition under which split() throws, and that split(d) throws outside ]0,length[."
  },
  {
   "property": "C29",
   "status": "proved",
   "theorems": [
    "C29_point_at"
   ],
   "note": "Exact result for every d, with the throw for negative d."
  },
  {
   "property": "C30",
   "status": "proved",
   "theorems": [
    "C30_side",
    "C30_reversed"
   ],
   "note": "Sign of the cross product; reversal exchanges the sides."
  },
  {
   "property": "C31",
   "status": "partial",
   "theorems": [
    "C31_refuted",
    "C31_result_partial"
   ],
   "note": "Refuted: the operand is reversed. The returned value is proved to be the reversed segment."
  },
  {
   "property": "C32",
   "status": "proved",
   "theorems": [
    "C32_sound",
    "C32_complete",
    "C32_symmetric"
   ],
   "note": "Soundness, completeness and symmetry."
  },
  {
   "property": "C33",
   "status": "proved",
   "theorems": [
    "C33_extended"
   ],
   "note": "Same middle, same line, three times the length."
  },
  {
   "property": "C34",
   "status": "proved",
   "theorems": [
    "C34_parallel_oriented",
    "C34_parallel"
   ],
   "note": "Both kinds of segments; left-first order for the oriented ones."
  },
  {
   "property": "C35",
   "status": "proved",
   "theorems": [
    "C35_bisector"
   ],
   "note": "Exact equality of the line and the equidistant set."
  },
  {
   "property": "C36",
   "status": "proved",
   "theorems": [
    "C36_corners",
    "C36_rejected",
    "C36_from_center"
   ],
   "note": "Any of the two diagonals in any order, bounding box of the two points, rejected pairs, constructor from center and size."
  },
  {
   "property": "C37",
   "status": "proved",
   "theorems": [
    "C37_intersect_area"
   ],
   "note": "Exact region, symmetric, empty iff the interiors do not meet; all 1296 index patterns by kernel computation lifted to all real coordinates."
  },
  {
   "property": "C38",
   "status": "proved",
   "theorems": [
    "C38_union_area"
   ],
   "note": "Area, simplicity and region (even-odd rule) for meeting interiors."
  },
  {
   "property": "C39",
   "status": "proved",
   "theorems": [
    "C39_iou",
    "C39_iou_value"
   ],
   "note": "Range, symmetry, value 1 iff equal, value 0 iff interiors disjoint, and exact value."
  },
  {
   "property": "C40",
   "status": "proved",
   "theorems": [
    "C40_rotation_laws",
    "C40_rotation_region",
    "C40_rotation_at",
    "C40_translate"
   ],
   "note": "Also the image region of each rotation, and rotation around a point."
  },
  {
   "property": "C41",
   "status": "proved",
   "theorems": [
    "C41_bounding_circle",
    "C41_inscribed_circle"
   ],
   "note": "Inscribed circle is the largest circle with this center contained in the rectangle."
  },
  {
   "property": "C42",
   "status": "proved",
   "theorems": [
    "C42_two_points",
    "C42_three_points",
    "C42_exists"
   ],
   "note": "Two points: exact, with the condition for the exception. Three points: outside the sign-fix zone; also a sufficient condition under which it does not throw."
  },
  {
   "property": "C43",
   "status": "proved",
   "theorems": [
    "C43_none",
    "C43_points"
   ],
   "note": "None exactly when the distance exceeds the radius; otherwise the reported pair is exactly the common points."
  },
  {
   "property": "C44",
   "status": "proved",
   "theorems": [
    "C44_sound",
    "C44_complete",
    "C44_none",
    "C44_never_undefined",
    "C44_symmetric"
   ],
   "note": "Soundness, completeness up to nullDistance, exact condition for an empty result, never undefined, symmetric."
  },
  {
   "property": "C45",
   "status": "partial",
   "theorems": [
    "C45_refuted"
   ],
   "note": "Refuted: a segment from outside ending on the circle misses its first crossing; the positive parts are C70 (exact away from the ends) and C149"
  },
  {
   "property": "C46",
   "status": "proved",
   "theorems": [
    "C46_inclusion",
    "C46_transitive",
    "C46_rectangle"
   ],
   "note": "Exact equivalence with inclusion of the closed disc in the open disc, transitivity, and the rectangle version."
  },
  {
   "property": "C47",
   "status": "partial",
   "theorems": [
    "C47_refuted",
    "C47_exception_refuted",
    "C47_two_points_refuted"
   ],
   "note": "Refuted in three ways (unchecked set(rad); exception in the container version leaves the check off; two close points). See C72 for the positive part."
  },
  {
   "property": "C48",
   "status": "partial",
   "theorems": [
    "C48_refuted"
   ],
   "note": "Refuted for 3 points (circumscribed circle returned); the positive parts are C71 and C150"
  },
  {
   "property": "C49",
   "status": "proved",
   "theorems": [
    "C49_segs",
    "C49_count",
    "C49_index",
    "C49_short_side",
    "C49_length"
   ],
   "note": ""
  },
  {
   "property": "C50",
   "status": "partial",
   "theorems": [
    "C50_refuted"
   ],
   "note": "Refuted for centroid() after translate/moveTo (the cached centroid is not moved); the positive part is C151"
  },
  {
   "property": "C51",
   "status": "proved",
   "theorems": [
    "C51_value",
    "C51_translation",
    "C51_cycle",
    "C51_affine"
   ],
   "note": ""
  },
  {
   "property": "C52",
   "status": "proved",
   "theorems": [
    "C52_translation",
    "C52_cycle",
    "C52_affine",
    "C52_barycenter"
   ],
   "note": ""
  },
  {
   "property": "C53",
   "status": "partial",
   "theorems": [
    "C53_refuted"
   ],
   "note": "refuted: a polygon whose smallest vertex is the tip of a spike differs from its reversal; the positive part is C76"
  },
  {
   "property": "C54",
   "status": "partial",
   "theorems": [
    "C54_refuted"
   ],
   "note": "Refuted: the comparison reorders the points of its const operands; the positive part is C152"
  },
  {
   "property": "C55",
   "status": "partial",
   "theorems": [
    "C55_refuted"
   ],
   "note": "refuted by a rectangle with a vertex in the middle of a side; the positive part is C77"
  },
  {
   "property": "C56",
   "status": "proved",
   "theorems": [
    "C56_box",
    "C56_total"
   ],
   "note": ""
  },
  {
   "property": "C57",
   "status": "partial",
   "theorems": [
    "C57_refuted",
    "C57_throws_refuted"
   ],
   "note": "Refuted twice: interior point on the prolongation of a side reported outside (over R); exception when vertices are close to the five reference segments (in doubles). See C105."
  },
  {
   "property": "C58",
   "status": "partial",
   "theorems": [
    "C58_refuted"
   ],
   "note": "refuted: with points aligned with the lowest one, the polygon is not convex; the positive part is C100"
  },
  {
   "property": "C59",
   "status": "proved",
   "theorems": [
    "C59_closest",
    "C59_empty",
    "C59_symmetric"
   ],
   "note": ""
  },
  {
   "property": "C60",
   "status": "partial",
   "theorems": [
    "C60_coincident_refuted",
    "C60_two_coincident_refuted"
   ],
   "note": "refuted: points equal to the query are skipped, and with two of them in front the second one is returned; the positive part is C82"
  },
  {
   "property": "C61",
   "status": "partial",
   "theorems": [
    "C61_refuted",
    "C61_flat_refuted"
   ],
   "note": "refuted with an empty polyline as first argument (isPoly_1 written instead of isPoly_2); the positive part is C83"
  },
  {
   "property": "C62",
   "status": "partial",
   "theorems": [
    "C62_vertical_refuted",
    "C62_small_refuted"
   ],
   "note": "refuted: the angle of an ellipse with vertical major axis is reported as 90 (radians), and a small ellipse has no centre; the positive part is C87"
  },
  {
   "property": "C63",
   "status": "proved",
   "theorems": [
    "C63_matrix",
    "C63_incidence",
    "C63_defined",
    "C63_center_affine",
    "C63_symmetric_matrix"
   ],
   "note": ""
  },
  {
   "property": "C64",
   "status": "partial",
   "theorems": [
    "C64_refuted"
   ],
   "note": "refuted: the default marker size is 4, an even value that setPointSize() itself rejects; the positive part is C98"
  },
  {
   "property": "C65",
   "status": "proved",
   "theorems": [
    "C65_round_trip",
    "C65_stored"
   ],
   "note": "std::stod is taken as exact (no rounding); reading the end iterator is modelled as reading a null character"
  },
  {
   "property": "C66",
   "status": "partial",
   "theorems": [
    "C66_refuted"
   ],
   "note": "refuted by three points spaced around the tolerance; the positive part is C86"
  },
  {
   "property": "C67",
   "status": "proved",
   "theorems": [
    "C67_sound",
    "C67_complete"
   ],
   "note": "Soundness and completeness."
  },
  {
   "property": "C68",
   "status": "proved",
   "theorems": [
    "C68_oriented_angle"
   ],
   "note": "Rotation identity and range."
  },
  {
   "property": "C69",
   "status": "proved",
   "theorems": [
    "C69_orthogonal_points"
   ],
   "note": "All four points."
  },
  {
   "property": "C70",
   "status": "proved",
   "theorems": [
    "C70_exact"
   ],
   "note": "Exact result, and the call does not throw."
  },
  {
   "property": "C71",
   "status": "proved",
   "theorems": [
    "C71_mec",
    "C71_random_independent"
   ],
   "note": "Includes independence from the random sequence."
  },
  {
   "property": "C72",
   "status": "proved",
   "theorems": [
    "C72_radius"
   ],
   "note": "By induction over the history."
  },
  {
   "property": "C73",
   "status": "partial",
   "theorems": [
    "C73_refuted",
    "C73_corner_refuted"
   ],
   "note": "Refuted twice: undefined behaviour for a shared edge, area 0 for a shared corner. The proved part is C38."
  },
  {
   "property": "C74",
   "status": "proved",
   "theorems": [
    "C74_rect_inside",
    "C74_point_inside",
    "C74_order"
   ],
   "note": "Points, rectangles, order laws."
  },
  {
   "property": "C75",
   "status": "proved",
   "theorems": [
    "C75_extended",
    "C75_diagonals"
   ],
   "note": "As stated."
  },
  {
   "property": "C76",
   "status": "proved",
   "theorems": [
    "C76_closed",
    "C76_open",
    "C76_sound"
   ],
   "note": ""
  },
  {
   "property": "C77",
   "status": "proved",
   "theorems": [
    "C77_turns",
    "C77_cycle"
   ],
   "note": ""
  },
  {
   "property": "C78",
   "status": "proved",
   "theorems": [
    "C78_sound",
    "C78_complete",
    "C78_total",
    "C78_cycle",
    "C78_translation"
   ],
   "note": ""
  },
  {
   "property": "C79",
   "status": "proved",
   "theorems": [
    "C79_extreme"
   ],
   "note": ""
  },
  {
   "property": "C80",
   "status": "proved",
   "theorems": [
    "C80_regular",
    "C80_rejects"
   ],
   "note": ""
  },
  {
   "property": "C81",
   "status": "proved",
   "theorems": [
    "C81_parallelogram",
    "C81_rejects"
   ],
   "note": ""
  },
  {
   "property": "C82",
   "status": "proved",
   "theorems": [
    "C82_nearest",
    "C82_farthest",
    "C82_both",
    "C82_rejects"
   ],
   "note": ""
  },
  {
   "property": "C83",
   "status": "proved",
   "theorems": [
    "C83_symmetric",
    "C83_smallest",
    "C83_defined"
   ],
   "note": ""
  },
  {
   "property": "C84",
   "status": "proved",
   "theorems": [
    "C84_points",
    "C84_segments",
    "C84_rectangles",
    "C84_variants",
    "C84_empty"
   ],
   "note": ""
  },
  {
   "property": "C85",
   "status": "partial",
   "theorems": [
    "C85_line_refuted"
   ],
   "note": "refuted: the pair of the previous element, or two default-constructed points, is pushed"
  },
  {
   "property": "C86",
   "status": "proved",
   "theorems": [
    "C86_runs",
    "C86_always"
   ],
   "note": ""
  },
  {
   "property": "C87",
   "status": "proved",
   "theorems": [
    "C87_center_axes",
    "C87_angle",
    "C87_same_ellipse",
    "C87_exchange"
   ],
   "note": ""
  },
  {
   "property": "C88",
   "status": "proved",
   "theorems": [
    "C88_box"
   ],
   "note": ""
  },
  {
   "property": "C89",
   "status": "proved",
   "theorems": [
    "C89_inside"
   ],
   "note": ""
  },
  {
   "property": "C90",
   "status": "proved",
   "theorems": [
    "C90_moves"
   ],
   "note": ""
  },
  {
   "property": "C91",
   "status": "proved",
   "theorems": [
    "C91_from_circle",
    "C91_is_circle"
   ],
   "note": ""
  },
  {
   "property": "C92",
   "status": "partial",
   "theorems": [
    "C92_throws_refuted",
    "C92_exchanges_refuted",
    "C92_flag_refuted"
   ],
   "note": "refuted; the positive part is C93"
  },
  {
   "property": "C93",
   "status": "proved",
   "theorems": [
    "C93_normalised",
    "C93_reflexive",
    "C93_meaning"
   ],
   "note": ""
  },
  {
   "property": "C94",
   "status": "proved",
   "theorems": [
    "C94_perimeter"
   ],
   "note": ""
  },
  {
   "property": "C95",
   "status": "partial",
   "theorems": [
    "C95_box_refuted",
    "C95_inside_refuted",
    "C95_translate_refuted"
   ],
   "note": "refuted with the ellipse 0,0,2,1,pi/2; the positive parts are C88, C89, C90"
  },
  {
   "property": "C96",
   "status": "proved",
   "theorems": [
    "C96_set3",
    "C96_history"
   ],
   "note": ""
  },
  {
   "property": "C97",
   "status": "proved",
   "theorems": [
    "C97_zero",
    "C97_same_side",
    "C97_other_side",
    "C97_positive_side"
   ],
   "note": ""
  },
  {
   "property": "C98",
   "status": "proved",
   "theorems": [
    "C98_default",
    "C98_objects",
    "C98_range",
    "C98_setters"
   ],
   "note": ""
  },
  {
   "property": "C99",
   "status": "proved",
   "theorems": [
    "C99_next_style",
    "C99_holds_fill",
    "C99_attr_string"
   ],
   "note": ""
  },
  {
   "property": "C100",
   "status": "proved",
   "theorems": [
    "C100_hull",
    "C100_object",
    "C100_total"
   ],
   "note": ""
  },
  {
   "property": "C101",
   "status": "proved",
   "theorems": [
    "C101_order",
    "C101_idempotent",
    "C101_small"
   ],
   "note": ""
  },
  {
   "property": "C102",
   "status": "proved",
   "theorems": [
    "C102_axis_lines"
   ],
   "note": ""
  },
  {
   "property": "C103",
   "status": "proved",
   "theorems": [
    "C103_oriented_box"
   ],
   "note": ""
  },
  {
   "property": "C104",
   "status": "proved",
   "theorems": [
    "C104_any_ray",
    "C104_outside",
    "C104_connected"
   ],
   "note": ""
  },
  {
   "property": "C105",
   "status": "proved",
   "theorems": [
    "C105_even_odd",
    "C105_answers",
    "C105_not_simple",
    "C105_outside_box"
   ],
   "note": "Outside the zones that the quantifier excludes; condition for the exception exact."
  },
  {
   "property": "C106",
   "status": "proved",
   "theorems": [
    "C106_half_planes",
    "C106_convex"
   ],
   "note": ""
  },
  {
   "property": "C107",
   "status": "proved",
   "theorems": [
    "C107_segment",
    "C107_rectangle",
    "C107_polyline",
    "C107_any_polygon"
   ],
   "note": ""
  },
  {
   "property": "C108",
   "status": "proved",
   "theorems": [
    "C108_semantics",
    "C108_exact"
   ],
   "note": ""
  },
  {
   "property": "C109",
   "status": "partial",
   "theorems": [
    "C109_after_close_refuted",
    "C109_flag_refuted",
    "C109_text_refuted"
   ],
   "note": "refuted in several ways (command after Z, common closed flag, texts refused or stopping the program); the positive part is C108 and C110"
  },
  {
   "property": "C110",
   "status": "proved",
   "theorems": [
    "C110_defined",
    "C110_characters",
    "C110_empty"
   ],
   "note": ""
  },
  {
   "property": "C111",
   "status": "proved",
   "theorems": [
    "C111_points",
    "C111_import"
   ],
   "note": ""
  },
  {
   "property": "C112",
   "status": "partial",
   "theorems": [
    "C112_refuted"
   ],
   "note": "refuted; the positive part is C111"
  },
  {
   "property": "C113",
   "status": "proved",
   "theorems": [
    "C113_ellipse"
   ],
   "note": ""
  },
  {
   "property": "C114",
   "status": "partial",
   "theorems": [
    "C114_pivot_refuted",
    "C114_tall_refuted"
   ],
   "note": "refuted; the positive part is C113"
  },
  {
   "property": "C115",
   "status": "proved",
   "theorems": [
    "C115_outcome",
    "C115_points"
   ],
   "note": ""
  },
  {
   "property": "C116",
   "status": "partial",
   "theorems": [
    "C116_crossing_refuted",
    "C116_order_refuted"
   ],
   "note": "refuted; the positive part is C115"
  },
  {
   "property": "C117",
   "status": "proved",
   "theorems": [
    "C117_outcome",
    "C117_vertices",
    "C117_sides",
    "C117_product",
    "C117_inverse",
    "C117_container"
   ],
   "note": ""
  },
  {
   "property": "C118",
   "status": "proved",
   "theorems": [
    "C118_turns",
    "C118_convex",
    "C118_affine",
    "C118_rectangle"
   ],
   "note": ""
  },
  {
   "property": "C119",
   "status": "partial",
   "theorems": [
    "C119_refuted"
   ],
   "note": "refuted; the positive part is C118"
  },
  {
   "property": "C120",
   "status": "proved",
   "theorems": [
    "C120_vertices",
    "C120_empty"
   ],
   "note": ""
  },
  {
   "property": "C121",
   "status": "proved",
   "theorems": [
    "C121_convex"
   ],
   "note": ""
  },
  {
   "property": "C122",
   "status": "partial",
   "theorems": [
    "C122_failure_refuted",
    "C122_inside_refuted"
   ],
   "note": "refuted; the positive part is C120, C121"
  },
  {
   "property": "C123",
   "status": "proved",
   "theorems": [
    "C123_bisectors",
    "C123_equidistant",
    "C123_small"
   ],
   "note": ""
  },
  {
   "property": "C124",
   "status": "proved",
   "theorems": [
    "C124_distance",
    "C124_not_parallel"
   ],
   "note": ""
  },
  {
   "property": "C125",
   "status": "partial",
   "theorems": [
    "C125_refuted"
   ],
   "note": "refuted; the positive part is C124"
  },
  {
   "property": "C126",
   "status": "proved",
   "theorems": [
    "C126_area",
    "C126_length",
    "C126_translate",
    "C126_moveTo"
   ],
   "note": ""
  },
  {
   "property": "C127",
   "status": "proved",
   "theorems": [
    "C127_area",
    "C127_length",
    "C127_corners"
   ],
   "note": ""
  },
  {
   "property": "C128",
   "status": "proved",
   "theorems": [
    "C128_moveTo",
    "C128_empty",
    "C128_cache"
   ],
   "note": ""
  },
  {
   "property": "C129",
   "status": "proved",
   "theorems": [
    "C129_circle",
    "C129_rectangle"
   ],
   "note": ""
  },
  {
   "property": "C130",
   "status": "proved",
   "theorems": [
    "C130_exact",
    "C130_side"
   ],
   "note": ""
  },
  {
   "property": "C131",
   "status": "partial",
   "theorems": [
    "C131_refuted"
   ],
   "note": "refuted; the positive part is C130"
  },
  {
   "property": "C132",
   "status": "proved",
   "theorems": [
    "C132_exact"
   ],
   "note": ""
  },
  {
   "property": "C133",
   "status": "proved",
   "theorems": [
    "C133_open",
    "C133_closed"
   ],
   "note": ""
  },
  {
   "property": "C134",
   "status": "partial",
   "theorems": [
    "C134_refuted"
   ],
   "note": "refuted; the positive part is C133"
  },
  {
   "property": "C135",
   "status": "proved",
   "theorems": [
    "C135_exact",
    "C135_touches"
   ],
   "note": ""
  },
  {
   "property": "C136",
   "status": "partial",
   "theorems": [
    "C136_refuted",
    "C136_none"
   ],
   "note": "refuted; the positive part is C135"
  },
  {
   "property": "C137",
   "status": "proved",
   "theorems": [
    "C137_exact",
    "C137_answers"
   ],
   "note": ""
  },
  {
   "property": "C138",
   "status": "proved",
   "theorems": [
    "C138_incidence",
    "C138_join"
   ],
   "note": ""
  },
  {
   "property": "C139",
   "status": "proved",
   "theorems": [
    "C139_line_through"
   ],
   "note": ""
  },
  {
   "property": "C140",
   "status": "proved",
   "theorems": [
    "C140_fresh",
    "C140_fresh_general"
   ],
   "note": ""
  },
  {
   "property": "C141",
   "status": "proved",
   "theorems": [
    "C141_scale",
    "C141_sym"
   ],
   "note": ""
  },
  {
   "property": "C142",
   "status": "proved",
   "theorems": [
    "C142_singular"
   ],
   "note": ""
  },
  {
   "property": "C143",
   "status": "proved",
   "theorems": [
    "C143_primed"
   ],
   "note": ""
  },
  {
   "property": "C144",
   "status": "proved",
   "theorems": [
    "C144_orthog",
    "C144_parallel",
    "C144_parallel_pair"
   ],
   "note": ""
  },
  {
   "property": "C145",
   "status": "proved",
   "theorems": [
    "C145_rotated"
   ],
   "note": ""
  },
  {
   "property": "C146",
   "status": "proved",
   "theorems": [
    "C146_tolerance"
   ],
   "note": ""
  },
  {
   "property": "C147",
   "status": "proved",
   "theorems": [
    "C147_collinear"
   ],
   "note": ""
  },
  {
   "property": "C148",
   "status": "proved",
   "theorems": [
    "C148_ordered"
   ],
   "note": ""
  },
  {
   "property": "C149",
   "status": "proved",
   "theorems": [
    "C149_sound"
   ],
   "note": ""
  },
  {
   "property": "C150",
   "status": "proved",
   "theorems": [
    "C150_mec"
   ],
   "note": ""
  },
  {
   "property": "C151",
   "status": "proved",
   "theorems": [
    "C151_length",
    "C151_shape",
    "C151_centroid"
   ],
   "note": ""
  },
  {
   "property": "C152",
   "status": "proved",
   "theorems": [
    "C152_points"
   ],
   "note": ""
  },
  {
   "property": "C153",
   "status": "proved",
   "theorems": [
    "C153_maps",
    "C153_recovers",
    "C153_sizes"
   ],
   "note": ""
  },
  {
   "property": "C154",
   "status": "partial",
   "theorems": [
    "C154_origin_refuted"
   ],
   "note": ""
  },
  {
   "property": "C155",
   "status": "proved",
   "theorems": [
    "C155_exact",
    "C155_empty"
   ],
   "note": ""
  },
  {
   "property": "C156",
   "status": "proved",
   "theorems": [
    "C156_circle",
    "C156_rectangle",
    "C156_empty"
   ],
   "note": ""
  },
  {
   "property": "C157",
   "status": "proved",
   "theorems": [
    "C157_number",
    "C157_integer",
    "C157_chars"
   ],
   "note": ""
  },
  {
   "property": "C158",
   "status": "partial",
   "theorems": [
    "C158_refuted"
   ],
   "note": ""
  },
  {
   "property": "C159",
   "status": "proved",
   "theorems": [
    "C159_document",
    "C159_size",
    "C159_fill"
   ],
   "note": ""
  },
  {
   "property": "C160",
   "status": "proved",
   "theorems": [
    "C160_import",
    "C160_exact"
   ],
   "note": ""
  },
  {
   "property": "C161",
   "status": "partial",
   "theorems": [
    "C161_refuted"
   ],
   "note": ""
  },
  {
   "property": "C162",
   "status": "partial",
   "theorems": [
    "C162_refuted"
   ],
   "note": ""
  },
  {
   "property": "C163",
   "status": "partial",
   "theorems": [
    "C163_text_refuted",
    "C163_attr_refuted"
   ],
   "note": ""
  },
  {
   "property": "C164",
   "status": "partial",
   "theorems": [
    "C164_refuted"
   ],
   "note": ""
  },
  {
   "property": "C165",
   "status": "partial",
   "theorems": [
    "C165_refuted"
   ],
   "note": ""
  },
  {
   "property": "C166",
   "status": "proved",
   "theorems": [
    "C166_mark",
    "C166_outside"
   ],
   "note": ""
  },
  {
   "property": "C167",
   "status": "proved",
   "theorems": [
    "C167_arrow"
   ],
   "note": ""
  },
  {
   "property": "C168",
   "status": "proved",
   "theorems": [
    "C168_flat"
   ],
   "note": ""
  },
  {
   "property": "C169",
   "status": "proved",
   "theorems": [
    "C169_line",
    "C169_segment",
    "C169_circle"
   ],
   "note": ""
  },
  {
   "property": "C170",
   "status": "proved",
   "theorems": [
    "C170_even"
   ],
   "note": ""
  },
  {
   "property": "C171",
   "status": "proved",
   "theorems": [
    "C171_symmetric",
    "C171_exact"
   ],
   "note": ""
  },
  {
   "property": "C172",
   "status": "partial",
   "theorems": [
    "C172_refuted"
   ],
   "note": "refuted; the positive part is C169"
  },
  {
   "property": "C173",
   "status": "proved",
   "theorems": [
    "C173_segment",
    "C173_polyline",
    "C173_crossing"
   ],
   "note": ""
  },
  {
   "property": "C174",
   "status": "proved",
   "theorems": [
    "C174_exact"
   ],
   "note": ""
  },
  {
   "property": "C175",
   "status": "proved",
   "theorems": [
    "C175_stroke",
    "C175_text"
   ],
   "note": ""
  },
  {
   "property": "C176",
   "status": "proved",
   "theorems": [
    "C176_indexes",
    "C176_size"
   ],
   "note": ""
  },
  {
   "property": "C177",
   "status": "proved",
   "theorems": [
    "C177_image",
    "C177_reported",
    "C177_figure"
   ],
   "note": ""
  },
  {
   "property": "C178",
   "status": "partial",
   "theorems": [
    "C178_crossing_refuted"
   ],
   "note": "refuted; the positive part is C177"
  },
  {
   "property": "C179",
   "status": "proved",
   "theorems": [
    "C179_area",
    "C179_similar",
    "C179_length"
   ],
   "note": ""
  },
  {
   "property": "C180",
   "status": "proved",
   "theorems": [
    "C180_types",
    "C180_independent",
    "C180_valid",
    "C180_area",
    "C180_length"
   ],
   "note": ""
  },
  {
   "property": "C181",
   "status": "partial",
   "theorems": [
    "C181_oriented_refuted"
   ],
   "note": "refuted; the positive part is C180"
  },
  {
   "property": "C182",
   "status": "proved",
   "theorems": [
    "C182_state",
    "C182_inside",
    "C182_box",
    "C182_exchange",
    "C182_image",
    "C182_agree"
   ],
   "note": ""
  },
  {
   "property": "C183",
   "status": "partial",
   "theorems": [
    "C183_angle_refuted",
    "C183_small_refuted",
    "C183_compare_refuted",
    "C183_stale_refuted"
   ],
   "note": "refuted; the positive part is C182"
  },
  {
   "property": "C184",
   "status": "proved",
   "theorems": [
    "C184_read",
    "C184_container",
    "C184_injective"
   ],
   "note": ""
  },
  {
   "property": "C185",
   "status": "partial",
   "theorems": [
    "C185_kind_refuted",
    "C185_digits_refuted",
    "C185_points_refuted"
   ],
   "note": "refuted; the positive part is C184"
  },
  {
   "property": "C186",
   "status": "proved",
   "theorems": [
    "C186_drawn"
   ],
   "note": ""
  },
  {
   "property": "C187",
   "status": "proved",
   "theorems": [
    "C187_points",
    "C187_lines",
    "C187_segments"
   ],
   "note": ""
  },
  {
   "property": "C188",
   "status": "proved",
   "theorems": [
    "C188_order",
    "C188_segment"
   ],
   "note": ""
  },
  {
   "property": "C189",
   "status": "partial",
   "theorems": [
    "C189_nan_refuted",
    "C189_segment_refuted"
   ],
   "note": "refuted; the positive part is C188"
  },
  {
   "property": "C190",
   "status": "proved",
   "theorems": [
    "C190_corners",
    "C190_ordered"
   ],
   "note": ""
  },
  {
   "property": "C191",
   "status": "proved",
   "theorems": [
    "C191_translation",
    "C191_scale",
    "C191_identity"
   ],
   "note": ""
  },
  {
   "property": "C192",
   "status": "partial",
   "theorems": [
    "C192_line_refuted",
    "C192_point_refuted",
    "C192_middle_refuted"
   ],
   "note": "refuted; the positive parts are C202 and C203 (exact-arithmetic counterparts C29 and C147)"
  },
  {
   "property": "C193",
   "status": "proved",
   "theorems": [
    "C193_hull"
   ],
   "note": ""
  },
  {
   "property": "C194",
   "status": "proved",
   "theorems": [
    "C194_area",
    "C194_convex"
   ],
   "note": ""
  },
  {
   "property": "C195",
   "status": "proved",
   "theorems": [
    "C195_inside",
    "C195_box",
    "C195_extreme"
   ],
   "note": ""
  },
  {
   "property": "C196",
   "status": "proved",
   "theorems": [
    "C196_translate",
    "C196_homography",
    "C196_dimensions"
   ],
   "note": ""
  },
  {
   "property": "C197",
   "status": "proved",
   "theorems": [
    "C197_rectangle",
    "C197_box"
   ],
   "note": ""
  },
  {
   "property": "C198",
   "status": "partial",
   "theorems": [
    "C198_inside_refuted",
    "C198_segment_refuted",
    "C198_back_refuted"
   ],
   "note": "refuted; the positive part is C197"
  },
  {
   "property": "C199",
   "status": "proved",
   "theorems": [
    "C199_distance",
    "C199_equal"
   ],
   "note": ""
  },
  {
   "property": "C200",
   "status": "proved",
   "theorems": [
    "C200_hull",
    "C200_convex"
   ],
   "note": ""
  },
  {
   "property": "C201",
   "status": "proved",
   "theorems": [
    "C201_area",
    "C201_sign"
   ],
   "note": ""
  },
  {
   "property": "C202",
   "status": "proved",
   "theorems": [
    "C202_distance",
    "C202_ends",
    "C202_collinear"
   ],
   "note": ""
  },
  {
   "property": "C203",
   "status": "proved",
   "theorems": [
    "C203_point_at"
   ],
   "note": ""
  },
  {
   "property": "C204",
   "status": "proved",
   "theorems": [
    "C204_accept",
    "C204_roundtrip",
    "C204_copy"
   ],
   "note": ""
  },
  {
   "property": "C205",
   "status": "partial",
   "theorems": [
    "C205_stale_refuted",
    "C205_equality_refuted"
   ],
   "note": "refuted; the positive part is C206"
  },
  {
   "property": "C206",
   "status": "proved",
   "theorems": [
    "C206_first_use",
    "C206_normalize"
   ],
   "note": ""
  },
  {
   "property": "C207",
   "status": "partial",
   "theorems": [
    "C207_double_refuted",
    "C207_float_refuted"
   ],
   "note": "refuted; the positive part is C208"
  },
  {
   "property": "C208",
   "status": "proved",
   "theorems": [
    "C208_integer",
    "C208_integers",
    "C208_nearest",
    "C208_points",
    "C208_rectangle"
   ],
   "note": ""
  },
  {
   "property": "C209",
   "status": "proved",
   "theorems": [
    "C209_closed",
    "C209_unclosed"
   ],
   "note": ""
  },
  {
   "property": "C210",
   "status": "partial",
   "theorems": [
    "C210_refuted",
    "C210_single_refuted"
   ],
   "note": "refuted; the positive part is C209"
  },
  {
   "property": "C211",
   "status": "proved",
   "theorems": [
    "C211_square",
    "C211_builds",
    "C211_all"
   ],
   "note": ""
  },
  {
   "property": "C212",
   "status": "partial",
   "theorems": [
    "C212_refuted"
   ],
   "note": "refuted; the positive part is C211"
  },
  {
   "property": "C213",
   "status": "partial",
   "theorems": [
    "C213_refuted"
   ],
   "note": "refuted; the positive part is C211"
  },
  {
   "property": "C214",
   "status": "proved",
   "theorems": [
    "C214_length"
   ],
   "note": ""
  },
  {
   "property": "C215",
   "status": "proved",
   "theorems": [
    "C215_length",
    "C215_area"
   ],
   "note": ""
  },
  {
   "property": "C216",
   "status": "proved",
   "theorems": [
    "C216_point",
    "C216_circle"
   ],
   "note": ""
  },
  {
   "property": "C217",
   "status": "proved",
   "theorems": [
    "C217_numbers",
    "C217_through",
    "C217_pair"
   ],
   "note": ""
  },
  {
   "property": "C218",
   "status": "partial",
   "theorems": [
    "C218_refuted"
   ],
   "note": "refuted; the positive part is C217"
  },
  {
   "property": "C219",
   "status": "proved",
   "theorems": [
    "C219_vectors"
   ],
   "note": ""
  },
  {
   "property": "C220",
   "status": "partial",
   "theorems": [
    "C220_line_refuted",
    "C220_point_refuted"
   ],
   "note": "refuted; the positive part is C221"
  },
  {
   "property": "C221",
   "status": "proved",
   "theorems": [
    "C221_line",
    "C221_point"
   ],
   "note": ""
  },
  {
   "property": "C222",
   "status": "partial",
   "theorems": [
    "C222_refuted"
   ],
   "note": "refuted; the positive part is C223"
  },
  {
   "property": "C223",
   "status": "proved",
   "theorems": [
    "C223_convert",
    "C223_bool"
   ],
   "note": ""
  },
  {
   "property": "C224",
   "status": "proved",
   "theorems": [
    "C224_sides"
   ],
   "note": ""
  },
  {
   "property": "C225",
   "status": "proved",
   "theorems": [
    "C225_centroid"
   ],
   "note": ""
  },
  {
   "property": "C226",
   "status": "proved",
   "theorems": [
    "C226_segment",
    "C226_rect"
   ],
   "note": ""
  },
  {
   "property": "C227",
   "status": "proved",
   "theorems": [
    "C227_exact"
   ],
   "note": ""
  },
  {
   "property": "C228",
   "status": "proved",
   "theorems": [
    "C228_lines",
    "C228_exception"
   ],
   "note": ""
  },
  {
   "property": "C229",
   "status": "partial",
   "theorems": [
    "C229_refuted"
   ],
   "note": "refuted; the positive part is C228"
  },
  {
   "property": "C230",
   "status": "proved",
   "theorems": [
    "C230_segment",
    "C230_close"
   ],
   "note": ""
  },
  {
   "property": "C231",
   "status": "partial",
   "theorems": [
    "C231_refuted"
   ],
   "note": "refuted; the positive part is C232"
  },
  {
   "property": "C232",
   "status": "proved",
   "theorems": [
    "C232_rect",
    "C232_polyline"
   ],
   "note": ""
  },
  {
   "property": "C233",
   "status": "proved",
   "theorems": [
    "C233_rows"
   ],
   "note": ""
  },
  {
   "property": "C234",
   "status": "proved",
   "theorems": [
    "C234_distance",
    "C234_equal"
   ],
   "note": ""
  },
  {
   "property": "C235",
   "status": "proved",
   "theorems": [
    "C235_point",
    "C235_circle",
    "C235_rect"
   ],
   "note": ""
  },
  {
   "property": "C236",
   "status": "partial",
   "theorems": [
    "C236_refuted"
   ],
   "note": "refuted; the positive part is C237"
  },
  {
   "property": "C237",
   "status": "proved",
   "theorems": [
    "C237_count"
   ],
   "note": ""
  },
  {
   "property": "C238",
   "status": "proved",
   "theorems": [
    "C238_nearest",
    "C238_farthest",
    "C238_both"
   ],
   "note": ""
  },
  {
   "property": "C239",
   "status": "proved",
   "theorems": [
    "C239_closest"
   ],
   "note": ""
  },
  {
   "property": "C240",
   "status": "proved",
   "theorems": [
    "C240_sizes",
    "C240_equal",
    "C240_in_circle",
    "C240_points"
   ],
   "note": ""
  }
 ]
}