# Formal model of gdspy (pinned commit) in Rocq/Coq 8.16.1

The model is a set of total Gallina functions that mirror the Python (and a
little of the C++) code function by function.  Every definition cites the lines
of `/repo/gdspy` it models and says where it simplifies.  The English properties
are in `properties.jsonl`, the theorems that prove them in `MANIFEST.json`, the
attempts to break the theorems with wrong programs in `seeded/LOG.jsonl`.

How to read `seeded/LOG.jsonl`.  What is observed for each wrong program is
`first_failing_lemmas`: the first proof that breaks in each file.  Files that depend on a
broken one are then not built.  `theorems_failed` lists the theorems that broke
themselves and, for most entries, the theorems of the claim in files that could not be
built for that reason; those were not tried one by one.  So an entry shows that the
proofs as they stand reject the program; where only a helper lemma broke, it does not by
itself show that no other proof of the theorem could be found.
`theorems_using_lemma_by_text` is weaker still: theorems reached by following names in
the sources from the broken lemma.  For the scanlines (C93) each statement was also evaluated on the edited program, and
`theorems_failed` lists only statements found false.  Edits marked harmless do not make a claim false; they
break a proof only.

For each part of the code there are four kinds of files:

* a **model** (`Writer.v`, `Flex.v`, ...): what the code does;
* a **specification** (`Spec*.v`): the notions needed to say what it should do,
  independent of how the code works;
* **property files** (`Prop*.v`): one theorem per claim, `Print Assumptions`
  below it and an `Example` beside it that meets its hypotheses;
* **proof files** (the rest): lemmas only.

## Trusted base

* Coq's kernel (8.16.1).  No native computation, no plugins, no axioms of our own,
  no `Admitted`, no section-less `Variable`.
* The axioms that `Print Assumptions` lists, all from the standard library:
  - **none** ("closed under the global context"): file format, object graph;
  - **R1**: `ClassicalDedekindReals.sig_forall_dec`;
  - **R2**: `ClassicalDedekindReals.sig_forall_dec` and
    `FunctionalExtensionality.functional_extensionality_dep`;
  - **R3**: R2 and `ClassicalDedekindReals.sig_not_dec`;
  - **R4**: R3 and `Classical_Prop.classic` (from the standard library's theory of
    derivatives and inverse trigonometric functions).
  R1 to R4 come with Coq's real numbers.  The table at the end gives the class of
  every theorem.  The checker `coqchk` also sees the standard library's
  `Coq.ssr.ssrunder` and `Rdefinitions.RbaseSymbolsImpl` modules.
* That the model is faithful: the comments cite the lines; nothing was executed.
* Parameters.  What the code calls but the model leaves open is universally
  quantified in the theorems: `numpy.log2`, the hash engine, the clipping engine,
  the iteration order of Python sets, `_hobby`'s linear solve, user functions.

## What is modelled

Exceptions are `None`.  Loops that need not end are run with `fuel`; theorems that
say that something succeeds say that some fuel suffices.

| part of /repo/gdspy | model | simplifications |
|---|---|---|
| gdsiiformat.py 41-181 (record readers, 8-byte reals), all `to_gds`, `GdsLibrary.write_gds`, `GdsWriter`, `read_gds`, `get_gds_units`, `get_binary_cells`, `gdsii_hash`, `set_gdsii_timestamp` | Bytes, Real8, Records, Writer, Reader, Tools | coordinates are integers in database units (the rounding to them: Grid, C25, C51, C52); doubles are exact dyadic numbers; a file is a byte string; the time stamp is an argument |
| library.py Cell, CellReference, CellArray, GdsLibrary as a graph of objects: `add`, `remove`, `rename_cell`, `replace_references`, `new_cell`, `extract`, `top_level`, `get_dependencies` | Graph | geometry left out; sets are lists in an arbitrary order |
| polygon.py PolygonSet, Polygon, Rectangle: transformations, area, box | Plane | exact reals |
| library.py queries over hierarchies: `get_polygons`, `get_polygonsets`, `get_paths`, `get_labels`, `area`, `get_bounding_box`, `flatten`, `remove_*`, `get_layers` ... ; `Cell.copy`; `gdspy.copy` | Hier, Cache, Copy | exact reals; the hierarchy is a finite tree (cyclic designs recurse for ever in Python); the global box cache is explicit in Cache |
| curve.py, path.py 68-85 | Curve | exact reals; `_hobby` is a parameter (its model is Smooth; C78_sized and C78_moves say that it meets what the theorems require) |
| operation.py, the glue in clipper.cpp (`parse_polygon`, `inside`, `PointInPolygon`, boxes) | Engine | the sweep line (`Clipper`) is a parameter |
| hobby.py 37-247 | Smooth (Hobby: for two points with given angles, which is proved to be the same) | exact reals; `numpy.linalg.solve` is a parameter (Gauss has one that meets the conditions on it, and models no code) |
| path.py FlexPath 195-1709 | Flex | exact reals; where numpy gives NaN the model gives `None` |
| path.py RobustPath 52-192, 1712-2977 | Robust | the same; numeric derivative and Newton iteration as in the code, in exact reals |
| polygon.py fillet 383-509 | Fillet | exact reals; `fracture` is a parameter |
| polygon.py Text 834-1011 with its font; the text in label.py to_svg 302-320 | Font, Text | exact reals; strings are lists of code points |
| polygon.py L1Path 2044-2305 | L1 | exact reals |
| the rounding in all `to_gds`, the units of write_gds/read_gds, the points of arrays (library.py 1696-1758, 2679-2692, 2760-2787) | Grid | arithmetic is a parameter (C51) or exact |
| polygon.py Path 1022-2038 | Path | the same; the control points of `smooth` are a parameter |
| polygon.py Round 650-832 | Circles | exact reals (the sine of `numpy.pi` is zero); ring vertices that are NaN are `None` |
| polygon.py PolyPath 2308-2617 | Poly | exact reals; points repeated in a row (0 / 0 in the code) are `None`; `width` holds the half widths |
| Cell.write_svg, the `to_svg` methods (library.py 856-1044, 1209-1252, 1785-1846; polygon.py 254-284; path.py 1123-1153, 2358-2388; label.py 270-320) | Svg | the document as a tree; exact reals, no `precision`; the orders of Python's sets are parameters; a label's anchor is a function of the label |
| clipper.cpp link_holes, tree2paths, GetFirst/GetNext/IsHole (160-240, 4730-4833) | LinkHoles | unbounded integers; vector iterators are indices; the order of holes with the same leftmost x is a parameter |
| operation.py offset 148-210; clipper.cpp offset 4945-5003, ClipperOffset 3777-4223, Area/Orientation 393-411 | Offset | closed polygons; exact reals and unbounded integers; `acos` outside [-1, 1] is `None`; the sweep line and the box it reports are parameters |
| the text of SVG files (library.py 970-1041; the `to_svg` methods) | SvgText | numbers through a parameter (`numpy.format_float_positional`); characters, not bytes (the encoding of the file is not modelled) |
| the placing of polygons by references and arrays, `translate`, `scale`, `rotate` of polygon sets, with rounding (library.py 1300-1333, 1888-1943; polygon.py 124-172, 511-529) | Machine | any arithmetic within the errors of doubles; no overflow |
| the sweep line of clipper.cpp: `SetWindingCount`, `IsContributing`, `IntersectEdges`, `AddOutPt`, `AddLocalMinPoly`, `AddLocalMaxPoly`, `AppendPolygon`, `DoMaxima`, insertion of local minima (1450-1472, 1632-1906, 1986-2087, 2114-2306, 2375-2509, 2965-3012) | Sweep | closed paths; the events and their points are given (the geometry that finds them is not modelled); no joins; hole state and tree in Hole and Tree |
| the intersections of a scanbeam in clipper.cpp: `BuildIntersectList`, `FixupIntersectionOrder`, `EdgesAdjacent`, `ProcessIntersectList`, `SwapPositionsInAEL`, `SwapPositionsInSEL` (1403-1447, 2566-2609, 2835-2962) | Beam | abscissas at the upper scanline are given; linked lists as lists; any order as the result of std::sort |
| the clean-up of outlines in clipper.cpp: `AddPath` for closed paths up to the local minima, `RemoveEdge`, `SlopesEqual`, `FixupOutPolygon`, the orientation in `ExecuteInternal`, `Area` of an output polygon, `ReversePolyPtLinks`, the contours of `BuildResult2` (414-424, 562-571, 700-711, 753-761, 1052-1157, 1601-1621, 3151-3189, 3236-3251) | Ring | circular lists as lists from the current element on; unbounded integers; no joins |
| hole state of the output polygons in clipper.cpp: `SetHoleState`, `OutRec1RightOfOutRec2`, IsHole and FirstLeft in `AppendPolygon` and `AddOutPt` (2309-2334, 2357-2365, 2381-2389, 2445-2452, 2473-2481) | Hole | on top of Sweep; pointers to output polygons as their indices; the answer of `GetLowermostRec` is any boolean, given with each event; closed paths only; no `JoinCommonEdges` |
| the tree of outlines in clipper.cpp: `FixHoleLinkage`, `BuildResult2`, `PointCount`, `PolyNode::AddChild`, `IsHole`, `GetNext` (201-240, 1553-1565, 3192-3204, 3228-3283) | Tree | on top of Hole; nodes as indices of their output polygons; the contours after the clean-up are given; loops over pointers with a number of steps allowed |
| scanlines of clipper.cpp: `ExecuteInternal` (its loop), `Reset`, `InsertScanbeam`, `PopScanbeam`, `PopLocalMinima`, `LocalMinimaPending`, `InsertLocalMinimaIntoAEL` (what it pushes), `UpdateEdgeIntoAEL` (what it pushes) (1255-1300, 1343-1356, 1450-1476, 1569-1592, 1986-2034) | Scan | ordinates only: a bound is the list of Top.Y of its edges; the bounds are given with the form that AddPath gives them; std::sort is any sort; a number of rounds allowed, shown to be enough |

## What is not modelled

* the layout viewer (`viewer.py`) and the rest of the Clipper sweep line (`clipper.cpp` except the parts above: how the abscissas decide the order of events, how paths are cut into bounds, horizontal edges, joins of common edges);
* floating-point rounding, except in the 8-byte reals (C02, C03), the rounding to the grid (C51) and the placing of polygons (C87);
* the file system, file handles (`pathlib`, open files): a file is its bytes;
* number formatting (a parameter of C86), the encoding of SVG files;
* warnings, `__str__`/`__repr__`, Python 2 branches;
* what the notes on the properties below leave out.

## Findings

Statements that a user may expect and that are false of the code.  Each is a theorem
named `..._refuted` about the model.

| theorem | what happens |
|---|---|
| C01_attribute_limit_refuted | a property attribute of 2^15 or more is written but read back negative |
| C01_trailing_nul_refuted | names and texts that end in NUL lose it |
| C01_empty_name_refuted | an empty cell name cannot be read back |
| C02_inexact_refuted | with a log2 that rounds up just below a power of 16, a real is not written exactly |
| C14_shared_cell_refuted | renaming through one library spoils the keys of another that holds the same cell (the global current_library does) |
| C14_failed_add_not_atomic_refuted | an add that raises keeps the cells visited before the clash |
| C19_by_name_refuted | top_level lists cells that are only referenced by name |
| C20_stale_refuted | the cached bounding box is not updated after a change to a referenced cell |
| C20_stale_top_refuted | the same for the cell itself when its elements change |
| C21_after_removal_refuted | flatten after removals keeps the old box |
| C21_texttype_refuted | flatten(single_datatype=...) overwrites the texttypes with None |
| C24_zero_magnification_refuted | an array of magnification 0 is a point in get_polygons() and unmagnified in get_polygons(by_spec=True) |
| C30_and_empty_refuted | boolean 'and' with an empty second operand uses the last polygon of the first |
| C30_empty_refuted | boolean of two empty operands raises |
| C30_flexpath_refuted | a FlexPath is accepted as operand but not inside a list |
| C34_pair_refuted | FlexPath((x, y), ...) with one pair as points makes two points of it |
| C34_failed_call_refuted | a FlexPath call that raises leaves its lists of different lengths |
| C35_array_refuted | RobustPath.transform adds array displacements before magnifying |
| C35_width_transform_refuted | width_transform=False does not keep the widths of a RobustPath from being scaled |
| C37_lengths_refuted | FlexPath.transform does not magnify end extensions |
| C37_reflect_refuted | FlexPath.transform with reflection leaves the offsets on the same side |
| C37_scale_negative_refuted | FlexPath.scale by a negative factor moves offset paths to the other side |
| C37_robust_lengths_refuted | RobustPath.transform does not magnify end extensions |
| C37_robust_reflect_refuted | a reflected RobustPath with extended ends crosses itself |
| C38_reflection_refuted | Cell.copy loses the reflection of references |
| C38_spacing_refuted | Cell.copy with a magnification keeps the spacing of arrays |
| C40_stale_box_refuted | removals leave the cached bounding box |
| C42_leak_refuted | properties of an element without geometry are attached to the next element on reading |
| C45_turn_zero_refuted | Path.turn(r, 0) reverses the path |
| C46_single_refuted | a Curve of one point has no points |
| C47_no_polygons_refuted | inside() with no polygons reads outside of an array |
| C49_one_shot_refuted | GdsLibrary.add of a generator forgets the dependencies |
| C49_same_names_refuted | overwrite_duplicate with two cells of the same name can leave a reference to a cell outside of the library |
| C54_reflection_refuted | get_labels toggles the reflection of labels for unreflected references |
| C58_by_name_refuted | get_layers and get_datatypes raise on references by name |
| C58_texttypes_refuted | get_texttypes raises on any reference |
| C60_empty_refuted | Curve.C() and Curve.Q() without arguments raise |
| C61_tolerance_refuted | Curve arcs can miss the tolerance |
| C79_tolerance_refuted | Arcs of Path can miss the tolerance: for every path and tolerance there is an arc that does |
| C63_arc_offset_refuted | FlexPath.arc raises for an offset more negative than the radius and the width |
| C65_failed_refuted | FlexPath.get_polygons: after a call that raised, the next returns nothing |
| C65_layer_refuted | flatten(single_layer) of a FlexPath already queried leaves its polygons on the old layer |
| C68_negative_refuted | RobustPath.scale by a negative factor flips the offset of later sections only |
| C69_turn_refuted | RobustPath.turn after a rotation starts in the old direction |
| C70_failed_refuted | as C65_failed_refuted, for RobustPath |
| C70_layer_refuted | as C65_layer_refuted, for RobustPath |
| C71_sides_refuted | the same offset is on opposite sides in FlexPath and RobustPath |
| C73_layers_refuted | parallel paths of a Path with a list of layers change sides in right turns and in curves |
| C36_end_refuted | L1Path.x/y are wrong after a last section towards -y (its length is taken from the wrong place) |
| C36_down_refuted | L1Path of one section towards -y raises |
| C78_two_points_refuted | smooth through one further point without angles, with the default curls, raises LinAlgError (the matrix is singular) |
| C78_turn_refuted | a full turn added to an angle given to smooth changes the curve: given angles are not reduced |
| C75_scale_refuted | Path.scale does not scale the distance of parallel paths nor the recorded length: the next sections do not start where the last ones end |
| C75_mirror_refuted | Path.mirror exchanges the sides of parallel paths but later sections are drawn in the old order: their layers are exchanged |
| C80_slices_tolerance_refuted | a slice drawn by Round has one point less on its border than the tolerance needs (the centre is counted): with three points the border can be more than three times the tolerance away |
| C80_ellipse_tolerance_refuted | for sections of ellipses Round chooses the number of points by the angles seen from the centre, not by the parameter: the distance to the border has no bound in terms of the tolerance |
| C80_turns_refuted | Round adds a full turn to ellipse angles of 3 pi (only pi itself is corrected): Round(c, (8, 7), initial_angle=2*pi, final_angle=3*pi) covers one and a half turns |
| C81_bevel_points_refuted | PolyPath with bevels does not keep max_points: an L with max_points=4 has a polygon of five vertices |
| C81_round_points_refuted | PolyPath draws round ends with 33 vertices whatever max_points is |
| C81_end_names_refuted | PolyPath ignores the numbers for ends (accepted elsewhere), and any wrong name, for a single path of two points: the ends are flush |
| C81_back_refuted | PolyPath leaves out the far end of a path that turns back on itself: (0, 0), (10, 0), (5, 0) gives a crossed polygon that ends at 5 |
| C81_defined_refuted | PolyPath raises IndexError for a straight path of width zero with max_points=4 |
| C82_ids_refuted | write_svg writes '#' as '_' in ids: of two cells 'A#' and 'A_' the first one written is shown in place of the other |
| C82_by_name_refuted | write_svg shows a reference by name whenever a cell of that name is in the document; get_polygons and the bounding box leave it out |
| C82_labels_refuted | write_svg writes no file at all, silently, for a cell that holds only labels |
| C82_origin_refuted | to_svg of a reference with origin=None raises TypeError; the other methods take it as no translation |
| C83_area_refuted | link_holes drops the fraction of the point where a bridge starts: a hole next to a slanted edge changes the area |
| C83_inside_refuted | two disjoint holes strictly inside a triangle for which link_holes finds no edge and dereferences result.end(): the edge, moved by the first bridge, passes on the right of the second hole |
| C83_touching_refuted | link_holes dereferences result.end() for a hole whose leftmost vertex touches a horizontal edge that runs to the left (the branch meant for it, clipper.cpp 4785, cannot be reached) |
| C84_arc_refuted | offset ignores `tolerance` for round joins when shrinking: the arc tolerance is negative, ClipperOffset takes it for missing and uses a quarter of a grid unit |
| C85_round_refuted | FlexPath round corners: the side of the arc is chosen from the turn of the sides, not of the path; where a path narrows towards a corner and widens after it, the arc of the outer side is drawn on the other side of the path (path.py 747-752), and the outline crosses itself |
| C86_name_refuted | write_svg does not escape the names of cells: a name with `&` or `<` gives a file that is not XML (library.py 871-873) |
| C86_texttype_refuted | write_svg raises TypeError for labels with texttype None, which flatten(single_datatype=...) makes (library.py 827, 833, 1017) |

## Plan per property

| id | what is modelled | how it is proved |
|----|------------------|------------------|
| C01 | all `to_gds`, `write_gds`, `_record_reader`, `read_gds` state machine | record-level lemma per element kind, then induction over elements and cells |
| C02,C03 | `_eight_byte_real`, `_eight_byte_real_to_float` on dyadics, log2 oracle | integer arithmetic on mantissas |
| C04 | writer and both record readers | writer output = concatenation of records; reader inverts concatenation |
| C05,C06 | in-place patch loop | induction over record list; patch commutes with writer |
| C07,C08 | hash loop, abstract digest | loop collects cell bodies; sortedness makes it permutation invariant |
| C09,C10,C50 | `get_binary_cells`, `GdsWriter`, `write_gds` selection | induction over the record list |
| C11 | XY splitting loops | induction on fuel/length |
| C12 | `get_gds_units` | first UNITS record of the stream |
| C13 | read maps | simulation between two runs of the state machine |
| C14-C17,C49 | library operations on the object graph | invariants by induction over operations |
| C18,C19 | `get_dependencies`, `top_level` | induction on an acyclicity rank |
| C20 | bounding boxes and the `_bb_valid` cache machine | min/max lemmas; state invariant; counterexample history |
| C21,C22,C24,C39,C54,C55 | recursive queries on cell trees | structural induction |
| C23,C25,C26,C27 | transformations in R | algebra, `cos²+sin²=1` |
| C28,C29,C30 | loops around the engine | loop invariants, engine as parameter |
| C31,C32,C33,C46 | de Casteljau, adaptive loop, `Curve` commands | induction on degree / loop invariants |
| C34,C45 | `Path`, `FlexPath`, `RobustPath` construction | invariant over call sequences |
| C35,C37,C38 | path transforms, `Cell.copy` | matrix algebra; counterexamples where the code disagrees |
| C36 | `L1Path` | induction over turns; counterexample for direction 3 |
| C40 | remove filters | induction |
| C41-C43 | anchors, properties, SVG escaping | computation over finite tables and induction |
| C44 | `Text` layout | invariant over characters |
| C47,C56 | C++ `inside`, `PointInPolygon`, `parse_polygon` | geometric characterisation, bounding-box soundness |
| C48 | fillet radius dispatch and arc end points | case analysis, trigonometry |
| C51,C52 | rounding to the grid | error analysis in R |
| C53 | `copy` | by equations |
| C57-C62 | areas and boxes, `get_layers` etc., curve commands, arcs | as C20-C33 |
| C63-C67, C72 | FlexPath: sections, sampling, cache, outline, constructor, ends and corners | case analysis over ends and corners, induction over the spine; trigonometry for arcs |
| C68-C71 | RobustPath: joints, ends, cache, straight sections | invariants over call sequences; the outline by computation with symbolic sections |
| C75 | drawing calls of Path on a moved path | simulation: the moved path stays the image of the other one, call by call |
| C79 | the polygons of `Path.arc` and `Path.turn` | vertices by computation, the distance from the circle by the half angle of a step, bounded through the number of points chosen |
| C80 | `Round`: points, parts, distances from the border | vertices by computation; ellipses as images of circles that bring points closer; the parameter of a direction through arctan2 |
| C81 | PolyPath: a run per side, cut into pieces | each corner is a joint of two lines; a single side by induction on the corners; the cut pieces glue to it; paths separated by their index |
| C77, C78 | points of RobustPath curves, `_hobby` | by computation with symbolic sections; the linear system row by row, diagonal dominance by a chain argument |
| C73, C74, C76 | Path: joints, sizes, curves | each call from the state before it; induction over calls |
| C82 | the document tree of write_svg; transforms, uses and ids of SVG as a separate specification | mutual induction over the expansion of the cell; C20 for the frame |
| C83 | link_holes and tree2paths on trees of integer outlines; winding numbers around real points as specification | one bridge: the edges as a multiset, any odd function of the edges, slivers; induction over holes with each edge within m units of an edge of the tree; the walk as a stack machine |
| C84 | parsing, AddPath, FixOrientations, DoOffset with the three joins, both Execute, the Python wrapper; winding numbers as specification | each new outline is the old one plus a strip per edge and a fan per corner, all with the sign of the distance: sums of winding numbers of triangles and quadrilaterals; rounding moves no edge over a point a unit away; then the sweep line, assumed right at the point, and C83 |
| C85 | FlexPath.get_polygons with widths and offsets per point | a separate specification of lines that run beside a polygonal line at given distances (SpecTaper); the model's crossings satisfy it, and it determines the lines; the corners by cases on where the crossing is |
| C86 | the characters of the files written by Cell.write_svg | a reader of XML and of SVG drawings as the specification (SpecXml); reading what is written gives the drawing of C82, so that the file shows the layout |
| C87 | references, arrays and moves of polygon sets with the operations of the machine | one operation after the other, relative to a bound for the size of the coordinates; induction over the chain of references; doubles defined by rounding to 53 digits |
| C88 | the active edges with their counts, sides and output polygons; one function per event; a survey of the border as specification | the counts by induction over the list of active edges; a crossing acts by which of its edges border the result before and after (all cases of operation and fill rule); polygons as lines with two holders, sides counted segment by segment |
| C89 | the bubble sort that records intersections, the loop that reorders them, the list of active edges | the recorded pairs are a permutation of the inversions; a swap of neighbours removes one inversion and a list with an inversion has neighbours in the wrong order, so the loop cannot get stuck |
| C90 | the two loops that remove vertices, with a number of steps allowed, and the orientation | sums over the edges that are odd and additive along a line do not see the removals; the loop stops only after a full turn without a removal, and each removal makes the list shorter |
| C91 | IsHole and FirstLeft of the output polygons along the sweep, with any answers to which of two is lower | invariant over the events: ends nested properly, an outer outline has the smaller index, chains of FirstLeft end and lead to all outer outlines, the mark is the parity of the drawn edges on the left |
| C92 | the loop that puts FirstLeft right, the parents, the children in order and the walk through the tree | pointers only ever lead along the FirstLeft chains of C91, which end; holes and outlines given up always have one, so that a chain ends in an outer outline; ancestors of a node are all different |
| C93 | the loop of the sweep over scanlines with its priority queue, the bounds as lists of ordinates | invariant: the end of every active edge and every local minimum not yet started is in the queue |

## No claim

There is a theorem for every property in the list.

## Theorems and their axioms

| property | theorem | file | axioms |
|---|---|---|---|
| C01 | C01_write_read | PropFormat.v | none |
| C01 | C01_store_and_load | PropFormat.v | none |
| C01 | C01_strans_word | PropFormat.v | none |
| C01 | C01_write_read_exact | PropFormat.v | none |
| C01 | C01_attribute_limit_refuted | PropFormat.v | none |
| C01 | C01_trailing_nul_refuted | PropFormat.v | none |
| C01 | C01_empty_name_refuted | PropFormat.v | none |
| C02 | C02_exact | PropFormat.v | none |
| C02 | C02_accepted | PropFormat.v | none |
| C02 | C02_any_log2 | PropFormat.v | none |
| C02 | C02_te_meaning | PropFormat.v | none |
| C02 | C02_inexact_refuted | PropFormat.v | none |
| C03 | C03_normalised | PropFormat.v | none |
| C03 | C03_reencode | PropFormat.v | none |
| C03 | C03_out_of_range | PropFormat.v | none |
| C04 | C04_stream | PropFormat.v | none |
| C05 | C05_patch | PropFormat.v | none |
| C05 | C05_last_wins | PropFormat.v | none |
| C06 | C06_patch_is_rewrite | PropFormat.v | none |
| C06 | C06_write_gds | PropFormat.v | none |
| C07 | C07_hash_invariant | PropFormat.v | none |
| C08 | C08_hash_injective | PropFormat.v | none |
| C09 | C09_binary_cells | PropFormat.v | none |
| C10 | C10_writer | PropFormat.v | none |
| C10 | C10_any_sequence | PropFormat.v | none |
| C10 | C10_library | PropFormat.v | none |
| C11 | C11_polygon | PropFormat.v | none |
| C11 | C11_path | PropFormat.v | none |
| C12 | C12_units | PropFormat.v | none |
| C12 | C12_header_only | PropFormat.v | none |
| C12 | C12_agrees_with_reader | PropFormat.v | none |
| C13 | C13_import_maps | PropFormat.v | none |
| C13 | C13_collision_raises | PropFormat.v | none |
| C14 | C14_history | PropGraph.v | none |
| C14 | C14_single_library | PropGraph.v | none |
| C14 | C14_add_never_replaces | PropGraph.v | none |
| C14 | C14_add_raises | PropGraph.v | none |
| C14 | C14_overwrite_redirects | PropGraph.v | none |
| C14 | C14_shared_cell_refuted | PropGraph.v | none |
| C14 | C14_failed_add_not_atomic_refuted | PropGraph.v | none |
| C15 | C15_remove | PropGraph.v | none |
| C15 | C15_keep_references | PropGraph.v | none |
| C16 | C16_rename | PropGraph.v | none |
| C16 | C16_raises | PropGraph.v | none |
| C17 | C17_replace | PropGraph.v | none |
| C17 | C17_count | PropGraph.v | none |
| C17 | C17_count_same_name | PropGraph.v | none |
| C18 | C18_direct | PropGraph.v | none |
| C18 | C18_recursive | PropGraph.v | none |
| C18 | C18_cyclic | PropGraph.v | none |
| C19 | C19_top_level | PropGraph.v | none |
| C19 | C19_covers | PropGraph.v | none |
| C19 | C19_nonempty | PropGraph.v | none |
| C19 | C19_by_name_refuted | PropGraph.v | none |
| C20 | C20_fresh | PropBox.v | R3 |
| C20 | C20_cached | PropBox.v | R3 |
| C20 | C20_defined | PropBox.v | R3 |
| C20 | C20_stale_refuted | PropBox.v | R3 |
| C20 | C20_stale_top_refuted | PropBox.v | R3 |
| C21 | C21_polygons | PropFlat.v | R3 |
| C21 | C21_queries | PropFlat.v | R3 |
| C21 | C21_labels | PropFlat.v | R3 |
| C21 | C21_idempotent | PropFlat.v | R3 |
| C21 | C21_defined | PropFlat.v | R3 |
| C21 | C21_texttype_refuted | PropFlat.v | R3 |
| C21 | C21_after_removal_refuted | PropFlat.v | R3 |
| C22 | C22_area | PropQuery.v | R3 |
| C22 | C22_by_spec | PropQuery.v | R3 |
| C23 | C23_reference | PropHier.v | R3 |
| C23 | C23_similarity | PropHier.v | R3 |
| C23 | C23_composes | PropHier.v | R3 |
| C24 | C24_array | PropHier.v | R3 |
| C24 | C24_cells | PropHier.v | R3 |
| C24 | C24_dictionary | PropHier.v | R3 |
| C24 | C24_zero_magnification_refuted | PropHier.v | R3 |
| C25 | C25_written | PropArray.v | R3 |
| C25 | C25_exact | PropArray.v | R3 |
| C25 | C25_rounded | PropArray.v | R3 |
| C25 | C25_rotated | PropArray.v | R3 |
| C26 | C26_area | PropPlane.v | R2 |
| C26 | C26_isometries | PropPlane.v | R3 |
| C26 | C26_scale | PropPlane.v | R2 |
| C26 | C26_vertex_order | PropPlane.v | R2 |
| C26 | C26_rectangle | PropPlane.v | R2 |
| C26 | C26_by_spec | PropPlane.v | R2 |
| C27 | C27_rotate | PropPlane.v | R3 |
| C27 | C27_mirror | PropPlane.v | R2 |
| C27 | C27_translate | PropPlane.v | R2 |
| C27 | C27_scale | PropPlane.v | R2 |
| C27 | C27_keeps_specs | PropPlane.v | R3 |
| C28 | C28_cuts | PropCut.v | R2 |
| C28 | C28_fracture | PropCut.v | R2 |
| C28 | C28_few | PropCut.v | R2 |
| C28 | C28_fuel | PropCut.v | R2 |
| C28 | C28_terminates | PropCut.v | R2 |
| C28 | C28_region | PropCut.v | R2 |
| C29 | C29_slice | PropCut.v | R2 |
| C29 | C29_pieces | PropCut.v | R2 |
| C30 | C30_boolean | PropCut.v | R2 |
| C30 | C30_layers | PropCut.v | R2 |
| C30 | C30_and_empty_refuted | PropCut.v | R2 |
| C30 | C30_empty_refuted | PropCut.v | R2 |
| C30 | C30_flexpath_refuted | PropCut.v | R2 |
| C31 | C31_ends | PropCurve.v | R2 |
| C31 | C31_bernstein | PropCurve.v | R2 |
| C31 | C31_affine | PropCurve.v | R2 |
| C31 | C31_hull | PropCurve.v | R2 |
| C31 | C31_reverse | PropCurve.v | R2 |
| C32 | C32_section | PropCurve.v | R2 |
| C32 | C32_cubic | PropCurve.v | R2 |
| C32 | C32_quadratic | PropCurve.v | R2 |
| C32 | C32_general | PropCurve.v | R4 |
| C32 | C59_smooth_cubic | PropCommands.v | R2 |
| C32 | C59_smooth_quadratic | PropCommands.v | R2 |
| C32 | C32_commands_terminate | PropCurve.v | R4 |
| C33 | C33_relative | PropCommands.v | R4 |
| C33 | C33_translate | PropCommands.v | R4 |
| C33 | C33_translate_all | PropCommands.v | R4 |
| C34 | C34_path | PropPath.v | R4 |
| C34 | C34_path_call | PropPath.v | R4 |
| C34 | C34_flex | PropFlexRows.v | R4 |
| C34 | C34_robustpath | PropRobust.v | R4 |
| C34 | C34_robustpath_sections | PropRobust.v | R4 |
| C34 | C34_pair_refuted | PropFlexRows.v | R4 |
| C34 | C34_failed_call_refuted | PropFlexRows.v | R2 |
| C35 | C35_points | PropRobust.v | R4 |
| C35 | C35_chain | PropRobust.v | R4 |
| C35 | C35_directions | PropRobust.v | R4 |
| C35 | C35_widths | PropRobust.v | R4 |
| C35 | C35_array_refuted | RobustExample.v | R4 |
| C35 | C35_width_transform_refuted | RobustExample.v | R4 |
| C36 | C36_outline | PropL1.v | R3 |
| C36 | C36_uncut | PropL1.v | R3 |
| C36 | C36_end | PropL1.v | R3 |
| C36 | C36_size | PropL1.v | R3 |
| C36 | C36_defined | PropL1.v | R3 |
| C36 | C36_rotate | PropL1.v | R3 |
| C36 | C36_end_refuted | PropL1.v | R3 |
| C36 | C36_down_refuted | PropL1.v | R2 |
| C37 | C37_translate | PropFlexMove.v | R4 |
| C37 | C37_rotate | PropFlexMove.v | R4 |
| C37 | C37_scale | PropFlexMove.v | R4 |
| C37 | C37_transform | PropFlexMove.v | R4 |
| C37 | C37_reflect | PropFlexMove.v | R4 |
| C37 | C37_follow | PropFlexPlace.v | R4 |
| C37 | C37_chain | PropFlexPlace.v | R4 |
| C37 | C37_get_paths | PropFlexPlace.v | R4 |
| C37 | C37_robustpath | PropRobustMove.v | R4 |
| C37 | C37_hobby | PropRobustMove.v | R4 |
| C37 | C37_robust_follow | PropRobustPlace.v | R4 |
| C37 | C37_robust_chain | PropRobustPlace.v | R4 |
| C37 | C37_robust_paths | PropRobustPlace.v | R4 |
| C37 | C37_reflect_refuted | PropFlexPlace.v | R4 |
| C37 | C37_scale_negative_refuted | PropFlexPlace.v | R4 |
| C37 | C37_lengths_refuted | PropFlexPlace.v | R4 |
| C37 | C37_robust_reflect_refuted | PropRobustCache.v | R4 |
| C37 | C37_robust_lengths_refuted | PropRobustCache.v | R4 |
| C38 | C38_untouched | PropCopy.v | R3 |
| C38 | C38_defined | PropCopy.v | R3 |
| C38 | C38_contents | PropCopy.v | R3 |
| C38 | C38_defined_at | PropCopy.v | R3 |
| C38 | C38_get_polygons | PropCopy.v | R3 |
| C38 | C38_labels | PropCopy.v | R3 |
| C38 | C38_reflection_refuted | PropCopy.v | R3 |
| C38 | C38_spacing_refuted | PropCopy.v | R3 |
| C38 | C38_flexpaths | PropFlexPlace.v | R4 |
| C38 | C38_robustpaths | PropRobustPlace.v | R4 |
| C39 | C39_expansion | PropQuery.v | R3 |
| C39 | C39_by_spec | PropQuery.v | R3 |
| C39 | C39_views | PropQuery.v | R3 |
| C39 | C39_depth | PropQuery.v | R3 |
| C39 | C39_rectangle | PropQuery.v | R2 |
| C40 | C40_polygons | PropFlat.v | none |
| C40 | C40_list | PropFlat.v | none |
| C40 | C40_elements | PropFlat.v | none |
| C40 | C40_stale_box_refuted | PropFlat.v | R3 |
| C41 | C41_anchor_roundtrip | PropFormat.v | none |
| C41 | C41_any_word | PropFormat.v | none |
| C41 | C41_low_bits | PropFormat.v | none |
| C41 | C41_labels | PropFormat.v | none |
| C42 | C42_properties | PropFormat.v | none |
| C42 | C42_leak_refuted | PropFormat.v | none |
| C43 | C43_text | PropText.v | none |
| C43 | C43_clean | PropText.v | none |
| C44 | C44_layout | PropText.v | R3 |
| C44 | C44_rotation | PropText.v | R3 |
| C44 | C44_tab | PropText.v | none |
| C44 | C44_order | PropText.v | none |
| C44 | C44_apart | PropText.v | R3 |
| C44 | C44_box | PropText.v | none |
| C44 | C44_glyph | PropText.v | none |
| C44 | C44_ascii | PropText.v | none |
| C45 | C45_segments | PropPath.v | R4 |
| C45 | C45_area | PropPath.v | R4 |
| C45 | C45_total | PropPath.v | R4 |
| C45 | C45_turn | PropPath.v | R4 |
| C45 | C45_turn_zero_refuted | PropPath.v | R4 |
| C46 | C46_get_points | PropCommands.v | R2 |
| C46 | C46_closed | PropCommands.v | R2 |
| C46 | C46_single_refuted | PropCommands.v | R2 |
| C47 | C47_point | PropEngine.v | R2 |
| C47 | C47_points | PropEngine.v | R2 |
| C47 | C47_any | PropEngine.v | R2 |
| C47 | C47_all | PropEngine.v | R2 |
| C47 | C47_no_polygons_refuted | PropEngine.v | R2 |
| C48 | C48_corner | PropFillet.v | R4 |
| C48 | C48_room | PropFillet.v | R3 |
| C48 | C48_clean | PropFillet.v | R2 |
| C48 | C48_polygon | PropFillet.v | R4 |
| C48 | C48_radii | PropFillet.v | R1 |
| C48 | C48_fillet | PropFillet.v | R4 |
| C49 | C49_add_closed | PropGraph.v | none |
| C49 | C49_extract | PropGraph.v | none |
| C49 | C49_one_shot_refuted | PropGraph.v | none |
| C49 | C49_same_names_refuted | PropGraph.v | none |
| C50 | C50_selected | PropFormat.v | none |
| C50 | C50_all | PropFormat.v | none |
| C50 | C50_unknown_name | PropFormat.v | none |
| C51 | C51_factor | PropGrid.v | R2 |
| C51 | C51_import | PropGrid.v | R2 |
| C51 | C51_skip | PropGrid.v | R2 |
| C52 | C52_rounding | PropGrid.v | R2 |
| C52 | C52_points | PropGrid.v | R2 |
| C53 | C53_flexpath | PropFlexPlace.v | R4 |
| C53 | C53_robustpath | PropRobustPlace.v | R4 |
| C53 | C53_polygons | PropCopy.v | R2 |
| C53 | C53_label | PropCopy.v | R2 |
| C53 | C53_reference | PropCopy.v | R3 |
| C53 | C53_defined | PropCopy.v | R2 |
| C54 | C54_labels | PropQuery.v | R3 |
| C54 | C54_set_transform | PropQuery.v | R3 |
| C54 | C54_reflection_refuted | PropQuery.v | R3 |
| C55 | C54_labels | PropQuery.v | R3 |
| C55 | C55_polygonsets | PropQuery.v | R3 |
| C55 | C55_paths | PropQuery.v | R3 |
| C55 | C55_deep_enough | PropQuery.v | none |
| C56 | C56_normalised | PropEngine.v | R2 |
| C56 | C56_snapped | PropEngine.v | R2 |
| C56 | C56_points | PropEngine.v | R2 |
| C56 | C56_stable | PropEngine.v | R2 |
| C57 | C57_box | PropPlane.v | R2 |
| C57 | C57_box_unique | PropPlane.v | R2 |
| C58 | C58_layers | PropQuery.v | none |
| C58 | C58_svg_classes | PropQuery.v | none |
| C58 | C58_by_name_refuted | PropQuery.v | none |
| C58 | C58_texttypes_refuted | PropQuery.v | none |
| C59 | C59_smooth_cubic | PropCommands.v | R2 |
| C59 | C59_smooth_quadratic | PropCommands.v | R2 |
| C59 | C59_memory | PropCommands.v | R4 |
| C60 | C60_end | PropCommands.v | R4 |
| C60 | C60_empty_refuted | PropCommands.v | R2 |
| C61 | C61_ellipse | PropArc.v | R4 |
| C61 | C61_circle | PropArc.v | R4 |
| C61 | C61_tolerance_refuted | PropArc.v | R4 |
| C62 | C62_through | PropCommands.v | R2 |
| C63 | C63_taper | PropFlexEnds.v | R4 |
| C63 | C63_end | PropFlexEnds.v | R4 |
| C63 | C63_arc | PropFlexEnds.v | R4 |
| C63 | C63_arc_offset_refuted | PropFlexEnds.v | R4 |
| C64 | C64_sampled | PropFlexEnds.v | R2 |
| C64 | C64_bezier | PropFlexEnds.v | R2 |
| C64 | C64_terminates | PropFlexEnds.v | R2 |
| C65 | C65_again | PropFlexCache.v | R4 |
| C65 | C65_forgets | PropFlexCache.v | R4 |
| C65 | C65_current | PropFlexCache.v | R4 |
| C65 | C65_layer_refuted | PropFlexCache.v | R4 |
| C65 | C65_failed_refuted | PropFlexCache.v | R4 |
| C66 | C66_frame | PropFlexShape.v | R3 |
| C66 | C66_section | PropFlexShape.v | R4 |
| C66 | C66_mitered | PropFlexShape.v | R4 |
| C66 | C66_defined | PropFlexShape.v | R4 |
| C67 | C67_init | PropFlexInit.v | R2 |
| C67 | C67_offsets | PropFlexInit.v | R2 |
| C68 | C68_joined | PropRobustJoin.v | R4 |
| C68 | C68_negative_refuted | RobustExample.v | R4 |
| C69 | C69_end | PropRobustEnds.v | R4 |
| C69 | C69_dimensions | PropRobustEnds.v | R4 |
| C69 | C69_turn | PropRobustEnds.v | R4 |
| C69 | C69_turn_refuted | PropRobustEnds.v | R4 |
| C70 | C70_again | PropRobustCache.v | R4 |
| C70 | C70_forgets | PropRobustCache.v | R4 |
| C70 | C70_current | PropRobustCache.v | R4 |
| C70 | C70_layer_refuted | PropRobustCache.v | R4 |
| C70 | C70_failed_refuted | PropRobustCache.v | R4 |
| C71 | C71_section | PropRobustShape.v | R4 |
| C71 | C71_defined | PropRobustShape.v | R4 |
| C71 | C71_ends | PropRobustCaps.v | R4 |
| C71 | C71_round_defined | PropRobustCaps.v | R4 |
| C71 | C71_search | PropRobustSearch.v | R3 |
| C71 | C71_search_closer | PropRobustSearch.v | R3 |
| C71 | C71_sides_refuted | PropRobustCache.v | R4 |
| C72 | C72_outline | PropFlexRound.v | R4 |
| C72 | C72_section | PropFlexRound.v | R4 |
| C72 | C72_crossing | PropFlexRound.v | R3 |
| C72 | C72_tangent | PropFlexRound.v | R3 |
| C72 | C72_defined | PropFlexRound.v | R4 |
| C73 | C73_segment | PropPathJoin.v | R4 |
| C73 | C73_arc | PropPathJoin.v | R4 |
| C73 | C73_turn | PropPathJoin.v | R4 |
| C73 | C73_enough | PropPathJoin.v | R4 |
| C73 | C73_parametric | PropPathCurve.v | R4 |
| C73 | C73_bezier | PropPathMore.v | R4 |
| C73 | C73_layers_refuted | PropPathMore.v | R4 |
| C74 | C74_call | PropPathSize.v | R4 |
| C74 | C74_calls | PropPathSize.v | R4 |
| C75 | C75_translate | PropPathMove.v | R4 |
| C75 | C75_rotate | PropPathMove.v | R4 |
| C75 | C75_scale | PropPathMove.v | R4 |
| C75 | C75_mirror | PropPathMirror.v | R4 |
| C75 | C75_scale_refuted | PropPathMove.v | R4 |
| C75 | C75_mirror_refuted | PropPathMirror.v | R4 |
| C76 | C76_parametric | PropPathCurve.v | R4 |
| C76 | C76_defined | PropPathMore.v | R4 |
| C76 | C76_bezier | PropPathSmooth.v | R4 |
| C77 | C77_call | PropRobustSpine.v | R3 |
| C77 | C77_curve | PropRobustSpine.v | R4 |
| C77 | C77_keeps | PropRobustSpine.v | R4 |
| C78 | C78_open | PropSmooth.v | R4 |
| C78 | C78_closed | PropSmooth.v | R4 |
| C78 | C78_ahead | PropSmoothAhead.v | R4 |
| C78 | C78_defined | PropSmoothDefined.v | R4 |
| C78 | C78_unique | PropSmoothDefined.v | R4 |
| C78 | C78_follows | PropSmoothMove.v | R4 |
| C78 | C78_pair | PropSmoothMore.v | R4 |
| C78 | C78_no_corner | PropRobustSmooth.v | R4 |
| C78 | C78_robust | PropRobustSmooth.v | R4 |
| C78 | C78_path | PropPathSmooth.v | R4 |
| C78 | C78_flex | PropFlexSmooth.v | R4 |
| C78 | C78_flex_defined | PropFlexSmooth.v | R4 |
| C78 | C78_sized | PropSmoothCurve.v | R4 |
| C78 | C78_moves | PropSmoothCurve.v | R4 |
| C78 | C78_two_points_refuted | PropSmoothMore.v | R4 |
| C78 | C78_turn_refuted | PropSmoothMore.v | R4 |
| C79 | C79_arc | PropPathArc.v | R4 |
| C79 | C79_circle | PropPathArc.v | R4 |
| C79 | C79_tolerance | PropPathArc.v | R4 |
| C79 | C79_turn | PropPathArc.v | R4 |
| C79 | C79_turn_tolerance | PropPathArc.v | R4 |
| C79 | C79_tolerance_refuted | PropPathArc.v | R4 |
| C80 | C80_sizes | PropCircles.v | R4 |
| C80 | C80_disc | PropCircles.v | R4 |
| C80 | C80_ring | PropCircles.v | R4 |
| C80 | C80_slices | PropCircles.v | R4 |
| C80 | C80_sections | PropCircles.v | R4 |
| C80 | C80_direction | PropCircles.v | R4 |
| C80 | C80_disc_tolerance | PropCircles.v | R4 |
| C80 | C80_ring_tolerance | PropCircles.v | R4 |
| C80 | C80_sections_tolerance | PropCircles.v | R4 |
| C80 | C80_slices_tolerance | PropCircles.v | R4 |
| C80 | C80_slices_tolerance_refuted | PropCircles.v | R4 |
| C80 | C80_ellipse_tolerance_refuted | PropCircles.v | R4 |
| C80 | C80_turns_refuted | PropCircles.v | R4 |
| C81 | C81_paths | PropPoly.v | R4 |
| C81 | C81_straight | PropPoly.v | R4 |
| C81 | C81_parallel | PropPoly.v | R3 |
| C81 | C81_miter | PropPoly.v | R4 |
| C81 | C81_names | PropPoly.v | R4 |
| C81 | C81_defined | PropPoly.v | R4 |
| C81 | C81_bevel_points_refuted | PropPoly.v | R4 |
| C81 | C81_round_points_refuted | PropPoly.v | R4 |
| C81 | C81_end_names_refuted | PropPoly.v | R4 |
| C81 | C81_back_refuted | PropPoly.v | R4 |
| C81 | C81_defined_refuted | PropPoly.v | R4 |
| C82 | C82_drawing | PropSvg.v | R3 |
| C82 | C82_polygons | PropSvg.v | R3 |
| C82 | C82_frame | PropSvg.v | R3 |
| C82 | C82_visible | PropSvg.v | R3 |
| C82 | C82_written | PropSvg.v | R3 |
| C82 | C82_styles | PropSvg.v | R3 |
| C82 | C82_anchors | PropSvg.v | none |
| C82 | C82_hsv | PropSvg.v | R2 |
| C82 | C82_colours | PropSvg.v | R2 |
| C82 | C82_ids_refuted | PropSvg.v | R3 |
| C82 | C82_by_name_refuted | PropSvg.v | R3 |
| C82 | C82_labels_refuted | PropSvg.v | R3 |
| C82 | C82_origin_refuted | PropSvg.v | R3 |
| C83 | C83_joined | PropLink.v | R2 |
| C83 | C83_region | PropLink.v | R2 |
| C83 | C83_area | PropLink.v | none |
| C83 | C83_room | PropLink.v | none |
| C83 | C83_range | PropLink.v | none |
| C83 | C83_fits | PropLink.v | none |
| C83 | C83_exact | PropLink.v | R2 |
| C83 | C83_defined | PropLink.v | R2 |
| C83 | C83_one_hole | PropLink.v | R2 |
| C83 | C83_tree | PropLink.v | R2 |
| C83 | C83_tree_defined | PropLink.v | none |
| C83 | C83_total | PropLink.v | R2 |
| C83 | C83_area_refuted | PropLink.v | R2 |
| C83 | C83_inside_refuted | PropLink.v | R2 |
| C83 | C83_touching_refuted | PropLink.v | R2 |
| C84 | C84_outline | PropOffset.v | R4 |
| C84 | C84_result | PropOffset.v | R4 |
| C84 | C84_zero | PropOffset.v | R4 |
| C84 | C84_join_first | PropOffset.v | R4 |
| C84 | C84_miter | PropOffsetCorner.v | R4 |
| C84 | C84_miter_far | PropOffsetCorner.v | R4 |
| C84 | C84_bevel | PropOffsetCorner.v | R4 |
| C84 | C84_round | PropOffsetCorner.v | R4 |
| C84 | C84_inner | PropOffsetCorner.v | R4 |
| C84 | C84_straight | PropOffsetCorner.v | R4 |
| C84 | C84_arc | PropOffsetCorner.v | R4 |
| C84 | C84_arc_shrink | PropOffsetCorner.v | R4 |
| C84 | C84_arc_refuted | PropOffsetCorner.v | R4 |
| C84 | C84_python | PropOffsetCorner.v | R4 |
| C85 | C85_outline | PropTaper.v | R4 |
| C85 | C85_width | PropTaper.v | R3 |
| C85 | C85_unique | PropTaper.v | R3 |
| C85 | C85_spine | PropTaper.v | R3 |
| C85 | C85_round_refuted | PropTaper.v | R4 |
| C86 | C86_file | PropSvgText.v | R3 |
| C86 | C86_drawn | PropSvgText.v | R3 |
| C86 | C86_written | PropSvgText.v | R3 |
| C86 | C86_defaults | PropSvgText.v | R2 |
| C86 | C86_name_refuted | PropSvgText.v | R3 |
| C86 | C86_texttype_refuted | PropSvgText.v | R3 |
| C87 | C87_placed | PropMachine.v | R4 |
| C87 | C87_written | PropMachine.v | R4 |
| C87 | C87_moved | PropMachine.v | R3 |
| C87 | C87_double | PropMachine.v | R4 |
| C88 | C88_counts | PropSweep.v | none |
| C88 | C88_balance | PropSweep.v | none |
| C88 | C88_drawn | PropSweep.v | none |
| C88 | C88_no_exception | PropSweep.v | none |
| C88 | C88_ends | PropSweep.v | none |
| C88 | C88_border | PropSweep.v | none |
| C89 | C89_found | PropBeam.v | none |
| C89 | C89_order | PropBeam.v | none |
| C89 | C89_kept | PropBeam.v | none |
| C89 | C89_events | PropBeam.v | none |
| C89 | C89_winding | PropBeam.v | none |
| C90 | C90_input | PropRing.v | R2 |
| C90 | C90_output | PropRing.v | R2 |
| C90 | C90_finish | PropRing.v | R2 |
| C91 | C91_apart | PropHole.v | none |
| C91 | C91_hole | PropHole.v | none |
| C91 | C91_begun | PropHole.v | none |
| C91 | C91_chains | PropHole.v | none |
| C92 | C92_once | PropTree.v | none |
| C92 | C92_above | PropTree.v | none |
| C92 | C92_levels | PropTree.v | none |
| C93 | C93_heights | PropScan.v | none |
| C93 | C93_onward | PropScan.v | none |
| C93 | C93_minima | PropScan.v | none |
