{"id": "C01", "title": "A written library reads back as the same library", "statement": "If GdsLibrary.write_gds succeeds on a library whose names/texts/property values are non-empty ASCII strings not ending in NUL, whose property numbers are below 32768 and whose cell names are distinct, then GdsLibrary.read_gds on the produced bytes succeeds and yields exactly the same cells in the same order, with the same polygons, gdsii paths, labels, references and arrays (coordinates in database units, layers, datatypes, texttypes, anchors, reflection, magnification, rotation, path width/ends, properties, COLROW), each polygon set and multi-path being returned as one element per polygon/path.", "quantifier": "every library of that kind: any number of cells, elements, vertices (including more than 8190), properties, nesting", "why_tests_cant": "A test writes a few libraries; the format has length-dependent encodings (padding, 8190-point splitting, optional STRANS groups, kwargs reuse between elements) whose interaction is only covered by a proof over all element sequences.", "anchors": ["gdspy/library.py:GdsLibrary.write_gds", "gdspy/library.py:GdsLibrary.read_gds", "gdspy/library.py:Cell.to_gds", "gdspy/library.py:CellReference.to_gds", "gdspy/library.py:CellArray.to_gds", "gdspy/label.py:Label.to_gds", "gdspy/polygon.py:PolygonSet.to_gds", "gdspy/path.py:FlexPath.to_gds", "gdspy/gdsiiformat.py:_record_reader"]}
{"id": "C02", "title": "8-byte reals survive a write/read cycle", "statement": "Whenever the value fits the excess-64 exponent range and the exponent computed by the encoder is the true base-16 exponent, writing a double as a GDSII real and reading it back returns exactly the same double; if log2 rounding makes the encoder pick the next exponent, the relative error is below 2^-51 and the result is never larger in magnitude. Zero and signs are preserved.", "quantifier": "every double value (every 53-bit mantissa, every binary exponent, both signs), every admissible behaviour of numpy.log2", "why_tests_cant": "There are 2^64 doubles; the failing ones sit just below powers of 16.", "anchors": ["gdspy/gdsiiformat.py:_eight_byte_real", "gdspy/gdsiiformat.py:_eight_byte_real_to_float"]}
{"id": "C03", "title": "The real encoding is canonical", "statement": "The bytes produced for a non-zero value with true exponent always have a normalised mantissa (first hex digit non-zero), decoding them and encoding again reproduces the same 8 bytes, and values outside the exponent range are either rejected with an error or come back with the wrong sign (never silently as a nearby value).", "quantifier": "every double and every normalised 8-byte pattern whose mantissa fits 53 bits", "why_tests_cant": "Quantifies over all bit patterns.", "anchors": ["gdspy/gdsiiformat.py:_eight_byte_real", "gdspy/gdsiiformat.py:_eight_byte_real_to_float"]}
{"id": "C04", "title": "Everything written is a well-formed record stream", "statement": "The bytes of write_gds (and of each to_gds) are a concatenation of records, each with even length at least 4, length field equal to its actual length, and the raw record reader splits the bytes back into exactly those records without loss; the structure is HEADER BGNLIB LIBNAME UNITS (BGNSTR STRNAME element* ENDSTR)* ENDLIB.", "quantifier": "every library accepted by the writer", "why_tests_cant": "Well-formedness must hold for every string length parity, vertex count and combination of optional records.", "anchors": ["gdspy/library.py:GdsLibrary.write_gds", "gdspy/gdsiiformat.py:_raw_record_reader", "gdspy/gdsiiformat.py:_record_reader"]}
{"id": "C05", "title": "set_gdsii_timestamp touches nothing but timestamps", "statement": "On a well-formed GDSII file, set_gdsii_timestamp keeps the file length and every byte outside BGNLIB/BGNSTR payloads, sets every BGNLIB/BGNSTR payload to the given date twice, is idempotent, and the last call wins.", "quantifier": "every well-formed record stream, every timestamp", "why_tests_cant": "Must hold for every stream, including payload bytes that look like record headers.", "anchors": ["gdspy/gdsiiformat.py:set_gdsii_timestamp"]}
{"id": "C06", "title": "Timestamp patching equals writing with that timestamp", "statement": "Writing a library with timestamp t1 and then calling set_gdsii_timestamp with t2 gives byte-for-byte the file obtained by writing with timestamp t2.", "quantifier": "every library, every pair of timestamps", "why_tests_cant": "Regression workflows compare whole files; equality must hold for all contents.", "anchors": ["gdspy/gdsiiformat.py:set_gdsii_timestamp", "gdspy/library.py:GdsLibrary.write_gds"]}
{"id": "C07", "title": "gdsii_hash ignores timestamps, library header and cell order", "statement": "gdsii_hash of two files written from libraries with the same cell contents is the same whatever their timestamps, library names, units, precision and order of cells.", "quantifier": "every library, timestamps, headers and permutations of cells", "why_tests_cant": "Quantifies over all permutations and contents.", "anchors": ["gdspy/gdsiiformat.py:gdsii_hash", "gdspy/library.py:GdsLibrary.write_gds"]}
{"id": "C08", "title": "gdsii_hash sees every cell content", "statement": "The byte sequence fed to the hash engine is the concatenation of the sorted per-cell contents (name and elements, without the timestamp), so two files with the same hashed list of contents have the same multiset of cells; moreover bytes fed to the engine determine the same digest for any engine that is a function of the fed bytes.", "quantifier": "every pair of written libraries", "why_tests_cant": "Injectivity cannot be tested.", "anchors": ["gdspy/gdsiiformat.py:gdsii_hash"]}
{"id": "C09", "title": "Binary cells are copied verbatim", "statement": "get_binary_cells on a written file returns, for every cell name, exactly the bytes that Cell.to_gds produced for that cell, and writing these binary cells through write_gds/GdsWriter gives the file that writing the original cells gives.", "quantifier": "every written library", "why_tests_cant": "Requires that no payload is misread as a structure boundary, for all payloads.", "anchors": ["gdspy/library.py:get_binary_cells", "gdspy/library.py:GdsLibrary.write_gds", "gdspy/library.py:GdsWriter.write_binary_cells"]}
{"id": "C10", "title": "GdsWriter streaming equals write_gds", "statement": "Creating a GdsWriter with the same name/unit/precision, writing cells one by one and closing it produces the same bytes as GdsLibrary.write_gds on those cells with the same timestamp.", "quantifier": "every sequence of cells and binary cells", "why_tests_cant": "Must hold for all sequences.", "anchors": ["gdspy/library.py:GdsWriter", "gdspy/library.py:GdsLibrary.write_gds"]}
{"id": "C11", "title": "Polygons and paths with any number of points are written completely", "statement": "A polygon with more than 8190 vertices (or a path with more than 8191 points) is split into several XY records, none longer than 65535 bytes and none empty, whose concatenation is exactly the vertex list (closed by its first vertex for polygons); the reader glues them back.", "quantifier": "every vertex count", "why_tests_cant": "Boundary arithmetic around multiples of 8190 for unbounded sizes.", "anchors": ["gdspy/polygon.py:PolygonSet.to_gds", "gdspy/path.py:FlexPath.to_gds", "gdspy/library.py:GdsLibrary.read_gds"]}
{"id": "C12", "title": "get_gds_units reports the written units", "statement": "For every file produced by write_gds with unit u and precision p, get_gds_units returns (db_meters/db_user, db_meters) where db_user and db_meters are the decoded values of p/u and p, regardless of file contents after the header, and agrees with the unit and precision that read_gds(units='import') stores in the library.", "quantifier": "every library, unit and precision", "why_tests_cant": "All contents / all units.", "anchors": ["gdspy/library.py:get_gds_units", "gdspy/library.py:GdsLibrary.read_gds"]}
{"id": "C13", "title": "Renaming and layer/datatype/texttype mapping on import are exact", "statement": "read_gds with rename, layers, datatypes and texttypes maps gives the library obtained by reading without maps and then applying the maps to every cell name, every reference name and every layer/datatype/texttype (unmapped values unchanged), as long as the renamed cell names stay distinct; rename_template applies to cell names and reference names that are not in the rename map.", "quantifier": "every written library, every map", "why_tests_cant": "All maps and contents.", "anchors": ["gdspy/library.py:GdsLibrary.read_gds"]}
{"id": "C14", "title": "The library dictionary is keyed by cell name", "statement": "After any sequence of new_cell/add/remove/rename_cell/replace_references calls, successful or raising, over any number of libraries sharing cells, every key of GdsLibrary.cells equals the name of the cell stored under it and keys are unique, provided no other library renames a cell this library holds; add without overwrite_duplicate never replaces a cell and raises exactly when two different cells would get one key; with overwrite_duplicate and update_references every library reference to that name goes to the new cell.", "quantifier": "every finite history of library operations, on any cells", "why_tests_cant": "Invariant over unbounded histories.", "anchors": ["gdspy/library.py:GdsLibrary.add", "gdspy/library.py:GdsLibrary.remove", "gdspy/library.py:GdsLibrary.rename_cell", "gdspy/library.py:GdsLibrary.new_cell"]}
{"id": "C15", "title": "Removing a cell leaves no reference to it", "statement": "After GdsLibrary.remove(cell) no cell of the library contains a reference (by object or by name) to a cell with that name, all other references and their order are kept, and the returned number is the number of references dropped.", "quantifier": "every library state", "why_tests_cant": "All graphs.", "anchors": ["gdspy/library.py:GdsLibrary.remove"]}
{"id": "C16", "title": "Renaming a cell keeps the hierarchy", "statement": "After GdsLibrary.rename_cell(cell, new), the library contains the same cell objects, the renamed one under the new key only, references to the cell object and references outside the library are untouched, and with update_references every library reference to the old name (by string, or to another cell object of that name) goes to the cell object and the number of such references is returned; it raises exactly when the new name is taken or the cell is not the library's, and then changes nothing.", "quantifier": "every library state, every name", "why_tests_cant": "All graphs.", "anchors": ["gdspy/library.py:GdsLibrary.rename_cell"]}
{"id": "C17", "title": "replace_references redirects exactly the matching references", "statement": "GdsLibrary.replace_references(old, new) redirects every reference in the library whose target has the old name to the new cell, leaves all other references unchanged, returns the number redirected, and is idempotent when the names differ.", "quantifier": "every library state", "why_tests_cant": "All graphs.", "anchors": ["gdspy/library.py:GdsLibrary.replace_references"]}
{"id": "C18", "title": "get_dependencies(recursive=True) is reachability", "statement": "Cell.get_dependencies(True) returns exactly the set of cells reachable through one or more references to cell objects, and get_dependencies(False) exactly the directly referenced ones, for every acyclic hierarchy.", "quantifier": "every acyclic cell graph", "why_tests_cant": "All graph shapes and depths.", "anchors": ["gdspy/library.py:Cell.get_dependencies"]}
{"id": "C19", "title": "top_level returns the cells nobody references", "statement": "GdsLibrary.top_level returns exactly the library cells that no library cell references by object, without repetition; in an acyclic library every library cell is a top-level cell or reachable from one (so a non-empty acyclic library has a top-level cell). References by name do not count.", "quantifier": "every library graph", "why_tests_cant": "All graphs.", "anchors": ["gdspy/library.py:GdsLibrary.top_level"]}
{"id": "C20", "title": "Bounding boxes are exact, and cached ones are right whenever the contract is kept", "statement": "Cell.get_bounding_box computed from scratch is the smallest axis-parallel box containing all vertices of all polygons of the cell with references expanded, whatever their rotations (None iff there are no vertices). In every history of creating cells, adding elements and asking for boxes in which nothing is added to a cell while a cell above it has already been measured, the box returned, cached or not, is that box. Adding below an already measured cell and measuring the changed cell first leaves a stale box above.", "quantifier": "every hierarchy; every history of add/query operations", "why_tests_cant": "Cache coherence quantifies over interleavings of mutations and queries.", "anchors": ["gdspy/library.py:Cell.get_bounding_box", "gdspy/library.py:CellReference.get_bounding_box", "gdspy/library.py:CellArray.get_bounding_box", "gdspy/library.py:Cell.add"]}
{"id": "C21", "title": "flatten preserves geometry", "statement": "Cell.flatten() leaves no references, touches no other cell, and get_polygons() afterwards returns the same polygons with the same multiplicities per (layer, datatype) as before, or moved to single_layer/single_datatype; every placement of a label becomes one label at its place; flattening twice equals flattening once. It is defined for every acyclic cell, except that polygon sets that went through remove_polygons make it raise under a displaced reference, and a single_datatype overwrites every label's texttype with single_texttype even when that is not given. Paths are covered under the condition that transforming a path transforms its polygons.", "quantifier": "every acyclic hierarchy", "why_tests_cant": "Structural induction over arbitrary hierarchies.", "anchors": ["gdspy/library.py:Cell.flatten", "gdspy/library.py:Cell.get_polygons", "gdspy/library.py:Cell.get_polygonsets"]}
{"id": "C22", "title": "Cell area is the sum of its polygons' areas", "statement": "Cell.area() equals the sum of the areas of all polygons returned by get_polygons(), for any nesting of references and arrays with magnification, rotation and reflection; the by_spec dictionary's values sum to the total and each entry is the area of that spec's polygons.", "quantifier": "every acyclic hierarchy, every transformation", "why_tests_cant": "Induction over hierarchies and over real parameters.", "anchors": ["gdspy/library.py:Cell.area", "gdspy/library.py:CellReference.area", "gdspy/library.py:CellArray.area", "gdspy/polygon.py:PolygonSet.area"]}
{"id": "C23", "title": "References are similarity transformations and compose", "statement": "The polygons of a CellReference are the images of the cell's polygons under reflect-in-x-axis, scale, rotate, translate, in that order; all distances are multiplied by |magnification|; a reference to a cell containing a single reference equals one reference with composed parameters (angles add, subtracting under reflection, magnifications multiply, reflections xor).", "quantifier": "all points, origins, angles, magnifications and reflections", "why_tests_cant": "Real-parameter quantification.", "anchors": ["gdspy/library.py:CellReference.get_polygons", "gdspy/library.py:CellReference._transform_polygons"]}
{"id": "C24", "title": "An array is the union of its references", "statement": "CellArray.get_polygons() lists exactly the polygons of columns*rows CellReferences with the array's transformation, where the origin of copy (i, j) is the array's origin displaced by (i*dx, j*dy) reflected and rotated, but not magnified, with the array; by_spec dictionaries agree with the list unless the magnification is 0, where they show the unscaled polygons.", "quantifier": "all columns, rows, spacings, transformations", "why_tests_cant": "All sizes and real parameters.", "anchors": ["gdspy/library.py:CellArray.get_polygons", "gdspy/library.py:CellArray._transform_polygons"]}
{"id": "C25", "title": "Array geometry survives GDSII's three-point encoding", "statement": "The three points written for a CellArray are its origin and where the elements one past the last column and row would have theirs, for every rotation, reflection and spacing. Reading them gives back the origin and the spacing exactly if they were not rounded. If they are rounded to a grid, no element, however many columns and rows there are, moves by more than half the grid pitch per coordinate (without rotation), and by no more than the pitch (with any rotation).", "quantifier": "all arrays with columns, rows > 0", "why_tests_cant": "Real-parameter quantification with trigonometric inverse.", "anchors": ["gdspy/library.py:CellArray.to_gds", "gdspy/library.py:GdsLibrary._create_array"]}
{"id": "C26", "title": "Polygon area is a geometric invariant", "statement": "PolygonSet.area() does not change under translate, rotate, mirror and under starting the vertex list elsewhere or reversing it, and is multiplied by |sx*sy| under scale(sx, sy); Rectangle area is |width*height|.", "quantifier": "every polygon, every real parameter", "why_tests_cant": "Unbounded vertex lists and reals.", "anchors": ["gdspy/polygon.py:PolygonSet.area", "gdspy/polygon.py:PolygonSet.rotate", "gdspy/polygon.py:PolygonSet.scale", "gdspy/polygon.py:PolygonSet.mirror", "gdspy/polygon.py:PolygonSet.translate"]}
{"id": "C27", "title": "Rotations, scalings, translations and mirrors obey their algebra", "statement": "PolygonSet.rotate(a, c) then rotate(b, c) equals rotate(a+b, c); rotate is an isometry fixing c; mirror over a line of two distinct points is an involution fixing the line and preserving distances; translate composes additively; scale composes multiplicatively about the same center.", "quantifier": "all points and real parameters", "why_tests_cant": "Real-parameter quantification.", "anchors": ["gdspy/polygon.py:PolygonSet.rotate", "gdspy/polygon.py:PolygonSet.scale", "gdspy/polygon.py:PolygonSet.translate", "gdspy/polygon.py:PolygonSet.mirror"]}
{"id": "C28", "title": "fracture bounds the vertex count and keeps layers aligned", "statement": "If fracture(max_points>4) terminates, every polygon has at most max_points vertices, polygons, layers and datatypes still have equal lengths, every piece carries the layer/datatype of the polygon it was cut from, and polygons with few enough vertices are untouched and stay in order; max_points<=4 changes nothing; cut positions are always valid indices.", "quantifier": "every polygon set, every behaviour of the clipping engine", "why_tests_cant": "Loop invariant over data-dependent iteration with an opaque chop.", "anchors": ["gdspy/polygon.py:PolygonSet.fracture"]}
{"id": "C29", "title": "slice assigns every piece to the right strip", "statement": "slice(polygons, positions, axis) returns len(positions)+1 entries; entry i is None iff the engine returns no piece for strip i, otherwise the PolygonSet of all pieces of strip i over all polygons in order with layer[i mod len] and datatype[i mod len]; the strips passed to the clipping engine tile the bounding box of each polygon.", "quantifier": "every input, every engine", "why_tests_cant": "All sizes, opaque engine.", "anchors": ["gdspy/operation.py:slice", "gdspy/clipper.cpp:chop"]}
{"id": "C30", "title": "boolean dispatches every operand shape to the right set operation", "statement": "For an engine that computes the named set operation on the regions covered, boolean(op1, op2, operation) covers exactly op1 OP op2 for or/and/xor/not whenever op2 is non-empty, and for not/xor/or also when op2 is empty and op1 is not; 'and' with an empty second operand and 'or' with both empty are wrong/raise.", "quantifier": "every operand list, every correct engine", "why_tests_cant": "All inputs and all engines.", "anchors": ["gdspy/operation.py:boolean", "gdspy/operation.py:_gather_polys"]}
{"id": "C31", "title": "Bezier sections interpolate, stay in the hull and commute with affine maps", "statement": "The de Casteljau evaluation used by Curve/FlexPath/RobustPath returns the first control point at u=0 and the last at u=1, lies in every half-plane containing all control points for u in [0,1], commutes with every affine map, reverses with reversed control points, and equals the Bernstein polynomial.", "quantifier": "every number of control points, every u", "why_tests_cant": "Unbounded degree, real parameters.", "anchors": ["gdspy/path.py:_func_bezier", "gdspy/curve.py:Curve.B", "gdspy/curve.py:Curve.C", "gdspy/curve.py:Curve.Q"]}
{"id": "C32", "title": "Adaptive sampling keeps endpoints, order and tolerance", "statement": "The adaptive refinement used by the Curve commands (C, S, Q, T, B, I and their lower-case forms) only inserts points of the exact Bezier curve at strictly increasing parameters, keeps the first and the last parameter and the initial ones, on termination the middle of every chord is within tolerance of the curve at the middle parameter, and for a positive tolerance every command with well-formed arguments terminates.", "quantifier": "every curve function, tolerance and termination point", "why_tests_cant": "Loop invariant with opaque curve.", "anchors": ["gdspy/curve.py:Curve.C", "gdspy/curve.py:Curve.Q", "gdspy/curve.py:Curve.B", "gdspy/curve.py:Curve.S", "gdspy/curve.py:Curve.T", "gdspy/curve.py:Curve.I"]}
{"id": "C33", "title": "Relative and absolute curve commands agree", "statement": "Every lower-case Curve command equals its upper-case counterpart with the current end point added to each coordinate (L/l, H/h, V/v, and the control points of C/c, Q/q, S/s, T/t, B/b), so a curve built from relative commands is translation equivariant.", "quantifier": "every curve state and argument list", "why_tests_cant": "All command sequences.", "anchors": ["gdspy/curve.py:Curve.L", "gdspy/curve.py:Curve.l", "gdspy/curve.py:Curve.H", "gdspy/curve.py:Curve.h", "gdspy/curve.py:Curve.V", "gdspy/curve.py:Curve.v", "gdspy/curve.py:Curve.C", "gdspy/curve.py:Curve.c", "gdspy/curve.py:Curve.S", "gdspy/curve.py:Curve.s"]}
{"id": "C34", "title": "Path bookkeeping lists stay aligned", "statement": "After any sequence of Path.segment/arc/turn/parametric calls polygons, layers and datatypes have the same length; FlexPath/RobustPath keep one width, offset, end, corner, layer and datatype per parallel path, and FlexPath keeps one width/offset row per spine point, through any sequence of construction calls.", "quantifier": "every finite sequence of construction calls", "why_tests_cant": "Unbounded histories.", "anchors": ["gdspy/polygon.py:Path.segment", "gdspy/polygon.py:Path.arc", "gdspy/polygon.py:Path.turn", "gdspy/path.py:FlexPath.segment", "gdspy/path.py:FlexPath.arc", "gdspy/path.py:FlexPath.parametric", "gdspy/path.py:RobustPath.segment"]}
{"id": "C35", "title": "RobustPath transformations act as the affine map on every point", "statement": "translate, scale, rotate applied to a RobustPath map every evaluated point (any section, parameter, side) by the same affine map that PolygonSet applies, and compose; the path's own offsets/widths scale consistently.", "quantifier": "every path, parameter and transformation sequence", "why_tests_cant": "Real parameters and sequences.", "anchors": ["gdspy/path.py:_SubPath.translate", "gdspy/path.py:_SubPath.scale", "gdspy/path.py:_SubPath.rotate", "gdspy/path.py:RobustPath.translate", "gdspy/path.py:RobustPath.transform"]}
{"id": "C36", "title": "L1Path ends where its lengths say", "statement": "L1Path.x/y after construction is the initial position plus the sum of the segment displacements implied by direction, turns and lengths. The polygons of each parallel path are the pieces of one outline: the two sides at half the width from the line, with mitred right-angle corners, joined at square ends, cut so that no polygon has more than max_points vertices. Rotating it turns all of these about the centre and its direction by the angle.", "quantifier": "every direction, turn list and length list", "why_tests_cant": "All turn sequences.", "anchors": ["gdspy/polygon.py:L1Path"]}
{"id": "C37", "title": "Placing a path through a reference agrees with placing its polygons", "statement": "For a cell containing a FlexPath or RobustPath, CellReference.get_paths()/CellArray.get_paths() describe the same geometry as CellReference.get_polygons(): spine, offsets, widths and end extensions are mapped by the reference transformation.", "quantifier": "every path and reference transformation", "why_tests_cant": "Real parameters.", "anchors": ["gdspy/library.py:CellReference.get_paths", "gdspy/library.py:CellArray.get_paths", "gdspy/path.py:FlexPath.transform", "gdspy/path.py:RobustPath.transform"]}
{"id": "C38", "title": "Cell.copy with a transformation places the copied content like a reference would", "statement": "Cell.copy(name, deep_copy, translation, rotation, scale, x_reflection) returns a new cell whose get_polygons() is that of the original, in order, every vertex reflected, scaled, rotated and translated; no existing cell or reference changes; a deep copy has new reference objects. This holds when the cell's direct references are unreflected and, if scale is not 1, it holds no array directly: a direct reflected reference loses its reflection and the spacing of a direct array is not scaled (counterexamples proved).", "quantifier": "every acyclic hierarchy and transformation", "why_tests_cant": "Real parameters, hierarchies.", "anchors": ["gdspy/library.py:Cell.copy"]}
{"id": "C39", "title": "get_polygons views are consistent", "statement": "get_polygons(by_spec=True), get_polygons(by_spec=False) and get_polygons(by_spec=(l,d)) are three views of the same multiset: the dictionary's lists concatenate to a permutation of the flat list, and the tuple query equals the dictionary entry; with depth=d only references nested at most d deep are expanded and deeper cells appear as their bounding boxes.", "quantifier": "every acyclic hierarchy, every depth and spec", "why_tests_cant": "Structural induction.", "anchors": ["gdspy/library.py:Cell.get_polygons", "gdspy/library.py:CellReference.get_polygons", "gdspy/library.py:CellArray.get_polygons"]}
{"id": "C40", "title": "remove_polygons/remove_paths/remove_labels are exact filters", "statement": "Cell.remove_polygons(test) removes exactly the polygons for which test(points, layer, datatype) is true, keeps all others in order with their own layers and datatypes and drops polygon sets that become empty; remove_paths/remove_labels likewise for whole elements; nothing else changes, not even a cached bounding box, which may therefore become stale.", "quantifier": "every cell and predicate", "why_tests_cant": "All predicates.", "anchors": ["gdspy/library.py:Cell.remove_polygons", "gdspy/library.py:Cell.remove_paths", "gdspy/library.py:Cell.remove_labels"]}
{"id": "C41", "title": "Label anchors survive", "statement": "For every anchor name accepted by Label, writing the label and reading it back gives a label with the same anchor; every 16-bit presentation value read is mapped to a valid anchor.", "quantifier": "all anchors and all presentation words", "why_tests_cant": "Cheap to enumerate for names but the presentation word ranges over all 16-bit values.", "anchors": ["gdspy/label.py:Label._anchor", "gdspy/library.py:GdsLibrary._import_anchors"]}
{"id": "C42", "title": "Element properties stay attached to their element", "statement": "When a written library is read back, each element has exactly the properties it was written with (same attributes, values and order) and no others; properties of elements the reader does not support leak to the next supported element.", "quantifier": "every sequence of elements with and without properties", "why_tests_cant": "Sequences of elements with state carried between them.", "anchors": ["gdspy/library.py:GdsLibrary.read_gds", "gdspy/polygon.py:PolygonSet.to_gds", "gdspy/label.py:Label.to_gds"]}
{"id": "C43", "title": "SVG label text is escaped", "statement": "The text content written by Label.to_svg contains no raw '<' or '>' and every '&' starts one of the three entities; unescaping it gives the original text.", "quantifier": "every string", "why_tests_cant": "All strings.", "anchors": ["gdspy/label.py:Label.to_svg"]}
{"id": "C44", "title": "Text places every character in its own cell", "statement": "Text draws its characters in order, each in its own cell: horizontal text advances 8/9 of the size per character and 11/9 per line (vertical text the other way round), a tab moves to the next of the columns 3, 7, 11, ..., a newline to the start of the next line, and characters without a glyph leave a gap. Every printable ASCII character but the space has a glyph, which fits in 5/9 by 9/9 of the size, and whose polygons do not overlap; so different characters are at least 2/9 of the size apart. Text at an angle is the upright text rotated about its position.", "quantifier": "every string, size, orientation and angle", "why_tests_cant": "All strings.", "anchors": ["gdspy/polygon.py:Text"]}
{"id": "C45", "title": "Path width, length and cell bookkeeping for Path.segment/turn", "statement": "A Path built of straight segments has length equal to the sum of the segment lengths, its end point is the sum of the displacement vectors, each segment with constant width w and length l contributes an area |w*l| per parallel path, and quarter-turn strings rotate the direction exactly.", "quantifier": "every sequence of segments and turns", "why_tests_cant": "Unbounded sequences.", "anchors": ["gdspy/polygon.py:Path.segment", "gdspy/polygon.py:Path.turn"]}
{"id": "C46", "title": "Curve.get_points never returns a duplicated closing point", "statement": "Curve.get_points returns all points of the curve in order, dropping the last one exactly when it is closer than the tolerance to the first; in particular a closed curve does not repeat its first point.  (A curve that only has its initial point therefore gives no points.)", "quantifier": "every curve", "why_tests_cant": "All inputs.", "anchors": ["gdspy/curve.py:Curve.get_points"]}
{"id": "C47", "title": "inside answers membership in the union of the polygons", "statement": "gdspy.inside(points, polygons) returns for each point whether some polygon contains it (after rounding to the precision grid): the bounding-box pre-filters and short-circuits never change the answer; with groups, 'any' is the disjunction and 'all' the conjunction over the group.", "quantifier": "every point list, polygon list and grouping", "why_tests_cant": "Optimisations must be answer preserving for all inputs.", "anchors": ["gdspy/operation.py:inside", "gdspy/clipper.cpp:inside", "gdspy/clipper.cpp:PointInPolygon"]}
{"id": "C48", "title": "fillet pairs every vertex with its own radius", "statement": "PolygonSet.fillet interprets a scalar, per-polygon, per-vertex or flattened radius so that each vertex gets the documented radius, and rejects other lengths. Repeated vertices are dropped with their radii. Each corner becomes an arc of the circle that touches both edges at distance r*tan(theta/2) from the corner (capped at 49% of the shorter edge, so that arcs of adjacent corners never overlap), with at least the documented number of vertices and never further from the circle than their sagitta. Only polygons that grow beyond max_points cause fracturing.", "quantifier": "every polygon set and radius argument", "why_tests_cant": "All shapes and real parameters.", "anchors": ["gdspy/polygon.py:PolygonSet.fillet"]}
{"id": "C49", "title": "extract copies a cell with everything it needs", "statement": "GdsLibrary.extract(cell) and add with include_dependencies put the cell and all cells reachable from it into the library, in whatever order the set of cells is visited, and afterwards no reference of an added cell to a cell object leads outside the library (unless overwrite_duplicate is used with two cells of the same name in the hierarchy, or the argument is a one-shot iterator).", "quantifier": "every acyclic cell graph", "why_tests_cant": "All graphs.", "anchors": ["gdspy/library.py:GdsLibrary.add", "gdspy/library.py:GdsLibrary.extract"]}
{"id": "C50", "title": "write_gds writes exactly the selected cells", "statement": "write_gds(cells=None) writes every library cell exactly once; with a list, exactly those (names resolved in the library) in order, followed by the binary cells in order.", "quantifier": "every library and selection", "why_tests_cant": "All selections.", "anchors": ["gdspy/library.py:GdsLibrary.write_gds"]}
{"id": "C51", "title": "Reading and rewriting a file is stable", "statement": "Reading a file with units='import' (or 'skip' into a library of the same units) and writing the library again gives the same integer coordinates for every element even in floating-point arithmetic: for any multiplication and division with relative errors up to 2^-53, round(k*factor*(unit/precision)) = k for every 32-bit k.", "quantifier": "every 32-bit coordinate, every unit pair, every correctly rounded arithmetic", "why_tests_cant": "2^32 coordinates times all unit values.", "anchors": ["gdspy/library.py:GdsLibrary.read_gds", "gdspy/library.py:GdsLibrary.write_gds"]}
{"id": "C52", "title": "Grid snapping error is at most half a database unit", "statement": "Writing a point and reading it back gives a point within half a precision step in each coordinate: in the units of the file for 'skip' and 'import', and in metres for 'convert' into any other unit. Coordinates are rounded to the nearest integer, ties to even; rounding keeps their order, and leaves those on the grid.", "quantifier": "every real coordinate and unit/precision pair", "why_tests_cant": "All reals.", "anchors": ["gdspy/polygon.py:PolygonSet.to_gds", "gdspy/library.py:GdsLibrary.read_gds"]}
{"id": "C53", "title": "gdspy.copy returns an independent translated copy", "statement": "gdspy.copy(obj, dx, dy) leaves obj unchanged and returns an object whose geometry is obj's translated by (dx, dy); copying with (0,0) is the identity.", "quantifier": "every object", "why_tests_cant": "All objects.", "anchors": ["gdspy/operation.py:copy"]}
{"id": "C54", "title": "get_labels expands references", "statement": "Cell.get_labels(depth=d) returns, for every placement of a label under at most d references, one label with the transformed position and the same text, layer and texttype. With set_transform=True the magnifications are the products and the rotations the sums of those along the way, and x_reflection is toggled once per reference on the way, reflected or not, which is not the reflection of the placement.", "quantifier": "every acyclic hierarchy", "why_tests_cant": "Structural induction and real parameters.", "anchors": ["gdspy/library.py:Cell.get_labels", "gdspy/library.py:CellReference.get_labels", "gdspy/library.py:CellArray.get_labels"]}
{"id": "C55", "title": "Depth-limited queries agree", "statement": "get_polygonsets/get_paths/get_labels(depth=d) return exactly the elements nested under at most d references, transformed by every instance on the way; a negative depth acts as 0; depth=None or d at least the hierarchy depth returns all.", "quantifier": "every acyclic hierarchy and depth", "why_tests_cant": "Structural induction.", "anchors": ["gdspy/library.py:Cell.get_polygonsets", "gdspy/library.py:Cell.get_paths", "gdspy/library.py:Cell.get_labels"]}
{"id": "C56", "title": "Engine inputs are normalised", "statement": "Every polygon handed to the clipping engine is rounded to the precision grid and oriented so that its signed area is non-negative, keeping the same vertices.", "quantifier": "every polygon and precision", "why_tests_cant": "All polygons.", "anchors": ["gdspy/clipper.cpp:parse_polygon"]}
{"id": "C57", "title": "A polygon set's bounding box is exact", "statement": "PolygonSet.get_bounding_box() is the smallest axis-parallel box containing every vertex of the set (each side touched by a vertex); it is None exactly when the set is empty, and it does not depend on the order of the polygons.", "quantifier": "every polygon set", "why_tests_cant": "Unbounded vertex lists and reals.", "anchors": ["gdspy/polygon.py:PolygonSet.get_bounding_box"]}
{"id": "C58", "title": "get_layers, get_datatypes and get_svg_classes collect over the whole hierarchy", "statement": "Cell.get_layers(), get_datatypes() and get_svg_classes() return exactly the sets of layers, datatypes and (layer, datatype)/(layer, texttype) pairs used by the polygons, paths and labels of the cell and of every cell it depends on; the first two raise when any reference below is by name, and get_texttypes() raises for every cell that has a reference.", "quantifier": "every acyclic hierarchy of cells of any depth", "why_tests_cant": "The sets range over arbitrary hierarchies of arbitrary depth; a test sees one hierarchy.", "anchors": ["gdspy/library.py: Cell.get_layers", "gdspy/library.py: Cell.get_datatypes", "gdspy/library.py: Cell.get_texttypes", "gdspy/library.py: Cell.get_svg_classes"]}
{"id": "C59", "title": "Smooth curve commands continue the previous control point", "statement": "Curve.S/s draws, for each pair (control, end), the cubic whose first control point is the reflection of the previous section's last control point about the section start (the start itself after a command that is not C, S or I), and Curve.T/t does the same for quadratics, chaining the reflected control points; C and Q leave their last control point for the next smooth command and all the other commands clear it.", "quantifier": "every curve state, every argument list, any number of sections", "why_tests_cant": "The control point depends on the whole history of commands.", "anchors": ["gdspy/curve.py:Curve.S", "gdspy/curve.py:Curve.s", "gdspy/curve.py:Curve.T", "gdspy/curve.py:Curve.t"]}
{"id": "C60", "title": "A curve command ends at the last coordinates given", "statement": "Every command L, C, S, Q, T, B (and lower-case) keeps all the existing points, appends new ones, and leaves the curve ending exactly at the last coordinates given (relative ones counted from the end point before the command).", "quantifier": "every curve, every argument list of every length, any tolerance", "why_tests_cant": "All argument lists and tolerances, real coordinates.", "anchors": ["gdspy/curve.py:Curve.L", "gdspy/curve.py:Curve.C", "gdspy/curve.py:Curve.S", "gdspy/curve.py:Curve.Q", "gdspy/curve.py:Curve.T", "gdspy/curve.py:Curve.B"]}
{"id": "C61", "title": "Arcs lie on the ellipse and approximate the circle within 25/16 of the tolerance", "statement": "Curve.arc adds at least two points, all on the ellipse of the given radii and rotation that passes through the end of the curve, the last one at the final angle; for a circle and a tolerance of at most half the radius every point of the exact arc is within 25/16 of the tolerance of the polygonal line drawn.  The tolerance itself is not guaranteed: for every circle and tolerance there is an arc that violates it.", "quantifier": "every curve, radius, pair of angles (of any span), rotation and tolerance", "why_tests_cant": "Real parameters; the bound must hold for all of them.", "anchors": ["gdspy/curve.py:Curve.arc"]}
{"id": "C62", "title": "An interpolated curve passes through its points", "statement": "Curve.I/i draws a curve through every point given, in order, and back to the starting point when cycle is set, whatever control points the Hobby algorithm chooses.", "quantifier": "every list of points, tolerance, and choice of control points", "why_tests_cant": "Any number of points, real coordinates.", "anchors": ["gdspy/curve.py:Curve.I", "gdspy/curve.py:Curve.i", "gdspy/hobby.py:_hobby"]}
{"id": "C63", "title": "FlexPath sections end where, as wide and as far off the spine as asked", "statement": "After segment, arc, turn, parametric, bezier or smooth the path ends at the requested point (turn: the old end rotated by the angle about the centre at the given radius to the left or right); arc points lie on the requested circle at equal angles; widths and offsets go linearly from the previous values to the requested ones over the new points, one row per point.", "quantifier": "every path, every argument for which the call returns", "why_tests_cant": "Real parameters and any earlier history of the path.", "anchors": ["gdspy/path.py:FlexPath.segment", "gdspy/path.py:FlexPath.arc", "gdspy/path.py:FlexPath.turn", "gdspy/path.py:FlexPath.parametric", "gdspy/path.py:FlexPath.bezier", "gdspy/path.py:FlexPath.smooth"]}
{"id": "C64", "title": "Parametric FlexPath sections are sampled within tolerance and the sampling ends", "statement": "The points added by parametric and bezier are the curve at increasing parameters ending at 1, every chord is within the tolerance of the curve at one fifth, one half and four fifths of its parameter interval, and for every curve with bounded slope the sampling loop ends.", "quantifier": "every curve, tolerance and path", "why_tests_cant": "All curves.", "anchors": ["gdspy/path.py:FlexPath.parametric", "gdspy/path.py:FlexPath.bezier"]}
{"id": "C65", "title": "The polygons of a path are those of its present shape", "statement": "After any sequence of drawing, transforming and querying calls, FlexPath.get_polygons() returns what would be computed for the path as it now is, and calling it again returns the same.", "quantifier": "every history of calls on a FlexPath", "why_tests_cant": "Stale-cache errors depend on the history; histories are unbounded.", "anchors": ["gdspy/path.py:FlexPath.get_polygons", "gdspy/library.py:Cell.flatten"]}
{"id": "C66", "title": "A path covers the band of its width at its offset", "statement": "Each parallel path of a FlexPath of constant width w and offset o is outlined by lines at distance w/2 on both sides of a line running at distance o to the left of the spine: for one section with flush, extended or given ends exactly the rectangle, for more sections with mitered corners and flush ends exactly the mitered band; and get_polygons does not raise for paths with straight corners and ends.", "quantifier": "every spine, width, offset and number of parallel paths", "why_tests_cant": "Real coordinates and unbounded spines.", "anchors": ["gdspy/path.py:FlexPath.get_polygons"]}
{"id": "C67", "title": "The FlexPath constructor sets up the parallel paths asked for", "statement": "FlexPath(points, width, offset, ...) has one parallel path per width (or per offset, or one), starting with the given points; a single width, layer, datatype, corner, end or bend radius holds for all of them and a list is used cyclically; a list of offsets is taken as it is, and a number is the distance between neighbouring paths, centred about the points.", "quantifier": "every combination of arguments", "why_tests_cant": "Unbounded numbers of paths and points, real values.", "anchors": ["gdspy/path.py:FlexPath.__init__"]}
{"id": "C68", "title": "RobustPath sections join without a gap through any history", "statement": "After any sequence of construction calls and movements (with positive scale factors and widths/offsets that start at the present values), each section of each parallel path starts where the one before it ends, on the spine; when the spine keeps its direction there, so do the offset centre line and both sides, provided the widths are asked to follow transformations.  The end recorded by the path is the end of its last section.", "quantifier": "every constructor call and every finite sequence of construction and transformation calls", "why_tests_cant": "Unbounded histories in which transformations and drawing alternate.", "anchors": ["gdspy/path.py:RobustPath.scale", "gdspy/path.py:RobustPath.transform", "gdspy/path.py:RobustPath.segment", "gdspy/path.py:RobustPath._parse_width", "gdspy/path.py:RobustPath._parse_offset", "gdspy/path.py:_SubPath"]}
{"id": "C69", "title": "RobustPath sections end where, as wide and as far off the spine as asked", "statement": "After segment, arc, turn, parametric, bezier or smooth the RobustPath ends at the requested point (turn after a straight section: the old end rotated by the angle about the centre at the given radius to the left or right, leaving in the direction of that section); the width and the offset of each new section at every parameter are the requested ones: constant, linear from the present value to the given one, or the given function (an offset number or function being an increment).", "quantifier": "every path, every argument for which the call returns, every parameter of the section", "why_tests_cant": "Real parameters, arbitrary functions and any earlier history of the path.", "anchors": ["gdspy/path.py:RobustPath.segment", "gdspy/path.py:RobustPath.arc", "gdspy/path.py:RobustPath.turn", "gdspy/path.py:RobustPath.parametric", "gdspy/path.py:RobustPath.bezier", "gdspy/path.py:RobustPath.smooth", "gdspy/path.py:RobustPath._parse_width", "gdspy/path.py:RobustPath._parse_offset"]}
{"id": "C70", "title": "The polygons of a RobustPath are those of its present shape", "statement": "After any sequence of drawing, transforming and querying calls, RobustPath.get_polygons() returns what would be computed for the path as it now is, and calling it again returns the same.", "quantifier": "every history of calls on a RobustPath", "why_tests_cant": "Stale-cache errors depend on the history; histories are unbounded.", "anchors": ["gdspy/path.py:RobustPath.get_polygons", "gdspy/library.py:Cell.flatten"]}
{"id": "C71", "title": "A straight RobustPath section covers the band of its width at its offset", "statement": "A RobustPath drawn as one straight section, with constant or linearly changing width, is for every parallel path the trapezoid of half the width on both sides of the line at the given offset, with rectangles added before and behind for extended ends; positive offsets are on the right of the direction of travel. A path with at least one section has polygons.", "quantifier": "every start, end, width, offset and number of parallel paths", "why_tests_cant": "Real coordinates.", "anchors": ["gdspy/path.py:RobustPath.get_polygons", "gdspy/path.py:RobustPath.segment", "gdspy/path.py:_SubPath"]}
{"id": "C72", "title": "FlexPath ends and corners have the requested shape", "statement": "The polygon of a FlexPath goes round its start, along its right side, round its end and back along its left. Flush ends are square at the end point; extended ends add half the width or the given lengths, the first at the start and the second at the end; round ends are half circles of half the width around the end point, on the outer side. On the inner side of a bend, natural, mitered, beveled and round corners are where the two offset lines cross; on the outer side a mitered corner is that crossing, a natural corner is cut at half the width beyond the corner if the bend is sharper than a right angle, a beveled corner joins the two section ends, a round corner is an arc of half the width around the corner; a circular bend is an arc of the bend radius minus or plus half the width, tangent to both sections. Arcs are followed within 81/64, 49/36 and 9/4 of the tolerance. Drawing does not fail when the tolerance is at most the diameters involved.", "quantifier": "every centre line, width, offset, tolerance and combination of end and corner styles (except smooth and user functions), any number of points", "why_tests_cant": "Real coordinates and angles, unbounded number of corners.", "anchors": ["gdspy/path.py: FlexPath.get_polygons"]}
{"id": "C73", "title": "Successive Path sections join without gaps", "statement": "Every drawing call of Path (segment, arc, turn, parametric, bezier) adds, for each parallel path, a chain of polygons: the first starts exactly at the two corners where this parallel path ended, each goes on exactly from the two corners where the one before ended, and the last ends exactly at the corners where the next call will start. For curves this holds if they start at the end of the path, in its direction.", "quantifier": "every Path, number of parallel paths, distance, change of width and distance, angle and radius, with any number of points that suffices for the corners (the automatic number does), and any splitting by max_points", "why_tests_cant": "Real coordinates, any number of parallel paths and pieces.", "anchors": ["gdspy/polygon.py:Path.segment", "gdspy/polygon.py:Path.arc", "gdspy/polygon.py:Path.turn", "gdspy/polygon.py:Path.parametric", "gdspy/polygon.py:Path.bezier"]}
{"id": "C74", "title": "Path polygons respect max_points", "statement": "No polygon of a Path drawn with calls whose max_points is at most M (and in effect: at least 1 for arc and turn, at least 4 for curves) has more than M vertices, whatever number of points was asked for and whatever transformations were applied.", "quantifier": "every sequence of Path calls, every M >= 4", "why_tests_cant": "Unbounded sequences and numbers of points.", "anchors": ["gdspy/polygon.py:Path.arc", "gdspy/polygon.py:Path.turn", "gdspy/polygon.py:Path.parametric", "gdspy/polygon.py:Path.smooth"]}
{"id": "C76", "title": "Curved Path sections have the requested width along the requested curve", "statement": "Path.parametric draws for each parallel path polygons whose sides are at the parallel path's place plus and minus half the width to the sides of the curve, perpendicular to its direction, at a list of parameters from 0 to 1 that contains the initial evaluations and is dense enough for the middle of each step to be within the tolerance; consecutive polygons share one step. Path.bezier does so along the Bezier curve of its control points, whose velocity it uses. The path ends at the end of the curve with its width, distance and direction. For functions of bounded slope with a derivative that is never zero the call succeeds.", "quantifier": "every function, derivative, width and distance (numbers or functions), tolerance, number of evaluations and parallel paths", "why_tests_cant": "Functions on the reals and unbounded refinement.", "anchors": ["gdspy/polygon.py:Path.parametric", "gdspy/polygon.py:Path.bezier"]}
{"id": "C77", "title": "A called RobustPath gives the points of the requested curve", "statement": "After a section has been added to a RobustPath by segment, arc, turn, parametric or bezier, calling the path with the number of the section plus t gives, for each parallel path, the point that is to the right of the requested curve at t by the parallel path's offset, perpendicular to the curve's direction: the straight line, the circular arc, the Bezier curve of the control points, or the function. The points of earlier sections stay what they were.", "quantifier": "every path, section, parameter, number of parallel paths and offset (constant or function)", "why_tests_cant": "Curves on the reals, any degree of Bezier curve and any history of sections.", "anchors": ["gdspy/path.py:RobustPath.__call__", "gdspy/path.py:RobustPath.segment", "gdspy/path.py:RobustPath.arc", "gdspy/path.py:RobustPath.turn", "gdspy/path.py:RobustPath.parametric", "gdspy/path.py:RobustPath.bezier", "gdspy/path.py:_SubPath"]}
{"id": "C78", "title": "smooth draws Hobby's spline through the points", "statement": "The control points that Curve.i/I, FlexPath.smooth, RobustPath.smooth and Path.smooth compute for a list of points are those of METAFONT's splines: there is one direction at each point, the given angle where one is given, such that every arc leaves its first point and arrives at its second in these directions, with control points at the distances of Hobby's formula for the tensions; where no angle is given the mock curvature is the same on both sides of the point, and at loose ends it is the curl times the mock curvature at the other end of the arc; a closed curve has one more arc, back to the first point, and no ends. With positive tensions the control points are ahead of the points, so the curve has the same direction on both sides. With tensions above 2/3, curls that are not negative and consecutive points distinct the computation does not fail unless there is a single arc, without angles, with curls whose product is 1, and there is only one answer. Scaling, rotating or moving the points does the same with the control points. FlexPath.smooth, RobustPath.smooth and Path.smooth draw a section along each of these arcs, one after the other.", "quantifier": "every list of points, angles, tensions, curls, open or closed", "why_tests_cant": "A linear system of any size over real coordinates; failure to find a solution depends on all of the inputs.", "anchors": ["gdspy/hobby.py:_hobby", "gdspy/curve.py:Curve.I", "gdspy/path.py:FlexPath.smooth", "gdspy/path.py:RobustPath.smooth", "gdspy/polygon.py:Path.smooth"]}
{"id": "C75", "title": "Moving a Path and drawing with it commute", "statement": "Translating or rotating a Path and then adding sections gives the same path as adding the sections first and then translating or rotating, if the sections are moved alike (absolute points moved, directions turned): the same end point, direction, width, distance, length, layers and the same vertices of every polygon. For a path that is not one of several parallel paths, the same holds for scaling (all lengths and tolerances scaled; apart from the recorded length) and for mirroring (left and right exchanged; each polygon may start at another vertex or run the other way). One of the two fails exactly if the other does.", "quantifier": "every path, every sequence of segment, arc, turn, parametric, bezier and smooth sections, every vector, angle, positive factor, centre and mirror line", "why_tests_cant": "Real coordinates and angles, functions as arguments, adaptive sampling and histories of any length.", "anchors": ["gdspy/polygon.py:Path.translate", "gdspy/polygon.py:Path.rotate", "gdspy/polygon.py:Path.scale", "gdspy/polygon.py:Path.mirror", "gdspy/polygon.py:Path.segment", "gdspy/polygon.py:Path.arc", "gdspy/polygon.py:Path.turn", "gdspy/polygon.py:Path.parametric", "gdspy/polygon.py:Path.bezier", "gdspy/polygon.py:Path.smooth"]}
{"id": "C79", "title": "Arcs and turns of Path follow the circles asked for", "statement": "Path.arc and Path.turn add, for each parallel path and each of the parts into which max_points divides the section, one polygon: half of its points lie at equal angles along the side away from the centre, the others back along the near side, at the radius of the parallel path plus or minus half of the width, both changing linearly from the old to the new values; the centre is beside the end of the path. For constant width and distance the sides lie on circles. With automatic numbers of points every point of these circles is within 25/16 of the tolerance of the polygon. (The tolerance itself is not kept: for every path and tolerance there is an arc that violates it.)", "quantifier": "every path of positive width, radius, pair of angles or turn, number of points or tolerance, max_points, final width and distance", "why_tests_cant": "Real parameters, any number of parallel paths, points and parts; the bound must hold for all of them.", "anchors": ["gdspy/polygon.py:Path.arc", "gdspy/polygon.py:Path.turn"]}
{"id": "C80", "title": "Round draws the circle, ellipse, ring or section asked for", "statement": "Round adds as many polygons as max_points makes necessary, all with the same number of points, at most max_points, and each with the layer and datatype given. A whole disc in one polygon has its points at equal parameters on the circle or ellipse, and with an automatic number of points every point of the border is within the tolerance of its outline. A whole ring goes once around the outer border and back around the inner one. Otherwise the turn between the angles is divided equally: each slice has the centre and the border from one direction to the next, each section of a ring the outer border forward and the inner one back, where the ends of the borders of ellipses are seen from the centre exactly in the directions asked for, so neighbouring parts share their edges. Borders of rings and of sections of circular rings are within 25/16 of the tolerance, those of slices of circles within 25/4 of it. (Slices do violate the tolerance by more than a factor of three; slices of ellipses by any factor; and angles of 3 pi and more are one turn off for ellipses.)", "quantifier": "every centre, pair of radii (circle or ellipse), inner radii, pair of angles, tolerance or number of points, max_points, layer and datatype", "why_tests_cant": "Real parameters and any number of points and parts; the bounds on the distance must hold for all of them, and the violations occur only for particular angles and ratios of the radii.", "anchors": ["gdspy/polygon.py:Round"]}
{"id": "C81", "title": "PolyPath draws the sides, corners and ends asked for", "statement": "Every path of a PolyPath is the polygon between its two sides: on each section of the spine a side runs straight from the offset of one end to that of the other, square to the section, and neighbouring sections are joined at the crossing of the two lines, or, with bevels and a crossing on the outside, by the two ends. Offsets come from the number of the path, the distance and the half width, whose lists are repeated as needed. With one width and one distance all corners of a mitered side are at exactly that distance from both sections. With max_points the path is cut at corners into pieces that glue together to the same sides, each at most max_points long with miters. Extended ends lengthen the first and last section by the half width, round ends add the half discs on the far sides. Each polygon has the layer and datatype of its path. Numbers for corners and ends mean the same as the names. Without a limit the call never fails for points that differ. (Bevels exceed max_points, round ends ignore it, two-point paths ignore the numbers for the ends, a path that turns back loses its far end, and a path of width zero may raise.)", "quantifier": "every list of points, lists of widths and distances, number of paths, kind of corners and ends, max_points, and lists of layers and datatypes", "why_tests_cant": "Any number of sections, paths and cuts, with real coordinates; where the cuts fall depends on the number of points both sides have got so far.", "anchors": ["gdspy/polygon.py:PolyPath"]}
{"id": "C82", "title": "The SVG of a cell shows the cell", "statement": "The document written by Cell.write_svg, read as SVG (transforms, uses of groups by id, character data), shows exactly the polygons, paths and labels of the cell and of everything below it through references and arrays, each in the place, size, orientation and order that get_polygons and the expansion of the cell give it, `scaling` pixels per unit and y upwards, in any order of Python's sets; the view box is the bounding box of the polygons with the padding asked for, so all polygons are visible; every class shown has a style rule, the user's if there is one; label anchors give the matching alignment; default colours are valid; a document is written whenever there is a vertex.", "quantifier": "all hierarchies, placements, labels, scalings, paddings, backgrounds, styles, iteration orders of sets", "why_tests_cant": "All hierarchies of reflected, scaled and rotated references and arrays, and all orders of sets.", "anchors": ["gdspy/library.py:Cell.write_svg", "gdspy/library.py:Cell.to_svg", "gdspy/library.py:CellReference.to_svg", "gdspy/library.py:CellArray.to_svg", "gdspy/label.py:Label.to_svg", "gdspy/polygon.py:PolygonSet.to_svg", "gdspy/path.py:FlexPath.to_svg", "gdspy/path.py:RobustPath.to_svg"]}
{"id": "C83", "title": "Polygons with holes become single outlines that stand for them", "statement": "Where the result of a boolean operation, offset or slice has holes, gdspy returns plain polygons: each outer outline, at whatever depth of nesting, gives one polygon, in order, in which its holes are joined one after the other, left to right, by horizontal bridges gone through in both directions from the leftmost vertex of the hole to the nearest edge on its left; all vertices are kept, nothing crosses the bridges, the vertices stay in the bounding box. The polygon goes around every point as many times as the outline and its holes together, except at points less than one database unit per hole away from an edge, and everywhere if all slopes are whole (Manhattan, 45 degrees); twice the area changes by at most the height for each hole. A hole inside the polygon with enough room on its left can always be joined, and one hole always.", "quantifier": "all trees of outlines with integer vertices, all orders of holes that start at the same x, all points of the plane", "why_tests_cant": "All shapes, depths and numbers of holes, and a rounded division at each bridge; the failing cases need a hole within a unit of a slanted edge.", "anchors": ["gdspy/clipper.cpp:link_holes", "gdspy/clipper.cpp:tree2paths", "gdspy/clipper.cpp:PolyNode::GetNext", "gdspy/operation.py:boolean"]}
{"id": "C84", "title": "offset grows and shrinks polygons by the distance", "statement": "gdspy.offset(polygons, distance, ...) covers, for a positive distance, everything the polygons covered and the rectangle of width distance on the outside of every edge; for a negative distance it covers nothing the polygons did not, and nothing of the rectangle of that width on the inside of every edge. Nothing changes farther from the edges than the distance times sqrt 2 (bevel), max(2, tolerance) (miter) or 1 (round). Distance 0 gives the union. With join_first the same holds of the union of the polygons. At an outer corner a miter join has one vertex where the moved edges meet if that is at most max(2, tolerance) distances away, otherwise it is bevelled; a bevel has two vertices on the moved edges, its side at the distance from the corner; a round join has its vertices on the circle around the corner, from one moved edge to the other, tolerance of them to a full circle. The result is None exactly if nothing is left, otherwise a polygon set with the given layer and datatype, each polygon with at most max_points vertices if that is more than 4.", "quantifier": "all polygons (any shape, winding and overlaps), distances of more than a few grid units or 0, joins, tolerances, precisions and points of the plane, all clipping engines that are right at the point", "why_tests_cant": "Every shape and every corner angle with every distance; the new outlines cross themselves and each other, so that only winding numbers tell what is covered.", "anchors": ["gdspy/operation.py:offset", "gdspy/clipper.cpp:offset", "gdspy/clipper.cpp:ClipperOffset::DoOffset", "gdspy/clipper.cpp:ClipperOffset::OffsetPoint", "gdspy/clipper.cpp:ClipperOffset::Execute", "gdspy/clipper.cpp:ClipperOffset::FixOrientations"]}
{"id": "C85", "title": "FlexPaths taper from point to point", "statement": "When widths and offsets change along a FlexPath of three or more points, each section of a parallel path runs straight from the offset at its first point to the offset at its second, and both its sides run straight from half the width at one to half the width at the other, so that the width changes linearly along the section. Consecutive sections and sides meet where their lines cross, or half way between their ends if they are nearly parallel (sine below 10^-6). Where the sides leave a gap, mitered corners still meet at the crossing, beveled corners join the two ends, natural corners are cut at half the width of the corner beyond each end, round corners are arcs of half that width around the point of the centre line, circular bends are arcs of the bend radius less or plus half the width. Ends have the shape asked for, with the width they have there. The polygon goes round the start, along the right side, round the end and back along the left. (A round corner is drawn on the wrong side where the sides turn the other way than the centre line.)", "quantifier": "every path, widths, offsets, tolerance and combination of end and corner styles (except smooth and user functions), any number of points, as long as no two consecutive points of the centre line coincide", "why_tests_cant": "Real coordinates, unbounded number of corners, a different width and offset at each.", "anchors": ["gdspy/path.py: FlexPath.get_polygons"]}
{"id": "C86", "title": "SVG files can be read back", "statement": "The file Cell.write_svg writes is well-formed XML: an svg element with the frame of the drawing, the style rules, a group for every cell below, perhaps the background, and the group of the cell. Reading its elements, attributes, transforms, classes, style rules and character data gives back the drawing, with its numbers as they were formatted; if formatting keeps them, the file shows the layout. The file is written unless a label has no texttype and no style. This holds for names and styles without characters that XML or CSS reserve; texts of labels may have any character that XML allows.", "quantifier": "all cell hierarchies without cycles, all placements, labels, styles, backgrounds, orders of Python's sets, number formats and readers that go with them", "why_tests_cant": "Every combination of names, texts, styles, numbers and transforms ends up in one string, where one character in the wrong place changes or breaks everything after it.", "anchors": ["gdspy/library.py:Cell.write_svg", "gdspy/library.py:Cell.to_svg", "gdspy/library.py:CellReference.to_svg", "gdspy/library.py:CellArray.to_svg", "gdspy/polygon.py:PolygonSet.to_svg", "gdspy/path.py:FlexPath.to_svg", "gdspy/path.py:RobustPath.to_svg", "gdspy/label.py:Label.to_svg"]}
{"id": "C87", "title": "Rounding errors stay far below the grid", "statement": "Computed with doubles, get_polygons() puts every vertex where the chain of references and arrays says, up to 2^-45 of the size of the coordinates involved for every reference on the way. Written to a file, a vertex is at most 0.51 database units from its exact place if its coordinates fit in 32 bits and there are at most 100 references on the way. The same relative bound holds for every history of translate, scale and rotate of a polygon set, by the number of moves.", "quantifier": "all cell hierarchies without cycles, all placements (rotations up to a full turn) and arrays, all depths up to 2^45, all histories of moves, and all arithmetics with the rounding errors of doubles", "why_tests_cant": "Rounding errors depend on every digit of every number and add up along the hierarchy; tests compare with a tolerance for the few cases they try.", "anchors": ["gdspy/library.py:CellReference._transform_polygons", "gdspy/library.py:CellArray._transform_polygons", "gdspy/library.py:Cell.get_polygons", "gdspy/polygon.py:PolygonSet.translate", "gdspy/polygon.py:PolygonSet.scale", "gdspy/polygon.py:PolygonSet.rotate", "gdspy/polygon.py:PolygonSet.to_gds"]}
{"id": "C88", "title": "Boolean operations draw exactly the border of the result", "statement": "While boolean(), slice() and offset() sweep over the edges of closed polygons, every edge on the sweep line knows the true winding numbers on its two sides, and it draws an output polygon when, and only when, the result of the operation (with the fill rule in use) lies on just one of its sides. Every polygon being drawn is held by exactly two edges, one at each end; the bounds that meet at a maximum always agree, so that no exception is raised there; and when the sweep is over, the sides of the polygons drawn are the pieces of input edges that border the result, each as often as it was found.", "quantifier": "all four operations, all fill rules of both operands, and all sequences of local minima, crossings of neighbouring edges, vertices and local maxima of closed polygons, of any length", "why_tests_cant": "The order of the events depends on every coordinate and there is no bound for their number or for the number of edges on the sweep line; tests look at a few shapes.", "anchors": ["gdspy/clipper.cpp:Clipper::SetWindingCount", "gdspy/clipper.cpp:Clipper::IsContributing", "gdspy/clipper.cpp:Clipper::IntersectEdges", "gdspy/clipper.cpp:Clipper::AddOutPt", "gdspy/clipper.cpp:Clipper::AddLocalMinPoly", "gdspy/clipper.cpp:Clipper::AddLocalMaxPoly", "gdspy/clipper.cpp:Clipper::AppendPolygon", "gdspy/clipper.cpp:Clipper::DoMaxima", "gdspy/clipper.cpp:Clipper::InsertLocalMinimaIntoAEL"]}
{"id": "C89", "title": "The edges of a scanbeam always cross as neighbours", "statement": "Between two scanlines, boolean operations find every pair of active edges that changes its order, each once, and no other pair. However the intersections are sorted, they can be made one after the other between neighbouring edges, the left one first, so that the operation never gives up there and never returns an empty result for that reason. Afterwards the edges are in the order of the upper scanline, edges that meet there keep their order, and the winding numbers are those that a ray along that scanline would count. An order of intersections that is already possible is not changed.", "quantifier": "all lists of active edges, all abscissas at the upper scanline (with ties), all orders that std::sort may give to the intersections, all states of the sweep with these edges", "why_tests_cant": "The number of edges in a scanbeam and the order of their intersections are unbounded, and std::sort may order equal elements in any way; a test sees one order.", "anchors": ["gdspy/clipper.cpp:Clipper::ProcessIntersections", "gdspy/clipper.cpp:Clipper::BuildIntersectList", "gdspy/clipper.cpp:Clipper::FixupIntersectionOrder", "gdspy/clipper.cpp:Clipper::ProcessIntersectList", "gdspy/clipper.cpp:Clipper::SwapPositionsInAEL", "gdspy/clipper.cpp:Clipper::SwapPositionsInSEL"]}
{"id": "C90", "title": "Clean-up of outlines removes only vertices in line and changes no region", "statement": "Before a boolean operation every outline given is freed from repeated vertices, from vertices in line with their neighbours and from spikes; afterwards the same is done with every outline found. Both clean-ups always end, leave only vertices of the outline with at least three of them and a corner at every one, and keep the winding number around every point of the plane and the area. An outline is left out only if its winding number is zero around every point. An outline of the result that is not joined with others runs in the positive direction if it is an outer one and in the negative direction if it is a hole, and encloses what was drawn.", "quantifier": "all outlines with integer vertices, in any order and with any repetitions, all points of the plane, holes and outer outlines, both output directions", "why_tests_cant": "The clean-up removes vertices while it goes around the outline and has to go back after every removal; chains of removals (spikes on spikes, repeated vertices across the start) are unbounded, and a region has infinitely many points.", "anchors": ["gdspy/clipper.cpp:ClipperBase::AddPath", "gdspy/clipper.cpp:RemoveEdge", "gdspy/clipper.cpp:SlopesEqual", "gdspy/clipper.cpp:Clipper::ExecuteInternal", "gdspy/clipper.cpp:Area", "gdspy/clipper.cpp:ReversePolyPtLinks", "gdspy/clipper.cpp:Clipper::FixupOutPolygon", "gdspy/clipper.cpp:Clipper::BuildResult2"]}
{"id": "C91", "title": "Outlines of the result are nested properly and are marked as holes exactly when they are", "statement": "While the sweep line of a boolean operation draws the outlines of the result, every outline being drawn has two ends on it, and the ends of different outlines are never interleaved: one lies beside the other or between its ends. An outline is marked as a hole exactly when the points just left of it belong to the result; an outline begun inside the result is a hole, and the outline it refers to is the innermost one around it. Outlines that meet are joined without spoiling this, whichever of two outlines side by side is taken for the lower one; when one lies in the other the outer one's mark is kept. The search for an outer outline always ends.", "quantifier": "all four operations and fill rules, all sequences of events of the sweep line (local minima, crossings, vertices, local maxima), all answers to which of two outlines is lower, all outlines being drawn and all gaps between edges", "why_tests_cant": "The marks are set from what is around an outline when it is begun and are passed on when outlines are joined, any number of times and in any nesting; a wrong mark needs a particular history of joins.", "anchors": ["gdspy/clipper.cpp:Clipper::SetHoleState", "gdspy/clipper.cpp:OutRec1RightOfOutRec2", "gdspy/clipper.cpp:GetLowermostRec", "gdspy/clipper.cpp:Clipper::AppendPolygon", "gdspy/clipper.cpp:Clipper::AddOutPt", "gdspy/clipper.cpp:Clipper::AddLocalMaxPoly"]}
{"id": "C92", "title": "The tree of outlines holds each outline once, holes under outer outlines", "statement": "After a boolean operation the outlines found are put in a tree, from which the polygons with holes are made. Every outline that has points is in the tree exactly once and nothing else is. The outline above another one has the other mark (hole or outer), has points, and is the first such outline on the way outwards; an outline on the first level has none on the way. If no outer outline has lost all its points in the clean-up, the level of an outline in the tree agrees with its mark, so that only outer outlines are on the first level and every hole is below the outer outline it is cut from.", "quantifier": "all four operations and fill rules, all sequences of events of the sweep line, all answers to which of two outlines is lower, all contents of the outlines after the clean-up, all outlines", "why_tests_cant": "References between outlines are redirected whenever outlines are joined and are put right one after the other while the tree is built; the chains to follow can have any length and pass through any number of outlines that were given up.", "anchors": ["gdspy/clipper.cpp:Clipper::FixHoleLinkage", "gdspy/clipper.cpp:Clipper::BuildResult2", "gdspy/clipper.cpp:PointCount", "gdspy/clipper.cpp:PolyNode::AddChild", "gdspy/clipper.cpp:PolyNode::IsHole", "gdspy/clipper.cpp:PolyNode::GetNext"]}
{"id": "C93", "title": "The sweep stops at every vertex ordinate, in order, and ends", "statement": "A boolean operation sweeps over the polygons from the largest ordinate to the smallest. It stops at every ordinate at which some vertex of the polygons lies and at no other, never turns back, stops at the same ordinate at most twice, starts every local minimum exactly once and at its own ordinate, and ends after a number of rounds bounded by the number of edges.", "quantifier": "all sets of closed polygons as cut into bounds (any number of local minima, edges, horizontal edges, coinciding ordinates), all orders that the sort may give to local minima of the same ordinate", "why_tests_cant": "Ordinates are put in the queue while the sweep runs, by edges that become active one after the other; a missed one would leave an edge active past its end, and one pushed back would make the loop run on. Which ones are pushed depends on how horizontal edges and local minima follow each other, in unboundedly many ways.", "anchors": ["gdspy/clipper.cpp:Clipper::ExecuteInternal", "gdspy/clipper.cpp:ClipperBase::Reset", "gdspy/clipper.cpp:ClipperBase::InsertScanbeam", "gdspy/clipper.cpp:ClipperBase::PopScanbeam", "gdspy/clipper.cpp:ClipperBase::PopLocalMinima", "gdspy/clipper.cpp:Clipper::InsertLocalMinimaIntoAEL", "gdspy/clipper.cpp:ClipperBase::UpdateEdgeIntoAEL"]}
