{"id": "C01", "title": "Rotation system stays a permutation", "statement": "After any sequence of addNode / addEdge / removeEdge / mergeEdges / splitEdge / removeBridge / mergeFaces / removeIsolatedNode calls (accepted, rejected by a precondition or vetoed by a hook), nextSigma and prevSigma are mutually inverse on the darts of all live edges, never lead from a live dart to a dart of a removed edge, and all darts reachable from a dart by nextSigma report the same start node; every live node is either isolated or its anchor is one of its own darts.", "quantifier": "every finite history of calls with arbitrary arguments, from the empty map, with arbitrary hook answers", "why_tests_cant": "the invariant must survive every interleaving of local pointer surgery at loops, degree-1 and degree-2 nodes; a test reaches only a few dart configurations", "anchors": ["src/geomap/cppmap.cxx: GeoMap::addEdge, GeoMap::removeEdge, GeoMap::insertSigmaPredecessor, GeoMap::detachDart, GeoMap::mergeEdges, GeoMap::splitEdge, GeoMap::removeBridge, GeoMap::mergeFaces", "src/geomap/cppmap.hxx: GeoMap::Dart::nextSigma, prevSigma, GeoMap::Node::anchor"]}
{"id": "C02", "title": "Face contours partition the darts", "statement": "In an initialised map, for every live dart the face returned by leftFace() exists, and the dart lies on exactly one of the contours listed by that face; conversely every dart met when walking nextPhi from any contour anchor of a face reports that face as its left face. Every Euler operation preserves this.", "quantifier": "every initialised planar map and every sequence of Euler operations on it, with arbitrary hook vetoes", "why_tests_cant": "contour splitting and merging depends on where the anchor lies relative to the removed edge and on orbit structure of unbounded length", "anchors": ["src/geomap/cppmap.cxx: GeoMap::mergeFaces, removeBridge, mergeEdges, splitEdge, findComponentAnchor, initContours, embedFaces", "src/geomap/cppmap.hxx: GeoMap::Face::Face, contoursBegin"]}
{"id": "C03", "title": "Euler-Poincare characteristic is preserved", "statement": "(non-isolated nodes) - edges + faces - (number of hole contours) has the same value before and after every Euler operation that returns normally, and is 1 after initializeMap of a planar embedding; equivalently the check made by checkConsistency cannot start failing because of an Euler operation.", "quantifier": "every initialised map, every Euler operation with every dart and hook answer", "why_tests_cant": "depends on all combinations of isolated ends, self loops, bridges, hole or outer contours", "anchors": ["src/geomap/cppmap.cxx: GeoMap::checkConsistency, mergeEdges, splitEdge, removeBridge, mergeFaces, removeIsolatedNode"]}
{"id": "C04", "title": "Counters equal live cells, labels are never reused", "statement": "nodeCount(), edgeCount() and faceCount() always equal the number of labels for which node(), edge(), face() return a cell; each live cell is stored under its own label(); max*Label() never decreases under Euler operations and a label that was removed is never handed out again.", "quantifier": "every history of calls", "why_tests_cant": "a counter drift may need an arbitrarily long history, and each early return or veto path must be counted", "anchors": ["src/geomap/cppmap.cxx: GeoMap::addNode, addEdge, mergeEdges, splitEdge, removeBridge, mergeFaces", "src/geomap/cppmap.hxx: GeoMap::nodeCount, edgeCount, faceCount, maxNodeLabel, Node::uninitialize, Edge::uninitialize, Face::uninitialize"]}
{"id": "C05", "title": "A vetoed operation changes nothing", "statement": "If a pre-operation hook returns false, mergeEdges, removeBridge, mergeFaces and removeIsolatedNode return a null result and every observable query (sigma orbits, end nodes, face labels, geometry, counters, label image) answers exactly as before; only the stored start dart of a contour may move along that same contour.", "quantifier": "every map, dart and hook answer", "why_tests_cant": "all code before the hook call has to be side-effect free for every configuration", "anchors": ["src/geomap/cppmap.cxx: GeoMap::mergeEdges, removeBridge, mergeFaces, removeIsolatedNode", "src/geomap/cppmap.hxx: detail::interruptable_accumulator"]}
{"id": "C06", "title": "mergeFaces: which face survives and what it owns", "statement": "mergeFaces never removes the infinite face; between two finite faces the one with the larger area survives (left of the given dart on a tie). Afterwards exactly the darts that had the removed or the surviving face on their left, minus the two darts of the removed edge, have the survivor on their left; no other dart changes its left face.", "quantifier": "every initialised map and every dart with different left and right faces", "why_tests_cant": "the relabelling walks orbits of arbitrary length over arbitrarily many contours", "anchors": ["src/geomap/cppmap.cxx: GeoMap::mergeFaces"]}
{"id": "C07", "title": "contour() of a finite face is its outer contour", "statement": "For every finite face the first contour returned (the one contour(), boundingBox(), contains() and holeCount() treat as the exterior) is the exterior one and all others are holes; mergeFaces keeps this.", "quantifier": "every map and every mergeFaces call", "why_tests_cant": "fails only for particular nestings and area relations", "anchors": ["src/geomap/cppmap.cxx: GeoMap::mergeFaces", "src/geomap/cppmap.hxx: GeoMap::Face::contour, holesBegin, boundingBox, contains"]}
{"id": "C08", "title": "splitEdge and mergeEdges are inverse", "statement": "Splitting an edge at an interior point and merging the two halves again at the new node yields an edge with the same points, the same end nodes and the same neighbours in the sigma orbits and the same left/right faces; all other darts are unaffected.", "quantifier": "every map, every edge and interior split position", "why_tests_cant": "must hold for loops, bridges and every position of the edge in the two orbits", "anchors": ["src/geomap/cppmap.cxx: GeoMap::splitEdge, mergeEdges, GeoMap::Edge::concatenate", "src/geomap/polygon.hxx: Polygon::split, extend, reverse"]}
{"id": "C09", "title": "Edge end points coincide with node positions", "statement": "For each live edge the first point equals the position of its start node and the last point that of its end node, and the edge has at least two points, after any sequence of graph construction, mergeEdges, splitEdge at interior points, removeBridge, mergeFaces.", "quantifier": "every history of calls", "why_tests_cant": "concatenation has four orientation cases combined with self loops", "anchors": ["src/geomap/cppmap.cxx: GeoMap::Edge::concatenate, GeoMap::mergeEdges, GeoMap::splitEdge, GeoMap::addEdge, GeoMap::checkConsistency"]}
{"id": "C10", "title": "Cached face area equals the recomputed area", "statement": "area() of every face equals the signed area enclosed by its current contours although it is cached and only updated incrementally by mergeFaces.", "quantifier": "every initialised map and every history of Euler operations", "why_tests_cant": "a stale cache shows only for particular interleavings of queries and operations", "anchors": ["src/geomap/cppmap.hxx: GeoMap::Face::area", "src/geomap/cppmap.cxx: contourArea, GeoMap::mergeFaces, GeoMap::mergeEdges, GeoMap::splitEdge"]}
{"id": "C11", "title": "Degree predicates agree with the degree", "statement": "hasDegree(n) is true iff degree() == n, and hasMinDegree(n) iff degree() >= n, for every n including 0, and all three terminate.", "quantifier": "every node of every consistent map and every n", "why_tests_cant": "early termination of the orbit walk has corner cases at every n and orbit length", "anchors": ["src/geomap/cppmap.hxx: GeoMap::Node::degree, hasDegree, hasMinDegree"]}
{"id": "C12", "title": "LabelLUT is the quotient by the merges performed", "statement": "After any sequence of relabel(from, to) calls on distinct current representatives, looking up a label yields the representative of its class in the partition generated by the merges, lookups are idempotent, and unmerged labels map to themselves.", "quantifier": "every size and every sequence of merges", "why_tests_cant": "linked lists of merged labels get arbitrarily long; splicing errors show only after several merges", "anchors": ["src/geomap/labellut.hxx: LabelLUT::initIdentity, relabel, operator[], appendOne"]}
{"id": "C13", "title": "mergedBegin enumerates exactly the merged labels", "statement": "Iterating mergedBegin(l) for a representative l terminates and yields every label that maps to l exactly once, and no other label.", "quantifier": "every size, every sequence of valid merges, every representative", "why_tests_cant": "a cyclic or truncated list shows only after particular merge orders", "anchors": ["src/geomap/labellut.hxx: LabelLUT::MergedIterator, mergedBegin, relabel"]}
{"id": "C14", "title": "Nearest search returns the nearest element", "statement": "nearest(p, maxSquaredDist) returns an element whose squared distance to p is minimal among all stored elements and strictly smaller than maxSquaredDist, or end if no stored element is that close.", "quantifier": "every multiset of stored points, query point and bound", "why_tests_cant": "the early-termination rule on the sorted coordinate has to be right for every arrangement", "anchors": ["src/geomap/vigra/map2d.hxx: Map2D::nearest, search"]}
{"id": "C15", "title": "nearestNode always returns a live node", "statement": "nearestNode(p) returns the live node nearest to p (below the distance bound) after any history of node insertions, removals and moves.", "quantifier": "every history, including several nodes at one position", "why_tests_cant": "the position index is maintained by position rather than by label; needs coincident nodes and a particular removal order", "anchors": ["src/geomap/cppmap.cxx: GeoMap::nearestNode, GeoMap::Node::setPosition", "src/geomap/cppmap.hxx: GeoMap::Node::uninitialize"]}
{"id": "C16", "title": "Cell iterators visit every live cell exactly once", "statement": "Iterating nodesBegin / edgesBegin / facesBegin visits the live cells in ascending label order, each exactly once; when cells are removed during iteration no removed cell is dereferenced afterwards and every cell that stays live is still visited.", "quantifier": "every cell table and every removal schedule during iteration", "why_tests_cant": "the position of holes in the table and of removals relative to the cursor is unbounded", "anchors": ["src/geomap/filteriterator.hxx: FilterIterator, SafeFilterIterator", "src/geomap/cppmap.hxx: GeoMap::nodesBegin, edgesBegin, facesBegin, finiteFacesBegin"]}
{"id": "C17", "title": "Label scan iterator visits exactly the matching pixels", "statement": "A cell scan iterator over a rectangle visits in row-major order exactly the pixels that carry the given type and label, each once, with the accompanying image iterator at the same coordinate, and stops at the end.", "quantifier": "every image content, rectangle (also empty) and label", "why_tests_cant": "row wrap and first/last pixel cases for every size", "anchors": ["src/cellimage/foureightsegmentation.hxx: LabelScanIterator", "src/geomap/filteriterator.hxx: ImageFilterIterator"]}
{"id": "C18", "title": "Scanline normalisation preserves coverage", "statement": "Normalising a scanline yields segments sorted by position with a gap between consecutive ones, covering exactly the same pixels, with the total direction preserved.", "quantifier": "every list of segments", "why_tests_cant": "chains of touching segments of any length and order", "anchors": ["src/geomap/polygon.hxx: ScanlineSegment::joinSuccessor, Scanlines::normalize"]}
{"id": "C19", "title": "Label image: negative values count the covering edges", "statement": "In a map with label image, a pixel crossed by k>0 edge scanline segments holds -k, and a pixel crossed by no edge holds a non-negative face label; removing an edge restores the face label exactly on the pixels no other edge crosses and reports exactly those pixels once.", "quantifier": "every image, every multiset of edge scanlines, every order of marking and removal", "why_tests_cant": "overlap of arbitrarily many edges on one pixel", "anchors": ["src/geomap/cppmap.cxx: rawAddEdgeToLabelImage, markEdgeInLabelImage, removeEdgeFromLabelImage, GeoMap::setHasLabelImage"]}
{"id": "C20", "title": "changeFaceLabels renames consistently", "statement": "After changeFaceLabels(new, max) with distinct new labels < max for the live faces, the face stored under new[l] is the old face l, every dart's left face label is new of the old one, and every face-coloured pixel reads new of its former label; edge pixels are unchanged.", "quantifier": "every map, every injective relabelling, after any number of face merges", "why_tests_cant": "must compose with the lookup table produced by arbitrary earlier merges", "anchors": ["src/geomap/cppmap.cxx: GeoMap::changeFaceLabels, LookupNewLabel"]}
{"id": "C21", "title": "A rejected changeFaceLabels leaves the map unchanged", "statement": "If changeFaceLabels throws because of an out-of-range or duplicate label, all faces still report their previous labels and face(l)->label() == l.", "quantifier": "every map and every invalid relabelling", "why_tests_cant": "exception-safety must hold at every position where the check can fail", "anchors": ["src/geomap/cppmap.cxx: GeoMap::changeFaceLabels"]}
{"id": "C22", "title": "Crack connection image marks exactly the label changes", "statement": "In the crack connection image, the right (down) bit of a crack corner is set iff the two pixels above/below (left/right of) that crack segment have different labels, the image outside counting as different from everything.", "quantifier": "every label image of every size, every corner", "why_tests_cant": "the border cases and interior interact for every image size", "anchors": ["src/geomap/vigra/crackconnections.hxx: crackConnectionImage"]}
{"id": "C23", "title": "Crack corners never have degree one and node detection is total", "statement": "After symmetrisation the four connection bits of neighbouring corners agree, every corner has 0, 2, 3 or 4 connections, the degree table lookup is always in range, and the corners marked as nodes are exactly those that need one.", "quantifier": "every label image of every size", "why_tests_cant": "quantifies over all images", "anchors": ["src/geomap/crackedgemap.cxx: CrackEdgeMapGenerator::makeCCSymmetric, markNodes", "src/geomap/crackedgemap.hxx: markEightConnectedRegions"]}
{"id": "C24", "title": "Polygon length and area do not depend on how the polygon was built", "statement": "length() and partialArea() of a polygon are functions of its current point list, whatever sequence of push_back / insert / erase / extend / setPoint / reverse / swap / split and interleaved length()/partialArea() queries produced it.", "quantifier": "every history of modifications and queries", "why_tests_cant": "caches are updated incrementally; a wrong increment shows only after particular interleavings", "anchors": ["src/geomap/polygon.hxx: Polygon::push_back, extend, setPoint, insert, erase, reverse, split, length, partialArea"]}
{"id": "C25", "title": "Bounding box covers all points", "statement": "boundingBox() of an edge polygon is the smallest box containing all its points after any modification history.", "quantifier": "every history of modifications and queries", "why_tests_cant": "stale caches appear only if the box was queried before a particular modification", "anchors": ["src/geomap/polygon.hxx: BBoxPolygon::setPoint, push_back, extend, insert, erase, boundingBox"]}
{"id": "C26", "title": "Moving a node keeps derived edge geometry in sync", "statement": "After Node::setPosition, length(), partialArea() and boundingBox() of the incident edges and area() of the adjacent faces agree with the new coordinates.", "quantifier": "every map, node and new position, with arbitrary earlier queries", "why_tests_cant": "needs earlier queries that filled the caches", "anchors": ["src/geomap/cppmap.cxx: GeoMap::Node::setPosition"]}
{"id": "C27", "title": "DartPosition moves consistently in both directions", "statement": "After any number of forward and backward segment moves, the reported segment is the pair of consecutive dart points at the current index and the arc length is the sum of the segment lengths before it; moving forward then back restores the position.", "quantifier": "every dart with at least two points and every sequence of moves", "why_tests_cant": "state carried between calls must be right for every sequence", "anchors": ["src/geomap/cppmap.hxx: GeoMap::DartPosition::nextSegmentInternal, prevSegmentInternal, gotoArcLength"]}
{"id": "C28", "title": "angleTheta orders directions like the polar angle", "statement": "The pseudo-angle of a nonzero vector lies in (-2, 2], two vectors get the same value iff they point in the same direction, and ordering by it is ordering by counter-clockwise polar angle from -180 to 180 degrees.", "quantifier": "all nonzero vectors (exact arithmetic)", "why_tests_cant": "order-isomorphism over an infinite domain", "anchors": ["src/geomap/cppmap.cxx: angleTheta"]}
{"id": "C29", "title": "sortEdgesDirectly produces the angular order", "statement": "After sortEdgesDirectly, walking nextSigma around a node visits exactly its previous darts in strictly increasing pseudo-angle of their first segments (cyclically); if two darts leave in the same direction an exception is raised.", "quantifier": "every map, every node degree, all directions", "why_tests_cant": "for all degrees and arrangements", "anchors": ["src/geomap/cppmap.cxx: GeoMap::sortEdgesDirectly"]}
{"id": "C30", "title": "simplifyPolygon keeps end points and stays within tolerance", "statement": "The simplified polygon is a subsequence of the input containing both end points, two consecutive kept points are neighbours in the input or (if a maximal step is given) at most maxStep apart, and every dropped point is within epsilon of the line through the two kept points surrounding it.", "quantifier": "every point sequence, epsilon and step limit", "why_tests_cant": "recursive subdivision over arbitrary inputs", "anchors": ["src/geomap/polygon.hxx: simplifyPolygonHelper, simplifyPolygon"]}
{"id": "C31", "title": "Pyramid levels are reproducible", "statement": "getLevel(k), gotoLevel(k) and approachLevel reach exactly the state obtained by applying the first k recorded operations to level 0, whatever checkpoints exist and whatever level the traversal started from, after any history of operations, composites and cuts.", "quantifier": "every segmentation type, every history of operations, composites and cuts, every k <= top", "why_tests_cant": "checkpoint schedule depends on the unbounded history", "anchors": ["src/cellimage/cellpyramid.hxx: CellPyramid::addAndPerformOperation, storeCheckpoint, cutAbove, cutApex, getLevel, Level::gotoLevel, Level::approachLevel, Level::gotoLastCheckpointBefore"]}
{"id": "C32", "title": "A failing pyramid operation is rolled back", "statement": "If an operation throws, levelCount() and the recorded history are as before the call, and later operations and getLevel keep working.", "quantifier": "every history and every failing operation", "why_tests_cant": "needs a failing operation in an arbitrary history", "anchors": ["src/cellimage/cellpyramid.hxx: CellPyramid::addAndPerformOperation, cutAbove"]}
{"id": "C33", "title": "Composite operations count as one level", "statement": "A composite begun with beginComposite or changeIntoComposite and closed with endComposite advances the level count consistently: topLevel().index() == levelCount()-1 whenever no composite is open.", "quantifier": "every history of operations and nested composites", "why_tests_cant": "nesting and conversion order is unbounded", "anchors": ["src/cellimage/cellpyramid.hxx: CellPyramid::beginComposite, changeIntoComposite, endComposite"]}
{"id": "C34", "title": "Dart serialisation round-trips", "statement": "Serialising a dart and constructing a dart from the result yields the same centre pixel and direction whenever both coordinates are below 2^14; beyond that distinct darts collide.", "quantifier": "all coordinates and directions", "why_tests_cant": "bit layout over 2^31 values", "anchors": ["src/cellimage/foureightsegmentation.hxx: GeoMap::DartTraverser::serialize, DartTraverser(GeoMap*, Serialized)"]}
{"id": "C35", "title": "Cell pixel packs type and label losslessly", "statement": "type() and label() return what was stored by the constructor, setType and setLabel for all labels below 2^30 and all four storable types, and setting one does not change the other.", "quantifier": "all labels and types", "why_tests_cant": "2^32 values and truncation behaviour", "anchors": ["src/cellimage/cellimage.hxx: CellPixel"]}
{"id": "C36", "title": "Digital straight line symmetries and growth", "statement": "mirrorX, mirrorY, mirrorXY and convertToFourConnected map the set of contained points by the corresponding coordinate transformation, the mirrors are involutions, and addPoint either leaves the line unchanged or yields a line containing the new point.", "quantifier": "all integer parameters and points", "why_tests_cant": "infinite domain", "anchors": ["src/geomap/vigra/dsl.hxx: DigitalStraightLine::contains, width, mirrorX, mirrorY, mirrorXY, convertToFourConnected, addPoint"]}
{"id": "C37", "title": "Face statistics track the label image", "statement": "For every face that is not supersampled, the samples accumulated equal the multiset of image values at the pixels labelled with that face, after any history of face merges and pixel associations.", "quantifier": "every image, label image and history of merges", "why_tests_cant": "incremental maintenance over an unbounded history", "anchors": ["src/geomap/facestatistics.hxx: FaceColorStatistics::preMergeFaces, postMergeFaces, associatePixels"]}
{"id": "C38", "title": "Supersampling bookkeeping never dereferences a released table", "statement": "superSampledCount() equals the number of live supersampled faces, and the table is released exactly when it reaches zero and not accessed afterwards.", "quantifier": "every history of merges", "why_tests_cant": "needs a specific last supersampled face configuration", "anchors": ["src/geomap/facestatistics.hxx: FaceColorStatistics::postMergeFaces"]}
{"id": "C39", "title": "Protected edges are never removed while protection is attached", "statement": "With EdgeProtection attached, no history of mergeFaces, removeBridge and mergeEdges calls removes a protected edge without a merge partner carrying the same flags; the set of protected polygon points is unchanged.", "quantifier": "every map, flag assignment and history of Euler operations", "why_tests_cant": "histories are unbounded", "anchors": ["src/geomap/cppmap_utils.hxx: EdgeProtection::preRemoveEdge, preMergeEdges", "src/geomap/cppmap.cxx: mergeFaces, removeBridge, mergeEdges"]}
{"id": "C40", "title": "Bulk bridge removal terminates and removes what it may", "statement": "removeBridges(map, list) terminates for every list of bridge labels and every hook behaviour; without vetoes every listed bridge is gone afterwards and the returned number equals the number of edges removed.", "quantifier": "every map, list of labels and hook behaviour", "why_tests_cant": "termination and order independence over unbounded lists", "anchors": ["src/geomap/cppmap_utils.cxx: removeBridges", "src/geomap/cppmap_utils.hxx: removeEdges"]}
{"id": "C41", "title": "Sigma tables are never accessed out of range", "statement": "In any history, every read or write of the sigma tables by a dart of an existing edge label stays within the allocated size, and growing the tables preserves every existing entry.", "quantifier": "every number of edges and every history", "why_tests_cant": "needs crossing the reallocation thresholds at every size", "anchors": ["src/geomap/cppmap.cxx: GeoMap::resizeSigmaMapping, insertSigmaPredecessor, splitEdge, setSigmaMapping"]}
{"id": "C42", "title": "Switching the label image off and on is idempotent", "statement": "setHasLabelImage(false) followed by setHasLabelImage(true) on an unchanged map gives the same label image and the same pixelArea for every face.", "quantifier": "every map with a label image", "why_tests_cant": "needs the toggle history and per-face accounting", "anchors": ["src/geomap/cppmap.cxx: GeoMap::setHasLabelImage"]}
{"id": "C43", "title": "Hook combination semantics", "statement": "An operation with several registered hooks is performed iff every hook returned true; hooks after the first refusal are not called; with no hooks it is performed.", "quantifier": "every number of hooks and answers", "why_tests_cant": "arbitrary hook lists", "anchors": ["src/geomap/cppmap.hxx: detail::interruptable_accumulator"]}
{"id": "C44", "title": "Contour walks visit each dart of the contour once", "statement": "Walking nextPhi from a dart until it returns terminates and visits each dart of the contour exactly once; prevPhi is its inverse; the contour point iterator yields the concatenation of the dart polygons with the shared node points once.", "quantifier": "every consistent map and dart", "why_tests_cant": "orbit length is unbounded, loops and bridges visit an edge twice", "anchors": ["src/geomap/cppmap.hxx: GeoMap::Dart::nextPhi, prevPhi, GeoMap::ContourPointIter", "src/geomap/cppmap.cxx: contourArea, contourLength, contourPoly"]}
{"id": "C45", "title": "Point-in-polygon does not depend on the representation", "statement": "Polygon::contains(p) for a closed polygon gives the same answer for every cyclic rotation of the start point and for the reversed polygon, when p does not lie on the boundary's vertex rows in a degenerate way covered by the half-open rule.", "quantifier": "every closed polygon and point", "why_tests_cant": "infinite domain with degenerate horizontal edges", "anchors": ["src/geomap/polygon.hxx: Polygon::contains"]}
{"id": "C46", "title": "Cell image bookkeeping equals a recount", "statement": "In the pixel based map, after any sequence of removeIsolatedNode, mergeFaces, removeBridge and mergeEdges the stored size of every live cell (except the infinite face) is the number of pixels carrying its type and label, its bounds are the exact bounding rectangle of these pixels, and removed cells own no pixel.", "quantifier": "every cell image and every history of Euler operations", "why_tests_cant": "unbounded histories and images", "anchors": ["src/cellimage/foureightsegmentation.cxx: GeoMap::removeIsolatedNode, mergeFaces, removeBridge, mergeEdges, checkConsistency"]}
{"id": "C47", "title": "Polygon area and length laws", "statement": "Reversing a polygon negates its area and keeps its length; splitting it at a vertex and re-joining by extend restores the points and both quantities are additive.", "quantifier": "every point sequence", "why_tests_cant": "algebraic laws over all polygons", "anchors": ["src/geomap/polygon.hxx: Polygon::reverse, split, extend, partialArea, length"]}
{"id": "C48", "title": "Copying a map yields an equal, independent map", "statement": "A copied map answers every query like the original, and later operations on one do not affect the other.", "quantifier": "every map and every later history on either copy", "why_tests_cant": "aliasing shows only under later histories", "anchors": ["src/geomap/cppmap.cxx: GeoMap::GeoMap(const GeoMap &)", "src/geomap/facestatistics.hxx: FaceColorStatistics copy constructor"]}
{"id": "C49", "title": "mergeFacesCompletely removes the whole common boundary", "statement": "mergeFacesCompletely either removes all edges common to the two faces along the given contour or, if one of them is protected, changes nothing and returns null.", "quantifier": "every map, dart and protection assignment", "why_tests_cant": "common boundaries consist of arbitrarily many edges", "anchors": ["src/geomap/cppmap_utils.cxx: mergeFacesCompletely"]}
{"id": "C50", "title": "convexHull returns the convex hull", "statement": "The polygon returned by convexHull is closed, uses only input points, turns in one direction only and contains every input point.", "quantifier": "every finite set of points", "why_tests_cant": "infinite domain with collinear degeneracies", "anchors": ["src/geomap/polygon.hxx: convexHull, CCWCompare, sortPoints, orderedConvexHull"]}
{"id": "C51", "title": "scanPoly covers exactly the pixels a polygon passes through", "statement": "A pixel is covered by the scanlines of a polygon exactly if some point of the polygon lies inside the open unit square of that pixel; drawing the scanlines writes exactly these pixels once each and stays inside the image; the row range taken from the bounding box misses none.", "quantifier": "every polygon (also open, degenerate or with points on pixel borders), every row range and image size", "why_tests_cant": "continuum of polygons; the interesting cases are points exactly on pixel borders", "anchors": ["src/geomap/polygon.hxx: scanPoly, ScanlineSegment, drawScannedPoly"]}
{"id": "C52", "title": "Filling a scanned polygon fills its interior", "statement": "For a closed polygon the directions of every scanline add up to zero, left of an untouched pixel they add up to twice the winding number of the polygon around that pixel, and fillScannedPoly does not throw and writes exactly the untouched pixels with positive winding number.", "quantifier": "every closed polygon, row range and image size", "why_tests_cant": "continuum of polygons, arbitrary self-intersections", "anchors": ["src/geomap/polygon.hxx: scanPoly, fillScannedPoly"]}
{"id": "C53", "title": "Scanline algebra", "statement": "merge and operator+= put together the lines of both operands whatever their row ranges, so coverage is united and turning counts add up; reverse negates directions only; append touches only the addressed line and ignores lines outside the range.", "quantifier": "all pairs of scanlines", "why_tests_cant": "row ranges may overlap in any way", "anchors": ["src/geomap/polygon.hxx: Scanlines"]}
{"id": "C54", "title": "ScanlinesIter yields the covered pixels", "statement": "Iterating with ScanlinesIter yields exactly the covered pixels line by line and then reports the end, also with empty lines and empty segments.", "quantifier": "all scanlines with at least one segment", "why_tests_cant": "empty lines and segments may occur anywhere", "anchors": ["src/geomap/polygon.hxx: ScanlinesIter"]}
{"id": "C55", "title": "Every crack lies on exactly one edge", "statement": "Building a map from a label image terminates, never reads or writes outside an image and never throws; every segment of every edge separates two different labels (the outside counting as a label of its own) and every unit segment that does is drawn by exactly one edge, once; there is a node at every corner that needs one, other nodes only at corners where a closed curve had to be started, never two nodes at one place, and no edge runs through a corner that needs a node.", "quantifier": "every label image of positive size, 4- and 8-connected regions", "why_tests_cant": "the following is guided by flags changed in place, and any arrangement of labels may occur", "anchors": ["src/geomap/crackedgemap.cxx: followEdge, followAllEdgesStartingWith", "src/geomap/crackedgemap.hxx: CrackEdgeMapGenerator"]}
{"id": "C56", "title": "tangentDSL returns the longest symmetric digital tangent", "statement": "tangentDSL returns the largest distance such that the polygon's points up to that distance on both sides of the given point lie on one digital straight line with two directions, and stores that line; it returns 0 and leaves its argument alone if there is no such line; it returns for every polygon and never reads outside of the code sequence.", "quantifier": "all code sequences, open or closed, all point indices", "why_tests_cant": "unboundedly many polygons; maximality quantifies over all lines", "anchors": ["src/geomap/vigra/dsl.hxx: tangentDSL 204-327, DigitalStraightLine::addPoint 112-163"]}
{"id": "C57", "title": "Bulk removal of nodes and edges does all that was asked and nothing else", "statement": "removeIsolatedNodes removes exactly the isolated nodes, mergeDegree2Nodes merges until no mergeable node of degree two is left, removeEdges removes every listed edge and tidies the nodes; each keeps all points of the edges not listed, returns for every slot behaviour, and its returned number accounts for what disappeared.", "quantifier": "every map after initialisation, list of distinct edge labels and slot behaviour", "why_tests_cant": "the loops run over tables that the operations change; maps and lists are unbounded", "anchors": ["src/geomap/cppmap_utils.cxx: removeIsolatedNodes, mergeDegree2Nodes", "src/geomap/cppmap_utils.hxx: removeEdges"]}
{"id": "C58", "title": "pixelArea counts the pixels of a face", "statement": "In a map with label image, face(l)->pixelArea() is the number of pixels that labelAccessor() reads as l, after initializeMap, setHasLabelImage, changeFaceLabels and any sequence of Euler operations.", "quantifier": "every map with a label image, every history of operations, every face", "why_tests_cant": "the counter is maintained incrementally by five functions and must agree with a recount after any sequence of them", "anchors": ["src/geomap/cppmap.cxx: GeoMap::embedFaces, GeoMap::setHasLabelImage, removeBridge, mergeFaces", "src/geomap/cppmap.hxx: Face::pixelArea"]}
{"id": "C59", "title": "boundingBox of a face", "statement": "face(l)->boundingBox() of a finite face is the smallest rectangle around the polygons of its outer contour when it is asked for first; with a label image it contains, after any history of operations, all edges beside the face and (rounded to pixels) all pixels of the face; for the infinite face it throws.", "quantifier": "every map, every history of operations, every face", "why_tests_cant": "the box is cached and updated by mergeFaces only; whether it still covers the face after any sequence of operations, moved nodes included, is a statement about all histories", "anchors": ["src/geomap/cppmap.hxx: Face::boundingBox 1146-1164", "src/geomap/cppmap.cxx: mergeFaces 2060-2063, 2148-2149"]}
{"id": "C60", "title": "Attaching face statistics does not disturb the map", "statement": "Every operation on a map with face statistics attached, detached or destroyed does to the map what it does without them: the same result, the same exceptions, and no access to invalid memory.", "quantifier": "every map with label image, image, minSampleCount and history of calls, including destruction of the statistics object", "why_tests_cant": "hooks run inside the operations; an invalid access depends on the number of supersampled faces and on object lifetimes, and may go unnoticed in a test run", "anchors": ["src/geomap/facestatistics.hxx: preMergeFaces, postMergeFaces, associatePixels, attachHooks, detachHooks, ~FaceColorStatistics"]}
{"id": "C61", "title": "A copy of face statistics is independent", "statement": "A FaceColorStatistics object and its copy (copy.copy / copy.deepcopy in Python) answer alike right after copying; changes to one are not seen by the other; either can be destroyed without harming the other.", "quantifier": "every object, every order of changes and destructions", "why_tests_cant": "sharing shows only in later changes or destructions, as undefined behaviour", "anchors": ["src/geomap/facestatistics.hxx: copy constructor 503-517, destructor 572-576", "src/python_bindings/cppmapmodule_stats.cxx: __copy__, __deepcopy__"]}
{"id": "C62", "title": "Scanning a cell visits exactly its pixels", "statement": "In the pixel based map, nodeScanIterator, edgeScanIterator and faceScanIterator of a live cell visit every pixel of the cell exactly once, row by row from left to right, and no other pixel; with cropping, exactly those inside the base image. The number of positions is the stored size.", "quantifier": "every cell image, every history of Euler operations, every live cell", "why_tests_cant": "unbounded images; the scan is limited to stored bounds that every operation must keep right", "anchors": ["src/cellimage/foureightsegmentation.hxx: LabelScanIterator, nodeScanIterator, edgeScanIterator, faceScanIterator, cellScanIterator"]}
{"id": "C63", "title": "Euler operations of the pixel based map change only what they should", "statement": "removeIsolatedNode, mergeFaces, removeBridge and mergeEdges remove exactly the documented cells, give their pixels to the cell they return, and leave every other pixel and every other cell as it was; the infinite face is never merged away.", "quantifier": "every cell image, every history, every dart for which the call returns", "why_tests_cant": "frame condition over all pixels and cells", "anchors": ["src/cellimage/foureightsegmentation.cxx: removeIsolatedNode, mergeFaces, removeBridge, mergeEdges"]}
{"id": "C64", "title": "checkConsistency accepts the bounds of every reachable pixel based map", "statement": "After construction and any Euler operations the bounds test of checkConsistency finds no difference between stored and actual bounds.", "quantifier": "every cell image and every history of Euler operations", "why_tests_cant": "unbounded histories and images", "anchors": ["src/cellimage/foureightsegmentation.cxx: GeoMap::checkConsistency"]}
{"id": "C65", "title": "nextSigma and prevSigma walk around the node", "statement": "In the pixel based map nextSigma() takes a dart to the next dart counter-clockwise around the pixels of its start node, prevSigma() to the next one clockwise; each undoes the other, and both stay at the node.", "quantifier": "every cell image and node shape, every history of Euler operations, every dart", "why_tests_cant": "nodes may be any 8-connected set of pixels; the loop that skips from pixel to pixel has cases no sample image covers", "anchors": ["src/cellimage/foureightsegmentation.hxx: DartTraverser::nextSigma, prevSigma, badDiagonalConfig, tryNextSigma, DartTraverser constructor"]}
{"id": "C66", "title": "nextAlpha is an involution and nextPhi a permutation of the darts", "statement": "After any Euler operations every edge of the pixel based map has exactly two darts, nextAlpha() leads from one to the other and back, and nextPhi() is defined for every dart, reaches every dart and is undone by nextSigma() followed by nextAlpha().", "quantifier": "every map whose darts are in order, every history of calls with darts", "why_tests_cant": "start and end of an edge are stored and must be kept by every merge over unbounded histories", "anchors": ["src/cellimage/foureightsegmentation.hxx: DartTraverser::nextAlpha, nextPhi", "src/cellimage/foureightsegmentation.cxx: mergeEdges, mergeFaces, removeBridge, removeIsolatedNode"]}
{"id": "C67", "title": "Degrees and anchors of nodes stay right", "statement": "After any Euler operations the degree stored with a node of the pixel based map is the number of darts that start at it, and its anchor is one of them, or points to no edge if there is none.", "quantifier": "every map whose darts are in order, every history of calls with darts, every live node", "why_tests_cant": "the degree is decremented and the anchor moved incrementally, also for loops and for nodes of several pixels", "anchors": ["src/cellimage/foureightsegmentation.cxx: mergeFaces, removeBridge, checkConsistency", "src/cellimage/foureightsegmentation.hxx: NodeInfo, carefulNextSigma"]}
{"id": "C68", "title": "The faces beside the darts of the pixel based map fit together", "statement": "After any Euler operations called with darts, leftFaceLabel() and rightFaceLabel() of every dart of the pixel based map are labels of live faces; what is left of a dart is right of nextSigma() of it and right of its opposite; following nextPhi() any number of times the face on the left stays the same.", "quantifier": "every map whose darts and faces are in order, every history of calls with darts, every dart, every number of steps", "why_tests_cant": "the label is read off one or two pixels beside the first pixel of the dart; that it agrees along a contour of any length after any merges is a property of all images", "anchors": ["src/cellimage/foureightsegmentation.hxx: DartTraverser::leftFaceLabel, rightFaceLabel, nextSigma, nextAlpha, nextPhi", "src/cellimage/foureightsegmentation.cxx: mergeFaces, removeBridge, mergeEdges, removeIsolatedNode"]}
{"id": "C69", "title": "Euler operations of the pixel based map need only be given darts", "statement": "If the darts and faces of a pixel based map are in order, the four Euler operations called with any dart of the map (removeIsolatedNode: with a dart of a node without edges that has a region pixel among the two neighbours on its left) paint exactly the cells named by the dart, keep all book-keeping equal to a recount, keep region pixels with a common side in one face, and keep the region pixels along an edge in the two faces beside its darts.", "quantifier": "every map whose darts and faces are in order, every history of calls with darts", "why_tests_cant": "no condition on the call beyond being given a dart must suffice, for all images and unbounded histories", "anchors": ["src/cellimage/foureightsegmentation.cxx: mergeFaces, removeBridge, mergeEdges, removeIsolatedNode", "src/cellimage/cellpyramid.hxx: performOperation"]}
{"id": "C70", "title": "The constructor of the pixel based map puts darts and faces in order", "statement": "If the constructor of the pixel based map returns and found no holes in nodes to fill, every line pixel of the image belongs to a live edge whose start and end are its two darts, every node pixel to a live node whose degree and anchor are right, and every dart has live faces beside it; then, and after any Euler operations called with darts, nextAlpha() is an involution that exchanges left and right, contours have one face on their left, checkConsistency's tests of nodes and edges pass, and the operations do what they should.", "quantifier": "every cell image in which nodes are connected and without holes, edges are thin lines between nodes and regions are connected by sides within a face; every history of calls with darts", "why_tests_cant": "the constructor walks around every node and along every line of an image of any size; each shape of node and line takes another path through the loops", "anchors": ["src/cellimage/foureightsegmentation.cxx: GeoMap(const CellImage &), initNodeList, initEdgeList, initFaceList", "src/cellimage/foureightsegmentation.hxx: EdgelIterator, DartTraverser constructor, jumpToOpposite"]}
{"id": "C71", "title": "The contours of the faces of the pixel based map stay complete and without repetition", "statement": "If the contour lists of the faces are in order, they stay so under any Euler operations called with darts (removeBridge: with a dart whose opposite lies on the same contour): the anchor of each contour has the face on its left, and is either a dart that nextPhi() comes back to with the face always on its left or belongs to a node of degree 0; every dart is reached by nextPhi() from exactly one anchor of the face on its left, and every node without edges has exactly one anchor in the face around it.", "quantifier": "every map whose darts, faces and contours are in order, every history of calls, every dart, node, face and anchor", "why_tests_cant": "the operations only replace single entries of the lists; that an entry stands for its whole contour is a property of orbits of any length after any history", "anchors": ["src/cellimage/foureightsegmentation.cxx: mergeFaces, removeBridge, mergeEdges, removeIsolatedNode, removeNodeFromContours, findComponentAnchor, checkConsistency", "src/cellimage/foureightsegmentation.hxx: FaceInfo::contours, nextPhi"]}
{"id": "C72", "title": "The Euler operations of the pixel based map return, or refuse exactly when their precondition fails", "statement": "In a map whose darts, faces and contours are in order, mergeFaces called with a dart merges exactly when the faces on both sides are different, removeBridge removes exactly when they are the same, mergeEdges merges exactly when two darts of different edges meet at the node, removeIsolatedNode removes every node without edges; otherwise a precondition throws. No call reads outside the image or the arrays, none of the loops (around nodes, along contours, over the pixels of a cell) runs for ever, and the checks 'dart not found in any contour' and 'did not find an anchor for merged contour' never fail. The same holds for calls made one after the other.", "quantifier": "every map whose darts, faces and contours are in order, every history of calls, every dart", "why_tests_cant": "termination and absence of out-of-range accesses for all maps and histories; the loops depend on the whole image", "anchors": ["src/cellimage/foureightsegmentation.cxx: removeIsolatedNode, mergeFaces, removeBridge, mergeEdges, findComponentAnchor, removeNodeFromContours", "src/cellimage/foureightsegmentation.hxx: carefulNextSigma, nextSigma, prevSigma, nextAlpha, LabelScanIterator"]}
{"id": "C73", "title": "Which pixels of a thresholded image become nodes, lines and regions", "statement": "GeoMap(image, boundaryValue, cornerType) adds a frame and a border to the image; a pixel is a region pixel exactly if it has not the boundary value and is not on the frame; a contour pixel is a line pixel exactly if the contour goes on from it in two ways (and, with cornerType = Vertex, does not turn by a right angle), else a node pixel; ends of lines, single pixels and forks are nodes; the image is only refused because of a pixel with four or more neighbours in one or two groups, and always when a contour is too thick, or, with cornerType = Vertex, at a right angle with four neighbours; the result does not depend on how the image is turned or mirrored (except for the upper corners of the frame).", "quantifier": "every image of every size, both corner types, every pixel", "why_tests_cant": "256 configurations of neighbours written by hand, each in any place of an image of any size; only a statement about all of them separates a wrong entry from a right one", "anchors": ["src/cellimage/cellconfigurations.hxx", "src/cellimage/foureightsegmentation.cxx: ChooseCellConfiguration, initCellImage", "src/cellimage/foureightsegmentation.hxx: initGeoMapContourImage"]}
{"id": "C74", "title": "The map made from an image is one the constructor can work with", "statement": "If the image is not refused, the nodes have no holes, no line pixel lies in the corner between two pixels of a node (always so with cornerType = Vertex) and no node has 2^16 darts, then labelling nodes, edges, faces and closed lines comes to an end without reading or writing outside the image, the counters are the greatest labels, and the cell image has all the properties that C70 needs, so the constructor does the same as the one that imports this cell image.", "quantifier": "every image with less than 2^30 pixels, both corner types", "why_tests_cant": "the loops walk around every node and along every line; that they end and reach every dart depends on the shape of the whole image", "anchors": ["src/cellimage/foureightsegmentation.cxx: labelNodes, labelEdges, labelFaces, labelSelfLoops, labelEdge", "src/cellimage/foureightsegmentation.hxx: GeoMap::init, GeoMap(SrcIterator, ...)"]}
{"id": "C75", "title": "The cells of the map made from an image are the connected components", "statement": "Two node pixels have the same label exactly if they are connected by node pixels in eight directions, two line pixels exactly if the line leads from one to the other, two region pixels inside the border exactly if they are connected by region pixels in four directions; each closed line without a node gets one new node at its first pixel and otherwise no type changes; the labels of nodes, edges and faces count from 1 without a gap.", "quantifier": "every image as in C74, every pair of pixels", "why_tests_cant": "connectedness is a property of paths of any length; labels are given in three passes that each rely on the one before", "anchors": ["src/cellimage/foureightsegmentation.cxx: labelNodes, labelEdges, labelFaces, labelSelfLoops"]}
{"id": "C76", "title": "The constructors of the pixel based map return", "statement": "From a cell image whose cells are in order and that has a node in the corner (1, 1) and contour pixels along its upper side, the import constructor returns a map of this image: no exception, no access outside an array or the image, no endless loop. The constructors from an image return a map of its cell image, or throw because a pixel has no cell type. The maps have the right sizes, bounds, counts, anchors and degrees and pass their own checks, and so they do after any Euler operations.", "quantifier": "every cell image with these properties, every drawing whose nodes have no holes, all helpers that count the pixels of a node and number the connected parts of the contour as they should", "why_tests_cant": "three passes over the image each rely on what the passes before did at earlier pixels; whether a pass can run into an uninitialized cell or a contour that was never met depends on all pixels before", "anchors": ["src/cellimage/foureightsegmentation.cxx: initNodeList, initEdgeList, initFaceList", "src/cellimage/foureightsegmentation.hxx: GeoMap constructors"]}
{"id": "C77", "title": "The constructors of the pixel based map put the contours in order", "statement": "In a map made from a cell image whose cells are in order and whose faces each hang together, every dart lies on exactly one contour of the face on its left and every node without edges is a contour of the face around it; two parts of the border of a face belong to the same contour if and only if their pixels are connected by contour pixels. An edge with the same face on both sides has both darts on one contour, so removeBridge may be called with it. The cell images made from an image have faces that hang together, so all this holds for the constructors from an image and checkConsistency() finds nothing. If two separate regions carry one label, the constructor loses the border of one of them.", "quantifier": "every clean cell image whose faces hang together, every drawing whose nodes have no holes, all helpers that number exactly the connected parts of the contour", "why_tests_cant": "that one anchor per connected part of the contour and face is enough is the Jordan curve theorem for the pixel grid: a connected part of the contour has only one line of darts along each region; it depends on the shape of the whole image", "anchors": ["src/cellimage/foureightsegmentation.cxx: initFaceList, checkConsistency", "src/cellimage/foureightsegmentation.hxx: FaceInfo::contours, GeoMap constructors"]}
{"id": "C78", "title": "The pixel based map stays a map of the plane", "statement": "Start from a map that a constructor made of an image whose faces hang together and apply removeIsolatedNode, mergeFaces, removeBridge and mergeEdges in any order with darts of the map. Every call returns or is refused with an exception that leaves the map. At any time an edge with the same face on both sides has both darts on one contour, so removeBridge() may be called with any such edge; the contour lists stay in order and checkConsistency() finds nothing. The pixels of each face and of each edge hang together, and two parts of the border of a face belong to one contour if and only if their pixels are connected by contour pixels. If a face consists of two parts, removeBridge() accepts the edge between them although its darts lie on two contours.", "quantifier": "every clean cell image whose faces hang together, every drawing whose nodes have no holes, every sequence of calls with darts of the map", "why_tests_cant": "merged edges become lines of any thickness that branch, so the picture is no drawing of thin lines any more; that the two sides of such a line still belong to the two darts of the edge is a fact about all shapes", "anchors": ["src/cellimage/foureightsegmentation.cxx: removeIsolatedNode, mergeFaces, removeBridge, mergeEdges, checkConsistency", "src/cellimage/foureightsegmentation.hxx: DartTraverser::nextPhi, nextAlpha"]}
{"id": "C79", "title": "Euler's formula for the pixel based map", "statement": "In a map that a constructor made of an image whose faces hang together, after removeIsolatedNode, mergeFaces, removeBridge and mergeEdges in any order with darts of the map, nodeCount - edgeCount + faceCount is one more than the number of connected parts of the contour (the node and edge pixels, eight neighbours), and the faces have together as many contours as there are parts and finite faces. So a call that returns changes the number of parts and of contours exactly as its kind says: removeIsolatedNode takes a part away, removeBridge adds one, mergeFaces and mergeEdges leave the parts as they are. From any such map calls lead to the map with the infinite face alone, no edges, no nodes and no contours. If two separate regions carry one label, the formula fails.", "quantifier": "every clean cell image whose faces hang together, every drawing whose nodes have no holes, every sequence of calls with darts of the map", "why_tests_cant": "the counters are kept by adding and subtracting one in each call while the number of parts is a global fact about the whole image; that they always agree is Euler's theorem for all planar drawings and all histories", "anchors": ["src/cellimage/foureightsegmentation.cxx: removeIsolatedNode, mergeFaces, removeBridge, mergeEdges, initFaceList", "src/cellimage/foureightsegmentation.hxx: nodeCount, edgeCount, faceCount, FaceInfo::contours"]}
{"id": "C80", "title": "The face statistics of the pixel based map are those of the pixels", "statement": "CellStatistics made for a map, then updated by the hooks of removeIsolatedNode, mergeFaces, removeBridge and mergeEdges in any order with darts of the map: the count, the sum and the sum of squares stored for a face are those of the pixels of the original image that belong to the face now, except for the pixels of nodes that were removed as isolated. If there were none in the face, they are exactly what a new count gives. The pixels of isolated nodes are lost.", "quantifier": "every map whose image, darts and faces are in order, every original image of sufficient size, every sequence of calls, every live face (the infinite face if it lies outside of the original image at first)", "why_tests_cant": "the statistics are never counted again but added up from those of the merged cells; an error in any call would go on through all later ones, whatever shape the cells have", "anchors": ["src/cellimage/cellstatistics.hxx: preRemoveEdge, postRemoveEdge, preMergeFaces, preRemoveIsolatedNode", "src/cellimage/cellstatistics.cxx: CellStatistics::CellStatistics", "src/cellimage/statisticfunctor.hxx"]}
{"id": "C81", "title": "The edge statistics of the pixel based map are those of the pixels", "statement": "After any such calls the count and sum stored for an edge are those of the pixels of the gradient image that belong to the edge now, the pixels of the nodes in it included, or the edge lies along the infinite face and they are a single largest value. The constructor gives this value and the flag for border edges to exactly the edges along the infinite face and leaves all other flags. An edge that comes to lie along the infinite face later gets neither.", "quantifier": "every map whose image, darts and faces are in order, every gradient image of sufficient size, every sequence of calls, every live edge", "why_tests_cant": "as for C80; besides, which edges are border edges is decided by one dart and must hold for the whole edge", "anchors": ["src/cellimage/cellstatistics.hxx: preMergeEdges, postMergeEdges", "src/cellimage/cellstatistics.cxx: CellStatistics::CellStatistics"]}
{"id": "C82", "title": "Protection of merged edges covers exactly the edges they consist of", "statement": "protectEdge() with a flag of one bit sets or clears this bit at exactly those edges of the first map that have become part of the edge, and tells whether one of them was changed; edgeProtected() tells whether one of them has a flag. Every edge of the first map is part of one edge at most. After a call an edge is protected if and only if one of the edges it was made of was protected before. The chains of merged edges never run in a circle. Clearing a flag of two bits when one of them is set sets the other.", "quantifier": "every map whose image, darts and faces are in order, every sequence of calls and of protectEdge(), every live edge, every bit", "why_tests_cant": "the constituents are kept in linked chains through one array that mergeEdges splices; that the chains stay disjoint and end is an invariant of all histories", "anchors": ["src/cellimage/cellstatistics.hxx: EdgeProtection, CellStatistics::protectEdge, edgeProtected, postMergeEdges"]}
{"id": "C83", "title": "lastChanges covers all changes, and the hooks of the statistics are safe", "statement": "lastChanges() covers every pixel of the cell image that was changed since clearLastChanges(); if it was cleared just before a call it is the smallest rectangle around the cell that the call returns. With the hooks of the statistics a call returns the same map, or throws, as it does without them; no vector or image is read or written outside, and every loop ends.", "quantifier": "every map whose image, darts and faces are in order (for the last part: that a constructor made of an image whose faces hang together), every sequence of calls", "why_tests_cant": "a pixel outside of the rectangle would be a change in any of all earlier calls; the hooks index vectors with labels read from the image at darts that depend on all calls before", "anchors": ["src/cellimage/cellstatistics.hxx: lastChanges_, clearLastChanges, the pre and post hooks", "src/cellimage/cellpyramid.hxx: CellPyramid::removeIsolatedNodeInternal, mergeFacesInternal, removeBridgeInternal, mergeEdgesInternal"]}
{"id": "C84", "title": "The pyramid removes edges of the pixel based map with exactly their useless ends", "statement": "removeEdge() of the pyramid, with a dart of the top level, always succeeds: the pixels of the edge and of the faces on both sides of it become one face, with the label of one of these faces, and no other pixel changes. removeEdgeWithEnds() does the same and besides gives that face the pixels of exactly those nodes whose only edge was the removed one, be it one node or two, a loop or a bridge. The result is a map of the plane again, with the statistics that the single calls leave. The pixels of the ends are missing from the statistics of the face.", "quantifier": "every map that results from a constructor and calls, with statistics after any calls, every dart", "why_tests_cant": "which face survives, whether the ends become isolated and which anchor they have then depends on all earlier calls; that the anchor of an end is one that removeIsolatedNode accepts, and that its face is the merged one, is an invariant", "anchors": ["src/cellimage/cellpyramid.hxx: CellPyramid::Level::performOperation", "src/cellimage/foureightsegmentation.cxx: removeIsolatedNode, mergeFaces, removeBridge"]}
{"id": "C85", "title": "All levels of a pyramid over the pixel based map are maps of the plane with right statistics", "statement": "In a pyramid over the pixel based map with statistics, built by operations with darts of the top level, composites, cuts, stored checkpoints and walks, getLevel(k) gives the level that was the top level then, and this is a map of the plane with the statistics of a sequence of single calls. An operation with a dart of the top level never reads or writes outside and never hangs: the top level is then exactly what the operation makes of it, or the operation is refused and the top level is as before; removeEdge() and removeEdgeWithEnds() are never refused. The darts recorded in the history are the darts given, in images of at most 16384 columns and rows.", "quantifier": "every map that results from a constructor and calls, of at most 2^14 columns and rows, every sequence of calls of the pyramid as described", "why_tests_cant": "levels are rebuilt by replaying recorded operations, with darts packed into integers, from checkpoints that depend on the history", "anchors": ["src/cellimage/cellpyramid.hxx: CellPyramid", "src/cellimage/foureightsegmentation.hxx: DartTraverser::Serialized"]}
{"id": "C86", "title": "Relabelling one pixel keeps the bounding rectangles of all cells exact", "statement": "reassociate() gives one pixel of the pixel based map to another cell: exactly that pixel changes, the bounds of the cell that loses it shrink and those of the cell that gets it grow so that the bounds of every cell are again the bounding rectangle of its pixels, and labels, sizes, anchors, contours and counters stay. The pixel must have one of its own cell among its eight neighbours: if it is the only one of its cell, the behaviour is undefined. The sizes of the cells are not adapted.", "quantifier": "every map with exact bounds whose pixels all belong to cells of the map, every pixel, every cell of the map as new owner", "why_tests_cant": "whether a side of the rectangle has to shrink depends on where the other pixels of the cell lie; all four sides can be concerned, one after the other", "anchors": ["src/cellimage/cellstatistics.hxx: reassociate"]}
{"id": "C87", "title": "Thinning an edge only gives its pixels to the faces beside it and keeps the book-keeping", "statement": "edgeRethinning() gives a pixel of the edge to the face whose label the region growing has put there, leaves it to the edge where there is none (label 0, so the infinite face never gets a pixel), and changes no other pixel. Darts, contours, nodes and all other cells stay, and bounds, sizes and counters are those of a recount. This holds if the region growing gives only the labels of the two faces and leaves at least one pixel to the edge. Otherwise it is false: an edge that loses all pixels stays in the map, and a pixel with the label of a third face stays a pixel of the edge but is no longer counted.", "quantifier": "every map whose book-keeping is that of a recount, every edge between two faces, every result of the region growing, every range that contains the edge", "why_tests_cant": "what the region growing returns depends on real images; the bounds of the edge are collected anew and those of the faces extended pixel by pixel", "anchors": ["src/cellimage/cellstatistics.cxx: edgeRethinning"]}
{"id": "C88", "title": "Moving single pixels of merged edges keeps the bounding rectangles exact", "statement": "After edges are merged, postMergeEdges() goes through the pixels of the former node and moves pixels of edges to a pixel next to them. At a point two pixels away from the border nothing outside of the image is read or written; either nothing changes, because the point is no pixel of an edge or cannot be moved in any diagonal direction, or it was a pixel of an edge in one of the configurations described there, the pixel moved to is one whose three neighbours beyond belong to the same cell, and the place is filled with the pixel opposite; the two pixels on which the edge goes on are put at the end of the list of points. The bounds of all cells stay exact however long the list of points becomes. A move takes a pixel from one face and gives one to the other, and the edge keeps its number of pixels; the sizes of the faces are not adapted and become wrong. In the reflected configuration the pixel may be moved to a lower gradient.", "quantifier": "every map with exact bounds whose pixels all belong to cells of the map, every gradient image, every list of points", "why_tests_cant": "the list of points grows while it is gone through, and each move changes the pixels the next ones look at", "anchors": ["src/cellimage/cellstatistics.hxx: CellStatistics::postMergeEdges, reassociate"]}
{"id": "C89", "title": "A copy of the pixel based map is equal to the original and independent of it", "statement": "Copying or assigning a cellimage::GeoMap succeeds and gives a map with the same cell image, cells, darts and counters; all darts of its cells point into its own image and name it as their map, also when a map is assigned to itself. No other map changes. Writing pixels through darts of one of them leaves the other alone, and the copy stays usable when the original is destroyed. Pointers into the target got before an assignment stay usable exactly if the images have the same size. Entries of removed cells keep darts of the original.", "quantifier": "all maps whose cells' darts are their own, any number of other maps in memory, any sizes", "why_tests_cant": "a dart left pointing into the original reads the right pixels until one of the maps is changed or destroyed", "anchors": ["src/cellimage/foureightsegmentation.cxx: GeoMap::deepCopy", "src/cellimage/foureightsegmentation.hxx: DartTraverser::reparent, GeoMap::GeoMap, GeoMap::operator="]}
{"id": "C90", "title": "Cutting a polygon with a line", "statement": "intersectLine(polygon, start, end) returns the longest stretches of the polygon on the side the normal (dy, -dx) of the line points to, in order and with all their points; each stretch that does not begin with the polygon begins with the point where the polygon meets the line. All points are finite if the points on the other side have different distances from the line; a line of length zero cuts nothing. The point added where a stretch leaves the side is wrong: the first stretch just repeats its last point, later ones never end on the line, and it may not be finite.", "quantifier": "all polygons and lines with rational coordinates", "why_tests_cant": "the result depends on a distance kept from an earlier point; a polygon that enters only once, or never leaves, is cut correctly", "anchors": ["src/python_bindings/polygon.cxx: intersectLine"]}
{"id": "C91", "title": "Saddles of an image", "statement": "findSaddles(src, dest, marker) writes the marker at exactly those inner pixels of src around which the eight neighbours are higher than the pixel, not higher, higher and not higher again; all other pixels of dest, and all on the border, keep their value, and no pixel outside is read or written, whatever the size of the image. A strictly increasing change of the grey values does not change the saddles. Neither does negating the image where no neighbour has the value of the pixel; with equal values it may.", "quantifier": "all images with integer values and destinations at least as large", "why_tests_cant": "the rises round a pixel are counted from products of neighbouring differences, cyclically and with equal values; 256 patterns of higher neighbours at every pixel of images of every size", "anchors": ["src/cellimage/findsaddles.hxx: findSaddles"]}
{"id": "C92", "title": "Automatic protection of edges", "statement": "CellStatistics::initAutoProtection(seg) returns and sets, for every edge of the map, the Canny flag of all the edges it was merged from if more than the threshold's part of its pixels are edgels, and clears it otherwise. Other flags, the flags of edges that are gone and the statistics stay. It returns the smallest rectangle with all pixels of the edges whose flags changed, the empty one if none did; a second call changes nothing and returns the empty rectangle. The same happens to one edge after merging edges with doAutoProtection.", "quantifier": "all histories of statistics (C80 to C83), images of edgels large enough and rational thresholds", "why_tests_cant": "the flags are set along chains of merged edges of any length, in the order of the edges; an edge of another chain changed on the way shows only for particular sequences of merges", "anchors": ["src/cellimage/cellstatistics.hxx: CellStatistics::initAutoProtection, CellStatistics::postMergeEdges, CellStatistics::protectEdge, CountEdgels"]}
{"id": "C93", "title": "Indices of the Python module", "statement": "For arrays of up to 2^31 elements, a[i], a[i] = v, polygon[i] = p, dart[i] and polygon.split(i) of the Python module mean the element a Python list would take, negative indices counting from the end, and raise IndexError where a list does; no other element changes. dart[i] counts along the dart in both directions. polygon.insert(i, p) agrees with a list for i from 0 to the length; insert(-1, p) appends. del polygon[i] removes the point for 0 <= i < len(polygon), but del polygon[-1] and del polygon[len(polygon)] are undefined behaviour for every polygon, and with other negative indices the point after the one meant is removed. With more than 2^31 elements a[-1] is undefined behaviour.", "quantifier": "all arrays, polygons and darts, all indices that are ints", "why_tests_cant": "erasing end() of a vector mostly shows no error at once; int and unsigned int are mixed in the check, so only all pairs of index and size settle it", "anchors": ["src/python_bindings/exporthelpers.hxx: checkPythonIndex, Array__getitem__, Array__getitem__byref, Array__setitem__", "src/python_bindings/polygon.cxx: Polygon__setitem__, insert, erase, split", "src/geomap/cppmap.hxx: GeoMap::Dart::operator[]"]}
{"id": "C94", "title": "Edges drawn into a label image can be taken out again in any order", "statement": "markEdgeInLabelImage(scanlines, labels) and removeEdgeFromLabelImage(scanlines, labels, substitute) never access pixels outside the image, however far the scanlines reach. After any sequence of marks, and removals of edges that are marked, a pixel is negative exactly if an edge that is left covers it, and then minus the number of segments that do. A removal returns exactly the pixels that no other edge covers, each once, and gives them the substitute label; pixels without an edge keep their labels. scanlines[i] is row i between startIndex() and endIndex(), else IndexError. False: removal of an edge that is not marked leaves the labels alone; 'for row in scanlines' visits all rows.", "quantifier": "all label images without negative labels, all scanlines, all sequences of marks and removals", "why_tests_cant": "the count at a pixel depends on all edges drawn so far, in any order, with overlapping and clipped segments", "anchors": ["src/python_bindings/polygon.cxx: markEdgeInLabelImage, removeEdgeFromLabelImage, Scanlines__getitem__"]}
