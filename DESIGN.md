# Formal model of geomap

Subject: hmeine/geomap (C++), sources under `/repo/src`.  Model and proofs: Rocq (Coq 8.16.1), `/verif/rocq/theories`.
Properties: `properties.jsonl` (C01 ...), status per property: `MANIFEST.json`, mutation log: `seeded/LOG.jsonl`.

## 1. Approach

The C++ is read as text; nothing is compiled or run.  Every C++ function that is modelled becomes a small total
Gallina function whose comment cites the file and line range.  Pointer mutation becomes a function returning the new
value.  A violated `vigra_precondition` and undefined behaviour (index out of range, null dereference, erase(end),
iterator past the end) are *distinct outcomes* of the model, not silently totalised.  Loops that walk an orbit are
fuelled functions with an explicit out-of-fuel result; theorems exclude that result.  Hooks (boost signals) are
arbitrary oracles.  Coordinates are exact integers or rationals where the property is about order or identity (every finite set of
doubles is a set of dyadic rationals, hence integers after scaling); rounding of floating point arithmetic is not modelled and this is stated per module.

Layout per topic `X`: `X_Model.v` (definitions only), `X_Proofs.v` (lemmas), `X_Properties.v` (only
`Theorem ... exact lemma.` with `Print Assumptions`, plus non-vacuity Examples).  Small topics may join model and spec.

## 2. Plan per property

| id | what is modelled | how proved |
|----|------------------|-----------|
| C01 | sigma/sigma^-1 tables, node anchors, edge end nodes; all construction and Euler operations with hook oracles as a step function | invariant by induction over histories |
| C02 | same state plus face labels per dart and anchor lists per face | invariant; contour = phi orbit; orbit surgery lemmas |
| C03 | counters derived from the same state | per-operation arithmetic from C01/C02 case analysis |
| C04 | cell tables as partial maps plus counters | invariant over histories |
| C05 | hook oracles answering false | per operation equality of observable state |
| C06 | mergeFaces | functional specification of the dart labelling |
| C07 | mergeFaces anchors list with an outer/hole tag | refuted by a witness; proved for the configurations that are right |
| C08, C09 | edges as point lists in the map state; concatenate and split | round trip equation, invariant |
| C10 | area cache as exact sums over contours | invariant; collinearity hypothesis for splitEdge |
| C11 | the three loops over a sigma orbit with fuel | equivalence with the orbit length |
| C12, C13 | two arrays of LabelLUT, iterator | refinement to a partition given by the merge history |
| C14 | multimap search over a sorted list, both directions with early stop | specification of a minimum |
| C15 | node index keyed by position | refuted by witness, proved for distinct positions |
| C16, C17 | iterators as cursor machines | equality with `filter` on the remaining table; removal schedules as oracle |
| C18 | joinSuccessor/normalize on segment lists | coverage as set of integers, permutation reasoning |
| C19 | image as function, mark/remove operations | count invariant |
| C20, C21 | changeFaceLabels over tables | functional spec; refutation for exception safety |
| C22, C23 | crackConnectionImage, makeCCSymmetric, markNodes | pointwise specification for every size |
| C24, C25, C26, C27 | caches as option values; moves as a state machine | refuted by witnesses where the code is wrong, invariants for the correct operations |
| C28, C29 | angleTheta over Q, sort of the orbit | order isomorphism, insertion into a permutation |
| C30 | Douglas-Peucker recursion | strong induction |
| C31, C32, C33 | CellPyramid generic in the segmentation | refinement to a list of states; refutations |
| C34, C35 | bit packing on N with explicit wrap | bit lemmas |
| C36 | DigitalStraightLine over Z | algebra |
| C37, C38 | statistics as multisets of samples | invariant; refutation |
| C39 | flags and hooks over the GeoMap step function | invariant |
| C40, C49 | bulk operations over the GeoMap step function | termination measure, functional spec |
| C41 | sigma tables as arrays with explicit bounds | invariant, refinement of the C01 tables |
| C42 | setHasLabelImage accounting | refuted by witness |
| C43 | accumulator over lists of lazily evaluated answers | induction |
| C44 | phi walk, contour point iterator | orbit lemmas |
| C45, C47, C50 | polygon algorithms | algebra, induction |
| C46 | cell image as function with sizes and bounds | invariant over histories |
| C48 | copying as identity on the value model; shared pointers in statistics as explicit heap | equality; refutation for the shallow copy |

| C51-C61 | see `properties.jsonl`; bulk operations, scanlines, label image, bounding boxes, face statistics | invariants over histories of calls |
| C62, C63, C64 | cell image operations, scan iterators, bounds check | same invariant as C46 |
| C65 | nextSigma, prevSigma of the cell image | the places around a node's pixels form a ring; simulation of the loop by steps along the ring |
| C66, C67, C64 | nextAlpha, nextPhi, degrees and anchors in the cell image | invariant over histories of calls with darts: two darts per edge, as many darts per node as its degree |
| C68, C69 | leftFaceLabel, rightFaceLabel, Euler operations with darts | walk around a node from dart to dart; invariant: the faces beside the ends of an edge face each other and own the region pixels along it |
| C71, C64 | contour lists of the faces; all of checkConsistency | orbits of the permutation nextPhi under removal of an edge (cut, merge, split of orbits); covers invariant: the border of a face is partitioned by its anchors |
| C72 | outcome of every call (Ok, exception, undefined, no end) | totality of each step on the intermediate maps; carefulNextSigma() comes back to its start because places around a node form a cycle |
| C70, C65 | import constructor, DartTraverser constructor | a line is a chain of pixels with two ends (the eight neighbours of a pixel by computation over all rings), so the edge iterator reaches the other dart; invariants of the loops over pixels and nodes |
| C73 | the table of neighbour configurations; the contour image with its frame | all 256 rings by computation against counts of groups and ways to go on; invariant of the loop over the pixels |
| C74, C75 | labelNodes, labelEdges, labelFaces, labelSelfLoops | reachability as an inductive relation; components of the labelling by induction over the merged pairs; invariants: every dart passed is on a labelled line, lines are labelled as a whole; a closed line is a cycle, so the walk from its first pixel comes back |
| C76 | outcome of the constructors | each loop over the pixels is total by an invariant: cells of all pixels passed are initialized, and the part of the contour below each pixel passed has been met; where a new face begins the pixel to the left is a node or line that leads to an anchor |
| C77 | contour lists after construction | a discrete Jordan theorem: walking along the border of a connected set of contour pixels, a parity of crossings of a ray (`CellJordan_Parity`) tells the two sides of each closed walk of darts apart; a face that hangs together stays on one side, so a connected part of the contour has one closed walk per face (`CellJordan_Class`) |
| C78 | any calls after construction | invariant `planar` in `CellPlane_Spec`: every side of a line pixel towards a face belongs to one dart of its edge, and the next side around the contour to the same dart until its node is met (`tracked`); kept by cutting an edge out, taking a node away and joining two edges (`CellPlane_Cut`, `_Leave`, `_Join`); with it the parity argument of C77 needs no thin lines |
| C79 | any calls after construction | `CellEuler_Step`: each call changes the numbers of cells and contours by fixed amounts; `CellEuler_Clear`: while edges are left mergeFaces or removeBridge returns, then removeIsolatedNode, so every map can be cleared, and facts that hold of the cleared map and are carried back over these three calls hold of all maps (`clear_ind`); `CellEuler_Linked`: nodes are connected by edges iff their pixels are connected by contour pixels; `CellEuler_Parts`: the number of parts under the three calls (the way around a removed edge is the rest of its contour; the ends of a removed bridge lie on two contours, hence by C78 in two parts) |
| C80, C81, C82, C83 | statistics of the pixel based map | invariant `kept` in `CellStats_Inv`: the stored numbers are sums over duplicate-free lists of the pixels owned; each call takes pixels over, so sums over disjoint lists add up; chains of merged edges are disjoint lists without repetition (`CellStats_Chain`) |
| C84, C85 | CellPyramid over the pixel based map and its statistics | C84: calls compose; after the edge is gone the anchor of an end is a place beside the merged face (`CellPyr_Ends`), the labels of the two entries differ, so the second end is looked at exactly if it is another node.  C85: simulation of `pexec` by the generic `performAtom`, then induction over the histories of a pyramid, on top of C31-C33 |
| C86, C87, C88 | rethinning of edges in CellStatistics (pixels move between cells) | C86: each of the four shrinking steps makes its side exact and keeps the others (`CellThin_Pixel`).  C87: invariant of the pixel loop, with the set of pixels done (`CellThin_Edge`); the region growing is an arbitrary function.  C88: the two calls of reassociate meet the conditions of C86, because the new neighbours agree and because the pixel moved to is then a neighbour of its own cell (`CellThin_Move`); induction over the fuel of the list |
| C89 | copies of the pixel based map: deepCopy, copy constructor, assignment | darts are pointers into the buffer of an image and name a map; the copy is compared with the original as a value of `CellMap_Model` (`view`); each reparent keeps the position and changes the owner (`CellCopy_Proofs`) |
| C90 | intersectLine of the Python module | induction over the points with the state of the loop (outside last, or in a part); the result is related to the polygon by an inductive relation `cut` (`Intersect_Spec`) |
| C91 | findSaddles | one pixel reduces to eight booleans (higher or not), all 256 patterns by computation; the image by the invariant of the pixel loops (`forRows_pointwise`) |
| C92 | initAutoProtection | one edge by C82's theorem on protectEdge and the scan of C80; the loop by induction over the edges still to come, as the parts of different edges are different |
| C93 | indexing in the Python module | arithmetic modulo 2^32 of checkPythonIndex, then the polygon operations of `Polygon_Model`, compared with the positions Python's lists use (`PyIndex_Spec`) |
| C94 | edges drawn into label images by the Python module | the three loops are a fold over a list of pixels; how often a pixel occurs in the list is the number of segments that cover it; invariant over sequences of marks and removals |

## 3. Trusted base

* Coq 8.16.1 kernel.
* For each property theorem the output of `Print Assumptions` (section 5).
* The reading of the C++: the model cites lines, but no tool ties it to the code.
* The parts of vigra, boost and the standard library the code calls are modelled from their documentation.

## 4. What is modelled and what is not

Every definition of the model cites the lines it stands for.  This is the list by topic.

| files (`rocq/theories`) | code | simplifications |
|---|---|---|
| `GeoMap_Model`, `GeoMap_IterModel`, `SigmaArray` (and `Image_Model`, the images shared by several models) | `geomap/cppmap.{hxx,cxx}` (paths are relative to `/repo/src`): tables, darts, construction, initializeMap, Euler operations, hooks, splits, iterators | coordinates are integers on a scaled exact grid; areas doubled; areas are functions of the points (their caches: `Polygon_Model`); sigma tables are functions with a size (`SigmaArray` relates them to the vectors); hooks are arbitrary functions of the map and the argument, they may veto but not change the map; the iterators assume that the map is not changed meanwhile; the parent search of embedFaces is an oracle; an exception in a bulk operation carries no state |
| `Map2D_Model`, `Move_*` | `geomap/vigra/map2d.hxx`, nearest node, Node::setPosition | coordinates are integers |
| `Polygon_Model`, `DartPosition_Model`, `Simplify_Model` | `geomap/polygon.hxx` Polygon, BBoxPolygon, simplifyPolygon; `cppmap.hxx` DartPointIter, DartPosition | real arithmetic instead of floating point; `p.extend(p)`, leaveCircle, intersectCircle not modelled |
| `Contains_Model`, `Hull_Model` | Polygon::contains, Face::contains, faceAt without label image, convexHull | rational or integer coordinates; std::sort is any function returning a sorted permutation |
| `Scanlines_Model`, `ScanPoly_Model` | `polygon.hxx` Scanlines, scanPoly, fillScannedPoly, drawScannedPoly | exact rationals, unbounded ints |
| `LabelImage_Model` | label image statements of `cppmap.cxx`, changeFaceLabels | coordinates multiples of 1/unit; images of non-negative size; the image statements run after the operation on the map; histories consist of calls that return |
| `LabelLUT_Model` | `geomap/labellut.hxx` | labels are natural numbers |
| `Copy_Model`, `FaceStatsCopy` | copy constructors | objects on a heap; vectors lie inside their object except the sigma arrays; bounding boxes left out; signals, splitInfo_, edgePreferences_ opaque |
| `Utils_Model` | `geomap/cppmap_utils.{hxx,cxx}` | shared cell pointers; face flags cannot be set in histories |
| `FaceStats_Model` | `geomap/facestatistics.hxx` | a functor is the list of its samples; supersamples are given; one object at a time; only Euler operations while attached |
| `Filter_Model` | `geomap/filteriterator.hxx`, cell iterators, ImageFilterIterator | iterators are indices |
| `Crack_Model`, `CrackFollow_Model` | `geomap/crackedgemap.{hxx,cxx}`, `vigra/crackconnections.hxx` | coordinates doubled |
| `Dsl_Model` | `geomap/vigra/dsl.hxx` | unbounded integers; slope() and axisIntercept() left out |
| `Pack_Model` | CellPixel, dart serialisation | 32 bit ints |
| `Pyramid_Model` | `cellimage/cellpyramid.hxx` | the segmentation is an abstract state; pyramids are not copied |
| `CellMap_Model`, `CellMap_Init`, `CellMap_Check` | `cellimage/foureightsegmentation.{hxx,cxx}`: darts, scan iterators, Euler operations, import constructor, initNodeList, initEdgeList, initFaceList, bounds part of checkConsistency; `CellLink_Check`: its tests of anchors, degrees, start and end; `CellContour_Results`: its test of contours and the whole | coordinates count from the corner of the cell image; release build; crack contours and connected components are parameters; C46 and C62 to C71 are about calls that return, C72 and C76 say when they do; C76 assumes of the two parameters that they count the pixels of a node and number the connected parts of the contour (`rightAreas`, `rightParts`; C77 also that they give different parts different numbers, `exactParts`) |
| `CellThresh_Model` | `cellimage/cellconfigurations.hxx`; `cellimage/foureightsegmentation.{hxx,cxx}`: initGeoMapContourImage, ChooseCellConfiguration, initCellImage, labelNodes, labelEdges, labelFaces, labelSelfLoops, labelEdge, the thresholding constructors | an image is its size and the answer to "has this pixel the boundary value?"; vigra's labelImageWithBackground is replaced by an algorithm of our own; that vigra gives the same labels (1, 2, ... in the order of the first pixels) is assumed |

| `CellStats_Model` | `cellimage/cellstatistics.{hxx,cxx}`: the constructor, operator=, the hooks, protectEdge, edgeProtected, clearLastChanges; `statisticfunctor.hxx` (count, sum and sum of squares); the Internal functions of `cellpyramid.hxx` 189-223 | pixel values are integers, sums are exact; doEdgeRethinning and doAutoProtection are off; there is an EdgeProtection; flags have any number of bits (in the code 16); nodeCenters, edgels, debug output left out; initAutoProtection and sameProtection not modelled |
| `CellPyr_Model` | `cellpyramid.hxx` 225-288 (performOperation) on the map and the statistics, and the parameters of `Pyramid_Model` for them; `foureightsegmentation.hxx` 612-629 (serialised darts) | copies of maps and statistics are equal to the original (for maps: C89); lastChanges is not part of a level; the edge protection that all levels share is not changed while the pyramid is built; undefined behaviour makes a state that no later operation leaves |
| `CellThin_Model` | `cellstatistics.hxx` 367-462 (reassociate), 510-617 (the loop over the former node in postMergeEdges); `cellstatistics.cxx` 354-443 (edgeRethinning) | seededRegionGrowing (VIGRA) is an arbitrary function from pixels to labels; gradients are integers, only compared; reads of the gradient image are not checked; the bounds are in coordinates of cellImage; the debug checks at the end of edgeRethinning are left out; that the loop over the points ends is not claimed (fuel).  nodeRethinning (`cellstatistics.cxx` 210-262) is called nowhere and not modelled |
| `CellCopy_Model` | `foureightsegmentation.cxx` 453-491 (deepCopy), `foureightsegmentation.hxx` 593-600 (reparent), 730-735, 787-790 | memory is a table of maps and a table of image buffers; addresses of buffers are never used twice; vectors lie inside their object; that the constructors and the Euler operations only store darts of the map itself (`parented`) is a hypothesis |
| `Intersect_Model` | `python_bindings/polygon.cxx` 1754-1814 (intersectLine) | rational coordinates, exact arithmetic; the normal is not normalised (only signs and ratios are used); a point that is not finite is UB |
| `Saddle_Model` | `cellimage/findsaddles.hxx` 36-79 (findSaddles) | integer values; differences and their products do not overflow or underflow |
| `CellAuto_Model` | `cellimage/cellstatistics.hxx` 131-138, 230-248, 619-629 (CountEdgels, initAutoProtection, the end of postMergeEdges with doAutoProtection) | rational threshold, exact product; edgels_ (never read) left out |
| `PyIndex_Model` | `python_bindings/exporthelpers.hxx` 46-64, 95-109, `python_bindings/polygon.cxx` 167-201 (set, insert, erase, split), `geomap/cppmap.hxx` 921-932 | 32 bit int, 64 bit size_t; the conversion from Python's integers is Boost's; slices are not modelled |
| `EdgeMark_Model` | `python_bindings/polygon.cxx` 105-117 (Scanlines.__getitem__), 1670-1740 (markEdgeInLabelImage, removeEdgeFromLabelImage) | pixels are integers instead of float, so counts above 2^24, NaN and fractions are left out; that Python iterates by __getitem__ where there is no __iter__ is taken from Python |

Not modelled: floating point rounding anywhere; `cellimage/watershed.cxx`, `gradient.hxx`, `hessematrix.hxx`,
`geomap/vigra/oversampling.hxx` and `subpixel_watershed.hxx`; the rest of `python_bindings`; ~GeoMap. C65 to C69 start from maps whose image, darts and faces are in order (`tidy`, `wired`, `faced`); C70 shows that the import constructor makes such maps from the images called `clean` in `CellStart_Spec` (wherever it returns and fills no hole), C74 that the thresholding constructors make such images, and C76 that all of them return. C71 starts from maps whose contour lists are in order (`contoured`); C77 shows that the constructors make such lists, from images whose faces hang together (`whole`). C71 and C72 assume that removeBridge is called with a dart that nextPhi() leads from to its opposite; C78 shows that this is so whenever the faces on both sides are the same, in the maps that the constructors make of images whose faces hang together and after any calls.

Partial properties: `MANIFEST.json` says for each what is missing.

## 5. Print Assumptions

Every property theorem is followed by `Print Assumptions` in its `*_Properties.v`.  All are "Closed under the global context" except the following, which use
Coq's real numbers and list exactly `ClassicalDedekindReals.sig_not_dec`, `ClassicalDedekindReals.sig_forall_dec` and
`FunctionalExtensionality.functional_extensionality_dep`:

C24_length, C24_area_refuted, C24_pushed_area, C24_area_partial, C24_points, C25_bbox_refuted, C25_bbox_partial, C25_write_refuted, C26_caches_partial,
C27_back_refuted, C27_forward_partial, C27_goto_partial, C27_next_partial, C28_angleTheta_range, C28_angleTheta_lt, C28_angleTheta_eq, C30_simplify,
C47_reverse, C47_split, C93_setPoint, C93_insert, C93_insert_at, C93_insert_refuted (through the length of a polygon).  C93_split lists `ClassicalDedekindReals.sig_forall_dec` only, and C93_delete_refuted also (the length 0).

## 6. Findings

Places where the code does not do what its interface suggests.  "(Cxx)" marks those proved in the model: by a theorem `Cxx_..._refuted`, for C34 by C34_collides and C34_overflow, for C61 by the `_partial` theorems.  The others come from reading the code.

GeoMap, Euler operations
* mergeFaces: the anchor list of the survivor can begin with a hole (C07).
* mergeEdges moves face anchors before the hooks may veto.
* removeIsolatedNode does not check that the node is isolated (C01); with an empty or wrong anchor list removeOne erases end().
* removeBridge ignores a veto of removeNodeHook; mergeEdges drops the flags of the merged edge.
* splitEdge(edge, 0) without insertPoint gives an edge of one point; splitEdge with a point off the segment leaves cached face areas stale (C10) and corrupts the label image (C19).
* resizeSigmaMapping is right only for one growth rule (C41); addNode(pos, label) ignores smaller labels.
* checkConsistency compares canonicalAnchor labels in a way that cannot see duplicate anchors.
* sortEdgesDirectly leaves sigma inconsistent when it throws.
* finiteFacesBegin() before initializeMap() increments end() (C16); setHasLabelImage(true) before initializeMap() is undefined (C19).
* coincident nodes break nodeMap_ (C15).

Geometry and caches
* Polygon::push_back and extend add the whole cross product to the area, not half of it (C24).
* BBoxPolygon::setPoint and writes through operator[] leave bounding box, length and area stale (C25); Node::setPosition does not invalidate the caches of its edges (C26) nor scanlines, label image and face boxes (C59).
* DartPosition::prevSegmentInternal sets the wrong end point (C27); nextSegmentInternal does not advance at the last segment.
* simplifyPolygon of one point returns it twice (C30); closed() and contains() of an empty polygon are undefined; BBoxPolygon::contains answers false instead of throwing for open polygons outside of the box.
* convexHull: CCWCompare is not a strict weak order (C50); three points on one ray give a dent or lose a point (C50).
* AbsAreaCompare with a tolerance is not transitive.
* DigitalStraightLine: addPoint may fail after changing the line, convertToFourConnected is wrong outside of the first octant, addPoint divides by zero for a = b = 0 (C36 for the first two).  tangentDSL has an inverted assertion and an endless loop on back-and-forth contours (C56).
* ScanlinesIter reads out of range for scanlines without segments (C54); drawScannedPoly forms an iterator beyond the row end.

Label image and statistics
* splitEdge without label image leaves scanLines_ stale; Edge::concatenate dereferences missing scanlines (C19).
* setHasLabelImage does not reset the pixel area of face 0 and fills in label order (C42); two negative extents pass its size test; ~GeoMap leaks the image.
* changeFaceLabels is not exception safe (C21) and can relabel the infinite face (C20).
* LabelLUT: see the `_refuted` theorems of C12 and C13.
* The copy constructor drops slots, planned splits and edge preferences, and fails on maps left by a rejected changeFaceLabels (C48).
* FaceColorStatistics: null dereference when the only supersampled face survives a merge (C38); the table is not released (C38); copies share functors (C61); the destructor leaves slots connected (C60); a larger original image reads outside of the label image.

Bulk operations
* removeBridges with duplicate labels or flagged bridges calls front() of an empty list; flags leak (C40).
* removeEdge before initializeMap ignores EdgeProtection (C39); mergeFacesCompletely may leave part of the common boundary if a hook vetoes (C49); removeEdges with duplicate labels throws midway (C57).

Cell image
* crackConnectionImage of an empty image is undefined (C22); ImageFilterIterator with one extent 0 reads outside (C17).
* Serialised darts collide from 2^14 and overflow from 2^17 (C34); two cell types cannot be stored in CellPixel (C35).
* CellPyramid: a failed operation stays in the history; changeIntoComposite and endComposite leave a stale checkpoint; empty composites dereference NULL; operations after topLevel().gotoLevel() corrupt the history (C31-C33).  endComposite without begin wraps its counter (modelled, not a theorem).
* removeIsolatedNode of the pixel based map accepts a dart that has lost its edge, and checkConsistency scans only the stored bounds, so it cannot see bounds that are too small (C46).
* nextSigma and prevSigma of the pixel based map are not inverse to each other if a line pixel lies in the corner between two diagonally touching pixels of a node; the importing constructor accepts such an image (C65_refuted).
* The constructor of DartTraverser moves the center onto a line pixel when it is given a diagonal direction with a line pixel on the left: the comment expects a node pixel there (C65_constructor_refuted).
* With the default cornerType = CellTypeLine the thresholding constructor makes inconsistent maps from simple drawings: three pixels in an L become one node (the ends touch diagonally) and one line pixel in the corner between its two pixels; the node has degree 1 although both ends of the edge are at it (C74_default_refuted).  The corner between two pixels of a node is seen as one dart only.  With cornerType = CellTypeVertex this cannot happen (C74_neat).
* labelEdges follows the darts around each node from one of them, so it does not see lines in holes of a node.  labelSelfLoops takes what is left over for closed lines and puts a node on it, which touches the first one and is not joined with it (C75_pierced_refuted).
* The import constructor accepts line pixels that no edge reaches (C46).  The size of the infinite face is UINT_MAX at first and wraps at the first merge.
* leftFaceLabel and rightFaceLabel may return the label of a pixel that is not a region.  The anchor the constructor gives to an isolated node whose pixels form an L is such a dart: removeIsolatedNode with it gives the pixels to the face that happens to have the label of the node and erases the contour of that face (C69_anchor_refuted).  CellPyramid calls removeIsolatedNode with the anchors of nodes (cellpyramid.hxx 273, 276).
* reassociate does not adapt the sizes (C86_sizes_refuted, C88_sizes_refuted) and runs std::find over a reversed range for the only pixel of a cell (C86_only).  In the reflected configuration postMergeEdges compares the gradient at offset -11, which is -3 modulo 8: the second pixel of the edge instead of the place to move to (C88_uphill_refuted).  edgeRethinning uses 0 for pixels to be decided and reads the label of the infinite face as 0 too, so an edge along the infinite face can only lose pixels to the other face; an edge that loses all stays in the map (C87_vanish_refuted).
* deepCopy reparents the darts of initialized cells only: the entries of removed cells keep pointers to the original, which dangle once it is destroyed (C89_dead_refuted).  No modelled function reads them.
* intersectLine sets prevDist only at points outside (polygon.cxx 1794), so where a polygon leaves the half plane the point of intersection is computed from the wrong distance: it repeats the last point, is off the line (C90_leaving, C90_leave_refuted) or not finite (C90_infinite_refuted).
* Python: `del polygon[i]` checks the index against len + 1 (polygon.cxx 191): `del polygon[-1]` erases end(), and other negative indices are off by one (C93_delete_last, C93_delete_off). `polygon.insert(-1, p)` appends (C93_insert_refuted).
* Python: Scanlines has no `__iter__`, and `__getitem__` raises IndexError for 0 if startIndex() > 0: `for row in scanlines` then visits no row (C94_iterate, C94_iterate_refuted), although the comment at polygon.cxx 102-104 gives such loops as the reason for these indices. removeEdgeFromLabelImage() with an edge that is not marked adds to the labels of faces (C94_unmarked_refuted).
* Neighborhood8Circulator::operator-- in cellimage/neighborhoodcirculator.hxx 63-68 goes on to the next neighbour code (neighbor++) while the position goes back; the file is included nowhere and not modelled.
* CellStatistics: preRemoveIsolatedNode and postRemoveIsolatedNode do not add the pixels of the node to the statistics of the face (C80_lost_refuted).  Edges along the infinite face get the largest gradient value and the border flag only from the constructor; one that comes to lie there by mergeFaces stays unprotected with its old average until it is merged with another edge, which then gets the largest value but still no flag (C81_border_refuted).  EdgeProtection::protectEdge toggles all bits of the flag, so clearing a flag of two bits of which one is set sets the other (C82_bits_refuted).  So removeEdgeWithEnds of the pyramid leaves statistics of the face without the pixels of the ends (C84_stats_refuted).
