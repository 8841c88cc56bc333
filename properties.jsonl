{"id": "C01", "title": "Box iterator enumerates the box exactly once", "statement": "For a box [begin,end) with every extent positive and a cell count that fits in an int, construction succeeds, the reported number of elements is the product of the extents, the element number k (0 <= k < count) is an index set inside the box, its index is k again, and every index set of the box is returned for exactly one k.", "quantifier": "every number of dimensions, every begin/end with positive extents whose product fits in int, every k and every index set", "why_tests_cant": "the box space is unbounded in both dimension and extent; tests fix one or two small boxes", "anchors": ["cpp/SgBoxIterator.h:SgBoxIterator_type", "cpp/SgBoxIterator.h:getElement", "cpp/SgBoxIterator.h:getIndex", "cpp/SgBoxIterator.h:getNumberOfElements"]}
{"id": "C02", "title": "Box iterator order is lexicographic (last index fastest)", "statement": "Element number k comes lexicographically before element number k' exactly when k < k'; flat array layouts of all interpolators rely on it.", "quantifier": "every box with positive extents, every pair k,k'", "why_tests_cant": "an order relation over all pairs of all boxes", "anchors": ["cpp/SgBoxIterator.h:getElement"]}
{"id": "C03", "title": "Box iterator is defined on degenerate boxes", "statement": "A box with an empty or inverted extent is reported as having no element. (Expected to fail: an even number of inverted extents gives a positive count of elements, none of which is in the box, and asking for an element of a box with an empty extent divides by zero.)", "quantifier": "every begin/end pair", "why_tests_cant": "tests never build inverted boxes; the sign of a product needs an argument over all dimensions", "anchors": ["cpp/SgBoxIterator.h:getNumberOfElements", "cpp/SgBoxIterator.h:getElement"]}
{"id": "C04", "title": "Side iterator visits each of the 3^n sides once", "statement": "Starting from a fresh or reset iterator, the k-th visited side (k < 3^n) has entries -1, 0 or 1, every such vector is visited exactly once, and 'next' signals the end exactly after 3^n steps.", "quantifier": "every number of dimensions n >= 1 with 3^n < 2^64", "why_tests_cant": "exponential number of sides, wrap-around unsigned arithmetic yields the -1 entries", "anchors": ["cpp/SgSideIterator.h:SgSideIterator_type", "cpp/SgSideIterator.h:next", "cpp/SgSideIterator.h:get"]}
{"id": "C05", "title": "Square linear solve honours its arguments", "statement": "For an n by n matrix in row-major order that is not the zero matrix, a successful solve returns the x with A x = b for the matrix and right-hand side most recently set, whatever was solved before; a matrix with independent rows is always solved and one with dependent rows gives a positive code; the reported residual is zero exactly when A x = b componentwise. (A zero matrix is reported as solved with x = 0.)", "quantifier": "every n, matrix, right-hand side and every previous history of the solver object, for any LAPACK dgels meeting its specification", "why_tests_cant": "row/column-major transposition errors vanish on symmetric test matrices; history is unbounded", "anchors": ["cpp/SgLinearSolve.h:setMatrix", "cpp/SgLinearSolve.h:setRightHandSide", "cpp/SgLinearSolve.h:solve", "cpp/SgLinearSolve.h:getResidual", "cpp/SgLinearSolve.h:getSolution"]}
{"id": "C06", "title": "Rectangular linear solve gives the least squares or minimum norm solution", "statement": "The solver is documented for nrow x ncol systems. (Expected to fail: an under-determined system is always rejected by the LAPACK argument check because the leading dimension passed for the right-hand side is nrow, and an over-determined one reads the row-major matrix with the wrong leading dimension.)", "quantifier": "every nrow, ncol with nrow <> ncol", "why_tests_cant": "needs reasoning about the LAPACK calling convention for all shapes", "anchors": ["cpp/SgLinearSolve.h:solve"]}
{"id": "C07", "title": "Interpolation weights are a partition of unity", "statement": "For any index position inside the grid the 2^ndims node weights are all between 0 and 1 and sum to one, and the node numbers are valid, pairwise distinct, and are the corners of the cell holding the position.", "quantifier": "every number of dimensions, grid sizes >= 2, every real index position in [0,dims-1]", "why_tests_cant": "continuum of positions; includes the top boundary where the cell must be clamped", "anchors": ["cpp/SgFindPointInCell.h:getWeightsAndFlatIndices", "cpp/SgFindPointInCell.h:getSrcIndicesAndWeights"]}
{"id": "C08", "title": "Interpolation is exact at nodes and reproduces affine fields", "statement": "At an integer index position the interpolated value is the value at that node, and a field that is affine in the index coordinates is interpolated exactly everywhere. In double arithmetic node values are exact, and elsewhere the result is the multilinear interpolation of the stored values (for an affine field the affine function) up to 2^n ((n+1) 2^-51 M + 3 2^-1074) for values up to M in n dimensions.", "quantifier": "every dimension, grid size >= 2, nodal field, position in the grid; exact arithmetic and IEEE doubles up to 2^900", "why_tests_cant": "continuum of positions and fields", "anchors": ["cpp/SgFindPointInCell.h:interp"]}
{"id": "C09", "title": "Index position never leaves the grid", "statement": "After a call to next() that evaluates a step, every index coordinate is in [0, dims-1] for non-periodic axes and in [0,dims-1] after wrapping for periodic axes, whatever the linear solver returned (as long as it is finite); consequently all array accesses of the following step are in bounds.", "quantifier": "every grid, target, starting guess and every finite result of the linear solver", "why_tests_cant": "Newton steps on distorted or singular cells are arbitrarily large; testing samples only benign ones", "anchors": ["cpp/SgFindPointInCell.h:next", "cpp/SgFindPointInCell.h:truncateIndices"]}
{"id": "C10", "title": "Point search always terminates within the iteration budget", "statement": "Calling next() until it returns non-zero ends after at most max(1,nitermax) calls.", "quantifier": "every grid, target, tolerance, every arithmetic including NaN and infinities, every behaviour of the linear solver", "why_tests_cant": "divergence is data dependent; NaN comparisons could loop forever", "anchors": ["cpp/SgFindPointInCell.h:next", "cpp/SgNodeInterp2D.h:findTarget", "cpp/SgQuadLineFlows.h:computeStartEndLineIndices", "cpp/SgFindOverlappingCells2D.h:findFloatIndexBoxOfPolygon"]}
{"id": "C11", "title": "A converged search is within tolerance", "statement": "When next() returns 1 the reported error is below the requested tolerance, the error is the Euclidean distance between the interpolated position and the target, and the target is inside the bounding box of the grid.", "quantifier": "every grid, target, tolerance, arithmetic and solver behaviour", "why_tests_cant": "a return code versus actual error relation over all runs", "anchors": ["cpp/SgFindPointInCell.h:next", "cpp/SgFindPointInCell.h:getError", "cpp/SgFindPointInCell.h:getPosition"]}
{"id": "C12", "title": "Point searches are independent of history", "statement": "After reset(guess,target), the sequence of return codes and indices, up to and including the first non-zero return code, does not depend on earlier searches on the same grid.", "quantifier": "every pair of histories, every arithmetic", "why_tests_cant": "quantifies over unbounded previous call sequences", "anchors": ["cpp/SgFindPointInCell.h:reset", "cpp/SgFindPointInCell.h:next"]}
{"id": "C13", "title": "Point search on an affine grid converges in one step", "statement": "If the node positions are an invertible affine function of the node indices and the target is inside the grid, the first step lands exactly on the target's index position, whatever the starting guess inside the grid. In double arithmetic, on a two-dimensional grid that is affine up to rounding and with a linear solver of known accuracy, the search with at least three iterations and a tolerance above the rounding level reports success after at most two steps, at an index position as close to the target's as the rounding of the coordinates and of the solver allows.", "quantifier": "every dimension, grid size, invertible affine map, target in the grid, starting guess (exact arithmetic); every two-dimensional non-periodic grid of doubles within a stated distance of a well-conditioned affine map, every target between the extreme node values, every starting guess in the grid (IEEE double arithmetic)", "why_tests_cant": "continuum of affine maps and guesses; depends on one-sided differences being right at the boundaries", "anchors": ["cpp/SgFindPointInCell.h:computeJacobianAndRHS", "cpp/SgFindPointInCell.h:next"]}
{"id": "C14", "title": "Re-setting the grid forgets the previous grid", "statement": "After setGrid with a new grid, the search behaves as with a fresh object holding that grid. (Expected to fail: the bounding box of the previous grid and its periodicity lengths are kept.)", "quantifier": "every pair of grids and every later search", "why_tests_cant": "needs a relation over two-call histories; the tests set the grid once", "anchors": ["cpp/SgFindPointInCell.h:setGrid"]}
{"id": "C15", "title": "Points outside the grid's bounding box are rejected without side effects", "statement": "next() returns -3 exactly when some target coordinate is outside the bounding box of the nodes widened by 100 machine epsilons (or is not a number), and then the indices are left unchanged.", "quantifier": "every grid, target, guess, arithmetic", "why_tests_cant": "all targets, including boundary equality and NaN", "anchors": ["cpp/SgFindPointInCell.h:reset", "cpp/SgFindPointInCell.h:next"]}
{"id": "C16", "title": "Periodic wrap preserves position", "statement": "Wrapping an index along a periodic axis does not change the physical position. (Expected to fail: the index period is the number of nodes rather than the number of cells, and the wrapped value is then truncated.)", "quantifier": "every periodic grid and index", "why_tests_cant": "needs all indices; tests stay away from the seam", "anchors": ["cpp/SgFindPointInCell.h:truncateIndices", "cpp/SgFindPointInCell.h:setGrid"]}
{"id": "C17", "title": "Node interpolation weights locate the target node", "statement": "For each destination node that received weights, interpolating the source node coordinates with these weights gives a point within tolpos of the destination node; source node numbers are valid and nodes without weights are left untouched by apply. In double arithmetic the real distance of the exact weighted point is at most tolpos (1 + 2^-50) + 2^-48 M + 2^-534 for coordinates up to M.", "quantifier": "every pair of grids, tolerance, iteration limit, solver behaviour and arithmetic", "why_tests_cant": "for all grids and all Newton runs", "anchors": ["cpp/SgNodeInterp2D.h:computeWeights", "cpp/SgNodeInterp2D.h:apply", "cpp/SgFindPointInCell.h:getSrcIndicesAndWeights"]}
{"id": "C18", "title": "Node interpolation is linear, preserves constants and creates no new extrema", "statement": "apply is linear in the source data; every interpolated value lies between the minimum and the maximum of the source data; constant fields are reproduced. In double arithmetic the weights lie in [0, 1] with a sum within 2^-51 of one, and values leave the range of the data by at most 2^-48 M + 2^-1070. With a solver that returns finite doubles computing the weights is defined, whatever the coordinates of the grids (infinities and NaN included).", "quantifier": "every grid pair, field, history of calls; exact arithmetic, and IEEE doubles with data up to 2^900 and a solver returning doubles", "why_tests_cant": "continuum of fields", "anchors": ["cpp/SgNodeInterp2D.h:apply", "cpp/SgNodeInterp2D.h:computeWeights"]}
{"id": "C19", "title": "Recomputing node weights is idempotent", "statement": "Calling computeWeights twice gives the same weights as calling it once, and the weights depend only on the grids set last.", "quantifier": "every pair of grids, every history of calls that set the source grid once", "why_tests_cant": "two-call histories on hidden solver state", "anchors": ["cpp/SgNodeInterp2D.h:computeWeights"]}
{"id": "C20", "title": "A node found by the retry strategy gets weights", "statement": "If the search for a destination node succeeds only after restarting from the sides of the source grid, the node still receives weights. (Expected to fail: the retry result is dropped.)", "quantifier": "every grid pair on which a first search fails and a retry succeeds", "why_tests_cant": "requires a search run in which the first attempt fails and the retry succeeds", "anchors": ["cpp/SgNodeInterp2D.h:computeWeights"]}
{"id": "C21", "title": "Convex hull area of points in convex position", "statement": "For points in weakly convex position (each lies on the boundary of their convex hull), not all on one line, given in any order and with duplicates that stay within the limits stated, the reported area is the area of the convex hull.", "quantifier": "every number of points, every input order, every choice made by an unstable sort (exact arithmetic, points separated by more than the tolerance)", "why_tests_cant": "unbounded number and order of points", "anchors": ["cpp/SgTriangulate.h:SgTriangulate_type", "cpp/SgTriangulate.h:addPoint", "cpp/SgTriangulate.h:getConvexHullArea"]}
{"id": "C22", "title": "Convex hull area for arbitrary points", "statement": "For every set of points, the reported area is the area of the convex hull. (Expected to fail when a new point sees two or more hull edges: spurious interior edges remain and later points are counted on them too.)", "quantifier": "every finite set of points", "why_tests_cant": "tests use at most nine points whose orders avoid the failing branch", "anchors": ["cpp/SgTriangulate.h:addPoint", "cpp/SgTriangulate.h:getConvexHullArea"]}
{"id": "C23", "title": "Triangulation reads only its own points", "statement": "Construction never reads outside the stored points. (Expected to fail when duplicates are removed or all points are on a line: loops still use the original number of points.)", "quantifier": "every list of points", "why_tests_cant": "out-of-bounds reads are silent in tests; they hit stale memory", "anchors": ["cpp/SgTriangulate.h:SgTriangulate_type", "cpp/SgTriangulate.h:removeDegenerateSegments", "cpp/SgTriangulate.h:makeFirstTriangle"]}
{"id": "C24", "title": "Hull area is never negative and all triangles are counter-clockwise", "statement": "Every triangle added has area at least zero as measured by the code's own area function, hence so has the total. (Expected to fail for a first triangle whose doubled signed area is exactly minus the tolerance: it is neither rejected as flat nor reversed; and in doubles when coordinates are so large that rounding turns a triangle over. For whole coordinates up to 2^25 it should hold in doubles.)", "quantifier": "every list of points, every order, exact arithmetic and IEEE double arithmetic", "why_tests_cant": "all point sets", "anchors": ["cpp/SgTriangulate.h:makeCounterClockwise", "cpp/SgTriangulate.h:addPoint", "cpp/SgTriangulate.h:getConvexHullArea"]}
{"id": "C25", "title": "Bounding box rejection never loses an overlap", "statement": "If the boxes of two quads are reported as not overlapping then the quads have no common point; the check does not depend on the order of the two quads.", "quantifier": "every pair of quads, including NaN free IEEE doubles (only comparisons are used)", "why_tests_cant": "for all pairs of quads", "anchors": ["cpp/SgQuadIntersect.h:checkIfBoxesOverlap", "cpp/SgQuadIntersect.h:setQuadPoints"]}
{"id": "C26", "title": "Every reported intersection point is in both quads", "statement": "Every point returned by collectIntersectPoints on a fresh object lies in both quads up to the solver tolerance. (Fails for quads three of whose nodes coincide.) In double arithmetic the point is finite and within (15 eta + 37 * 2^-53) M of each quad, in each coordinate, where M bounds the coordinates and eta is the relative residual of the solver; the systems may be arbitrarily badly conditioned.", "quantifier": "every pair of quads, any solver meeting its specification (exact arithmetic); every pair of quads with finite coordinates up to 2^900, any solver with residual eta (IEEE doubles)", "why_tests_cant": "continuum of configurations incl. degenerate ones", "anchors": ["cpp/SgQuadIntersect.h:collectIntersectPoints", "cpp/SgQuadIntersect.h:collectNodesInsideQuad", "cpp/SgQuadIntersect.h:collectEdgeToEdgeIntersectionPoints"]}
{"id": "C27", "title": "Intersection points span the whole overlap", "statement": "For two strictly convex quads, the intersection region is contained in (and so is) the convex hull of the returned points, when no edge parameter falls in the tolerance band.", "quantifier": "every pair of convex quads in general position (exact arithmetic)", "why_tests_cant": "continuum of configurations", "anchors": ["cpp/SgQuadIntersect.h:collectIntersectPoints"]}
{"id": "C28", "title": "An intersection object can be used for a second pair of quads", "statement": "After setQuadPoints with a new pair, collectIntersectPoints returns the points of that pair only. (Expected to fail: previously collected points are kept and there is no reset in the C interface.)", "quantifier": "every pair of consecutive uses", "why_tests_cant": "needs two-call histories", "anchors": ["cpp/SgQuadIntersect.h:setQuadPoints", "cpp/SgQuadIntersect.h:collectIntersectPoints", "cpp/SgQuadIntersect.cpp:SgQuadIntersect_getIntersectPoints"]}
{"id": "C29", "title": "Quad-line parameters are sorted and points lie on the line", "statement": "The returned parameters are in ascending order, within the tolerance of [0,1], the i-th point is A + lambda_i (B - A), and the reported number of points is the number of parameters.", "quantifier": "every quad, line, solver behaviour, arithmetic", "why_tests_cant": "all inputs", "anchors": ["cpp/SgQuadLineIntersect.h:collectIntersectPoints", "cpp/SgQuadLineIntersect.h:collectEdgeToLineIntersectionPoints"]}
{"id": "C30", "title": "Quad-line intersection brackets the part of the line inside the quad", "statement": "For a convex quad, every point of the segment inside the quad has its parameter between the first and the last returned parameter, and each returned point is in the quad up to the tolerance. In double arithmetic each returned point is finite and within (15 eta + 37 * 2^-53) M of the quad, where M bounds the coordinates and eta is the relative residual of the solver.", "quantifier": "every strictly convex quad, every segment (exact arithmetic, any solver meeting its specification); every quad whose consecutive nodes differ, every segment, coordinates up to 2^900, any solver with residual eta (IEEE doubles, where the points are)", "why_tests_cant": "continuum of configurations", "anchors": ["cpp/SgQuadLineIntersect.h:collectIntersectPoints", "cpp/SgQuadLineIntersect.h:isPointInQuad"]}
{"id": "C31", "title": "Edge projections integrate stream functions exactly", "statement": "For any cell and segment, computeProjections returns, and the four projections times the edge differences of any nodal values equal exactly the difference of the bilinear interpolation between index positions in the cell; if the return code is 0 these positions map to within 1e-10 of the segment's ends. The code is 0 when both ends are in a cell with two parallel sides, and the positions are exact in a parallelogram.", "quantifier": "every cell and segment, every nodal stream function (exact arithmetic; in double arithmetic up to a stated rounding bound)", "why_tests_cant": "polynomial identity over a continuum", "anchors": ["cpp/SgQuadLineFlows.h:computeProjections"]}
{"id": "C32", "title": "Projections are antisymmetric, additive and bounded", "statement": "Reversing the segment flips all projections exactly; splitting a segment that is straight in index space gives projections that add up; every projection is in [-1, 1] and low and high edge projections have the same sign and sum to the index displacement.", "quantifier": "every cell and segment, also outside of the cell (exact arithmetic; reversal and bounds also in double arithmetic); splitting in parallelograms", "why_tests_cant": "continuum", "anchors": ["cpp/SgQuadLineFlows.h:computeProjections"]}
{"id": "C33", "title": "Flux of a stream function through a polyline is the end point difference", "statement": "For the edge values of a stream function, a grid of convex cells, and a line inside the grid that is nowhere along an edge and misses no cell by less than the tolerance, the flux returned for each segment is the difference of the interpolated stream function between the (displaced) end points: exactly on cells that are parallelograms (so it is zero in total for a closed line), and within 2e-10 times the number of cells times the slope of the function on other convex cells where the point search succeeds; on cells with two parallel sides it does succeed. On a grid whose cells are rectangles between any increasing coordinates the line may be any polyline inside the grid whose ends and crossings are not within the tolerance of grid lines without being on them.", "quantifier": "every grid size and geometry, line and stream function meeting the hypotheses, any dgels meeting its documentation, any std::sort (exact arithmetic)", "why_tests_cant": "telescoping over unboundedly many cells", "anchors": ["cpp/SgFlowInterp2D.h:computeWeights", "cpp/SgFlowInterp2D.h:apply", "cpp/SgQuadLineFlows.h:computeProjections"]}
{"id": "C34", "title": "Flow interpolation reads the right edge values and only valid ones", "statement": "computeWeights returns; for every weight, the entry of the edge array used by apply is in range and is the edge the projection was computed for (low/high in each direction).", "quantifier": "every source grid of at least one cell per direction, every cell and edge number", "why_tests_cant": "all grid sizes and cells", "anchors": ["cpp/SgFlowInterp2D.h:apply", "cpp/SgFlowInterp2D.h:computeWeights"]}
{"id": "C35", "title": "Recomputing flow weights is idempotent", "statement": "Calling computeWeights twice gives the same fluxes as once. (Expected to fail: contributions accumulate, so fluxes double.)", "quantifier": "every grid and line", "why_tests_cant": "two-call histories", "anchors": ["cpp/SgFlowInterp2D.h:computeWeights"]}
{"id": "C36", "title": "Flow through a line lying on a shared cell edge is counted once", "statement": "The flux through a segment on the common edge of two cells is the edge value. (Expected to fail: both cells claim the segment.)", "quantifier": "every grid and segment along an interior edge", "why_tests_cant": "measure-zero configuration", "anchors": ["cpp/SgFlowInterp2D.h:computeWeights", "cpp/SgQuadLineIntersect.h:collectIntersectPoints"]}
{"id": "C37", "title": "Conservative weights refer to valid cells, once each", "statement": "Every destination and source cell number in the weights is a valid cell, each destination cell has at most one row and each source cell appears at most once in it, in ascending order.", "quantifier": "every pair of grids, arithmetic, solver and triangulation behaviour", "why_tests_cant": "all grid sizes", "anchors": ["cpp/SgConserveInterp2D.h:computeWeights"]}
{"id": "C38", "title": "Conservative weights are area fractions that sum to one", "statement": "On covered destination cells, weights are between 0 and 1, each is the area of the overlap divided by the area of the destination cell, and the row sums to one; hence a constant field is reproduced. (Fails when cells of the two grids share part of a side in certain ways: see the witness.)", "quantifier": "every source grid that tiles the destination cell and every destination grid (exact arithmetic; and IEEE doubles with a stated error for rectilinear grids; class of grids stated in the theorems)", "why_tests_cant": "area additivity over all tilings", "anchors": ["cpp/SgConserveInterp2D.h:computeWeights", "cpp/SgConserveInterp2D.h:apply"]}
{"id": "C39", "title": "Global conservation", "statement": "If the destination grid covers the source grid's support, the area integral of the interpolated field equals that of the source field. (Fails like C38 when cells share part of a side.)", "quantifier": "every pair of grids of the stated class and every field (exact arithmetic; IEEE doubles with a stated error for rectilinear grids)", "why_tests_cant": "sums over unboundedly many cells", "anchors": ["cpp/SgConserveInterp2D.h:computeWeights", "cpp/SgConserveInterp2D.h:apply"]}
{"id": "C40", "title": "Intersection caches are transparent", "statement": "Weights are the same as if every node-in-cell and edge-edge test were recomputed for each cell pair. (Fails in the last bits for floating-point numbers: an edge followed in the other direction gives a slightly different crossing.)", "quantifier": "every pair of grids", "why_tests_cant": "the caches share results across cell pairs in traversal order", "anchors": ["cpp/SgConserveInterp2D.h:computeWeights"]}
{"id": "C41", "title": "Iterating over the weights visits each weight once, then stops", "statement": "Starting from reset, next/get visits every stored (dst,src,weight) exactly once in ascending order, then reports the end. (Expected to fail in part: constructing the object, resetting with no weights, or advancing past the last row dereferences an end iterator.)", "quantifier": "every set of weights", "why_tests_cant": "undefined behaviour is invisible in tests", "anchors": ["cpp/SgConserveInterp2D.h:reset", "cpp/SgConserveInterp2D.h:next", "cpp/SgConserveInterp2D.h:get"]}
{"id": "C42", "title": "Recomputing conservative weights after changing a grid uses the new grid", "statement": "After setSrcGrid/setDstGrid with other coordinates, computeWeights yields the weights of the new grids. (Expected to fail: existing rows are kept.)", "quantifier": "every pair of grids set in sequence", "why_tests_cant": "needs two-call histories", "anchors": ["cpp/SgConserveInterp2D.h:computeWeights"]}
{"id": "C43", "title": "Conservative apply is linear and touches only rows with weights", "statement": "apply sets each destination cell that has weights to the weighted sum of the source data, leaves other entries alone, and is linear in the data.", "quantifier": "every weights table and field", "why_tests_cant": "continuum of fields", "anchors": ["cpp/SgConserveInterp2D.h:apply"]}
{"id": "C44", "title": "Overlap search returns valid, distinct cells covering the polygon's index box", "statement": "For a polygon with at least one point, the returned cells are distinct cells of the source grid and are exactly those of the index box of the polygon: a cell is returned when on both axes some point of the polygon is located below the cell's high side and some point above its low side less 0.01, where each point is located as a search object of its own, started in the middle of the grid, would locate it. Polygons searched before do not matter. (Without points the numbers returned are not cells of the grid; a polygon on the high side of the grid gets no cell, and then reading the cells is undefined.) In double arithmetic the search is defined whenever the solver returns finite doubles.", "quantifier": "every source grid with at least 2 nodes on each axis, polygon, earlier polygons and solver behaviour (exact arithmetic, and IEEE double arithmetic as long as no index is NaN)", "why_tests_cant": "all polygons", "anchors": ["cpp/SgFindOverlappingCells2D.h:findFloatIndexBoxOfPolygon", "cpp/SgFindOverlappingCells2D.h:findSrcCellIndices"]}
{"id": "C45", "title": "Overlap cell numbers use the same numbering as the conservative interpolation", "statement": "The number of a cell is row-major over cells. (Expected to fail: node dimensions are used for the strides, so numbers differ and may exceed the number of cells.)", "quantifier": "every grid", "why_tests_cant": "one-row test grids hide the stride", "anchors": ["cpp/SgFindOverlappingCells2D.h:setSrcGrid", "cpp/SgFindOverlappingCells2D.h:findSrcCellIndices", "cpp/SgConserveInterp2D.h:setSrcGrid"]}
{"id": "C46", "title": "Octree holds exactly the keys of every level", "statement": "After construction the tree contains exactly the keys of length 1 to max(1,number of levels) with digits below 2^ndims.", "quantifier": "every dimension, level, point set", "why_tests_cant": "exponential key set", "anchors": ["cpp/SgOctreePoints.h:SgOctreePoints_type", "cpp/SgOctreePoints.h:refineOctree"]}
{"id": "C47", "title": "A point lies in the box of its key at every level", "statement": "For a point inside the domain, the box given by getLo/getHi of its key contains it, the key at level l is a prefix of the key at level l+1, and boxes halve in size.", "quantifier": "every point of the domain, every level, every dimension (exact arithmetic)", "why_tests_cant": "continuum of points, all levels", "anchors": ["cpp/SgOctreePoints.h:getKey", "cpp/SgOctreePoints.h:getLo", "cpp/SgOctreePoints.h:getHi", "cpp/SgOctreePoints.h:computeLoHi"]}
{"id": "C48", "title": "Octree children tile their parent", "statement": "The 2^ndims child boxes of a key cover the parent box and have disjoint interiors.", "quantifier": "every key, dimension, domain (exact arithmetic)", "why_tests_cant": "all keys", "anchors": ["cpp/SgOctreePoints.h:computeLoHi", "cpp/SgOctreePoints.h:refineOctree"]}
{"id": "C49", "title": "Parser rejects exactly unknown options and then changes nothing", "statement": "parse returns false exactly when some argument that looks like an option is not registered, and in that case no option value has changed.", "quantifier": "every registry and every argument vector", "why_tests_cant": "all strings", "anchors": ["utils/CmdLineArgParser.cpp:parse"]}
{"id": "C50", "title": "Last occurrence of an option wins", "statement": "After a successful parse, a string or number option has the value following its last occurrence that has a following argument, else its default.", "quantifier": "every argument vector", "why_tests_cant": "all lists", "anchors": ["utils/CmdLineArgParser.cpp:parse", "utils/CmdLineArgParser.cpp:get"]}
{"id": "C51", "title": "Boolean options", "statement": "A boolean option given once is the opposite of its default; in general its value flips once per occurrence, so an even number of occurrences gives the default.", "quantifier": "every argument vector", "why_tests_cant": "all lists", "anchors": ["utils/CmdLineArgParser.cpp:parse"]}
{"id": "C52", "title": "Negative numbers can be passed as option values", "statement": "Every decimal literal, including those starting with '-.', can be given as the value of a numeric option. (Expected to fail for '-.5'.)", "quantifier": "every decimal literal", "why_tests_cant": "all literals", "anchors": ["utils/CmdLineArgParser.cpp:parse"]}
{"id": "C53", "title": "Vector options return every comma separated element", "statement": "The value of a vector option with k commas has k+1 elements, the i-th being the conversion of the i-th field. (Expected to fail for integer vectors: the last field is converted differently.)", "quantifier": "every string", "why_tests_cant": "all strings", "anchors": ["utils/CmdLineArgParser.cpp:get"]}
{"id": "C54", "title": "Rectangular test grids have the requested corners and uniform spacing", "statement": "Node (0,0) of a rectangular grid is at the minima and node (d0-1,d1-1) at the maxima; grid lines are parallel to the axes, the spacing is uniform, the cells tile the rectangle, entries past the grid are not touched; every point of the rectangle is found by the point search at the expected indices. (In IEEE arithmetic the last node can be below the maximum.)", "quantifier": "every size >= 2 and bounds (exact arithmetic)", "why_tests_cant": "all sizes", "anchors": ["utils/createGrids2D.cpp:createRectangularGrid"]}
{"id": "C55", "title": "Rotated pole grids are ordinary grids turned rigidly", "statement": "For all displacement angles the latitudes are in [-90,90], the longitudes in (-180,180], and the node on the sphere is the node of the ordinary grid turned about two axes, so distances on the sphere are kept; the pole goes to latitude 90 - delta_lat and longitude -delta_lon; without displacement the grid is the ordinary one, except that longitude -180 is given as 180 and longitudes at the poles are arbitrary.", "quantifier": "every size, displacement (exact arithmetic)", "why_tests_cant": "continuum of angles", "anchors": ["utils/createGrids2D.cpp:createRotatedPoleGrid"]}
{"id": "C56", "title": "Tripolar grid construction writes every node, in bounds", "statement": "For 0 <= capLatIndex <= number of latitudes every access is in bounds and every longitude and latitude entry is written: the result does not depend on the old contents. Outside that range of cap indices accesses are out of bounds.", "quantifier": "every grid size and cap index", "why_tests_cant": "all sizes", "anchors": ["cpp/SgTripolarGrid.h:SgTripolarGrid_type"]}
{"id": "C57", "title": "Simplex faces and edges are consistently oriented", "statement": "Lines, triangles and tetrahedra give their points back in order; the edges of a triangle form a loop; every pair of points is an edge of a tetrahedron; the oriented faces of a tetrahedron form a closed boundary. (The last part fails: face 2 is oriented the other way.)", "quantifier": "every tetrahedron", "why_tests_cant": "orientation is not visible in the shipped tests", "anchors": ["cpp/SgTetrahedron.h", "cpp/SgTriangle.h"]}
{"id": "C58", "title": "A quad-line intersection object can be used for a second segment", "statement": "After setting another segment or quad, collectIntersectPoints returns the points of the new configuration only. (Expected to fail: parameters are kept and the C interface offers no reset.)", "quantifier": "every pair of consecutive uses", "why_tests_cant": "two-call histories", "anchors": ["cpp/SgQuadLineIntersect.h:collectIntersectPoints", "cpp/SgQuadLineIntersect.cpp:SgQuadLineIntersect_setLinePoints"]}
{"id": "C59", "title": "The flux through a line does not jump at cell edges", "statement": "Moving an end point of a line by a few units in the last place across the edge between two cells changes the flux by a comparably small amount. (Expected to fail: the tolerances of the two tests involved differ and a return code is ignored.)", "quantifier": "every grid and line", "why_tests_cant": "the failing configurations form a tiny set of coordinates", "anchors": ["cpp/SgFlowInterp2D.h:computeWeights", "cpp/SgQuadLineFlows.h:computeProjections", "cpp/SgFindPointInGrid.h:reset"]}
{"id": "C60", "title": "Overlap search returns every source cell that meets the polygon", "statement": "Every source cell that contains a point of the polygon is among the cells returned. (Fails when points of the polygon lie outside the source grid: such points are taken to be in the middle of the grid, so a polygon covering the whole grid gets one cell. Holds on affine grids when the points lie in the grid.)", "quantifier": "every source grid and polygon", "why_tests_cant": "needs all polygons and grids; the shipped test has one polygon inside the grid", "anchors": ["cpp/SgFindOverlappingCells2D.h:findFloatIndexBoxOfPolygon", "cpp/SgFindOverlappingCells2D.h:findSrcCellIndices"]}
{"id": "C61", "title": "Polar grids are centred at the requested centre", "statement": "The nodes of ring i of a polar grid are at distance i/(d0-1) times the radius from the centre, equally spaced in angle, the ring closes. (Fails: the centre is added to radius and angle. Holds for centre (0,0).)", "quantifier": "every size, centre and radius (exact arithmetic)", "why_tests_cant": "continuum of centres; the shipped tests use the origin", "anchors": ["utils/createGrids2D.cpp:createPolarGrid"]}
{"id": "C62", "title": "The cap of a tripolar grid joins the ordinary rows", "statement": "The first row of the cap has the latitude and longitudes of the ordinary latitude-longitude grid, and all latitudes of the cap are between that latitude and 90.", "quantifier": "every size and cap index with a row below the cap and two rows in it (exact arithmetic)", "why_tests_cant": "all sizes; real trigonometry", "anchors": ["cpp/SgTripolarGrid.h:getGrid"]}
{"id": "C63", "title": "Tripolar grids have finite coordinates", "statement": "All coordinates of a tripolar grid are numbers. (Fails for a cap starting at the last latitude: the whole last row is NaN.)", "quantifier": "every size and admissible cap index", "why_tests_cant": "all sizes and caps; the shipped test uses one", "anchors": ["cpp/SgTripolarGrid.h:getGrid"]}
{"id": "C64", "title": "Tripolar grids follow the index convention of the other classes", "statement": "With the dimensions returned by getGrid, the second index varies fastest, as the interpolation classes assume. (Fails: the first varies fastest.)", "quantifier": "every size", "why_tests_cant": "no shipped test passes a tripolar grid to an interpolation class", "anchors": ["cpp/SgTripolarGrid.h:getGrid", "cpp/SgFindPointInCell.h:setGrid"]}
{"id": "C65", "title": "The last row of a tripolar grid is folded", "statement": "In the last row, nodes i and nlon-1-i are at the same latitude within 2e-8 degrees; the nodes of the first half lie on the meridian of 0 or -180, and the node a quarter along the row is the geographic pole.", "quantifier": "every size and cap index in the northern hemisphere (exact arithmetic)", "why_tests_cant": "all sizes; real trigonometry; the shipped test only prints the grid", "anchors": ["cpp/SgTripolarGrid.h:getGrid"]}
{"id": "C66", "title": "No block is freed twice", "statement": "Whatever the caller does with the objects of the C interface, in whatever order and with any number of objects in use at the same time, as long as it does not use an object after deleting it, the library never frees memory that is not allocated; every block an object in use refers to is allocated, and no two objects in use share a block.", "quantifier": "for all sequences of creations, grid settings, weight computations and deletions on any number of objects of all classes", "why_tests_cant": "A double free needs a particular order of calls on particular objects; the set of orders is infinite.", "anchors": ["cpp/SgFindPointInCell.h: ~SgFindPointInCell_type, setGrid", "cpp/SgFlowInterp2D.h: ~SgFlowInterp2D_type, setSrcGrid, computeWeights", "cpp/SgQuadLineFlows.h: ~SgQuadLineFlows_type", "cpp/SgQuadIntersect.cpp: SgQuadIntersect_del", "cpp/SgQuadLineIntersect.cpp: SgQuadLineIntersect_del", "cpp/SgNodeInterp2D.h: ~SgNodeInterp2D_type", "cpp/SgFindOverlappingCells2D.h: ~SgFindOverlappingCells2D_type", "cpp/SgConserveInterp2D.h: computeWeights"]}
{"id": "C67", "title": "Deleting the objects gives back all memory", "statement": "When the caller has deleted every object it has created, no memory allocated by the library stays allocated, so a program that repeatedly creates, uses and deletes interpolators runs in bounded memory.", "quantifier": "for all sequences of creations, grid settings, weight computations and deletions", "why_tests_cant": "A unit test does not observe memory that is left over, and its amount depends on how often each call was made and how many cells were crossed.", "anchors": ["cpp/SgFindPointInCell.h: setGrid", "cpp/SgFlowInterp2D.h: ~SgFlowInterp2D_type, setSrcGrid, computeWeights", "cpp/SgQuadIntersect.h: SgQuadIntersect_type", "cpp/SgQuadLineIntersect.h: SgQuadLineIntersect_type", "cpp/SgConserveInterp2D.h: computeWeights"]}
{"id": "C68", "title": "The Python interpolator refuses calls in the wrong order, and calls in the right order are safe", "statement": "Computing weights raises an exception and changes nothing exactly when one of the grids was not given, applying them exactly when weights were not computed; whatever is called otherwise, in any order, with arrays of the shapes of the grids, no memory outside of the arrays is read or written.", "quantifier": "for all sequences of calls on an object of the Python class ConserveInterp2D", "why_tests_cant": "sequences of calls are infinite in number; an access outside of an array often goes unnoticed in a test", "anchors": ["py/conserveInterp2D.py: setDstGrid, setSrcGrid, computeWeights, apply"]}
{"id": "C69", "title": "apply of the Python interpolator returns the interpolated field, and the array returned stays as it is", "statement": "apply returns an array of one value per destination cell, the sum of weights times source values (zero for cells with no weights), whatever was called before; later calls do not change an array that was returned.", "quantifier": "for all sequences of calls and all source fields", "why_tests_cant": "the value after all call histories; a test compares results one at a time and keeps none of them", "anchors": ["py/conserveInterp2D.py: setDstGrid, apply"]}
{"id": "C70", "title": "The velocity in the flow file carries the given fluxes", "statement": "In every cell, the velocity written by saveFlowVtk carries the mean of the fluxes given for opposite edges across the line joining the midpoints of the other two edges; in particular a uniform flow is written as it is.", "quantifier": "for all grids, cells and fluxes (exact arithmetic)", "why_tests_cant": "all grids and all fluxes; the scripts have no tests, and the formula is right on the grids of the examples", "anchors": ["examples/sgutils.py: saveFlowVtk, createRectilinearGrid, createPolarGrid"]}
{"id": "C71", "title": "The velocity in the streamline file is that of the stream function", "statement": "For the stream function of a uniform flow, the velocity written by saveStreamlinesVtk is that flow in every cell.", "quantifier": "for all grids, cells and uniform flows (exact arithmetic)", "why_tests_cant": "all grids; the formula is right on grids along the axes", "anchors": ["examples/sgutils.py: saveStreamlinesVtk, createRectilinearGrid"]}
{"id": "C72", "title": "The flow file and the streamline file show the same velocity", "statement": "For one stream function, with the fluxes that the example computes from it, saveFlowVtk and saveStreamlinesVtk write the same velocity.", "quantifier": "for all rectilinear grids and all stream functions (exact arithmetic)", "why_tests_cant": "all grids and stream functions; no example writes both files", "anchors": ["examples/sgutils.py: saveFlowVtk, saveStreamlinesVtk", "examples/streamFlow.py.in: srcXFlux, srcYFlux"]}
{"id": "C73", "title": "The files of the scripts contain the numbers announced in them", "statement": "A reader of the VTK files finds the numbers of points, cells and components that are announced, each number in its place in the order of the grid, and nothing else.", "quantifier": "for all sizes, all numbers and all ways of printing numbers as words", "why_tests_cant": "all sizes and values; the position of a number in the file depends on the size", "anchors": ["examples/sgutils.py: saveFlowVtk, saveStreamlinesVtk, saveLineVtk", "scripts/cellFaceBasis.py: saveVtk"]}
{"id": "C74", "title": "The derivatives of the face basis script are exact for bilinear maps", "statement": "For a bilinear map of the unit square, the four derivatives are those of the map at the centres of the cells.", "quantifier": "for all sizes, all bilinear maps, all cells (exact arithmetic)", "why_tests_cant": "all maps; an error in one derivative does not show for affine maps", "anchors": ["scripts/cellFaceBasis.py: FaceBasis.__init__"]}
{"id": "C75", "title": "The basis functions of the face basis script have flux across their side only", "statement": "For an affine map, the flux of the basis function of a side across lines parallel to the side falls linearly from 1 on the side to 0 on the opposite side, with one sign for all sides, and is 0 across the lines of the other direction.", "quantifier": "for all sizes, all affine maps that are not degenerate, all cells (exact arithmetic)", "why_tests_cant": "all maps; the script only writes a file for viewing", "anchors": ["scripts/cellFaceBasis.py: FaceBasis.__init__"]}
{"id": "C76", "title": "Flow round a hole: the total flux of a closed line is the circulation", "statement": "On a grid round a hole, whose cells have two parallel sides, for edge values that are the differences of a stream function that is not single valued, the flux of each segment is the change of the stream function along it within the accuracy of the point search, and the flux of the whole line is the change along the line: for a closed line round the hole the period of the stream function, not zero.", "quantifier": "every grid size and geometry of cells with two parallel sides, every line inside the grid clear of the tolerances, every choice of branches that agree at the points of the line (exact arithmetic)", "why_tests_cant": "branches of the stream function and unboundedly many cells and segments", "anchors": ["cpp/SgFlowInterp2D.h:computeWeights", "cpp/SgFlowInterp2D.h:apply", "examples/polarFlow.py.in"]}
{"id": "C77", "title": "The program streamFlow prints the flux of the stream function", "statement": "The flux the program prints is close to the exact one it prints beside it, the difference of the stream function between the ends of the line: the two differ by no more than the change of the stream function over a cell at each end, however many segments and cells, and not at all (but for the displacement of the points) for bilinear stream functions.", "quantifier": "every grid, line, number of segments and stream function with bounded slope (exact arithmetic)", "why_tests_cant": "all lines and stream functions; the program itself only prints the two numbers", "anchors": ["examples/streamFlow.py.in", "examples/sgutils.py:createRectilinearGrid"]}
{"id": "C78", "title": "The program polarFlowApprox interpolates the flow at the mid points", "statement": "For every segment of the line the velocity used is interpolated from the nodes of the cell that holds the mid point of the segment, so that the error of its flux is at most the size of the segment times the change of the velocity over that cell; a mid point that cannot be found in the grid stops the program or is reported and not used. (Fails for mid points on the outer boundary, which are found but stop the program with an index error, and for mid points in the hole, where the message is printed and the position of the failed search is used.)", "quantifier": "every grid, line, number of segments (exact arithmetic), any dgels", "why_tests_cant": "all positions relative to the grid; the program prints two sums only", "anchors": ["examples/polarFlowApprox.py.in:findIndicesForPosition", "examples/polarFlowApprox.py.in"]}
{"id": "C79", "title": "The program polarFlow prints the winding number", "statement": "For a line that stays in the polar grid, away from the centre and in general position with respect to the cells (no side along a grid line, no cell missed by less than the tolerance), the number printed is the number of turns of the line round the centre: for a closed line its winding number, 0 if the centre is outside and 1 if the line goes round it once; for an open line the difference of the positions of its ends on the polygon of the outer nodes, in turns. The cells at the centre, where a side has length zero, need no exception.", "quantifier": "every number of rings, of sectors (three or more) and of segments, every radius and line as above; within the accuracy of the point searches (exact arithmetic)", "why_tests_cant": "all lines and grids at once, and a statement about angles; the program prints a number but knows no expected one", "anchors": ["examples/polarFlow.py.in", "examples/sgutils.py:createPolarGrid", "cpp/SgFlowInterp2D.cpp:SgFlowInterp2D_computeWeights"]}
{"id": "C80", "title": "Octree is defined for all doubles", "statement": "For any doubles given as points, NaN and infinities included, and any number of dimensions above zero, building the octree is defined (no access out of range, no conversion of an unrepresentable double), and so is the key of every target at every level: it has one digit per level, each below 2^ndims. With zero dimensions building divides by zero.", "quantifier": "every list of doubles, every dimension, every level count, every target", "why_tests_cant": "NaN, infinities, signed zeros and degenerate domains on every axis; all inputs of double arithmetic", "anchors": ["cpp/SgOctreePoints.h:SgOctreePoints_type", "cpp/SgOctreePoints.h:getKey"]}
{"id": "C81", "title": "Octree boxes in double arithmetic", "statement": "In double arithmetic, with at most 53 levels and coordinates up to 2^990, a point of the domain lies in the box of its key up to (|lo|+|hi|) 2^-50 + 2^-1070 on each axis, exactly if on each axis the coordinates are whole numbers of a power of two step and the domain is a power of two of them wide; the same for the key stored for each point. Children boxes below the first level tile their parent to the last bit. For some domains the highest point is in no box at all.", "quantifier": "every set of points, level, dimension, target in the domain (IEEE binary64)", "why_tests_cant": "rounding depends on every bit of the coordinates; continuum of domains and points", "anchors": ["cpp/SgOctreePoints.h:getKey", "cpp/SgOctreePoints.h:getLo", "cpp/SgOctreePoints.h:getHi", "cpp/SgOctreePoints.h:computeLoHi"]}
{"id": "C82", "title": "Rectangular test grids in double arithmetic", "statement": "In double arithmetic with bounds up to 2^990 the rectangular grid has finite nodes, its first node is at the low corner, its lines are parallel to the axes to the last bit, its nodes never go back along an axis, and each is within (|lo|+|hi|) 2^-50 + 2^-1040 of its exact place. If the spacing is more than twice that, the cells tile the rectangle from the first to the last node. If the spacing is a whole number of power of two steps, and the bounds at most 2^52 steps, every node is exact.", "quantifier": "every size >= 2 and bounds (IEEE binary64)", "why_tests_cant": "rounding depends on every bit of the bounds and the size; all sizes", "anchors": ["utils/createGrids2D.cpp:createRectangularGrid"]}
{"id": "C83", "title": "The weights of a destination node do not depend on the other destination nodes", "statement": "For one source grid, whether a destination node gets weights, and which, depends on its coordinates only: not on its number, nor on the nodes listed before or after it. (Expected to fail: a failed search moves the position from which the next node is searched.)", "quantifier": "every source grid, two destination grids that share a node, every history of calls, any arithmetic and solver", "why_tests_cant": "requires comparing runs over all pairs of destination grids; the fault needs a search that fails before the node", "anchors": ["cpp/SgNodeInterp2D.h:computeWeights", "cpp/SgNodeInterp2D.h:findTarget"]}
{"id": "C84", "title": "The flux of arbitrary edge values is the line integral of the field interpolated from the edges", "statement": "On a grid of parallelograms, for arbitrary values on the edges (not only differences of a stream function), the flux reported for a segment of the line is the sum over the cells of the line integral, along the part of the segment in the cell, of the field interpolated linearly between opposite edges. In double arithmetic, on rectilinear grids with coordinates up to 4 and cells of at least 1/8 by 1/8, for segments that stay 1/1024 away from nodes and whose ends stay 1/1024 away from grid lines, the same holds up to a stated error (about 1e-7 of the largest edge value per cell).", "quantifier": "every grid of parallelogram cells of any size, every line, every segment of it that misses no cell by less than the tolerance, all edge values, every dgels meeting its documentation, every std::sort, exact arithmetic; rectilinear grids of moderate size, all edge values that are doubles up to 2^800, any solver with the accuracy stated (IEEE doubles)", "why_tests_cant": "a statement about an integral over all grids, lines and edge values; tests use stream functions, for which the integral does not depend on the path", "anchors": ["cpp/SgFlowInterp2D.h:computeWeights", "cpp/SgFlowInterp2D.h:apply", "cpp/SgQuadLineFlows.h:computeProjections", "cpp/SgQuadLineIntersect.h:collectIntersectPoints"]}
{"id": "C85", "title": "The flux changes sign when a segment is reversed and adds up when it is cut", "statement": "The flux from B to A is minus the flux from A to B, for all edge values. When a segment is cut at one of its points, the flux is the sum of the fluxes of the two parts. In double arithmetic, on rectilinear grids with coordinates up to 4 and cells of at least 1/8 by 1/8, for segments that stay 1/1024 away from nodes and whose ends stay 1/1024 away from grid lines, the same holds up to a stated error (about 1e-7 of the largest edge value per cell).", "quantifier": "every grid of convex cells (reversal) or parallelogram cells (cutting), every segment that misses no cell by less than the tolerance, wherever it is in the line, all edge values, every dgels meeting its documentation, every std::sort, exact arithmetic; rectilinear grids of moderate size, all edge values that are doubles up to 2^800, any solver with the accuracy stated (IEEE doubles)", "why_tests_cant": "quantifies over pairs of lines and all grids and edge values", "anchors": ["cpp/SgFlowInterp2D.h:computeWeights", "cpp/SgFlowInterp2D.h:apply", "cpp/SgQuadLineFlows.h:computeProjections", "cpp/SgQuadLineIntersect.h:collectIntersectPoints"]}
{"id": "C86", "title": "The flux through a segment does not depend on the other segments of the line", "statement": "For one source grid and the same edge values, two lines that have a segment in common (the same two end points, after the displacement the code applies) get the same flux for it. (Expected to fail: the search object keeps the bounding box of the cells visited before, see C14.)", "quantifier": "every source grid, every two lines with a common segment, all edge values, any arithmetic and solver", "why_tests_cant": "requires comparing runs over all pairs of lines; the fault needs a segment that ends within the tolerance of an edge, after a segment in another part of the grid", "anchors": ["cpp/SgFlowInterp2D.h:computeWeights", "cpp/SgFlowInterp2D.h:apply", "cpp/SgQuadLineFlows.h:computeProjections", "cpp/SgQuadLineIntersect.h:collectIntersectPoints", "cpp/SgFindPointInCell.h:setGrid"]}
{"id": "C87", "title": "Applying weights in double arithmetic loses only rounding", "statement": "In double arithmetic, with a linear solver that returns finite numbers, computing flow weights returns for every source grid and every line, and each weight is a finite double between -5 and 5. Applying flow weights to finite edge values (at most 2^800) gives for every crossed segment a finite double within 12 m 2^-53 times the sum of the magnitudes of its terms (plus 12 m 2^-1074) of the exact sum of weight times value, m being the number of contributing cells. Applying conservative weights that are finite to finite cell values whose terms have magnitudes adding up to at most 2^900 gives a finite double within 3 m 2^-53 times that sum (plus 3 m 2^-1074) of the exact sum, m being the number of weights of the cell. Segments and cells without weights keep the value of the output array.", "quantifier": "for all grids, lines, finite field values and output arrays, all double arithmetic roundings, and every linear solver that returns finite numbers", "why_tests_cant": "The bound has to hold for every grid, every combination of weights and values and every rounding; a test compares a few sums with tolerances chosen for them.", "anchors": ["cpp/SgFlowInterp2D.h:apply", "cpp/SgFlowInterp2D.h:computeWeights", "cpp/SgConserveInterp2D.h:apply", "cpp/SgQuadLineFlows.h:computeProjections"]}
{"id": "C88", "title": "Conservative interpolation creates no new extrema", "statement": "A destination cell covered by the source grid gets a value between the least and the largest value of the source field, and a nonnegative source field gives nonnegative values. (Fails like C38 when cells share part of a side: a field that is 1 everywhere becomes 4/3.)", "quantifier": "every pair of grids of the stated class and every field (exact arithmetic; IEEE doubles for rectilinear grids, any solver accurate on axis-aligned systems, up to a stated error)", "why_tests_cant": "Overshoot depends on the geometry of each pair of grids; the tests use single pairs and compare totals or one value, not bounds.", "anchors": ["cpp/SgConserveInterp2D.h:computeWeights", "cpp/SgConserveInterp2D.h:apply", "cpp/SgTriangulate.h:getConvexHullArea"]}
{"id": "C89", "title": "Node interpolation on affine grids covers every node inside and reproduces linear fields", "statement": "If the positions of the source nodes are an invertible affine function of their indices, every destination node inside the source grid gets weights, whatever the other destination nodes are, and applying the weights to a field that is linear in the position gives the value of the field there. In double arithmetic, on a source grid that is affine up to rounding and well conditioned and with a linear solver of known accuracy, the same holds up to a stated multiple of the rounding of the coordinates, the solver and the field.", "quantifier": "every size, invertible affine map, periodicity, destination grid, destination node in the grid, linear field, history of destination grids (exact arithmetic); every non-periodic grid of doubles within a stated distance of a well-conditioned affine map, every destination node between the extreme node values, every nearly linear field (IEEE double arithmetic)", "why_tests_cant": "a continuum of grids and nodes; a node that is found only by a retry gets no weights, so that coverage depends on every first search succeeding from any start left by earlier nodes", "anchors": ["cpp/SgNodeInterp2D.h:computeWeights", "cpp/SgNodeInterp2D.h:apply", "cpp/SgFindPointInCell.h:next"]}
{"id": "C90", "title": "Partly covered cells and no creation of mass", "statement": "When the cells of each grid do not overlap one another, then whatever part of one grid lies outside the other: the weights of a destination cell are nonnegative and add up to at most one, values written into an array of zeros stay between the bounds of the source field widened to contain zero, and the area integral of a nonnegative field does not grow. (Fails like C38 when cells touch along part of a side: the integral of one cell doubles.)", "quantifier": "every pair of grids of the stated class, covering one another or not, and every field (exact arithmetic; IEEE doubles for rectilinear grids, any solver accurate on axis-aligned systems, up to a stated error)", "why_tests_cant": "The tests compare totals for one pair of grids that cover one another; partial coverage depends on unboundedly many positions of the cells.", "anchors": ["cpp/SgConserveInterp2D.h:computeWeights", "cpp/SgConserveInterp2D.h:apply", "cpp/SgTriangulate.h:getConvexHullArea"]}
{"id": "C91", "title": "Flux through a line that crosses cells at an angle, in doubles", "statement": "The flux returned for a segment that crosses from one cell into the next, away from the nodes, is the difference of the interpolated stream function between its ends up to a rounding error, wherever on the globe the grid is; the fluxes of the segments of a line therefore add up to the difference between its ends, whatever way it takes, and to zero when it is closed. (Fails at longitude 150 even when every 2 by 2 system is solved with correct rounding: the crossing point is an ulp outside the box of one cell, more than the absolute tolerance of the point search, and the half of the cell that is then left out is lost without notice. Holds on rectilinear grids within 4 of the origin with cells of at least 1/8, where the tolerance is many ulps wide.)", "quantifier": "every grid, line and stream function meeting the hypotheses of C33 (IEEE double arithmetic)", "why_tests_cant": "Whether a crossing point is rounded to the wrong side depends on the last bit of the coordinates; the tests use small grids near the origin or compare within a few per cent.", "anchors": ["cpp/SgFindPointInCell.h:next", "cpp/SgQuadLineFlows.h:computeProjections", "cpp/SgFlowInterp2D.h:computeWeights"]}
