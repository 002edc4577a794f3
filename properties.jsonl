{"id": "C01", "title": "Graph mutators implement a finite edge map", "statement": "After any history of addVertex/addEdge/removeEdge/clear calls on a graph (some of which may throw), hasEdge(u,v) and edgeWeight(u,v) report exactly the edges the successful calls left behind (last write not undone by a removal), numEdges() is the number of such edges (an undirected edge counted once), an undirected graph is symmetric with equal weights in both directions, neighbors(u) never lists the same target twice, and every listed target is a vertex of the graph.", "quantifier": "every graph type, every finite sequence of mutator calls with arbitrary vertex indices and weights", "why_tests_cant": "the call histories are unbounded and the invariant couples three redundant representations (two adjacency entries and a counter)", "anchors": ["mml/base/Graph.h: Graph::addEdge, removeEdge, addVertex, hasEdge, edgeWeight, numEdges, neighbors, clear"]}
{"id": "C02", "title": "A throwing graph mutator changes nothing", "statement": "If addEdge throws (vertex out of range, forbidden self loop, duplicate edge), every observable of the graph is the same as before the call, and addEdge throws exactly in those cases; removeEdge never throws and reports false, leaving the graph unchanged, exactly when the edge is absent.", "quantifier": "every graph reachable by the API and every argument triple", "why_tests_cant": "all histories and all arguments", "anchors": ["mml/base/Graph.h: Graph::addEdge, removeEdge"]}
{"id": "C03", "title": "BFS computes hop distances", "statement": "BFS(g,s) terminates; visitOrder lists exactly the vertices reachable from s, each once, in non-decreasing hop distance; distance[v] is the least number of edges of any walk from s to v (infinity iff unreachable); parent[v] is the predecessor of v on such a shortest walk.", "quantifier": "every graph and every start vertex", "why_tests_cant": "all graphs, of unbounded size", "anchors": ["mml/algorithms/GraphAlgorithms.h: BFS, BFSVisit"]}
{"id": "C04", "title": "DFS visits exactly the reachable vertices", "statement": "DFS(g,s) terminates and visitOrder lists exactly the vertices reachable from s, each once, starting with s; every visited v other than s has a parent that is itself visited and has an edge to v; DFSVisit calls the visitor once per reachable vertex and stops as soon as the visitor returns false.", "quantifier": "every graph and every start vertex", "why_tests_cant": "all graphs, of unbounded size", "anchors": ["mml/algorithms/GraphAlgorithms.h: DFS, DFSVisit"]}
{"id": "C05", "title": "Dijkstra returns least path weights", "statement": "For a graph with non-negative weights Dijkstra(g,s) terminates, distance[v] is the minimum over all walks from s to v of the walk's weight accumulated left to right from s (also under any monotone, inflationary rounding of addition), infinity iff v is unreachable, and following parent from v gives a walk from s to v of exactly that weight.", "quantifier": "every graph with non-negative edge weights, every start vertex", "why_tests_cant": "all graphs; the lazy priority queue with stale entries is only exercised by particular weight patterns", "anchors": ["mml/algorithms/GraphAlgorithms.h: Dijkstra"]}
{"id": "C06", "title": "DijkstraPath agrees with Dijkstra", "statement": "DijkstraPath(g,s,t) with non-negative weights returns a path whose consecutive vertices are edges, starting at s and ending at t, whose total weight is the least over all walks; it returns an empty path exactly when t is unreachable or an index is invalid.", "quantifier": "every graph with non-negative weights and every pair of vertices", "why_tests_cant": "all graphs; early exit and stale entries interact", "anchors": ["mml/algorithms/GraphAlgorithms.h: DijkstraPath, ReconstructPath"]}
{"id": "C07", "title": "Bellman-Ford: shortest walks or a negative cycle", "statement": "BellmanFord(g,s) signals failure (empty result) exactly when a cycle of negative total weight is reachable from s (or s is not a vertex); otherwise distance[v] is the minimum walk weight from s to v and infinity iff unreachable.", "quantifier": "every directed graph with arbitrary real weights, every start vertex", "why_tests_cant": "all graphs and all weights; early termination must be sound for every relaxation order", "anchors": ["mml/algorithms/GraphAlgorithms.h: BellmanFord, HasNegativeCycle"]}
{"id": "C08", "title": "TopologicalSort succeeds exactly on DAGs", "statement": "TopologicalSort returns a permutation of the vertices in which every edge goes forward if the directed graph is acyclic, and an empty result / IsDAG()==false exactly when it has a directed cycle.", "quantifier": "every directed graph", "why_tests_cant": "all graphs", "anchors": ["mml/algorithms/GraphAlgorithms.h: TopologicalSort, IsDAG"]}
{"id": "C09", "title": "ConnectedComponents is the connectivity partition", "statement": "For an undirected graph ConnectedComponents assigns two vertices the same component id iff a walk connects them; ids are 0..k-1 in order of their least vertex and numComponents is k; IsConnected holds iff there is at most one component.", "quantifier": "every undirected graph", "why_tests_cant": "all graphs", "anchors": ["mml/algorithms/GraphAlgorithms.h: ConnectedComponents, IsConnected"]}
{"id": "C10", "title": "UnionFind maintains the generated equivalence", "statement": "After any sequence of unite/find calls, find(a)==find(b) iff a and b are related by the equivalence closure of the united pairs; unite returns true iff its arguments were not yet related; find always terminates and never changes the equivalence.", "quantifier": "every size and every history of unite/find operations", "why_tests_cant": "histories are unbounded and path compression rewrites the structure during queries", "anchors": ["mml/algorithms/GraphAlgorithms.h: detail::UnionFind"]}
{"id": "C11", "title": "Kruskal returns a minimum spanning tree", "statement": "Kruskal on an undirected graph returns a set of graph edges that is acyclic and connects exactly the vertices the graph connects; its total weight is minimal among all spanning forests; it reports isComplete iff the graph is connected.", "quantifier": "every undirected graph with arbitrary weights", "why_tests_cant": "all graphs; minimality quantifies over all spanning forests", "anchors": ["mml/algorithms/GraphAlgorithms.h: Kruskal, MSTResult"]}
{"id": "C12", "title": "Prim returns a minimum spanning tree", "statement": "Prim from any start returns the edges of a minimum spanning tree of the start's component and reports isComplete iff that component is the whole graph.", "quantifier": "every undirected graph and start vertex", "why_tests_cant": "all graphs", "anchors": ["mml/algorithms/GraphAlgorithms.h: Prim"]}
{"id": "C13", "title": "Path reconstruction is sound", "statement": "ReconstructPath(parent,s,t) either returns an empty path or a path from s to t each of whose steps is (parent[v],v); ShortestPathUnweighted returns a walk of g with the fewest edges, empty iff unreachable.", "quantifier": "every parent array produced by a search, all graphs", "why_tests_cant": "all graphs", "anchors": ["mml/algorithms/GraphAlgorithms.h: ReconstructPath, ShortestPathUnweighted"]}
{"id": "C14", "title": "Graph matrices agree with the graph", "statement": "toAdjacencyMatrix has entry (u,v) equal to edgeWeight(u,v) if the edge exists and 0 otherwise; for undirected graphs it is symmetric; toLaplacianMatrix equals degree matrix minus adjacency matrix and its rows sum to zero (for graphs without self loops).", "quantifier": "every graph reachable through the API", "why_tests_cant": "all graphs", "anchors": ["mml/base/Graph.h: toAdjacencyMatrix, toDegreeMatrix, toLaplacianMatrix"]}
{"id": "C15", "title": "Graph factories build the named graph", "statement": "createPathGraph/createCycleGraph/createCompleteGraph/createStarGraph/createGridGraph of any size return a graph whose edge relation is exactly the named one, with the closed-form number of edges, and never throw for the documented sizes.", "quantifier": "every size parameter", "why_tests_cant": "sizes are unbounded", "anchors": ["mml/base/Graph.h: createPathGraph, createCycleGraph, createCompleteGraph, createStarGraph, createGridGraph"]}
{"id": "C16", "title": "ThreadPool runs each task exactly once", "statement": "In every execution of the pool, each task passed to enqueue is started at most once, only tasks passed to enqueue are started, tasks are started in FIFO order, and when the destructor returns every task enqueued before it has run to completion exactly once.", "quantifier": "every number of workers >= 1, every number of client threads and tasks, every interleaving of the lock/wait/notify steps including spurious wake-ups", "why_tests_cant": "schedules are unbounded in number and cannot be enumerated by tests", "anchors": ["mml/tools/ThreadPool.h: ThreadPool::ThreadPool, enqueue, ~ThreadPool"]}
{"id": "C17", "title": "wait_for_tasks is a barrier", "statement": "When wait_for_tasks returns, every task enqueued before that moment has completed (queue empty and none running) and every exception thrown so far has been recorded; the exception is a call made from inside a task, which never returns.", "quantifier": "every interleaving, any number of workers, waiters and enqueuers", "why_tests_cant": "schedules", "anchors": ["mml/tools/ThreadPool.h: wait_for_tasks, worker loop"]}
{"id": "C18", "title": "No lost wake-up and no deadlock in the pool", "statement": "In every reachable state in which no task is itself blocked inside wait_for_tasks, some thread of the pool can take a step, or every enqueued task has completed, no wait_for_tasks or destructor call is pending and the workers sleep or have ended; and without further client calls (or spurious wake-ups) only boundedly many steps are possible, so every queued task runs, every waiter returns and the destructor returns, whatever the scheduler does.", "quantifier": "every reachable state of the pool", "why_tests_cant": "liveness under all schedules", "anchors": ["mml/tools/ThreadPool.h: worker loop, enqueue, wait_for_tasks, ~ThreadPool"]}
{"id": "C19", "title": "Task exceptions never escape and are all recorded", "statement": "A task (or callback) that throws never terminates a worker: the exception is recorded exactly once in the exception list before the task counts as complete, the other tasks still run, and after wait_for_tasks has returned the list holds one entry per throwing task completed since it was last cleared or taken.", "quantifier": "every interleaving and every subset of throwing tasks", "why_tests_cant": "schedules", "anchors": ["mml/tools/ThreadPool.h: worker loop, has_exceptions, exception_count, get_exception, clear_exceptions, rethrow_if_exception"]}
{"id": "C20", "title": "Binary matrix files round-trip", "statement": "LoadMatrixFromBinary applied to the bytes written by SaveMatrixToBinary (followed by any further bytes) yields the same dimensions and bit-identical elements, for every matrix the loader's limits admit; the limits are exactly: both dimensions between 1 and 100000 and at most 10^8 elements, and every other matrix is refused with the output left as it was.", "quantifier": "every matrix size and every element bit pattern", "why_tests_cant": "all sizes and all 2^64 bit patterns per element", "anchors": ["mml/tools/serializer/MatrixIO.h: SaveMatrixToBinary, LoadMatrixFromBinary"]}
{"id": "C21", "title": "Binary loader rejects malformed input", "statement": "For every byte sequence of at least 24 bytes, LoadMatrixFromBinary returns false unless magic, version, element size and dimensions are right; if it returns true and the element bytes are all present, the dimensions are those in the header and every element is the one encoded in the file. The stronger claims that a truncated file is rejected, and that a file shorter than its header is handled at all, are false: a truncated file is accepted with made-up elements and a short header is read as uninitialised memory (C21_truncated_refuted, C21_short_refuted).", "quantifier": "every byte sequence", "why_tests_cant": "all byte strings; truncation at every point", "anchors": ["mml/tools/serializer/MatrixIO.h: LoadMatrixFromBinary"]}
{"id": "C22", "title": "Complex vector files round-trip", "statement": "LoadComplexVector applied to the bytes written by SaveComplexVector yields the same vector bit for bit; on any byte sequence with a complete header it either returns false or a vector of the header's length whose elements are all encoded in the file, so a file too short for its header is rejected; bytes after the last element are ignored. Saving a real vector and loading it as real gives it back.", "quantifier": "every vector length and every element bit pattern", "why_tests_cant": "all sizes and patterns", "anchors": ["mml/tools/serializer/VectorIO.h: SaveComplexVector, LoadComplexVector"]}
{"id": "C23", "title": "CSV field splitting inverts quoting", "statement": "Splitting a line obtained by joining fields with the delimiter, each field either written in quotes with embedded quotes doubled or, if it has neither quote nor delimiter, written as it is, gives back exactly the fields; the number of fields of any line is one more than the number of delimiters with an even number of quotes before them; trimming removes exactly the blanks at both ends; a byte order mark, and nothing else, is removed from the front.", "quantifier": "every list of strings and every delimiter other than the quote", "why_tests_cant": "all strings", "anchors": ["mml/tools/data_loader/DataLoaderParsing.h: SplitLine, Trim, RemoveBOM"]}
{"id": "C24", "title": "CSV loading produces a rectangular dataset", "statement": "Whatever the text, LoadCSV and LoadFromCSVString either throw DataError, exactly if the text has no non-blank line (or, with strictSchema, a line whose number of fields differs from the first), or return a dataset in which every column has as many entries (data and missing mask) as NumRows, the columns are those of the first line, and cell (r,c) shows the parse, for the type of the column, of field c of the r-th data line, or missing; the warnings are exactly the lines of the wrong width. Both loaders agree. A table written with quoted fields is read back with exactly its fields.", "quantifier": "every input text, delimiter and option setting; every table of newline-free fields", "why_tests_cant": "all texts", "anchors": ["mml/tools/data_loader/DataLoaderCSV.h: LoadCSV, LoadFromCSVString"]}
{"id": "C25", "title": "JSON loading keeps rows aligned", "statement": "Loading the text of a JSON array of flat objects, none empty, without repeated keys, whose keys all occur in the first object, yields a dataset with one row per object, named by the keys of the first object in order, whose row i, column k shows the value of key k in the i-th object, and is missing if the object lacks the key or has null there; whatever white space and escapes (\\n \\t \\r \\\" \\\\ \\/) the text uses and whatever follows the closing bracket. For any text at all, loading either throws DataError or yields a rectangular dataset with distinct column names. (Not true otherwise: the value of a key that first appears in a later object is shown in the first row, an empty object yields no row, a repeated key yields two rows, and \\u escapes are not decoded.)", "quantifier": "every such array and every text of it; every text", "why_tests_cant": "all inputs", "anchors": ["mml/tools/data_loader/DataLoaderJSON.h: JsonParser::ParseArrayOfObjects"]}
{"id": "C26", "title": "Dataset row and column operations commute with cell access", "statement": "On a rectangular dataset FilterRows keeps exactly the rows whose text in the named column satisfies the predicate, in order, with every column showing the same cells and still aligned; SelectColumns yields exactly the named columns unchanged, in the order asked for; Head(n)/Tail(n) show the first/last n rows; Sample(n) shows min(n, rows) different rows; the typed getters give one value per row for a column of a fitting type. An unknown column name or an unfitting type throws DataError.", "quantifier": "every rectangular dataset, predicate, column list, count and seed", "why_tests_cant": "all datasets and predicates", "anchors": ["mml/tools/data_loader/DataLoaderTypes.h: Dataset::FilterRows, SelectColumns, Head, Tail, Sample"]}
{"id": "C27", "title": "Interval set operations are the set operations", "statement": "For all intervals a,b and every x: contains answers membership; Complement(a) contains x iff a does not; Intersection(a,b) contains x iff both do (x strictly between -max and max); Union(a,b) of bounded non-empty intervals contains x iff one does, and for unbounded ones the same at every x that is not an end point; Difference(a,b) contains x iff a does and b does not, when no end point of a coincides with one of b or x is not an end point. A composite contains x iff a component does; its bounds are the least and greatest end points; a common point implies intersects. (At coinciding end points Difference, and Union with unbounded intervals, are wrong by that point: shown as refutations.)", "quantifier": "every pair of intervals with every combination of open/closed/infinite end points and every real x", "why_tests_cant": "infinitely many x and end-point coincidences", "anchors": ["mml/base/Intervals.h: Interval::Intersection, Union, Difference, Complement, contains"]}
{"id": "C28", "title": "Polynomial arithmetic is evaluation-compatible", "statement": "Evaluating p+q, p-q, p*q, scalar multiples and -p at x gives the same as the operation on the values p(x), q(x), over any commutative ring; Horner evaluation equals the sum of coefficient times power; IsEqual/Reduce do not change values.", "quantifier": "all coefficient vectors of all lengths and all points", "why_tests_cant": "all degrees", "anchors": ["mml/base/Polynom.h: Polynom::operator(), operator+, operator-, operator*, Reduce"]}
{"id": "C29", "title": "Polynomial division satisfies the division law", "statement": "poldiv(u,v,q,r) gives q,r with u = q*v + r and deg r < deg v whenever v has non-zero leading coefficient; it has no undefined behaviour for any u and v it accepts.", "quantifier": "all pairs of polynomials over a field", "why_tests_cant": "all degrees", "anchors": ["mml/base/Polynom.h: Polynom::poldiv"]}
{"id": "C30", "title": "Polynomial derivative and integral", "statement": "derivative() is the formal derivative (linear, satisfies the product rule and is the analytic derivative of evaluation over the reals); integral() is a right inverse of derivative(); Derive returns at x the value and successive derivatives.", "quantifier": "all polynomials and points", "why_tests_cant": "all degrees", "anchors": ["mml/base/Polynom.h: Polynom::Derive, derivative, integral"]}
{"id": "C31", "title": "FromValues interpolates", "statement": "FromValues(x,y) returns a polynomial of degree < n with p(x_i)=y_i for all i when the nodes are pairwise distinct.", "quantifier": "all n and all node/value vectors over a field", "why_tests_cant": "all sizes", "anchors": ["mml/base/Polynom.h: Polynom::FromValues"]}
{"id": "C32", "title": "Matrix arithmetic obeys the matrix algebra", "statement": "Addition, multiplication, scalar multiplication, transpose and identity on Matrix satisfy the ring-module laws (associativity, distributivity, transpose of product, unit) for all conforming sizes, throw exactly on non-conforming sizes, and never access storage out of range.", "quantifier": "all sizes and all entries over a commutative ring", "why_tests_cant": "all sizes", "anchors": ["mml/base/Matrix/Matrix.h: operator+, operator-, operator*, transpose, Transpose, MakeUnitMatrix, Resize"]}
{"id": "C33", "title": "Matrix::Invert inverts or throws", "statement": "For every square matrix with a non-zero entry, Invert (in exact arithmetic) either returns a two-sided inverse of the original matrix or throws; it throws for every singular one, and a throw means the matrix sends some vector with a coordinate 1 to a vector whose entries are all below eps*max|a_ij|*n. A non-square matrix throws. The all-zero matrix is singular but does not make it throw.", "quantifier": "all square matrices over a field", "why_tests_cant": "all sizes, all entries", "anchors": ["mml/base/Matrix/Matrix.h: Invert, inverse"]}
{"id": "C34", "title": "Gauss-Jordan solves or throws", "statement": "GaussJordanSolver (matrix and vector forms, in exact arithmetic) either leaves in b the unique solution of A x = b for the original A and b, and in A the inverse of A, or throws; it throws for every singular A, non-square A and mismatched b, and a throw for a square system means A is singular or within the stated threshold of being singular.", "quantifier": "all sizes, all right-hand sides over a field", "why_tests_cant": "all sizes", "anchors": ["mml/core/LinAlgEqSolvers/LinAlgDirect.h: GaussJordanSolver"]}
{"id": "C35", "title": "LU solves, inverts and computes determinants", "statement": "If LUSolver's constructor returns for A (exact arithmetic), Solve(b) satisfies A x = b for every b, inverse() is the inverse of A, det() is the determinant of A; a singular A is always rejected by an exception.", "quantifier": "all sizes, all entries over an ordered field", "why_tests_cant": "all sizes", "anchors": ["mml/core/LinAlgEqSolvers/LinAlgDirect.h: LUSolver, LUSolverInPlace"]}
{"id": "C36", "title": "Band solver agrees with the dense system", "statement": "For a non-zero band matrix A with at most dim subdiagonals, BandDiagonalSolver(A) either throws SingularMatrixError, in which case A sends some vector with a coordinate 1 below the threshold eps * (largest row sum) * n, or returns a solver: Solve(b) is then the unique x with A x = b, Solve(B) solves for every column of B, and Det() is the determinant of A. Every singular non-zero A is refused, and a right-hand side of the wrong length throws.", "quantifier": "all dimensions, all lower and upper widths, all band matrices and right-hand sides, exact arithmetic over any field", "why_tests_cant": "all sizes", "anchors": ["mml/core/LinAlgEqSolvers/LinAlgDirect.h: BandDiagonalSolver"]}
{"id": "C37", "title": "Cholesky factor and solve", "statement": "CholeskySolver's constructor throws exactly when A is not square, not symmetric within the documented tolerance, or (for a symmetric A) not positive definite; if it returns on a symmetric A then L is lower triangular with positive diagonal, L L^T equals A, Solve(b) returns the unique x with A x = b, inverse() returns the inverse and logdet() the logarithm of the determinant.", "quantifier": "all sizes and all real matrices and right-hand sides", "why_tests_cant": "all sizes", "anchors": ["mml/core/LinAlgEqSolvers/LinAlgDirect.h: CholeskySolver"]}
{"id": "C38", "title": "Bisection localises a root", "statement": "If FindRootBisection reports convergence, its result is the end of a sub-bracket with a sign change whose width is below the tolerance (or the result is an exact zero), so for continuous f it is within tolerance of a true root inside the bracket; with a strict sign change and positive tolerance it converges within k iterations as soon as |x2-x1| < 2^k tolerance and the limit allows k; without a strict sign change (also when an end point is an exact root) it reports failure.", "quantifier": "every continuous function, bracket, tolerance and iteration limit", "why_tests_cant": "all continuous functions", "anchors": ["mml/algorithms/RootFinding/RootFindingBracketing.h: FindRootBisection"]}
{"id": "C39", "title": "Bracketing routines return genuine brackets", "statement": "BracketRoot returning true leaves x1,x2 with f(x1) f(x2)<0 and an interval containing the original one, 2.6^k times as long; FindRootBrackets returns exactly the consecutive sample intervals whose end values do not share a strict sign, in order, with no out-of-range write for any number of brackets, each containing a root of a continuous f. (False of the code: a false answer of BracketRoot does not mean no bracket; xb1, xb2 are not resized to the count.)", "quantifier": "every function, interval and number of points", "why_tests_cant": "all functions", "anchors": ["mml/algorithms/RootFinding/RootFindingBracketing.h: BracketRoot, FindRootBrackets"]}
{"id": "C40", "title": "False position, Ridders and Brent keep the root bracketed", "statement": "For every function with a strict sign change, the results of FindRootFalsePosition and FindRootBrent, and the converged result of FindRootRidders (positive tolerance, bracket away from -1e99), lie inside [x1,x2], carry function_value = f(root), and end a bracket with a sign change; for continuous f Brent's converged result is within 4 eps |root| + tolerance of a true root and false position's is within tolerance of one or has |f| < tolerance. (Ridders can report a point outside the bracket near -1e99, and a converged point far from every root: shown as refutations.)", "quantifier": "every function, bracket, tolerance and iteration limit", "why_tests_cant": "all functions", "anchors": ["mml/algorithms/RootFinding/RootFindingBracketing.h: FindRootFalsePosition", "mml/algorithms/RootFinding/RootFindingMethods.h: FindRootRidders, FindRootBrent"]}
{"id": "C41", "title": "KD-tree queries equal brute force", "statement": "For any point set and a leaf size of at least one, build terminates with a tree whose depth is at most the logarithm of the number of points; findNearest returns a point at minimum distance if some squared distance is below the largest double and reports 'not found' otherwise; findKNearest returns the min(k,n) closest points in non-decreasing distance; findInRadius returns exactly the points within the radius, findInBox exactly the points in the closed box, each index once. (Refuted: a leaf size of zero never terminates; the brute-force helper reports found=true without an index when all squared distances overflow.)", "quantifier": "every list of points (duplicates included), dimension, leaf size and query, every admissible behaviour of nth_element", "why_tests_cant": "all point sets; pruning errors show only in rare configurations", "anchors": ["mml/algorithms/CompGeometry/KDTree.h: KDTree::build, findNearest, findKNearest, findInRadius, findInBox"]}
{"id": "C42", "title": "Convex hull is convex and contains the points", "statement": "In exact arithmetic, when the tolerance separates the points (distinct points differ by at least the tolerance in a coordinate and no three of them span a doubled area in (0, tolerance]; integer coordinates always qualify), ConvexHull2D::Compute returns vertices taken from the input, each once, in strictly counter-clockwise convex position; every input point lies on or left of every hull edge and is a convex combination of hull vertices; points not all on a line give at least three vertices; the result does not depend on the order of the input; and the internal array of 2n points is never exceeded. (Without the separation it is false: a square of side 1e-6 yields two points.)", "quantifier": "every finite set of points", "why_tests_cant": "all point sets", "anchors": ["mml/algorithms/CompGeometry/ConvexHull.h: ConvexHull2D::Compute"]}
{"id": "C43", "title": "Polygon clipping is confined to both polygons", "statement": "In exact arithmetic and for a tolerance eps >= 0, every vertex of ClipPolygon(subject, clip) is left of every clip edge up to eps and in the subject's region; every edge of the result is part of a subject edge or runs along a clip edge's line; a subject vertex left of all clip edges is kept; a subject inside is returned unchanged and one outside an edge gives the empty polygon. With eps = 0 and a convex counter-clockwise subject the region of the result is exactly the subject's region intersected with the clip half-planes (for ClipToRect: with the rectangle). (The clip polygon must be counter-clockwise, which is not documented; PolygonUnionApprox is not exact for convex polygons as its comment claims.)", "quantifier": "every subject polygon, every clip polygon, every tolerance >= 0", "why_tests_cant": "all polygons", "anchors": ["mml/algorithms/CompGeometry/PolygonOps.h: PolygonOps::ClipPolygon, ClipAgainstEdge"]}
{"id": "C45", "title": "BandDiagonalMatrix agrees with the dense matrix it stands for", "statement": "Reading an entry of a BandDiagonalMatrix gives zero outside the band; writing outside the band throws and writing inside changes that entry only; matrix-vector product, ToFullMatrix, Trace, GetDiagonal, Transpose, +, -, unary minus and scalar multiplication give what the same operation gives on the dense matrix; addition and subtraction of different shapes throw; IsEqualTo returns true only if all entries agree within the tolerance.", "quantifier": "all dimensions and widths, all entries, all contents of the unused storage cells", "why_tests_cant": "all widths, including bands wider than the matrix, and all contents of the padding cells", "anchors": ["mml/base/Matrix/MatrixBandDiag.h: BandDiagonalMatrix"]}
{"id": "C46", "title": "Equidistant covering lies inside the interval", "statement": "For every bounded interval with lower < upper and every n >= 1, GetEquidistantCovering(n) returns exactly n points, all of which belong to the interval; with n >= 2 a closed end point is itself the first (last) point; n <= 0 gives no points. For an interval unbounded below with upper end under -10^10 the points are outside (refuted).", "quantifier": "every interval over the reals and every n", "why_tests_cant": "infinitely many intervals and counts; open end points only go wrong by an epsilon", "anchors": ["mml/base/Intervals.h: BaseInterval::GetEquidistantCovering"]}
{"id": "C47", "title": "Newton and secant results", "statement": "A converged FindRootNewton result lies in [x1,x2] and ends a Newton step shorter than the tolerance, whatever the derivative estimate; FindRootNewton and FindRootSecant report function_value = f(root), use at most the allowed iterations, reject a common strict sign, always set an error message when not converged, and find the exact root of every affine function in two iterations.", "quantifier": "every function, derivative estimate, bracket, tolerance and iteration limit (exact real arithmetic)", "why_tests_cant": "iteration paths depend on the function; only a proof covers all of them", "anchors": ["mml/algorithms/RootFinding/RootFindingMethods.h: FindRootNewton, FindRootSecant"]}
{"id": "C48", "title": "Column type inference", "statement": "A field counts as integer, real, boolean, date, time, date-time or missing exactly if, trimmed, it is of the documented form; a type other than String is inferred only if at least 90% of the non-missing fields fit it (the comparison in doubles is exact), a column in which all fields fit a type gets that type, the order of the rows does not matter, and a column of decimal integers in the range of int is read back exactly. Not guaranteed: a field that does not fit the inferred type may be read as another value instead of missing (3.7 in an integer column is read as 3), and integers beyond int are missing.", "quantifier": "every column of texts", "why_tests_cant": "all strings and all columns", "anchors": ["mml/tools/data_loader/DataLoaderParsing.h: InferColumnType, ParseValue", "mml/tools/data_loader/DataLoaderTypes.h: IsMissingValue"]}
{"id": "C44", "title": "Matrix containers: construction, slicing and updates address exactly the named entries", "statement": "A Matrix constructed from sizes, a fill value, a vector of rows or a flat list holds at (i,j) exactly the value those arguments say (missing values of a non-strict list are zero), and sizes that are negative or above the documented limits, ragged rows and strict lists of the wrong length are refused with an exception. at(i,j) returns or replaces entry (i,j) and only it for indices in range and throws for every other pair of ints. GetSubmatrix, VectorFromRow/Column/Diagonal, GetLower/GetUpper return the entries of the named region; Resize keeps exactly the common entries (or none) and zero-fills the rest; InitRowWithVector/InitColWithVector and SwapRows/SwapCols change exactly the named rows or columns; every out-of-range or mis-sized argument throws and no call reads or writes outside the storage. operator== is true exactly for equal sizes and equal entries.", "quantifier": "all matrix sizes and contents, all int arguments (including negative ones), any element type", "why_tests_cant": "Index arithmetic errors (row/column mix-ups on non-square shapes, off-by-one at the borders) depend on the shape; tests try a few small shapes.", "anchors": ["mml/base/Matrix/Matrix.h: Matrix constructors, at, GetSubmatrix, Resize, VectorFromRow, VectorFromColumn, VectorFromDiagonal, GetLower, GetUpper, InitRowWithVector, InitColWithVector, SwapRows, SwapCols, operator=="]}
{"id": "C49", "title": "TridiagonalMatrix: storage, arithmetic and Thomas solver", "statement": "A TridiagonalMatrix built from three diagonals or from a row-by-row list (dimension at least 2) has exactly those entries; operator() reads and writes the entry (i,j) of the band and only it, and throws on writing outside the band; +, -, scaling and GetTranspose act entrywise. Solve either throws SingularMatrixError or returns the vector x with A x = rhs in every row, which is then the only solution; it may be called with the same vector for rhs and sol; and if every diagonal entry exceeds the sum of the magnitudes of the other entries of its row by at least the tolerance it does not throw. (Refuted without the size hypotheses: dimension 1 lists, short right-hand sides and indices outside the matrix are read out of bounds.)", "quantifier": "all dimensions, all entries and right-hand sides, exact arithmetic in any field; the dominance clause over the reals", "why_tests_cant": "The elimination recurrences hold for every dimension and every right-hand side; tests try a few systems.", "anchors": ["mml/base/Matrix/MatrixTriDiag.h: TridiagonalMatrix constructors, operator(), operator+, operator-, operator*, operator/, GetTranspose, Solve"]}
{"id": "C50", "title": "Locating the interpolation window; piecewise linear interpolation", "statement": "For every table of n points and every window size 2 <= m <= n, the interval search returns a start index such that the m points from there lie inside the table and contain both ends of the interval that the query belongs to (first and last interval extended to infinity), as centrally as the table allows; this holds for ascending and for descending tables. Construction succeeds exactly when n >= 2, 2 <= m <= n and no abscissa occurs twice. The linear interpolant of an ascending table equals the connecting line on every table interval, the tabulated value at every abscissa, lies between the neighbouring ordinates, and outside the table is 0 or the prolonged end line as requested. Refuted clauses: a descending table is accepted but without extrapolation evaluates to 0 inside its own range; a y vector shorter than x is accepted and read out of bounds. For a twice differentiable function the linear interpolant is off by at most an eighth of the bound of the second derivative times the square of the interval.", "quantifier": "all table sizes, all abscissas (ascending / descending), all ordinates, all window sizes and all query points", "why_tests_cant": "The bisection has unboundedly many table sizes, window sizes and query positions (at nodes, outside, between); tests touch a few.", "anchors": ["mml/base/InterpolatedFunctions/InterpolatedRealFunction.h: RealFunctionInterpolated::RealFunctionInterpolated, locate, operator()", "mml/base/InterpolatedFunctions/InterpolatedRealFunction.h: LinearInterpRealFunc::calcInterpValue"]}
{"id": "C51", "title": "Polynomial interpolation by Neville's algorithm", "statement": "For every window of m points with distinct abscissas there is one polynomial with at most m coefficients, the same for all query points, whose value PolynomInterpRealFunc returns; it takes the tabulated values at the points of the window and is the only such polynomial. Consequently data from a polynomial of degree below m is reproduced exactly at every query point, inside or outside the table, and at each tabulated abscissa of an ascending table the tabulated ordinate is returned. The tableau walk never leaves its arrays and no division by zero occurs. For a function with m derivatives the error at x is f^(m)(xi) / m! times the product of the distances to the m points of the window around x, hence at most B ((m-1) h)^m / m! inside a table of mesh h.", "quantifier": "all fields, all table sizes, window sizes m >= 2, distinct abscissas, ordinates and query points", "why_tests_cant": "The path through the tableau depends on the nearest point and on m; equality with the interpolating polynomial for every m and every node set needs an induction.", "anchors": ["mml/base/InterpolatedFunctions/InterpolatedRealFunction.h: PolynomInterpRealFunc::calcInterpValue"]}
{"id": "C52", "title": "Cubic spline interpolation", "statement": "For every strictly ascending table the spline object is a function s on the whole real line with: s takes the tabulated values; s is twice differentiable everywhere with continuous second derivative; on each table interval it is a cubic polynomial (the end cubics continue outside); with an end derivative above 0.99e99 the second derivative at that end is 0, otherwise the first derivative at that end is the given one. Derivative and SecondDerivative return the derivatives of s at every point, the stored numbers are its second derivatives at the data points, and Integrate(a,b) is the difference of an antiderivative of s for a,b in the table in either order, and throws for bounds outside. No pivot of the tridiagonal sweep vanishes. Refuted clause: for a descending table, which the constructor accepts, Integrate throws for every interval.", "quantifier": "all table sizes >= 2, all strictly ascending abscissas, all ordinates, all end derivatives, all query points and integration bounds", "why_tests_cant": "Smoothness at every node for every table is a statement about limits; the sweep must be solved for every n.", "anchors": ["mml/base/InterpolatedFunctions/InterpolatedRealFunction.h: SplineInterpRealFunc::initSecDerivs, calcInterpValue, Derivative, SecondDerivative, Integrate, GetSecondDerivative"]}
{"id": "C53", "title": "Barycentric rational interpolation (Floater-Hormann)", "statement": "For every strictly ascending table of n points and every 0 <= d < n the object is a continuous function on the whole real line (the denominator has no real zero), takes the tabulated values at the data points, and elsewhere is the blend sum_i L_i(x) p_i(x) / sum_i L_i(x), where p_i is the polynomial of degree at most d through the points i..i+d and L_i(x) = (-1)^i / ((x-x_i)...(x-x_{i+d})). Data from a polynomial of degree at most d is reproduced everywhere; with d = n-1 the object is the interpolating polynomial. d < 0 and d >= n are refused. Refuted clauses of the class comment: d = 1 is not piecewise linear and d = 0 is not piecewise constant; a y vector shorter than x is accepted and read out of bounds.", "quantifier": "all table sizes n, all d below n, all strictly ascending abscissas, all ordinates, all query points", "why_tests_cant": "Absence of poles is a statement about every real point and every node set; the blend identity ties O(nd) weight sums to local interpolants for all n and d.", "anchors": ["mml/base/InterpolatedFunctions/InterpolatedRealFunction.h: BarycentricRationalInterp::BarycentricRationalInterp, operator()"]}
{"id": "C54", "title": "The discrete Fourier transform and its inverse", "statement": "For every non-empty complex vector of length N, DFT::Forward returns X_k = sum_j x_j e^(-2 pi i jk/N) and DFT::Inverse returns x_j = 1/N sum_k X_k e^(2 pi i jk/N); each undoes the other exactly. The real-input variant gives the same sums and InverseReal returns the real samples. ComputeBin returns the one requested bin and refuses an index outside 0..N-1; empty input is refused. The energy of the spectrum is N times that of the signal.", "quantifier": "all lengths N, all complex (real) vectors, all bin indices", "why_tests_cant": "Invertibility rests on the orthogonality of the N-th roots of unity for every N; tests sample a few lengths and signals.", "anchors": ["mml/algorithms/Fourier.h: DFT::Forward, DFT::Inverse, DFT::InverseReal, DFT::ComputeBin"]}
{"id": "C55", "title": "The fast Fourier transform equals the discrete one", "statement": "For every power-of-two length, FFT::Forward and FFT::Inverse return exactly what DFT::Forward and DFT::Inverse return, and undo each other. Every other length is refused with invalid_argument. IsPowerOfTwo is true exactly of 2^k; NextPowerOfTwo(n) is the least power of two not below n for n <= 2^30; Log2 is the floor of the binary logarithm; ZeroPad keeps the data and appends zeros to the next power of two. Refuted: for n between 2^30 and 2^31 NextPowerOfTwo overflows int.", "quantifier": "all powers of two, all complex vectors, all other lengths; all int arguments of the helpers", "why_tests_cant": "The bit-reversal permutation and the in-place butterfly stages have to be right for every number of stages; that is an induction on the block size, not a finite set of cases.", "anchors": ["mml/algorithms/Fourier.h: FFT::Transform, FFT::Forward, FFT::Inverse, FFT::BitReversalPermute, FFT::ZeroPad, IsPowerOfTwo, NextPowerOfTwo, Log2"]}
{"id": "C56", "title": "The real FFT computes half of the spectrum and inverts it", "statement": "For every power-of-two length n >= 2 RealFFT::Forward returns bins 0..n/2 of the discrete Fourier transform of the n real samples. RealFFT::Inverse, given n/2+1 bins, returns the n real samples whose spectrum is the Hermitian extension of those bins (imaginary parts of the first and last bin are ignored); so Inverse(Forward(x)) = x, and Forward(Inverse(S)) = S when those two imaginary parts are zero. The in-place Transform(+1) writes the same bins in packed order and Transform(-1) undoes it. Other sizes are refused.", "quantifier": "all powers of two n >= 2, all real vectors, all half spectra; all other sizes", "why_tests_cant": "The even/odd split and the conjugate pairing hold for all n only through identities between sums of roots of unity.", "anchors": ["mml/algorithms/FourierRealFFT.h: RealFFT::Forward, RealFFT::Inverse, RealFFT::Transform"]}
{"id": "C57", "title": "Cosine and sine transforms: fast equals reference, and both invert", "statement": "For every non-empty vector of length N, DCT::ForwardII returns X_k = 2/N sum_n x_n cos(pi k (n+1/2)/N) and DCT::InverseII returns x_n = X_0/2 + sum_{k>=1} X_k cos(pi k (n+1/2)/N), whichever of the two implementations is selected (the FFT-based and the direct one agree on every power of two). The two undo each other in both orders. ForwardDST returns sqrt(2/(N+1)) sum_n x_n sin(pi (k+1)(n+1)/(N+1)) and InverseDST undoes it. Empty input is refused, and the fast versions refuse lengths that are not powers of two.", "quantifier": "all lengths N >= 1 (powers of two for the fast versions), all real vectors", "why_tests_cant": "Equality of the FFT-based and direct implementations and invertibility are trigonometric identities in N.", "anchors": ["mml/algorithms/Fourier.h: DCT::ForwardII, DCT::InverseII, DCT::ForwardII_Fast, DCT::InverseII_Fast, DCT::ForwardII_Reference, DCT::InverseII_Reference, DCT::ForwardDST, DCT::InverseDST"]}
{"id": "C58", "title": "Means and moments are what their names say", "statement": "For every non-empty sample Mean returns the arithmetic mean, which lies between any bounds of the data. For two or more values AvgVar, Variance, StdDev return the unbiased sample variance and its root: never negative, zero exactly when all values are equal, scaled by a^2 under x -> a x + b. Moments returns mean deviation, standard deviation, skewness and excess kurtosis by their formulas and refuses constant samples. WeightedMean is the barycentre (between the bounds of the data, equal to Mean for equal weights), WeightedVariance the weighted sum of squared deviations over (sum of weights - 1); negative weights, wrong sizes and non-positive total weight are refused. For positive data HarmonicMean <= GeometricMean <= Mean, and GeometricMean^n is the product; a non-positive value is refused. Empty samples are refused. Refuted: Variance of a single value is not refused, it divides by zero.", "quantifier": "all samples of every length, all weights", "why_tests_cant": "Formulas, sign, invariance and the inequality of means hold for every sample; tests compare a handful of numbers.", "anchors": ["mml/algorithms/Statistics.h: Avg, AvgVar, AvgStdDev, Mean, Variance, StdDev, Moments, GeometricMean, HarmonicMean, WeightedMean, WeightedVariance"]}
{"id": "C59", "title": "Order statistics: median, percentiles, mode, trimmed mean", "statement": "For every non-empty sample Median is the middle of the sorted values (the mean of the two middle ones for an even count), so at least half of the values lie on each side. Percentile(p) interpolates linearly between the neighbouring order statistics, is monotone in p, and is the minimum at 0 and the maximum at 100; Quartiles agree with Percentile 25, 50, 75 and with Median; IQR is their difference. MinMax and Range bound the data by its own elements. Mode is the most frequent value, the smallest of them on a tie. TrimmedMean(p) is the mean of what remains after dropping floor(n p/100) values at each end, and something always remains. MAD is the median distance from the median. Empty samples and percentages outside 0..100 (0..50 for trimming) are refused.", "quantifier": "all samples of every length in every order, all percentages", "why_tests_cant": "The off-by-one positions depend on length parity and on where p(n-1)/100 falls; only a proof covers every length, order and percentage.", "anchors": ["mml/algorithms/Statistics.h: Median, Percentile, Quartiles, IQR, MinMax, Range, Mode, TrimmedMean, MAD"]}
{"id": "C60", "title": "Covariance and Pearson correlation", "statement": "For two samples of the same size n >= 2, Covariance is the unbiased sample covariance: symmetric, linear, shift invariant, and equal to Variance on the diagonal. PearsonCorrelation of two non-constant samples is covariance over the product of the standard deviations, lies in [-1, 1], is symmetric, keeps its absolute value under affine maps of a variable (the sign follows the slope), and is 1 or -1 exactly when one variable is an increasing or decreasing affine function of the other; RSquared is its square. The test statistic is r sqrt((n-2)/(1-r^2)), infinite for r = +-1. CovarianceMatrix is symmetric and positive semidefinite; CorrelationMatrix has unit diagonal and entries in [-1,1]. Wrong sizes and constant samples are refused.", "quantifier": "all pairs of samples of every length; all data matrices of every shape", "why_tests_cant": "The bound is the Cauchy-Schwarz inequality and the extreme case its equality condition: statements about all samples.", "anchors": ["mml/algorithms/Statistics.h: Covariance, PearsonCorrelation, PearsonCorrelationWithTest, RSquared, CovarianceMatrix, CorrelationMatrix"]}
{"id": "C61", "title": "Ranks, Spearman's rho and Kendall's tau-b", "statement": "For data whose distinct values are at least 1e-14 apart, the ranks give every value the average of the positions of its equals (number of smaller values + (number of equal values + 1)/2), whatever order the sort leaves ties in; they lie in 1..n and keep the order. SpearmanCorrelation is Pearson's coefficient of the two rank vectors, in [-1,1]; it is 1 when both variables are ordered alike and 1 - 6 sum d^2/(n(n^2-1)) when there are no ties; its z score is rho sqrt(n-1). KendallCorrelation is (C-D)/sqrt((C+D+Tx)(C+D+Ty)) of the numbers of concordant, discordant and singly tied pairs (0 when a factor is 0), in [-1,1], symmetric, and 1 / -1 for equal / opposite orders; the z score follows the normal approximation. Too few values, different sizes and (Spearman) constant samples are refused. Refuted without the separation hypothesis: the tolerance is absolute, so rescaling the data can change ranks and pair counts.", "quantifier": "all pairs of samples of every length with distinct values 1e-14 apart, all index orders a sort may produce", "why_tests_cant": "Tie groups of every size at every position, and every order an unstable sort may return, have to give the same ranks.", "anchors": ["mml/algorithms/Statistics/StatisticsRank.h: ComputeRanks, SpearmanCorrelation, SpearmanCorrelationWithTest, KendallCorrelation, KendallCorrelationWithTest"]}
{"id": "C62", "title": "Bracketing a minimum", "statement": "For every function and any two different starting points, a valid result of BracketMinimum is three points whose middle one is strictly between the others, whose stored values are the function's, and whose middle value is no higher than the outer two or than either starting value; a continuous function has a minimum strictly inside such a bracket. An invalid result (200 steps) is three ordered points with strictly falling values. Refuted: equal starting points are not refused (the 'valid' bracket is one point three times), and the documented strict inequality fails on a constant function.", "quantifier": "all functions, all starting points, every path of up to 200 steps through the parabolic and golden branches", "why_tests_cant": "The loop has five branches chosen by the function's values; the ordering and descent invariants must hold along all paths.", "anchors": ["mml/algorithms/Optimization.h: BracketMinimum"]}
{"id": "C63", "title": "Golden section search", "statement": "From a valid bracket with positive tolerance, a result is a point strictly inside the bracket with its true value, no higher than the middle point, flagged converged. On a unimodal function it lies within 2 tol/(1-tol) |xmin| of the minimiser. The search ends whenever 0 is outside the bracket, or the function is unimodal with a non-zero minimiser. The versions that bracket first do no worse than either starting point (for maximisation: no lower). Non-positive tolerances and invalid brackets are refused. Refuted: when the minimiser is 0 the search never ends, for any tolerance up to 1/2.", "quantifier": "all functions, brackets, tolerances and numbers of iterations", "why_tests_cant": "Termination and the accuracy bound are statements about every unimodal function; the non-termination is invisible to a test whose minimiser is not 0.", "anchors": ["mml/algorithms/Optimization.h: GoldenSectionSearch, GoldenSectionMaximize"]}
{"id": "C64", "title": "Brent's minimisation, with and without derivatives", "statement": "From a valid bracket with positive tolerance and iteration limit, a result of BrentMinimize is a point strictly inside the bracket with its true value, no higher than the middle point, flagged converged within the limit. For every function whatever there is an iteration limit that is enough. On a unimodal function the result is within 2(tol |xmin| + eps/1000) of the minimiser. The versions that bracket first do no worse than either starting point. BrentMinimizeWithDeriv returns a point with its true value no higher than the middle point, and for a function falling before m and rising after it, with a derivative of that sign, a point within 2(tol |xmin| + eps/1000) of m. Bad tolerances, limits and brackets are refused; reaching the limit throws. Refuted: the derivative version can return a point outside the bracket.", "quantifier": "all functions and derivatives, brackets, tolerances, iteration limits", "why_tests_cant": "Brent's method mixes parabolic, golden and minimum-length steps; that each trial point stays inside, shrinks the interval by a fixed amount and keeps the minimiser is an invariant over all runs.", "anchors": ["mml/algorithms/Optimization.h: BrentMinimize, BrentMaximize, BrentMinimizeWithDeriv"]}
{"id": "C65", "title": "Quaternion algebra", "statement": "Quaternions form Hamilton's ring: the product is associative, distributes over the sum, has Identity as unit, and i^2 = j^2 = k^2 = -1 with ij = k = -ji, jk = i, ki = j. Scaling is multiplication by a real. Conjugation reverses products, q q* = |q|^2, norms multiply, Cauchy-Schwarz holds for Dot. Inverse is a two-sided inverse whenever |q|^2 >= 1e-12, throws otherwise, and is the conjugate for unit quaternions; Normalized returns the unit quaternion in the same direction, and throws exactly when the norm is below 1e-12. Refuted: every non-zero quaternion is invertible (the threshold is absolute).", "quantifier": "all quaternions over the reals", "why_tests_cant": "Sign errors in one of sixteen products vanish on symmetric or axis-aligned test data; the laws are polynomial identities in up to twelve variables.", "anchors": ["mml/base/Quaternions.h: operator*, operator+, operator-, operator/, Conjugate, Norm, Inverse, Normalize, Normalized, Dot"]}
{"id": "C66", "title": "Unit quaternions rotate", "statement": "For a unit quaternion q, Rotate(v) is the vector part of q [0,v] q^-1 (whose scalar part is 0), and is a proper rotation: linear, keeping lengths, scalar and vector products. The product of quaternions composes the rotations, q and -q rotate alike and only they do, and Inverse undoes the rotation. ToRotationMatrix is an orthogonal matrix of determinant 1 that acts like Rotate. FromAxisAngle(u, a) for a unit u is a unit quaternion that rotates by Rodrigues' formula. FromEulerZYX turns about x, then y, then z; FromEulerXYZ about z, then y, then x.", "quantifier": "all unit quaternions, vectors, unit axes and angles", "why_tests_cant": "The order of composition, handedness and the optimised form of Rotate are conventions that a few axis-aligned cases cannot pin down.", "anchors": ["mml/base/Quaternions.h: Rotate, ToRotationMatrix, FromAxisAngle, FromEulerZYX, FromEulerXYZ"]}
{"id": "C67", "title": "Conversions of rotations, and interpolation between them", "statement": "FromRotationMatrix of every rotation matrix is a unit quaternion whose matrix is that matrix, and FromRotationMatrix(ToRotationMatrix(q)) is q or -q. The angle of FromAxisAngle(u, a) is a for 0 <= a <= 2 pi; the axis is u, and a unit quaternion is rebuilt from its axis and angle, when the vector part is at least 2e-6 long. ToEulerZYX gives back yaw and roll in (-pi, pi] and pitch in (-pi/2, pi/2). Slerp of unit quaternions is defined for every t, of unit length, in the plane of the two (with non-negative coefficients for t in [0, 1]), starts at the first, ends at the second or its negative, whichever is nearer, and the angle from the first is t times the whole angle unless |dot| > 0.9995. Refuted: rotations by less than about 1e-6 keep their axis; Euler angles at a pitch of a quarter turn represent the same rotation.", "quantifier": "all rotation matrices, unit quaternions, axes, angles and parameters t", "why_tests_cant": "FromRotationMatrix has four branches by which diagonal entry dominates, and the round trips are equations between transcendental functions on whole ranges of angles.", "anchors": ["mml/base/Quaternions.h: FromRotationMatrix, ToRotationMatrix, GetRotationAxis, GetRotationAngle, ToAxisAngle, ToEulerZYX, Lerp, Slerp"]}
{"id": "C68", "title": "Vectors of space: unit vectors, perpendicular frames and angles", "statement": "GetAsUnitVector and Normalized of a non-zero vector are its direction with length 1, and leave the zero vector zero. GetPerpendicularVectors fails exactly for the zero vector and otherwise gives two unit vectors perpendicular to the vector and to each other. AngleToVector is the t in [0, pi] with a.b = |a||b| cos t, is symmetric, and throws exactly when a vector is shorter than the machine epsilon. Positive multiples are reported parallel. Refuted: opposite vectors are reported parallel.", "quantifier": "all vectors", "why_tests_cant": "The choice of the helper axis depends on which component is smallest, ties included; that the cross product never vanishes is a statement about all vectors.", "anchors": ["mml/base/Vector/VectorTypes.h: Vector3Cartesian Normalized, GetAsUnitVector, IsParallelTo, IsPerpendicularTo, GetPerpendicularVectors, AngleToVector"]}
{"id": "C69", "title": "IntegrateTrap: adaptive trapezoidal rule", "statement": "The successive estimates are exactly the composite trapezoidal rules with 1, 2, 4, ... panels; the call stops at the first one (of index at least 6) whose change is below eps|old| + eps 2^-52 and otherwise returns the last one, not converged. The value returned is off by at most M|b-a|^3/(12 n^2) for n panels when f' is M-Lipschitz; straight lines are exact; exchanging the bounds negates the value and changes nothing else. Refuted: converged means close to the integral (sin^2(128 pi x)); the error estimate of an unconverged result says anything (it is always 0); a call with no steps has a defined result.", "quantifier": "all integrands, bounds in either order, tolerances and numbers of steps", "why_tests_cant": "A rule refined in place looks right on any few integrands; that every level is the exact composite rule and the error bound are statements about all functions and all levels.", "anchors": ["mml/core/Integration/Integration1D.h: IntegrateTrap, TrapIntegrator::next"]}
{"id": "C70", "title": "IntegrateSimpson", "statement": "From the second one on the successive estimates are exactly the composite rules of Simpson with 1, 2, 4, ... panels, with the stopping test of C69; the value returned is off by at most M|b-a|^5/(2880 n^4) for n panels when the third derivative is M-Lipschitz, and cubics are exact. Refuted: with a single step the value is an approximation of the integral (it is 4/3 of the trapezoidal rule, wrong for constants).", "quantifier": "all integrands, bounds in either order, tolerances and numbers of steps", "why_tests_cant": "As for C69; Simpson's rule appears only through the combination (4 T_2n - T_n)/3.", "anchors": ["mml/core/Integration/Integration1D.h: IntegrateSimpson"]}
{"id": "C71", "title": "IntegrateRomberg", "statement": "After j steps (at least K) the value is the extrapolation to 0, by the polynomial through the last K points (4^-i, T_i), of the composite trapezoidal rules T_i; the error estimate is the distance to the extrapolation through the last K-1 points, and the call stops at the first step where that is at most eps|value| + eps 2^-52. These conditions determine the values. Polynomials of degree below 2K are integrated exactly. Refuted: with fewer steps than K an estimate is returned (it is 0, with error estimate 0, not converged).", "quantifier": "all integrands, bounds, tolerances, orders K >= 2 and up to 51 steps", "why_tests_cant": "Exactness for polynomials of degree below 2K rests on the Euler-Maclaurin expansion of the trapezoidal rule and on Neville's scheme for every K.", "anchors": ["mml/core/Integration/Integration1D.h: IntegrateRomberg"]}
{"id": "C72", "title": "Gauss and Gauss-Kronrod rules", "statement": "IntegrateGK15, GK21 and GK31 integrate polynomials of degree up to 23, 31 and 47 with an error of at most 4e-35 (GK15) or 4e-33 times half the interval length times the sum of the absolute coefficients; up to degree 13, 19 and 29 the error estimate is at most twice that. IntegrateGauss10 does so up to degree 19 with 1e-16, and not for degree 20. All rules are linear and monotone (they use the integrand only inside the interval), and give 0 for integrands odd about the middle.", "quantifier": "all polynomials up to the degree, all intervals, all integrands", "why_tests_cant": "A wrong digit in one of 77 tabulated nodes and weights is invisible at test tolerances; each digit is used here, in exact integer arithmetic.", "anchors": ["mml/core/Integration/Integration1D.h: IntegrateGauss10", "mml/core/Integration/GaussKronrod.h: IntegrateGK15, IntegrateGK21, IntegrateGK31, GaussKronrodTables"]}
{"id": "C73", "title": "Adaptive Gauss-Kronrod integration", "statement": "IntegrateGKAdaptive cuts the interval into consecutive pieces, each some d <= max_depth halvings deep; value, error estimate and number of evaluations are the sums of those of the rule over the pieces; it has converged if and only if every piece meets max(tol_abs/2^d, tol_rel |its value|), and pieces that do not are at the maximal depth. A converged result has an error estimate of at most tol_abs + tol_rel times the sum of the absolute values of the pieces; if the estimate of the rule bounds its error on subintervals, the estimate returned bounds the error. (The number of evaluations counts the pieces kept, not the evaluations on intervals that were bisected.)", "quantifier": "all integrands, bounds, tolerances, depths and rules", "why_tests_cant": "The tree of bisections depends on the integrand; the sums and the convergence flag are statements about every tree.", "anchors": ["mml/core/Integration/GaussKronrod.h: IntegrateGKAdaptive"]}
{"id": "C74", "title": "ODESystemSolution: the container of a solution", "statement": "Points stored one after the other, any number of them, are all read back unchanged (times, components, final state) and nothing else is: indices outside the saved points throw. Growing, reserving room and trimming keep every stored value; storing one value leaves the others alone; the counts are right; wrong sizes and negative indices are rejected without effect. Refuted: an index far past the room is handled (the container grows once and the value is written outside it); getTValues and getXValues(component) return the saved points (they return the whole room, padded with zeros).", "quantifier": "all dimensions, capacities, sequences of points and indices", "why_tests_cant": "Storage grows by half plus one again and again; that no saved point is lost or moved is a statement about every sequence of stores.", "anchors": ["mml/base/ODESystemSolution.h: ODESystemSolution::fillValues, setTVal, setXVal, reserve, setFinalSize, getTValue, getXValue, getXValuesAtEnd, getXValues"]}
{"id": "C75", "title": "Fixed-step integration", "statement": "ODESystemFixedStepSolver::integrate with N steps saves exactly N+1 points, at times t1 + k (t2-t1)/N, the last one t2; the first state is the initial condition and each following one is one step of the chosen calculator from the one before. Initial conditions of the wrong size, no dimension and negative numbers of steps are rejected. Every calculator writes all its output, whatever the vectors held before. Refuted: any number of steps is possible (100000 and more are refused).", "quantifier": "all systems, dimensions, initial conditions, intervals, numbers of steps and step calculators", "why_tests_cant": "The loop is right for every number of steps, system and method, not only for those sampled.", "anchors": ["mml/algorithms/ODESolvers/ODESolverFixedStep.h: ODESystemFixedStepSolver::integrate", "mml/base/ODESystemSolution.h: ODESystemSolution"]}
{"id": "C76", "title": "Runge-Kutta step calculators: tableaus and order", "statement": "Euler, Euler-Cromer, midpoint, RK4, Cash-Karp, Dormand-Prince 5 and 8 compute exactly one step of the Runge-Kutta method given by their tableau, and the error output is the difference to the embedded method. The tableaus satisfy all order conditions of Butcher: 1, 2, 2, 4, 5 (embedded 4), 5 (embedded 4), and for Dormand-Prince 8 up to order 8 (embedded 7) within 1e-17, which is what its rational coefficients give. Consequently right-hand sides polynomial in t of degree below the order are integrated exactly, and for x' = Mx the step is a polynomial in hM that agrees with the exponential up to the order. The last stage of Dormand-Prince 5 is the derivative at the new point.", "quantifier": "all systems, dimensions, states, times and steps; all rooted trees up to the order", "why_tests_cant": "A wrong digit in one of some 150 coefficients lowers the order by one or more and is invisible at test tolerances; order conditions over all trees (200 of them up to order 8, counted once per shape) settle it.", "anchors": ["mml/algorithms/ODESolvers/ODEStepCalculators.h: EulerStep_Calculator, EulerCromer_StepCalculator, Midpoint_StepCalculator, RungeKutta4_StepCalculator, RK5_CashKarp_Calculator, DormandPrince5_StepCalculator, DormandPrince8_StepCalculator", "mml/algorithms/ODESolvers/ODERKCoefficients.h: RKCoeff"]}
{"id": "C77", "title": "Fixed-step solutions converge", "statement": "For a system that is Lipschitz in the state and a solution with Lipschitz derivative there is a constant C such that for every number N of steps every saved state differs from the solution at its time by at most C/N, in every component; this holds for every calculator that computes a consistent explicit Runge-Kutta method, in particular for Euler, Euler-Cromer, midpoint, RK4, Cash-Karp and Dormand-Prince 5.", "quantifier": "all Lipschitz systems of any dimension, all smooth solutions, intervals and numbers of steps", "why_tests_cant": "Convergence is a statement about all numbers of steps at once and about every system.", "anchors": ["mml/algorithms/ODESolvers/ODESolverFixedStep.h: ODESystemFixedStepSolver::integrate", "mml/algorithms/ODESolvers/ODEStepCalculators.h"]}
{"id": "C78", "title": "Velocity Verlet and leapfrog", "statement": "When accelerations do not depend on velocities, both calculators compute the same step q' = q + hv + h^2/2 a(t,q), v' = v + h/2 (a(t,q) + a(t+h,q')); it is time-reversible (a step of -h gives the old state back exactly) and preserves area for one degree of freedom; for oscillators the quantity v^2 + w^2 (1 - h^2 w^2/4) q^2 is the same at every saved point of an integration, so for hw < 2 the energy stays within fixed factors of the initial one for ever. Refuted: the Euler-Cromer calculator is the semi-implicit method (it is Heun's; on oscillators the energy grows by the factor 1 + (hw)^4/4 at every step); systems of odd dimension are handled (the last variable is never computed).", "quantifier": "all accelerations depending on time and positions, dimensions, states, steps and numbers of steps", "why_tests_cant": "Long-time behaviour is a statement about all numbers of steps; reversibility holds exactly or not at all.", "anchors": ["mml/algorithms/ODESolvers/ODEStepCalculators.h: VelocityVerlet_StepCalculator, Leapfrog_StepCalculator, EulerCromer_StepCalculator"]}
{"id": "C79", "title": "Adaptive steppers: accepted steps, step sizes, dense output", "statement": "A step accepted by the Dormand-Prince 5 or Cash-Karp stepper is a step of that embedded pair of the size reported, its error estimate is at most eps (|x_i| + |h x'_i|) in every component, and the derivative returned is the one at the new point. The size is the one asked for, or one that follows a rejected size, reduced to between a fixed fraction and 9/10 of it; the stepper always stops, with an accepted step or, when the size falls below 2^-52, with an error. The size proposed next follows the controller formulas and their limits (Cash-Karp 9/10 e^-1/5 up to 5; Dormand-Prince PI control within 1/5 and 10). Interpolation inside the step gives the one cubic with the states and derivatives at both ends. Refuted: a step depends only on the arguments passed (after an accepted step the derivative passed is ignored).", "quantifier": "all systems, dimensions, states, times, first sizes and tolerances", "why_tests_cant": "Acceptance, retries and the reuse of the last stage must be right for every sequence of rejected sizes.", "anchors": ["mml/algorithms/ODESolvers/ODESteppers.h: DormandPrince5_Stepper::doStep, interpolate, resetFSAL; CashKarp_Stepper::doStep, interpolate"]}
{"id": "C80", "title": "Adaptive integration", "statement": "ODEAdaptiveIntegrator::integrate advances from t0 to tEnd (within 2^-52, never beyond) by a chain of accepted steps, each starting where the one before ended, and the points saved are the initial state, the interpolated states at multiples of the output interval in increasing order, each on the cubic of the step that contains it, and the final state at tEnd; the number of steps reported is the length of the chain. It always stops; it throws only when a stepper gives up or a proposed size falls below the minimum. If no output time lies within 2^-52 after the end of a step, all multiples are saved. integrateAt saves exactly one point for each of the increasing times given. The estimated first step is positive and not longer than the interval. Refuted: every multiple of the interval is saved (one just after the end of a step is skipped and the end saved twice); a backward integration is carried out (the initial state is returned as the final one); an error is raised only when accuracy demands it (a short last step raises it too); times may repeat in integrateAt.", "quantifier": "all systems, dimensions, initial conditions, intervals, output intervals or increasing lists of times, tolerances, first and minimal step sizes; both steppers", "why_tests_cant": "Output times fall at every possible place relative to the accepted steps, whose sizes depend on the system.", "anchors": ["mml/algorithms/ODESolvers/ODESolverAdaptive.h: ODEAdaptiveIntegrator::integrate, integrateAt, estimateInitialStep"]}
{"id": "C81", "title": "Forward-mode automatic differentiation is exact", "statement": "For every program built from the overloaded operations on dual numbers (arithmetic with duals and scalars, the functions of <cmath> offered, comparisons and branches, local variables, loops with a fixed number of rounds), if every input holds the value and the derivative of a function at t, the output holds the value and the exact derivative of the composed function at t, wherever every operation met on the way is differentiable. So derivative(f, x) returns f(x) and f'(x), gradient(f, x) all partial derivatives, and any seed the derivative in that direction. Compound assignments agree with the operators; dual numbers are a commutative ring with inverses for nonzero values. Refuted: abs signals that it has no derivative at 0 (it returns 1 or -1); a branch on equality at a point keeps the derivative of the function (it returns that of the special case); atan2 on its cut signals that it has no derivative.", "quantifier": "all programs of any size and number of variables, all points where the operations met are differentiable, all seeds", "why_tests_cant": "The chain rule must hold for every composition of operations; one wrong sign in a rarely used function is invisible until that function is composed.", "anchors": ["mml/core/Derivation/ForwardAD.h: Dual, operator+ - * /, sqrt, pow, exp, log, log10, sin, cos, tan, asin, acos, atan, sinh, cosh, tanh, abs, floor, ceil, atan2, fma, derivative, gradient"]}
{"id": "C82", "title": "QR decomposition: factors, solutions, least squares, determinant, inverse", "statement": "The QR constructor accepts every real matrix with at least as many rows as columns and rejects wider ones. For a nonzero matrix it does not flag as singular: Q R is the matrix, Q has orthonormal columns, R is upper triangular with a nonzero diagonal; Solve returns the unique solution of a square system; LeastSquaresSolve returns the only x that minimises |A x - b|; det() is the determinant, with the right sign; inverse() is the two-sided inverse. Also for flagged matrices QMultiply and QtMultiply keep scalar products and undo each other, and the columns of Q are orthonormal. A nonzero matrix with dependent columns is always flagged, and a flagged matrix sends some vector with a coordinate 1 to one of length at most sqrt(m) max(eps, eps B n) (B bounds the entries). Wrong lengths, non-square matrices and flagged matrices throw the documented errors. Refuted: a nonsingular matrix with small entries is flagged (the threshold for a column is absolute); the 1 x 1 zero matrix is not flagged and Solve divides by 0.", "quantifier": "all matrix sizes m >= n >= 1, all real entries, all right-hand sides, all previous contents of output arguments", "why_tests_cant": "Tests check residuals of a few matrices with a tolerance; minimality, orthogonality and the sign of the determinant must hold for every size and every sequence of reflections, including skipped ones.", "anchors": ["mml/core/LinAlgEqSolvers/LinAlgQR.h: QRSolver, Solve, LeastSquaresSolve, RSolve, QtMultiply, QMultiply, GetQ, GetR, det, inverse, IsSingular"]}
{"id": "C83", "title": "Iterative linear solvers: what they return and when they converge", "statement": "JacobiSolver, GaussSeidelSolver and SORSolver start at x0 (at zero if x0 has another length) and return the first textbook iterate (k >= 1) whose relative residual |Ax-b|/|b| is below the tolerance, with that residual and k; if there is none within maxIter, converged is false and the last iterate is returned. Strictly diagonally dominant systems converge from every start to every positive tolerance with Jacobi, Gauss-Seidel and SOR with 0 < omega <= 1; symmetric positive definite systems with Gauss-Seidel and with SOR for every 0 < omega < 2 (so also with SolveOptimal for n >= 2). For diagonally dominant matrices the residual bounds the error of every component. An exact start is returned after one iteration. Non-square matrices, a right-hand side of the wrong length, diagonal entries below the threshold and omega outside (0, 2) throw; SolveSimple throws when not converged. EstimateOptimalOmega returns a sample with the least residual. Refuted: Jacobi does not converge for all symmetric positive definite matrices (documented); a run that did not converge reports one iteration too many; SolveOptimal always throws for one unknown; a small but nonsingular diagonal is rejected.", "quantifier": "all sizes, real matrices, right-hand sides, starts, tolerances, iteration limits and relaxation parameters", "why_tests_cant": "Convergence is a statement about all matrices of a class, all starts and unboundedly many sweeps; tests run a few systems with a fixed limit.", "anchors": ["mml/core/LinAlgEqSolvers/LinAlgEqSolvers_iterative.h: JacobiSolver::Solve, GaussSeidelSolver::Solve, SORSolver::Solve, SolveOptimal, SolveSimple, EstimateOptimalOmega, IterativeSolverResult"]}
{"id": "C84", "title": "Numerical differentiation of real functions", "statement": "NDer1/2/4/6/8, NSecDer2/4 and NThirdDer2/4 approximate the first, second and third derivative with their documented order: for every function whose (d+p)-th derivative is bounded by M on the sampled interval the error is at most K*M*h^p, with an explicit constant K for each rule; they are exact for all polynomials of degree below d+p, and one degree further the error is exactly the leading term. The error estimate of the first-derivative rules bounds the true error on those polynomials (and equals it up to the rounding allowance). NDerKLeft and NDerKRight only look at one side of the point and are accurate to first order. Non-positive steps are rejected (or reported through the status), a step in the config is used as given, and the default step is scaled by max(1, |x|). The Richardson variants are second-order accurate in the initial step for any number of columns, exact two polynomial degrees beyond the central rule, and then report error 0. Refuted: the one-sided rules do not have the order of the central rule; NDer2Left uses another shift with the default step than with the same step given; NDer1Right with an error estimate samples the left side; the error estimates of the second- and third-derivative rules are too small by a power of h; that of NThirdDer2 is at least 1 for f(t) = t; the Richardson variants read outside an empty tableau for max_iter = 0.", "quantifier": "all real functions with enough derivatives, points, positive steps, rules; all polynomials; all initial steps, numbers of columns and shrink factors > 1", "why_tests_cant": "The order of accuracy is a statement about all smooth functions and all steps; tests compare a few functions at a few points with a tolerance that hides a wrong estimate or a shifted point.", "anchors": ["mml/core/Derivation/DerivationRealFunction.h: NDer1, NDer2, NDer4, NDer6, NDer8 (with Detailed, Left and Right variants), NSecDer2, NSecDer4, NThirdDer2, NThirdDer4, NDerRichardson, NSecDerRichardson, NThirdDerRichardson, NDerAdaptive", "mml/core/Derivation/DerivationBase.h: ScaleStep", "mml/core/NumericValidation.h: ValidateStepSize"]}
{"id": "C85", "title": "Chebyshev approximation", "statement": "An approximation built from n samples takes the function's values at the n sample points (all inside [a,b]), reproduces every polynomial with at most n coefficients on the whole interval (so FromPolynomial agrees with its polynomial), and for a function whose n-th derivative is bounded by B differs from it by at most B*((b-a)/2)^n/(2^(n-1) n!) everywhere on [a,b]. Evaluation returns c_0/2 + sum c_j T_j of the position in [a,b], with the number of terms set, and throws outside the interval; Eval, SetNumTerms, ToPolynomial and Coefficient reject bad counts. Truncate drops exactly the trailing terms below the threshold and changes values by at most the number of dropped terms times the threshold. Derivative evaluates to the derivative of the full series; Integral vanishes at a and its derivative is the series minus half the last coefficient times U_{n-1}, so it is an antiderivative when the last coefficient is 0. ToPolynomial gives a polynomial with the same values. MaxError is the maximum over its equally spaced samples. ChebyshevRoots are the n zeros of T_n, ChebyshevExtrema its n+1 alternating extrema, both in decreasing order. Refuted: after truncation Derivative is not the derivative of what is evaluated; Integral is not an antiderivative in general (the integral of x with two coefficients is 0) and reads outside the vector for a single coefficient; the documented series without the 1/2 on c_0 is not what is evaluated.", "quantifier": "all functions (and polynomials), intervals a < b, numbers of coefficients, coefficient vectors, numbers of terms, thresholds, points and sample counts", "why_tests_cant": "Tests compare a few approximations at a few points; exactness for all polynomials, the error bound for all smooth functions and the identities for derivative, integral and polynomial conversion hold for every coefficient vector and length.", "anchors": ["mml/algorithms/ChebyshevApproximation.h: ChebyshevApproximation, operator(), Eval, SetNumTerms, Truncate, Derivative, Integral, ToPolynomial, FromPolynomial, MaxError, Coefficient", "mml/algorithms/ChebyshevApproximation.h: ChebyshevRoots, ChebyshevExtrema"]}
{"id": "C86", "title": "Closed-form roots of quadratics, cubics and quartics", "statement": "With a leading coefficient of at least Constants::Eps in absolute value, SolveQuadratic, SolveCubic and SolveQuartic return all the roots with multiplicity: the polynomial equals its leading coefficient times the product of X minus the returned roots at every complex X. SolveQuadratic returns 2 with two real roots or 0 with a conjugate pair of non-real roots; the complex overload factors any complex quadratic. SolveCubic returns 3 exactly when there are three different real roots and otherwise 1, with a real first root and a conjugate pair. SolveQuartic is exact when the linear coefficient of the shifted quartic is 0 or above Eps in absolute value; otherwise the residual at each returned root is that coefficient times the leading coefficient times the shifted root. A smaller leading coefficient is dropped, and the roots of the rest are followed by 0. Refuted: SolveQuadratic(a,0,0) returns NaN as its second root; coefficients all below Eps give count 0 although the equation has real roots; the count of SolveCubic is 1 for (x-1)^2(x+2); SolveQuartic of x^4 + Eps x returns only zeros.", "quantifier": "all real (for the complex overload, complex) coefficients, and all positive values of the threshold Eps", "why_tests_cant": "Tests try some polynomials with known roots; that the returned values are all roots with multiplicity, and when the count is right, is a statement about all coefficients, including those near the branch boundaries.", "anchors": ["mml/algorithms/RootFinding/RootFindingPolynoms.h: SolveQuadratic, SolveCubic, SolveQuartic"]}
{"id": "C87", "title": "Curve fitting by least squares", "statement": "LinearLeastSquares returns the line with the smallest sum of squared residuals of all lines, the only such line when two abscissas differ, and the root of that sum; data on a line are recovered exactly. Mismatched or empty data throw; three or more points throw as singular exactly when the spread of the abscissas is below epsilon times their sum of squares; two points closer than 10 epsilon get the horizontal line at their average. R^2 of a line lies between 0 and 1, is 1 - SSR/SST when SST exceeds epsilon, and is then 1 exactly for a perfect fit; the mean squared error is SSR/n; LinearFitDetailed reports exceptions as a status. The general fit returns the solver's coefficients with their residual norm, mean squared error, R^2 (at most 1), adjusted R^2, rank and condition number. PolynomialFit with a least squares solver minimises over all polynomials with degree+1 coefficients, has R^2 in [0,1] and reproduces polynomial data; EvaluatePolynomial evaluates the polynomial. Refuted: two different points closer than 10 epsilon are not fitted by the best line; distinct abscissas far from 0 are rejected as singular; abscissas all 0 give NaN instead of an exception; R^2 = 1 for data of small scale that are not fitted; R^2 of a general fit can be negative.", "quantifier": "all data vectors of all lengths, all basis functions, degrees and solvers, and all positive values of epsilon", "why_tests_cant": "Tests fit a few data sets with known answers; that no other line or polynomial does better, and when the fit is rejected, ranges over all data and all competitors.", "anchors": ["mml/algorithms/CurveFitting.h: LinearLeastSquares, LinearLeastSquaresDetailed, LinearFitDetailed, GeneralLinearLeastSquares, GeneralLinearFitResult::evaluate, PolynomialFit, EvaluatePolynomial"]}
{"id": "C88", "title": "Jacobi eigenvalue solver for symmetric matrices", "statement": "SymmMatEigenSolverJacobi::Solve returns for every symmetric matrix of dimension 1 to 9999 (the empty one throws). The returned eigenvectors are orthonormal and the eigenvalues ascend; every returned pair satisfies |A v - lambda v| <= residual, the sum of the eigenvalues is the trace, and the sum of their squares plus twice the squared residual is the squared Frobenius norm. The residual never exceeds the off-diagonal norm of A. Every true eigenvalue is within sqrt 2 times the residual of a returned one, and with residual 0 the returned values are exactly the eigenvalues. converged means residual <= tol; sweeps are only made when the off-diagonal norm exceeds tol, and only maxIter stops them early. When tol^2 is at least n(n-1)/2 times the squared zero threshold, a number of sweeps computable from A always converges; a 2x2 matrix takes one sweep and is then exact. The overload for general matrices solves for (A + A^T)/2 and the configured overloads run the same solver. In MatrixSym entries (i,j) and (j,i) share one cell and no other entry does. Refuted: A V = V diag(lambda) (documented) for converged results; a tolerance below the zero threshold can be unreachable; a non-symmetric matrix is accepted and gives numbers that are not its eigenvalues.", "quantifier": "all dimensions, all symmetric matrices, tolerances, sweep limits and all positive zero thresholds", "why_tests_cant": "Tests diagonalise a few matrices with known spectra; orthogonality, error bounds and convergence of an iteration range over all matrices and all numbers of sweeps.", "anchors": ["mml/algorithms/EigenSystemSolvers.h: SymmMatEigenSolverJacobi::Solve (4 overloads), ComputeRotationAngle, ApplyRotation, OffDiagonalNorm, SortEigenvalues", "mml/base/Matrix/MatrixSym.h: linearIndex, operator(), MatrixSym(int)"]}
{"id": "C89", "title": "Coordinate transformations, bases and metrics", "statement": "Cartesian, spherical, cylindrical and polar coordinates convert back and forth without loss: r is the distance, the polar angle lies in [0, PI], the azimuth in (-PI, PI], a point comes back from its coordinates (spherical: at least 100 machine epsilons from the origin) and coordinates come back from the point (the azimuth off the axis). getBasisVec of spherical coordinates is the derivative of the position, its scalar products are MetricTensorSpherical, the unit basis is an orthonormal right-handed frame, and the contravariant metric is the inverse, throwing exactly when the component is below the tolerance. The axis rotations are the right-handed rotations by the angle, the Euler class rotates about z, y, z, plane rotations add angles, and every transfInverse undoes transf. Orthonormal axes give an isometry with the transpose as inverse; oblique axes give a dual basis and inverse maps and are rejected when degenerate. Lorentz boosts exist exactly for velocities in [0, 1), keep the interval and the direction of time, are undone by the inverse and compose by velocity addition. The inherited numerical methods (basis, Jacobian, vector and contravariant tensor transformation, metric from a transformation) tend to the true values as the step shrinks, are exact for affine maps, and keep the pairing of covectors and vectors for every step. Refuted: the polar angle of points nearer than 100 epsilons is lost; getInverseBasisVec is not the dual basis; non-unit orthogonal (even zero) axes are accepted and transfInverse is then no inverse; the Euler class is not ZXZ as documented; transfTensor2 is wrong for covariant indices because it differentiates the inverse at the wrong point.", "quantifier": "all points, coordinates, angles, axes, velocities, differentiable transformations and steps", "why_tests_cant": "Tests compare a few points with known coordinates; inverses, isometries, derivatives and limits are statements about all points and all steps.", "anchors": ["mml/core/CoordTransf/CoordTransfSpherical.h: CoordTransfSphericalToCartesian, CoordTransfCartesianToSpherical", "mml/core/CoordTransf/CoordTransfCylindrical.h: CoordTransfCylindricalToCartesian, CoordTransfCartesianToCylindrical", "mml/core/CoordTransf/CoordTransf2D.h: CoordTransfPolarToCartesian2D, CoordTransfCart2DRotation, CoordTransfObliqueToCartesian2D, CoordTransfCartesianToOblique2D", "mml/core/CoordTransf/CoordTransf3D.h: CoordTransfCart3DRotationXAxis/YAxis/ZAxis/Euler, CoordTransf3DCartOrthogonal, CoordTransfCartesianToOblique3D", "mml/core/CoordTransf/CoordTransfLorentz.h: CoordTransfLorentzXAxis", "mml/core/CoordTransf.h: getBasisVec, jacobian, transfVecContravariant, transfInverseVecCovariant, transfTensor2", "mml/core/MetricTensor.h: MetricTensorSpherical, MetricTensorSphericalContravar, MetricTensorCylindrical, MetricTensorMinkowski, MetricTensorFromCoordTransf"]}
{"id": "C90", "title": "Orthogonal bases", "statement": "Legendre, Hermite, probabilists' Hermite, Laguerre, associated Laguerre (every alpha > -1 the constructor accepts, if std::tgamma is right at alpha + 1) and Chebyshev bases of both kinds: for all indices m and n the (improper) integral over the domain of Evaluate(m) Evaluate(n) WeightFunction is 0 for m different from n and Normalization(m) > 0 for m = n; negative indices throw. Evaluate(n) is a polynomial of degree exactly n, RecurrenceCoefficients(n) give p_{n+1} from p_n and p_{n-1}. The oscillator wave functions are orthonormal. AssocLegendre is (-1)^m (1 - x^2)^(m/2) times the m-th derivative of P_l; SphLegendre is its normalised form in the angle. GetZeros gives n distinct zeros in (-1, 1), GetExtrema the points where T_n is 1, -1, 1, ... ComputeCoefficient with LegendreBasis is within the error of the trapezoidal rule of the exact coefficient. Refuted: ChebyshevBasis::RecurrenceCoefficients(0) gives 2x, not T_1; AssociatedLegendreBasis::Evaluate is not P_l^m(x) but the spherical function of the angle x; the fallback AssocLegendre has a sign (-1)^m the standard function has not; ComputeCoefficient with ChebyshevBasis gives more than 4000 for the coefficient 1 of the constant function 1.", "quantifier": "all indices, all alpha above -1, all arguments, all functions with a Lipschitz derivative of the integrand", "why_tests_cant": "Orthogonality is a statement about exact integrals, over unbounded domains too, for all pairs of indices; tests compare a few numerical integrals.", "anchors": ["mml/core/OrthogonalBasis/LegendreBasis.h: LegendreBasis, AssociatedLegendreBasis", "mml/core/OrthogonalBasis/HermiteBasis.h: HermiteBasis, ProbabilistHermiteBasis", "mml/core/OrthogonalBasis/LaguerreBasis.h: LaguerreBasis, AssociatedLaguerreBasis", "mml/core/OrthogonalBasis/ChebyshevBasis.h: ChebyshevBasis, ChebyshevBasisSecondKind", "mml/core/OrthogonalBasis.h: ComputeCoefficient", "mml/base/StandardFunctions.h: Legendre, Hermite, Laguerre, AssocLegendre, AssocLaguerre, SphLegendre", "mml/base/ChebyshevPolynom.h: ChebyshevT, ChebyshevU"]}
{"id": "C91", "title": "Probability distributions", "statement": "Normal, LogNormal, Cauchy, Exponential, Logistic, Uniform, Weibull and Pareto distributions: a constructor throws exactly for a scale, rate or shape that is not positive (for Uniform, b <= a). Otherwise pdf is positive on the support with (improper) integral 1, and cdf(x) is the integral of pdf up to x. For Cauchy, Exponential, Logistic, Uniform, Weibull and Pareto inverseCdf is the inverse of cdf for every p in (0, 1), and the only one. For Normal and LogNormal inverseCdf is a rational approximation: its denominators never vanish, it is exact at 1/2 and symmetric, inverseCdf(1 - p) = 2 mu - inverseCdf(p) (exp(2 mu) / inverseCdf(p) for LogNormal); nothing is claimed about its accuracy. mean() and variance() of Normal, LogNormal, Exponential, Uniform, Pareto and Weibull (if std::tgamma is right at 1 + 1/shape and 1 + 2/shape) are the integrals of x pdf and (x - mean)^2 pdf, mean() of Logistic too; the mean of Pareto throws for alpha <= 1 and its variance for alpha <= 2. Outside the support and for p outside (0, 1) each function throws or returns the documented limit.", "quantifier": "all parameters, all arguments, all probabilities; the error function is any function with value 0 at 0 and derivative 2 exp(-x^2) / sqrt(pi)", "why_tests_cant": "That a density integrates to 1, that cdf is its integral and that inverseCdf inverts it for all parameters are statements about improper integrals and all real numbers; tests compare a few tabulated values.", "anchors": ["mml/algorithms/Statistics/Distributions.h: NormalDistribution", "mml/algorithms/Statistics/Distributions.h: LogNormalDistribution", "mml/algorithms/Statistics/Distributions.h: CauchyDistribution", "mml/algorithms/Statistics/Distributions.h: ExponentialDistribution", "mml/algorithms/Statistics/Distributions.h: LogisticDistribution", "mml/algorithms/Statistics/Distributions.h: UniformDistribution", "mml/algorithms/Statistics/Distributions.h: WeibullDistribution", "mml/algorithms/Statistics/Distributions.h: ParetoDistribution"]}
