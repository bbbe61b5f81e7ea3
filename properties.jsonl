{"id": "C01", "title": "Bernstein shape functions form a non-negative partition of unity", "statement": "For every degree p and every evaluation point x, the p+1 values written by the shape-function basis evaluation sum to 1; for x in [0,1] each of them lies in [0,1].", "quantifier": "every polynomial degree, every real evaluation point", "why_tests_cant": "x ranges over a continuum and the degree is a template parameter; a finite sample can only show agreement up to rounding at the sampled points.", "anchors": ["Bembel/src/Spline/Bernstein.hpp:EvalBernsteinBasis", "Bembel/src/Spline/Bernstein.hpp:HiddenBernsteinClass::EvalBasis", "Bembel/src/Spline/Pascal.hpp:Binomial"]}
{"id": "C02", "title": "Coefficient evaluation and basis evaluation agree", "statement": "Evaluating a coefficient vector with evalCoef equals the dot product of the coefficients with the values written by evalBasis, and evaluating it with evalDerCoef equals the dot product with the values written by evalDerBasis.", "quantifier": "every degree, every coefficient vector, every evaluation point", "why_tests_cant": "Quantifies over all real coefficient vectors and all points.", "anchors": ["Bembel/src/Spline/Bernstein.hpp:EvalBernstein", "Bembel/src/Spline/Bernstein.hpp:EvalBernsteinBasis", "Bembel/src/Spline/Bernstein.hpp:EvalBernsteinDer", "Bembel/src/Spline/Bernstein.hpp:EvalBernsteinDerBasis"]}
{"id": "C03", "title": "Derivative evaluation is the derivative", "statement": "The value returned by evalDerCoef at x is the analytic derivative, at x, of the function returned by evalCoef for the same coefficients (degree 0 included, where it is 0).", "quantifier": "every degree, every coefficient vector, every evaluation point", "why_tests_cant": "A difference quotient in a test approximates the derivative at finitely many points only.", "anchors": ["Bembel/src/Spline/Bernstein.hpp:EvalBernsteinDer", "Bembel/src/Spline/Bernstein.hpp:HiddenBernsteinClass::EvalDerCoefs"]}
{"id": "C04", "title": "Bezier end-point interpolation", "statement": "A coefficient vector evaluated at 0 returns its first entry, at 1 its last entry; for x in [0,1] the value lies between the smallest and the largest coefficient.", "quantifier": "every degree, every coefficient vector, every point of [0,1]", "why_tests_cant": "Convex-hull property over a continuum.", "anchors": ["Bembel/src/Spline/Bernstein.hpp:EvalBernstein"]}
{"id": "C05", "title": "Uniform knot vectors have the promised shape", "statement": "MakeUniformKnotVector(p, interior, rep) returns a sorted vector of length 2p+interior*rep with values in [0,1], whose first p entries are 0, last p entries are 1 and in which each i/(interior+1), 0<i<=interior, occurs exactly rep times; reading the degree back with GetPolynomialDegreeFromKnotVector gives p whenever the first knot step is above the tolerance.", "quantifier": "all p>=1, all interior counts, all repetitions", "why_tests_cant": "Unbounded family of sizes.", "anchors": ["Bembel/src/Spline/Knots.hpp:MakeUniformKnotVector", "Bembel/src/Spline/Knots.hpp:MakeBezierKnotVector", "Bembel/src/Spline/Knots.hpp:GetPolynomialDegreeFromKnotVector"]}
{"id": "C06", "title": "Unique-knot extraction and knot-span location", "statement": "For a sorted knot vector whose distinct knots are more than the tolerance apart, ExtractUniqueKnotVector returns exactly its distinct values in increasing order; FindLocationInKnotVector(x, v) on a strictly increasing v starting at 0 returns an index i with i+1 < v.size(), and x lies in [v[i], v[i+1]] for every x in [0, last] (up to the tolerance at 0).", "quantifier": "all sorted knot vectors, all x in the parameter interval", "why_tests_cant": "Ranges over all vectors and all reals.", "anchors": ["Bembel/src/Spline/Knots.hpp:ExtractUniqueKnotVector", "Bembel/src/Spline/Knots.hpp:FindLocationInKnotVector"]}
{"id": "C07", "title": "De Boor evaluation computes the B-spline", "statement": "Spl::DeBoor(c, knots, x) equals the sum over i of c[i] times the i-th B-spline of the knot vector as defined by the Cox-de Boor recursion, for every x in the half-open parameter interval; no division by zero and no out-of-range access happens on the way. The coefficients are determined by the evaluations if every B-spline lives inside of the interval.", "quantifier": "every sorted knot vector, degree, coefficient vector and evaluation point in [t_p, t_n)", "why_tests_cant": "All inputs of a triangular recursion.", "anchors": ["Bembel/src/Spline/DeBoor.hpp:DeBoor"]}
{"id": "C08", "title": "De Boor evaluation stays in the convex hull and reproduces constants", "statement": "If all coefficients are equal to c then DeBoor returns c; in general the result lies between the minimum and maximum of the coefficients for points in the parameter interval (right end included).", "quantifier": "every sorted knot vector with non-empty evaluated span, all coefficients", "why_tests_cant": "Continuum of inputs.", "anchors": ["Bembel/src/Spline/DeBoor.hpp:DeBoor"]}
{"id": "C09", "title": "Spline reparametrisation helpers", "statement": "Rescale(x,a,b) is the affine map of [a,b] onto [0,1] for a<b and its a==0,b==1 short cut agrees with the formula; the interpolation mask consists of deg strictly increasing points strictly inside (0,1); MakeInterpolationPoints puts mask.size() points strictly inside every knot span, in order.", "quantifier": "all degrees, all strictly increasing knot vectors", "why_tests_cant": "Unbounded sizes.", "anchors": ["Bembel/src/Spline/Localize.hpp:Rescale", "Bembel/src/Spline/Localize.hpp:MakeInterpolationMask", "Bembel/src/Spline/Localize.hpp:MakeInterpolationPoints"]}
{"id": "C10", "title": "Uniform refinement: element count, ids and traversal order", "statement": "After initialisation on P patches with level M the mesh has exactly P*4^M leaf elements; traversal from pbegin to pend visits each exactly once, in the order of increasing id, the k-th visited element has id k, level M and patch k / 4^M.", "quantifier": "every number of patches P>0 and every level M", "why_tests_cant": "Unbounded refinement level; linked-list surgery over a growing structure.", "anchors": ["Bembel/src/ClusterTree/ElementTree.hpp:init_ElementTree", "Bembel/src/ClusterTree/ElementTree.hpp:refineLeaf", "Bembel/src/ClusterTree/ElementTree.hpp:pbegin"]}
{"id": "C11", "title": "The elements of a patch tile its parameter square", "statement": "For every point of [0,1)^2 and every patch exactly one leaf element of the patch contains the point (elements are half-open squares with lower-left corner llc_ and edge length get_h()), for any sequence of refinements including local ones.", "quantifier": "every refinement history, every patch, every parameter point", "why_tests_cant": "All refinement histories and a continuum of points.", "anchors": ["Bembel/src/ClusterTree/ElementTree.hpp:refineLeaf", "Bembel/src/ClusterTree/ElementTreeNode.hpp:get_h"]}
{"id": "C12", "title": "Point look-up returns the element that contains the point", "statement": "On a uniformly refined mesh, evaluateOnPatch(patch, x) uses the element of that patch whose closed square contains x, and the local coordinates passed on are in [0,1]^2 and map back to x; computeReorderingVector is a permutation of 0..P*4^M-1.", "quantifier": "all P, M, patches and reference points in [0,1]^2", "why_tests_cant": "Continuum of points and unbounded M.", "anchors": ["Bembel/src/AnsatzSpace/FunctionEvaluator.hpp:evaluateOnPatch", "Bembel/src/ClusterTree/ElementTree.hpp:computeReorderingVector", "Bembel/src/ClusterTree/ElementTreeNode.hpp:mapToReferenceElement"]}
{"id": "C13", "title": "Global element ids are unique over the whole tree", "statement": "compute_global_id gives distinct numbers to distinct nodes of the tree (all levels), the ids of the nodes of level l of a full tree are exactly the interval [P(4^l-1)/3, P(4^(l+1)-1)/3).", "quantifier": "all levels, all pairs of nodes", "why_tests_cant": "All pairs of nodes at all levels.", "anchors": ["Bembel/src/ClusterTree/ElementTree.hpp:compute_global_id"]}
{"id": "C14", "title": "The enclosing ball contains both input balls", "statement": "util::computeEnclosingBall returns a ball that contains both given balls (every point of either ball), and never has a radius larger than half of (distance + r1 + r2) or the larger radius.", "quantifier": "all pairs of balls in R^3", "why_tests_cant": "Continuum of configurations including contained, touching and concentric balls.", "anchors": ["Bembel/src/util/GeometryHelper.hpp:computeEnclosingBall"]}
{"id": "C15", "title": "Cluster balls enclose their elements", "statement": "After computeElementEnclosings every node's ball contains the balls of its four sons, hence all vertices of all leaf elements below it.", "quantifier": "every (also non-uniform) quad tree and all vertex positions", "why_tests_cant": "Induction over arbitrary trees.", "anchors": ["Bembel/src/ClusterTree/ElementTree.hpp:computeElementEnclosings_recursion", "Bembel/src/util/GeometryHelper.hpp:computeEnclosingBall"]}
{"id": "C16", "title": "Patch adjacency is symmetric and matches shared edges", "statement": "After updateTopology on a list of distinct elements in which every edge belongs to at most two elements: element a is recorded as neighbour of b along an edge iff b is recorded as neighbour of a along the same vertex pair, and an edge has a neighbour iff another element has the same vertex pair.", "quantifier": "all element lists with manifold edges", "why_tests_cant": "All topologies.", "anchors": ["Bembel/src/ClusterTree/ElementTree.hpp:updateTopology"]}
{"id": "C17", "title": "patchTopologyInfo reports the interfaces", "statement": "For patches such that no two patches share more than one edge, patchTopologyInfo lists every interior edge exactly once as {a,b,i,j} with a<b where edge i of a and edge j of b have the same end points, and every boundary edge once as {a,-1,i,-1}.", "quantifier": "all such patch topologies", "why_tests_cant": "All topologies.", "anchors": ["Bembel/src/ClusterTree/ElementTree.hpp:patchTopologyInfo"]}
{"id": "C18", "title": "Refinement keeps the mesh conforming", "statement": "Uniform refinement of a conforming patch mesh shares the new mid points: two neighbouring elements use the same vertex indices on their common edge, every vertex index is below get_number_of_points() and each index below it is used.", "quantifier": "all patch topologies without doubly connected patches and all levels", "why_tests_cant": "History-dependent point numbering over arbitrary topologies.", "anchors": ["Bembel/src/ClusterTree/ElementTree.hpp:refineLeaf", "Bembel/src/ClusterTree/ElementTree.hpp:generatePointList", "Bembel/src/ClusterTree/ElementTree.hpp:generateElementList"]}
{"id": "C19", "title": "Edge degree-of-freedom enumeration is geometric", "statement": "getEdgeDofIndices(e,nx,ny,shift) lists exactly the tensor-product indices shift+ny-row*nx+col lying on edge e of the square, in the order of increasing parameter, without repetition.", "quantifier": "all edges, all dimensions", "why_tests_cant": "Unbounded dimensions.", "anchors": ["Bembel/src/AnsatzSpace/Glue.hpp:getEdgeDofIndices"]}
{"id": "C20", "title": "Glue orientation conventions", "statement": "For two patches with counter-clockwise boundary orientation sharing an edge, degree of freedom number i along one edge is paired with the one at the same physical point on the other edge (reversal iff both edges are forward or both are backward parametrised), and the divergence-conforming sign makes the normal flux continuous (outward flux of one equals inward flux of the other).", "quantifier": "all 16 edge pairings, all dimensions", "why_tests_cant": "Unbounded number of degrees of freedom per edge.", "anchors": ["Bembel/src/AnsatzSpace/Glue.hpp:reverseParametrized", "Bembel/src/AnsatzSpace/Glue.hpp:glueCoefficientDivergenceConforming"]}
{"id": "C21", "title": "The glue matrix realises the identification", "statement": "For a list of disjoint identification groups (each with at least two dofs, smallest first) the assembled glue matrix has pre_dofs rows and pre_dofs minus the number of slaves columns; every row has exactly one non-zero; two dofs lie in the same column iff they are in the same group; the master row holds 1 and slave rows hold the coefficient; columns are ordered by master index.", "quantifier": "all dof counts and all families of disjoint groups", "why_tests_cant": "All group families.", "anchors": ["Bembel/src/AnsatzSpace/Glue.hpp:assembleGlueMatrix"]}
{"id": "C22", "title": "The continuous identification is the equivalence closure of the edge pairs", "statement": "The groups produced for continuous spaces are disjoint and two dofs end in the same group iff they are connected by a chain of edge identifications.", "quantifier": "all edge lists and all one-dimensional dimensions", "why_tests_cant": "All topologies and merge orders.", "anchors": ["Bembel/src/AnsatzSpace/Glue.hpp:glue_identificationmaker_<Continuous>::makeIdentification"]}
{"id": "C23", "title": "Clean-up of merged identification groups", "statement": "The clean-up loop succeeds and leaves no empty identification group (subsequent routines read dofs[0]) exactly if no two consecutive groups are empty and the last one is not. On an oriented mesh in which every corner belongs to at most three patches, or to four patches whose edges at that corner are all shared, no group is ever emptied, so the identification and the glue matrix are correct for every numbering of the patches, degree, knot repetition and level. With five patches at a corner the plain claim fails.", "quantifier": "all edge lists, respectively all meshes with few patches at each corner", "why_tests_cant": "Depends on where merges happen in the list.", "anchors": ["Bembel/src/AnsatzSpace/Glue.hpp:glue_identificationmaker_<Continuous>::makeIdentification"]}
{"id": "C24", "title": "Divergence-conforming identification pairs each edge dof exactly once", "statement": "For divergence-conforming spaces on a valid topology every glued dof occurs in exactly one identification, all dofs are in range, and the two dofs belong to the patches named by the edge and to the vector component normal to their edge.", "quantifier": "all topologies in which a patch edge occurs at most once, all p, levels and repetitions", "why_tests_cant": "Unbounded sizes.", "anchors": ["Bembel/src/AnsatzSpace/Glue.hpp:glue_identificationmaker_<DivConforming>::makeIdentification"]}
{"id": "C25", "title": "The projector reproduces B-splines", "statement": "For degrees up to 19 the projector is built without a failing assertion, with (p+1)^2 4^M P rows per component and one column for every tensor product B-spline of every patch (p+1+rep(2^M-1) per direction; degrees (p,p-1) and (p-1,p) for the two components of a vector field), all entries in range. Up to degree 4 the discrete function with coefficients v is, on every element, the spline of its patch with these coefficients divided by the element width. For higher degrees it differs from it by at most 1/10000 of the sum of the coefficients active on the element; from degree 5 on it does differ (basis functions lose their entries near corners of the patch).", "quantifier": "all geometries and levels with uniform refinement, all degrees, repetitions, coefficient vectors and points of elements", "why_tests_cant": "Unbounded sizes; equality of real functions at every point.", "anchors": ["Bembel/src/AnsatzSpace/Projector.hpp:makeLocalProjectionTriplets", "Bembel/src/AnsatzSpace/Projector.hpp:projector_matrixmaker_"]}
{"id": "C26", "title": "Block cluster leaves partition the matrix", "statement": "Every pair (row element, column element) belongs to exactly one leaf block of the block-cluster tree and the blocks are given by [row_start,row_end) x [col_start,col_end) index ranges.", "quantifier": "every mesh, every admissibility parameter, every minimal cluster level", "why_tests_cant": "All trees and all radii/midpoints.", "anchors": ["Bembel/src/H2Matrix/BlockClusterTree.hpp:appendSubtree", "Bembel/src/H2Matrix/BlockClusterTree.hpp:get_row_start_index", "Bembel/src/H2Matrix/BlockClusterTree.hpp:updateLeafPointers_recursion"]}
{"id": "C27", "title": "Low-rank blocks are admissible, other blocks are small", "statement": "Every leaf marked LowRank has two clusters whose balls are disjoint with max radius < eta*distance; every leaf marked Dense is not admissible and its clusters are at most min_cluster_level levels above the finest level; Refine never occurs at a leaf.", "quantifier": "every mesh, eta, level", "why_tests_cant": "All trees.", "anchors": ["Bembel/src/H2Matrix/BlockClusterTree.hpp:compareCluster"]}
{"id": "C28", "title": "Parallel H2 matrix-vector product does not depend on the schedule", "statement": "For exact arithmetic the parallel product returns sum over all leaves of the leaf contribution, whatever the number of threads, whichever thread executes a leaf and in whatever order the per-thread accumulators are added.", "quantifier": "every number of threads and every schedule", "why_tests_cant": "Thread schedules cannot be enumerated by tests.", "anchors": ["Bembel/src/H2Matrix/EigenHelper/H2DenseProduct.hpp"]}
{"id": "C29", "title": "The H2 product equals the matrix given by its blocks", "statement": "The result of the H2 matrix-vector product is linear in the vector and equals multiplication with the matrix whose (i,j) entry is taken from the unique leaf containing it (dense entry or moment-expanded low-rank entry).", "quantifier": "all vectors, all trees", "why_tests_cant": "Infinitely many vectors.", "anchors": ["Bembel/src/H2Matrix/EigenHelper/H2DenseProduct.hpp", "Bembel/src/H2Matrix/H2Multipole.hpp:forwardTransformation", "Bembel/src/H2Matrix/H2Multipole.hpp:backwardTransformation"]}
{"id": "C30", "title": "Forward and backward transformations are adjoint", "statement": "For all moment and transfer matrices, <forward(x), y> = <x, backward(y)> on every level.", "quantifier": "all matrices, all vectors, all levels", "why_tests_cant": "Infinitely many inputs.", "anchors": ["Bembel/src/H2Matrix/H2Multipole.hpp:forwardTransformation", "Bembel/src/H2Matrix/H2Multipole.hpp:backwardTransformation"]}
{"id": "C31", "title": "Newton-form Lagrange polynomials interpolate", "statement": "computeLagrangePolynomials/evaluatePolynomial give polynomials L_i with L_i(x_j) = 1 if i=j and 0 otherwise for pairwise distinct nodes; hence interpolation reproduces every polynomial of degree < n.", "quantifier": "all numbers of nodes, all pairwise distinct nodes", "why_tests_cant": "All node sets.", "anchors": ["Bembel/src/H2Matrix/H2Multipole.hpp:computeLagrangePolynomials", "Bembel/src/H2Matrix/H2Multipole.hpp:evaluatePolynomial"]}
{"id": "C32", "title": "Cluster-local element coordinates follow the refinement order", "statement": "The index_s/index_t arrays built for the 2D moments give, for the k-th element below a cluster, exactly the integer position of its lower-left corner in the cluster.", "quantifier": "all numbers of refinements", "why_tests_cant": "In-place array update over unbounded levels.", "anchors": ["Bembel/src/H2Matrix/H2Multipole.hpp:moment2DComputer"]}
{"id": "C33", "title": "Dense Galerkin assembly writes every entry exactly once", "statement": "DiscreteOperator assembly writes for each pair of elements the block at rows/columns given by their ids; the blocks are disjoint and cover the matrix, hence the result is independent of the task schedule.", "quantifier": "all meshes and all schedules of the parallel loop", "why_tests_cant": "Task schedules.", "anchors": ["Bembel/src/LinearOperator/DiscreteOperator.hpp"]}
{"id": "C34", "title": "Square rotations used by the Duffy trick", "statement": "tau(x,y,r) maps the unit square to itself bijectively, sends corner k to corner k+r (mod 4), hence edge k to edge k+r, and composes like rotations.", "quantifier": "all rotations, all points", "why_tests_cant": "Continuum of points.", "anchors": ["Bembel/src/DuffyTrick/tau.hpp:tau"]}
{"id": "C35", "title": "Element comparison classifies element pairs", "statement": "For two elements of the same level (at least 1) of a mesh of consistently oriented patches, compareElements returns: identical elements -> case 2; exactly one shared edge -> case 3 with rotations that make the shared edge the lower edge of both reference squares, run through in opposite directions, so that the surface points along it coincide; exactly one shared vertex -> case 4 with rotations that make it the origin of both squares; nothing shared -> case 0. Exchanging the elements exchanges the rotations and keeps case and distance; touching elements have distance 0.", "quantifier": "all geometries whose patches fit together, all refinement histories, all pairs of elements of equal level", "why_tests_cant": "All vertex index assignments of all meshes and histories.", "anchors": ["Bembel/src/DuffyTrick/compareElements.hpp:compareElements"]}
{"id": "C36", "title": "Singular quadrature integrates polynomials exactly", "statement": "For every relative position of two elements (regular, identical, common edge, common vertex, any rotation) the local matrix computed by evaluateBilinearForm contains the exact integral of the integrand over the pair of unit squares, scaled by the product of the element sizes, whenever the integrand is a polynomial of total degree at most D and the one-dimensional rules are exact up to degree D+3; precomputed far field points give the same result as points computed on the fly; with nodes inside (0,1) the kernel is only evaluated at pairs of different interior points, and a kernel that grows at most like the inverse distance from the common edge, vertex or diagonal gives local matrices that are bounded independently of the rule.", "quantifier": "all polynomial integrands, all quadrature rules, all rotations, all pairs of elements", "why_tests_cant": "All rules, polynomials and positions; a wrong Jacobian or a missing sub-domain changes some integrals only.", "anchors": ["Bembel/src/DuffyTrick/integrate0.hpp", "Bembel/src/DuffyTrick/integrate1.hpp", "Bembel/src/DuffyTrick/integrate2.hpp", "Bembel/src/DuffyTrick/integrate3.hpp", "Bembel/src/DuffyTrick/integrate4.hpp", "Bembel/src/DuffyTrick/evaluateBilinearForm.hpp:evaluateBilinearForm", "Bembel/src/DuffyTrick/farFieldQuadratureNodes.hpp:computeFfieldQnodes"]}
{"id": "C37", "title": "Gauss-Legendre tables", "statement": "The tabulated n-point rules (n=1..20) have n nodes strictly inside (0,1) in increasing order, positive weights, symmetry about 1/2 (up to the last decimal) and integrate every polynomial of degree <= 2n-1 up to 1e-20 times the sum of the absolute values of its coefficients.", "quantifier": "every polynomial of the stated degree", "why_tests_cant": "All polynomials, not just sampled integrands.", "anchors": ["Bembel/src/Quadrature/GaussLegendreRule.hpp"]}
{"id": "C38", "title": "Tensor-product quadrature is exact for tensor-product integrands", "statement": "The 2D rule built from a 1D rule with n points has n^2 points, its value on f(x)g(y) is the product of the 1D values, so it inherits exactness per direction; looking up a rule with an index beyond the table silently returns the one-point rule.", "quantifier": "all 1D rules, all integrands, all indices", "why_tests_cant": "All functions.", "anchors": ["Bembel/src/Quadrature/TensorProductQuadratureVector.hpp", "Bembel/src/Quadrature/QuadratureVector.hpp"]}
{"id": "C39", "title": "Near-field quadrature degree is well defined", "statement": "getNearfieldQuadratureDegree never divides by zero: its denominator is at least 2 log 2 for every distance >= 0 and level >= 0. For distances below the element width the degree is (p+2) level / 2, and from level 1 on the degree does not increase with the distance; so the assertion in evaluateBilinearForm (degree below 50) holds on a level exactly if (p+2) level < 100.", "quantifier": "all distances, levels, ansatz degrees", "why_tests_cant": "Continuum of distances.", "anchors": ["Bembel/src/LinearOperator/LinearOperatorBase.hpp:getNearfieldQuadratureDegree"]}
{"id": "C40", "title": "GenericMatrix behaves like a matrix", "statement": "After resize(r,c) all positions (i,j) with i<r, j<c are distinct storage cells: writing one cell changes it and no other; copies are independent.", "quantifier": "all sizes, all index pairs, all histories of writes", "why_tests_cant": "All histories.", "anchors": ["Bembel/src/util/GenericMatrix.hpp"]}
{"id": "C41", "title": "Assigned function evaluators behave like the original", "statement": "After a = b for function evaluators, a evaluates like b for every patch and point.", "quantifier": "all evaluators, all points", "why_tests_cant": "All states of the source object.", "anchors": ["Bembel/src/AnsatzSpace/FunctionEvaluator.hpp:operator="]}
{"id": "C42", "title": "Patch evaluation, Jacobian and surface point agree with the rational tensor-product surface", "statement": "For a Bezier patch the point returned by eval is the quotient of the homogeneous tensor-product Bernstein sums, evalJacobian is its derivative, and updateSurfacePoint returns both unchanged together with the weight.", "quantifier": "all degrees, control points with positive weights, all parameter points", "why_tests_cant": "Continuum.", "anchors": ["Bembel/src/Geometry/Patch.hpp:eval", "Bembel/src/Geometry/Patch.hpp:evalJacobian", "Bembel/src/Geometry/Patch.hpp:updateSurfacePoint"]}
{"id": "C43", "title": "PatchShredder preserves the surface", "statement": "Cutting a patch at its internal knots yields (#x-spans)(#y-spans) Bezier patches such that evaluating piece (ix,iy) at local coordinates equals evaluating the original patch at the corresponding point of the span.", "quantifier": "all patches, all points", "why_tests_cant": "Continuum and unbounded number of spans.", "anchors": ["Bembel/src/Geometry/Patch.hpp:PatchShredder"]}
{"id": "C44", "title": "Geometry files survive a round trip", "statement": "Writing patches in the native text format and reading the file back yields the same knots and control points (numbers being printed losslessly).", "quantifier": "all patch lists", "why_tests_cant": "All inputs.", "anchors": ["Bembel/src/Geometry/GeometryIO.hpp:WriteDATFile", "Bembel/src/Geometry/GeometryIO.hpp:LoadGeometryFileDAT"]}
{"id": "C45", "title": "IGES sections are split without losing data", "statement": "makeSection breaks comma-separated data into lines no longer than the given width without splitting an item, provided no item is longer than the width; joining the lines gives back all items in order, which is what the reader recovers.", "quantifier": "all item lists, all widths", "why_tests_cant": "All item lists.", "anchors": ["Bembel/src/Geometry/GeometryIGS.hpp:makeSection", "Bembel/src/Geometry/GeometryIGS.hpp:LoadGeometryFileIGS"]}
{"id": "C46", "title": "Geometry file type detection", "statement": "A geometry path whose name ends in .dat or .igs is read with the corresponding reader, wherever the file lies.", "quantifier": "all path strings", "why_tests_cant": "All strings.", "anchors": ["Bembel/src/Geometry/Geometry.hpp:init_Geometry"]}
{"id": "C47", "title": "Matrix binary files survive a round trip", "statement": "bin2Mat(print2bin(A)) = A for every matrix of the same scalar type, and a scalar size mismatch is reported with a non-zero return value without changing the target.", "quantifier": "all matrices, both storage orders", "why_tests_cant": "All inputs.", "anchors": ["Bembel/src/IO/print2file.hpp:print2bin", "Bembel/src/IO/print2file.hpp:bin2Mat"]}
{"id": "C48", "title": "Stopwatch protocol", "statement": "Any sequence start (lap)* stop can be repeated on the same stopwatch; stop returns the time since start.", "quantifier": "all histories of calls and all clocks", "why_tests_cant": "All histories.", "anchors": ["Bembel/src/IO/Stopwatch.hpp"]}
{"id": "C49", "title": "Laplace kernels: symmetry and adjointness", "statement": "The single layer kernel is symmetric in its two surface points, the adjoint double layer integrand is the double layer integrand with the two points exchanged, and the double layer kernel is the normal derivative of the single layer kernel.", "quantifier": "all pairs of distinct surface points", "why_tests_cant": "Continuum.", "anchors": ["Bembel/src/Laplace/SingleLayerOperator.hpp", "Bembel/src/Laplace/DoubleLayerOperator.hpp", "Bembel/src/Laplace/AdjointDoubleLayerOperator.hpp"]}
{"id": "C50", "title": "Parallel potential evaluation does not depend on the schedule", "statement": "DiscretePotential::evaluate returns for each point the sum over elements and quadrature points, for every number of threads and every assignment of elements to threads.", "quantifier": "all schedules", "why_tests_cant": "Thread schedules.", "anchors": ["Bembel/src/Potential/DiscretePotential.hpp:evaluate"]}
{"id": "C51", "title": "De Boor derivative evaluation is the derivative", "statement": "DeBoorDer(c, knots, x) and DeBoorTPDer (one derivative) return the analytic (partial) derivative of the spline defined by the same control points and knots, at every point of the parameter interval that is not a knot; no denominator vanishes when interior knots are repeated at most p times.", "quantifier": "all non-decreasing knot vectors with interior multiplicity at most the degree, all control points, all non-knot points", "why_tests_cant": "Continuum of inputs; difference quotients are approximate.", "anchors": ["Bembel/src/Spline/DeBoorTP.hpp:DeBoorDer", "Bembel/src/Spline/DeBoorTP.hpp:DeBoorTPDer"]}
{"id": "C52", "title": "The point list contains the surface points of the mesh", "statement": "generatePointList returns one column per vertex index, every column is written, and the column of a vertex is the surface point of every element corner carrying that index, provided the patches of the geometry meet along shared edges; the optional counter gives the number of element corners at each vertex.", "quantifier": "all patch topologies without doubly connected patches, all refinement histories, all fitting geometries", "why_tests_cant": "Columns are overwritten by several elements; all histories and topologies.", "anchors": ["Bembel/src/ClusterTree/ElementTree.hpp:generatePointList"]}
{"id": "C53", "title": "Transfer matrices are exact for the computed moments", "statement": "For the H2 matrix, the moments of a cluster (with one more refinement) equal the moments of its four sons multiplied by the transfer matrices; block s of the transfer matrix holds the values of the father's Lagrange polynomials at the interpolation points of son s.", "quantifier": "all polynomial degrees, numbers of interpolation points, refinements, quadrature rules of the moments, both kinds of moments (function, derivative)", "why_tests_cant": "All degrees, levels and sizes; a wrong son order still gives plausible numbers on symmetric geometries.", "anchors": ["Bembel/src/H2Matrix/H2Multipole.hpp:computeTransferMatrices", "Bembel/src/H2Matrix/H2Multipole.hpp:Moment2D", "Bembel/src/H2Matrix/H2Multipole.hpp:moment2DComputer"]}
{"id": "C54", "title": "Entries of the compressed matrix", "statement": "Whatever the admissibility parameter, the matrix represented by the H2 matrix has in every dense leaf exactly the entries of the dense Galerkin matrix (and is that matrix if there is no low-rank leaf), and in every low-rank leaf the tensor quadrature of the Chebyshev interpolated kernel times the shape functions of the two elements, evaluated at the same surface parameters; for kernels which are polynomials of degree less than the number of points in each reference coordinate nothing is lost.", "quantifier": "all meshes (uniform refinement), admissibility tests, minimal cluster levels, operators (kernel, components, degree), quadrature rules", "why_tests_cant": "Quantifies over all meshes, levels and operators; tests compare a norm for one mesh.", "anchors": ["Bembel/src/H2Matrix/H2Matrix.hpp:init_H2Matrix", "Bembel/src/H2Matrix/H2Multipole.hpp", "Bembel/src/H2Matrix/EigenHelper/H2DenseProduct.hpp"]}
{"id": "C55", "title": "Computed Gauss-Legendre rules are exact", "statement": "For orders without a table, the rule GaussLegendreRule<n> built from the eigenvalues and eigenvectors of its matrix integrates every polynomial of degree at most 2n-1 over [0,1] exactly, has positive weights with sum one and n distinct points in (0,1), and is symmetric about 1/2, provided the eigenvalue solver returns an orthogonal eigenvalue decomposition (exact arithmetic). Such a decomposition exists for every n, and all of them give the same rule up to the order of the points. The points in the tables for up to 20 points are, one by one, within 2^-55 of the points of such a rule.", "quantifier": "all orders n >= 1, all orthogonal eigenvalue decompositions, all polynomials of degree <= 2n-1", "why_tests_cant": "All orders and polynomials; a wrong off-diagonal entry or normalisation only shows for some degrees.", "anchors": ["Bembel/src/Quadrature/GaussLegendreRule.hpp:GaussLegendreRule"]}
{"id": "C56", "title": "Local matrices of symmetric kernels are symmetric", "statement": "For a kernel that is symmetric in its two points and quadrature rules that are symmetric about 1/2, the local matrix of the pair (e2,e1) is the transpose of the local matrix of (e1,e2), for every pair of elements of a uniformly refined mesh, in all singular and regular cases.", "quantifier": "all symmetric kernels, all symmetric rules, all pairs of elements", "why_tests_cant": "Depends on the classification and on sums over all nodes of all sub-domains.", "anchors": ["Bembel/src/DuffyTrick/evaluateBilinearForm.hpp:evaluateBilinearForm", "Bembel/src/DuffyTrick/integrate1.hpp", "Bembel/src/DuffyTrick/integrate2.hpp", "Bembel/src/DuffyTrick/integrate3.hpp", "Bembel/src/DuffyTrick/integrate4.hpp"]}
{"id": "C57", "title": "Bezier extraction reproduces the B-spline basis", "statement": "For every pair of clamped knot vectors the interpolation matrix of the Bezier extraction is invertible (its rank assertion never fires), and column i*m+j of the resulting projection holds, span by span, the Bernstein coefficients of the tensor-product B-spline N_i(x)N_j(y), up to the pruning tolerance 1e-15.", "quantifier": "all clamped knot vectors with knots equal or more than the tolerance apart, all degrees up to the maximum, all points", "why_tests_cant": "Continuum, unbounded number of knots.", "anchors": ["Bembel/src/Spline/Bezierextraction.hpp:MakeProjection", "Bembel/src/Spline/Unroll.hpp:Unroll"]}
{"id": "C58", "title": "IGES geometry files survive a round trip", "statement": "A geometry written by writeIGSFile is read back by LoadGeometryFileIGS with the same patches, degrees and knots in the same order, and control points up to the precision of the printed numbers.", "quantifier": "all geometries of single-span patches with non-zero weights, all printings of numbers, all file names", "why_tests_cant": "All geometries, all degrees, all numbers of patches and lines.", "anchors": ["Bembel/src/Geometry/GeometryIGS.hpp:writeIGSFile", "Bembel/src/Geometry/GeometryIGS.hpp:writePatchData", "Bembel/src/Geometry/GeometryIGS.hpp:writeDirectory", "Bembel/src/Geometry/GeometryIGS.hpp:LoadGeometryFileIGS"]}
{"id": "C59", "title": "Helmholtz and Maxwell kernels solve the Helmholtz equation", "statement": "For every complex wave number the Helmholtz kernel is symmetric and satisfies the Helmholtz equation away from the singularity, the double layer and adjoint double layer kernels are its normal derivatives in the second and first point, the adjoint double layer integrand is the double layer integrand with exchanged points, the gradient used by the Maxwell potential is the gradient of the kernel, and for wave number zero all kernels are those of Laplace's equation.", "quantifier": "all complex wave numbers, all pairs of distinct points, all directions", "why_tests_cant": "Continuum of points and wave numbers; finite differences only approximate derivatives.", "anchors": ["Bembel/src/Helmholtz/SingleLayerOperator.hpp", "Bembel/src/Helmholtz/DoubleLayerOperator.hpp", "Bembel/src/Helmholtz/AdjointDoubleLayerOperator.hpp", "Bembel/src/Helmholtz/DoubleLayerPotential.hpp", "Bembel/src/Maxwell/SingleLayerPotential.hpp"]}
{"id": "C60", "title": "Near field and far field discretise the same operator", "statement": "For each of the nine boundary integral operators, the matrix that evaluateIntegrand adds at two surface points is the product of the weights with the sum over the far-field components of the entries of evaluateFMMInterpolation times the shape functions (or derivatives) whose moments the H2 matrix uses for these components. Hence the entry of the compressed matrix for two elements in a far-field block differs from the entry the quadrature of the near field would compute by at most h^2 times the interpolation error of the kernel.", "quantifier": "all operators, degrees, levels, surface points with non-degenerate parametrisation, wave numbers, meshes, far-field blocks, pairs of elements, components and shape functions", "why_tests_cant": "The near-field and far-field code paths are separate formulas in every operator; agreement must hold at every pair of points.", "anchors": ["Bembel/src/Laplace/SingleLayerOperator.hpp", "Bembel/src/Laplace/DoubleLayerOperator.hpp", "Bembel/src/Laplace/AdjointDoubleLayerOperator.hpp", "Bembel/src/Laplace/HypersingularOperator.hpp", "Bembel/src/Helmholtz/SingleLayerOperator.hpp", "Bembel/src/Helmholtz/HypersingularOperator.hpp", "Bembel/src/Maxwell/SingleLayerOperator.hpp", "Bembel/src/H2Matrix/H2Multipole.hpp", "Bembel/src/H2Matrix/H2Matrix.hpp", "Bembel/src/DuffyTrick/integrate1.hpp"]}
{"id": "C61", "title": "A coefficient vector is evaluated as the function it describes", "statement": "FunctionEvaluator::evaluate at a surface point gives the linear combination of the tensor product Bernstein polynomials of the element, divided by the element width, with the local coefficients that the transformation matrix assigns to (component, element, polynomial); for tangential fields the two components multiply the two tangents, and evaluateDiv is the derivative of the first component in x plus that of the second in y, with respect to the coordinates of the patch. evaluateOnPatch agrees with it, the value is linear in the coefficients, and coefficients h for all polynomials give the constant 1.", "quantifier": "all geometries, uniform meshes, polynomial degrees, transformation matrices, coefficient vectors, elements and surface points", "why_tests_cant": "The reordering of coefficients and the tensor-product indexing must be right for every degree, level, element and component.", "anchors": ["Bembel/src/AnsatzSpace/FunctionEvaluator.hpp", "Bembel/src/AnsatzSpace/FunctionEvaluatorEval.hpp", "Bembel/src/AnsatzSpace/SuperSpace.hpp"]}
{"id": "C62", "title": "Linear forms and local operators are quadrature of the stated integrals", "statement": "The vector computed by DiscreteLinearForm satisfies, for every coefficient vector v with function v_h: v^T b is the quadrature over the surface of g v_h (Dirichlet trace), of (g.n) v_h (Neumann trace), of the product of v_h with the tangential part of g respectively its rotation (tangential traces). The matrix of DiscreteLocalOperator satisfies v^T A w = quadrature of v_h w_h (mass matrices) respectively of the product of the surface gradients (Laplace-Beltrami operator); both matrices are symmetric and, for positive weights, positive semidefinite, and functions constant on each element are in the kernel of Laplace-Beltrami. On flat patches, with a rule exact for the degrees involved, the Dirichlet form and the mass matrix are the exact integrals over the surface.", "quantifier": "all geometries, uniform meshes, degrees, cubature rules, transformation matrices, right-hand sides and coefficient vectors (real scalars)", "why_tests_cant": "Scaling by h, by the surface measure and the index bookkeeping of the assembly must be right for all degrees, meshes and functions at once.", "anchors": ["Bembel/src/LinearForm/DiscreteLinearForm.hpp", "Bembel/src/LinearForm/DirichletTrace.hpp", "Bembel/src/LinearForm/NeumannTrace.hpp", "Bembel/src/LinearForm/TangentialTrace.hpp", "Bembel/src/LinearForm/RotatedTangentialTrace.hpp", "Bembel/src/LinearOperator/DiscreteLocalOperator.hpp", "Bembel/src/Identity/IdentityOperatorBase.hpp", "Bembel/src/Identity/MassMatrixScalarDisc.hpp", "Bembel/src/LaplaceBeltrami/LaplaceBeltramiOperatorBase.hpp"]}
{"id": "C63", "title": "Potentials solve the equation they are made for", "statement": "In every execution of the parallel loop DiscretePotential::evaluate returns, at each evaluation point, the quadrature of kernel times function over the surface for the Laplace and Helmholtz single and double layer potentials. As a function of the evaluation point, away from the quadrature points, the Laplace potentials are harmonic, the gradient potential is the gradient of the single layer potential, the Helmholtz potentials satisfy Laplacian u = -k^2 u, and the Maxwell potential is a vector potential plus the gradient of a scalar potential over k^2, all of whose components satisfy the Helmholtz equation.", "quantifier": "all geometries, uniform meshes, degrees, cubature rules, coefficient vectors, wave numbers, evaluation points off the quadrature points, thread counts and schedules", "why_tests_cant": "A numerical test compares with one manufactured solution; the equation has to hold for every density, geometry, wave number and point.", "anchors": ["Bembel/src/Potential/DiscretePotential.hpp", "Bembel/src/Laplace/SingleLayerPotential.hpp", "Bembel/src/Laplace/DoubleLayerPotential.hpp", "Bembel/src/Laplace/SingleLayerPotentialGradient.hpp", "Bembel/src/Helmholtz/SingleLayerPotential.hpp", "Bembel/src/Helmholtz/DoubleLayerPotential.hpp", "Bembel/src/Maxwell/SingleLayerPotential.hpp"]}
{"id": "C64", "title": "Functions of a continuous space have one value at every point of the surface", "statement": "The transformation matrix built by AnsatzSpace for scalar continuous functions is the product of projector and glue matrix, and for every coefficient vector the function it describes has the same value from every element containing a point: neighbouring elements of a patch and, across a common edge, elements of different patches (FunctionEvaluator::evaluate returns the same number). The space is defined exactly when the clean-up of the identifications finds no gap and then has one function per class of identified splines; every continuous patchwise spline belongs to the space (exactly for degrees up to 4, otherwise up to the entries the projector drops). For discontinuous spaces the product is the projector itself.", "quantifier": "all geometries whose patches are glued along opposed edges, refinement levels, degrees 1..19, knot repetitions 1..p, coefficient vectors, elements and points of elements", "why_tests_cant": "Continuity must hold at all (uncountably many) points of all interfaces for every coefficient vector, mesh level, degree and gluing.", "anchors": ["Bembel/src/AnsatzSpace/AnsatzSpace.hpp", "Bembel/src/AnsatzSpace/Glue.hpp", "Bembel/src/AnsatzSpace/Projector.hpp", "Bembel/src/AnsatzSpace/FunctionEvaluator.hpp"]}
{"id": "C65", "title": "Div-conforming spaces have a continuous normal component", "statement": "For the div-conforming spaces of AnsatzSpace and every coefficient vector, the component of the vector field normal to an interface is continuous: between the elements of a patch, and (with opposite outward directions) across the common edge of two patches; for patches whose parametrisations agree along the edge, the value returned by the evaluator divided by the surface measure has opposite outward conormal components on both sides. The space is always defined, and every patchwise spline field whose normal components match at the interfaces belongs to it (exactly for degrees up to 4, otherwise up to the dropped entries).", "quantifier": "all geometries glued along opposed edges, refinement levels, degrees 1..19, knot repetitions 1..p, coefficient vectors, and all points of interfaces except element corners", "why_tests_cant": "The signs and the numbering of the glue matrix must fit the traces of the projected splines for every orientation of the two patches, degree and level.", "anchors": ["Bembel/src/AnsatzSpace/AnsatzSpace.hpp", "Bembel/src/AnsatzSpace/Glue.hpp", "Bembel/src/AnsatzSpace/Projector.hpp", "Bembel/src/AnsatzSpace/FunctionEvaluatorEval.hpp"]}
{"id": "C66", "title": "Spherical harmonics and their gradients", "statement": "For every x != 0 and degree N, spherical_harmonics_full returns all Y_n^m(x/|x|), n <= N, |m| <= n, in the order (0,0),(1,-1),(1,0),(1,1),..., with Y_n^(-m) the conjugate of Y_n^m, whatever the memory contained before; |x|^n times an entry is a harmonic function. Given that table, Dsolid_harmonics_full returns for N >= 1 the gradients of the real parts of the solid harmonics |x|^n Y_n^m(x/|x|). For N = 0 it writes outside its table of Legendre polynomials.", "quantifier": "all points x other than the origin, all degrees N, all contents of uninitialised memory, all directions", "why_tests_cant": "The recursion must agree with the derivatives of the Legendre polynomials for every degree, order and point; harmonicity and gradients are statements about all points.", "anchors": ["Bembel/src/util/Sphericals.hpp"]}
{"id": "C67", "title": "Series of spherical harmonics", "statement": "For coefficients symmetric in m, evaluate_sphericals returns the sum of c_(n,m) Y_n^m(x), n < deg, at every unit vector x; evaluate_solid_sphericals the sum of c_(n,m) |x|^n Y_n^m(x/|x|) or of its radial derivative at every x != 0 provided the coefficient (deg-1, deg-1) vanishes (otherwise its term has the wrong factor); evaluate_dsphericals and evaluate_dsolid_sphericals give the gradients provided the last two coefficients vanish. The terms of degree deg are never summed although the documentation includes them, and the gradient of a solid series of deg 2 reads an uninitialised variable.", "quantifier": "all points, all degrees deg >= 2, all symmetric coefficient vectors, all directions", "why_tests_cant": "The evaluators interleave several three-term recursions; agreement with the series and with its derivative is needed for every degree, coefficient vector and point.", "anchors": ["Bembel/src/util/Sphericals.hpp"]}
{"id": "C68", "title": "Kernel of the homogenised Laplace operators", "statement": "Away from the 27 lattice points around the origin, k_mod returns the sum of 1/(4 pi |x - m|) over these points plus |x|^2/6, an even function with Laplacian 1, and Dk_mod its gradient. The kernel evaluated by the single layer operator and potential is k_mod plus the series of solid harmonics; it is symmetric in its two points if the coefficients of odd degree vanish, and its Laplacian away from the lattice is 1 if the coefficients are symmetric and the last one used vanishes.", "quantifier": "all points whose difference is not a lattice point, all degrees, all coefficient vectors, all directions", "why_tests_cant": "Value, gradient and Laplacian are statements about all points of space and all coefficient vectors.", "anchors": ["Bembel/src/HomogenisedLaplace/Coefficients.hpp", "Bembel/src/HomogenisedLaplace/SingleLayerOperator.hpp", "Bembel/src/HomogenisedLaplace/SingleLayerPotential.hpp"]}
{"id": "C69", "title": "Coefficients of the periodic kernel", "statement": "getCoefficients returns (deg+1)^2 coefficients, equal for orders m and -m, that minimise the sum over the points of the three faces of the squared differences of the values and of the normal derivatives of the kernel at opposite points of the unit cube. The minimiser is unique up to the constant term, so the result depends neither on uninitialised memory nor on the least squares solver. The coefficients of odd degree vanish, the constant term makes the quadrature of the kernel used by the operators over the faces equal to -1/24, and that kernel is symmetric with Laplacian 1. The degree is even, between 4 and 12, and never lower for a smaller precision.", "quantifier": "all precisions, all contents of the uninitialised memory, all least squares solvers, all tensor grids of more than deg distinct nodes (symmetric ones for the parity), all eigenvalue decompositions behind the Gauss rule of the code", "why_tests_cant": "Minimality and uniqueness range over all coefficient vectors; the vanishing of the odd coefficients and independence of memory cannot be told from rounding by a test.", "anchors": ["Bembel/src/HomogenisedLaplace/Coefficients.hpp", "Bembel/src/Quadrature/GaussLegendreRule.hpp"]}
{"id": "C70", "title": "Element lists of the mesh", "statement": "The lists an element tree generates have one entry per element in the order of the iteration: generateElementList the four vertex numbers of the element, generateMidpointList and generateRadiusList a ball that contains its corners, generateElementLabels distinct labels (consecutive ones on a uniform mesh), identifyPatch 1 for the elements of the patch and 0 for the others. On a uniform mesh of a manifold, generatePatchBoundaryLabels gives -1 for an element that touches the boundary of the surface, otherwise the number of its edges on the boundary of its patch.", "quantifier": "all geometries, all refinement histories (uniform meshes of every level for the boundary labels), all patch numbers", "why_tests_cant": "Ordering and completeness of the lists must hold for every geometry and refinement history.", "anchors": ["Bembel/src/ClusterTree/ElementTree.hpp"]}
{"id": "C71", "title": "VTK exports", "statement": "The file written by VTKSurfaceExport has one cell per element; the connectivity and offsets of cell c give points of the surface at the corners of the c-th element; row c of the patch numbers, of the normals (of length one) and of every data set added since the last clearData belongs to the midpoint of that element. VTKDomainExport writes the grid points with x running fastest and, for every data set, the value at each of the points in the same order. VTKPointExport numbers its points and stores the rows as given.", "quantifier": "all geometries and levels, all sequences of addDataSet and clearData calls, all functions; all grids of at most 2^31-1 points", "why_tests_cant": "Alignment of values, cells and points has to hold for every geometry, level and call history; a picture does not show it.", "anchors": ["Bembel/src/IO/VTKSurfaceExport.hpp", "Bembel/src/IO/VTKDomainExport.hpp", "Bembel/src/IO/VTKPointExport.hpp", "Bembel/src/ClusterTree/ElementTree.hpp"]}
{"id": "C72", "title": "Copies and moves of block cluster trees", "statement": "Variables of type BlockClusterTree behave as independent values: after any sequence of constructions, copies, moves, copy and move assignments, changes of leaves and ends of scope that uses only variables with a known value as sources, iterating from lbegin() to lend() shows the blocks of the tree in their order with the contents of exactly this variable; changing a leaf of a copy does not change the original, and the block trees that init_H2Matrix assigns to the components of an operator are separate and survive the tree they are copied from. Copying a default constructed or a moved-from tree is undefined.", "quantifier": "all sequences of operations on any number of variables, all element trees, admissibility tests and leaf contents", "why_tests_cant": "Sharing of the leaf pointers shows only after particular histories of copies, moves and assignments, there are infinitely many.", "anchors": ["Bembel/src/H2Matrix/BlockClusterTree.hpp", "Bembel/src/H2Matrix/TreeLeaf.hpp", "Bembel/src/util/GenericMatrix.hpp"]}
{"id": "C73", "title": "Expressions of H2 matrices", "statement": "For every expression built with +, - and scalar multiples from H2 matrices and dense or sparse matrices, y = E*x, y += E*x and y -= E*x act as multiplication with the corresponding matrix (for an H2 matrix the one given by its blocks and the transformation matrix), for all columns of x and every thread schedule; get_dense() returns that matrix. x = E*x is correct if E is a sum, difference or multiple; for a single H2 matrix x = H*x sets x to zero.", "quantifier": "all expressions of any depth, all vectors and matrices on the right, all schedules, aliasing of both sides", "why_tests_cant": "Expression trees, vectors and schedules are infinitely many; aliasing depends on the form of the statement.", "anchors": ["Bembel/src/H2Matrix/EigenHelper/H2DenseProduct.hpp", "Bembel/src/H2Matrix/EigenHelper/H2CwiseBinaryOp.hpp", "Bembel/src/H2Matrix/H2MatrixBase.hpp", "Bembel/src/H2Matrix/H2Matrix.hpp:get_dense"]}
{"id": "C74", "title": "Repeated initialisation and sharing of geometries", "statement": "For every program that constructs, copies, moves, assigns and re-reads Geometry variables and initialises, re-initialises, copies and assigns AnsatzSpace variables, changing the patches of a geometry in place only before a space was initialised with it, every variable shows exactly what its last initialisation determines: a space initialised before behaves as a new one. If the patches are changed afterwards, existing spaces see the new patches with the old mesh. A ClusterTree that was initialised with level 0 can be initialised again; one that was refined can not.", "quantifier": "all programs over any number of variables, all geometries, levels, degrees and knot repetitions", "why_tests_cant": "Histories of constructions, moves and initialisations are unbounded; sharing shows only in particular orders.", "anchors": ["Bembel/src/Geometry/Geometry.hpp:Geometry", "Bembel/src/AnsatzSpace/SuperSpace.hpp:init_SuperSpace", "Bembel/src/AnsatzSpace/AnsatzSpace.hpp:init_AnsatzSpace", "Bembel/src/ClusterTree/ClusterTree.hpp:init_ClusterTree", "Bembel/src/ClusterTree/ElementTree.hpp:init_ElementTree"]}
{"id": "C75", "title": "surfaceL2error measures the distance on the surface", "statement": "surfaceL2error(space, v, g, deg) is the square root of the quadrature, over all elements, of the squared difference of g and the function described by v, weighted by the surface measure. On flat patches, for polynomials g of degree at most deg and splines of degree at most deg, it is the exact L2 norm of the difference over the surface (with the Gauss rule that the order selects). It is zero exactly if both agree in all quadrature points, changes by at most the distance of the arguments (a seminorm), and scales with its arguments. For orders above 50 the one-point rule is used silently, and for div-conforming spaces only the first component of the difference counts.", "quantifier": "all geometries, uniform meshes, degrees, transformation matrices, coefficient vectors, functions and orders (real scalars)", "why_tests_cant": "An error measure that is wrong by a factor, or blind to some functions, makes every convergence test meaningless; it has to be right for every function and mesh.", "anchors": ["Bembel/src/util/surfaceL2error.hpp", "Bembel/src/AnsatzSpace/FunctionEvaluator.hpp:evaluate", "Bembel/src/Quadrature/GaussSquare.hpp"]}
{"id": "C76", "title": "The mesh is exact in machine arithmetic", "statement": "With 32 bit integers and binary64 numbers rounded to nearest: the corner coordinates, widths, corners, midpoints and identification numbers of all elements of every refined mesh are computed without rounding and without overflow, as long as the level is at most 30 and the number fits into an int (beyond that, the computation overflows; compute_global_id overflows from level 16 on). map2surface, with or without fused multiply-add, maps every pair of doubles in [0,1] into the element, so never outside the patch; the assertion of mapToReferenceElement holds exactly for the doubles of the closed element; on uniform meshes with fewer than 2^31 elements evaluateOnPatch finds for all doubles in [0,1] an element containing the point without failing its assertion. Uniform knots with 2^M intervals are exact; with any number of intervals they are strictly increasing inside (0,1) and accurate to 3 * 2^-53; the interpolation points of the projector are strictly inside the elements.", "quantifier": "all meshes, refinement histories, levels up to 30, elements, all pairs of double precision numbers, numbers of knots and degrees", "why_tests_cant": "Whether rounding can push a point out of its element depends on single bits of the input; there are 2^62 doubles in [0,1].", "anchors": ["Bembel/src/ClusterTree/ElementTree.hpp:refineLeaf", "Bembel/src/ClusterTree/ElementTree.hpp:computeReorderingVector", "Bembel/src/ClusterTree/ElementTree.hpp:compute_global_id", "Bembel/src/ClusterTree/ElementTreeNode.hpp:mapToReferenceElement", "Bembel/src/ClusterTree/ElementTreeNode.hpp:get_h", "Bembel/src/AnsatzSpace/SuperSpace.hpp:map2surface", "Bembel/src/AnsatzSpace/FunctionEvaluator.hpp:evaluateOnPatch", "Bembel/src/Spline/Knots.hpp:MakeUniformKnotVector", "Bembel/src/Spline/Localize.hpp:MakeInterpolationMask", "Bembel/src/AnsatzSpace/Projector.hpp"]}
{"id": "C77", "title": "Interpolation in Chebyshev points converges", "statement": "The interpolation used by the compression, in n points per direction evaluated in Newton form: for a function whose n-th derivative is bounded by B on the reference interval the interpolant differs from it by at most 2 B / (4^n n!); errors in the values are amplified by at most 2n-1; for a kernel on a pair of clusters the error is at most (1 + L + L^2 + L^3) times the one-dimensional error, L = 2n-1. Hence the entries of the compressed matrix of every Laplace operator in far field blocks differ from the quadrature of the exact kernel by at most an explicit multiple of that error.", "quantifier": "all numbers of interpolation points, all functions and kernels with bounded derivatives, all points, meshes, operators, blocks and entries", "why_tests_cant": "Accuracy for one kernel and a few numbers of points says nothing about the next; the bound holds for all of them.", "anchors": ["Bembel/src/H2Matrix/H2Multipole.hpp:ChebychevRoots", "Bembel/src/H2Matrix/H2Multipole.hpp:computeLagrangePolynomials", "Bembel/src/H2Matrix/H2Multipole.hpp:evaluateNewtonPolynomial", "Bembel/src/H2Matrix/H2Matrix.hpp:init_H2Matrix"]}
{"id": "C78", "title": "The compressed Laplace operators are accurate on flat patches", "statement": "On every uniformly refined mesh whose patches are parallelograms, with the clusters' balls and the admissibility test of the code: each entry of the compressed matrix of the Laplace single layer operator in a far field block differs from the quadrature of the exact kernel by at most h^2 |patch1| |patch2| / (4 pi) (1 + L + L^2 + L^3) (2 / d) (eta / 2)^n, where n is the number of interpolation points, eta the admissibility constant, L = 2n-1 and d > 0 the distance of the two balls; likewise for the hypersingular operator, and with 2 (n+1)^2 / d^2 instead of 2 / d for the double layer and adjoint double layer operators. For eta < 2 the error decays exponentially in n.", "quantifier": "all meshes of parallelograms, levels, degrees, admissibility constants eta > 0, minimal cluster levels, numbers of interpolation points, quadrature rules with positive weights, blocks and entries", "why_tests_cant": "The admissibility condition, the balls, the interpolation and the kernel all enter; a test sees a few geometries and cannot tell a constant factor from a wrong rate.", "anchors": ["Bembel/src/H2Matrix/H2Matrix.hpp:init_H2Matrix", "Bembel/src/H2Matrix/BlockClusterTree.hpp:compareCluster", "Bembel/src/H2Matrix/H2Multipole.hpp:ChebychevRoots", "Bembel/src/Laplace/SingleLayerOperator.hpp", "Bembel/src/Laplace/HypersingularOperator.hpp", "Bembel/src/Laplace/DoubleLayerOperator.hpp", "Bembel/src/Laplace/AdjointDoubleLayerOperator.hpp", "Bembel/src/ClusterTree/ElementTree.hpp:computeElementEnclosings", "Bembel/src/util/GeometryHelper.hpp:computeEnclosingBall"]}
{"id": "C79", "title": "The computed Galerkin matrices approximate the exact integrals", "statement": "For a quadrature rule with positive weights that is exact for polynomials of degree less than q: the one-dimensional error is at most 4 B / (4^q q!) where B bounds the q-th derivative of the integrand. For two disjoint elements of a surface of parallelograms, with sides at most L and distance at least d, the regular quadrature of a pair of Laplace single layer, double layer or adjoint double layer entries differs from h^2 times the exact integral of kernel times shape functions by at most h^2 |patch1| |patch2| / (4 pi) (4 / d) G(m) (L / (4 d))^m (for the double layer operators with (m+1)^2 / d^2 instead of 1 / d), for every m with m + p <= q, where G(m) = 1 + M + M^2 + M^3, M = 2m - 1. Every entry in a far field block of the compressed matrix differs from h^2 times the exact integral by at most h^2 |patch1| |patch2| / (4 pi) (2 / d) (G(n) (eta/2)^n + 2 G(m) (eta/2)^m), n the number of interpolation points, and likewise for the double layer operators. The integrals exist.", "quantifier": "all rules with positive weights and given degree of exactness, all meshes of parallelograms, levels, polynomial degrees, pairs of disjoint elements, admissibility constants, blocks and entries", "why_tests_cant": "Numerical tests compare with reference values for a few right-hand sides; they cannot bound the error of each entry on every mesh, or exclude a wrong constant that disappears in the tolerance.", "anchors": ["Bembel/src/DuffyTrick/integrate1.hpp:integrate1", "Bembel/src/H2Matrix/H2Matrix.hpp:init_H2Matrix", "Bembel/src/H2Matrix/BlockClusterTree.hpp:compareCluster", "Bembel/src/Laplace/SingleLayerOperator.hpp", "Bembel/src/Laplace/DoubleLayerOperator.hpp", "Bembel/src/Laplace/AdjointDoubleLayerOperator.hpp", "Bembel/src/Quadrature/Quadrature.hpp"]}
{"id": "C80", "title": "Logged rows are complete, ordered, aligned and survive a crash", "statement": "The file of a logger contains exactly the rows of its file() and both() calls, in order, one line each, whatever other loggers (with other file names) and the terminal do in between; a logger that never writes a row leaves an existing file untouched. If the program crashes inside the next call, at any point and with any part of the buffers written, all rows of earlier calls are in the file and what follows is a beginning of the new row. The terminal shows the rows of all term() and both() calls in order. If the cells fit, the i-th cell of each row starts at column i (N + 2|sep|) and all rows have the same length; reading white-space separated words gives the cells back if the separator is not empty and blank. (Refuted: the mode given to the constructor has no effect, app truncates; two loggers with one name overwrite each other; the same term(x) call prints two different lines depending on earlier rows of any logger; with an empty separator cells run together.)", "quantifier": "all histories of constructions, calls and destructions of any number of loggers, all rows, widths, separators, all crash points and amounts of buffered text written", "why_tests_cant": "Tests write a few rows and read the file after the program has ended; they do not cover interleavings of loggers, the points at which a program can crash, or the state of the streams left behind by other loggers.", "anchors": ["Bembel/src/IO/Logger.hpp:Logger"]}
{"id": "C81", "title": "checkOrientation accepts exactly the meshes whose edge middles agree", "statement": "On the tree of a mesh after any refinement history, checkOrientation() returns without a failing assertion exactly if at every edge shared by two patches, both with local number 1, 2 or 3, the middles of the two sides are closer than 1e-9 and their position vectors enclose an acute angle; the normals have no influence on the result. Every geometry whose shared edges have the same middles, none of them within 1e-9 of the origin, is accepted. (Refuted: patches with opposite normals are accepted; a gap at an edge that is number 0 of a patch is not noticed; a valid geometry with the middle of an edge at the origin is rejected.)", "quantifier": "all patch meshes, geometries, parametrisations and refinement histories", "why_tests_cant": "Tests call the check on correct geometries, where it passes; they do not show that it misses wrong orientations and gaps, or that it depends on the position of the origin.", "anchors": ["Bembel/src/ClusterTree/ClusterTree.hpp:checkOrientation", "Bembel/src/ClusterTree/ElementTree.hpp:patchTopologyInfo", "Bembel/src/util/Constants.hpp:edgemps"]}
{"id": "C82", "title": "The divergence theorem holds for div-conforming functions", "statement": "For every coefficient vector of a div-conforming AnsatzSpace on a uniformly refined, consistently oriented mesh, the quadrature over all elements of what FunctionEvaluator::evaluateDiv returns, with any rule exact for the polynomial degree, equals the sum of the fluxes of the function through the element sides that lie on the boundary of the surface: the fluxes through all inner sides, inside of patches and across patches, cancel. On a closed surface it is zero, and so is the integral of the divergence over the parameter domain (the total charge belonging to a discrete surface current vanishes).", "quantifier": "all meshes whose patches share whole edges with opposite directions, all levels, polynomial degrees up to 19, knot repetitions 1..p, coefficient vectors, parametrisations and quadrature rules exact for degree p", "why_tests_cant": "Tests check single fluxes or solve with one geometry; conservation has to hold for every function of the space on every mesh.", "anchors": ["Bembel/src/AnsatzSpace/AnsatzSpace.hpp:init_AnsatzSpace", "Bembel/src/AnsatzSpace/Glue.hpp:assembleGlueMatrix", "Bembel/src/AnsatzSpace/FunctionEvaluator.hpp:evaluateDiv", "Bembel/src/AnsatzSpace/FunctionEvaluatorEval.hpp:FunctionEvaluatorEval"]}
{"id": "C83", "title": "Equal coefficients give a constant function", "statement": "In every continuous or discontinuous AnsatzSpace on a uniformly refined mesh, the function whose coefficients are all equal to a evaluates, with FunctionEvaluator, to the constant 2^M a at every point of every element (polynomial degrees up to 4; for higher degrees the difference is at most 2^M |a| (p+1)^2 / 10000, from the entries the projector drops). Therefore the entries of a DirichletTrace vector sum to 2^M times the quadrature of the given function over the surface, all entries of the mass matrix sum to 4^M times the quadrature of the area, a/2^M in every entry solves the L2 projection of the constant a exactly, and every row and column of the Laplace-Beltrami matrix sums to zero.", "quantifier": "all meshes whose patches share whole edges, all levels M, degrees, knot repetitions, constants, parametrisations and quadrature rules", "why_tests_cant": "Tests solve one problem on one geometry and look at a convergence rate; that the scaling of the basis, the projector and the gluing fit together has to hold on every mesh and for every refinement.", "anchors": ["Bembel/src/AnsatzSpace/AnsatzSpace.hpp:init_AnsatzSpace", "Bembel/src/AnsatzSpace/Glue.hpp:assembleGlueMatrix", "Bembel/src/AnsatzSpace/Projector.hpp:makeLocalProjectionTriplets", "Bembel/src/AnsatzSpace/FunctionEvaluator.hpp:evaluate", "Bembel/src/LinearForm/DiscreteLinearForm.hpp:compute", "Bembel/src/LinearOperator/DiscreteLocalOperator.hpp:compute"]}
{"id": "C84", "title": "The number of degrees of freedom is given by the mesh", "statement": "AnsatzSpace::get_number_of_dofs, with D (Sd for degree p-1) the number of one-dimensional splines of the level, degree and knot repetition and P the number of patches: P D^2 for discontinuous spaces; for continuous spaces (D-2)^2 per patch plus D-2 per edge of the patch mesh plus one per vertex, if the patches around each vertex are connected through common sides (P (D-1)^2 - P + V on closed surfaces, so P (D-1)^2 + 2 on a topological sphere); for div-conforming spaces 2 P Sd (Sd+1) minus Sd per shared side (2 P Sd^2 on closed surfaces).", "quantifier": "all consistently oriented patch meshes, open or closed, all levels, polynomial degrees up to 19 and admissible knot repetitions", "why_tests_cant": "Tests compare the number for a few geometries and levels; that nothing is lost or glued twice has to hold for every mesh, including many patches around a vertex.", "anchors": ["Bembel/src/AnsatzSpace/AnsatzSpace.hpp:get_number_of_dofs", "Bembel/src/AnsatzSpace/Glue.hpp:assembleGlueMatrix", "Bembel/src/AnsatzSpace/Projector.hpp:makeLocalProjectionTriplets"]}
{"id": "C85", "title": "The compressed operator as a whole is close to the dense one", "statement": "Let A be the matrix the H2Matrix of a Laplace single or (adjoint) double layer operator stands for and m the dense matrix DiscreteOperator assembles for the same operator, both on a surface of flat patches. If the dense matrix computes the far field with the quadrature rule of the H2Matrix up to delta, every entry of A differs from that of m by at most an explicit bound proportional to (eta/2)^n plus delta, n being the number of interpolation points per direction; for eta < 2 the bound is at most c q^n + delta with q < 1 and c depending only on the mesh, the admissibility constant and the ansatz space. Hence H2Matrix * x differs from the dense product by at most eps times the l1 norms involved; and if the dense matrix is positive definite with constant c > eps D, so is the compressed one, and the compressed equation determines the solution.", "quantifier": "all flat surfaces, refinement levels, polynomial degrees, positive quadrature rules, numbers of interpolation points, admissibility constants, vectors and schedules of the product", "why_tests_cant": "Tests compare the two matrices for one geometry and a few levels and numbers of points; that the error does not exceed the bound in any block, and decays exponentially, has to hold for every mesh.", "anchors": ["Bembel/src/H2Matrix/H2Matrix.hpp:init_H2Matrix", "Bembel/src/H2Matrix/BlockClusterTree.hpp:compareCluster", "Bembel/src/H2Matrix/H2Multipole.hpp:interpolateKernel", "Bembel/src/LinearOperator/DiscreteOperator.hpp:compute"]}
{"id": "C86", "title": "Coefficients are determined by the function; the systems of mass matrix and Laplace-Beltrami operator", "statement": "Two functions of a scalar ansatz space of degree p <= 4 with the same values at a grid of (p+1)^2 points of every element have the same coefficients, and so have two fields of a div-conforming space where the two tangents are linearly independent. If the quadrature rule has at least p+1 different points and positive weights (the rules of the library with at least p+1 points do) and the surface measure does not vanish, the mass matrix is positive definite, so every linear system with it has exactly one solution; for the load vector of g that solution is the unique minimiser of the L2 error to g among the functions of the space, and if g coincides with a function of the space at the quadrature points its coefficients are returned. On a surface in one piece the Laplace-Beltrami matrix of a continuous space vanishes on the constant vectors only: a system with it is solvable exactly if its right-hand side sums to zero, and its solution is unique up to a constant.", "quantifier": "all meshes, refinement levels, degrees up to 4, knot repetitions, quadrature rules with at least p+1 points, right-hand sides and coefficient vectors", "why_tests_cant": "Tests solve with the mass matrix for one geometry and a few levels; that no nonzero coefficient vector is invisible must hold for every mesh and every right-hand side.", "anchors": ["Bembel/src/LinearOperator/DiscreteLocalOperator.hpp:compute", "Bembel/src/Identity/IdentityOperatorBase.hpp:evaluateIntegrand_impl", "Bembel/src/LaplaceBeltrami/LaplaceBeltramiOperatorBase.hpp:evaluateIntegrand_impl", "Bembel/src/AnsatzSpace/Glue.hpp:assembleGlueMatrix", "Bembel/src/AnsatzSpace/FunctionEvaluator.hpp:evaluate", "Bembel/src/util/surfaceL2error.hpp"]}
{"id": "C87", "title": "Moving the geometry changes no result", "statement": "If the geometry is rotated and translated, the mesh computed for it is the mesh of the original geometry with its points and the midpoints of its clusters moved and the same tree and radii; the full and the compressed matrix of every operator of the library, the mass matrix and the Laplace-Beltrami matrix, the load vectors of functions moved with the geometry, the values of the Laplace and Helmholtz potentials at moved points and the L2 error of scalar functions are the same, and the gradient potential and the Maxwell potential at moved points are the original vectors turned. The choice of quadrature and the admissibility of blocks depend on mutual distances only. The L2 error of div-conforming functions does depend on the position of the geometry, as it compares the first Cartesian component only.", "quantifier": "all geometries with any number of patches, all right-handed rotations with any translation, all refinement levels, degrees, quadrature rules, wave numbers, ansatz spaces, coefficient vectors and thread counts", "why_tests_cant": "A test compares a few positions of one geometry; that no absolute coordinate enters tree, clustering, quadrature choice or kernels must hold for every geometry and every motion.", "anchors": ["Bembel/src/ClusterTree/ElementTree.hpp:init_ElementTree", "Bembel/src/ClusterTree/ClusterTree.hpp:init_ClusterTree", "Bembel/src/LinearOperator/DiscreteOperator.hpp:compute", "Bembel/src/LinearOperator/DiscreteLocalOperator.hpp:compute", "Bembel/src/H2Matrix/H2Matrix.hpp:init_H2Matrix", "Bembel/src/DuffyTrick/evaluateBilinearForm.hpp:evaluateBilinearForm", "Bembel/src/Potential/DiscretePotential.hpp:DiscretePotential", "Bembel/src/util/surfaceL2error.hpp:surfaceL2error"]}
{"id": "C88", "title": "The computation as a whole: mesh, forms, assembly and transformation give the stated matrix", "statement": "For every conforming geometry ClusterTree succeeds: it has P*4^M elements, numbered in the order of the iterator. The full matrix of every operator of the library then exists and is the same for every schedule of the assembly tasks: its entry (u, v) is the double sum over the columns u and v of the transformation matrix with the forms of the two elements, components and local basis functions of the rows, and the form of two elements is the result of the quadrature routine for their position (disjoint, equal, common edge, common vertex) with the degree chosen for their distance, whether or not the points are taken from the table computed in advance. Operators with exchanged points, such as double and adjoint double layer, have transposed matrices; the matrices of the single layer, hypersingular and Maxwell operators (and of the real and the imaginary part of their Helmholtz variants) are symmetric. The compressed matrix of every operator of the library exists as well, and its dense blocks have the entries of the full one; for the single layer, double layer and adjoint double layer operators of the Laplace equation on flat patches, with any admissibility constant below 2, the product with the compressed matrix differs from the product with the full matrix by at most a term that decreases exponentially with the number of interpolation points plus the quadrature error of the far-field entries of the full matrix itself; the degrees the library chooses for its Gauss rules are sufficient for this, as long as (p+2)*M < 100.", "quantifier": "all geometries with any number of patches whose common corners and edges agree (flat ones for the convergence), all refinement levels, degrees, wave numbers, quadrature rules (symmetric ones for the transposition, Gauss rules for the convergence), transformation matrices, right-hand sides, ansatz spaces and schedules", "why_tests_cant": "A test computes one geometry with one schedule on one machine; that the pieces fit together for every mesh and every order of execution is a statement about all of them.", "anchors": ["Bembel/src/ClusterTree/ClusterTree.hpp:init_ClusterTree", "Bembel/src/LinearOperator/DiscreteOperator.hpp:compute", "Bembel/src/DuffyTrick/evaluateBilinearForm.hpp:evaluateBilinearForm", "Bembel/src/DuffyTrick/farFieldQuadratureNodes.hpp:computeFfieldQnodes", "Bembel/src/AnsatzSpace/AnsatzSpace.hpp:get_transformation_matrix", "Bembel/src/H2Matrix/H2Matrix.hpp:init_H2Matrix", "Bembel/src/H2Matrix/H2Multipole.hpp:computeMoment1D"]}
{"id": "C89", "title": "The hypersingular operator: surface curls of the basis functions, its entries, and convergence of the compressed matrix", "statement": "On flat patches the vector that the library computes for the hypersingular Laplace operator is the surface curl of the basis function, the vector product of the unit normal and the gradient of the function on the surface, whatever the level of the element. An entry of the matrix for two elements away from each other differs from the double surface integral of the fundamental solution times the scalar product of the two surface curls by at most an explicit bound that decays exponentially in the degree of the quadrature and the number of interpolation points, both for the pairs evaluated directly and for the low-rank blocks. The entries of the compressed matrix converge to those of the Galerkin method as the number of interpolation points grows and the quadrature becomes exact, and the product with the compressed matrix differs from the product with the full one by a term that decreases exponentially with the number of interpolation points plus the quadrature error of the full matrix; this holds with the rules and degrees chosen by the library.", "quantifier": "all meshes of flat patches of any number and shape, all refinement levels, polynomial degrees, pairs of elements and basis functions, all admissibility parameters, all positive quadrature rules of sufficient degree and all vectors", "why_tests_cant": "A test sees one mesh, one degree and one tolerance; the error bound and the convergence quantify over all of them, and a wrong scaling of the curl with the level hides behind a tolerance on a coarse mesh.", "anchors": ["Bembel/src/Laplace/HypersingularOperator.hpp:evaluateIntegrand_impl", "Bembel/src/Laplace/HypersingularOperator.hpp:evaluateFMMInterpolation_impl", "Bembel/src/AnsatzSpace/SuperSpace.hpp:addScaledSurfaceCurlInteraction", "Bembel/src/H2Matrix/BlockClusterTree.hpp:compareCluster", "Bembel/src/H2Matrix/H2Multipole.hpp:momentComputer"]}
{"id": "C90", "title": "Change of the unit of length", "statement": "Enlarging the geometry by a factor l enlarges the mesh, its bounding balls and the distances of its elements by l, leaves the tree, the mutual position of elements and the admissible pairs of clusters unchanged, and multiplies every entry of the matrices by a power of l: the third power for the single layer operators, the second for the double layer operators and their adjoints, the first for the hypersingular and the Maxwell operators (for complex kernels the wave number k of the enlarged geometry corresponds to l k). The mass matrix gains the factor l^2, the Laplace-Beltrami matrix none; linear forms, potentials and the norm of the error scale by their dimension. The same holds for the compressed matrix and its product with vectors. Two places depend on the unit: corners are identified with an absolute tolerance of 1e-9, so that a mesh expressed in a large unit may collapse, and the degree of quadrature of close elements uses the logarithm of the distance.", "quantifier": "all positive factors, surfaces, refinement levels, polynomial degrees, operators, wave numbers, pairs of elements, quadrature rules that agree for the two degrees, vectors and schedules", "why_tests_cant": "A wrong power of the distance or a missing factor of the surface measure cancels in tests on a surface of size one; the statement is about all factors and all surfaces.", "anchors": ["Bembel/src/ClusterTree/ElementTree.hpp:init_ElementTree", "Bembel/src/ClusterTree/ElementTree.hpp:computeElementEnclosings", "Bembel/src/util/Constants.hpp:pt_comp_tolerance", "Bembel/src/H2Matrix/BlockClusterTree.hpp:compareCluster", "Bembel/src/DuffyTrick/compareElements.hpp:compareElements", "Bembel/src/LinearOperator/LinearOperatorBase.hpp:getNearfieldQuadratureDegree", "Bembel/src/Laplace/SingleLayerOperator.hpp:evaluateIntegrand_impl", "Bembel/src/Laplace/HypersingularOperator.hpp:evaluateIntegrand_impl", "Bembel/src/Helmholtz/DoubleLayerOperator.hpp:evaluateIntegrand_impl", "Bembel/src/Maxwell/SingleLayerOperator.hpp:evaluateIntegrand_impl", "Bembel/src/LinearOperator/DiscreteLocalOperator.hpp:compute", "Bembel/src/Potential/DiscretePotential.hpp:evaluate"]}
{"id": "C91", "title": "Mirror images and the side of the normal vector", "statement": "The mirror image of a geometry in any plane, combined with any rotation and shift, has the mirrored mesh: the same tree, the same distances, mutual positions and admissible pairs. Its normal vectors point to the other side: every entry of the matrices of the double layer operators and their adjoints, and every value of the double layer potentials at the mirrored points, changes its sign, the moments of a reflected vector field with the normal vector too, and nothing else changes: single layer, hypersingular and Maxwell operators, mass matrix, Laplace-Beltrami operator, the other linear forms, single layer potentials, and errors are the same, and gradients and the Maxwell potential are reflected. The same holds for the compressed matrix and its product with vectors.", "quantifier": "all left-handed orthonormal systems and shifts, surfaces, refinement levels, polynomial degrees, operators, wave numbers, quadrature rules, pairs of elements, vectors and schedules", "why_tests_cant": "A kernel that uses the normal vector of the wrong point or loses it agrees with the right one in many examples; the statement is about all surfaces and all entries.", "anchors": ["Bembel/src/Geometry/Patch.hpp:updateSurfacePoint", "Bembel/src/ClusterTree/ElementTree.hpp:init_ElementTree", "Bembel/src/ClusterTree/ElementTree.hpp:computeElementEnclosings", "Bembel/src/H2Matrix/BlockClusterTree.hpp:compareCluster", "Bembel/src/DuffyTrick/compareElements.hpp:compareElements", "Bembel/src/Laplace/DoubleLayerOperator.hpp:evaluateIntegrand_impl", "Bembel/src/Laplace/AdjointDoubleLayerOperator.hpp:evaluateIntegrand_impl", "Bembel/src/Laplace/DoubleLayerPotential.hpp:evaluateIntegrand_impl", "Bembel/src/Helmholtz/DoubleLayerOperator.hpp:evaluateIntegrand_impl", "Bembel/src/Helmholtz/HypersingularOperator.hpp:evaluateIntegrand_impl", "Bembel/src/Maxwell/SingleLayerOperator.hpp:evaluateIntegrand_impl", "Bembel/src/LinearForm/NeumannTrace.hpp:evaluateIntegrand_impl", "Bembel/src/LinearForm/TangentialTrace.hpp:evaluateIntegrand_impl"]}
{"id": "C92", "title": "The wave number zero and the conjugate wave", "statement": "For the wave number 0 the Helmholtz operators are the Laplace operators: every entry of the matrices of the single layer, double layer, adjoint double layer and hypersingular operators has the real part of the Laplace entry and the imaginary part 0, and the single and double layer potentials of a complex function are the Laplace potentials of its real and imaginary parts. For the wave number -conj(k), that is -k for real k, every entry of the matrices of the Helmholtz and Maxwell operators is the complex conjugate of the entry for k, and the Helmholtz and Maxwell potentials of the conjugate function have the conjugate values; for a purely imaginary wave number the matrices are therefore real. The same holds for the compressed matrices (same block structure) and their products with vectors, for the hypersingular operator too, although its interpolated kernel has two components for Laplace and three for Helmholtz.", "quantifier": "all complex wave numbers, surfaces, refinement levels, polynomial degrees, quadrature rules, pairs of elements, coefficient vectors, points, vectors and schedules", "why_tests_cant": "The complex and the real kernels are separate pieces of code (one multiplies by the length of the normal vector, the other does not normalise it); tests compare them with known solutions at a few wave numbers and points, the statement is about all entries and all wave numbers.", "anchors": ["Bembel/src/Helmholtz/SingleLayerOperator.hpp:evaluateIntegrand_impl", "Bembel/src/Helmholtz/DoubleLayerOperator.hpp:evaluateIntegrand_impl", "Bembel/src/Helmholtz/AdjointDoubleLayerOperator.hpp:evaluateIntegrand_impl", "Bembel/src/Helmholtz/HypersingularOperator.hpp:evaluateIntegrand_impl", "Bembel/src/Helmholtz/SingleLayerPotential.hpp:evaluateIntegrand_impl", "Bembel/src/Helmholtz/DoubleLayerPotential.hpp:evaluateIntegrand_impl", "Bembel/src/Laplace/SingleLayerOperator.hpp:evaluateIntegrand_impl", "Bembel/src/Laplace/DoubleLayerOperator.hpp:evaluateIntegrand_impl", "Bembel/src/Laplace/AdjointDoubleLayerOperator.hpp:evaluateIntegrand_impl", "Bembel/src/Laplace/HypersingularOperator.hpp:evaluateIntegrand_impl", "Bembel/src/Maxwell/SingleLayerOperator.hpp:evaluateIntegrand_impl", "Bembel/src/Maxwell/SingleLayerPotential.hpp:evaluateIntegrand_impl"]}
{"id": "C93", "title": "The hypersingular operator annihilates constants", "statement": "For every pair of elements, equal, adjacent or far from each other, the row sums and the column sums of the local matrix of the Laplace hypersingular operator are zero, because the surface curls of the basis functions add up to zero. So the dense matrix, whatever the schedule of its assembly, gives zero for the coefficients of every function whose coefficients are equal on each element, from both sides; in the continuous and discontinuous scalar spaces of degree up to 4 all row sums and column sums of the matrix are zero.", "quantifier": "all surfaces, refinement levels, polynomial degrees, orders and quadrature rules, pairs of elements, transformation matrices, coefficient vectors and schedules", "why_tests_cant": "A test sees the sums only up to rounding on one surface; here every pair of elements and every quadrature rule is covered, exact or not.", "anchors": ["Bembel/src/Laplace/HypersingularOperator.hpp:evaluateIntegrand_impl", "Bembel/src/AnsatzSpace/SuperSpace.hpp:addScaledSurfaceCurlInteraction", "Bembel/src/DuffyTrick/evaluateBilinearForm.hpp:evaluateBilinearForm", "Bembel/src/LinearOperator/DiscreteOperator.hpp:compute"]}
