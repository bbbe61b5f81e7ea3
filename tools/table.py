S="Bembel/src/"
def A(*xs): return [S+x for x in xs]
# ---------------------------------------------------------------- splines
prop("C01","Bernstein shape functions form a non-negative partition of unity",
 "For every degree p and every evaluation point x, the p+1 values written by the shape-function basis evaluation sum to 1; for x in [0,1] each of them lies in [0,1].",
 "every polynomial degree, every real evaluation point",
 "x ranges over a continuum and the degree is a template parameter; a finite sample can only show agreement up to rounding at the sampled points.",
 A("Spline/Bernstein.hpp:EvalBernsteinBasis","Spline/Bernstein.hpp:HiddenBernsteinClass::EvalBasis","Spline/Pascal.hpp:Binomial"))
prop("C02","Coefficient evaluation and basis evaluation agree",
 "Evaluating a coefficient vector with evalCoef equals the dot product of the coefficients with the values written by evalBasis, and evaluating it with evalDerCoef equals the dot product with the values written by evalDerBasis.",
 "every degree, every coefficient vector, every evaluation point",
 "Quantifies over all real coefficient vectors and all points.",
 A("Spline/Bernstein.hpp:EvalBernstein","Spline/Bernstein.hpp:EvalBernsteinBasis","Spline/Bernstein.hpp:EvalBernsteinDer","Spline/Bernstein.hpp:EvalBernsteinDerBasis"))
prop("C03","Derivative evaluation is the derivative",
 "The value returned by evalDerCoef at x is the analytic derivative, at x, of the function returned by evalCoef for the same coefficients (degree 0 included, where it is 0).",
 "every degree, every coefficient vector, every evaluation point",
 "A difference quotient in a test approximates the derivative at finitely many points only.",
 A("Spline/Bernstein.hpp:EvalBernsteinDer","Spline/Bernstein.hpp:HiddenBernsteinClass::EvalDerCoefs"))
prop("C04","Bezier end-point interpolation",
 "A coefficient vector evaluated at 0 returns its first entry, at 1 its last entry; for x in [0,1] the value lies between the smallest and the largest coefficient.",
 "every degree, every coefficient vector, every point of [0,1]",
 "Convex-hull property over a continuum.",
 A("Spline/Bernstein.hpp:EvalBernstein"))
prop("C05","Uniform knot vectors have the promised shape",
 "MakeUniformKnotVector(p, interior, rep) returns a sorted vector of length 2p+interior*rep with values in [0,1], whose first p entries are 0, last p entries are 1 and in which each i/(interior+1), 0<i<=interior, occurs exactly rep times; reading the degree back with GetPolynomialDegreeFromKnotVector gives p whenever the first knot step is above the tolerance.",
 "all p>=1, all interior counts, all repetitions",
 "Unbounded family of sizes.",
 A("Spline/Knots.hpp:MakeUniformKnotVector","Spline/Knots.hpp:MakeBezierKnotVector","Spline/Knots.hpp:GetPolynomialDegreeFromKnotVector"))
prop("C06","Unique-knot extraction and knot-span location",
 "For a sorted knot vector whose distinct knots are more than the tolerance apart, ExtractUniqueKnotVector returns exactly its distinct values in increasing order; FindLocationInKnotVector(x, v) on a strictly increasing v starting at 0 returns an index i with i+1 < v.size(), and x lies in [v[i], v[i+1]] for every x in [0, last] (up to the tolerance at 0).",
 "all sorted knot vectors, all x in the parameter interval",
 "Ranges over all vectors and all reals.",
 A("Spline/Knots.hpp:ExtractUniqueKnotVector","Spline/Knots.hpp:FindLocationInKnotVector"))
prop("C07","De Boor evaluation computes the B-spline",
 "Spl::DeBoor(c, knots, x) equals the sum over i of c[i] times the i-th B-spline of the knot vector as defined by the Cox-de Boor recursion, for every x in the half-open parameter interval; no division by zero and no out-of-range access happens on the way. The coefficients are determined by the evaluations if every B-spline lives inside of the interval.",
 "every sorted knot vector, degree, coefficient vector and evaluation point in [t_p, t_n)",
 "All inputs of a triangular recursion.",
 A("Spline/DeBoor.hpp:DeBoor"))
prop("C08","De Boor evaluation stays in the convex hull and reproduces constants",
 "If all coefficients are equal to c then DeBoor returns c; in general the result lies between the minimum and maximum of the coefficients for points in the parameter interval (right end included).",
 "every sorted knot vector with non-empty evaluated span, all coefficients",
 "Continuum of inputs.",
 A("Spline/DeBoor.hpp:DeBoor"))
prop("C09","Spline reparametrisation helpers",
 "Rescale(x,a,b) is the affine map of [a,b] onto [0,1] for a<b and its a==0,b==1 short cut agrees with the formula; the interpolation mask consists of deg strictly increasing points strictly inside (0,1); MakeInterpolationPoints puts mask.size() points strictly inside every knot span, in order.",
 "all degrees, all strictly increasing knot vectors",
 "Unbounded sizes.",
 A("Spline/Localize.hpp:Rescale","Spline/Localize.hpp:MakeInterpolationMask","Spline/Localize.hpp:MakeInterpolationPoints"))
# ---------------------------------------------------------------- element tree
prop("C10","Uniform refinement: element count, ids and traversal order",
 "After initialisation on P patches with level M the mesh has exactly P*4^M leaf elements; traversal from pbegin to pend visits each exactly once, in the order of increasing id, the k-th visited element has id k, level M and patch k / 4^M.",
 "every number of patches P>0 and every level M",
 "Unbounded refinement level; linked-list surgery over a growing structure.",
 A("ClusterTree/ElementTree.hpp:init_ElementTree","ClusterTree/ElementTree.hpp:refineLeaf","ClusterTree/ElementTree.hpp:pbegin"))
prop("C11","The elements of a patch tile its parameter square",
 "For every point of [0,1)^2 and every patch exactly one leaf element of the patch contains the point (elements are half-open squares with lower-left corner llc_ and edge length get_h()), for any sequence of refinements including local ones.",
 "every refinement history, every patch, every parameter point",
 "All refinement histories and a continuum of points.",
 A("ClusterTree/ElementTree.hpp:refineLeaf","ClusterTree/ElementTreeNode.hpp:get_h"))
prop("C12","Point look-up returns the element that contains the point",
 "On a uniformly refined mesh, evaluateOnPatch(patch, x) uses the element of that patch whose closed square contains x, and the local coordinates passed on are in [0,1]^2 and map back to x; computeReorderingVector is a permutation of 0..P*4^M-1.",
 "all P, M, patches and reference points in [0,1]^2",
 "Continuum of points and unbounded M.",
 A("AnsatzSpace/FunctionEvaluator.hpp:evaluateOnPatch","ClusterTree/ElementTree.hpp:computeReorderingVector","ClusterTree/ElementTreeNode.hpp:mapToReferenceElement"))
prop("C13","Global element ids are unique over the whole tree",
 "compute_global_id gives distinct numbers to distinct nodes of the tree (all levels), the ids of the nodes of level l of a full tree are exactly the interval [P(4^l-1)/3, P(4^(l+1)-1)/3).",
 "all levels, all pairs of nodes",
 "All pairs of nodes at all levels.",
 A("ClusterTree/ElementTree.hpp:compute_global_id"))
prop("C14","The enclosing ball contains both input balls",
 "util::computeEnclosingBall returns a ball that contains both given balls (every point of either ball), and never has a radius larger than half of (distance + r1 + r2) or the larger radius.",
 "all pairs of balls in R^3",
 "Continuum of configurations including contained, touching and concentric balls.",
 A("util/GeometryHelper.hpp:computeEnclosingBall"))
prop("C15","Cluster balls enclose their elements",
 "After computeElementEnclosings every node's ball contains the balls of its four sons, hence all vertices of all leaf elements below it.",
 "every (also non-uniform) quad tree and all vertex positions",
 "Induction over arbitrary trees.",
 A("ClusterTree/ElementTree.hpp:computeElementEnclosings_recursion","util/GeometryHelper.hpp:computeEnclosingBall"))
prop("C16","Patch adjacency is symmetric and matches shared edges",
 "After updateTopology on a list of distinct elements in which every edge belongs to at most two elements: element a is recorded as neighbour of b along an edge iff b is recorded as neighbour of a along the same vertex pair, and an edge has a neighbour iff another element has the same vertex pair.",
 "all element lists with manifold edges",
 "All topologies.",
 A("ClusterTree/ElementTree.hpp:updateTopology"))
prop("C17","patchTopologyInfo reports the interfaces",
 "For patches such that no two patches share more than one edge, patchTopologyInfo lists every interior edge exactly once as {a,b,i,j} with a<b where edge i of a and edge j of b have the same end points, and every boundary edge once as {a,-1,i,-1}.",
 "all such patch topologies",
 "All topologies.",
 A("ClusterTree/ElementTree.hpp:patchTopologyInfo"))
prop("C18","Refinement keeps the mesh conforming",
 "Uniform refinement of a conforming patch mesh shares the new mid points: two neighbouring elements use the same vertex indices on their common edge, every vertex index is below get_number_of_points() and each index below it is used.",
 "all patch topologies without doubly connected patches and all levels",
 "History-dependent point numbering over arbitrary topologies.",
 A("ClusterTree/ElementTree.hpp:refineLeaf","ClusterTree/ElementTree.hpp:generatePointList","ClusterTree/ElementTree.hpp:generateElementList"))
# ---------------------------------------------------------------- glue / ansatz space
prop("C19","Edge degree-of-freedom enumeration is geometric",
 "getEdgeDofIndices(e,nx,ny,shift) lists exactly the tensor-product indices shift+ny-row*nx+col lying on edge e of the square, in the order of increasing parameter, without repetition.",
 "all edges, all dimensions",
 "Unbounded dimensions.",
 A("AnsatzSpace/Glue.hpp:getEdgeDofIndices"))
prop("C20","Glue orientation conventions",
 "For two patches with counter-clockwise boundary orientation sharing an edge, degree of freedom number i along one edge is paired with the one at the same physical point on the other edge (reversal iff both edges are forward or both are backward parametrised), and the divergence-conforming sign makes the normal flux continuous (outward flux of one equals inward flux of the other).",
 "all 16 edge pairings, all dimensions",
 "Unbounded number of degrees of freedom per edge.",
 A("AnsatzSpace/Glue.hpp:reverseParametrized","AnsatzSpace/Glue.hpp:glueCoefficientDivergenceConforming"))
prop("C21","The glue matrix realises the identification",
 "For a list of disjoint identification groups (each with at least two dofs, smallest first) the assembled glue matrix has pre_dofs rows and pre_dofs minus the number of slaves columns; every row has exactly one non-zero; two dofs lie in the same column iff they are in the same group; the master row holds 1 and slave rows hold the coefficient; columns are ordered by master index.",
 "all dof counts and all families of disjoint groups",
 "All group families.",
 A("AnsatzSpace/Glue.hpp:assembleGlueMatrix"))
prop("C22","The continuous identification is the equivalence closure of the edge pairs",
 "The groups produced for continuous spaces are disjoint and two dofs end in the same group iff they are connected by a chain of edge identifications.",
 "all edge lists and all one-dimensional dimensions",
 "All topologies and merge orders.",
 A("AnsatzSpace/Glue.hpp:glue_identificationmaker_<Continuous>::makeIdentification"))
prop("C23","Clean-up of merged identification groups",
 "The clean-up loop succeeds and leaves no empty identification group (subsequent routines read dofs[0]) exactly if no two consecutive groups are empty and the last one is not. On an oriented mesh in which every corner belongs to at most three patches, or to four patches whose edges at that corner are all shared, no group is ever emptied, so the identification and the glue matrix are correct for every numbering of the patches, degree, knot repetition and level. With five patches at a corner the plain claim fails.",
 "all edge lists, respectively all meshes with few patches at each corner",
 "Depends on where merges happen in the list.",
 A("AnsatzSpace/Glue.hpp:glue_identificationmaker_<Continuous>::makeIdentification"))
prop("C24","Divergence-conforming identification pairs each edge dof exactly once",
 "For divergence-conforming spaces on a valid topology every glued dof occurs in exactly one identification, all dofs are in range, and the two dofs belong to the patches named by the edge and to the vector component normal to their edge.",
 "all topologies in which a patch edge occurs at most once, all p, levels and repetitions",
 "Unbounded sizes.",
 A("AnsatzSpace/Glue.hpp:glue_identificationmaker_<DivConforming>::makeIdentification"))
prop("C25","The projector reproduces B-splines",
 "For degrees up to 19 the projector is built without a failing assertion, with (p+1)^2 4^M P rows per component and one column for every tensor product B-spline of every patch (p+1+rep(2^M-1) per direction; degrees (p,p-1) and (p-1,p) for the two components of a vector field), all entries in range. Up to degree 4 the discrete function with coefficients v is, on every element, the spline of its patch with these coefficients divided by the element width. For higher degrees it differs from it by at most 1/10000 of the sum of the coefficients active on the element; from degree 5 on it does differ (basis functions lose their entries near corners of the patch).",
 "all geometries and levels with uniform refinement, all degrees, repetitions, coefficient vectors and points of elements",
 "Unbounded sizes; equality of real functions at every point.",
 A("AnsatzSpace/Projector.hpp:makeLocalProjectionTriplets","AnsatzSpace/Projector.hpp:projector_matrixmaker_"))
# ---------------------------------------------------------------- H2
prop("C26","Block cluster leaves partition the matrix",
 "Every pair (row element, column element) belongs to exactly one leaf block of the block-cluster tree and the blocks are given by [row_start,row_end) x [col_start,col_end) index ranges.",
 "every mesh, every admissibility parameter, every minimal cluster level",
 "All trees and all radii/midpoints.",
 A("H2Matrix/BlockClusterTree.hpp:appendSubtree","H2Matrix/BlockClusterTree.hpp:get_row_start_index","H2Matrix/BlockClusterTree.hpp:updateLeafPointers_recursion"))
prop("C27","Low-rank blocks are admissible, other blocks are small",
 "Every leaf marked LowRank has two clusters whose balls are disjoint with max radius < eta*distance; every leaf marked Dense is not admissible and its clusters are at most min_cluster_level levels above the finest level; Refine never occurs at a leaf.",
 "every mesh, eta, level",
 "All trees.",
 A("H2Matrix/BlockClusterTree.hpp:compareCluster"))
prop("C28","Parallel H2 matrix-vector product does not depend on the schedule",
 "For exact arithmetic the parallel product returns sum over all leaves of the leaf contribution, whatever the number of threads, whichever thread executes a leaf and in whatever order the per-thread accumulators are added.",
 "every number of threads and every schedule",
 "Thread schedules cannot be enumerated by tests.",
 A("H2Matrix/EigenHelper/H2DenseProduct.hpp"))
prop("C29","The H2 product equals the matrix given by its blocks",
 "The result of the H2 matrix-vector product is linear in the vector and equals multiplication with the matrix whose (i,j) entry is taken from the unique leaf containing it (dense entry or moment-expanded low-rank entry).",
 "all vectors, all trees",
 "Infinitely many vectors.",
 A("H2Matrix/EigenHelper/H2DenseProduct.hpp","H2Matrix/H2Multipole.hpp:forwardTransformation","H2Matrix/H2Multipole.hpp:backwardTransformation"))
prop("C30","Forward and backward transformations are adjoint",
 "For all moment and transfer matrices, <forward(x), y> = <x, backward(y)> on every level.",
 "all matrices, all vectors, all levels",
 "Infinitely many inputs.",
 A("H2Matrix/H2Multipole.hpp:forwardTransformation","H2Matrix/H2Multipole.hpp:backwardTransformation"))
prop("C31","Newton-form Lagrange polynomials interpolate",
 "computeLagrangePolynomials/evaluatePolynomial give polynomials L_i with L_i(x_j) = 1 if i=j and 0 otherwise for pairwise distinct nodes; hence interpolation reproduces every polynomial of degree < n.",
 "all numbers of nodes, all pairwise distinct nodes",
 "All node sets.",
 A("H2Matrix/H2Multipole.hpp:computeLagrangePolynomials","H2Matrix/H2Multipole.hpp:evaluatePolynomial"))
prop("C32","Cluster-local element coordinates follow the refinement order",
 "The index_s/index_t arrays built for the 2D moments give, for the k-th element below a cluster, exactly the integer position of its lower-left corner in the cluster.",
 "all numbers of refinements",
 "In-place array update over unbounded levels.",
 A("H2Matrix/H2Multipole.hpp:moment2DComputer"))
prop("C33","Dense Galerkin assembly writes every entry exactly once",
 "DiscreteOperator assembly writes for each pair of elements the block at rows/columns given by their ids; the blocks are disjoint and cover the matrix, hence the result is independent of the task schedule.",
 "all meshes and all schedules of the parallel loop",
 "Task schedules.",
 A("LinearOperator/DiscreteOperator.hpp"))
# ---------------------------------------------------------------- quadrature / Duffy
prop("C34","Square rotations used by the Duffy trick",
 "tau(x,y,r) maps the unit square to itself bijectively, sends corner k to corner k+r (mod 4), hence edge k to edge k+r, and composes like rotations.",
 "all rotations, all points",
 "Continuum of points.",
 A("DuffyTrick/tau.hpp:tau"))
prop("C35","Element comparison classifies element pairs",
 "For two elements of the same level (at least 1) of a mesh of consistently oriented patches, compareElements returns: identical elements -> case 2; exactly one shared edge -> case 3 with rotations that make the shared edge the lower edge of both reference squares, run through in opposite directions, so that the surface points along it coincide; exactly one shared vertex -> case 4 with rotations that make it the origin of both squares; nothing shared -> case 0. Exchanging the elements exchanges the rotations and keeps case and distance; touching elements have distance 0.",
 "all geometries whose patches fit together, all refinement histories, all pairs of elements of equal level",
 "All vertex index assignments of all meshes and histories.",
 A("DuffyTrick/compareElements.hpp:compareElements"))
prop("C36","Singular quadrature integrates polynomials exactly",
 "For every relative position of two elements (regular, identical, common edge, common vertex, any rotation) the local matrix computed by evaluateBilinearForm contains the exact integral of the integrand over the pair of unit squares, scaled by the product of the element sizes, whenever the integrand is a polynomial of total degree at most D and the one-dimensional rules are exact up to degree D+3; precomputed far field points give the same result as points computed on the fly; with nodes inside (0,1) the kernel is only evaluated at pairs of different interior points, and a kernel that grows at most like the inverse distance from the common edge, vertex or diagonal gives local matrices that are bounded independently of the rule.",
 "all polynomial integrands, all quadrature rules, all rotations, all pairs of elements",
 "All rules, polynomials and positions; a wrong Jacobian or a missing sub-domain changes some integrals only.",
 A("DuffyTrick/integrate0.hpp","DuffyTrick/integrate1.hpp","DuffyTrick/integrate2.hpp","DuffyTrick/integrate3.hpp","DuffyTrick/integrate4.hpp","DuffyTrick/evaluateBilinearForm.hpp:evaluateBilinearForm","DuffyTrick/farFieldQuadratureNodes.hpp:computeFfieldQnodes"))
prop("C37","Gauss-Legendre tables",
 "The tabulated n-point rules (n=1..20) have n nodes strictly inside (0,1) in increasing order, positive weights, symmetry about 1/2 (up to the last decimal) and integrate every polynomial of degree <= 2n-1 up to 1e-20 times the sum of the absolute values of its coefficients.",
 "every polynomial of the stated degree",
 "All polynomials, not just sampled integrands.",
 A("Quadrature/GaussLegendreRule.hpp"))
prop("C38","Tensor-product quadrature is exact for tensor-product integrands",
 "The 2D rule built from a 1D rule with n points has n^2 points, its value on f(x)g(y) is the product of the 1D values, so it inherits exactness per direction; looking up a rule with an index beyond the table silently returns the one-point rule.",
 "all 1D rules, all integrands, all indices",
 "All functions.",
 A("Quadrature/TensorProductQuadratureVector.hpp","Quadrature/QuadratureVector.hpp"))
prop("C39","Near-field quadrature degree is well defined",
 "getNearfieldQuadratureDegree never divides by zero: its denominator is at least 2 log 2 for every distance >= 0 and level >= 0. For distances below the element width the degree is (p+2) level / 2, and from level 1 on the degree does not increase with the distance; so the assertion in evaluateBilinearForm (degree below 50) holds on a level exactly if (p+2) level < 100.",
 "all distances, levels, ansatz degrees",
 "Continuum of distances.",
 A("LinearOperator/LinearOperatorBase.hpp:getNearfieldQuadratureDegree"))
# ---------------------------------------------------------------- containers, function evaluation, geometry
prop("C40","GenericMatrix behaves like a matrix",
 "After resize(r,c) all positions (i,j) with i<r, j<c are distinct storage cells: writing one cell changes it and no other; copies are independent.",
 "all sizes, all index pairs, all histories of writes",
 "All histories.",
 A("util/GenericMatrix.hpp"))
prop("C41","Assigned function evaluators behave like the original",
 "After a = b for function evaluators, a evaluates like b for every patch and point.",
 "all evaluators, all points",
 "All states of the source object.",
 A("AnsatzSpace/FunctionEvaluator.hpp:operator="))
prop("C42","Patch evaluation, Jacobian and surface point agree with the rational tensor-product surface",
 "For a Bezier patch the point returned by eval is the quotient of the homogeneous tensor-product Bernstein sums, evalJacobian is its derivative, and updateSurfacePoint returns both unchanged together with the weight.",
 "all degrees, control points with positive weights, all parameter points",
 "Continuum.",
 A("Geometry/Patch.hpp:eval","Geometry/Patch.hpp:evalJacobian","Geometry/Patch.hpp:updateSurfacePoint"))
prop("C43","PatchShredder preserves the surface",
 "Cutting a patch at its internal knots yields (#x-spans)(#y-spans) Bezier patches such that evaluating piece (ix,iy) at local coordinates equals evaluating the original patch at the corresponding point of the span.",
 "all patches, all points",
 "Continuum and unbounded number of spans.",
 A("Geometry/Patch.hpp:PatchShredder"))
prop("C44","Geometry files survive a round trip",
 "Writing patches in the native text format and reading the file back yields the same knots and control points (numbers being printed losslessly).",
 "all patch lists",
 "All inputs.",
 A("Geometry/GeometryIO.hpp:WriteDATFile","Geometry/GeometryIO.hpp:LoadGeometryFileDAT"))
prop("C45","IGES sections are split without losing data",
 "makeSection breaks comma-separated data into lines no longer than the given width without splitting an item, provided no item is longer than the width; joining the lines gives back all items in order, which is what the reader recovers.",
 "all item lists, all widths",
 "All item lists.",
 A("Geometry/GeometryIGS.hpp:makeSection","Geometry/GeometryIGS.hpp:LoadGeometryFileIGS"))
prop("C46","Geometry file type detection",
 "A geometry path whose name ends in .dat or .igs is read with the corresponding reader, wherever the file lies.",
 "all path strings",
 "All strings.",
 A("Geometry/Geometry.hpp:init_Geometry"))
prop("C47","Matrix binary files survive a round trip",
 "bin2Mat(print2bin(A)) = A for every matrix of the same scalar type, and a scalar size mismatch is reported with a non-zero return value without changing the target.",
 "all matrices, both storage orders",
 "All inputs.",
 A("IO/print2file.hpp:print2bin","IO/print2file.hpp:bin2Mat"))
prop("C48","Stopwatch protocol",
 "Any sequence start (lap)* stop can be repeated on the same stopwatch; stop returns the time since start.",
 "all histories of calls and all clocks",
 "All histories.",
 A("IO/Stopwatch.hpp"))
prop("C49","Laplace kernels: symmetry and adjointness",
 "The single layer kernel is symmetric in its two surface points, the adjoint double layer integrand is the double layer integrand with the two points exchanged, and the double layer kernel is the normal derivative of the single layer kernel.",
 "all pairs of distinct surface points",
 "Continuum.",
 A("Laplace/SingleLayerOperator.hpp","Laplace/DoubleLayerOperator.hpp","Laplace/AdjointDoubleLayerOperator.hpp"))
prop("C50","Parallel potential evaluation does not depend on the schedule",
 "DiscretePotential::evaluate returns for each point the sum over elements and quadrature points, for every number of threads and every assignment of elements to threads.",
 "all schedules",
 "Thread schedules.",
 A("Potential/DiscretePotential.hpp:evaluate"))
prop("C51","De Boor derivative evaluation is the derivative",
 "DeBoorDer(c, knots, x) and DeBoorTPDer (one derivative) return the analytic (partial) derivative of the spline defined by the same control points and knots, at every point of the parameter interval that is not a knot; no denominator vanishes when interior knots are repeated at most p times.",
 "all non-decreasing knot vectors with interior multiplicity at most the degree, all control points, all non-knot points",
 "Continuum of inputs; difference quotients are approximate.",
 A("Spline/DeBoorTP.hpp:DeBoorDer","Spline/DeBoorTP.hpp:DeBoorTPDer"))
prop("C52","The point list contains the surface points of the mesh",
 "generatePointList returns one column per vertex index, every column is written, and the column of a vertex is the surface point of every element corner carrying that index, provided the patches of the geometry meet along shared edges; the optional counter gives the number of element corners at each vertex.",
 "all patch topologies without doubly connected patches, all refinement histories, all fitting geometries",
 "Columns are overwritten by several elements; all histories and topologies.",
 A("ClusterTree/ElementTree.hpp:generatePointList"))
prop("C53","Transfer matrices are exact for the computed moments",
 "For the H2 matrix, the moments of a cluster (with one more refinement) equal the moments of its four sons multiplied by the transfer matrices; block s of the transfer matrix holds the values of the father's Lagrange polynomials at the interpolation points of son s.",
 "all polynomial degrees, numbers of interpolation points, refinements, quadrature rules of the moments, both kinds of moments (function, derivative)",
 "All degrees, levels and sizes; a wrong son order still gives plausible numbers on symmetric geometries.",
 A("H2Matrix/H2Multipole.hpp:computeTransferMatrices","H2Matrix/H2Multipole.hpp:Moment2D","H2Matrix/H2Multipole.hpp:moment2DComputer"))
prop("C54","Entries of the compressed matrix",
 "Whatever the admissibility parameter, the matrix represented by the H2 matrix has in every dense leaf exactly the entries of the dense Galerkin matrix (and is that matrix if there is no low-rank leaf), and in every low-rank leaf the tensor quadrature of the Chebyshev interpolated kernel times the shape functions of the two elements, evaluated at the same surface parameters; for kernels which are polynomials of degree less than the number of points in each reference coordinate nothing is lost.",
 "all meshes (uniform refinement), admissibility tests, minimal cluster levels, operators (kernel, components, degree), quadrature rules",
 "Quantifies over all meshes, levels and operators; tests compare a norm for one mesh.",
 A("H2Matrix/H2Matrix.hpp:init_H2Matrix","H2Matrix/H2Multipole.hpp","H2Matrix/EigenHelper/H2DenseProduct.hpp"))
prop("C55","Computed Gauss-Legendre rules are exact",
 "For orders without a table, the rule GaussLegendreRule<n> built from the eigenvalues and eigenvectors of its matrix integrates every polynomial of degree at most 2n-1 over [0,1] exactly, has positive weights with sum one and n distinct points in (0,1), and is symmetric about 1/2, provided the eigenvalue solver returns an orthogonal eigenvalue decomposition (exact arithmetic). Such a decomposition exists for every n, and all of them give the same rule up to the order of the points. The points in the tables for up to 20 points are, one by one, within 2^-55 of the points of such a rule.",
 "all orders n >= 1, all orthogonal eigenvalue decompositions, all polynomials of degree <= 2n-1",
 "All orders and polynomials; a wrong off-diagonal entry or normalisation only shows for some degrees.",
 A("Quadrature/GaussLegendreRule.hpp:GaussLegendreRule"))
prop("C56","Local matrices of symmetric kernels are symmetric",
 "For a kernel that is symmetric in its two points and quadrature rules that are symmetric about 1/2, the local matrix of the pair (e2,e1) is the transpose of the local matrix of (e1,e2), for every pair of elements of a uniformly refined mesh, in all singular and regular cases.",
 "all symmetric kernels, all symmetric rules, all pairs of elements",
 "Depends on the classification and on sums over all nodes of all sub-domains.",
 A("DuffyTrick/evaluateBilinearForm.hpp:evaluateBilinearForm","DuffyTrick/integrate1.hpp","DuffyTrick/integrate2.hpp","DuffyTrick/integrate3.hpp","DuffyTrick/integrate4.hpp"))
prop("C57","Bezier extraction reproduces the B-spline basis",
 "For every pair of clamped knot vectors the interpolation matrix of the Bezier extraction is invertible (its rank assertion never fires), and column i*m+j of the resulting projection holds, span by span, the Bernstein coefficients of the tensor-product B-spline N_i(x)N_j(y), up to the pruning tolerance 1e-15.",
 "all clamped knot vectors with knots equal or more than the tolerance apart, all degrees up to the maximum, all points",
 "Continuum, unbounded number of knots.",
 A("Spline/Bezierextraction.hpp:MakeProjection","Spline/Unroll.hpp:Unroll"))
prop("C58","IGES geometry files survive a round trip",
 "A geometry written by writeIGSFile is read back by LoadGeometryFileIGS with the same patches, degrees and knots in the same order, and control points up to the precision of the printed numbers.",
 "all geometries of single-span patches with non-zero weights, all printings of numbers, all file names",
 "All geometries, all degrees, all numbers of patches and lines.",
 A("Geometry/GeometryIGS.hpp:writeIGSFile","Geometry/GeometryIGS.hpp:writePatchData","Geometry/GeometryIGS.hpp:writeDirectory","Geometry/GeometryIGS.hpp:LoadGeometryFileIGS"))
prop("C59","Helmholtz and Maxwell kernels solve the Helmholtz equation",
 "For every complex wave number the Helmholtz kernel is symmetric and satisfies the Helmholtz equation away from the singularity, the double layer and adjoint double layer kernels are its normal derivatives in the second and first point, the adjoint double layer integrand is the double layer integrand with exchanged points, the gradient used by the Maxwell potential is the gradient of the kernel, and for wave number zero all kernels are those of Laplace's equation.",
 "all complex wave numbers, all pairs of distinct points, all directions",
 "Continuum of points and wave numbers; finite differences only approximate derivatives.",
 A("Helmholtz/SingleLayerOperator.hpp","Helmholtz/DoubleLayerOperator.hpp","Helmholtz/AdjointDoubleLayerOperator.hpp","Helmholtz/DoubleLayerPotential.hpp","Maxwell/SingleLayerPotential.hpp"))
prop("C60","Near field and far field discretise the same operator",
 "For each of the nine boundary integral operators, the matrix that evaluateIntegrand adds at two surface points is the product of the weights with the sum over the far-field components of the entries of evaluateFMMInterpolation times the shape functions (or derivatives) whose moments the H2 matrix uses for these components. Hence the entry of the compressed matrix for two elements in a far-field block differs from the entry the quadrature of the near field would compute by at most h^2 times the interpolation error of the kernel.",
 "all operators, degrees, levels, surface points with non-degenerate parametrisation, wave numbers, meshes, far-field blocks, pairs of elements, components and shape functions",
 "The near-field and far-field code paths are separate formulas in every operator; agreement must hold at every pair of points.",
 A("Laplace/SingleLayerOperator.hpp","Laplace/DoubleLayerOperator.hpp","Laplace/AdjointDoubleLayerOperator.hpp","Laplace/HypersingularOperator.hpp","Helmholtz/SingleLayerOperator.hpp","Helmholtz/HypersingularOperator.hpp","Maxwell/SingleLayerOperator.hpp","H2Matrix/H2Multipole.hpp","H2Matrix/H2Matrix.hpp","DuffyTrick/integrate1.hpp"))
prop("C61","A coefficient vector is evaluated as the function it describes",
 "FunctionEvaluator::evaluate at a surface point gives the linear combination of the tensor product Bernstein polynomials of the element, divided by the element width, with the local coefficients that the transformation matrix assigns to (component, element, polynomial); for tangential fields the two components multiply the two tangents, and evaluateDiv is the derivative of the first component in x plus that of the second in y, with respect to the coordinates of the patch. evaluateOnPatch agrees with it, the value is linear in the coefficients, and coefficients h for all polynomials give the constant 1.",
 "all geometries, uniform meshes, polynomial degrees, transformation matrices, coefficient vectors, elements and surface points",
 "The reordering of coefficients and the tensor-product indexing must be right for every degree, level, element and component.",
 A("AnsatzSpace/FunctionEvaluator.hpp","AnsatzSpace/FunctionEvaluatorEval.hpp","AnsatzSpace/SuperSpace.hpp"))
prop("C62","Linear forms and local operators are quadrature of the stated integrals",
 "The vector computed by DiscreteLinearForm satisfies, for every coefficient vector v with function v_h: v^T b is the quadrature over the surface of g v_h (Dirichlet trace), of (g.n) v_h (Neumann trace), of the product of v_h with the tangential part of g respectively its rotation (tangential traces). The matrix of DiscreteLocalOperator satisfies v^T A w = quadrature of v_h w_h (mass matrices) respectively of the product of the surface gradients (Laplace-Beltrami operator); both matrices are symmetric and, for positive weights, positive semidefinite, and functions constant on each element are in the kernel of Laplace-Beltrami. On flat patches, with a rule exact for the degrees involved, the Dirichlet form and the mass matrix are the exact integrals over the surface.",
 "all geometries, uniform meshes, degrees, cubature rules, transformation matrices, right-hand sides and coefficient vectors (real scalars)",
 "Scaling by h, by the surface measure and the index bookkeeping of the assembly must be right for all degrees, meshes and functions at once.",
 A("LinearForm/DiscreteLinearForm.hpp","LinearForm/DirichletTrace.hpp","LinearForm/NeumannTrace.hpp","LinearForm/TangentialTrace.hpp","LinearForm/RotatedTangentialTrace.hpp","LinearOperator/DiscreteLocalOperator.hpp","Identity/IdentityOperatorBase.hpp","Identity/MassMatrixScalarDisc.hpp","LaplaceBeltrami/LaplaceBeltramiOperatorBase.hpp"))
prop("C63","Potentials solve the equation they are made for",
 "In every execution of the parallel loop DiscretePotential::evaluate returns, at each evaluation point, the quadrature of kernel times function over the surface for the Laplace and Helmholtz single and double layer potentials. As a function of the evaluation point, away from the quadrature points, the Laplace potentials are harmonic, the gradient potential is the gradient of the single layer potential, the Helmholtz potentials satisfy Laplacian u = -k^2 u, and the Maxwell potential is a vector potential plus the gradient of a scalar potential over k^2, all of whose components satisfy the Helmholtz equation.",
 "all geometries, uniform meshes, degrees, cubature rules, coefficient vectors, wave numbers, evaluation points off the quadrature points, thread counts and schedules",
 "A numerical test compares with one manufactured solution; the equation has to hold for every density, geometry, wave number and point.",
 A("Potential/DiscretePotential.hpp","Laplace/SingleLayerPotential.hpp","Laplace/DoubleLayerPotential.hpp","Laplace/SingleLayerPotentialGradient.hpp","Helmholtz/SingleLayerPotential.hpp","Helmholtz/DoubleLayerPotential.hpp","Maxwell/SingleLayerPotential.hpp"))
prop("C64","Functions of a continuous space have one value at every point of the surface",
 "The transformation matrix built by AnsatzSpace for scalar continuous functions is the product of projector and glue matrix, and for every coefficient vector the function it describes has the same value from every element containing a point: neighbouring elements of a patch and, across a common edge, elements of different patches (FunctionEvaluator::evaluate returns the same number). The space is defined exactly when the clean-up of the identifications finds no gap and then has one function per class of identified splines; every continuous patchwise spline belongs to the space (exactly for degrees up to 4, otherwise up to the entries the projector drops). For discontinuous spaces the product is the projector itself.",
 "all geometries whose patches are glued along opposed edges, refinement levels, degrees 1..19, knot repetitions 1..p, coefficient vectors, elements and points of elements",
 "Continuity must hold at all (uncountably many) points of all interfaces for every coefficient vector, mesh level, degree and gluing.",
 A("AnsatzSpace/AnsatzSpace.hpp","AnsatzSpace/Glue.hpp","AnsatzSpace/Projector.hpp","AnsatzSpace/FunctionEvaluator.hpp"))
prop("C65","Div-conforming spaces have a continuous normal component",
 "For the div-conforming spaces of AnsatzSpace and every coefficient vector, the component of the vector field normal to an interface is continuous: between the elements of a patch, and (with opposite outward directions) across the common edge of two patches; for patches whose parametrisations agree along the edge, the value returned by the evaluator divided by the surface measure has opposite outward conormal components on both sides. The space is always defined, and every patchwise spline field whose normal components match at the interfaces belongs to it (exactly for degrees up to 4, otherwise up to the dropped entries).",
 "all geometries glued along opposed edges, refinement levels, degrees 1..19, knot repetitions 1..p, coefficient vectors, and all points of interfaces except element corners",
 "The signs and the numbering of the glue matrix must fit the traces of the projected splines for every orientation of the two patches, degree and level.",
 A("AnsatzSpace/AnsatzSpace.hpp","AnsatzSpace/Glue.hpp","AnsatzSpace/Projector.hpp","AnsatzSpace/FunctionEvaluatorEval.hpp"))
prop("C66","Spherical harmonics and their gradients",
 "For every x != 0 and degree N, spherical_harmonics_full returns all Y_n^m(x/|x|), n <= N, |m| <= n, in the order (0,0),(1,-1),(1,0),(1,1),..., with Y_n^(-m) the conjugate of Y_n^m, whatever the memory contained before; |x|^n times an entry is a harmonic function. Given that table, Dsolid_harmonics_full returns for N >= 1 the gradients of the real parts of the solid harmonics |x|^n Y_n^m(x/|x|). For N = 0 it writes outside its table of Legendre polynomials.",
 "all points x other than the origin, all degrees N, all contents of uninitialised memory, all directions",
 "The recursion must agree with the derivatives of the Legendre polynomials for every degree, order and point; harmonicity and gradients are statements about all points.",
 A("util/Sphericals.hpp"))
prop("C67","Series of spherical harmonics",
 "For coefficients symmetric in m, evaluate_sphericals returns the sum of c_(n,m) Y_n^m(x), n < deg, at every unit vector x; evaluate_solid_sphericals the sum of c_(n,m) |x|^n Y_n^m(x/|x|) or of its radial derivative at every x != 0 provided the coefficient (deg-1, deg-1) vanishes (otherwise its term has the wrong factor); evaluate_dsphericals and evaluate_dsolid_sphericals give the gradients provided the last two coefficients vanish. The terms of degree deg are never summed although the documentation includes them, and the gradient of a solid series of deg 2 reads an uninitialised variable.",
 "all points, all degrees deg >= 2, all symmetric coefficient vectors, all directions",
 "The evaluators interleave several three-term recursions; agreement with the series and with its derivative is needed for every degree, coefficient vector and point.",
 A("util/Sphericals.hpp"))
prop("C68","Kernel of the homogenised Laplace operators",
 "Away from the 27 lattice points around the origin, k_mod returns the sum of 1/(4 pi |x - m|) over these points plus |x|^2/6, an even function with Laplacian 1, and Dk_mod its gradient. The kernel evaluated by the single layer operator and potential is k_mod plus the series of solid harmonics; it is symmetric in its two points if the coefficients of odd degree vanish, and its Laplacian away from the lattice is 1 if the coefficients are symmetric and the last one used vanishes.",
 "all points whose difference is not a lattice point, all degrees, all coefficient vectors, all directions",
 "Value, gradient and Laplacian are statements about all points of space and all coefficient vectors.",
 A("HomogenisedLaplace/Coefficients.hpp","HomogenisedLaplace/SingleLayerOperator.hpp","HomogenisedLaplace/SingleLayerPotential.hpp"))
prop("C69","Coefficients of the periodic kernel",
 "getCoefficients returns (deg+1)^2 coefficients, equal for orders m and -m, that minimise the sum over the points of the three faces of the squared differences of the values and of the normal derivatives of the kernel at opposite points of the unit cube. The minimiser is unique up to the constant term, so the result depends neither on uninitialised memory nor on the least squares solver. The coefficients of odd degree vanish, the constant term makes the quadrature of the kernel used by the operators over the faces equal to -1/24, and that kernel is symmetric with Laplacian 1. The degree is even, between 4 and 12, and never lower for a smaller precision.",
 "all precisions, all contents of the uninitialised memory, all least squares solvers, all tensor grids of more than deg distinct nodes (symmetric ones for the parity), all eigenvalue decompositions behind the Gauss rule of the code",
 "Minimality and uniqueness range over all coefficient vectors; the vanishing of the odd coefficients and independence of memory cannot be told from rounding by a test.",
 A("HomogenisedLaplace/Coefficients.hpp","Quadrature/GaussLegendreRule.hpp"))
prop("C70","Element lists of the mesh",
 "The lists an element tree generates have one entry per element in the order of the iteration: generateElementList the four vertex numbers of the element, generateMidpointList and generateRadiusList a ball that contains its corners, generateElementLabels distinct labels (consecutive ones on a uniform mesh), identifyPatch 1 for the elements of the patch and 0 for the others. On a uniform mesh of a manifold, generatePatchBoundaryLabels gives -1 for an element that touches the boundary of the surface, otherwise the number of its edges on the boundary of its patch.",
 "all geometries, all refinement histories (uniform meshes of every level for the boundary labels), all patch numbers",
 "Ordering and completeness of the lists must hold for every geometry and refinement history.",
 A("ClusterTree/ElementTree.hpp"))
prop("C71","VTK exports",
 "The file written by VTKSurfaceExport has one cell per element; the connectivity and offsets of cell c give points of the surface at the corners of the c-th element; row c of the patch numbers, of the normals (of length one) and of every data set added since the last clearData belongs to the midpoint of that element. VTKDomainExport writes the grid points with x running fastest and, for every data set, the value at each of the points in the same order. VTKPointExport numbers its points and stores the rows as given.",
 "all geometries and levels, all sequences of addDataSet and clearData calls, all functions; all grids of at most 2^31-1 points",
 "Alignment of values, cells and points has to hold for every geometry, level and call history; a picture does not show it.",
 A("IO/VTKSurfaceExport.hpp","IO/VTKDomainExport.hpp","IO/VTKPointExport.hpp","ClusterTree/ElementTree.hpp"))
prop("C72","Copies and moves of block cluster trees",
 "Variables of type BlockClusterTree behave as independent values: after any sequence of constructions, copies, moves, copy and move assignments, changes of leaves and ends of scope that uses only variables with a known value as sources, iterating from lbegin() to lend() shows the blocks of the tree in their order with the contents of exactly this variable; changing a leaf of a copy does not change the original, and the block trees that init_H2Matrix assigns to the components of an operator are separate and survive the tree they are copied from. Copying a default constructed or a moved-from tree is undefined.",
 "all sequences of operations on any number of variables, all element trees, admissibility tests and leaf contents",
 "Sharing of the leaf pointers shows only after particular histories of copies, moves and assignments, there are infinitely many.",
 A("H2Matrix/BlockClusterTree.hpp","H2Matrix/TreeLeaf.hpp","util/GenericMatrix.hpp"))
prop("C73","Expressions of H2 matrices",
 "For every expression built with +, - and scalar multiples from H2 matrices and dense or sparse matrices, y = E*x, y += E*x and y -= E*x act as multiplication with the corresponding matrix (for an H2 matrix the one given by its blocks and the transformation matrix), for all columns of x and every thread schedule; get_dense() returns that matrix. x = E*x is correct if E is a sum, difference or multiple; for a single H2 matrix x = H*x sets x to zero.",
 "all expressions of any depth, all vectors and matrices on the right, all schedules, aliasing of both sides",
 "Expression trees, vectors and schedules are infinitely many; aliasing depends on the form of the statement.",
 A("H2Matrix/EigenHelper/H2DenseProduct.hpp","H2Matrix/EigenHelper/H2CwiseBinaryOp.hpp","H2Matrix/H2MatrixBase.hpp","H2Matrix/H2Matrix.hpp:get_dense"))
prop("C74","Repeated initialisation and sharing of geometries",
 "For every program that constructs, copies, moves, assigns and re-reads Geometry variables and initialises, re-initialises, copies and assigns AnsatzSpace variables, changing the patches of a geometry in place only before a space was initialised with it, every variable shows exactly what its last initialisation determines: a space initialised before behaves as a new one. If the patches are changed afterwards, existing spaces see the new patches with the old mesh. A ClusterTree that was initialised with level 0 can be initialised again; one that was refined can not.",
 "all programs over any number of variables, all geometries, levels, degrees and knot repetitions",
 "Histories of constructions, moves and initialisations are unbounded; sharing shows only in particular orders.",
 A("Geometry/Geometry.hpp:Geometry","AnsatzSpace/SuperSpace.hpp:init_SuperSpace","AnsatzSpace/AnsatzSpace.hpp:init_AnsatzSpace","ClusterTree/ClusterTree.hpp:init_ClusterTree","ClusterTree/ElementTree.hpp:init_ElementTree"))
prop("C75","surfaceL2error measures the distance on the surface",
 "surfaceL2error(space, v, g, deg) is the square root of the quadrature, over all elements, of the squared difference of g and the function described by v, weighted by the surface measure. On flat patches, for polynomials g of degree at most deg and splines of degree at most deg, it is the exact L2 norm of the difference over the surface (with the Gauss rule that the order selects). It is zero exactly if both agree in all quadrature points, changes by at most the distance of the arguments (a seminorm), and scales with its arguments. For orders above 50 the one-point rule is used silently, and for div-conforming spaces only the first component of the difference counts.",
 "all geometries, uniform meshes, degrees, transformation matrices, coefficient vectors, functions and orders (real scalars)",
 "An error measure that is wrong by a factor, or blind to some functions, makes every convergence test meaningless; it has to be right for every function and mesh.",
 A("util/surfaceL2error.hpp","AnsatzSpace/FunctionEvaluator.hpp:evaluate","Quadrature/GaussSquare.hpp"))
prop("C76","The mesh is exact in machine arithmetic",
 "With 32 bit integers and binary64 numbers rounded to nearest: the corner coordinates, widths, corners, midpoints and identification numbers of all elements of every refined mesh are computed without rounding and without overflow, as long as the level is at most 30 and the number fits into an int (beyond that, the computation overflows; compute_global_id overflows from level 16 on). map2surface, with or without fused multiply-add, maps every pair of doubles in [0,1] into the element, so never outside the patch; the assertion of mapToReferenceElement holds exactly for the doubles of the closed element; on uniform meshes with fewer than 2^31 elements evaluateOnPatch finds for all doubles in [0,1] an element containing the point without failing its assertion. Uniform knots with 2^M intervals are exact; with any number of intervals they are strictly increasing inside (0,1) and accurate to 3 * 2^-53; the interpolation points of the projector are strictly inside the elements.",
 "all meshes, refinement histories, levels up to 30, elements, all pairs of double precision numbers, numbers of knots and degrees",
 "Whether rounding can push a point out of its element depends on single bits of the input; there are 2^62 doubles in [0,1].",
 A("ClusterTree/ElementTree.hpp:refineLeaf","ClusterTree/ElementTree.hpp:computeReorderingVector","ClusterTree/ElementTree.hpp:compute_global_id","ClusterTree/ElementTreeNode.hpp:mapToReferenceElement","ClusterTree/ElementTreeNode.hpp:get_h","AnsatzSpace/SuperSpace.hpp:map2surface","AnsatzSpace/FunctionEvaluator.hpp:evaluateOnPatch","Spline/Knots.hpp:MakeUniformKnotVector","Spline/Localize.hpp:MakeInterpolationMask","AnsatzSpace/Projector.hpp"))
prop("C77","Interpolation in Chebyshev points converges",
 "The interpolation used by the compression, in n points per direction evaluated in Newton form: for a function whose n-th derivative is bounded by B on the reference interval the interpolant differs from it by at most 2 B / (4^n n!); errors in the values are amplified by at most 2n-1; for a kernel on a pair of clusters the error is at most (1 + L + L^2 + L^3) times the one-dimensional error, L = 2n-1. Hence the entries of the compressed matrix of every Laplace operator in far field blocks differ from the quadrature of the exact kernel by at most an explicit multiple of that error.",
 "all numbers of interpolation points, all functions and kernels with bounded derivatives, all points, meshes, operators, blocks and entries",
 "Accuracy for one kernel and a few numbers of points says nothing about the next; the bound holds for all of them.",
 A("H2Matrix/H2Multipole.hpp:ChebychevRoots","H2Matrix/H2Multipole.hpp:computeLagrangePolynomials","H2Matrix/H2Multipole.hpp:evaluateNewtonPolynomial","H2Matrix/H2Matrix.hpp:init_H2Matrix"))
prop("C78","The compressed Laplace operators are accurate on flat patches",
 "On every uniformly refined mesh whose patches are parallelograms, with the clusters' balls and the admissibility test of the code: each entry of the compressed matrix of the Laplace single layer operator in a far field block differs from the quadrature of the exact kernel by at most h^2 |patch1| |patch2| / (4 pi) (1 + L + L^2 + L^3) (2 / d) (eta / 2)^n, where n is the number of interpolation points, eta the admissibility constant, L = 2n-1 and d > 0 the distance of the two balls; likewise for the hypersingular operator, and with 2 (n+1)^2 / d^2 instead of 2 / d for the double layer and adjoint double layer operators. For eta < 2 the error decays exponentially in n.",
 "all meshes of parallelograms, levels, degrees, admissibility constants eta > 0, minimal cluster levels, numbers of interpolation points, quadrature rules with positive weights, blocks and entries",
 "The admissibility condition, the balls, the interpolation and the kernel all enter; a test sees a few geometries and cannot tell a constant factor from a wrong rate.",
 A("H2Matrix/H2Matrix.hpp:init_H2Matrix","H2Matrix/BlockClusterTree.hpp:compareCluster","H2Matrix/H2Multipole.hpp:ChebychevRoots","Laplace/SingleLayerOperator.hpp","Laplace/HypersingularOperator.hpp","Laplace/DoubleLayerOperator.hpp","Laplace/AdjointDoubleLayerOperator.hpp","ClusterTree/ElementTree.hpp:computeElementEnclosings","util/GeometryHelper.hpp:computeEnclosingBall"))
prop("C79","The computed Galerkin matrices approximate the exact integrals",
 "For a quadrature rule with positive weights that is exact for polynomials of degree less than q: the one-dimensional error is at most 4 B / (4^q q!) where B bounds the q-th derivative of the integrand. For two disjoint elements of a surface of parallelograms, with sides at most L and distance at least d, the regular quadrature of a pair of Laplace single layer, double layer or adjoint double layer entries differs from h^2 times the exact integral of kernel times shape functions by at most h^2 |patch1| |patch2| / (4 pi) (4 / d) G(m) (L / (4 d))^m (for the double layer operators with (m+1)^2 / d^2 instead of 1 / d), for every m with m + p <= q, where G(m) = 1 + M + M^2 + M^3, M = 2m - 1. Every entry in a far field block of the compressed matrix differs from h^2 times the exact integral by at most h^2 |patch1| |patch2| / (4 pi) (2 / d) (G(n) (eta/2)^n + 2 G(m) (eta/2)^m), n the number of interpolation points, and likewise for the double layer operators. The integrals exist.",
 "all rules with positive weights and given degree of exactness, all meshes of parallelograms, levels, polynomial degrees, pairs of disjoint elements, admissibility constants, blocks and entries",
 "Numerical tests compare with reference values for a few right-hand sides; they cannot bound the error of each entry on every mesh, or exclude a wrong constant that disappears in the tolerance.",
 A("DuffyTrick/integrate1.hpp:integrate1","H2Matrix/H2Matrix.hpp:init_H2Matrix","H2Matrix/BlockClusterTree.hpp:compareCluster","Laplace/SingleLayerOperator.hpp","Laplace/DoubleLayerOperator.hpp","Laplace/AdjointDoubleLayerOperator.hpp","Quadrature/Quadrature.hpp"))
prop("C80","Logged rows are complete, ordered, aligned and survive a crash",
 "The file of a logger contains exactly the rows of its file() and both() calls, in order, one line each, whatever other loggers (with other file names) and the terminal do in between; a logger that never writes a row leaves an existing file untouched. If the program crashes inside the next call, at any point and with any part of the buffers written, all rows of earlier calls are in the file and what follows is a beginning of the new row. The terminal shows the rows of all term() and both() calls in order. If the cells fit, the i-th cell of each row starts at column i (N + 2|sep|) and all rows have the same length; reading white-space separated words gives the cells back if the separator is not empty and blank. (Refuted: the mode given to the constructor has no effect, app truncates; two loggers with one name overwrite each other; the same term(x) call prints two different lines depending on earlier rows of any logger; with an empty separator cells run together.)",
 "all histories of constructions, calls and destructions of any number of loggers, all rows, widths, separators, all crash points and amounts of buffered text written",
 "Tests write a few rows and read the file after the program has ended; they do not cover interleavings of loggers, the points at which a program can crash, or the state of the streams left behind by other loggers.",
 A("IO/Logger.hpp:Logger"))
prop("C81","checkOrientation accepts exactly the meshes whose edge middles agree",
 "On the tree of a mesh after any refinement history, checkOrientation() returns without a failing assertion exactly if at every edge shared by two patches, both with local number 1, 2 or 3, the middles of the two sides are closer than 1e-9 and their position vectors enclose an acute angle; the normals have no influence on the result. Every geometry whose shared edges have the same middles, none of them within 1e-9 of the origin, is accepted. (Refuted: patches with opposite normals are accepted; a gap at an edge that is number 0 of a patch is not noticed; a valid geometry with the middle of an edge at the origin is rejected.)",
 "all patch meshes, geometries, parametrisations and refinement histories",
 "Tests call the check on correct geometries, where it passes; they do not show that it misses wrong orientations and gaps, or that it depends on the position of the origin.",
 A("ClusterTree/ClusterTree.hpp:checkOrientation","ClusterTree/ElementTree.hpp:patchTopologyInfo","util/Constants.hpp:edgemps"))
prop("C82","The divergence theorem holds for div-conforming functions",
 "For every coefficient vector of a div-conforming AnsatzSpace on a uniformly refined, consistently oriented mesh, the quadrature over all elements of what FunctionEvaluator::evaluateDiv returns, with any rule exact for the polynomial degree, equals the sum of the fluxes of the function through the element sides that lie on the boundary of the surface: the fluxes through all inner sides, inside of patches and across patches, cancel. On a closed surface it is zero, and so is the integral of the divergence over the parameter domain (the total charge belonging to a discrete surface current vanishes).",
 "all meshes whose patches share whole edges with opposite directions, all levels, polynomial degrees up to 19, knot repetitions 1..p, coefficient vectors, parametrisations and quadrature rules exact for degree p",
 "Tests check single fluxes or solve with one geometry; conservation has to hold for every function of the space on every mesh.",
 A("AnsatzSpace/AnsatzSpace.hpp:init_AnsatzSpace","AnsatzSpace/Glue.hpp:assembleGlueMatrix","AnsatzSpace/FunctionEvaluator.hpp:evaluateDiv","AnsatzSpace/FunctionEvaluatorEval.hpp:FunctionEvaluatorEval"))
prop("C83","Equal coefficients give a constant function",
 "In every continuous or discontinuous AnsatzSpace on a uniformly refined mesh, the function whose coefficients are all equal to a evaluates, with FunctionEvaluator, to the constant 2^M a at every point of every element (polynomial degrees up to 4; for higher degrees the difference is at most 2^M |a| (p+1)^2 / 10000, from the entries the projector drops). Therefore the entries of a DirichletTrace vector sum to 2^M times the quadrature of the given function over the surface, all entries of the mass matrix sum to 4^M times the quadrature of the area, a/2^M in every entry solves the L2 projection of the constant a exactly, and every row and column of the Laplace-Beltrami matrix sums to zero.",
 "all meshes whose patches share whole edges, all levels M, degrees, knot repetitions, constants, parametrisations and quadrature rules",
 "Tests solve one problem on one geometry and look at a convergence rate; that the scaling of the basis, the projector and the gluing fit together has to hold on every mesh and for every refinement.",
 A("AnsatzSpace/AnsatzSpace.hpp:init_AnsatzSpace","AnsatzSpace/Glue.hpp:assembleGlueMatrix","AnsatzSpace/Projector.hpp:makeLocalProjectionTriplets","AnsatzSpace/FunctionEvaluator.hpp:evaluate","LinearForm/DiscreteLinearForm.hpp:compute","LinearOperator/DiscreteLocalOperator.hpp:compute"))
prop("C84","The number of degrees of freedom is given by the mesh",
 "AnsatzSpace::get_number_of_dofs, with D (Sd for degree p-1) the number of one-dimensional splines of the level, degree and knot repetition and P the number of patches: P D^2 for discontinuous spaces; for continuous spaces (D-2)^2 per patch plus D-2 per edge of the patch mesh plus one per vertex, if the patches around each vertex are connected through common sides (P (D-1)^2 - P + V on closed surfaces, so P (D-1)^2 + 2 on a topological sphere); for div-conforming spaces 2 P Sd (Sd+1) minus Sd per shared side (2 P Sd^2 on closed surfaces).",
 "all consistently oriented patch meshes, open or closed, all levels, polynomial degrees up to 19 and admissible knot repetitions",
 "Tests compare the number for a few geometries and levels; that nothing is lost or glued twice has to hold for every mesh, including many patches around a vertex.",
 A("AnsatzSpace/AnsatzSpace.hpp:get_number_of_dofs","AnsatzSpace/Glue.hpp:assembleGlueMatrix","AnsatzSpace/Projector.hpp:makeLocalProjectionTriplets"))
prop("C85","The compressed operator as a whole is close to the dense one",
 "Let A be the matrix the H2Matrix of a Laplace single or (adjoint) double layer operator stands for and m the dense matrix DiscreteOperator assembles for the same operator, both on a surface of flat patches. If the dense matrix computes the far field with the quadrature rule of the H2Matrix up to delta, every entry of A differs from that of m by at most an explicit bound proportional to (eta/2)^n plus delta, n being the number of interpolation points per direction; for eta < 2 the bound is at most c q^n + delta with q < 1 and c depending only on the mesh, the admissibility constant and the ansatz space. Hence H2Matrix * x differs from the dense product by at most eps times the l1 norms involved; and if the dense matrix is positive definite with constant c > eps D, so is the compressed one, and the compressed equation determines the solution.",
 "all flat surfaces, refinement levels, polynomial degrees, positive quadrature rules, numbers of interpolation points, admissibility constants, vectors and schedules of the product",
 "Tests compare the two matrices for one geometry and a few levels and numbers of points; that the error does not exceed the bound in any block, and decays exponentially, has to hold for every mesh.",
 A("H2Matrix/H2Matrix.hpp:init_H2Matrix","H2Matrix/BlockClusterTree.hpp:compareCluster","H2Matrix/H2Multipole.hpp:interpolateKernel","LinearOperator/DiscreteOperator.hpp:compute"))
prop("C86","Coefficients are determined by the function; the systems of mass matrix and Laplace-Beltrami operator",
 "Two functions of a scalar ansatz space of degree p <= 4 with the same values at a grid of (p+1)^2 points of every element have the same coefficients, and so have two fields of a div-conforming space where the two tangents are linearly independent. If the quadrature rule has at least p+1 different points and positive weights (the rules of the library with at least p+1 points do) and the surface measure does not vanish, the mass matrix is positive definite, so every linear system with it has exactly one solution; for the load vector of g that solution is the unique minimiser of the L2 error to g among the functions of the space, and if g coincides with a function of the space at the quadrature points its coefficients are returned. On a surface in one piece the Laplace-Beltrami matrix of a continuous space vanishes on the constant vectors only: a system with it is solvable exactly if its right-hand side sums to zero, and its solution is unique up to a constant.",
 "all meshes, refinement levels, degrees up to 4, knot repetitions, quadrature rules with at least p+1 points, right-hand sides and coefficient vectors",
 "Tests solve with the mass matrix for one geometry and a few levels; that no nonzero coefficient vector is invisible must hold for every mesh and every right-hand side.",
 A("LinearOperator/DiscreteLocalOperator.hpp:compute","Identity/IdentityOperatorBase.hpp:evaluateIntegrand_impl","LaplaceBeltrami/LaplaceBeltramiOperatorBase.hpp:evaluateIntegrand_impl","AnsatzSpace/Glue.hpp:assembleGlueMatrix","AnsatzSpace/FunctionEvaluator.hpp:evaluate","util/surfaceL2error.hpp"))
prop("C87","Moving the geometry changes no result",
 "If the geometry is rotated and translated, the mesh computed for it is the mesh of the original geometry with its points and the midpoints of its clusters moved and the same tree and radii; the full and the compressed matrix of every operator of the library, the mass matrix and the Laplace-Beltrami matrix, the load vectors of functions moved with the geometry, the values of the Laplace and Helmholtz potentials at moved points and the L2 error of scalar functions are the same, and the gradient potential and the Maxwell potential at moved points are the original vectors turned. The choice of quadrature and the admissibility of blocks depend on mutual distances only. The L2 error of div-conforming functions does depend on the position of the geometry, as it compares the first Cartesian component only.",
 "all geometries with any number of patches, all right-handed rotations with any translation, all refinement levels, degrees, quadrature rules, wave numbers, ansatz spaces, coefficient vectors and thread counts",
 "A test compares a few positions of one geometry; that no absolute coordinate enters tree, clustering, quadrature choice or kernels must hold for every geometry and every motion.",
 A("ClusterTree/ElementTree.hpp:init_ElementTree","ClusterTree/ClusterTree.hpp:init_ClusterTree","LinearOperator/DiscreteOperator.hpp:compute","LinearOperator/DiscreteLocalOperator.hpp:compute","H2Matrix/H2Matrix.hpp:init_H2Matrix","DuffyTrick/evaluateBilinearForm.hpp:evaluateBilinearForm","Potential/DiscretePotential.hpp:DiscretePotential","util/surfaceL2error.hpp:surfaceL2error"))
prop("C88","The computation as a whole: mesh, forms, assembly and transformation give the stated matrix",
 "For every conforming geometry ClusterTree succeeds: it has P*4^M elements, numbered in the order of the iterator. The full matrix of every operator of the library then exists and is the same for every schedule of the assembly tasks: its entry (u, v) is the double sum over the columns u and v of the transformation matrix with the forms of the two elements, components and local basis functions of the rows, and the form of two elements is the result of the quadrature routine for their position (disjoint, equal, common edge, common vertex) with the degree chosen for their distance, whether or not the points are taken from the table computed in advance. Operators with exchanged points, such as double and adjoint double layer, have transposed matrices; the matrices of the single layer, hypersingular and Maxwell operators (and of the real and the imaginary part of their Helmholtz variants) are symmetric. The compressed matrix of every operator of the library exists as well, and its dense blocks have the entries of the full one; for the single layer, double layer and adjoint double layer operators of the Laplace equation on flat patches, with any admissibility constant below 2, the product with the compressed matrix differs from the product with the full matrix by at most a term that decreases exponentially with the number of interpolation points plus the quadrature error of the far-field entries of the full matrix itself; the degrees the library chooses for its Gauss rules are sufficient for this, as long as (p+2)*M < 100.",
 "all geometries with any number of patches whose common corners and edges agree (flat ones for the convergence), all refinement levels, degrees, wave numbers, quadrature rules (symmetric ones for the transposition, Gauss rules for the convergence), transformation matrices, right-hand sides, ansatz spaces and schedules",
 "A test computes one geometry with one schedule on one machine; that the pieces fit together for every mesh and every order of execution is a statement about all of them.",
 A("ClusterTree/ClusterTree.hpp:init_ClusterTree","LinearOperator/DiscreteOperator.hpp:compute","DuffyTrick/evaluateBilinearForm.hpp:evaluateBilinearForm","DuffyTrick/farFieldQuadratureNodes.hpp:computeFfieldQnodes","AnsatzSpace/AnsatzSpace.hpp:get_transformation_matrix","H2Matrix/H2Matrix.hpp:init_H2Matrix","H2Matrix/H2Multipole.hpp:computeMoment1D"))
prop("C89","The hypersingular operator: surface curls of the basis functions, its entries, and convergence of the compressed matrix",
 "On flat patches the vector that the library computes for the hypersingular Laplace operator is the surface curl of the basis function, the vector product of the unit normal and the gradient of the function on the surface, whatever the level of the element. An entry of the matrix for two elements away from each other differs from the double surface integral of the fundamental solution times the scalar product of the two surface curls by at most an explicit bound that decays exponentially in the degree of the quadrature and the number of interpolation points, both for the pairs evaluated directly and for the low-rank blocks. The entries of the compressed matrix converge to those of the Galerkin method as the number of interpolation points grows and the quadrature becomes exact, and the product with the compressed matrix differs from the product with the full one by a term that decreases exponentially with the number of interpolation points plus the quadrature error of the full matrix; this holds with the rules and degrees chosen by the library.",
 "all meshes of flat patches of any number and shape, all refinement levels, polynomial degrees, pairs of elements and basis functions, all admissibility parameters, all positive quadrature rules of sufficient degree and all vectors",
 "A test sees one mesh, one degree and one tolerance; the error bound and the convergence quantify over all of them, and a wrong scaling of the curl with the level hides behind a tolerance on a coarse mesh.",
 A("Laplace/HypersingularOperator.hpp:evaluateIntegrand_impl","Laplace/HypersingularOperator.hpp:evaluateFMMInterpolation_impl","AnsatzSpace/SuperSpace.hpp:addScaledSurfaceCurlInteraction","H2Matrix/BlockClusterTree.hpp:compareCluster","H2Matrix/H2Multipole.hpp:momentComputer"))
prop("C90","Change of the unit of length",
 "Enlarging the geometry by a factor l enlarges the mesh, its bounding balls and the distances of its elements by l, leaves the tree, the mutual position of elements and the admissible pairs of clusters unchanged, and multiplies every entry of the matrices by a power of l: the third power for the single layer operators, the second for the double layer operators and their adjoints, the first for the hypersingular and the Maxwell operators (for complex kernels the wave number k of the enlarged geometry corresponds to l k). The mass matrix gains the factor l^2, the Laplace-Beltrami matrix none; linear forms, potentials and the norm of the error scale by their dimension. The same holds for the compressed matrix and its product with vectors. Two places depend on the unit: corners are identified with an absolute tolerance of 1e-9, so that a mesh expressed in a large unit may collapse, and the degree of quadrature of close elements uses the logarithm of the distance.",
 "all positive factors, surfaces, refinement levels, polynomial degrees, operators, wave numbers, pairs of elements, quadrature rules that agree for the two degrees, vectors and schedules",
 "A wrong power of the distance or a missing factor of the surface measure cancels in tests on a surface of size one; the statement is about all factors and all surfaces.",
 A("ClusterTree/ElementTree.hpp:init_ElementTree","ClusterTree/ElementTree.hpp:computeElementEnclosings","util/Constants.hpp:pt_comp_tolerance","H2Matrix/BlockClusterTree.hpp:compareCluster","DuffyTrick/compareElements.hpp:compareElements","LinearOperator/LinearOperatorBase.hpp:getNearfieldQuadratureDegree","Laplace/SingleLayerOperator.hpp:evaluateIntegrand_impl","Laplace/HypersingularOperator.hpp:evaluateIntegrand_impl","Helmholtz/DoubleLayerOperator.hpp:evaluateIntegrand_impl","Maxwell/SingleLayerOperator.hpp:evaluateIntegrand_impl","LinearOperator/DiscreteLocalOperator.hpp:compute","Potential/DiscretePotential.hpp:evaluate"))
prop("C91","Mirror images and the side of the normal vector",
 "The mirror image of a geometry in any plane, combined with any rotation and shift, has the mirrored mesh: the same tree, the same distances, mutual positions and admissible pairs. Its normal vectors point to the other side: every entry of the matrices of the double layer operators and their adjoints, and every value of the double layer potentials at the mirrored points, changes its sign, the moments of a reflected vector field with the normal vector too, and nothing else changes: single layer, hypersingular and Maxwell operators, mass matrix, Laplace-Beltrami operator, the other linear forms, single layer potentials, and errors are the same, and gradients and the Maxwell potential are reflected. The same holds for the compressed matrix and its product with vectors.",
 "all left-handed orthonormal systems and shifts, surfaces, refinement levels, polynomial degrees, operators, wave numbers, quadrature rules, pairs of elements, vectors and schedules",
 "A kernel that uses the normal vector of the wrong point or loses it agrees with the right one in many examples; the statement is about all surfaces and all entries.",
 A("Geometry/Patch.hpp:updateSurfacePoint","ClusterTree/ElementTree.hpp:init_ElementTree","ClusterTree/ElementTree.hpp:computeElementEnclosings","H2Matrix/BlockClusterTree.hpp:compareCluster","DuffyTrick/compareElements.hpp:compareElements","Laplace/DoubleLayerOperator.hpp:evaluateIntegrand_impl","Laplace/AdjointDoubleLayerOperator.hpp:evaluateIntegrand_impl","Laplace/DoubleLayerPotential.hpp:evaluateIntegrand_impl","Helmholtz/DoubleLayerOperator.hpp:evaluateIntegrand_impl","Helmholtz/HypersingularOperator.hpp:evaluateIntegrand_impl","Maxwell/SingleLayerOperator.hpp:evaluateIntegrand_impl","LinearForm/NeumannTrace.hpp:evaluateIntegrand_impl","LinearForm/TangentialTrace.hpp:evaluateIntegrand_impl"))
prop("C92","The wave number zero and the conjugate wave",
 "For the wave number 0 the Helmholtz operators are the Laplace operators: every entry of the matrices of the single layer, double layer, adjoint double layer and hypersingular operators has the real part of the Laplace entry and the imaginary part 0, and the single and double layer potentials of a complex function are the Laplace potentials of its real and imaginary parts. For the wave number -conj(k), that is -k for real k, every entry of the matrices of the Helmholtz and Maxwell operators is the complex conjugate of the entry for k, and the Helmholtz and Maxwell potentials of the conjugate function have the conjugate values; for a purely imaginary wave number the matrices are therefore real. The same holds for the compressed matrices (same block structure) and their products with vectors, for the hypersingular operator too, although its interpolated kernel has two components for Laplace and three for Helmholtz.",
 "all complex wave numbers, surfaces, refinement levels, polynomial degrees, quadrature rules, pairs of elements, coefficient vectors, points, vectors and schedules",
 "The complex and the real kernels are separate pieces of code (one multiplies by the length of the normal vector, the other does not normalise it); tests compare them with known solutions at a few wave numbers and points, the statement is about all entries and all wave numbers.",
 A("Helmholtz/SingleLayerOperator.hpp:evaluateIntegrand_impl","Helmholtz/DoubleLayerOperator.hpp:evaluateIntegrand_impl","Helmholtz/AdjointDoubleLayerOperator.hpp:evaluateIntegrand_impl","Helmholtz/HypersingularOperator.hpp:evaluateIntegrand_impl","Helmholtz/SingleLayerPotential.hpp:evaluateIntegrand_impl","Helmholtz/DoubleLayerPotential.hpp:evaluateIntegrand_impl","Laplace/SingleLayerOperator.hpp:evaluateIntegrand_impl","Laplace/DoubleLayerOperator.hpp:evaluateIntegrand_impl","Laplace/AdjointDoubleLayerOperator.hpp:evaluateIntegrand_impl","Laplace/HypersingularOperator.hpp:evaluateIntegrand_impl","Maxwell/SingleLayerOperator.hpp:evaluateIntegrand_impl","Maxwell/SingleLayerPotential.hpp:evaluateIntegrand_impl"))
prop("C93","The hypersingular operator annihilates constants",
 "For every pair of elements, equal, adjacent or far from each other, the row sums and the column sums of the local matrix of the Laplace hypersingular operator are zero, because the surface curls of the basis functions add up to zero. So the dense matrix, whatever the schedule of its assembly, gives zero for the coefficients of every function whose coefficients are equal on each element, from both sides; in the continuous and discontinuous scalar spaces of degree up to 4 all row sums and column sums of the matrix are zero.",
 "all surfaces, refinement levels, polynomial degrees, orders and quadrature rules, pairs of elements, transformation matrices, coefficient vectors and schedules",
 "A test sees the sums only up to rounding on one surface; here every pair of elements and every quadrature rule is covered, exact or not.",
 A("Laplace/HypersingularOperator.hpp:evaluateIntegrand_impl","AnsatzSpace/SuperSpace.hpp:addScaledSurfaceCurlInteraction","DuffyTrick/evaluateBilinearForm.hpp:evaluateBilinearForm","LinearOperator/DiscreteOperator.hpp:compute"))
# ---------------------------------------------------------------- status
status("C01","proved","Templates: all degrees. Run-time handler: p <= MaxP; above MaxP it silently uses degree 0 (refuted for unrestricted p). Exact real arithmetic.")
status("C02","proved","Also the tensor-product layouts phiphi, phiphi_dx, phiphi_dy and the outer products of Basis.hpp.")
status("C03","proved","Exact real arithmetic.")
status("C04","proved","Exact real arithmetic.")
status("C07","proved","Half-open parameter interval; vector, matrix and tensor-product overloads. The asserted range additionally contains points where a denominator vanishes (refuted).")
status("C51","proved","At knots themselves only the piece to the right is differentiated (not stated as a theorem).")
status("C16","proved","updateTopology on any element list with manifold edges (neighbour recorded iff the other element has the same vertex pair, symmetric), and the same for every element of every level after any refinement history of a patch mesh without doubly connected patches. Counterexample for an edge shared by three patches.")
status("C17","proved","for every mesh in which two patches share at most one edge, at every refinement history; counterexample when two patches share two edges.")
status("C18","proved","stronger than stated: for any (also local) refinement history two element corners have the same index iff they are the same point of the glued surface; indices are below get_number_of_points() and all used; corner indices of the patches identify coinciding corners. Counterexample when two patches share two edges.")
status("C19","proved","release build: all dimensions; with asserts exactly the dimensions in which the side is not longer than the other direction.")
status("C20","proved","all edge pairs and numbers of dofs; for patches of opposite orientation (edge run through in the same direction) the pairing is wrong (refuted).")
status("C21","proved","")
status("C22","proved","all interface lists between different patches; the composition tree -> interfaces -> groups -> glue matrix is proved for every consistently oriented mesh whenever the clean-up leaves no gap (see C23).")
status("C23","proved","the plain claim without a condition on the mesh is false of the code: C23_past_the_end_refuted and C23_empty_group_refuted give two closed oriented meshes with ten patches (five at two corners) on which the loop runs past the end, respectively leaves an empty group that makes the assembly read dofs[0] of an empty vector")
status("C24","proved","all interface lists in which a side of a patch occurs at most once, which holds for the interfaces of every mesh of C17; includes the resulting glue matrix.")
status("C26","proved","every refinement history in which no leaf is more than min_cluster_level levels above the finest (uniform meshes: any min_cluster_level >= 0), any admissibility test; where this fails the code loses the diagonal entries of the coarse leaves (C26_ungraded_diagonal_lost).")
status("C27","proved","balls are parameters (None = the infinite radius of the root); dense blocks have at most 4^min_cluster_level rows and columns of elements.")
status("C14","proved","also: no smaller ball contains both, no division by zero.")
status("C15","proved","any refinement history; combined with the point list for every geometry whose patches fit together. Only element corners are enclosed: the surface between them is not considered by the code.")
status("C52","proved","patches fit exactly (the code tolerates 1e-9 at the corners).")
status("C28","proved","small-step model of the OpenMP team (single nowait, critical); any number of threads, any interleaving; all index ranges read and written are inside the matrices.")
status("C29","proved","uniform meshes (the number of elements per cluster is computed from the level); moment and transfer matrices, dense blocks and interpolation blocks are arbitrary real matrices.")
status("C30","proved","")
status("C33","proved","every uniformly refined mesh, any number of components; includes symmetry of the projected matrix. Refuted for locally refined meshes: ids are per level, so blocks overlap and ids exceed the matrix.")
status("C50","proved","any refinement history, any number of threads, any interleaving.")
status("C31","proved","any pairwise distinct points; the Chebyshev points of the code are shown to be distinct, increasing and inside (0,1).")
status("C32","proved","")
status("C53","proved","real arithmetic; any one-dimensional quadrature rule for the moments.")
status("C54","proved","uniformly refined meshes; the bilinear form on two elements and the kernel are arbitrary functions; real arithmetic.")
status("C37","proved","the decimal numbers of the source, in exact rational arithmetic (rounding to double is not modelled).")
status("C38","proved","includes the finding: an index beyond the order silently selects the one-point rule.")
status("C39","proved","real arithmetic, truncation to int.")
status("C55","proved","the eigenvalue solver is represented by its specification, which C55_exists shows to be satisfiable for every number of points; for the tables the points are compared in C55_tables, the weights only through the moments (C37)")
status("C34","proved","")
status("C35","proved","Refuted outside the hypotheses: edges run through in the same direction are reported as vertices or as the wrong edge; unrefined patches may share two corners of which one is reported.")
status("C36","proved","real arithmetic. Refuted for locally refined meshes: computeFfieldQnodes writes out of range because element numbers restart on every level.")
status("C56","proved","real arithmetic; levels at least 1, consistently oriented patches.")
status("C42","proved","Bezier patches, patches with inner knots (up to the pruning tolerance; inverse() represented by its specification). Refuted: with inner knots evalJacobian and updateSurfacePoint lack the factor 1/span width (C42_jacobian_is_derivative_refuted).")
status("C43","proved","")
status("C57","proved","Eigen's inverse() is represented by its specification and pruned() by its documented threshold.")
status("C40","proved","programs of resize, write and assignment on any number of matrices. A moved-from matrix keeps its sizes but has no cells (C40_moved_from_matrix).")
status("C41","proved","refuted as stated: operator= does not copy the reordering vector, so evaluateOnPatch of a default-constructed target is undefined after assignment (C41_assign_refuted); true for targets initialised with the same number of patches and level, and for evaluation on a given element.")
status("C46","proved","refuted as stated: the suffix starts at the first dot, so any other dot in the path makes the type unknown (C46_any_path_refuted); exact characterisation of the accepted names in C46_file_type.")
status("C47","proved","scalar encodings are a parameter; matrices of 2 GiB and more are outside (int arithmetic, C47_size_limit).")
status("C48","proved","refuted as stated: start after a run without lap asserts, and stop after laps drops the time since the last lap (C48_restart_refuted, C48_stop_is_total_time_refuted); true statements proved for runs with laps.")
status("C44","proved","Bezier patches (the writer asserts that there are no inner knots), sizes within int, file name without newline; control points up to half a unit of the 15th decimal, exact for numbers with 15 decimals. The reader relies on the blank the writer leaves after the header: without it, a well-formed file makes it read beyond its vector (C44_header_without_trailing_blank_refuted).")
status("C45","proved","the width has to leave room for the separator: an item exactly as long as the width gives a longer line (C45_item_of_full_width_refuted).")
status("C58","proved","refuted as stated: writePatchData writes one element behind the end of its knot vectors, so in C++ no non-empty geometry has a defined result (C58_writer_out_of_bounds_refuted); proved for the case that this stray write has no effect (slack = true), for paths of at most 71 characters (C58_long_path_refuted), non-empty geometries (C58_empty_geometry_refuted) and fewer than 10^7 lines. double_to_string is a parameter of which only its accuracy is used.")
status("C49","proved","exact real arithmetic, including harmonicity and the gradient of the single layer potential")
status("C59","proved","exact arithmetic, complex derivatives as derivatives of both parts")
status("C60","proved","complex operators as real and imaginary part (shape functions and moments are real); exact real arithmetic; the interpolation error of the kernel on the two elements is a hypothesis of the error bound")
status("C61","proved","exact real arithmetic; uniform meshes (on locally refined ones element ids restart per level, see C33)")
status("C62","proved","real scalars; exact real arithmetic")
status("C63","proved","exact arithmetic; complex sums for each part; the evaluation points must not be quadrature points")
status("C25","proved","double is R and the LU solve is assumed exact (good_solve), so the coefficients compared with the tolerance are the exact ones. The plain claim (equality for all degrees) is false: C25_high_degree_refuted, C25_lost_coefficients.")
status("C64","proved","exact real arithmetic with the solve of C25; meshes with opposed edges (oriented); the space is defined exactly if the clean-up loop finds no gap (C23), in particular on every mesh with few patches at each corner (C64_few_patches)")
status("C65","proved","as C64; element corners excluded because the lower-degree direction may jump there; the evaluator's value is not divided by the surface measure, so the conormal statement is about value/kappa")
status("C66","proved","exact real arithmetic; a normalised vector is exact; the zero vector (division by zero) excluded")
status("C67","proved","exact real arithmetic; the plain claims (all coefficients, degree deg included) are false: C67_last_term_refuted, C67_top_degree_refuted, C67_gradient_refuted, C67_gradient_degree_two_refuted, with the exact value in C67_solid_exact")
status("C68","proved","exact real arithmetic; lattice points (division by zero) excluded")
status("C69","proved","exact real arithmetic; Eigen's least squares solver and eigenvalue solver are represented by their specifications. The fit uses the terms of degree deg, which the evaluation in the operators leaves out (see C67)")
status("C70","proved","exact real arithmetic for the balls; the documented label 1 for patch boundaries and the use after local refinement are refuted: C70_label_is_one_refuted, C70_local_refinement_refuted")
status("C71","proved","files by their content (order of the arrays), not their characters; VTKPointExport does not check the number of rows: C71_point_rows_refuted")
status("C72","proved","memory is never released in the model (a shared pointer is released after its last owner only); copying default constructed trees, moved-from trees and inner blocks is refuted: C72_copy_default_refuted, C72_copy_moved_refuted, C72_copy_of_a_block_refuted")
status("C73","proved","real scalars; the semantics of Eigen's assignments (temporaries for default products, none for alias-free ones) is modelled from Eigen's documentation; x = H * x is refuted: C73_in_place_refuted")
status("C74","proved","mesh and transformation matrix of a new space are arbitrary functions of the geometry, level, degree and repetition in C74_values (no undefined behaviour in their construction); in-place changes after initialisation and re-initialising a refined ClusterTree are refuted: C74_change_after_init_refuted, C74_reinit_refuted; re-initialising a ClusterTree with another number of patches is not modelled")
status("C75","proved","real scalars, exact real arithmetic; uniform meshes; orders above 50 silently use the one-point rule (C75_order_refuted) and only the first component of div-conforming functions is compared (C75_div_refuted)")
status("C76","proved","infinities and NaN are not modelled (no operation here produces them); the counter of points is not covered; refuted: compute_global_id from level 16 (C76_global_id_refuted), more than 2^31 elements (C76_size_refuted)")
status("C77","proved","exact real arithmetic; the accuracy of the quadrature itself is not part of the claim")
status("C78","proved","exact real arithmetic; flat patches only; for the hypersingular operator the bounds of the tangents and of the shape functions' derivatives are parameters; the bound compares with the quadrature of the exact kernel (with the exact integral: C79)")
status("C79","proved","exact real arithmetic; flat patches; disjoint elements (the singular pairs are C34-C36); the hypersingular operator is covered by C78 against its quadrature only")
status("C80","proved","values are modelled by the text operator<< prints for a precision; errors of the file system (open fails, disk full) are not modelled")
status("C81","proved","exact real arithmetic; assertions are modelled as enabled (with NDEBUG the function does nothing)")
status("C82","proved","exact real arithmetic; the divergence is the one evaluateDiv returns (derivatives in the parameter domain); C65 relates the fluxes to the conormal directions on the surface")
status("C83","proved","exact real arithmetic; for degrees above 4 only the error bound, on the half-open unit square")
status("C84","proved","continuous spaces: whenever the space can be built at all (C23 gives the meshes for which the clean-up fails); without connected vertex fans the formula is false (C84_pinched_refuted)")
status("C85","proved","exact real arithmetic, flat patches, Laplace operators without the hypersingular one; delta bounds the difference of two quadrature rules in the far field, where C79 bounds each against the exact integral")
status("C86","proved","exact real arithmetic; degrees up to 4 (above, the interpolation of the projector is inexact); positive definiteness is for the quadrature rules, which for curved surfaces are not exact integrals")
status("C87","proved","exact real arithmetic: in floating point the moved corners differ by rounding; C87_div_error_refuted shows the dependence of the L2 error of div-conforming functions on the position")
status("C88","proved","exact real arithmetic; the matrix is defined where all quadrature degrees are below 50 (the others give forms the code does not compute); transposition from level 1 on, since on level 0 two patches may share two corners that are not an edge; convergence for flat patches, without the hypersingular operator (C89); C88_library_converges takes the tables for up to 20 points as the Gauss rules they are within rounding (C37, C55_tables)")
status("C89","proved","exact real arithmetic; flat patches; singular pairs (common vertex, edge, equal elements) are C34-C36; the far-field error term is that of the quadrature of the full matrix, which the compressed one does not share")
status("C90","proved","exact real arithmetic; the entries are compared where both degrees of quadrature are in range and their rules agree (the degree itself depends on the unit: C90_degree_refuted); corners must be identified alike (C90_corners gives a sufficient condition, C90_corners_refuted a mesh that collapses)")
status("C91","proved","exact real arithmetic; the exact mirror image of every point of the surface, not that of rounded control points")
status("C92","proved","exact real and complex arithmetic")
status("C93","proved","exact real arithmetic; the dense matrix (the compressed one interpolates the kernel with the moments of the derivatives and is not part of the claim)")
