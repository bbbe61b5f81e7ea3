# Formal model of temf/bembel in Rocq (Coq 8.16.1)

## Layout

* `properties.jsonl` / `MANIFEST.json` are generated from `tools/table.py` by `tools/props.py`.
* `rocq/theories/Model*.v`  Gallina models of the C++ functions; every definition cites the lines it models.
* `rocq/theories/Spec*.v`   small specifications that do not use the model's helpers.
* `rocq/theories/Proof*.v`  lemmas and proofs.
* `rocq/theories/Prop*.v`   the property theorems (named `Cnn_...`), followed by `Example`s showing that the
  hypotheses are met by concrete non-trivial cases, and by `Print Assumptions` for every theorem.
  `Cnn_..._refuted` theorems exhibit a concrete input on which the plain claim is false of the code.
* `seeded/LOG.jsonl`, `tools/mutate.py`  seeded bugs and the proofs that failed on them.

## Modelling decisions

* **Numbers.** `double` is exact: Coq's `R` (standard library reals) for the analytic parts, `Q`/`Z`/`nat`
  where the code only does dyadic or integer arithmetic; `std::complex<double>` is a pair of reals
  (Coquelicot's `C`), and complex matrix computations are modelled on the real and imaginary part separately
  where the matrices multiplying them are real. Rounding, NaN and overflow of `int` are **not** modelled (except where
  stated: C47). Tolerance comparisons (1e-9, 1e-6, 1e-4) are modelled as they are written.
* **Undefined behaviour.** Out-of-range accesses, reads through null pointers, invalidated iterators and
  failed `assert`s are a separate outcome (`None`), so that "no undefined behaviour" is part of a theorem
  and not assumed. `ModelBase.v` has the checked vector accesses.
* **Memory.** Nodes of the element tree are owned by value by the vector of their father, which is
  resized once; a node's address is therefore its path (list of son indices, innermost first), and a pointer an
  `option` of it. The store is a partial function from paths to node records. Uninitialised memory is a
  universally quantified parameter (`junk`, workspaces).
* **Loops** are folds or structural recursion; `while` loops have fuel, and theorems show that it suffices.
  C++ template recursion over integers is recursion over `nat`.
* **OpenMP** (`ModelPar.v`). Small-step semantics of a team with an arbitrary number of threads: a loop of `single nowait`
  constructs with a `critical` section, and task loops; the scheduler is an arbitrary relation.
  One visit of a `single` construct or of the critical section is one step; the C++ memory model is not modelled
  (the disjointness theorems show that concurrent steps write different cells).
* **Eigen.** Dense and sparse linear algebra is modelled by its mathematical meaning. `inverse()`,
  `PartialPivLU::solve`, the eigen-decomposition of `GaussLegendreRule.hpp` and `pruned()` are represented by hypotheses saying
  what they compute (`good_inverse`, `good_solve`, `eigen_decomposition`, `prune`); Examples show that such functions exist.
* **Files** are lists of characters or bytes; the file system is not modelled. The decimal printing of doubles
  is modelled for the native format (15 decimals) and a parameter `show` with a stated accuracy for IGES.
* **Out-of-bounds write in the IGES writer** (finding, C58): modelled as undefined; theorems ending in
  `_with_slack` are about the variant in which the stray write has no effect.

## Trusted base

* Coq's kernel (8.16.1) including `vm_compute` conversion, re-checked by `coqchk` in `vcheck`.
* The axioms reported by `Print Assumptions` under each theorem. Theorems about lists, trees, indices and files of
  integers are closed under the global context. Theorems over `R` use the standard library's
  `ClassicalDedekindReals.sig_forall_dec`, `ClassicalDedekindReals.sig_not_dec` and
  `FunctionalExtensionality.functional_extensionality_dep`; those that use Coquelicot (derivatives, complex numbers, limits) may in addition use
  `Classical_Prop.classic` (through the standard library). `ClassicalEpsilon.constructive_indefinite_description` is used only to
  show that solvers satisfying `good_inverse` / `good_solve` exist: and for a least-squares solver, in the Examples `C69_example`, `C57_inverse_exists`, `C25_solver_exists`, `C25_example`, `C64_example`,
  `C65_example` and in `C25_high_degree_refuted`. All of these are axioms of the standard library; the development adds none.
* That the models agree with the C++ (checked by reading; line references are in the comments) and that the
  specifications say what the English property says.

## Modelled and not modelled

Modelled: Spline/ (all), Geometry/Patch, PatchShredder, GeometryIO, GeometryIGS, the suffix test of Geometry; ClusterTree/ElementTree(Node)
(initialisation, refinement histories, adjacency, point numbering, point list, iterators, reordering, patchTopologyInfo, enclosing balls, checkOrientation);
HomogenisedLaplace/ (coefficients, kernels), util/Sphericals;
AnsatzSpace/ (SuperSpace, Glue, Projector, AnsatzSpace, FunctionEvaluator); DuffyTrick/ (all);
Quadrature/ (all); LinearOperator/ (dense assembly, local operators, degree formulas); LinearForm/; Potential/; Laplace/, Helmholtz/,
Maxwell/, Identity/, LaplaceBeltrami/ kernels, integrands and far-field matrices; H2Matrix/ (block cluster tree,
Chebyshev interpolation, transfer and moment matrices, set-up, parallel product); util/GenericMatrix, GeometryHelper;
IO/Stopwatch, print2file, Logger.

Not modelled: floating-point rounding (except for the mesh, C76), memory allocation, exceptions, performance, copy and move of most classes (modelled: GenericMatrix,
BlockClusterTree,
FunctionEvaluator), Eigen's expression templates and solvers, characters of the VTK files.

## Findings (each is a theorem or stated in a note)

* C01: the run-time Bernstein handler silently uses degree 0 above MaxP. C06/C07: tolerance and end-point cases.
* C16-C18, C35: meshes with three patches at an edge or two patches sharing two edges, unrefined patches sharing two corners,
  and edges run through in the same direction are treated wrongly.
* C23: the clean-up loop of `Glue` erases and increments; there are closed oriented meshes on which it runs past the end.
* C25: the projector drops coefficients up to 1e-4, so splines of degree >= 5 are not reproduced.
* C26: trees that are not graded lose blocks. C33/C36: assembly and far-field nodes are wrong on locally refined meshes.
* C38: a quadrature index beyond the order silently selects the one-point rule. C39: (p+2)*level >= 100 violates the assertion.
* C41: `FunctionEvaluator::operator=` forgets the reordering vector. C42: Jacobians of patches with inner knots lack 1/span width.
* C44: a DAT header without trailing blank is undefined behaviour. C46: the suffix starts at the first dot of the path.
* C48: `Stopwatch` drops the time after the last lap. C58: IGES writer writes out of bounds; long paths and empty geometries are unreadable.
* C65: the value returned for div-conforming functions is not divided by the surface measure.
* C66: with N = 0 `Dsolid_harmonics_full` writes outside its table. C67: the series evaluators sum degrees below `deg` although the
  documentation says up to `deg`, give the last term a wrong factor, and the gradient for `deg` = 2 reads an uninitialised variable.
* C69: the fit uses the terms of degree `deg`, which the operators then leave out.
* C72: copying a default constructed or moved-from block cluster tree is undefined behaviour. C73: `x = H * x` with an H2 matrix sets
  x to zero. C74: initialising a refined `ClusterTree` again keeps the old sons (13 elements instead of 4); existing spaces see changes
  of the patches of the geometry they were initialised with. C75: `surfaceL2error` uses the one-point rule for orders above 50 and
  compares only the first component of div-conforming functions. C76: `compute_global_id` overflows from level 16 on.
* C80: the open mode given to a `Logger` has no effect (app truncates); term(x) is left or right justified depending on what was printed before.
* C81: `checkOrientation` compares positions instead of normals, skips edges with local number 0, and rejects meshes with an edge middle at the origin.

## Per property: what is modelled and how it is proved

| id | property | model | proof | status |
|----|----|----|----|----|
| C01 | Bernstein shape functions form a non-negative partition of unity | Pascal.hpp, Bernstein.hpp, ShapeFunctions.hpp: template recursion as recursion on nat, C arrays as memories | induction on the degree, binomial theorem | proved |
| C02 | Coefficient evaluation and basis evaluation agree | the same with Basis.hpp (tensor products) | induction, index arithmetic | proved |
| C03 | Derivative evaluation is the derivative | evalDer of Bernstein.hpp | derivative of polynomials by induction | proved |
| C04 | Bezier end-point interpolation | as C01 | end-point values, convexity | proved |
| C05 | Uniform knot vectors have the promised shape | Knots.hpp as list functions | list induction | proved |
| C06 | Unique-knot extraction and knot-span location | Knots.hpp / Localize.hpp, tolerance comparisons as written | list induction; refutation by a concrete knot vector | proved |
| C07 | De Boor evaluation computes the B-spline | DeBoor.hpp, DeBoorTP.hpp with explicit workspace | induction on the triangle; Cox-de Boor recursion as specification | proved |
| C08 | De Boor evaluation stays in the convex hull and reproduces constants | as C07 | convex combinations | proved |
| C09 | Spline reparametrisation helpers | Spline/Localize.hpp, interpolation mask and points | list induction; Vandermonde-type argument | proved |
| C10 | Uniform refinement: element count, ids and traversal order | heap model of ElementTree.hpp (see Memory) | invariant WF preserved by every refinement; induction on histories | proved |
| C11 | The elements of a patch tile its parameter square | as C10 | tiling by induction on the tree | proved |
| C12 | Point look-up returns the element that contains the point | as C10 with computeReorderingVector | bijection between traversal and grid position | proved |
| C13 | Global element ids are unique over the whole tree | as C10 | numeric injectivity of the id formula | proved |
| C14 | The enclosing ball contains both input balls | util/GeometryHelper.hpp | triangle inequality | proved |
| C15 | Cluster balls enclose their elements | computeElementEnclosings | induction on the tree | proved |
| C16 | Patch adjacency is symmetric and matches shared edges | updateTopology, refineLeaf's adjacency updates | invariant over histories; refutation by computation | proved |
| C17 | patchTopologyInfo reports the interfaces | patchTopologyInfo | invariant; refutation by computation | proved |
| C18 | Refinement keeps the mesh conforming | vertex numbering of refineLeaf | invariant: same index iff same point of the glued surface | proved |
| C19 | Edge degree-of-freedom enumeration is geometric | Glue.hpp getEdgeDofIndices | index arithmetic | proved |
| C20 | Glue orientation conventions | Glue.hpp reverse/sign conventions | case analysis | proved |
| C21 | The glue matrix realises the identification | Glue.hpp matrix assembly | permutation and order arguments on the triplet list | proved |
| C22 | The continuous identification is the equivalence closure of the edge pairs | Glue.hpp continuous identification | equivalence closure invariant over the loop | proved |
| C23 | Clean-up of merged identification groups | Glue.hpp clean-up loop with its iterator semantics | exact condition; merges need two groups of one class: counting around a corner with the order of the interfaces; refutations by computed meshes | proved |
| C24 | Divergence-conforming identification pairs each edge dof exactly once | Glue.hpp div-conforming identification | each dof occurs in one pair | proved |
| C25 | The projector reproduces B-splines | Projector.hpp; LU solve as `good_solve` | uniqueness of Bernstein coefficients, B-spline pieces as polynomials | proved |
| C26 | Block cluster leaves partition the matrix | BlockClusterTree.hpp; admissibility a boolean parameter | induction on the pair of trees | proved |
| C27 | Low-rank blocks are admissible, other blocks are small | as C26 with the distance test of the code | as C26 | proved |
| C28 | Parallel H2 matrix-vector product does not depend on the schedule | H2DenseProduct.hpp with the OpenMP team of ModelPar.v | sum over interleavings, commutativity | proved |
| C29 | The H2 product equals the matrix given by its blocks | H2DenseProduct.hpp, H2Multipole.hpp forward/backward transformation | linear algebra over finite sums | proved |
| C30 | Forward and backward transformations are adjoint | as C29 | exchange of sums | proved |
| C31 | Newton-form Lagrange polynomials interpolate | H2Multipole.hpp Newton basis, Chebyshev points | uniqueness of interpolation | proved |
| C32 | Cluster-local element coordinates follow the refinement order | H2Multipole.hpp element ordering | induction on the level | proved |
| C33 | Dense Galerkin assembly writes every entry exactly once | DiscreteOperator.hpp with OpenMP tasks | disjointness of blocks; schedule independence | proved |
| C34 | Square rotations used by the Duffy trick | DuffyTrick/tau.hpp | case analysis | proved |
| C35 | Element comparison classifies element pairs | DuffyTrick/compareElements.hpp | mesh invariant C18; refutations | proved |
| C36 | Singular quadrature integrates polynomials exactly | integrate0-4, evaluateBilinearForm, farFieldQuadratureNodes | Duffy substitution identities, exactness of the tensor rule | proved |
| C37 | Gauss-Legendre tables | the literal tables of GaussLegendreRule.hpp as rationals | exact rational evaluation of the moments (a kernel computation per table, no bound left open) | proved |
| C38 | Tensor-product quadrature is exact for tensor-product integrands | TensorProductQuadratureVector.hpp | linearity, product of sums | proved |
| C39 | Near-field quadrature degree is well defined | LinearOperatorBase.hpp degree formulas | real inequalities | proved |
| C40 | GenericMatrix behaves like a matrix | GenericMatrix.hpp as state machine | induction on programs | proved |
| C41 | Assigned function evaluators behave like the original | FunctionEvaluator.hpp assignment | state comparison; refutation | proved |
| C42 | Patch evaluation, Jacobian and surface point agree with the rational tensor-product surface | Patch.hpp eval/evalJacobian/updateSurfacePoint | quotient rule, Bezier extraction; refutation | proved |
| C43 | PatchShredder preserves the surface | Patch.hpp PatchShredder | index arithmetic | proved |
| C44 | Geometry files survive a round trip | GeometryIO.hpp reader and writer over character lists | induction over the file | proved |
| C45 | IGES sections are split without losing data | GeometryIGS.hpp makeSection | induction | proved |
| C46 | Geometry file type detection | Geometry.hpp suffix test | list induction; refutation | proved |
| C47 | Matrix binary files survive a round trip | print2file.hpp binary format | induction | proved |
| C48 | Stopwatch protocol | Stopwatch.hpp state machine | histories; refutations | proved |
| C49 | Laplace kernels: symmetry and adjointness | Laplace/*.hpp kernels and integrands | differential calculus | proved |
| C50 | Parallel potential evaluation does not depend on the schedule | DiscretePotential.hpp with the OpenMP team | sum over interleavings | proved |
| C51 | De Boor derivative evaluation is the derivative | DeBoor.hpp derivative functions | derivative of B-splines | proved |
| C52 | The point list contains the surface points of the mesh | generatePointList | invariant C18 | proved |
| C53 | Transfer matrices are exact for the computed moments | H2Multipole.hpp transfer and moment matrices | interpolation reproduces polynomials | proved |
| C54 | Entries of the compressed matrix | H2Matrix.hpp init_H2Matrix | combination of C26, C29, C53 | proved |
| C55 | Computed Gauss-Legendre rules are exact | GaussLegendreRule.hpp beyond the tables; eigen-decomposition by its specification | Golub-Welsch; ProofTable: sign changes of the Legendre polynomials next to the points of the tables (integer arithmetic), PropTable | proved |
| C56 | Local matrices of symmetric kernels are symmetric | DuffyTrick on a mesh | symmetry of the cases | proved |
| C57 | Bezier extraction reproduces the B-spline basis | Bezierextraction.hpp; inverse() as `good_inverse`, pruned() as `prune` | uniqueness of interpolation | proved |
| C58 | IGES geometry files survive a round trip | GeometryIGS.hpp reader and writer | induction over sections; refutations | proved |
| C59 | Helmholtz and Maxwell kernels solve the Helmholtz equation | Helmholtz/*.hpp, Maxwell/*.hpp kernels | complex calculus by parts | proved |
| C60 | Near field and far field discretise the same operator | near-field integrand and evaluateFMMInterpolation of every operator | pointwise identity of both discretisations | proved |
| C61 | A coefficient vector is evaluated as the function it describes | FunctionEvaluator.hpp, FunctionEvaluatorEval.hpp | index arithmetic | proved |
| C62 | Linear forms and local operators are quadrature of the stated integrals | LinearForm/*.hpp, DiscreteLocalOperator.hpp | exchange of sums | proved |
| C63 | Potentials solve the equation they are made for | Potential/*.hpp and the operators' potentials | derivatives of finite sums | proved |
| C64 | Functions of a continuous space have one value at every point of the surface | AnsatzSpace.hpp: projector times glue matrix, continuous spaces | traces of splines, C18, C22, C25; completeness by linear independence of B-splines (ProofIndep) | proved |
| C65 | Div-conforming spaces have a continuous normal component | as C64, div-conforming spaces | traces of splines, C24, C25; completeness as C64 | proved |
| C66 | Spherical harmonics and their gradients | util/Sphericals.hpp tables; tables as checked vectors with arbitrary initial content | recurrences of associated Legendre functions, homogeneous harmonic polynomials | proved |
| C67 | Series of spherical harmonics | util/Sphericals.hpp series evaluators with their loop order | loop invariants against the sum over (n,m); refutations by computation | proved |
| C68 | Kernel of the homogenised Laplace operators | HomogenisedLaplace/Coefficients.hpp k_mod, Dk_mod; kernels of the operators and potentials | differential calculus over the lattice sum | proved |
| C69 | Coefficients of the periodic kernel | HomogenisedLaplace/Coefficients.hpp getCoefficients; the least-squares solver and the eigen-decomposition by their specifications | normal equations, uniqueness of periodic harmonic polynomials, parity, exactness of the Gauss rule | proved |
| C70 | Element lists of the mesh | ClusterTree/ElementTree.hpp generate... and identifyPatch | order of the iteration, adjacency of uniform meshes | proved |
| C71 | VTK exports | IO/VTKSurfaceExport.hpp, VTKDomainExport.hpp, VTKPointExport.hpp by the content of the file | ids equal list positions on uniform meshes; loop invariants over the calls and over the grid | proved |
| C72 | Copies and moves of block cluster trees | constructors, assignment and updateLeafPointers of H2Matrix/BlockClusterTree.hpp on a heap of leaves and pointer vectors | invariant of the heap (separation of the variables) over programs, refinement to a specification with values | proved |
| C73 | Expressions of H2 matrices | generic_product_impl, product_evaluator and the operators of H2CwiseBinaryOp.hpp as a relation over expression trees, get_dense | induction over the expression with C29 | proved |
| C74 | Repeated initialisation and sharing of geometries | the shared pointers of Geometry, SuperSpace and AnsatzSpace as a heap machine; init_ElementTree on a tree that has sons | invariant of the heap (distinct owners, captured vectors) by induction over the program; the level-0 tree by the specification of updateTopology | proved |
| C75 | surfaceL2error measures the distance on the surface | surfaceL2error with its loop over elements and quadrature points, scalar and div-conforming evaluators | the loop is a surface sum (C61 for the evaluator); exactness cell by cell from the cubature rule and additivity of the Riemann integral over the mesh (ProofSurfInt, also used for C62_dirichlet_exact and C62_mass_exact); Minkowski's inequality from the discriminant | proved |
| C76 | The mesh is exact in machine arithmetic | the int and double computations of the element tree, map2surface, mapToReferenceElement, evaluateOnPatch, uniform knots and the projector's points, with 32 bit ints (overflow undefined) and Flocq's rounding to nearest even in binary64 | dyadic numbers with few digits are representable; rounding is monotone (points stay inside), Sterbenz's lemma and the representability of differences (points outside are detected), relative error bounds for knots; induction over the address for the nodes, C10/C12 for the structure | proved |
| C77 | Interpolation in Chebyshev points converges | the Chebyshev points, divided differences and Newton evaluation of ModelInterp (C53); derivative bounds are specified by chains of derivatives | Rolle's theorem n times (insert_point) gives the remainder formula; the product of t - x_i is 2^(1-2n) T_n, bounded by 2/4^n; the Lebesgue constant by writing the Lagrange polynomials in Chebyshev polynomials (discrete orthogonality); four variables one at a time; then C60 | proved |
| C78 | The compressed Laplace operators are accurate on flat patches | the balls, the admissibility test, the far field entries and the Laplace operators of the earlier models; flat surfaces are affine maps (SpecFlat) | derivatives of 1/|a + t b| by Legendre polynomials, of its cube by Gegenbauer polynomials (three-term recurrence, |P_n| <= 1 since P_n(cos a) is a sum of cosines with positive coefficients); C15 and the admissibility condition bound the sides of the clusters by 2 eta d; then C77 | proved |
| C79 | The computed Galerkin matrices approximate the exact integrals | integrate1, the far field entries and the Laplace operators of the earlier models; exact integrals are iterated Riemann integrals (integral4) | a positive rule of degree q applied to the Chebyshev interpolant of the kernel times the shape functions is exact (m + p <= q), and both rule and integral are bounded by the maximum (C77); the integrals exist because the integrands are Lipschitz on the closed squares; derivative bounds as in C78; the balls contain the closed elements (C15) | proved |
| C80 | Logged rows are complete, ordered, aligned and survive a crash | the four functions, the constructors and the destructor of Logger as lists of elementary actions on std::cout and on the buffered file streams; file system as a map from names to texts | invariant over histories (other loggers have other names; the disk has the table of the rows so far; the buffer is empty); crash = a prefix of the actions of a statement and a prefix of the buffer; columns and words by induction on the rows | proved |
| C81 | checkOrientation accepts exactly the meshes whose edge middles agree | checkOrientation on the element tree model (patchTopologyInfo, C17), with patches as functions for points and normals; failing assertions are None | from C17_interfaces; the origin condition by |a-b| < |a| implies a.b > 0; counterexamples on two squares | proved |
| C82 | The divergence theorem holds for div-conforming functions | the div-conforming space of C65 (ansatz_div), evaluateDiv of C61, quadrature over the elements | on one element by exact integration of polynomials (fundamental theorem for monomials); inner sides cancel by C65_inside (telescoping sums) and C65_interface (pairing of the glued patch sides) | proved |
| C83 | Equal coefficients give a constant function | the spaces of C64, the evaluator of C61, the forms and local operators of C62 | the glue matrix has one entry 1 per row, B-splines sum to 1, Bernstein polynomials are independent (so equality on the half-open square extends to every point); the sums are C62 for the constant function | proved |
| C84 | The number of degrees of freedom is given by the mesh | the spaces of C64 and C65; the mesh by its shared sides and vertices (SpecDofs) | columns of the glue matrix correspond to the classes of identified splines (C21); every class is labelled by the part of the surface it belongs to, the labels are counted | proved |
| C85 | The compressed operator as a whole is close to the dense one | ModelH2, ModelH2Init, ModelAssembly, ModelOperators | PropCompressed: the entries of far-field blocks by C78, the others by C54; products by C29, exponential decay from n q^n <= 1/(1-q) | proved |
| C86 | Coefficients are determined by the function; the systems of mass matrix and Laplace-Beltrami operator | the spaces of C64 and C65, the local operators of C62, surfaceL2error of C75 | ProofLin (square systems with trivial kernel), PropUnique, PropKernel: a spline with zeros on a grid of every element has zero coefficients (ProofIndep), the glue matrix loses no coefficient (C21); quadrature points form such a grid; on continuous spaces functions constant on every element are constant across cells and interfaces (C64) | proved |
| C87 | Moving the geometry changes no result | ModelPipeline composes the models of mesh, forms, dense and compressed operator; SpecMotion: rotation, translation, the moved geometry and mesh | ProofMotion: a rotation keeps scalar products and cross products, hence normals, surface measures, kernels and curls; the tree depends on the corners through their comparison only; balls, quadrature choice and admissibility depend on distances only | proved |
| C88 | The computation as a whole: mesh, forms, assembly and transformation give the stated matrix | ModelPipeline composes the models of mesh, forms, dense and compressed operator | ProofPipeline: an entry of a local matrix depends on the same entry of the integrand; operators with exchanged points as one kernel with two entries, to which C56 applies; PropPipeline assembles C15, C18, C33, C36, C52 and C56; PropWhole adds the block cluster tree, C54 and C85; PropRules: the convergence theorems of C88 and C89 with QuadratureVector<GaussLegendreRule, 50> and the degrees of LinearOperatorBase and H2Multipole (C39, C55) | proved |
| C89 | The hypersingular operator: surface curls of the basis functions, its entries, and convergence of the compressed matrix | ModelOperators (laplace_hs: the curl components of SuperSpace.hpp and the kernel), ModelPipeline, ModelH2Init | SpecHyper: surface curl by derivatives of the shape function; ProofHyper: derivatives of Bernstein polynomials and bounds; PropHyper: C78_hypersingular for the low-rank blocks, the line property of the kernel for the direct pairs, then the summation of C85 and C88 | proved |
| C90 | Change of the unit of length | ModelPipeline, ModelOperators, ModelForms, ModelL2, ModelBall, ModelDuffy, ModelH2Init applied to the geometry and to the enlarged geometry | SpecScale: enlarged geometry and mesh, the exponents; ProofScale: homogeneity of vector operations, kernels, integrands, enclosing balls and quadrature loops; PropScale, PropUnits, PropUnitsH2: entries, full and compressed matrices, products, linear forms, potentials, errors | proved |
| C91 | Mirror images and the side of the normal vector | ModelPipeline, ModelOperators, ModelForms, ModelL2, ModelBall, ModelDuffy, ModelH2Init applied to the geometry and to its mirror image | SpecMirror: left-handed motions and the sign of each operator; ProofMirror: inner products are kept, cross products of reflected vectors are reflected and negated, hence kernels, integrands, balls and quadrature loops entry by entry; PropMirror: full and compressed matrices, products, linear forms, potentials, errors | proved |
| C92 | The wave number zero and the conjugate wave | ModelOperators (kernels, integrands and interpolated kernels), ModelForms (potentials), ModelPipeline (full and compressed matrices) | SpecWave: which operator is which multiple of which; ProofWave: exp(0) = 1 and conjugation of the kernels, then integrand by integrand and through the quadrature loops entry by entry; PropWave: full and compressed matrices, products, potentials | proved |
| C93 | The hypersingular operator annihilates constants | ModelOperators (laplace_hs and surface curls), ModelDuffy and ModelPipeline (forms of pairs of elements, full matrix), ModelAnsatz (spaces) | PropHyperConst: derivatives of the Bernstein basis add up to zero, so do the surface curls; zero row and column sums are an invariant of the quadrature loops; with C88_full and, for the spaces, C83 | proved |

The exact theorem names and restrictions of each property are in `MANIFEST.json`.
