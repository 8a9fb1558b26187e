# Design

A Rocq (Coq 8.16.1) model of ITensor/ITensor (C++), in `rocq/theories`.

## Conventions

* `*Model.v` files hold definitions only. Every definition cites the C++ file and
  lines it models and states its simplifications.
* `*Spec.v` files hold the small, independent vocabulary the theorems are stated in.
* `*Proofs.v` files hold lemmas. `*Props.v` files hold the property theorems, a
  concrete non-trivial instance beside each, and `Print Assumptions`.
* C++ `Error(...)`/`throw` is an explicit `Err` outcome; reads or writes outside
  storage are an explicit `UB` outcome. Theorems state when each can occur.
* `int`/`long` are unbounded `Z`/`nat` unless a theorem is about overflow.
* Floating point is modelled by exact numbers (rationals, an arbitrary commutative
  ring, or Coq reals for LogNum): rounding is out of scope.

## Plan per property

| id | property | model and proof |
|----|----------|-----------------|
| C01 | QN arithmetic is a commutative group | QnModel.v models QNum::set, addNum, combineQN, unary -, *=Arrow on a four-slot store. Proof: invariant (active entries strictly sorted, then empty slots) + pointwise value lemma; laws follow by extensionality of sorted stores. |
| C02 | QN construction is order independent and canonical | Same model; induction over the insertion list, permutation invariance by uniqueness of sorted lists. |
| C03 | QN ordering used by sorted containers | Same model of operator<; case analysis of the merge loop with fuel = 8; the failing inputs become a _refuted theorem. |
| C04 | TagSet behaves as a set of tags | TagSetModel.v models the slot array, size and prime level; refinement to a finite set over operation lists. |
| C05 | TagSet capacity and error behaviour | Same model with explicit error outcomes; case analysis. |
| C06 | Index priming laws | IndexModel.v: record of id, dim, dir, QN blocks, tags; equational proofs. |
| C07 | IndexSet algebra | IndexSetModel.v: list loops of indexset.cc; induction on lists. |
| C08 | Tag and prime operations touch exactly the matching indices | Same model; map/filter frame lemmas by induction. |
| C09 | swapTags and swapPrime exchange | Same model; temporary-level argument; collisions become _refuted theorems. |
| C10 | Multi-index to storage offset is a bijection | RangeModel.v: strides computed by the range builder loop, offset as a sum; mixed-radix induction. |
| C11 | Index counters enumerate every element exactly once | CounterModel.v: odometer step function iterated; invariant 'the k-th state is the k-th column-major multi-index'. |
| C12 | Permutation computation and inversion | PermModel.v: calcPerm double loop; induction, NoDup counting. |
| C13 | Element access follows IndexVals, not their order | TensorModel.v: dense storage as list, permute_map loop; from C10+C12. |
| C14 | Dense contraction is the Einstein sum | ContractModel.v: labels, CProps permutation decisions, reshape, gemm loop over an abstract commutative ring; proof by reindexing finite sums. |
| C15 | Contraction does not depend on operand order | Corollary of the Einstein-sum theorem. |
| C16 | Addition matches elements by index | TensorModel.v: permuted loop of PlusEQ / Order. |
| C17 | Combiner is a lossless reshape | CombinerModel.v: combine, permuteStore, uncombine on dense storage; regrouping lemmas for column-major positions. QCombModel.v: combiner() on QN indices (sector table), combine and uncombine on block-sparse storage; the table is a tiling of the sectors (invariant of the construction loop), from which the bijection of values, then loop invariants over the stored blocks. |
| C18 | Non-contracting product | Same ingredients as C14. |
| C19 | Block-sparse element lookup | QdModel.v: binary search over sorted block offsets; QdProofs.v. |
| C20 | Block layout of QN tensors | QdModel.v: getBlockOffsets loop over the block counter; QdFlux.v. |
| C21 | Block-sparse addition | QdModel.v: merge of block lists and in-place addition; QdAdd.v. |
| C22 | Block-sparse contraction | QdModel.v: loop over block pairs, per-block dense contraction; QdKernel/QdEntries/QdLoop (invariant), QdSum (sums over values split over blocks), QdDense (removeQNs). |
| C23 | Threaded contraction does not depend on the schedule | QdModel.v: first loop under any division among threads, second loop as interleaving of tasks grouped by result block; QdPar.v: commutation argument. |
| C24 | Truncation bounds | TruncateModel.v over rationals: the three loops; loop invariants. |
| C25 | Reported truncation error | Same; the relative-mode statement is checked against the faithful model and refuted if false. |
| C26 | Block SVD keeps no more than the truncation decided | SvdSelectModel.v: block selection loop; counting invariant. |
| C27 | Args lookups | ArgsModel.v: entry list; refinement to a finite map over operation lists. |
| C28 | Small-buffer array behaves like a list | InfArrayModel.v: inline array, heap vector, data pointer, size; refinement to list for the safe operations, _refuted for the broken ones. |
| C29 | autovector behaves like a total map | AutovectorModel.v: refinement to a function from Z over operation lists. |
| C30 | Binary serialization round trips | SerialModel.v: byte streams with a failed state, every reader takes the object read into; round trips by induction (encode/decode), reuse of objects refuted where the code keeps old content. |
| C31 | Sweep parameter setters | SweepsModel.v: setter loops. |
| C32 | A sweep visits every bond | SweepsModel.v: iterate sweepnext; closed form of the k-th state. |
| C33 | LogNum arithmetic | LogNumModel.v over Coq reals (standard library axioms); homomorphism proofs. |
| C34 | Operator terms are ordered with the right fermionic sign | AutoMpoModel.v: HTerm::add; value of operator strings in a graded exchange algebra. |
| C35 | AutoMPO accumulates terms | AutoMpoModel.v: sorted set of terms; refinement to formal sums. |
| C36 | The MPO built from a sum of terms equals that sum | MpoFsmModel.v: site matrices of the exact construction over a free operator algebra; induction on sites. |
| C37 | Jordan-Wigner strings | AutoMpoModel.v: emitted F strings vs. parity counting; induction. |
| C38 | Orthogonality bookkeeping of MPS | MpsModel.v, MpsTensor.v: site tensors over any commutative ring with decomposition parameters and their contracts; invariant over histories (MpsOrtho.v), norm identity (MpsProofs.v). |
| C39 | Writing MPS tensors to disk is transparent | MpsModel.v, MpsPaging.v, MpsWorld.v: tensors in memory + file system; simulation by a program kept in memory, for several objects with copies. |
| C40 | Environment tensors are up to date | LocalMpoModel.v: environment cache; invariant over histories. |
| C41 | Summing many MPS | MpsModel.v: pairwise summation loop; well-founded recursion on length. |
| C42 | Product states carry the right flux | MpsModel.v with QnModel.v: telescoping sums. |
| C43 | Lattice bond lists | LatticeModel.v: the loops of square.h/triangular.h; counting and membership lemmas. |
| C44 | Copies are independent | CowModel.v: heap of reference counted storages; simulation by value semantics. |
| C45 | Direct sum of indices and tensors | DirectSumModel.v: offsets into the summed index. QDirectSumModel.v: the same with QNs, block by block selector tensors; one step of the loop from the block contraction (C22), then induction on the index lists and the block addition (C21). |
| C46 | Site number wrap-around | MpsModel.v: wrap loops. |
| C47 | Input-file parsing terminates | InputModel.v: character reader; termination measured by remaining input; non-termination at end of file shown as _refuted. |
| C48 | replaceInds relabels | IndexSetModel.v/TensorModel.v: sequence of delta contractions as relabelling. |
| C49 | Products with diagonal and delta tensors | DiagModel.v: diagonal storage, the partial and full contraction loops; strides of the diagonal summed by position, then the Einstein sum of DiagSpec.v. |
| C50 | The default AutoMPO conversion builds the operator the terms define | Model SvdMpo*: the partition of the terms into left part, site operators, right part and coefficient matrices per link and quantum number, the rewriting of fermionic names, the compressed blocks and the tensors; the SVD is a parameter with the hypothesis M V V^dagger = M. Proof: an invariant of the partition loop (elements of link n are exactly the distinct (left part, operators, right part) of the crossing terms) and induction over the sites: the partial product of tensors at link n, paired with the right parts, is the sum of the terms. |
| C51 | svd factors every tensor into isometries and singular values | Model Svd*: the split of the indices, the two combiners (C17), the matrix view handed to LAPACK with its transposed copy and fallback, conjugations and reorderings, the blocks of a QN tensor, the new sectors, the placing of blocks in U, D and V, the uncombining. LAPACK is a pair of partial functions whose results, when given, are exact; the choice of what to keep is any function. Proof: each block is a sum of rank-one terms with orthonormal sides (SvdRank, SvdMat); blocks have disjoint supports (SvdBlocks); the combiners number joint values bijectively, so sums over indices are sums over matrix rows (SvdFactor). The fallback is refuted. |
| C52 | Inner products and traces of MPS and MPO are the sums they denote | Model Inner*: tensors with named indices, products that sum the common ones (C14), the matching of site indices and renewal of link indices, and the left to right contractions. The specification (InnerSpec) says what an MPS and an MPO are and defines amplitudes and matrix elements as sums over the links. Proof: a left to right product of tensors in which every index occurs at most twice is the sum over the indices that occur twice (NetProofs); replacing indices is an injective renaming (ChainProofs); an index summed and used again is renamed first (InnerPairs). One site, different output indices and shared indices are refuted where the code fails. |
| C53 | davidson returns normalised vectors with their Rayleigh quotients and never raises the energy | Model Dav*: davidson over an ordered field and the complex numbers over it, in any space with an inner product (lists of n numbers are one), with the random tensors as parameter and LAPACK as a contract (unitary eigenvectors, ascending eigenvalues). Invariant of the loop: an orthonormal basis and the projected matrix; the columns of a unitary matrix that diagonalises it give Ritz pairs; the lowest eigenvalue is at most the first diagonal element. Rounding is not modelled. |
| C54 | dmrg returns a normalised state and an energy that is never below the spectrum and, untruncated, never rises | Model Dmrg*: DMRGWorker put together from the models of MPS (C37), LocalMPO (C40), davidson (C53) and sweepnext (C14). Invariant: the centre follows the bond, PH holds the environments of the current tensors, so <phi|PH|phi> is <psi|H|psi> and <phi|phi> is <psi|psi>; davidson gives the Ritz value; svdBond with a normalised factor keeps the norm. The factorisation is a contract (orthogonal side, normalised other side; exact when nothing is truncated). |
| C55 | orthogonalize returns the same state with its centre on the first site | Model Ort*: the environments E[j], the density matrices and the sweep from the right. diagPosSemiDef is a contract on Gram matrices (orthonormal columns; diagonalises if MaxDim does not cut the rank). Key lemma: (1-P) rho = 0 for rho = X X^dagger implies (1-P) X = 0, by definiteness of |x|^2. Induction over the sweep. The result discharges the assumption of C41. |
| C56 | expect and correlationMatrix return the expectation values they are asked for | CorrModel.v models expectT and correlationMatrixT line by line: orthogonalize if needed, normalize, position, the environments L, Li12, Li21, operator names as products of parts, the tables as vectors of vectors with undefined behaviour out of bounds. CorrSpec.v defines operators with one factor per site, their expectation value as a sum over all pairs of configurations, and operators with strings. Proof (CorrProofs.v, CorrProps.v): the environment is the left part of the expectation value; orthogonal tensors with identities contribute identities; the product of the two strings is worked out site by site; invariant of the two nested loops over the table. |
| C57 | diagHermitian and diagPosSemiDef diagonalise every Hermitian tensor, expHermitian exponentiates it | HermModel.v models the analysis of the prime levels, the combination of the indices with the two combiners (CombinerModel, QCombModel), the matrix view, the negation and the call of LAPACK (a parameter that may fail), truncation (a parameter), the loop that fills the blocks of U and D, and expHermitian as the product prime(U)*d*dag(U) of tensors. HermSpec.v defines Hermitian tensors, eigendecompositions, unitary tensors and eigenvectors as sums over index values. Proofs: HermPairs (the pairs are found), HermMat (from matrices to tensors), HermDense, HermQn (block by block), HermExp (functions of an operator), HermProps. |
| C58 | dmrg with an observer stops exactly when its goals are met or it is asked to | ObsModel.v models the members of the observer (S unset at construction), measure, checkDone and the loop over sweeps with the two files, energies and spectra being arbitrary functions. ObsSpec.v says when the goals are met. Proof (ObsProps.v): after a sweep S is the entropy of the middle bond; invariant of the loop: the observer remembers the energy and entropy of the last sweep. |
| C59 | qr decomposes every tensor into an orthonormal Q and an upper triangular R | QrModel.v models qr with the two combiners, the call of LAPACK (geqrf and orgqr as one parameter that may fail), the copy of the triangle, the sign convention, and for quantum numbers the sorting of the blocks, the sectors of the new index, every write of a block into Q and R (a missing block is undefined behaviour) and the identity blocks. QrSpec.v defines the decomposition by sums over index values. Proofs: QrMat (one matrix), QrFactor (dense tensors), QrBlocks (a block matrix decomposed block by block), QrWrites (sorting, the writes), QrQn (the matrix with quantum numbers), QrQqr, QrProps. |
| C60 | applyMPO returns the operator applied to the state | ApplyModel.v models the check of the site indices, the environments with their four links, O, rho, the MaxDim inferred from the links, the sweep and Normalize, with diagPosSemiDef as in C55; ApplySpec.v defines the operator applied to the state by sums over configurations. ApplyProofs.v shows that, taking the two links of a bond as one, each step is that of C55 on the chain of products. |
| C61 | nmultMPO returns the product of the two operators | NmultModel.v models the choice of the site indices, position(1) of both (C38), the loop with clust, rho and nfork, svdBond and orthogonalize (C55); NmultSpec.v defines the product of two operators by sums over the shared indices. NmultProofs.v shows that the loop keeps the chain of products, taking the two links of a bond as one. |
| C62 | The local operator of several MPOs is their sum, and with penalty states H plus the weighted projectors | LsetModel.v models the edge tensors and product of a LocalMPO made from an MPS, on the state machine of LocalModel.v (C40), and the two classes that hold several LocalMPOs; LsetSpec.v defines the overlap of a fixed state with one that has a free centre. LsetProofs.v shows that the edges are partial overlaps and that all members keep the same window; the MPO part is C40_projects. |
| C63 | gmres never makes the residual worse and reaches the tolerance it claims | GmModel.v models gmresImpl and its helpers line by line over scalars T (real or complex) that contain an ordered field, in any space with an inner product; GmSpec.v defines scalars, spaces, residuals and Krylov vectors. GmProofs.v: the invariant of the inner loop says that the rotations turn the Hessenberg matrix into the triangular one stored and that s holds the rotated residual, so that |s(i+1)| is the residual; minimality from the triangular system; a breakdown only happens with zero residual for injective A. GmProps.v instantiates it to columns and matrices over every ordered field and its complex numbers, GmRealProps.v to Coq's real numbers, where the square roots exist. |
| C64 | gateTEvol applies the gates in order, once per time step, and BondGate makes the gates it says | TevModel.v models gateTEvol and the BondGate constructors line by line on top of the MPS model (position, svdBond); TevSpec.v defines the action of a two-site operator on a state, circuits, powers and the Taylor polynomial. TevProofs.v: one gate = one svdBond of the gated two-site tensor; induction over the gates and steps with the invariant 'psi shows the evolved state divided by x'; the limits after each gate decide whether the next svdBond is accepted. TevGate.v: the Horner-like loop equals the Taylor sum; the number of steps. TevTriv.v gives decompositions that always return. |
| C65 | toExpH returns 1 - tau H to first order, and the products of non-overlapping terms beyond | ExphModel.v models toExpH_ZW1 line by line (link bases, site tensors, product over the links) like the model of toMPO; ExphSpec.v: sublists, terms apart, the operator of a set of terms on each site, the cluster sum. ExphProofs.v: a recursion over the sites for the cluster sum (either no term begins at site n, or exactly one does and the sum continues after its last site) by a lemma on sums over sublists; the link vector of a string state is the sum over the terms begun; one site tensor is one step of the recursion. |
| C66 | expMatrix is the Pade approximant of the exponential, with scaling and squaring | PadeModel.v models expPade line by line (norm, squarings, coefficients, Horner scheme with the alternating flag, gesv, squarings) and expMatrix. PadeSpec.v: matrix polynomials, Pade approximants by their defining equations, what gesv, lange and the logarithm promise. PadeProofs.v: falling-factorial sums give the coefficient equations; an invariant of the Horner loop; symmetry num(z) = den(-z) gives inverse and unitarity. PadeNorm.v: row sums below 1/2 and |coefficients| <= 1 make den nonsingular. |
| C67 | applyExp: what the Krylov approximation of exp(tau H)phi is | AexModel.v models the loop of applyExp (Lanczos step, exhaustion test, extended matrix, estimate, assembly) over abstract vectors, calling the model of expMatrix (C66). AexSpec.v: combinations of vectors, r(zH)^n phi as a chain of linear equations. AexProofs.v: invariant of the loop (three-term relation of the vectors with the columns of bigTmat, symmetry, orthonormality for a Hermitian H), then p(M)e_0 for polynomials p by induction on degree. |
| C68 | the operators of every site type satisfy the algebra their names promise | StModel.v transcribes the state, operator and index code of the nine site types, with ITensor::set and its flux check, and SiteSet::op. StSpec.v: spins, bosons, fermionic modes as relations between matrices over a field with square roots of the naturals. StProofs.v: elements of CustomSpin and Boson matrices for every size, ladder products, one flux per operator, products of names. StProps.v: the relations; the complex numbers over the reals are an instance. |
| C69 | matrix and vector products and elementwise operations on views act on exactly the elements of the views | GvModel.v: memory as the real number at each place, views as extents, strides and offset, the wrappers with their leading dimensions, the task lists of the emulator with its one buffer, the iterator. GvSpec.v: element of a view, places of a view, contiguous. GvProofs.v: a loop writing injective addresses; gemm_wrapper for both orientations; each emulator task; the iterator's offset. GvProps.v: the theorems, over any commutative ring. |
| C70 | one step of rungeKutta4 (midpointMethod) is the degree-4 (degree-2) Taylor polynomial of the exponential | RkModel.v: the loops with v.at bounds, null tensors in += and *, and the two orders of operator+ (temporary on the right). RkSpec.v: points, what it means that a list shows a point, Taylor polynomial. RkProofs.v: each loop adds a point; the values of F at the intermediate points by linearity; combinations of five tensors brought to coefficients, compared by field. RkProps.v: the theorems, over any field in which 2 and 3 are not 0. |
| C71 | fitWF is the orthogonal projection on the states that share all tensors of the basis but the first | FitModel.v: the contraction from the right, the first site, the norm and the write-back through ref. FitSpec.v: overlap and squared distance of amplitude functions. FitProofs.v: the loop is the overlap of the right parts; the overlap with x g_2..g_N is the inner product of x with the tensor A. FitProps.v: Pythagoras from right orthogonality. |
| C72 | totalQN is the quantum number of every configuration in the state; what checkQNs accepts | TqModel.v: the loops, over the block-sparse tensors of QdModel. TqSpec.v: amplitude as a sum over link values of products of elements, network (each link once out and once in), charge of a configuration. TqProofs.v: an element outside stored blocks is 0; the fluxes add up to the charge of the open indices because the links cancel. TqProps.v: the theorems; checkQNs as an equivalence. |
| C73 | the variational fit of K|x> never moves away from K|x> | FapModel.v: environments E[n] with one link each of x, K and Kx, the body of the bond loop, sweepnext, the sweeps and the initial environments. FapSpec.v: sum of squared steps, what position(1) promises. FapProofs.v: K(n) x(n) joined to one tensor (as in C60) so that E[n] is the overlap of two half chains; invariant (orthogonal left and right of the bond, environments up to date); projection by Pythagoras. The factorisation is used up to a factor, which is 1 without Normalize and 1/norm with it. For one center site the stored tensors do not form a state between steps (S U of the svd is dropped): the invariant speaks of the state with the missing center. FapProps.v, Fa1Props.v: the theorems. |
| C74 | expect, diag and size of a LocalMPO describe the matrix that product applies | LopModel models the three functions on the tensors of LocalTensor. diag is compared with product on basis vectors, size with an explicit duplicate-free list of all labels, expect with the matrix element of C40. Quantum numbers on the indices are not modelled here, nor is deltaRho. |

## Trusted base

1. Coq 8.16.1: its kernel, including the virtual machine (`vm_compute` is used in the
   concrete examples).
2. The axioms below, all from Coq's standard library. No axiom is declared in `theories/`.
3. The correspondence between the model and the C++ sources. It is documented by the
   citations in the comments and summarised in the two tables below.
4. The contracts of what is outside the model, which are hypotheses of the theorems and
   never axioms: LAPACK (`heev`, `gesdd`, `geqrf`/`orgqr`: when they return, the factors
   are unitary and multiply to the input), `diagPosSemiDef` and `svd` where a theorem about
   a larger algorithm takes them as parameters (C38, C54, C55, C60, C61, C64), random numbers
   (any values), clocks and the file system.

Simplifications that hold throughout: exact arithmetic instead of floating point, unbounded
`int` and `long` unless a theorem is about overflow, no exhaustion of memory, no printing.

### What `Print Assumptions` lists

* Closed under the global context: all 543 theorems not named below.
* `ClassicalDedekindReals.sig_not_dec`, `ClassicalDedekindReals.sig_forall_dec`, `FunctionalExtensionality.functional_extensionality_dep` (the real numbers of the standard library): `C33_div`, `C33_div_zero_refuted`, `C33_mul`, `C33_nan_refuted`, `C33_neg`, `C63_hermitian_matrices`, `C63_real_matrices`, `C64_real`, `C68_complex_numbers`.
* `ClassicalDedekindReals.sig_not_dec`, `ClassicalDedekindReals.sig_forall_dec`, `FunctionalExtensionality.functional_extensionality_dep`, `Classical_Prop.classic` (the real numbers of the standard library): `C33_add`, `C33_add_debug`, `C33_approx`, `C33_magnitude`, `C33_make`, `C33_mul_real`, `C33_order`, `C33_pow`, `C33_pow_negative_refuted`, `C33_real0`, `C33_sqrt`, `C33_zero_refuted`.

### Parts of the code that are modelled

Lines of `/repo/itensor` cited by definitions of the model, and the files that cite them.
Lines of these files that are not listed are not modelled.

| source | lines | model |
|--------|-------|-------|
| arrow.h (103) | 53, 63-71 | QnModel, SerialModel |
| decomp.cc (1198) | 31, 71-80, 87-113, 120-228, 304-463, 726-820, 909-975, 996-1195 | HermModel, OrtModel, QrModel, SvdModel, TruncateModel |
| decomp.h (492) | 365-379, 408-414, 437-451 | NmultModel, SvdModel |
| detail/algs.h (149) | 31-58, 124-131 | DenseModel, QdModel |
| detail/gcounter.h (117) | 31-108 | RangeModel |
| hermitian.cc (442) | 96-428 | HermModel, TruncateModel |
| index.cc (838) | 18-40, 54-72, 99-138, 151-155, 230-231, 278-287, 300-306, 433-448, 470-500, 527-549, 554-587, 636-681, 689-745 | DirectSumModel, IndexModel, InnerModel, ProductModel, QDirectSumModel, QdModel, SerialModel, SvdMpoModel |
| index.h (554) | 84-110, 150-166, 223-224, 229-235, 277 | IndexModel, InnerModel, TqModel |
| indexset.cc (728) | 20-42, 78-354, 367-446, 474-494, 529-534, 548-676 | DirectSumModel, IndexModel, InnerModel, QDirectSumModel, SerialModel, TqModel |
| indexset.h (1027) | 203-209 | NmultModel |
| indexset_impl.h (198) | 20-195 | ContractModel, DenseModel, DiagModel, IndexModel |
| itdata/combiner.cc (198) | 55-180 | CombinerModel |
| itdata/combiner.h (82) | 36-40 | SerialModel |
| itdata/dense.cc (477) | 19-30, 110-139, 262-325, 332-356, 371-411, 417-436 | ContractModel, CowModel, DenseModel, DiagModel |
| itdata/dense.h (344) | 150-162 | SerialModel |
| itdata/diag.cc (446) | 14-203, 276-290 | DiagModel, IndexModel |
| itdata/diag.h (287) | 29-112, 139-155 | DiagModel, SerialModel |
| itdata/dotask.h (718) | 476-485, 636-642, 660-674, 694-710 | CowModel, RkModel, TqModel |
| itdata/itdata.h (350) | 264-281, 315-328 | CowModel |
| itdata/qcombiner.cc (342) | 30-48, 124-338 | QCombModel, SerialModel |
| itdata/qcombiner.h (166) | 24-48, 60-72, 84-94 | QCombModel, SerialModel |
| itdata/qdense.cc (1076) | 37-55, 60-68, 86-175, 185-275, 506-740, 895-907, 915-945 | CowModel, ProductModel, QDirectSumModel, QdModel |
| itdata/qdense.h (602) | 34-60, 234-248, 450-535 | QdModel, SerialModel |
| itdata/qdiag.cc (649) | 117-136 | SvdModel |
| itdata/qdiag.h (380) | 123-139, 291-335 | SerialModel, SvdModel |
| itdata/qutil.h (470) | 32-60, 74-272, 283-312, 329-347 | QdModel |
| itdata/scalar.h (309) | 81-93 | SerialModel |
| itdata/task_types.h (587) | 456-471 | SerialModel |
| itensor.cc (1816) | 114-134, 159-186, 203-229, 292-298, 381-387, 459-464, 629-671, 681-721, 732-742, 768-811, 863-880, 890-917, 926-985, 1005-1013, 1021-1027, 1040-1066, 1097-1098, 1107-1110, 1117-1136, 1142-1200, 1207-1279, 1287-1294, 1473-1551, 1559-1570, 1593-1602, 1645-1657 | ApplyModel, CombinerModel, ContractModel, CorrModel, CowModel, DenseModel, DiagModel, DirectSumModel, FitModel, IndexModel, InnerModel, LocalModel, OrtModel, QCombModel, QDirectSumModel, QdModel, RkModel, SerialModel, SiteOpsModel, StModel, SumModel, SvdModel, TqModel |
| itensor.h (1120) | 37-39, 47, 94-95, 440-442 | CowModel, RkModel, SerialModel, TqModel |
| itensor_impl.h (715) | 307-331, 336-372, 461-502, 606-656 | CowModel, DiagModel, InnerModel, ProductModel, QDirectSumModel, StModel |
| iterativesolvers.h (1084) | 86-668, 956-1080 | AexModel, DavModel, GmModel |
| mps/DMRGObserver.h (254) | 62-75, 81-247 | ObsModel |
| mps/autompo.cc (1737) | 84-97, 107-165, 182-390, 504-872, 892-962, 1019-1030, 1035-1112, 1117-1132, 1183-1184, 1195-1353, 1374-1478, 1499-1704 | AutoMpoModel, ExphModel, SvdMpoModel |
| mps/autompo.h (240) | 55-84, 91-100, 113-117, 151-190 | AutoMpoModel |
| mps/bondgate.h (171) | 24-69, 77-167 | TevModel |
| mps/dmrg.h (472) | 50-96, 340-470 | DmrgModel, ObsModel, SweepsModel |
| mps/integrators.h (102) | 28-98 | RkModel |
| mps/lattice/latticebond.h (110) | 28-74 | LatticeModel |
| mps/lattice/square.h (109) | 23-105 | LatticeModel |
| mps/lattice/triangular.h (67) | 23-63 | LatticeModel |
| mps/localmpo.h (686) | 118, 126, 152-157, 162-172, 187-194, 200-211, 222-238, 270-300, 321-341, 356-417, 442-676 | DmrgModel, LocalModel, LocalTensor, LopModel, LsetModel |
| mps/localmpo_mps.h (159) | 24-34, 60-61, 83-104, 134-157 | LsetModel |
| mps/localmposet.h (211) | 81-85, 98-102, 110-120, 138-162, 192-208 | LsetModel |
| mps/localop.h (534) | 188-192, 324-374, 407-534 | LocalModel, LocalTensor, LopModel, LsetModel |
| mps/mpo.cc (1003) | 127-132, 153-163, 174-208, 220-261, 532-546, 566-586, 607-643, 667-701, 726-762, 791-802 | InnerModel, NmultModel |
| mps/mpo.h (650) | 34, 56-57 | SerialModel |
| mps/mpoalgs.cc (779) | 34-107, 128-456 | ApplyModel, FapModel, NmultModel |
| mps/mps.cc (1814) | 27-45, 65-76, 86-97, 106-149, 164-178, 295-311, 335-469, 480-507, 556-618, 643-812, 904-960, 1023-1034, 1048-1055, 1110-1115, 1213-1260, 1272-1285, 1300-1327, 1336-1352, 1380-1415, 1471-1522, 1551-1697 | CorrModel, DmrgModel, FapModel, InnerModel, MpsModel, MpsTensor, NmultModel, OrtModel, ProductModel, SerialModel, SumModel, SweepsModel, TevModel, TqModel |
| mps/mps.h (1168) | 24-38, 97-101, 113-118, 889-936 | CorrModel, MpsModel |
| mps/mps_impl.h (103) | 21-98 | DmrgModel, MpsModel |
| mps/mpsalgs.cc (254) | 35-93, 99-136, 141-252 | FitModel, ProductModel, SumModel, TqModel |
| mps/sites/Z3.h (152) | 34-50, 55-138 | StModel |
| mps/sites/boson.h (129) | 34-70, 75-125 | StModel |
| mps/sites/customspin.h (162) | 24-75, 81-160 | StModel |
| mps/sites/electron.h (277) | 34-80, 85-258 | SiteOpsModel, StModel |
| mps/sites/fermion.h (177) | 34-73, 78-155 | SiteOpsModel, StModel |
| mps/sites/spinhalf.h (187) | 34-62, 67-174 | StModel |
| mps/sites/spinone.h (315) | 48-66, 71-230 | StModel |
| mps/sites/spintwo.h (315) | 48-68, 73-247 | StModel |
| mps/sites/tj.h (234) | 34-74, 79-221 | StModel |
| mps/siteset.h (637) | 362-419, 437-466, 505-509 | CorrModel, SerialModel, SiteOpsModel, StModel |
| mps/sweeps.h (519) | 153-303, 340-360, 421-474, 488-500, 509-514 | FapModel, SerialModel, SweepsModel |
| mps/tevol.h (154) | 55-149 | TevModel |
| qn.cc (550) | 10-30, 50-56, 66-71, 87-105, 200-271, 297-402, 407-474, 498-508, 541-545 | QnModel, SerialModel |
| qn.h (326) | 36-37, 48-92, 98-109, 114-127, 184-188 | QnModel |
| real.h (349) | 27-28, 34, 71-336 | LogNumModel, SerialModel, StModel |
| smallstring.h (217) | 34-45, 70-71, 81-97, 105-115, 172-211 | SerialModel, SmallStringModel |
| svd.cc (465) | 90-397, 445-448 | SvdModel, TruncateModel |
| tagset.cc (317) | 43-53, 61-107, 117-149, 158-194, 203-219, 264-285 | SerialModel, TagSetModel |
| tagset.h (156) | 24, 32-43, 53-58, 63-67 | TagSetModel |
| tensor/algs.cc (1057) | 50-81, 587-627, 826-938 | PadeModel, QrModel, SvdModel |
| tensor/algs_impl.h (427) | 91-138, 203-217, 258-430 | DavModel, HermModel, PadeModel, QrModel, SvdModel |
| tensor/contract.cc (1156) | 146-148, 175-178, 185-188, 209-598, 733-868 | ContractModel |
| tensor/contract.h (352) | 105-132, 147-201, 229-304, 309-346 | ContractModel, DiagModel |
| tensor/contract_impl.h (120) | 62-107 | DenseModel |
| tensor/gemm.cc (295) | 22-288 | GvModel, TensorModel |
| tensor/lapack_wrap.cc (844) | 114-316 | GvModel, TensorModel |
| tensor/mat.cc (481) | 26-258, 365-389, 395-419, 424-454 | GvModel |
| tensor/mat_impl.h (231) | 137-184 | GvModel |
| tensor/matrange.h (268) | 33-58, 117-127, 136-155, 161-179, 205-253 | GvModel, HermModel, SvdModel, TensorModel |
| tensor/permutation.h (161) | 27-148 | RangeModel |
| tensor/range.h (553) | 54-77, 192-201, 211-258, 284-299, 317-319, 328-392, 408-517, 535-548 | DenseModel, RangeModel, SerialModel, TensorModel |
| tensor/rangeiter.h (160) | 24-145 | RangeModel |
| tensor/slicemat.h (109) | 22-105 | GvModel |
| tensor/slicerange.h (82) | 24-38, 48-80 | QCombModel, TensorModel |
| tensor/sliceten.h (129) | 90-106 | QCombModel |
| tensor/ten.h (907) | 849-863 | GvModel |
| tensor/ten_impl.h (457) | 107-168 | TensorModel |
| tensor/vec.cc (296) | 33-197, 263-270 | GvModel, TruncateModel |
| tensor/vecrange.h (263) | 184-237 | GvModel |
| util/args.cc (502) | 29-167, 196-198, 212-217, 226-232, 255-295, 304-466 | ArgsModel, SerialModel |
| util/args.h (333) | 55, 225-300 | ArgsModel, SerialModel |
| util/autovector.h (195) | 47-51, 59-69, 77-81, 96-153, 169-178 | AutovectorModel |
| util/infarray.h (642) | 54-87, 93, 99-191, 196, 208-335, 388-404 | DenseModel, InfArrayModel, SerialModel |
| util/input.cc (471) | 62-119, 168-270, 302-468 | InputModel |
| util/readwrite.h (405) | 69-76, 127-169, 190-226, 266-330, 335-370 | LocalModel, MpsModel, SerialModel |

### Files that are not modelled

* Printing, timing, error messages and build glue: all.h, all_basic.h, all_mps.h, core.h, global.cc, global.h, mps/TEvolObserver.h, mps/observer.h, types.h, util/cplx_literal.h, util/cputime.cc, util/cputime.h, util/error.h, util/print.h, util/print_macro.h, util/static_count.h, util/str.h, util/tensorstats.h, util/timers.h, util/tinyformat.h.
* Template dispatch without behaviour of its own: decomp_impl.h, detail/call_rewrite.h, detail/skip_iterator.h, index_impl.h, itdata/returntype.h, itdata/storage_types.h, itdata/synchronized.h, tensor/types.h, util/flstring.h, util/input.h, util/iterate.h, util/itertools.h, util/multalloc.h, util/optional_ptr.h, util/safe_ptr.h, util/set_scoped.h, util/stdx.h, util/typelist.h, util/vararray.h, util/vector_no_init.h.
* Files of HDF5, an external library: util/h5/array_interface.cc, util/h5/base.cc, util/h5/file.cc, util/h5/format.cc, util/h5/group.cc, util/h5/h5object.cc, util/h5/scalar.cc, util/h5/stl/string.cc, util/h5/stl/vector.cc.
* Views, iterators and wrappers of BLAS/LAPACK; the model works with the elements they denote: tensor/algs.h, tensor/lapack_wrap.h, tensor/mat.h, tensor/teniter.h, tensor/vec.h.
* Not reached: itdata/applyfunc.h, itdata/itlazy.cc, itdata/itlazy.h, itdata/scalar.cc, mps/hambuilder.h, spectrum.cc, spectrum.h, util/parallel.h, util/stats.h.

## What the code does not do

Theorems with the suffix `_refuted` prove, of the faithful model, that an expected property
fails; those with `_partial` prove only part of one. What each says is in the comment above it.

| property | theorems | note |
|----------|----------|------|
| C01 (proved) | C01_qset_int32_refuted, C01_five_names_refuted | Group laws for all QNs over a scheme of at most four names. _refuted theorems record int overflow in QNum::set and the silent loss of a charge beyond four names. |
| C02 (proved) | C02_qn_h5_roundtrip_refuted | Order independence, lookup, extensional ==, residues. _refuted: the HDF5 round trip leaves an inactive first slot. |
| C03 (proved) | C03_qn_lt_five_names_refuted | operator< is the lexicographic order for schemes of at most four names; totality refuted beyond. |
| C04 (partial) | C04_removeTag_partial, C04_removeTag_full_refuted | Refinement of every history to a mathematical set, ==, hasTags, text form. Missing (and false of the code): removing a tag from a full (four-tag) set reads past the array, C04_removeTag_full_refuted; C04_only_full_removal_undefined shows this is the only such case. |
| C05 (proved) | C05_add_present_to_full_refuted, C05_long_tag_refuted | addTag either succeeds with nothing lost or errs for one of the two stated reasons. _refuted: adding a present tag to a full set errs; an over-long tag in the text constructor overruns its buffer in release builds. |
| C06 (proved) | C06_dim_refuted, C06_less_total_refuted | Equality, priming (both builds), dag, sim, dimension, strictness of <. _refuted: dimensions beyond 32 bits are silently narrowed; operator< does not order indices that differ in tags only. |
| C07 (proved) | C07_duplicates_refuted | Membership, order and distinctness of common/unique/union/noncommonInds, hasSameInds as permutation, equals, findIndex. _refuted: hasSameInds and unionInds(vector) with repeated indices. |
| C08 (proved) | C08_release_duplicates_refuted, C08_repeated_selector_refuted | All eight operations and three kinds of selector, DEBUG and release. _refuted: release builds create repeated indices silently; an index listed twice in a selector is changed twice. |
| C09 (proved) | C09_private_level_refuted, C09_both_tags_refuted, C09_level_tags_refuted, C09_overlap_refuted | Exchange, involution and success for swapPrime and swapTags, all selectors. _refuted: the private level is changed, an index carrying both tag sets loses one, level-only swaps of an index with three tags read past its array, partial overlap breaks the involution. |
| C10 (proved) | C10_isContiguous_refuted, C10_too_many_refuted | Bijection, column-major order, permuted views, and the exact condition for isContiguous. _refuted: isContiguous with colliding strides; too many index values in a release build. |
| C11 (proved) | C11_zero_extent_refuted, C11_gcounter_empty_refuted, C11_order_zero_refuted, C11_postfix_refuted | Range iterator and GCounter loops visit each multi-index exactly once, in order, with the right offset, and end. _refuted: zero extents, empty GCounter ranges, order 0, postfix increment. |
| C12 (proved) | C12_calcPerm_subset_refuted | calcPerm, inverse, permute, isTrivial for all sizes. _refuted: proper subsets are not detected. |
| C13 (proved) | C13_out_of_range_refuted, C13_repeated_index_refuted | all orders and permutations of IndexVals. _refuted: out-of-range values and repeated IndexVals are not detected. |
| C14 (proved) | C14_beta_refuted | label-level contract with alpha/beta and tensor-level operator*, over any commutative semiring. _refuted: beta<>0 with a permuted C loses beta*C. |
| C17 (proved) | C17_both_refuted, C17_qn_missing_release_refuted | Dense tensors: combine, uncombine, round trip and refusals for all orders and subsets, both builds. Tensors with QNs (C17_qn...): construction of the combined index and its table, combine, uncombine, round trip, flux and charges, refusals. _refuted: a tensor having the combined index and one of the combined ones gets a repeated index in release builds; a missing combined index is not checked for QN tensors in release builds. |
| C18 (proved) | C18_scalars_refuted | operator/=; the order-0/order-0 case is undefined behaviour (_refuted). |
| C19 (proved) | C19_out_of_range_refuted | Reading and setting any element of any well-formed block tensor. _refuted: an out-of-range value reads past the block list. |
| C20 (proved) | C20_set_other_flux_refuted | Construction for a flux, div, set within the flux. _refuted: set() of an element of another flux is not refused and leaves a tensor of two fluxes. |
| C21 (proved) | C21_zero_left_refuted, C21_scalar_refuted | All block subsets, index orders, factors and every std::sort. _refuted: a zero tensor without blocks cannot be the left operand of a sum of non-zero flux; a scalar without storage swallows the sum. |
| C22 (proved) | C22_flux_neither_refuted | Values for every block structure and index order, equality with the dense product after removeQNs, flux addition for opposite arrows, independence of uninitialised memory, refusal of equal arrows. _refuted: an arrow Neither meeting In/Out passes the check but flux is then not the sum. |
| C23 (proved) | C23_rounding_refuted | All schedules of the first loop and all interleavings of the second, every std::sort. Exact arithmetic: same tensor as the serial build. Any arithmetic: tasks are race free and all complete interleavings agree. _refuted: in IEEE binary64 the dynamic schedule of the first loop changes the rounding (witness computed with Coq's SpecFloat). |
| C24 (proved) | C24_respect_degenerate_empty_refuted, C24_mindim_zero_spectrum_refuted, C24_maxdim_zero_refuted, C24_mindim_zero_refuted | Exact rationals for Real. Holds for every spectrum with positive largest value and MaxDim, MinDim >= 1; RespectDegenerate keeps or drops the whole window. _refuted: RespectDegenerate can keep nothing, an all-zero spectrum ignores MinDim, MaxDim=0 or MinDim=0 reads before the array. |
| C25 (partial) | C25_relative_partial, C25_relative_refuted, C25_respect_degenerate_refuted | Exact in absolute modes. In the default relative mode the code reports the fraction multiplied by the largest value (C25_relative_partial, C25_relative_refuted); with RespectDegenerate the number is stale. |
| C26 (proved) | C26_tie_refuted, C26_degenerate_choice_refuted, C26_negative_refuted | C26_bound for every input; C26_selection gives equality with the decided dimension when no value sits exactly on the upper threshold. _refuted: ties, block-order choice in the window, negative eigenvalues. |
| C27 (partial) | C27_lookup_partial, C27_operations_succeed_partial, C27_getters_partial, C27_lookup_with_equals_refuted, C27_remove_eighth_refuted, C27_assign_global_refuted | Map semantics for everything a program can do, text form, typed getters. Missing because false: removing a name while exactly eight are stored (C27_remove_eighth_refuted, inherited from C28). Also refuted: lookups spelled with '=' never match; assigning the global Args keeps old entries. |
| C28 (partial) | C28_history_partial, C28_history_sized_partial, C28_swap_partial, C28_swap_refuted, C28_erase_boundary_refuted, C28_moved_from_refuted | Refinement of every history to a list, except after an erase from ArrSize+1 to ArrSize elements, where the code is wrong (C28_erase_boundary_refuted, all capacities); the other side of swap and moved-from arrays are refuted likewise. |
| C29 (proved) | C29_clear_size_refuted | Total-map semantics for every history, bounds, dot. _refuted: clear() leaves size() and the bounds, and dot after clear reads freed storage. |
| C30 (proved) | C30_index_reuse_refuted, C30_index_blocks_refuted, C30_itensor_null_refuted, C30_itensor_reuse_refuted, C30_mpo_refuted, C30_truncated_refuted, C30_qnum_mod_refuted, C30_sites_empty_refuted, C30_tagset_noTags_refuted | Byte-level round trip, with whatever follows in the stream left in place, for integers, strings, vectors, Args, Sweeps, QN, TagSet, Index, IndexSet, SiteSet, every storage type, ITensor and MPS; into any old object for the plain types, into a new object for those that hold tags. _refuted: reading into an object that is not new merges tags, keeps quantum-number blocks or keeps the storage; an MPO's reference norm is lost; a truncated file is accepted; a QNum with a large modulus cannot be read back; noTags() tags come back. |
| C31 (proved) | C31_ramp_single_sweep_refuted, C31_expramp_overflow_refuted, C31_setter_no_sweeps_refuted | Setter lists (values, Repeat, trailing function), table, RampM and ExpM in exact arithmetic. _refuted: single-sweep RampM and long ExpM convert NaN / an out-of-range double to int; zero sweeps reads past the vector. |
| C32 (proved) | C32_too_short_refuted | Exact visit list of the sweepnext loop for every N and NumCenter; refuted (never ends) for chains shorter than NumCenter. |
| C33 (proved) | C33_zero_refuted, C33_pow_negative_refuted, C33_div_zero_refuted, C33_nan_refuted | Exact reals for Real (standard library axioms of Reals). Construction, products, quotients, sums (both builds), order, magnitude order, pow, sqrt, real0, approxEquals. _refuted: zeros made by multiplication compare unequal to and greater than zero, pow of a negative number, division by zero in release builds, NaN compares greater. |
| C34 (proved) | C34_equality_refuted | Order and value of the term in every algebra with fermionic exchange rules. _refuted: HTerm::operator== on equal terms reads past the end. |
| C36 (proved) | C36_sort_refuted, C36_same_site_refuted, C36_site_zero_refuted | Every matrix element, all lengths, all one- and two-site terms; with QNs provided std::sort keeps zero-QN elements in order. _refuted: an unstable sort, two operators on one site, and site 0 give a wrong MPO without an error. |
| C37 (partial) | C37_odd_refuted, C37_exact_sign_refuted | Default conversion: all even terms, electron and spinless site tables, exchange signs. Exact conversion: right for spinless sites; for electron sites the sign is wrong for Cdn as first or Cdagdn as second operator (C37_exact_electron_signs, C37_exact_sign_refuted). Odd terms refuted. |
| C38 (proved) | C38_unlinked_refuted, C38_slot0_refuted | Entries over any commutative ring, any decomposition that keeps its promise; histories of get, set, change, scale, position (both methods), svdBond. position keeps every amplitude and the norm is that of the centre. _refuted: neighbours that share no Index are skipped although the limits move; ref(0) on one site puts the centre at 0. |
| C39 (partial) | C39_unload_partial, C39_two_refs_refuted, C39_unload_missing_refuted, C39_unload_stale_refuted, C39_null_refuted, C39_dag_refuted, C39_boundary_refuted | Programs over any number of MPS with copies, doWrite(true) at any time, all accesses: same observations as without paging. doWrite(false) only when every file is current (C39_unload_partial); in general it throws or loses changes (refuted). Also refuted: two references that are not neighbours, storing a null tensor, dag(), boundary tensors. |
| C40 (proved) | C40_shift_fromright_refuted, C40_reset_mps_refuted, C40_write_jump_refuted, C40_stale_refuted, C40_write_off_refuted, C40_write_boundary_refuted, C40_short_refuted | LocalMPO in memory and on disk: after every history of position, numCenter, in-window changes of psi, shift, reset and doWrite(true), L() and R() equal the edges recomputed from the current psi (C40_current), no such call fails (C40_succeeds), and product is the projection of the whole MPO, 0, 1 or 2 centre sites, over any commutative ring with conjugation (C40_projects, C40_energy). _refuted: jumps in write mode that reuse the old right position, shift from the right, reset on an MPS projector, stale edges after outside changes, doWrite(false), boundary tensors in write mode, chains as short as the centre. |
| C41 (proved) | C41_one_site_refuted, C41_empty_refuted | addAssumeOrth is exact on every configuration for states on the same sites; sum(vector) of any number of terms ends and is the sum of all amplitudes, for any orthogonalize that keeps the state. _refuted: one-site states cannot be added; the sum of no terms is a default object. |
| C42 (proved) | C42_range_refuted, C42_in_arrow_refuted | Flux of every tensor, totalQN, the amplitudes and the orthogonality limits of MPS(InitState), any length from 2, any QN scheme. _refuted: site Indices with In arrows; a value outside the dimension. |
| C43 (proved) | C43_periodic_coordinates_refuted | Bond lists are exactly the neighbours, each once, for every size. _refuted: coordinates stored with the wrap-around bonds are off by one row from the site they name. |
| C44 (proved) | C44_view_refuted, C44_view_dangling_refuted | Every history of construction, copy, move, swap, destruction, one- and two-argument tasks, both builds: what a program observes equals value semantics; no leak, no use of freed storage; operator+= incl. self-addition. _refuted: a getBlock view written after the tensor was copied changes the copy too; after destruction it writes freed storage. |
| C45 (proved) | C45_vector_refuted, C45_qn_opposite_arrows_refuted | Dense tensors of order at least two (C45_direct_sum) and QN tensors of any order (C45_qn), any number of summed indices: the elements of A, of B, and zeros; flux and arrows of the result. _refuted: the direct sum of two dense vectors loses the second one and has too little storage; QN indices with opposite arrows write through a null pointer in release builds. |
| C46 (proved) | C46_periodicWrap_zero_refuted | periodicWrap is the representative of j modulo N in 1..N; refuted for N=0. |
| C47 (proved) | C47_no_newline_refuted, C47_skipline_refuted, C47_long_token_refuted, C47_comma_refuted, C47_child_refuted, C47_same_line_refuted, C47_yesno_refuted | Every well-formed file (groups at line starts, any white space, nested groups, pairs separated by newline, comma or semicolon): group and key lookup, values, defaults; every file whose last line is ended: the searches end. _refuted: a last line without newline hangs the search and SkipLine; 512-letter tokens are undefined behaviour; a string ended by a comma keeps the comma; a child search leaves its parent; a group on the line of a pair is not found; GetYesNo(bool) overwrites on failure. |
| C48 (proved) | C48_failed_call_refuted | Simultaneous renaming with arrows kept, on dense tensors. _refuted: after a dimension mismatch the tensor is left half renamed. |
| C49 (proved) | C49_vector_refuted, C49_same_refuted, C49_short_refuted | Every product of a dense tensor with a diagonal one, both orders, uniform or stored diagonal, provided the result keeps another index or the dimensions match. _refuted: a vector times delta to a larger index has too little storage; a uniform one-element diagonal spreads its value; a short stored diagonal throws on reading. |
| C50 (proved) | C50_unbalanced_refuted, C50_mixed_names_refuted | Any number of sites, terms and operators per site; every element of the MPO, given that the SVDs keep everything (M V V^dagger = M; the SVD is not modelled). Terms need zero total quantum number and an even number of fermionic operators. _refuted: a term that does not conserve the quantum numbers is added to another term instead of being refused; a term under the internal names of renamed operators can swallow another. |
| C51 (proved) | C51_fallback_refuted | Any order, dimensions and splitting, dense (C51_dense) and QN (C51_qn), over any commutative ring with a conjugation; LAPACK is a partial function with exact results, the truncation rule an arbitrary choice of how many values of each block to keep. The method "ITensor" (SVDRefImpl) and rounding are not modelled. _refuted: with the default method, when gesdd fails on a matrix that is stored transposed (any tall matrix), the fallback to gesvd reads past the end of the data. |
| C52 (proved) | C52_one_site_refuted, C52_unmatched_refuted, C52_same_indices_refuted | Any length, dimensions and names, over any commutative ring with a conjugation. Arrows and QN blocks are left out (C22). _refuted: innerC(A,x,B,y) and innerC(x,A,B,y) on one site return the square; innerC(A,x,B,y) fails when A and B have different output indices, because the matched copy of A is computed and not used; innerC(x,A,B,y) with A and B on the same pair of indices gives <x|A^T B|y>. |
| C53 (proved) | C53_more_than_iterations_refuted, C53_exhausted_sector_refuted | Exact arithmetic over any ordered field, any inner product space; the LAPACK eigensolver and sqrt are contracts that may also fail. _refuted: asking for more vectors than MaxIter+1 reads past the end of the last eigenvalues, whatever the size of the space; in a QN sector smaller than A.size() the numbers of further vectors stay NaN. |
| C54 (proved) | C54_two_sites_refuted | Exact complex arithmetic over any ordered field; dense tensors; svd, eigensolver and sqrt are contracts. The observer is arbitrary. _refuted: dmrg on two sites always fails, because LocalOp::operator bool is false with both environments null. |
| C55 (proved) | C55_one_site_refuted | Any commutative ring with conjugation and definite |x|^2 (real, complex). diagPosSemiDef is a contract. C55_serves_sum: the assumption made of orthogonalize in C41 holds of this model. _refuted: on one site orthogonalize always fails (a default constructed E[0] in a product). |
| C56 (proved) | C56_equal_names_refuted, C56_equal_fermions_refuted | Theorems hold over any commutative ring with definite conjugation and division (complex numbers over an ordered field are shown to be one). Hypotheses: svd, diagPosSemiDef and norm do what they promise; F squares to one, is Hermitian and anticommutes with the fermionic operators. C56_returns: correlationMatrix cannot fail when these return. Findings, as theorems: equal operator names switch on the Hermitian shortcut, which gives the conjugate value below the diagonal for a non-Hermitian operator in a complex state (C56_equal_names_refuted) and the wrong sign for a fermionic operator with itself (C56_equal_fermions_refuted). |
| C57 (proved) | C57_exp_distance_refuted, C57_nothing_kept_refuted | Over any commutative ring with conjugation; for expHermitian without zero divisors, exp(t*x) being an arbitrary function of x. Hypothesis: when dsyev/zheev succeeds on a Hermitian matrix its result is exact. Findings, as theorems: expHermitian multiplies by prime(U) whatever the distance of the pairs, so for pairs two primes apart, which diagHermitian handles, the result has the wrong indices (C57_exp_distance_refuted); if truncation keeps nothing, diagPosSemiDef with quantum numbers returns a zero U with an index of dimension one (C57_nothing_kept_refuted). Without quantum numbers truncation returns negative kept eigenvalues as zero, with quantum numbers it leaves them (the clamp in C57_dense). |
| C58 (proved) | C58_entropy_goal_unset_refuted, C58_zero_goal_refuted, C58_either_goal_refuted | Real is Q; the entropy of a spectrum is an arbitrary function. Findings, as theorems: with Silent or PrintEigs=false an entropy goal compares a member that was never set (C58_entropy_goal_unset_refuted); an entropy goal of 0 switches the energy goal off (C58_zero_goal_refuted); with both goals set the run goes on until both are met, unlike the comment in the source (C58_either_goal_refuted). |
| C59 (partial) | C59_qn_partial, C59_permutation_refuted, C59_complete_not_upper_refuted | Over any commutative ring with conjugation. Hypothesis: when geqrf and orgqr succeed their result is exact. Missing from the statement with quantum numbers, because it is false of the code: qr puts block b at the place indLiq[b] says, the inverse of the permutation that sorted the sectors; if that permutation is not its own inverse (charges 0,1,2 on the rows and 1,2,0 on the columns) a null block is written (C59_permutation_refuted); C59_qn_partial proves this needs at least three different charges on R's indices. With Complete=true and UpperTriangular=false and more rows than columns in a block the additional columns of Q stay zero (C59_complete_not_upper_refuted). |
| C60 (proved) | C60_one_site_refuted | Over any commutative ring with conjugation and a definite |x|^2. Hypothesis: what diagPosSemiDef promises of a positive semidefinite matrix (diag_ok). On one site the call is always an error (C60_one_site_refuted). The method Fit is a parameter: not modelled. |
| C61 (proved) | C61_one_site_refuted | Over any commutative ring with conjugation and a definite |x|^2. Hypotheses: what the SVDs of position (svdl_ok, svdr_ok), diagPosSemiDef (diag_ok) and svdBond's factorisation (split_shape, split_exact) promise. On one site nmultMPO never returns (C61_one_site_refuted). The case that at some site no index is shared is not modelled. |
| C62 (proved) | C62_numcenter_refuted, C62_empty_refuted, C62_expect_refuted, C62_penalty_expect_refuted | Over any commutative ring with conjugation. LocalMPOSet::expect is size() times the sum (C62_expect_repeats, C62_expect_refuted: the loop is nested in itself); LocalMPO_MPS::expect leaves the penalty out (C62_penalty_expect_refuted); with NumCenter other than 2 LocalMPO_MPS::product always throws (C62_numcenter_refuted); product of an empty set is undefined (C62_empty_refuted). Boundary tensors, deltaRho and diag are not modelled. |
| C63 (proved) | C63_restart_zero_refuted, C63_complex_refuted, C63_zero_goal_refuted | Floating point is exact arithmetic. _refuted: a complex system that is not Hermitian gets worse (i x = 1 from 0 returns i/5 with residual 6/5: the projection coefficients are conjugated, C63_complex_refuted); RestartIter = 0 never returns (C63_restart_zero_refuted); ErrGoal = 0 divides by a zero norm after an exact solution (C63_zero_goal_refuted). The dispatch on isComplex and printing are not modelled. C63_real_matrices and C63_hermitian_matrices use the axioms of Coq's Reals. |
| C64 (proved) | C64_swap_refuted, C64_norm_refuted, C64_second_step_refuted, C64_negative_time_refuted, C64_many_steps_refuted | Exact arithmetic; trunc is the conversion of double to int. Gates with i2 <> i1+1 are not modelled. _refuted: from an unnormalised psi the returned norm counts the initial norm twice (C64_norm_refuted); gate lists that do not wrap around throw in the second step (C64_second_step_refuted; e.g. bonds 3,4,1); ttotal of the opposite sign silently evolves nothing (C64_negative_time_refuted); from 10^9 steps on an exact ttotal is refused (C64_many_steps_refuted); swap gates between sites of different dimensions throw or destroy states (C64_swap_refuted). C64_real uses the axioms of Coq's Reals. |
| C65 (proved) | C65_same_site_refuted, C65_site_zero_refuted | The numerical value of each operator on a site is arbitrary (val); that the placed operators are the Jordan-Wigner image is C37, with its exceptions. _refuted: two operators on one site give twice the first one; a term on site 0 is dropped. |
| C66 (proved) | C66_zero_refuted | Exact arithmetic; gesv and the truncated logarithm are parameters with the stated contracts. _refuted: the zero matrix. |
| C67 (proved) | C67_one_iteration_refuted, C67_zero_time_refuted, C67_zero_vector_refuted | Exact arithmetic; gesv is a parameter with its contract. _refuted: MaxIter 1, tau = 0, phi = 0. |
| C68 (proved) | C68_spin_two_S2_refuted, C68_tj_Sx_refuted | Exact arithmetic. _refuted: SpinTwo S2, tJ Sx. Products with a ket and the Proj operator inside a product are not modelled. |
| C69 (proved) | C69_row_check_refuted, C69_noncontiguous_refuted, C69_mult_returning_refuted | Exact arithmetic; BLAS as documented; operands and result in separate memories. _refuted: mult returning a vector, views that are not contiguous without DEBUG, the bound of row/column. |
| C71 (proved) | C71_one_site_refuted | One-site states are the refuted case. |
