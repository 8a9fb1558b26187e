{"id": "C01", "title": "QN arithmetic is a commutative group", "statement": "Adding quantum numbers with + adds the value stored under every name (modulo that name's modulus); + is commutative and associative, QN() is neutral, -q is the inverse, q1-q2 undoes q1+q2, and multiplying by Arrow Out/In is identity/negation. Requires that all QNs involved agree on the modulus of a name and together use at most four names.", "quantifier": "all QNs built by the public constructors, all integer values (any sign), all moduli (plain, Z_n, fermionic), all name orders", "why_tests_cant": "values, moduli and name subsets are unbounded; tests try a handful of Sz/Nf examples", "anchors": ["itensor/qn.h: QNum, QN", "itensor/qn.cc: QN::addNum, operator+=, combineQN, operator-, operator*=(Arrow)"]}
{"id": "C02", "title": "QN construction is order independent and canonical", "statement": "However the (name,value,modulus) entries are ordered when a QN is built, the result is the same QN: entries are kept sorted by name, a value is reduced into 0..m-1 when the modulus m exceeds 1, looking up a name returns the reduced value, and == holds exactly when the two QNs assign the same value to every name (absent = 0).", "quantifier": "all lists of at most four entries with distinct names, all permutations of them", "why_tests_cant": "needs all permutations and all integer values; tests use fixed literals", "anchors": ["itensor/qn.cc: QN::addNum, operator==, QNum::set", "itensor/qn.h: QN constructors"]}
{"id": "C03", "title": "QN ordering used by sorted containers", "statement": "The < on QNs used to sort and deduplicate QN blocks is irreflexive, asymmetric and decides against == : for QNs, q1<q2, q2<q1 and q1==q2 are mutually exclusive; where they fail to be exhaustive the failing inputs are identified.", "quantifier": "all pairs and triples of well formed QNs", "why_tests_cant": "a strict weak order is a property of triples of unbounded values", "anchors": ["itensor/qn.cc: operator<, operator=="]}
{"id": "C04", "title": "TagSet behaves as a set of tags", "statement": "After any sequence of tag additions, removals, replacements and clears on a TagSet, hasTags answers membership of the mathematical set obtained by the same operations, the tags are duplicate-free, and two TagSets compare equal exactly when they hold the same tags and prime level, independent of the order of additions.", "quantifier": "all operation sequences, all tag names, all prime levels (sequences that stay within the capacity of the set)", "why_tests_cant": "history property over arbitrarily long operation sequences", "anchors": ["itensor/tagset.h", "itensor/tagset.cc: addTag, removeTag, hasTags, operator=="]}
{"id": "C05", "title": "TagSet capacity and error behaviour", "statement": "Adding a tag never silently drops a tag: it either ends with the tag present, or raises an error and then only because the set already held the maximum number of tags or a second positive prime level was requested.", "quantifier": "all TagSets reachable by the API and all tags", "why_tests_cant": "all states times all arguments", "anchors": ["itensor/tagset.cc: addTag"]}
{"id": "C06", "title": "Index priming laws", "statement": "prime(n) adds n to the prime level and changes nothing else, setPrime/noPrime set it, they compose additively, dag reverses the arrow and is an involution that does not change equality, and two Indexes are equal exactly when id and tags (with prime level) agree.", "quantifier": "all Indexes and all integers n for which the level stays non-negative", "why_tests_cant": "unbounded integers and histories", "anchors": ["itensor/index.h", "itensor/index.cc", "itensor/index_impl.h"]}
{"id": "C07", "title": "IndexSet algebra", "statement": "commonInds, uniqueInds, noncommonInds and unionInds return exactly the intersection, difference, symmetric difference and union of the arguments, in the order of the first argument (then the second), without inventing or duplicating indices; hasSameInds holds exactly for permutations.", "quantifier": "all pairs of duplicate-free IndexSets of any order", "why_tests_cant": "set laws quantify over all index sets of every order", "anchors": ["itensor/indexset.cc: commonInds, uniqueInds, noncommonInds, unionInds, hasSameInds"]}
{"id": "C08", "title": "Tag and prime operations touch exactly the matching indices", "statement": "prime/setPrime/addTags/removeTags/setTags/replaceTags restricted to an IndexSet or TagSet change precisely the selected indices, leave every other index and the order of indices untouched, and report an error if they would create duplicate indices.", "quantifier": "all IndexSets, all selectors, all arguments", "why_tests_cant": "frame property over all index sets", "anchors": ["itensor/indexset.cc: prime, setPrime, addTags, removeTags, setTags, replaceTags, noPrime", "itensor/indexset_impl.h"]}
{"id": "C09", "title": "swapTags and swapPrime exchange", "statement": "swapPrime(a,b) (and swapTags) exchanges the two levels (tags) on the selected indices and leaves all other indices unchanged; doing it twice restores the IndexSet.", "quantifier": "all IndexSets whose indices do not use the private temporary level/tag, all a,b", "why_tests_cant": "involution over all index sets; temporaries collide only on special values", "anchors": ["itensor/indexset.cc: swapPrime, swapTags"]}
{"id": "C10", "title": "Multi-index to storage offset is a bijection", "statement": "For every list of extents, the column-major offset maps the multi-indices one to one onto 0..(product of extents)-1, so distinct elements never share storage and no storage is unused.", "quantifier": "all ranks and all extents", "why_tests_cant": "rank and extents are unbounded", "anchors": ["itensor/tensor/range.h: RangeT, offset, dim, isContiguous"]}
{"id": "C11", "title": "Index counters enumerate every element exactly once", "statement": "Iterating a range with the counter/iterator used by the library visits every multi-index exactly once, in column-major order, and terminates, and the running offset of the iterator always equals the offset of the multi-index it reports.", "quantifier": "all ranks and positive extents", "why_tests_cant": "loop invariant over unbounded rank and extents", "anchors": ["itensor/detail/gcounter.h: GCounter", "itensor/tensor/rangeiter.h: RangeIter"]}
{"id": "C12", "title": "Permutation computation and inversion", "statement": "calcPerm(s1,s2) returns P with s2[P(i)]==s1[i] for every i whenever s2 is a rearrangement of s1 and raises an error otherwise; inverse(P) undoes P; permuting ranges and labels by P then inverse(P) is the identity; isTrivial holds exactly for the identity.", "quantifier": "all permutations of all orders", "why_tests_cant": "n! permutations for every n", "anchors": ["itensor/tensor/permutation.h: Permutation, inverse, isTrivial, permute", "itensor/detail/algs.h: calcPerm, permute_map"]}
{"id": "C13", "title": "Element access follows IndexVals, not their order", "statement": "set followed by elt with the same IndexVals in any order returns the value, and does not change any other element; passing an index the tensor lacks, or the wrong number, is an error.", "quantifier": "all tensors of any order, all IndexVal permutations", "why_tests_cant": "quantifies over all permutations and all other elements", "anchors": ["itensor/itensor.cc: ITensor::set, eltC", "itensor/detail/algs.h: permute_map", "itensor/itdata/dense.cc: GetElt, SetElt"]}
{"id": "C14", "title": "Dense contraction is the Einstein sum", "statement": "For tensors A and B, each element of A*B equals the sum, over all values of the shared indices, of the product of the matching elements of A and B, whatever the position of the shared indices and whichever internal permutation/matrix-multiply route is chosen.", "quantifier": "all orders, extents, index placements and element values in a commutative ring", "why_tests_cant": "routes depend on label patterns; unbounded number of patterns", "anchors": ["itensor/tensor/contract.cc: CProps, contract", "itensor/tensor/contract_impl.h", "itensor/itdata/dense.cc: Contract"]}
{"id": "C15", "title": "Contraction does not depend on operand order", "statement": "A*B and B*A contain the same elements (up to the order of indices), scalar products commute, and contraction distributes over addition.", "quantifier": "all tensors", "why_tests_cant": "algebraic law over all tensors", "anchors": ["itensor/itensor.cc: operator*=", "itensor/tensor/contract.cc"]}
{"id": "C16", "title": "Addition matches elements by index", "statement": "A+B adds elements that belong to the same index values even when B stores its indices in another order; A-B likewise; permute() reorders storage without changing any element.", "quantifier": "all tensors and all index orders", "why_tests_cant": "all permutations of all orders", "anchors": ["itensor/itensor.cc: daxpy, permute", "itensor/itdata/dense.cc: PlusEQ, Order"]}
{"id": "C17", "title": "Combiner is a lossless reshape", "statement": "Applying a combiner to a tensor and then applying it again (uncombining) restores every element; the combined element of a dense tensor is found at the column-major position of the combined index values; for a tensor with quantum numbers the values of the combined index are one-to-one with the joint values, carry their total charge, and the flux is kept.", "quantifier": "all tensors, all subsets and orders of combined indices", "why_tests_cant": "all subsets, extents and orders", "anchors": ["itensor/itdata/combiner.cc: combine, uncombine", "itensor/itdata/qcombiner.cc: combine, uncombine", "itensor/itensor.cc: combiner"]}
{"id": "C18", "title": "Non-contracting product", "statement": "In A/B every shared index is kept: the element at (a,c,b) is A(a,c)*B(c,b).", "quantifier": "all tensors", "why_tests_cant": "as C14", "anchors": ["itensor/tensor/contract.cc: ncprod", "itensor/itensor.cc: operator/=", "itensor/indexset_impl.h: ncprod"]}
{"id": "C19", "title": "Block-sparse element lookup", "statement": "Reading an element of a QN tensor returns the stored value if its block is allocated and 0 otherwise; the binary search for a block finds it exactly when it is stored.", "quantifier": "all block lists sorted as the library keeps them, all blocks", "why_tests_cant": "search correctness for every list length", "anchors": ["itensor/itdata/qdense.cc: offsetOf, getElt", "itensor/itdata/qutil.h: getBlockOffsets"]}
{"id": "C20", "title": "Block layout of QN tensors", "statement": "Constructing a QN tensor with a given flux allocates exactly the blocks whose arrows-weighted QN sum equals the flux, once each, sorted, with disjoint storage that fills the allocation without gaps.", "quantifier": "all index sets with QNs, all fluxes", "why_tests_cant": "all QN index sets", "anchors": ["itensor/itdata/qutil.h: getBlockOffsets, updateBlock", "itensor/itdata/qdense.h"]}
{"id": "C21", "title": "Block-sparse addition", "statement": "A+B on QN tensors equals elementwise addition even when the operands store different subsets of blocks or permuted indices.", "quantifier": "all QN tensors of equal flux, all block subsets", "why_tests_cant": "all subsets of blocks", "anchors": ["itensor/itdata/qdense.cc: doTask(PlusEQ,...), add"]}
{"id": "C22", "title": "Block-sparse contraction", "statement": "Contracting QN tensors gives the same elements as contracting them after dropping QNs, and each result block carries flux equal to the sum of the fluxes.", "quantifier": "all QN tensors with matching contracted indices", "why_tests_cant": "all block structures", "anchors": ["itensor/itdata/qutil.h: getContractedOffsets, loopContractedBlocks", "itensor/itdata/qdense.cc: Contract"]}
{"id": "C23", "title": "Threaded contraction does not depend on the schedule", "statement": "The multi-threaded block contraction gives the same tensor for every assignment of blocks to threads and every interleaving of their execution.", "quantifier": "all schedules and thread counts", "why_tests_cant": "schedules are exponentially many and not controllable in tests", "anchors": ["itensor/itdata/qutil.h: getContractedOffsets (OMP)", "itensor/itdata/qdense.cc: Contract", "itensor/tensor/contract.cc: contractloop, CABqueue"]}
{"id": "C24", "title": "Truncation bounds", "statement": "Truncating a descending spectrum keeps at least MinDim and at most MaxDim values (MaxDim wins), always at least one, discards a suffix, and the total discarded weight does not exceed Cutoff (absolute or relative as requested) beyond what MaxDim forces; no further value could be discarded.", "quantifier": "all descending non-negative spectra, all MaxDim>=1, MinDim>=1, cutoffs", "why_tests_cant": "optimality and bound over all spectra", "anchors": ["itensor/decomp.cc: truncate"]}
{"id": "C25", "title": "Reported truncation error", "statement": "The truncation error returned by a truncation equals the weight actually discarded (divided by the total weight in relative mode).", "quantifier": "all spectra and modes", "why_tests_cant": "all spectra; tests use normalised spectra where the scale bug is invisible", "anchors": ["itensor/decomp.cc: truncate"]}
{"id": "C26", "title": "Block SVD keeps no more than the truncation decided", "statement": "The number of singular values kept over all QN blocks never exceeds the dimension decided by the truncation, and every kept value is above the cut.", "quantifier": "all block structures and spectra", "why_tests_cant": "all block partitions of all spectra", "anchors": ["itensor/svd.cc: svdOrd2", "itensor/hermitian.cc"]}
{"id": "C27", "title": "Args lookups", "statement": "After any sequence of add/remove on an Args, getting a name returns the last value added under it since its last removal, defined() tells whether there is one, and otherwise the default is returned; merging args overrides with the right-hand values.", "quantifier": "all sequences of operations, all names", "why_tests_cant": "history property", "anchors": ["itensor/util/args.h", "itensor/util/args.cc"]}
{"id": "C28", "title": "Small-buffer array behaves like a list", "statement": "The small-buffer array used for index sets, permutations and argument lists behaves like an ordinary list under push_back, resize, clear, erase, copy, move and swap, whether its contents are inline or on the heap.", "quantifier": "all operation histories and all sizes around the inline capacity", "why_tests_cant": "bugs appear only on particular histories crossing the capacity", "anchors": ["itensor/util/infarray.h: InfArray"]}
{"id": "C29", "title": "autovector behaves like a total map", "statement": "An autovector returns the last value written at each integer position, the default elsewhere, whichever order positions are touched in.", "quantifier": "all histories of reads and writes at any integer positions", "why_tests_cant": "history property on unbounded positions", "anchors": ["itensor/util/autovector.h"]}
{"id": "C30", "title": "Binary serialization round trips", "statement": "Writing any value (string, vector, named arguments, sweep table, tag set, quantum number, index, index set, site set, tensor of any storage, matrix product state) to a stream and reading it back into a new object yields an equal value and leaves the stream exactly after it.", "quantifier": "all values", "why_tests_cant": "all values of unbounded size", "anchors": ["itensor/util/readwrite.h", "itensor/tagset.cc: write, read", "itensor/qn.cc: write, read", "itensor/index.cc: write, read"]}
{"id": "C31", "title": "Sweep parameter setters", "statement": "Assigning a list of values to a sweep parameter gives sweep i the i-th value and repeats the last one to the end; ramps stay between their end points and are monotone.", "quantifier": "all numbers of sweeps and list lengths", "why_tests_cant": "all lengths", "anchors": ["itensor/mps/sweeps.h: SweepSetter, RampM, ExpM"]}
{"id": "C32", "title": "A sweep visits every bond", "statement": "Iterating sweepnext from (1,1) visits bonds 1..N-1 left to right then N-1..1 right to left and stops (generalised to any number of centre sites).", "quantifier": "all N not smaller than the number of centre sites", "why_tests_cant": "all lengths; termination", "anchors": ["itensor/mps/sweeps.h: sweepnext"]}
{"id": "C33", "title": "LogNum arithmetic", "statement": "LogNum multiplication, division, addition, negation, powers and comparisons agree with the real number sign*exp(lognum) it represents.", "quantifier": "all non-zero numbers (zero treated separately)", "why_tests_cant": "all reals", "anchors": ["itensor/real.h: LogNum"]}
{"id": "C34", "title": "Operator terms are ordered with the right fermionic sign", "statement": "Adding operators one by one to a term keeps them sorted by site, keeps the order of operators on the same site, and multiplies the coefficient by (-1) for each exchange of two fermionic operators, so the resulting term denotes the same operator product.", "quantifier": "all sequences of operators on all sites", "why_tests_cant": "all permutations of operator strings", "anchors": ["itensor/mps/autompo.cc: HTerm::add", "itensor/mps/autompo.h: SiteTerm, HTerm"]}
{"id": "C35", "title": "AutoMPO accumulates terms", "statement": "After any sequence of additions the stored terms represent the sum of everything added: equal operator strings are merged by adding coefficients, nothing else is lost.", "quantifier": "all sequences of terms", "why_tests_cant": "history property", "anchors": ["itensor/mps/autompo.cc: AutoMPO::add, Accumulator"]}
{"id": "C36", "title": "The MPO built from a sum of terms equals that sum", "statement": "Multiplying out the site matrices of the exact MPO construction yields exactly the sum over the terms of coefficient times the product of their site operators (identities elsewhere).", "quantifier": "all lengths and all finite sets of terms with at most one operator per site", "why_tests_cant": "all Hamiltonians", "anchors": ["itensor/mps/autompo.cc: toMPOImpl"]}
{"id": "C37", "title": "Jordan-Wigner strings", "statement": "For terms of even total fermion parity, the per-site operators emitted for a fermionic term are the Jordan-Wigner image of the term: each site carries its operators times F exactly when an odd number of fermionic operators lies to one side.", "quantifier": "all fermionic terms", "why_tests_cant": "all operator strings", "anchors": ["itensor/mps/autompo.cc: startTerm, endTerm, fermionicTerm, rewriteFermionic"]}
{"id": "C38", "title": "Orthogonality bookkeeping of MPS", "statement": "After any history of tensor modifications, psi.position(i) leaves the state unchanged, makes i the orthogonality centre (every tensor left of i left-orthogonal, right of i right-orthogonal), and isOrtho/orthoCenter report that.", "quantifier": "all histories of ref/set/position calls, all N, all i", "why_tests_cant": "history property", "anchors": ["itensor/mps/mps.cc: MPS::position, ref, set, svdBond", "itensor/mps/mps.h: isOrtho, orthoCenter"]}
{"id": "C39", "title": "Writing MPS tensors to disk is transparent", "statement": "An MPS that pages its tensors to disk returns, for every access history, the same tensors as one kept in memory.", "quantifier": "all histories of accesses, modifications and switches of disk mode", "why_tests_cant": "history property", "anchors": ["itensor/mps/mps.cc: setBond, setSite, doWrite, initWrite, read"]}
{"id": "C40", "title": "Environment tensors are up to date", "statement": "While sweeping in any pattern and changing only tensors in the current centre, the left and right environments used by a local Hamiltonian equal those computed from scratch from the current MPS.", "quantifier": "all position histories, all N, all numbers of centre sites", "why_tests_cant": "history property", "anchors": ["itensor/mps/localmpo.h: LocalMPO::position, makeL, makeR, shift"]}
{"id": "C41", "title": "Summing many MPS", "statement": "sum(vector) of MPS/MPO terminates and equals adding all elements for any number of terms.", "quantifier": "all vector lengths", "why_tests_cant": "all lengths", "anchors": ["itensor/mps/mps.cc: sum"]}
{"id": "C42", "title": "Product states carry the right flux", "statement": "An MPS built from an initial product state has total QN equal to the sum of the site QNs, with every tensor but the first of zero flux.", "quantifier": "all lengths, all site states", "why_tests_cant": "all lengths", "anchors": ["itensor/mps/mps.cc: init_tensors", "itensor/qn.cc"]}
{"id": "C43", "title": "Lattice bond lists", "statement": "squareLattice, squareNextNeighbor and triangularLattice return exactly the nearest-neighbour bonds of the requested lattice, each once, in range, and never abort.", "quantifier": "all Nx,Ny>=1 and both boundary conditions", "why_tests_cant": "all sizes", "anchors": ["itensor/mps/lattice/square.h", "itensor/mps/lattice/triangular.h"]}
{"id": "C44", "title": "Copies are independent", "statement": "Modifying one copy of a tensor never changes another, although storage is shared until modification.", "quantifier": "all histories of copies and modifications", "why_tests_cant": "history/aliasing property", "anchors": ["itensor/itdata/itdata.h: ManageStore::modifyData", "itensor/itdata/dotask.h"]}
{"id": "C45", "title": "Direct sum of indices and tensors", "statement": "directSum(A,B,I,J) over lists of indices has summed indices of size dim(i)+dim(j) (with QNs: the blocks of i, then those of j), contains A where all summed values lie in the first parts, B (shifted) where all lie in the second parts and zero elsewhere; with QNs the flux is kept. This is for dense tensors with at least two indices and QN tensors with any number; for two dense vectors the code loses the second one, and for QN indices of opposite arrows release builds write through a null pointer (both shown by theorems).", "quantifier": "all tensors, dense of order at least two or with QNs, any number of summed indices", "why_tests_cant": "all extents and block structures; fluxes of blocks interact with the selector tensors", "anchors": ["itensor/itensor.cc: directSum, directSumITensors", "itensor/index.cc: directSum"]}
{"id": "C46", "title": "Site number wrap-around", "statement": "periodicWrap(j,N) returns the site in 1..N congruent to j, for every integer j; negative MPS positions address from the end.", "quantifier": "all integers j, all N>=1", "why_tests_cant": "all integers", "anchors": ["itensor/mps/mps.h: periodicWrap", "itensor/mps/mps.cc: operator()"]}
{"id": "C47", "title": "Input-file parsing terminates", "statement": "Searching an input file for a group or key terminates and finds the group if present.", "quantifier": "all file contents", "why_tests_cant": "all strings", "anchors": ["itensor/util/input.cc: GotoGroup, GotoToken, gettoken, eatwhite"]}
{"id": "C48", "title": "replaceInds relabels", "statement": "replaceInds renames the listed indices simultaneously (so swaps work) without touching elements; a failed call leaves the tensor as it was.", "quantifier": "all index lists, including swaps and failures", "why_tests_cant": "all lists; failure points", "anchors": ["itensor/itensor.cc: replaceInds, swapInds"]}
{"id": "C49", "title": "Products with diagonal and delta tensors", "statement": "A product with a diagonal tensor (delta, diagITensor) is the sum over shared indices of the products of elements, where the diagonal tensor's elements are its diagonal values at equal index values and zero elsewhere; in particular multiplying by delta(i,j) renames index i to j.", "quantifier": "all orders, dimensions and shared index sets, uniform and stored diagonals", "why_tests_cant": "all shapes; the code has separate loops for each pattern of shared indices", "anchors": ["itensor/itdata/diag.cc: contractDiagDense, contractDiagPartial, contractDiagFull, replaceIndex", "itensor/itensor.cc: delta, diagITensor"]}
{"id": "C50", "title": "The default AutoMPO conversion builds the operator the terms define", "statement": "toMPO(ampo) with its default (SVD) method returns an MPO whose elements are those of the sum of the terms added to the AutoMPO, with Jordan-Wigner strings for fermionic operators, when the singular value decompositions of the coefficient matrices discard nothing; a term acting outside the chain is refused.", "quantifier": "all chain lengths, numbers of terms, terms with any number of operators per site, coefficients, quantum numbers and fermionic operators", "why_tests_cant": "infinitely many Hamiltonians; errors only show for terms that share parts in an unlucky way", "anchors": ["itensor/mps/autompo.cc: partitionHTerms, compressMPO, constructMPOTensors, svdMPO, calcQN, rewriteFermionic, posInVec, MatElem"]}
{"id": "C51", "title": "svd factors every tensor into isometries and singular values", "statement": "svd(A,U,D,V) gives U the indices of A that the U passed in has (or those the V passed in has not), V the others, and each one new index of the dimension of D; dag(U)*U and dag(V)*V are identities on the new indices; U*D*V equals A element by element when nothing is discarded, and otherwise the squared norm of A - U*D*V is the sum of the squares of the discarded singular values; with quantum numbers U and V have zero flux. A failing matrix decomposition never gives a wrong result.", "quantifier": "all tensors of any order, dimensions and elements, real or complex, with or without quantum numbers; all choices of the indices of U; all choices of what to keep; all SVD methods", "why_tests_cant": "there are infinitely many tensors and splittings; wrong columns or conjugations only show for particular shapes, storage orders and block patterns", "anchors": ["itensor/decomp.cc: svd, doTask(GetBlocks), toMatRefc", "itensor/svd.cc: svdOrd2, svdImpl", "itensor/tensor/algs_impl.h: SVD, SVDRefLAPACK", "itensor/tensor/algs.cc: SVDRef", "itensor/itdata/qdiag.cc: QDiag"]}
{"id": "C52", "title": "Inner products and traces of MPS and MPO are the sums they denote", "statement": "innerC(x,y) is the sum over all site configurations of conj(x_c) y_c; innerC(x,A,y), innerC(A,x,B,y) and innerC(x,A,B,y) are <x|A|y>, <Ax|By> and <x|AB|y>; traceC(A) and traceC(A,B) are the trace of A and of the product; whatever site indices x has and whether or not the arguments share link indices. innerC(y,x) is the conjugate of innerC(x,y), and the terms of errorMPOProd add up to the squared distance.", "quantifier": "all chain lengths, dimensions, index names and elements of the tensors", "why_tests_cant": "infinitely many networks; a wrong contraction only shows for particular coincidences of index names or chain lengths", "anchors": ["itensor/mps/mps.cc: innerC, overlap, replaceSiteInds, replaceLinkInds, siteInds, linkInds", "itensor/mps/mpo.cc: innerC, inner, traceC, trace, uniqueSiteInds, replaceSiteInds, errorMPOProd"]}
{"id": "C53", "title": "davidson returns normalised vectors with their Rayleigh quotients and never raises the energy", "statement": "For a Hermitian linear operator A, davidson(A,phi) returns a normalised vector v and the number <v|A|v>. The number is not above the Rayleigh quotient of the vector given and not below any lower bound of the spectrum of A. With several vectors every number returned is the Rayleigh quotient of the normalised vector returned with it. With one nonzero vector the call always returns, whatever MaxIter, MinIter, ErrGoal and the random numbers are.", "quantifier": "all Hermitian operators on all inner product spaces, all initial vectors, all limits and all sequences of random tensors", "why_tests_cant": "the loop has data dependent exits, random restarts and a growing basis; a test sees a few operators and always the converged case", "anchors": ["itensor/iterativesolvers.h: davidson", "itensor/tensor/algs_impl.h: diagHermitian"]}
{"id": "C54", "title": "dmrg returns a normalised state and an energy that is never below the spectrum and, untruncated, never rises", "statement": "For every chain of at least three sites, every Hermitian MPO and every normalisable starting state, with any sweep parameters, observer, truncation and noise: dmrg returns a state on the same sites with norm one; each sweep optimises every bond twice, left to right and back, and all sweeps are done unless the observer asks to stop; every energy reported is at least any lower bound of the spectrum of H, and the first is at most the Rayleigh quotient of the starting state. If no singular value is discarded, the energies never rise from one step to the next and the energy returned is <psi|H|psi> of the state returned. The run cannot fail if the linear algebra routines return. With no sweeps the state is only normalised.", "quantifier": "all chain lengths, bond and site dimensions, Hermitian MPOs, starting states, sweep tables, observers and factorisations with an orthogonal and a normalised factor", "why_tests_cant": "variational bounds and monotonicity hold along whole runs for every Hamiltonian; a test sees a few converged runs", "anchors": ["itensor/mps/dmrg.h: dmrg, DMRGWorker", "itensor/mps/mps.cc: MPS::position, MPS::normalize", "itensor/mps/mps_impl.h: MPS::svdBond", "itensor/mps/localmpo.h: LocalMPO::position, product", "itensor/iterativesolvers.h: davidson"]}
{"id": "C55", "title": "orthogonalize returns the same state with its centre on the first site", "statement": "For every MPS in memory on two or more sites, orthogonalize() leaves an MPS on the same sites whose tensors 2..N are right orthogonal, with centre 1 and with every link matching; if no MaxDim below a link dimension is passed and only zero eigenvalues are dropped, every amplitude of the state is unchanged. It fails only if the eigensolver does.", "quantifier": "all chains of two or more tensors of any dimensions, all MaxDim arguments, any eigensolver with orthonormal columns", "why_tests_cant": "the environments, the projections and the truncation interact along the whole chain; a test compares a few random states", "anchors": ["itensor/mps/mps.cc: MPS::orthogonalize", "itensor/decomp.cc: diagPosSemiDef"]}
{"id": "C56", "title": "expect and correlationMatrix return the expectation values they are asked for", "statement": "For every MPS, whatever its bond dimensions, orthogonality limits and norm, expect(psi,sites,ops,site_list) returns for every listed site i and operator o the number <psi|o_i|psi>/<psi|psi>, and correlationMatrix(psi,sites,op1,op2,range) returns a square table whose entry for sites i, j of the range (all sites for the default range) is <psi|op1_i op2_j|psi>/<psi|psi>, above, on and below the diagonal, where fermionic operators carry Jordan-Wigner strings so that exchanged fermionic operators get the sign; when only half of the table is computed (the isHermitian option), this needs op2 to be the adjoint of op1 up to a real factor. Mixing a fermionic and a bosonic operator is an error. The argument psi is not changed.", "quantifier": "every chain of tensors with any dimensions and any state of the orthogonality limits, every pair of operators on sites of any dimension, every range of sites, every list of sites and operators", "why_tests_cant": "The value of every entry depends on the whole state, on where the orthogonality centre happens to be and on the strings between the sites; tests compare a few short chains of one size and one pair of operators.", "anchors": ["itensor/mps/mps.h:expectT", "itensor/mps/mps.cc:correlationMatrixT", "itensor/mps/siteset.h:SiteSet::op", "itensor/itensor.cc:multSiteOps"]}
{"id": "C57", "title": "diagHermitian and diagPosSemiDef diagonalise every Hermitian tensor, expHermitian exponentiates it", "statement": "For every Hermitian tensor T whose indices come in pairs that differ by the same number p of primes (any number of pairs, in any order, also several copies of one index at different prime levels), diagHermitian(T,U,D) returns U with the unprimed indices and one new index l and a diagonal D on l and prime(l,p) such that dag(U)*D*prime(U,p) is T, U is unitary and the entries of D are real; diagPosSemiDef with truncation returns U with orthonormal columns and the square of the norm of what is missing is the sum of the squares of the discarded eigenvalues. With quantum numbers (T of flux zero, opposite arrows on the pairs) the same holds, U has flux zero and arrows opposite to those of T. expHermitian(T,t) has the indices of T, every eigenvector of T is an eigenvector of it, and the eigenvalue x becomes exp(t*x). A tensor without pairs, and a failure of LAPACK, is an error.", "quantifier": "every Hermitian tensor, without and with quantum numbers, every number, order, dimension and block structure of its indices, every number of primes between the pairs, every choice of what truncation keeps", "why_tests_cant": "The function works out the pairs from the prime levels, combines, transposes or negates the matrix depending on its strides and treats every block separately; tests use few tensors with one pair of indices and compare numbers within a tolerance.", "anchors": ["itensor/decomp.cc:diagPosSemiDef", "itensor/decomp.cc:diagHermitian", "itensor/decomp.cc:expHermitian", "itensor/hermitian.cc:diagHImpl", "itensor/hermitian.cc:diag_hermitian", "itensor/tensor/algs_impl.h:diagHermitian", "itensor/tensor/algs_impl.h:copyNegElts"]}
{"id": "C58", "title": "dmrg with an observer stops exactly when its goals are met or it is asked to", "statement": "A dmrg run with a DMRGObserver does sweeps until the first one after which it has to stop, and never more than nsweep: after every second sweep it stops if every goal that is set is met (EnergyErrgoal: the energy changed by less since the preceding sweep; EntropyErrgoal: the same for the entropy of the middle bond), and after every sweep if the file STOP_DMRG or STOP_DMRG_ALL exists. STOP_DMRG stops one run and is removed, STOP_DMRG_ALL is removed and makes every later run with the same observer stop after one sweep; a run that ends because its goals are met leaves the files. The result does not depend on what earlier runs with the same observer did, except for STOP_DMRG_ALL.", "quantifier": "every sequence of energies and spectra, every number of sweeps, sites and runs, every combination of goals, every moment at which the files are created", "why_tests_cant": "The decision depends on the history of the observer over all sweeps and runs and on files created at any moment; tests run a few sweeps of one calculation that converges.", "anchors": ["itensor/mps/DMRGObserver.h:DMRGObserver::measure", "itensor/mps/DMRGObserver.h:DMRGObserver::checkDone", "itensor/mps/dmrg.h:DMRGWorker", "itensor/mps/sweeps.h:sweepnext"]}
{"id": "C59", "title": "qr decomposes every tensor into an orthonormal Q and an upper triangular R", "statement": "For every tensor A and every way to divide its indices between Q and R, qr(A,Q,R) returns Q with the indices asked for and R with the others, sharing one new index, such that Q*R is A, dag(Q)*Q is the identity and R is upper triangular in the order of its combined indices; with Complete Q is unitary; with PositiveDiagonal the diagonal of R is not negative. With quantum numbers Q has flux zero, R has the flux of A, both keep the arrows of A and the new index has opposite arrows on them. A thin decomposition with UpperTriangular=false, and a tensor with all indices on one side, is an error.", "quantifier": "every tensor without and with quantum numbers, every split of its indices, every block structure, every combination of Complete, UpperTriangular and PositiveDiagonal", "why_tests_cant": "With quantum numbers the blocks are decomposed separately, sorted by column, completed by filler columns and identity blocks; whether the pieces fit depends on the order of the sectors. Tests use a few random tensors whose sectors come in the same order on both sides.", "anchors": ["itensor/decomp.cc:qr", "itensor/decomp.cc:qrImpl", "itensor/decomp.cc:qrOrd2", "itensor/tensor/algs_impl.h:QR", "itensor/tensor/algs.cc:detail::QR"]}
{"id": "C60", "title": "applyMPO returns the operator applied to the state", "statement": "For every MPO K and MPS x of the same length with at least two sites, applyMPO(K,x) returns an MPS whose amplitude of every configuration is the sum over the configurations of x of the matrix element of K times the amplitude of x, unless a MaxDim smaller than a product of link dimensions was passed. Its site indices are those of K which x does not have, all its tensors but the first are right orthogonal and its centre is site 1. With Normalize it is that state divided by its norm. If at some site K does not have the site index of x, or K is shorter, or the method is unknown, or a guess is given to DensityMatrix, the call is an error.", "quantifier": "every length, every MPO and MPS with any site and link dimensions and elements, either order of the site indices in every tensor of K, every MaxDim", "why_tests_cant": "The result is found by diagonalising density matrices one site after the other, with environments of four links and two conjugated copies; a wrong contraction or a MaxDim that is too small for some link shows only for particular dimensions.", "anchors": ["itensor/mps/mpoalgs.cc:applyMPO", "itensor/mps/mpoalgs.cc:densityMatrixApplyMPOImpl"]}
{"id": "C61", "title": "nmultMPO returns the product of the two operators", "statement": "For every two MPOs A and B of the same length, at least two, that at every site share exactly one site index, nmultMPO(A,B) returns an MPO whose matrix elements are the sums over the shared indices of the elements of A times those of B, unless MaxDim was passed or svdBond truncates. Its site indices are the one only A has and the one only B has, every orthogonality claim is true of it and its centre is site 1. Different lengths, or a site at which an operator has no index of its own (as in A*A without a prime), are errors.", "quantifier": "every length, every two MPOs with any site and link dimensions, elements, orthogonality limits and either order of the site indices in every tensor", "why_tests_cant": "The product is made by a chain of decompositions of clusters with five indices, ended by an SVD and a sweep back; a wrong contraction or site index shows only for particular dimensions or index orders.", "anchors": ["itensor/mps/mpoalgs.cc:nmultMPO", "itensor/mps/mpo.cc:uniqueSiteIndex", "itensor/decomp.h:denmatDecomp", "itensor/mps/mps.cc:svdBond"]}
{"id": "C62", "title": "The local operator of several MPOs is their sum, and with penalty states H plus the weighted projectors", "statement": "After every valid history of position, numCenter, shift, doWrite(true) and changes of psi inside the window, LocalMPOSet::product(phi) is the sum of the projections of all its MPOs; LocalMPO made from an MPS projects the projector onto that MPS, with 0, 1 or 2 centre sites; and LocalMPO_MPS::product(phi), which dmrg uses for excited states, is that of H + Weight * sum |psi_k><psi_k|: against every chi it gives the matrix element of the whole operator between the states with chi and phi in place of the centre sites. Valid calls never fail and leave all members at the same site.", "quantifier": "every chain length, set of MPOs, list of fixed states, dimensions, elements, weight, history of calls and centre tensors chi and phi", "why_tests_cant": "The edge tensors of every member are cached and updated by each call; a stale or missing edge of one member, or a wrong conjugation of the fixed state, gives a wrong energy only for particular histories and complex elements.", "anchors": ["itensor/mps/localmposet.h:LocalMPOSet", "itensor/mps/localmpo_mps.h:LocalMPO_MPS", "itensor/mps/localmpo.h:product", "itensor/mps/localmpo.h:makeL", "itensor/mps/localmpo.h:makeR", "itensor/mps/dmrg.h:dmrg"]}
{"id": "C63", "title": "gmres never makes the residual worse and reaches the tolerance it claims", "statement": "gmres(A,b,x,args), for a real linear system or a complex one with a Hermitian A, and ErrGoal > 0: the vector it leaves in x never has a larger residual |b - A x| than the one it was given; if a convergence test ended the run the residual is at most ErrGoal |b|; without restart it is the smallest residual of all vectors x + p(A) r with p of degree below MaxIter. If A is injective it always returns, for every RestartIter >= 1, and if RestartIter and MaxIter are at least the dimension it converges from every starting vector.", "quantifier": "every space with an inner product (in particular every n and every n x n matrix), right hand side, starting vector, RestartIter, MaxIter and ErrGoal", "why_tests_cant": "Givens rotations, the incremental QR of the Hessenberg matrix, back substitution and restarts have to agree for every matrix and every number of steps; a wrong index or conjugation only shows up for particular systems, and the residual the code tests is never recomputed from x.", "anchors": ["itensor/iterativesolvers.h:gmres", "itensor/iterativesolvers.h:gmresImpl", "itensor/iterativesolvers.h:gmres_details::update", "itensor/iterativesolvers.h:gmres_details::generate_plane_rotation", "itensor/iterativesolvers.h:gmres_details::apply_plane_rotation"]}
{"id": "C64", "title": "gateTEvol applies the gates in order, once per time step, and BondGate makes the gates it says", "statement": "gateTEvol(gates,ttotal,tstep,psi,obs,args) with ttotal a whole number k of steps and no truncation: afterwards psi is the state obtained by applying all gates of the list in order, k times (divided by its norm with Normalize), obs.measure is called once after every step with its number, its time and the state of that step, and from a normalised psi the value returned is the norm of the evolved state. With truncation, the squared error of each gate is the weight discarded in its SVD (the orthogonality centre is where it has to be). BondGate(...,tReal or tImag,tau,H) is the Taylor polynomial of order 100 of exp(-i tau H) or exp(-tau H); BondGate(sites,i1,i2) exchanges the values of the two sites.", "quantifier": "every list of nearest-neighbour gates with any elements, number and dimensions of sites, initial MPS, orthogonality limits, number of steps, time step, and decompositions that keep their contract", "why_tests_cant": "The direction of each svdBond and the moves of the orthogonality centre depend on the positions of consecutive gates and on how the list wraps around between steps; tests run one or two standard gate lists.", "anchors": ["itensor/mps/tevol.h:gateTEvol", "itensor/mps/bondgate.h:BondGate", "itensor/mps/bondgate.h:BondGate::makeSwapGate", "itensor/mps/mps.cc:MPS::normalize"]}
{"id": "C65", "title": "toExpH returns 1 - tau H to first order, and the products of non-overlapping terms beyond", "statement": "toExpH(ampo,tau) for terms of one operator, or of two on different sites: every matrix element of the MPO is the sum over all sets of terms no two of which overlap (share a site or a site in between) of (-tau)^(size of the set) times their coefficients times the product of their operators. Hence it equals 1 - tau H plus tau^2 times a sum over non-overlapping sets of two or more terms, H being the MPO that toMPO makes of the same terms, and the identity for tau = 0. The order of the basis of a link (the sort by quantum number) does not matter. Other values of Approx, terms of more than two operators and sites after the last one throw.", "quantifier": "every list of one- and two-operator terms, coefficients in any commutative ring, time step, number of sites, reordering of the link bases and choice of matrix elements of the site operators", "why_tests_cant": "Which products of terms appear depends on all the intervals of the terms at once; the number of sets of terms is exponential, so tests can only compare a few short Hamiltonians at one tau.", "anchors": ["itensor/mps/autompo.cc:toExpH", "itensor/mps/autompo.cc:toExpH_ZW1"]}
{"id": "C66", "title": "expMatrix is the Pade approximant of the exponential, with scaling and squaring", "statement": "expMatrix(M,t,ideg), when it returns, returns r(tM/2^ns)^(2^ns), where r = num/den is the [ideg/ideg] Pade approximant of exp (den(z) exp(z) and num(z) agree through z^(2 ideg), den(0) = 1), the rows of tM/2^ns have absolute row sums below 1/2, and den of that matrix is invertible. It returns for every square matrix and t with tM not zero and every ideg >= 1. Exactly: expMatrix(M,-t) is the inverse of expMatrix(M,t), and if tM is anti-Hermitian the result is unitary. An ideg below 1, an empty or a rectangular matrix throws. For tM = 0 it does not return the identity: the number of squarings is (int)(-inf), undefined behaviour (an exception with DEBUG).", "quantifier": "every matrix of every size with elements in a field with an absolute value (real or complex numbers), every t and every degree ideg", "why_tests_cant": "The order of the approximation is an identity between binomial sums for every ideg; that the linear system is never singular and the result exactly unitary holds for uncountably many matrices, and rounding hides both in a test.", "anchors": ["itensor/tensor/algs_impl.h:expMatrix", "itensor/tensor/algs.cc:expPade"]}
{"id": "C67", "title": "applyExp: what the Krylov approximation of exp(tau H)phi is", "statement": "If applyExp(H,phi,tau) returns, then either its Lanczos sequence was exhausted after m <= MaxIter products, or it stopped after m products by the error test. The result is sum_i X(i,0)u_i with X = expMatrix(M,tau) for a small matrix M; for every polynomial p of degree below m (exhausted), or up to m (stopped), p(H)phi is the same combination with p(M) for X, and for a Hermitian H the u_i are orthogonal and as long as phi, so the error against p(H)phi is |phi| times the error of expMatrix(M,tau) against p(M) in its first column. A run stopped before MaxIter meets the error goal for the estimate the code documents. If the last norm is exactly 0 the result is r(tau H/2^ns)^(2^ns)phi with r the [6/6] Pade approximant of exp. For a Hermitian H and an imaginary tau an exhausted run keeps the norm of phi exactly. On a space of dimension n a run takes at most n products. Not true: with MaxIter = 1 phi is left unchanged (unless it is an eigenvector), and for tau = 0 or phi = 0 it does not return.", "quantifier": "every linear operator on every inner product space over a field with an absolute value, every phi, tau, ErrGoal, NormCutoff and MaxIter", "why_tests_cant": "The identity holds for all polynomials and operators of every dimension, exactly; with floating-point numbers a test sees only that the result is close for a few small matrices, and never reaches the exhausted case exactly.", "anchors": ["itensor/iterativesolvers.h:applyExp", "itensor/iterativesolvers.h:assembleLanczosVectors"]}
{"id": "C68", "title": "the operators of every site type satisfy the algebra their names promise", "statement": "For every site type and every choice of conserved quantities with which the site can be made: Sz, S+ and S- of SpinHalf, SpinOne, SpinTwo and CustomSpin of every spin S exist and are a spin S ([Sz,S+]=S+, [S+,S-]=2Sz, S- the adjoint of S+, S.S=S(S+1)); Sx, ISy, Sy and their squares exist exactly when Sz is not conserved (they throw otherwise) and are what S+ and S- say; Boson has N=Adag A, A|k>=sqrt(k)|k-1> and [A,Adag]=1 below the cut-off, for every MaxOcc; Fermion and Electron have fermionic modes with {c,c^+}=1, the two modes anticommute, F is the parity and anticommutes with every c, the spin and number operators are the bilinears; the tJ operators are those of the electron without double occupancy; the Z3 clock operators satisfy Sig Tau = w Tau Sig, Sig^3=Tau^3=1. Every operator has one quantum number flux; the quantum number of a state is the eigenvalue of its operator; the names of states, the projectors and the products 'A*B' mean what they say; Id is the identity and so is F on sites without fermions. Not true: S2 of SpinTwo is not S.S (one element is set at the wrong place; with Sz conserved it throws); Sx of the tJ site is twice (S+ + S-)/2.", "quantifier": "every site type, every CustomSpin 2S and Boson MaxOcc, every combination of the Conserve arguments, every operator name", "why_tests_cant": "CustomSpin and Boson have a parameter of unbounded size, so the identities have to hold for infinitely many matrices with irrational elements, exactly; and every combination of the conservation arguments gives another index on which each operator must still be made. Tests compare single elements for the default arguments (the wrong S2 of SpinTwo has survived them).", "anchors": ["itensor/mps/sites/spinhalf.h:SpinHalfSite", "itensor/mps/sites/spinone.h:SpinOneSite", "itensor/mps/sites/spintwo.h:SpinTwoSite", "itensor/mps/sites/customspin.h:CustomSpinSite", "itensor/mps/sites/boson.h:BosonSite", "itensor/mps/sites/fermion.h:FermionSite", "itensor/mps/sites/electron.h:ElectronSite", "itensor/mps/sites/tj.h:tJSite", "itensor/mps/sites/Z3.h:Z3Site", "itensor/mps/siteset.h:SiteSet::op"]}
{"id": "C69", "title": "matrix and vector products and elementwise operations on views act on exactly the elements of the views", "statement": "gemm, mult, multAdd, multSub and the * operators compute alpha*A*B+beta*C (M*x, x*M, y+M*x, y-M*x) exactly for every pair of contiguous views, in every orientation (transposed or not, factors and result), of every size, for every combination of real and complex factors, whether complex products are done by zgemm or emulated by real ones, whatever the work buffer holds at first, and for every vector stride; they change no place of memory outside the result view. transpose, subMatrix, rows, columns, row, column and diagonal give views of the elements their names say. &=, +=, -=, *= and /= on views of any strides act element by element and change nothing else. With DEBUG wrong shapes and views that are not contiguous throw. Not true: mult(M,x,fromleft) returning a vector ignores fromleft and, for matrices that are not square, writes outside its result; without DEBUG views that are not contiguous are read as if they were; the DEBUG check of row and column lets the index one past the end through.", "quantifier": "all sizes, strides, offsets and contents of the views, real and complex, all alpha and beta, all initial contents of the work buffer", "why_tests_cant": "The code takes a different path for every combination of orientation, contiguity, element type and beta, with leading dimensions and buffer offsets computed from the sizes; tests multiply a few matrices and look at the result view only, not at the memory next to it.", "anchors": ["itensor/tensor/gemm.cc:gemm", "itensor/tensor/gemm.cc:gemm_emulator", "itensor/tensor/mat.cc:call_gemv", "itensor/tensor/mat.cc:mult", "itensor/tensor/mat_impl.h:operator*", "itensor/tensor/slicemat.h:subMatrix", "itensor/tensor/matrange.h:MatRangeIter", "itensor/tensor/vec.cc:operator+=", "itensor/tensor/lapack_wrap.cc:gemm_wrapper"]}
{"id": "C70", "title": "one step of rungeKutta4 (midpointMethod) is the degree-4 (degree-2) Taylor polynomial of the exponential", "statement": "For every derivative that is linear in the tensors v[1..N], rungeKutta4 replaces them by the sum of (t D)^i/i! v for i=0..4 and midpointMethod by the sum for i=0..2; for every other derivative by the classical Runge-Kutta and midpoint formulas. N is the last entry that is not null (at least 1); a null entry below it counts as zero. Entry 0 and entries beyond N are not changed. A linear functional of the tensors that the derivative never changes is conserved exactly for every step. Fewer than two entries, a derivative that throws or one that returns no tensor at a place 1..N make both throw.", "quantifier": "all lists of tensors, all tensor spaces, all derivatives, all step sizes", "why_tests_cant": "The order of a method is an identity between polynomials in the derivative for every operator; a test compares numbers for one operator and cannot tell an error of order t^3 from rounding.", "anchors": ["itensor/mps/integrators.h:rungeKutta4", "itensor/mps/integrators.h:midpointMethod", "itensor/itensor.cc:operator+=", "itensor/itensor.cc:daxpy"]}
{"id": "C71", "title": "fitWF is the orthogonal projection on the states that share all tensors of the basis but the first", "statement": "fitWF(basis,f) with a basis orthogonal around site 1 and at least two sites replaces f by a state h of norm 1 whose tensors 2..N are those of the basis and whose centre is on site 1. With n = <h|f>, n is positive, and for every first tensor x the squared distance of f to the state x g_2..g_N is that of f to n h plus that of n h to x g_2..g_N, so n h is the closest of them. It throws exactly if f is orthogonal to all these states, or if the basis has no centre, the centre is not site 1, or the lengths differ. With one site it throws for every f orthogonal to the basis although a fit exists.", "quantifier": "all scalars with a definite conjugation, all lengths, bond and site dimensions, all tensors of both states", "why_tests_cant": "Optimality is a statement about every competitor; a test can only compare with a few.", "anchors": ["itensor/mps/mpsalgs.cc:fitWF", "itensor/mps/mps.cc:orthoCenter", "itensor/itensor.cc:norm"]}
{"id": "C72", "title": "totalQN is the quantum number of every configuration in the state; what checkQNs accepts", "statement": "For an MPS whose tensors conserve quantum numbers, whose links are outgoing in one tensor and incoming in the other, and whose tensors outside leftLim+1..rightLim-1 have zero flux, totalQN succeeds and every configuration of nonzero amplitude has exactly that quantum number, so the result does not depend on which such limits the state carries. checkQNs returns true exactly if findCenter finds a tensor with all arrows alike, all others have div 0, and the links point away from it; then every configuration of nonzero amplitude has the quantum number div(psi(c)) of that tensor, and totalQN returns it if the limits enclose just c. A null tensor makes totalQN throw, and checkQNs throw or return false.", "quantifier": "all numbers of sites, all index sets with any blocks and charges (also modular), all stored blocks and elements, all limits", "why_tests_cant": "The claim is about every configuration with nonzero amplitude of every state; there are exponentially many.", "anchors": ["itensor/mps/mpsalgs.cc:totalQN", "itensor/mps/mpsalgs.cc:checkQNs", "itensor/mps/mps.cc:findCenter", "itensor/itensor.cc:div", "itensor/mps/mps.cc:rightLinkIndex"]}
{"id": "C73", "title": "the variational fit of K|x> never moves away from K|x>", "statement": "applyMPO with Method=Fit (two center sites, no truncation), with Normalize=false, keeps the norm-squared distance of the fitted state to fac K|x> monotone: at every bond and in both directions the new state is the orthogonal projection of fac K|x> on the states with the other tensors fixed, so the squared distance of the initial guess to fac K|x> equals that of the result plus the sum of the squared lengths of the 2(N-1) steps of every sweep. The result is proper, has the sites of the operator, and is right-orthogonal after site 1. After at least one sweep no state that differs from it in the first two tensors only is closer. A guess that is already exact is returned unchanged. With Normalize=true the result after at least one sweep has norm 1, and every state that differs from it in the first two tensors only overlaps fac K|x> a fixed nonzero multiple n of what it overlaps the result, so that n times the result is the closest such state. With NCenterSites=1 (Normalize=false) the same holds site by site: the squared distance decreases by exactly the sum of the squared lengths of the 2N steps of every sweep, and after at least one sweep no state that differs from the result in the first tensor only is closer.", "quantifier": "all N >= 2, all MPO and MPS tensors and link dimensions, all factors, all initial guesses, all numbers of sweeps, all exact orthogonal factorisations", "why_tests_cant": "The environments are reused across bonds and sweeps; that every one of them is up to date and that no bond update increases the distance has to hold for every state, operator and number of sweeps.", "anchors": ["itensor/mps/mpoalgs.cc:fitApplyMPOImpl", "itensor/mps/mpoalgs.cc:twoSiteFitApply", "itensor/mps/sweeps.h:sweepnext", "itensor/mps/mps.h:svdBond"]}
{"id": "C74", "title": "expect, diag and size of a LocalMPO describe the matrix that product applies", "statement": "For every LocalOp with zero, one or two centre sites and at least one edge tensor, diag() holds at each label (left link, sites, right link) the real part of the diagonal element of the matrix that product applies, and that element itself when it is real, as for a Hermitian operator. size() is the number of labels. After every history of a LocalMPO, expect(phi) is the real part of <P|H|P>, where P is the state with phi in place of the centre sites; for the centre sites of psi it is the real part of <psi|H|psi>.", "quantifier": "all edge and MPO tensors, all link and site dimensions, zero to two centre sites, a missing left or right edge, all histories of positions, changes, shifts and resets", "why_tests_cant": "Tests compare one operator on a few sites; the cases (number of centre sites, which edge is missing) and the tied indices multiply.", "anchors": ["itensor/mps/localop.h: LocalOp::expect, LocalOp::diag, LocalOp::size", "itensor/mps/localmpo.h: LocalMPO::expect, LocalMPO::diag, LocalMPO::size"]}
