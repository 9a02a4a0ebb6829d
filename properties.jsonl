{"id": "C01", "title": "Balanced tree behaves as a finite set/map of keys", "statement": "After any history of adding elements (an add of an existing key overwrites it) and removing keys of an AVL keyed tree whose element carries its own key, a membership query answers yes exactly for the keys added and not since removed, a lookup returns the element most recently added for that key, length() is the number of such keys, and a lookup of an absent key reports absence.", "quantifier": "all key types with a total order, all finite sequences of add and remove calls, all queried keys", "why_tests_cant": "the number of rotation/re-balancing shapes grows without bound with the history; a unit test samples a handful of insertion orders", "anchors": ["include/tree.h: ktree_avl::add, ktree_avl::remove, tree::haskey, tree::operator[], tree::length"]}
{"id": "C02", "title": "In-order access agrees with rank", "statement": "In any reachable AVL tree, asking for the element at order i (0 <= i < length) returns the i-th smallest element, asking for the order of a key returns the number of strictly smaller keys, and the two are inverse; out-of-range orders and missing keys are rejected.", "quantifier": "all reachable trees, all indices, all keys", "why_tests_cant": "subtree weights are maintained incrementally by rotations and the two-child removal path; any missed update only shows up on particular shapes", "anchors": ["include/tree.h: tree::getatorder, tree::getorderof, ktree_avl::rotate_left, ktree_avl::rotate_right, ktree_avl::rebalance"]}
{"id": "C03", "title": "Balanced tree stays logarithmic", "statement": "After any history of adds and removes the depth of an AVL tree with n elements is at most about 1.44*log2(n+2): a tree of depth h holds at least Fib(h+2)-1 elements, so lookup recursion is bounded.", "quantifier": "all reachable trees", "why_tests_cant": "worst-case shapes need adversarial histories; tests can only measure some", "anchors": ["include/tree.h: ktree_avl::append, ktree_avl::remove, ktree_avl::rebalance"]}
{"id": "C04", "title": "Storage positions are dense and stable", "statement": "Elements of a tree are stored at positions 0..length-1 in order of first insertion: adding a new key gives it position length, overwriting keeps its position, and removing the element at position p moves each later element down by exactly one position and leaves earlier ones where they are.", "quantifier": "all reachable trees, all keys and positions", "why_tests_cant": "removal compacts the storage with a raw memory move and then renumbers every link; a missed link is visible only for particular shapes", "anchors": ["include/tree.h: tree::expunge, tree::getposition, tree::getatposition, ktree_avl::append, ktree_avl::remove"]}
{"id": "C05", "title": "Removing a key from a key-to-value tree leaves the other bindings alone", "statement": "After removing key k from a tree mapping separate keys to values, every other key still maps to the value it had and k is absent.", "quantifier": "all trees over separate key and value types, all keys", "why_tests_cant": "the failing case needs a node with a right child, i.e. a certain insertion history", "anchors": ["include/tree.h: ktree_avl::remove", "libop/libop.cpp: OP_LE_Reset, OP_HT_Reset"]}
{"id": "C06", "title": "Left-leaning red-black tree insertion keeps a searchable balanced tree", "statement": "After any sequence of add calls, the left-leaning red-black tree answers membership, lookup and order queries as the sorted set of distinct keys added, and its depth is at most three times its black height, hence at most 3*log2(n+1) for n keys.", "quantifier": "all key types with a total order, all finite sequences of adds", "why_tests_cant": "splits and rotations interact along a path of unbounded length", "anchors": ["include/tree.h: ktree_llrb::add, ktree_llrb::append, ktree_llrb::haskey, ktree_llrb::getorder"]}
{"id": "C07", "title": "Container capacity always covers the content", "statement": "For up to 2^29 elements and any block size from 1 to 2^29-1 the buffer size computed for n elements exists, is at least n, is a multiple of the grown block, is never smaller for larger n, and exceeds n by less than max(block, n). (Beyond that the 32-bit arithmetic wraps and the computation need not terminate.)", "quantifier": "all 32-bit element counts and block sizes", "why_tests_cant": "2^64 input pairs; failure needs huge counts where 32-bit arithmetic wraps", "anchors": ["include/set.h: set::bufsize"]}
{"id": "C08", "title": "Sequence set edits are list edits", "statement": "On a sequence set, inserting s elements at position p<=length shifts exactly the elements from p on by s and changes nothing else; removing s elements at p drops exactly those (clamped at the end, as long as p+s fits in 32 bits); out-of-range or zero-count requests are rejected and leave the set unchanged.", "quantifier": "all contents, all positions and counts, all operation histories", "why_tests_cant": "edits are raw memmoves with index arithmetic; errors hide at boundaries and with large counts", "anchors": ["include/set.h: sset::add, sset::remove, fset::resize"]}
{"id": "C09", "title": "Inserting beyond the end of a sequence set defines every element", "statement": "After adding an element at a position beyond the current end, every element between the old end and the new one is a properly constructed (default) element.", "quantifier": "all set lengths and all positions", "why_tests_cant": "reading an element that was never constructed may appear to work in a test run", "anchors": ["include/set.h: sset::add", "src/pavement.cpp: LEsystem::addload"]}
{"id": "C10", "title": "Sorting an ordered set sorts it", "statement": "sort() on an ordered set terminates and leaves a permutation of the elements in non-decreasing order.", "quantifier": "all element types with a total preorder, all lengths and contents, including many equal elements", "why_tests_cant": "the hand-written quicksort has a moving pivot, a small-range cut-off and an insertion-sort fallback; the combinations are unbounded", "anchors": ["include/set.h: oset::sort, oset::qsort, oset::isort"]}
{"id": "C11", "title": "Finding a value in an ordered set is exact", "statement": "After sort(), looking up a value returns the index of an equal element if there is one and the not-found marker otherwise; no access is out of bounds.", "quantifier": "all sorted contents, all searched values", "why_tests_cant": "binary-search boundary errors occur on particular lengths and positions", "anchors": ["include/set.h: oset::findvalue", "src/pavement.cpp: findvalue"]}
{"id": "C12", "title": "Compacting a set removes exactly the duplicates", "statement": "After sort() on a compacting set the elements are strictly increasing and an element is present afterwards exactly when it was present before.", "quantifier": "all contents", "why_tests_cant": "run-length block moves depend on the pattern of duplicates", "anchors": ["include/set.h: cset::sort, cset::compact"]}
{"id": "C13", "title": "Indexed set keeps its sorted index consistent", "statement": "In an indexed set, after any history of adds and removes, elements are distinct, element access by position gives insertion order, iteration through the sorted index gives the elements in increasing order, and membership search agrees with the contents.", "quantifier": "all histories of add/remove", "why_tests_cant": "index renumbering after removal touches all entries; errors depend on the relative order of position and rank", "anchors": ["include/set.h: iset::add, iset::remove, iset::hasvalue, iset::getindex, iset::getorder"]}
{"id": "C14", "title": "Keyed set is an insertion-ordered map", "statement": "After any history of add (existing key: replace value), replace and remove on an unsorted keyed set, lookup by key returns the latest value for exactly the present keys, and positions list keys in insertion order without duplicates.", "quantifier": "all histories, all keys", "why_tests_cant": "depends on the whole history", "anchors": ["include/set.h: ksset::add, ksset::remove, ksset::replace, kfset::haskey"]}
{"id": "C15", "title": "Removing from an associative set removes the requested element", "statement": "Removing position p (or key k) of an associative set removes exactly that element.", "quantifier": "all associative sets and positions", "why_tests_cant": "needs checking every position including the last", "anchors": ["include/set.h: asset::remove"]}
{"id": "C16", "title": "Assigning a set to itself preserves it", "statement": "Assigning any set container to itself leaves its contents unchanged.", "quantifier": "all sets", "why_tests_cant": "aliasing is never exercised by ordinary tests", "anchors": ["include/set.h: fset::operator="]}
{"id": "C17", "title": "Growing or shrinking a table along an axis keeps every other cell", "statement": "Adding position p to axis d of an n-dimensional table moves every existing cell to the coordinates with that axis index shifted, and removing position p drops exactly the cells with that index; all other cells keep their values.", "quantifier": "all numbers of dimensions, all sizes, all positions, all histories of add/remove on the axes", "why_tests_cant": "stride arithmetic over unbounded dimensions; tests use two or three small dimensions", "anchors": ["include/table.h: table::add, table::remove, table::make_index, table::length"]}
{"id": "C18", "title": "Clearing one axis of a table keeps its bookkeeping consistent", "statement": "After one axis of a table has been emptied and positions are added to it again, the table has one cell for each combination of axis positions.", "quantifier": "all tables with two or more axes, all histories", "why_tests_cant": "the inconsistency shows up only after an empty-then-add history on a multi-axis table", "anchors": ["include/table.h: table::empty, table::add"]}
{"id": "C19", "title": "Listeners are notified in order, exactly once per event", "statement": "Each dispatched event reaches every currently attached listener exactly once, in attachment order (with 'before' placement honoured), and no detached listener.", "quantifier": "all histories of attach, detach and dispatch", "why_tests_cant": "depends on the history of list edits", "anchors": ["include/listen.h: listener, message dispatch, attach"]}
{"id": "C20", "title": "Dependent axis stays keyed by its parent", "statement": "On an axis that depends on a parent axis, entries are ordered by (parent position, key), an entry can only be added for an existing parent position, and removing a parent position removes exactly the dependent entries and shifts the later ones.", "quantifier": "all histories of add/remove on parent and dependent axes", "why_tests_cant": "cascaded removals depend on the tree shape", "anchors": ["include/axis.h: axis::add, axis::remove, axis::listen callbacks"]}
{"id": "C21", "title": "Task results are delivered once each and in submission order", "statement": "For every interleaving of worker threads, each task submitted to the queue runs at most once, completion callbacks run in submission order and each exactly once by the time drain() returns, when no task throws.", "quantifier": "all interleavings of any number of workers, all numbers of tasks", "why_tests_cant": "schedules are unbounded and non-deterministic", "anchors": ["include/task.h: task_queue::enqueue, task_queue::drain, task_queue::result, worker loop"]}
{"id": "C22", "title": "A throwing task does not hang the queue", "statement": "If a task throws, drain() and the destructor still terminate.", "quantifier": "all schedules in which some task throws", "why_tests_cant": "needs a particular interleaving with tasks still queued", "anchors": ["include/task.h: task_queue"]}
{"id": "C23", "title": "Slab allocations are aligned, in bounds and disjoint", "statement": "All blocks handed out since the last reset are 16-byte aligned, lie inside memory obtained from the system and do not overlap each other, for any sequence of request sizes.", "quantifier": "all sequences of allocation sizes and resets", "why_tests_cant": "depends on the history of sizes around slab boundaries", "anchors": ["include/cache.h: slab_cache::allocate, slab_cache::create, slab_cache::reset"]}
{"id": "C24", "title": "Replaying allocations after a reset returns the same blocks", "statement": "If after reset() the same sequence of sizes is requested, each request returns the same address as the first time, so data kept in the blocks is found again.", "quantifier": "all request sequences and all numbers of replays", "why_tests_cant": "re-use depends on slab boundaries crossed by the history", "anchors": ["include/cache.h: slab_cache::reset, slab_cache::allocate", "src/pavement.cpp: LEsystem::calculate"]}
{"id": "C25", "title": "Constant-string hashing and comparison are consistent", "statement": "The compile-time string hash is FNV-1a of its bytes, three-way comparison is a total order on strings, equal strings have equal hashes, == and < agree with three-way comparison and != is the negation of ==.", "quantifier": "all pairs of byte strings", "why_tests_cant": "hash collisions and embedded zero bytes are outside any sample", "anchors": ["include/conststr.h: conststr, hash, compare, operator==, operator!="]}
{"id": "C26", "title": "A variant can only be read back as the type it was given", "statement": "Reading a variant as type T succeeds exactly when the value stored in it was of type T (types distinguished by their name hash), and returns the stored value; every other read is rejected and leaves the variant unchanged.", "quantifier": "all histories of set/get/copy on variants", "why_tests_cant": "type-tag confusion depends on the order of operations", "anchors": ["include/variant.h: variant, vunctor, validator", "include/ctti.h: type_index"]}
{"id": "C27", "title": "Read/write tracking rejects writing a value after use", "statement": "A tracked variable that has been used as an input cannot be silently written afterwards in the same evaluation; after a reset it can.", "quantifier": "all histories of reads, writes, marks and resets", "why_tests_cant": "depends on the order of operations", "anchors": ["include/variant.h: mark_read_as_used, mark_reset, operator="]}
{"id": "C28", "title": "Layer list edits are list edits", "statement": "Adding a layer without a position appends it; adding at the position p of an existing layer (or at any position when there is none) inserts it so that it becomes layer p; removing layer l removes exactly that layer; the layer count and order are otherwise unchanged, forward and backward links stay mutually consistent.", "quantifier": "all histories of layer additions and removals", "why_tests_cant": "linked-list surgery errors depend on the neighbourhood and history", "anchors": ["include/list.h: listelement_o, list_owned", "src/pavement.cpp: LEsystem::addlayer, LEsystem::removelayer, LEsystem::layer"]}
{"id": "C29", "title": "Results are never stale", "statement": "A result is only returned if no layer, load or evaluation point has been changed since the calculation that produced it; otherwise the query is refused until the next successful calculation.", "quantifier": "all histories of edits, calculations and queries on a pavement system, including backcalculation", "why_tests_cant": "the invalidation protocol must hold for each interleaving of edits and calculations", "anchors": ["src/pavement.h: LEsystem_cache, LEsystem::result, LEsystem::results", "src/pavement.cpp: LElayer setters, LEsystem::calculate, LEsystem::calc_accurate, LEbackcalc::backcalc"]}
{"id": "C30", "title": "Automatic layer assignment of evaluation points follows the geometry", "statement": "A point added without a layer is evaluated in the layer that contains its depth at the time of the calculation (upper boundary inclusive), and a point with an explicit layer is accepted exactly when its depth lies in or on the boundary of that layer.", "quantifier": "all layer stacks, depths and edit histories", "why_tests_cant": "the assignment made by an earlier calculation persists; only histories with geometry changes expose it", "anchors": ["src/pavement.cpp: LEsystem::check"]}
{"id": "C31", "title": "Deflection gradients equal finite differences of deflections", "statement": "For each evaluation point and layer, the reported deflection gradient is the finite difference of the superposed deflection with respect to that layer's log-modulus, independent of how many different load radii there are.", "quantifier": "all numbers of layers, loads and distinct radii, all response functions", "why_tests_cant": "the control flow (a goto loop sharing the modulus array) matters, not particular numbers", "anchors": ["src/pavement.cpp: LEsystem::calculate (gradloop)"]}
{"id": "C32", "title": "Superposition of load responses is a tensor rotation", "statement": "Adding a load's axisymmetric response to a point adds the same cartesian stress tensor as rotating it by the load direction: the special cases for axis-aligned directions agree with the general one, the in-plane trace and determinant are rotation invariant.", "quantifier": "all directions and response values", "why_tests_cant": "continuous inputs", "anchors": ["src/pavement.cpp: axialdata::addtodata"]}
{"id": "C33", "title": "Principal stresses are sorted and preserve the stress invariants", "statement": "The three principal stresses reported are in increasing order, the three principal shears are the half differences in increasing order, and each elimination step preserves the trace and the sum of squares of the tensor.", "quantifier": "all stress tensors (in exact arithmetic)", "why_tests_cant": "continuous inputs, unbounded iteration count", "anchors": ["src/pavement.cpp: pavedata::principle"]}
{"id": "C34", "title": "Handle-based API isolates systems", "statement": "Every handle returned by creating a pavement or thermal system refers to that system until it is reset, is distinct from all other live handles and from the error value, and operations on one handle never affect or access another system or a destroyed one.", "quantifier": "all histories of create/reset/other calls", "why_tests_cant": "the failing histories need three or more live handles and a particular reset order", "anchors": ["libop/libop.cpp: OP_LE_Create, OP_LE_Reset, OP_HT_Init, OP_HT_Reset", "include/tree.h: ktree_avl"]}
{"id": "C35", "title": "Load-group numbering is consistent across the C API", "statement": "The group number used to add a load to a group selects the same group when removing that load or reading that group's results.", "quantifier": "all group numbers and histories", "why_tests_cant": "depends on history of groups", "anchors": ["libop/libop.cpp: OP_LE_AddGroupLoad, OP_LE_RemoveGroupLoad, OP_LE_GroupResult"]}
{"id": "C36", "title": "In-place transpose transposes", "statement": "In-place transposition of any m-by-n row-major array yields the n-by-m transpose and terminates.", "quantifier": "all shapes and contents", "why_tests_cant": "cycle-following over all cycle structures of the transposition permutation", "anchors": ["src/linalg.cpp: transpose"]}
{"id": "C37", "title": "Packed storage indexing is a bijection", "statement": "The packed triangular and banded index functions map the stored (row, column) pairs one-to-one onto 0..size-1.", "quantifier": "all matrix orders, bandwidths and index pairs", "why_tests_cant": "all sizes", "anchors": ["include/linalg.h: T_SIZE, T_IDX, B_SIZE, B_IDX"]}
{"id": "C38", "title": "Gaussian elimination solves the system", "statement": "In exact arithmetic, if the Gaussian elimination solver accepts a matrix, the returned vector x satisfies A x = b; if the matrix is non-singular and pivots are above the threshold it is accepted.", "quantifier": "all orders, matrices and right-hand sides", "why_tests_cant": "unbounded order and pivoting patterns", "anchors": ["src/linalg.cpp: equ_gauss, inv_mul_gauss"]}
{"id": "C39", "title": "Determinant returned by Gauss elimination is the determinant", "statement": "inv_mul_gauss returns det(A) together with the solution.", "quantifier": "all matrices", "why_tests_cant": "sign errors depend on the permutation", "anchors": ["src/linalg.cpp: inv_mul_gauss"]}
{"id": "C40", "title": "LU solve and inverse are correct", "statement": "In exact arithmetic, when LU decomposition accepts A, forward/back substitution returns x with A x = b, the LU inverse satisfies A*inv = I, and the returned determinant is the determinant of A (with sign of the row permutation).", "quantifier": "all orders and matrices", "why_tests_cant": "unbounded order and pivoting patterns", "anchors": ["src/linalg.cpp: decmp_lu, bksub_lu, equ_lu, inv_mul_lu, inv_lu"]}
{"id": "C41", "title": "Symmetric factorisations solve the system", "statement": "In exact arithmetic, when the Cholesky (dense, packed or banded) or LDL' factorisation of a symmetric matrix succeeds, back substitution returns the solution of A x = b.", "quantifier": "all orders, bandwidths and matrices", "why_tests_cant": "unbounded order", "anchors": ["src/linalg.cpp: decmp_chol, decmp_chol_tri, bksub_chol, decmp_ldl, bksub_ldl"]}
{"id": "C42", "title": "QR solve is correct", "statement": "QR decomposition followed by its back substitution solves A x = b.", "quantifier": "all non-singular matrices", "why_tests_cant": "uninitialised reads may go unnoticed in tests", "anchors": ["src/linalg.cpp: decmp_qr, bksub_qr"]}
{"id": "C43", "title": "Eigen-decomposition back substitution handles multiple right-hand sides", "statement": "Back substitution with an eigen-decomposition solves for the requested column of a multi-column right-hand side and leaves other columns alone; eigenpairs are sorted in descending order and stay paired.", "quantifier": "all orders, column counts and column choices", "why_tests_cant": "only single-column use is tested", "anchors": ["src/linalg.cpp: bksub_eig, eig_ql, equ_eig, inv_eig"]}
{"id": "C44", "title": "Lazy matrix expressions evaluate to the expression", "statement": "Converting any lazily evaluated matrix expression (negation, transpose, sum, product) to a dense matrix gives the value of that expression.", "quantifier": "all expressions and sizes", "why_tests_cant": "unbounded nesting of expressions", "anchors": ["include/matrix.h: matrix_operator, getdense", "include/tmatrix.h"]}
{"id": "C45", "title": "Uniform temperature is a fixed point of the thermal model", "statement": "In exact arithmetic a pavement at uniform temperature whose surface and bottom are held at that temperature stays at it for any number of time steps, for every layer structure, mesh and time step.", "quantifier": "all meshes, element orders (1, 2, 4), layer diffusivities, time steps and numbers of steps", "why_tests_cant": "continuous parameters and unbounded steps", "anchors": ["src/thermal.cpp: FEMthermal::FEMthermal, FEMthermal::step"]}
{"id": "C46", "title": "Temperature interpolation reproduces nodal values and polynomials", "statement": "Interpolation at (sorted) depths returns nodal temperatures at nodes, clamps outside the mesh, and reproduces any polynomial temperature profile of the element order exactly.", "quantifier": "all meshes and sorted depth lists", "why_tests_cant": "continuous inputs", "anchors": ["src/thermal.cpp: FEMthermal::interpolate"]}
{"id": "C47", "title": "Meshes and layers that do not match are rejected", "statement": "Constructing a thermal model whose mesh extends below the layers or does not line up with layer boundaries is rejected with an error, never undefined behaviour.", "quantifier": "all layer and mesh inputs", "why_tests_cant": "out-of-bounds reads may go unnoticed in tests", "anchors": ["src/thermal.cpp: FEMthermal::FEMthermal"]}
{"id": "C48", "title": "Fixed-width integer parsing", "statement": "Parsing a fixed-width field of optional blanks, an optional minus sign and decimal digits returns the integer it denotes.", "quantifier": "all digit strings and widths", "why_tests_cant": "all strings", "anchors": ["src/traffic.cpp: str2int"]}
{"id": "C49", "title": "Line reader always terminates its buffer", "statement": "Reading a line into a buffer of length l writes exactly l bytes, contains only printable characters followed by at least one terminator, keeps the first l-1 characters of the line, and consumes exactly one line of input.", "quantifier": "all inputs and buffer lengths", "why_tests_cant": "all byte streams", "anchors": ["src/traffic.cpp: fgetln"]}
{"id": "C50", "title": "Every axle of a heavy vehicle is counted exactly once", "statement": "Processing a heavy vehicle adds its axle groups so that the number of axles represented by the counts increases by the vehicle's number of axles; light, short and rejected vehicles change no axle counts.", "quantifier": "all vehicle records", "why_tests_cant": "grouping depends on unbounded spacing patterns", "anchors": ["src/traffic.cpp: WIMday::AddRSAVehicle"]}
{"id": "C51", "title": "Reading back daily counts sums each day once", "statement": "Reading a binary survey file sums exactly the days in the requested period, each once.", "quantifier": "all files", "why_tests_cant": "end-of-file handling depends on the stream state", "anchors": ["src/traffic.cpp: WIMsurvey::Read, WIMday::operator+="]}
{"id": "C52", "title": "Random generator outputs stay in their documented intervals", "statement": "For every seed and every number of draws, the four uniform generators return values in [1,2), [0,1), (0,1] and (0,1) respectively.", "quantifier": "all 2^32 seeds, all draw counts", "why_tests_cant": "period 2^19937; tests sample a prefix", "anchors": ["include/rng.h: rng::c1o2, rng::c0o1, rng::o0c1, rng::o0o1, rng::regen"]}
{"id": "C53", "title": "Seeding certifies the generator's period", "statement": "For every seed the state after construction satisfies the parity (period certification) condition.", "quantifier": "all 2^32 seeds", "why_tests_cant": "exhaustive seeding is impractical and tests pick one", "anchors": ["include/rng.h: rng::rng"]}
{"id": "C54", "title": "Monte-Carlo realisations do not depend on creation order", "statement": "Rolling the dice gives each realisation a value that depends only on the generator state and the set of (trial, key) identities, not on the order in which the realisations were created; values already rolled are kept.", "quantifier": "all numbers and orders of realisations", "why_tests_cant": "factorially many orders", "anchors": ["include/randomvar.h: house::rolldice, realized::rolldice, realization::operator<"]}
{"id": "C55", "title": "Copying random variable handles is safe", "statement": "Copy assignment makes the target behave exactly like the source, and reference counts free each variable exactly once when its last handle dies.", "quantifier": "all histories of copies, assignments and destructions", "why_tests_cant": "use-after-free on self assignment is not visible in ordinary tests", "anchors": ["include/randomvar.h: randomvar, realization"]}
{"id": "C56", "title": "FFT round trip and convolution", "statement": "In exact arithmetic the inverse complex (and real) transform undoes the forward one up to the documented scaling, for every power-of-two size, and pointwise multiplication of transforms yields cyclic convolution.", "quantifier": "all power-of-two sizes and inputs", "why_tests_cant": "all sizes; continuous inputs", "anchors": ["include/fft.h: fftc, fftc_un, fftr, fftr_un, fftc_scale, fftr_scale, fftc_mul"]}
{"id": "C57", "title": "Binomial coefficients are exact", "statement": "choose(n,k) is the binomial coefficient whenever it and the intermediate products fit, and zero outside 0<=k<=n.", "quantifier": "all n and k", "why_tests_cant": "overflow behaviour at the edges", "anchors": ["include/mathplus.h: choose"]}
{"id": "C58", "title": "Rounding helpers are floor, ceiling and round-half-away", "statement": "The integer rounding macros return the mathematical floor, ceiling and nearest integer (halves away from zero).", "quantifier": "all rational arguments in range", "why_tests_cant": "continuous inputs, sign cases", "anchors": ["include/mathplus.h: FLOOR, CEIL, ROUND"]}
{"id": "C59", "title": "Root finder never leaves its limits and returns a sign change", "statement": "The root finder never evaluates the function outside the supplied limits, evaluates it a bounded number of times, and if it returns normally the result is an exact zero or lies within the tolerance of a sign change.", "quantifier": "all functions and limits", "why_tests_cant": "all functions", "anchors": ["include/numerics.h: fzero", "src/numerics.cpp: fzero_core"]}
{"id": "C60", "title": "Minimiser never returns a point worse than its starting points", "statement": "The one-dimensional minimiser returns a point at which the function is no larger than at the end points of the bracket supplied.", "quantifier": "all functions and brackets", "why_tests_cant": "all functions", "anchors": ["src/numerics.cpp: fmin_brent"]}
{"id": "C61", "title": "Fixed-point numbers behave like scaled integers", "statement": "Conversion to and from int is exact/floor, addition, subtraction and comparison are those of the scaled integers when no overflow occurs, and the order agrees with the represented values.", "quantifier": "all representable values", "why_tests_cant": "2^64 pairs", "anchors": ["include/fixed.h: fixed"]}
{"id": "C62", "title": "Nested progress reporting is well-bracketed", "statement": "Any well-nested sequence of start/update/stop progress events keeps the reported fraction between 0 and 1 and returns to idle; malformed sequences are rejected.", "quantifier": "all event sequences", "why_tests_cant": "unbounded nesting and sequences", "anchors": ["include/event.h: event_progress"]}
{"id": "C63", "title": "A repeated calculation finds the cached geometry", "statement": "When only moduli, Poisson's ratios or slips change, the repeated calculation asks the slab cache for the same sequence of blocks and gets the blocks in which the first calculation left its depths, radii, distances and integration limits.", "quantifier": "all numbers of layers, depths, radii, distances and integration limits", "why_tests_cant": "only calculations larger than one slab with particular sizes fail, and they read plausible stale numbers", "anchors": ["src/pavement.cpp: LEsystem::calculate", "include/cache.h: slab_cache::allocate, slab_cache::reset"]}
{"id": "C64", "title": "Average axle spacings stay averages", "statement": "Adding a day to a survey makes the average axle spacing of each axle type the count-weighted average of the two, and the spacing kept for a day is the average over its axle groups.", "quantifier": "all days, all sequences of days", "why_tests_cant": "days without an axle of some type, histories", "anchors": ["src/traffic.cpp: WIMday::operator+=, WIMday::AddRSAVehicle"]}
{"id": "C65", "title": "Normal numbers come in Box-Muller pairs and are bounded", "statement": "For every seed and every number of calls, stdnormal never takes the logarithm of zero or the root of a negative number, its results come in pairs (r sin t, r cos t) made from two uniform numbers in (0,1], and none exceeds sqrt(104 ln 2).", "quantifier": "all 2^32 seeds, all numbers of calls", "why_tests_cant": "the extreme uniform 2^-52 and the interleaving of stored and fresh numbers are not reached by sampling", "anchors": ["include/rng.h: rng::stdnormal"]}
{"id": "C66", "title": "Gram-Schmidt orthonormalises", "statement": "orth_gs replaces the columns of the matrix by orthonormal vectors that span the same spaces: A = Q R with R upper triangular with a positive diagonal; it stops early exactly at the first column that depends on those before it.", "quantifier": "all orders and matrices (exact arithmetic)", "why_tests_cant": "orthogonality and span are for all real matrices; no test calls orth_gs on dependent columns", "anchors": ["src/linalg.cpp: orth_gs"]}
{"id": "C67", "title": "Time steps follow the trapezoidal rule", "statement": "In exact arithmetic every step of a thermal model built from valid input succeeds and gives the one solution of the trapezoidal rule for the finite element equations F dT/dt + K T = 0 with the two end temperatures given, where K and F are assembled from the exact integrals of the shape functions and their derivatives.", "quantifier": "all valid layer structures, meshes, element orders, time steps, start temperatures and sequences of end temperatures", "why_tests_cant": "continuous parameters, unbounded meshes and numbers of steps", "anchors": ["src/thermal.cpp: FEMthermal::FEMthermal, FEMthermal::step, Ke1..Ke4, Fe1..Fe4"]}
{"id": "C68", "title": "Steady heat flow is a fixed point of the thermal model", "statement": "In exact arithmetic a temperature that varies linearly in each element with the same flux (diffusivity times slope) in all of them is kept for any number of steps when the ends are held at it.", "quantifier": "all valid layer structures, meshes with evenly spaced nodes, element orders, time steps and numbers of steps", "why_tests_cant": "continuous parameters and unbounded steps", "anchors": ["src/thermal.cpp: FEMthermal::FEMthermal, FEMthermal::step"]}
{"id": "C69", "title": "Compound assignment of a matrix applies the value of its operand", "statement": "After A += x, A -= x, A *= d, A /= d and A = x for a matrix or number x, every element is the old element combined with the value x had before the assignment, also if x is A itself or a reference to one of its elements.", "quantifier": "all sizes, elements and operands, including those that alias the matrix", "why_tests_cant": "aliasing between the operand and the elements depends on which element is passed", "anchors": ["include/tmatrix.h 204-316", "include/matrix.h 236-268"]}
{"id": "C70", "title": "Singular value decomposition reproduces the matrix", "statement": "decmp_svd replaces an m x n matrix A (m >= n) by U and fills W and V such that A = U diag(W) V', the columns of U and V are orthonormal and W is not negative; bksub_svd then gives the least squares solution of least norm, equ_svd solves A x = b, inv_svd gives the inverse and orth_svd an orthonormal matrix; all memory accesses are in bounds.", "quantifier": "all sizes, matrices and right-hand sides", "why_tests_cant": "the iteration takes different paths for every matrix, rank deficiency needs special values, and reading one word behind the work array is usually silent", "anchors": ["src/linalg.cpp 662-939"]}
{"id": "C71", "title": "The pointer based red/black tree is a map, stays flat and counts correctly", "statement": "Any sequence of insert and remove calls on BST ends without undefined behaviour, get then finds exactly the entries of the reference map, the nodes are in key order, the longest path is at most three times the binary logarithm of the number of entries plus one, and the order of every node is the number of nodes to its left.", "quantifier": "all key types with a total preorder, all values and all histories of insert and remove", "why_tests_cant": "the rotations and colour flips met depend on the whole history; removal of an absent key crashes only for some shapes of the tree", "anchors": ["include/tree.h 60-246"]}
{"id": "C72", "title": "The normal distribution function is one", "statement": "In exact arithmetic stdnormal_cdf is defined for every number, lies strictly between 0 and 1, is strictly increasing also across the two places where its three formulas meet, satisfies cdf(-u) = 1 - cdf(u), tends to 0 and 1, and gives 0, 1 and NaN for the infinities and NaN; stdnormal_pdf is positive, symmetric and falls away from 0.", "quantifier": "all real arguments, infinities and NaN", "why_tests_cant": "the formulas differ by 1e-16 where they meet, and monotonicity is a claim about all pairs of numbers", "anchors": ["src/statistics.cpp 67-136"]}
{"id": "C73", "title": "The inverse normal distribution is defined and antisymmetric", "statement": "In exact arithmetic stdnormal_inv never divides by zero or takes a root or logarithm outside its domain, is finite for every probability strictly between 0 and 1, negative below 1/2, zero at 1/2, satisfies inv(1-p) = -inv(p), is infinite at 0 and 1 and NaN for everything else; it is the inverse of stdnormal_cdf up to a small error.", "quantifier": "all numbers, infinities and NaN", "why_tests_cant": "a vanishing denominator of the rational start values or of the Halley step would be at isolated points", "anchors": ["src/statistics.cpp 138-200"]}
{"id": "C74", "title": "Random variables have the moments and the range asked for", "statement": "A random variable made by make_rv has the mean and standard deviation of its distribution with the given parameters, and every realisation lies in the range of the distribution: all numbers for the normal, positive for the lognormal, between the limits for the uniform, one of the whole numbers with equal probability for the discrete, and the given number for the Dirac distribution.", "quantifier": "all parameters and all normal numbers", "why_tests_cant": "parameters and dice are numbers; a wrong moment formula looks plausible", "anchors": ["include/randomvar.h 242-292", "include/randomvar.h 374-526", "src/statistics.cpp 203-241"]}
{"id": "C75", "title": "The plain normal generator gives Box-Muller pairs", "statement": "Whatever numbers rand returns, the results of stdnormal_rnd come in pairs r sin w, r cos w made from two of them, no logarithm of zero is taken, and the squares of a pair sum to at most 2 ln(RAND_MAX+1).", "quantifier": "all sequences of results of rand and all numbers of calls", "why_tests_cant": "rand returning 0 or RAND_MAX is rare", "anchors": ["src/statistics.cpp 40-62"]}
{"id": "C76", "title": "The singly linked list is a list, the owning pointer frees once", "statement": "Over every history of insertions (at the end or in front of a given element), pushes, pops and removals list_single holds the elements of a plain list and every call returns what the plain list gives; emptying frees each element once. An autodelete array is never deleted twice and none is left when all objects are gone.", "quantifier": "all histories of operations, all lists", "why_tests_cant": "the class is not instantiated anywhere, and the number of histories is unbounded", "anchors": ["include/list.h 64-178", "include/autodelete.h 40-82"]}
{"id": "C77", "title": "The line search and the conjugate gradient search never make the fit worse", "statement": "Whatever the deflections are, brent returns a point on the line whose error is no more than at the start, and conjgrad keeps the moduli it hands back within the limits and does not end on a larger error before limiting. Over the reals, for a strictly convex error along the line, the distance brent returns is within its tolerance of the minimum. Both loops use the turning point of the parabola through their three points, and the search ends.", "quantifier": "all error functions, moduli, directions, tolerances and numbers of rounds", "why_tests_cant": "an error function for which the three points or the trial point coincide is not met by chance", "anchors": ["src/pavement.cpp 1779-1786", "src/pavement.cpp 2002-2019", "src/pavement.cpp 2258-2400"]}
{"id": "C79", "title": "The downhill simplex search keeps a proper simplex and never gets worse", "statement": "Through every reflection, expansion, contraction and shrinking the vertices carry their own errors, no plane comes to hold all of them, and the best error never increases; at the end they are sorted, closer together than the limit, and the moduli handed back are the best vertex limited to [1,9]. No access is out of the arrays. The search ends.", "quantifier": "all error functions, starting points, numbers of layers and limits", "why_tests_cant": "the sequence of moves depends on the error function and is unbounded", "anchors": ["src/pavement.cpp 2402-2515"]}
{"id": "C78", "title": "The Kalman and Gauss-Newton steps are the best linear steps and stay within the limits", "statement": "The Kalman step is the shortest change of the log moduli that makes wt times the sum of the squared misfits after it (for linear deflections) plus the noise term least; the value returned is its length; the change applied is the whole step if not longer than 1 and otherwise a step of length 1 the same way, and the moduli end in the limits. The Gauss-Newton step is the shortest least squares step, given in full. Deflections which already fit are left alone.", "quantifier": "all numbers of layers and deflections, gradients, misfits, weights, noises and contents of the work arrays", "why_tests_cant": "singular and nearly singular gradients, and an exact fit, do not come up with measured data", "anchors": ["src/pavement.cpp 2137-2181", "src/pavement.cpp 2190-2243"]}
{"id": "C80", "title": "The deflection gradient step solves its quadratic problem exactly", "statement": "With every gradient non-zero and exact arithmetic, the conjugate gradient loop of deflgrad never divides by zero or leaves an array, ends within nl+1 turns at the shortest change that minimises the sum of the squared distances to the planes on which the deflections fit (up to the precision), and never increases that sum; if that change is longer than 1 the step is cut to a length of at most 1; the moduli end in the limits and the value returned is the length of the step.", "quantifier": "all numbers of layers and deflections, gradients, misfits, precisions and contents of the work arrays", "why_tests_cant": "that nl turns suffice and that every iterate is conjugate to all before is a statement about all quadratic problems", "anchors": ["src/pavement.cpp 2040-2131"]}
{"id": "C81", "title": "The backcalculation driver ends with valid moduli, its own deflections and an honest verdict", "statement": "Whenever backcalc returns, it has made at most maxsteps*nl steps; if it got to its end, every modulus is between 10^1 and 10^9, the calculated deflections are those of these moduli for the load group of each deflection, the evaluation points are restored and true is returned only if the last step is no longer than the tolerance, that step being the least-squares step of the Kalman filter at the moduli before it; it never divides by zero or leaves an array, and throws only for a deflection of a load group that does not exist. Moduli which fit the deflections exactly are kept.", "quantifier": "all layers, deflections, load groups, settings and forward calculations", "why_tests_cant": "the path through three optimisers depends on real-valued comparisons and the exact-fit and other-group cases need particular data", "anchors": ["src/pavement.cpp 1789-1964", "src/pavement.cpp 1970-1993", "src/pavement.h 522-537"]}
{"id": "C82", "title": "The sparse stiffness matrix sums the blocks added to it and keeps them through tidy, copy and fill-in", "statement": "Blocks added in any order, above or below the diagonal, end up summed in that order at their places, a block added below the diagonal transposed; tidy keeps all blocks and leaves the nodes of each column in the order of their rows, linked in that order; a copy holds the same blocks; fillin keeps all blocks and adds zero blocks at exactly the places (i,j) for which some k has blocks at (k,i) and (k,j). No array is overrun, and the only failure is running out of memory. Refuted: tidy never ends once a column has 65536 nodes; chol() asks for row-column-nodes more nodes, which wraps to nearly 2^32, so it fails for every matrix with a block off the diagonal; nonzero() subtracts the heights of the columns where it should add them.", "quantifier": "all sizes below 2^16, all sequences of additions, all block types, all allocator limits", "why_tests_cant": "the order of the additions decides the links, and the wrapped counters need large meshes or a function no test calls", "anchors": ["fem3d/fem3d.cpp 1680-2022"]}
{"id": "C83", "title": "The incomplete Cholesky decomposition matches the stiffness matrix wherever a block is stored", "statement": "On every matrix made by the operations of the class, incchol either throws its exception or ends with a triangle U, kept with the reciprocals of its diagonal, that has positive diagonal and the same blocks as the matrix, and whose product U'U equals the matrix on the diagonal and in every stored block. If no block is missing where two blocks above it meet, U'U is the whole matrix, and the exception means that some vector with a component 1 has x'Ax < DBL_EPSILON, so a matrix that is positive by that margin is never refused. Refuted: a positive definite matrix with a missing block can be refused.", "quantifier": "all sizes below 2^16, all matrices built by append, tidy, copy and fillin, all ordered fields with a square root", "why_tests_cant": "the meeting of two sorted columns depends on the pattern of the mesh, and the breakdown needs particular numbers", "anchors": ["fem3d/fem3d.cpp 1919-1974"]}
{"id": "C84", "title": "The conjugate gradients of mesh::solve solve the assembled system", "statement": "For every symmetric positive definite matrix made by the operations of the class and every force that is not zero, the preconditioned conjugate gradient loop of mesh::solve either is not reached because the incomplete Cholesky decomposition throws, or ends (in exact arithmetic) after at most three steps per node, never reads out of bounds and never divides by zero, and returns a displacement U whose defect F-AU is smaller than the tolerance asks: |F-AU|^2 < tol |F|^2, with the residual vector equal to that defect. With no force at all it divides by zero.", "quantifier": "all sizes below 65536, all matrices made by new, append, tidy, copy, fillin and setting of diagonal blocks with symmetric diagonal blocks and positive form, all forces, starting displacements and tolerances > 0, any ordered field with square roots", "why_tests_cant": "A run shows one mesh in floating point; that the loop ends for every matrix and that each step keeps residual, directions and preconditioner consistent needs the orthogonality argument over all steps.", "anchors": ["fem3d/fem3d.cpp 2657-2776"]}
{"id": "C85", "title": "mesh::solve assembles the equations of equilibrium", "statement": "For every mesh whose elements list distinct existing nodes and have symmetric stiffness, every list of prescribed displacements and of forces, and every numbering of the nodes, the assembly of mesh::solve reads and writes in bounds and makes a matrix A and a right side F such that, for every displacement x, the defect F-Ax at a free direction of a node is the force out of balance there (external force less the sum of the forces of all elements, with the prescribed displacements put in) and at a prescribed direction the distance of x from the prescribed value; prescribed values different from zero are carried to the right side of all neighbours. A is symmetric, and positive whenever the elements resist each displacement that leaves the prescribed directions alone; then the whole solution either throws in the decomposition or returns a displacement whose leftover is within the tolerance. An element with a node twice is assembled wrongly.", "quantifier": "all meshes below 65536 nodes, elements of any number of nodes, any conditions and forces with distinct keys, any permutation as numbering, any ordered field (with square roots for the solution)", "why_tests_cant": "Whether rows and columns of partly fixed nodes are all cleared, whether transposed blocks are used on the right side and whether the numbering is applied everywhere depends on the pattern of the mesh and of the conditions; a test mesh shows one.", "anchors": ["fem3d/fem3d.cpp 597-630", "fem3d/fem3d.cpp 2516-2655"]}
{"id": "C86", "title": "A mesh keeps its nodes, conditions and forces, and mesh::solve solves them", "statement": "After any history of addnode, getnode with updatenode, add_bc (at a node or in a plane), add_fext and successful mesh::solve, every allowed call goes through without touching memory it should not. Nodes keep the number they got first; a node added again gives its number; hasnode, getnode and getorderofnode find exactly the nodes added; the numbering of the system is a permutation, from the top down, then along x, then along y. The conditions are the last one set for each node and direction, the forces the sum of those applied, and both sets hold each node and direction once. mesh::solve either throws in the decomposition or returns a mesh in which only the displacements have changed, with a leftover below the tolerance as measured on the conditions and forces given, and marks that do no harm to the next solution. A copy of a node taken before another node is added must not be written back: it overwrites the links of the tree and loses nodes. getorderofnode of a node that is not there reads out of bounds, adding a node twice to the list itself and a plane in two directions fail assertions.", "quantifier": "all histories of calls (any number of nodes, conditions, forces and solutions), all coordinates, bit masks and values, any ordered field with square roots for the solution, up to 65535 nodes for solutions", "why_tests_cant": "The shape of the tree of nodes depends on the whole history of insertions and updatenode overwrites its links; a test runs a few meshes built in one order and cannot show that no order of calls loses a node or mixes up the numbering.", "anchors": ["fem3d/fem3d.cpp 296-337", "fem3d/fem3d.cpp 441-589", "fem3d/fem3d.cpp 2051-2071", "fem3d/fem3d.cpp 2395-2550", "fem3d/fem3d.cpp 2570-2586"]}
{"id": "C87", "title": "The shape functions and the Gauss points of the elements are right", "statement": "Every shape function of getN and slope of getdN has its value (the infinite ones away from the pole of the mapping). The functions add up to one and their slopes to zero for the finite shapes and for the mapping of the infinite ones; each is one at its own node and zero at the others; the finite ones give back the place itself. The slopes are the derivatives, for the absolute shape away from the kink and half way at the kink, for the infinite mapping away from its pole. buildSF_block fills every entry with the product of the three directions, and these add up to one with slopes that add up to zero. The Gauss rules of two, three and four points are exact up to degree 3, 5 and 7, the Lobatto rule of four points up to degree 5, the rule for the absolute shape up to degree 3 on each half; all weights used are positive. The functions of the infinite elements other than the mapping do not add up to one.", "quantifier": "all shapes, nodes, places and polynomials up to the degree, any ordered field (with square roots for the Gauss points)", "why_tests_cant": "An error in a coefficient shows only as a slightly wrong displacement at places where no exact solution is known; tests compare printed results of a few meshes and never evaluate the functions at all places.", "anchors": ["fem3d/fem3d.cpp 340-358", "fem3d/fem3d.cpp 891-917", "fem3d/fem3d.cpp 1345-1485"]}
{"id": "C88", "title": "The element stiffness is the symmetric stiffness of the elastic material and resists every strain", "statement": "The point stiffness tensor gives the stress of Hooke's law with Lamé's constants. inv_mul_gauss either solves J B = d for all columns with the determinant of J, or throws, and throws whenever the determinant is zero. buildKe throws exactly when at some Gauss point the Jacobian is spoilt (a small pivot or a determinant that is not positive), and otherwise the entry of nodes i and j is the weighted sum over the Gauss points of the stress of one node's unit displacement against the gradient of the other. So the matrix is symmetric, the nodal forces are those of the stress at the Gauss points, the energy is the sum of the energies there, it is not negative for every stable material and zero only when no Gauss point is strained, and the same holds for a whole mesh of such elements. A linear displacement gives its own constant gradient at every Gauss point (the patch test), so that translation and turning give no force. For a box with its sides along the axes, of any of the shapes, buildKe does not throw. An element whose first pivot is zero is turned down although its determinant is not zero.", "quantifier": "all materials, shapes, node coordinates, Gauss rules and displacements, any ordered field", "why_tests_cant": "A wrong index in the five nested loops or in the elimination gives a matrix that is still solvable; the printed deflections of a few meshes have no exact value to compare to, and no test checks the symmetry, the patch test or the sign of the energy.", "anchors": ["fem3d/fem3d.cpp 95-190", "fem3d/fem3d.cpp 253-285", "fem3d/fem3d.cpp 632-668", "fem3d/fem3d.cpp 1046-1154"]}
{"id": "C89", "title": "An element puts its corners in order and its nodes where the shape functions have them", "statement": "coord_sort ends after at most four rounds; it throws exactly when the sums of two opposite faces are equal in some direction, and otherwise gives a mirror image of the corners whose lower faces come first in all three directions. The corners of a box, mirrored in any way, come out in the one standard order. coord_add on such a box gives, for every node of the product of the three shapes, the place where the shape functions of that node are one (scaled to the box), in the order in which buildSF_block numbers them. From the corners of a box in any mirrored order on to the stiffness, coord_sort, coord_add and buildKe all go through. Corners in another order than a mirrored one are taken as they are and make buildKe throw.", "quantifier": "all coordinates of the eight corners, all shapes in the three directions, any ordered field", "why_tests_cant": "The tests create elements whose corners already are in the standard order; a wrong swap or weight shows only for the other seven orders or the other shapes.", "anchors": ["fem3d/fem3d.cpp 1258-1314"]}
{"id": "C90", "title": "The elements with optional nodes give back every linear field", "statement": "For every set of optional nodes in which a node in the middle of a level comes with the four edges of that level, buildSF_variable ends without touching anything outside its arrays, the functions give back every linear field and their slopes its gradient (so the functions add up to one and the slopes to zero), and each function is one at its own node and zero at all other nodes that are there. With a node in the middle but not all edges this fails. buildSF_adaptor gives back every linear field with its gradient when on each level there are only edges opposite each other and no middle, or all edges and the middle, and only then: on any other set of nodes the functions do not even add up to one.", "quantifier": "all masks of optional nodes with numbers of their own, all shapes over the depth but the infinite ones, all places, any ordered field", "why_tests_cant": "There are 32 sets of optional nodes for each level; a mesh of the tests has a few of them, and a set on which the functions do not add up to one only shows as a slightly wrong displacement near the change of the mesh.", "anchors": ["fem3d/fem3d.cpp 915-1045"]}
{"id": "C91", "title": "The principal values are those of the tensor", "statement": "Each round of principle keeps the characteristic polynomial, the trace and the norm of the tensor, never divides by zero, clears the entry (1,2), does not raise the sum of the squares off the diagonal, and from the second round on at least halves it. So after at most one round more than the number of halvings that bring this sum below the limit the loop ends, and the result is, in rising order, the diagonal of a tensor with the same principal values whose entries off the diagonal have squares that add up to no more than the limit. The three results add up to the trace, their squares to the square of the norm but for twice the limit, and the product of their distances from any value is the characteristic polynomial there but for the limit times the largest of these distances plus the root of the limit.", "quantifier": "all symmetric tensors, all limits that some number of halvings reaches, any ordered field with a hypot", "why_tests_cant": "That the loop ends for every tensor, and that no order of the three turns undoes another, is about all tensors and any number of rounds; a test tries a few tensors and sees only that it ended on those.", "anchors": ["fem3d/fem3d.cpp 192-251"]}
