# Design: machine-checked model of openpave/src

The model is written in Rocq/Coq 8.16.1 under `rocq/theories` (logical name
`Verif`).  `/repo` is read as text only.

## Conventions

* One `…Model.v` file per C++ component.  It holds total computable Gallina
  functions only; each definition cites the `/repo` file and lines it models and
  says where it simplifies.
* Undefined behaviour (out of bounds, null dereference, reading an element that was
  never constructed, running forever) is a separate outcome, never a default value.
  `outcome A = Ok a | Throw e | UB u`.  Loops use explicit fuel with the outcome
  `UB OutOfFuel`, and theorems prove that it is not reached.
* `…Spec` definitions (small, independent of model helpers) say what the property
  means.  `…Proofs.v` holds lemmas.  `Props….v` holds the final theorems, the
  `Example`s showing that hypotheses are satisfiable, and `Print Assumptions`.
* Unsigned 32-bit arithmetic is wrapped explicitly when the property depends on it;
  otherwise the no-overflow precondition is a stated hypothesis.
* Floating point is modelled by exact arithmetic (`Qc`, or `R` where roots or
  trigonometric functions are needed).  Rounding is out of scope and this is said in
  each model file.
* A claim that is false of the code is proved false: `…_refuted` with a concrete
  witness, next to the strongest guarded version that does hold (`…_partial` when it
  is a part of the claim).

## What is modelled and how it is proved, per property

Status is that of `MANIFEST.json`, whose notes say what is missing from a partial one.

| id | status | code | model and proofs | how |
|----|----|----|----|----|
| C01 | proved | include/tree.h: ktree_avl::add, ktree_avl::remove, tree::haskey, tree::operator[], tree::length | `AvlModel` (index-based tree, append, remove, rebalance, rotations, expunge); `AvlProofs`, `AvlQueries`, `AvlRemove`; `MapSpec`; theorems in `PropsTree` | abstraction of the index arrays to an inductive tree, representation invariant kept by every operation, refinement to an association list; depth by the Fibonacci bound |
| C02 | proved | include/tree.h: tree::getatorder, tree::getorderof, ktree_avl::rotate_left, ktree_avl::rotate_right, ktree_avl::rebalance | `AvlModel` (index-based tree, append, remove, rebalance, rotations, expunge); `AvlProofs`, `AvlQueries`, `AvlRemove`; `MapSpec`; theorems in `PropsTree` | abstraction of the index arrays to an inductive tree, representation invariant kept by every operation, refinement to an association list; depth by the Fibonacci bound |
| C03 | proved | include/tree.h: ktree_avl::append, ktree_avl::remove, ktree_avl::rebalance | `AvlModel` (index-based tree, append, remove, rebalance, rotations, expunge); `AvlProofs`, `AvlQueries`, `AvlRemove`; `MapSpec`; theorems in `PropsTree` | abstraction of the index arrays to an inductive tree, representation invariant kept by every operation, refinement to an association list; depth by the Fibonacci bound |
| C04 | partial | include/tree.h: tree::expunge, tree::getposition, tree::getatposition, ktree_avl::append, ktree_avl::remove | as C01; theorems in `PropsTree` | refinement for the guarded histories; the failing removals by computation on a concrete history |
| C05 | partial | include/tree.h: ktree_avl::remove; libop/libop.cpp: OP_LE_Reset, OP_HT_Reset | as C01; theorems in `PropsTree` | refinement for the guarded histories; the failing removals by computation on a concrete history |
| C06 | proved | include/tree.h: ktree_llrb::add, ktree_llrb::append, ktree_llrb::haskey, ktree_llrb::getorder | `LlrbModel` (ktree_llrb), `LlrbProofs`; theorems in `PropsLlrb` | inductive tree with colours, invariants by induction over add histories |
| C07 | proved | include/set.h: set::bufsize | `SetModel.bufsize` with 32-bit wrap; theorems in `PropsSet` | loop invariant; divergence by an invariant of the wrapped values |
| C08 | proved | include/set.h: sset::add, sset::remove, fset::resize | `SetModel` (set, fset, sset on cells that are constructed or raw); theorems in `PropsSet` | refinement to lists over all histories; witnesses by computation |
| C09 | partial | include/set.h: sset::add; src/pavement.cpp: LEsystem::addload | `SetModel` (set, fset, sset on cells that are constructed or raw); theorems in `PropsSet` | refinement to lists over all histories; witnesses by computation |
| C10 | proved | include/set.h: oset::sort, oset::qsort, oset::isort | `SortModel` (qsort, isort, findvalue, compact with bounds checks); theorems in `PropsSort` | loop invariants: permutation, sortedness, everything in bounds, termination |
| C11 | proved | include/set.h: oset::findvalue; src/pavement.cpp: findvalue | `SortModel` (qsort, isort, findvalue, compact with bounds checks); theorems in `PropsSort` | loop invariants: permutation, sortedness, everything in bounds, termination |
| C12 | proved | include/set.h: cset::sort, cset::compact | `SortModel` (qsort, isort, findvalue, compact with bounds checks); theorems in `PropsSort` | loop invariants: permutation, sortedness, everything in bounds, termination |
| C13 | proved | include/set.h: iset::add, iset::remove, iset::hasvalue, iset::getindex, iset::getorder | `KeySetModel` (iset, kiset, ksset, kfset, asset); theorems in `PropsKeySet` | representation invariants over histories; the failing removal for every set |
| C14 | proved | include/set.h: ksset::add, ksset::remove, ksset::replace, kfset::haskey | `KeySetModel` (iset, kiset, ksset, kfset, asset); theorems in `PropsKeySet` | representation invariants over histories; the failing removal for every set |
| C15 | partial | include/set.h: asset::remove | `KeySetModel` (iset, kiset, ksset, kfset, asset); theorems in `PropsKeySet` | representation invariants over histories; the failing removal for every set |
| C16 | partial | include/set.h: fset::operator= | `SetModel` (set, fset, sset on cells that are constructed or raw); theorems in `PropsSet` | refinement to lists over all histories; witnesses by computation |
| C17 | proved | include/table.h: table::add, table::remove, table::make_index, table::length | `TableModel` (flat array, strides, memmove per block); theorems in `PropsTable` | index arithmetic by induction over the dimensions; histories of axis messages |
| C18 | partial | include/table.h: table::empty, table::add | `TableModel` (flat array, strides, memmove per block); theorems in `PropsTable` | index arithmetic by induction over the dimensions; histories of axis messages |
| C19 | partial | include/listen.h: listener, message dispatch, attach | `ListenModel` (sinks as linked cells, removers); theorems in `PropsListen` | invariant of the linked lists over histories, callbacks as arbitrary program fragments |
| C20 | partial | include/axis.h: axis::add, axis::remove, axis::listen callbacks | `AxisModel`, `AxisSpec`, `AxisProofs`; theorems in `PropsAxis` | simulation by two sorted lists; non-termination witness by a loop invariant of the state |
| C21 | proved | include/task.h: task_queue::enqueue, task_queue::drain, task_queue::result, worker loop | `TaskModel`: transition system with any number of workers; theorems in `PropsTask` | inductive invariants over all schedules; a measure for fair executions; the hang for all schedules |
| C22 | partial | include/task.h: task_queue | `TaskModel`: transition system with any number of workers; theorems in `PropsTask` | inductive invariants over all schedules; a measure for fair executions; the hang for all schedules |
| C23 | partial | include/cache.h: slab_cache::allocate, slab_cache::create, slab_cache::reset | `SlabModel`; `PropsCalcCache` for C63; theorems in `PropsSlab` | invariants over allocation histories, replay by simulation; witnesses |
| C24 | partial | include/cache.h: slab_cache::reset, slab_cache::allocate; src/pavement.cpp: LEsystem::calculate | `SlabModel`; `PropsCalcCache` for C63; theorems in `PropsSlab` | invariants over allocation histories, replay by simulation; witnesses |
| C25 | partial | include/conststr.h: conststr, hash, compare, operator==, operator!= | `ConstStrModel`; theorems in `PropsConstStr` | order laws by induction over strings; FNV-1a with 64-bit words; collision checked by computation |
| C26 | partial | include/variant.h: variant, vunctor, validator; include/ctti.h: type_index | `VariantModel` (variant, vunctor; templates as parameters); theorems in `PropsVariant` | invariants over histories |
| C27 | partial | include/variant.h: mark_read_as_used, mark_reset, operator= | `VariantModel` (variant, vunctor; templates as parameters); theorems in `PropsVariant` | invariants over histories |
| C28 | proved | include/list.h: listelement_o, list_owned; src/pavement.cpp: LEsystem::addlayer, LEsystem::removelayer, LEsystem::layer | `ListModel` (cells with next/prev links, layers of LEsystem); theorems in `PropsList` | separation-style invariant, refinement to lists |
| C29 | partial | src/pavement.h: LEsystem_cache, LEsystem::result, LEsystem::results; src/pavement.cpp: LElayer setters, LEsystem::calculate, LEsystem::calc_accurate, LEbackcalc::backcalc | `LeModel` (LEsystem inputs, cache flags, check, queries; the numerics an uninterpreted function); theorems in `PropsLe` | every result equals that of a fresh calculation of the present inputs, by an invariant over histories |
| C30 | partial | src/pavement.cpp: LEsystem::check | `LeModel` (LEsystem inputs, cache flags, check, queries; the numerics an uninterpreted function); theorems in `PropsLe` | every result equals that of a fresh calculation of the present inputs, by an invariant over histories |
| C31 | partial | src/pavement.cpp: LEsystem::calculate (gradloop) | `GradModel` (gradloop over radii); theorems in `PropsGrad` | algebra over any ordered field; exact error and witness |
| C32 | partial | src/pavement.cpp: axialdata::addtodata | `StressModel`, `StressProofs`, `StressReal`; theorems in `PropsStress` | tensor identities over ordered fields; loop measure for the rotations; characteristic polynomial kept by every rotation |
| C33 | proved | src/pavement.cpp: pavedata::principle | `StressModel`, `StressProofs`, `StressReal`; theorems in `PropsStress`, `StressReal` | tensor identities over ordered fields; loop measure for the rotations; characteristic polynomial kept by every rotation |
| C34 | partial | libop/libop.cpp: OP_LE_Create, OP_LE_Reset, OP_HT_Init, OP_HT_Reset; include/tree.h: ktree_avl | `LibopModel` on top of `AvlModel`; theorems in `PropsLibop` | invariant of the registries over histories; witnesses |
| C35 | partial | libop/libop.cpp: OP_LE_AddGroupLoad, OP_LE_RemoveGroupLoad, OP_LE_GroupResult | `LibopModel` on top of `AvlModel`; theorems in `PropsLibop` | invariant of the registries over histories; witnesses |
| C36 | proved | src/linalg.cpp: transpose | `TransposeModel`; theorems in `PropsTranspose` | cycle-leader argument over the permutation i -> i*m mod (mn-1); index arithmetic |
| C37 | partial | include/linalg.h: T_SIZE, T_IDX, B_SIZE, B_IDX | `TransposeModel`; theorems in `PropsTranspose` | cycle-leader argument over the permutation i -> i*m mod (mn-1); index arithmetic |
| C38 | proved | src/linalg.cpp: equ_gauss, inv_mul_gauss | `GaussModel`, `GaussProofs`, `LinBase`, `LinDet`; theorems in `PropsGauss` | loop invariants on functions of indices; row operations keep solutions and the determinant |
| C39 | partial | src/linalg.cpp: inv_mul_gauss | `GaussModel`, `GaussProofs`, `LinBase`, `LinDet`; theorems in `PropsGauss` | loop invariants on functions of indices; row operations keep solutions and the determinant |
| C40 | partial | src/linalg.cpp: decmp_lu, bksub_lu, equ_lu, inv_mul_lu, inv_lu | `LuModel`, `LuProofs`; theorems in `PropsLu` | as C38, with a permutation |
| C41 | partial | src/linalg.cpp: decmp_chol, decmp_chol_tri, bksub_chol, decmp_ldl, bksub_ldl | `CholModel` (one loop over three storages), `CholProofs`, `LdlProofs`, `LinReal`; theorems in `PropsChol`, `LinReal` | factorisation identities, positive definiteness by Schur complements |
| C42 | partial | src/linalg.cpp: decmp_qr, bksub_qr | `QrModel`, `QrProofs`; theorems in `PropsQr` | reflections as functions of indices; exact effect of the last turn of the loop |
| C43 | partial | src/linalg.cpp: bksub_eig, eig_ql, equ_eig, inv_eig | `EigModel`, `EigProofs`, `QlProofs`, `EigUse`; theorems in `LinReal`, `PropsEig` | orthogonal similarity kept by every reflection and rotation; fuel for the QL loop, theorems hold for every run that ends |
| C44 | partial | include/matrix.h: matrix_operator, getdense; include/tmatrix.h | `MatrixModel` (deep embedding of the expression templates), `MatrixSpec`, `MatrixProofs`; theorems in `PropsMatrix` | structural induction over expressions; witnesses by computation |
| C45 | proved | src/thermal.cpp: FEMthermal::FEMthermal, FEMthermal::step | `ThermalModel`, `ThermalProofs`, `ThermalAsm`, `ThermalStep`, `ThermalInterp`, `ThermalReal`; theorems in `PropsThermal`, `ThermalReal` | assembly as sums over elements, banded Cholesky of C41 for the step, element matrices against polynomial integrals |
| C46 | partial | src/thermal.cpp: FEMthermal::interpolate | `ThermalModel`, `ThermalProofs`, `ThermalAsm`, `ThermalStep`, `ThermalInterp`, `ThermalReal`; theorems in `PropsThermal`, `ThermalReal` | assembly as sums over elements, banded Cholesky of C41 for the step, element matrices against polynomial integrals |
| C47 | partial | src/thermal.cpp: FEMthermal::FEMthermal | `ThermalModel`, `ThermalProofs`, `ThermalAsm`, `ThermalStep`, `ThermalInterp`, `ThermalReal`; theorems in `PropsThermal` | assembly as sums over elements, banded Cholesky of C41 for the step, element matrices against polynomial integrals |
| C48 | partial | src/traffic.cpp: str2int | `TrafficModel`; theorems in `PropsTraffic` | induction over strings, records and files, double arithmetic abstract |
| C49 | partial | src/traffic.cpp: fgetln | `TrafficModel`; theorems in `PropsTraffic` | induction over strings, records and files, double arithmetic abstract |
| C50 | proved | src/traffic.cpp: WIMday::AddRSAVehicle | `TrafficModel`; theorems in `PropsWim` | induction over strings, records and files, double arithmetic abstract |
| C51 | partial | src/traffic.cpp: WIMsurvey::Read, WIMday::operator+= | `TrafficModel`; theorems in `PropsWim` | induction over strings, records and files, double arithmetic abstract |
| C52 | proved | include/rng.h: rng::c1o2, rng::c0o1, rng::o0c1, rng::o0o1, rng::regen | `RngModel` on 64-bit words; theorems in `PropsRng` | bitwise invariants over all draws |
| C53 | proved | include/rng.h: rng::rng | `RngModel` on 64-bit words; theorems in `PropsRng` | bitwise invariants over all draws |
| C54 | partial | include/randomvar.h: house::rolldice, realized::rolldice, realization::operator< | `DiceModel` on `SortModel`; `HandleModel`; theorems in `PropsDice` | uniqueness of sorting; invariant of reference counts over histories |
| C55 | partial | include/randomvar.h: randomvar, realization | `DiceModel` on `SortModel`; `HandleModel`; theorems in `PropsHandle` | uniqueness of sorting; invariant of reference counts over histories |
| C56 | proved | include/fft.h: fftc, fftc_un, fftr, fftr_un, fftc_scale, fftr_scale, fftc_mul | `FftModel`, `FftSpec`, `FftProofs`, `FftReal`; theorems in `PropsFft`, `FftReal` | induction over the size 2^k of the templates; complex numbers over any ordered field; the series of SIN bounded over the reals |
| C57 | partial | include/mathplus.h: choose | `MathModel`; theorems in `PropsMath` | arithmetic with 32-bit overflow; witnesses, also with binary64 rounding |
| C58 | partial | include/mathplus.h: FLOOR, CEIL, ROUND | `MathModel`; theorems in `PropsMath` | arithmetic with 32-bit overflow; witnesses, also with binary64 rounding |
| C59 | partial | include/numerics.h: fzero; src/numerics.cpp: fzero_core | `NumModel`, `NumProofs`, `NumZero`; theorems in `PropsNum` | loop invariants over bracket and evaluations, arbitrary function; witnesses by computation |
| C60 | partial | src/numerics.cpp: fmin_brent | `NumModel`, `NumProofs`, `NumZero`; theorems in `PropsNum` | loop invariants over bracket and evaluations, arbitrary function; witnesses by computation |
| C61 | proved | include/fixed.h: fixed | `MathModel`; theorems in `PropsMath` | arithmetic with 32-bit overflow; witnesses, also with binary64 rounding |
| C62 | partial | include/event.h: event_progress | `EventModel`; theorems in `PropsEvent` | induction over event lists |
| C63 | partial | src/pavement.cpp: LEsystem::calculate; include/cache.h: slab_cache::allocate, slab_cache::reset | `SlabModel`; `PropsCalcCache` for C63; theorems in `PropsCalcCache` | invariants over allocation histories, replay by simulation; witnesses |
| C64 | partial | src/traffic.cpp: WIMday::operator+=, WIMday::AddRSAVehicle | `TrafficModel`; theorems in `PropsWim` | induction over strings, records and files, double arithmetic abstract |
| C65 | proved | include/rng.h: rng::stdnormal | `RngModel`, `PropsNormal`; theorems in `PropsNormal` | real analysis of log, sqrt, sin, cos |
| C66 | proved | src/linalg.cpp: orth_gs | `QrModel`, `QrProofs`; theorems in `LinReal`, `PropsQr` | reflections as functions of indices; exact effect of the last turn of the loop |
| C67 | proved | src/thermal.cpp: FEMthermal::FEMthermal, FEMthermal::step, Ke1..Ke4, Fe1..Fe4 | `ThermalModel`, `ThermalProofs`, `ThermalAsm`, `ThermalStep`, `ThermalInterp`, `ThermalReal`; theorems in `PropsThermal` | assembly as sums over elements, banded Cholesky of C41 for the step, element matrices against polynomial integrals |
| C68 | proved | src/thermal.cpp: FEMthermal::FEMthermal, FEMthermal::step | `ThermalModel`, `ThermalProofs`, `ThermalAsm`, `ThermalStep`, `ThermalInterp`, `ThermalReal`; theorems in `PropsThermal` | assembly as sums over elements, banded Cholesky of C41 for the step, element matrices against polynomial integrals |
| C69 | partial | include/tmatrix.h 204-316; include/matrix.h 236-268 | `MatrixModel` (deep embedding of the expression templates), `MatrixSpec`, `MatrixProofs`; theorems in `PropsMatrix` | structural induction over expressions; witnesses by computation |
| C70 | partial | src/linalg.cpp 662-939 | `SvdModel`, `SvdMath`, `SvdHouse`, `SvdBidiag`, `SvdQr`, `SvdUse`, `SvdSolve`, `SvdReal`; theorems in `PropsSvd`, `SvdReal` | A = U B V' kept by every reflection and rotation, U and V orthonormal; the exact shift finishes two columns in two rounds; least squares from orthonormality |
| C71 | partial | include/tree.h 60-246 | `BstModel`, `BstProofs`, `BstRemove`, `BstHist`; theorems in `PropsBst` | 2-3-4 tree shapes with black height as invariant; removal by cases on the five shapes it can be called with; MapSpec as reference |
| C72 | proved | src/statistics.cpp 67-136 | `Dbl`, `StatModel`, `StatPoly`, `StatCdf`; theorems in `PropsStat` | quotients of polynomials with falling coefficient quotients fall; the joints by exact rational comparison and a partial sum of the exponential |
| C73 | partial | src/statistics.cpp 138-200 | `StatModel`, `StatInv`; theorems in `PropsStat` | Bernstein forms for the start values, a bound on Mills' ratio for the Halley denominator |
| C74 | partial | include/randomvar.h 242-292; include/randomvar.h 374-526; src/statistics.cpp 203-241 | `StatModel`, `StatCdf`; theorems in `PropsStat` | real algebra; sums over whole numbers as reference for the discrete moments |
| C75 | proved | src/statistics.cpp 40-62 | `StatModel`; theorems in `PropsStat` | induction on pairs of calls |
| C76 | partial | include/list.h 64-178; include/autodelete.h 40-82 | `SlistModel`; theorems in `PropsSlist` | chains of cells; induction on histories against a plain list |
| C77 | partial | src/pavement.cpp 1779-1786; src/pavement.cpp 2002-2019; src/pavement.cpp 2258-2400 | `BowlModel`; theorems in `PropsBrent`, `PropsBrentReal` | invariants of the bracket and of the three points; strict convexity over the reals |
| C78 | partial | src/pavement.cpp 2137-2181; src/pavement.cpp 2190-2243 | `KalmanModel`; theorems in `PropsKalman` | spectral decomposition of the matrix from C43, normal equations, quadratic forms |
| C79 | partial | src/pavement.cpp 2402-2515 | `BowlModel`; theorems in `PropsDsm` | invariants of the simplex; affine independence kept by each move |
| C80 | partial | src/pavement.cpp 2040-2131 | `DeflgradModel`; theorems in `PropsDeflgrad` | full theory of conjugate gradients: conjugacy, orthogonality to all earlier gradients, finite end, growing length |
| C81 | partial | src/pavement.cpp 1789-1964; src/pavement.cpp 1970-1993; src/pavement.h 522-537 | `DriverModel` on the models of C78, C79 and C80; theorems in `PropsDriver` | invariants of the two loops, from the theorems of the steps; witnesses by computation |
| C82 | proved | fem3d/fem3d.cpp 1680-2022 | `SmatModel`; theorems in `PropsSmat` | a column holds a sorted list of rows and blocks (`rep`), kept by every operation; each loop by its invariant; the loops that never end and the wrapped sizes by induction |
| C83 | proved | fem3d/fem3d.cpp 1919-1974 | `IncholModel` on `SmatModel`; theorems in `PropsInchol` | the two columns by the merge invariant, the blocks by forward substitution; the exception by back substitution on the rows done so far, which gives the Schur complement as x'Ax |
| C84 | proved | fem3d/fem3d.cpp 2657-2776 | `PcgModel` on `IncholModel`, `SmatModel`; theorems in `PropsPcg` | abstract conjugate gradients with preconditioner (`PcgMath`): residuals stay orthogonal, so at most 3m steps; each loop of the code shown to compute the abstract step (`PcgProofs`) |
| C85 | proved | fem3d/fem3d.cpp 597-630; fem3d/fem3d.cpp 2516-2655 | `BcModel` on `PcgModel`, `SmatModel`; theorems in `PropsBc` | each loop of the assembly gives the row function of the matrix (`BcProofs`); summed over the elements it is the nodal force; the solution by C84 |
| C86 | proved | fem3d/fem3d.cpp 296-337; fem3d/fem3d.cpp 441-589; fem3d/fem3d.cpp 2051-2071; fem3d/fem3d.cpp 2395-2550; fem3d/fem3d.cpp 2570-2586 | `MeshModel` on `LlrbModel`, `KeySetModel`, `BcModel`; theorems in `PropsMesh` | invariant relating the mesh to a list of nodes, a table of conditions, a table of forces and the displacements (`MeshProofs`, `MeshP2`), kept by every call; the order of a node is the number of nodes before it; the solution by C85 |
| C87 | proved | fem3d/fem3d.cpp 340-358; fem3d/fem3d.cpp 891-917; fem3d/fem3d.cpp 1345-1485 | `ShapeModel`; theorems in `PropsShape` | field identities per shape and node; the block by the loop invariant that the entries below the counter are filled, the sums by factoring into the three directions; the rules by their moments |
| C88 | proved | fem3d/fem3d.cpp 95-190; fem3d/fem3d.cpp 253-285; fem3d/fem3d.cpp 632-668; fem3d/fem3d.cpp 1046-1154 | `StiffModel` on `ShapeModel`, `BcModel`; theorems in `PropsStiff` | elimination by the rows that stay proportional to the rows of J (`StiffProofs`), loops by invariants on the packed matrix, the sums over the Gauss points by rearranging; firmness as a sum of squares; the patch test from the sums of the slopes; the box by the diagonal Jacobian |
| C89 | proved | fem3d/fem3d.cpp 1258-1314 | `CoordModel` on `ShapeModel`, `StiffModel`; theorems in `PropsCoord` | each round of the sort mends one direction and leaves the ones before; the box by computing the eight mirror images; the nodes by the loop invariant that all earlier nodes are in place |
| C90 | proved | fem3d/fem3d.cpp 915-1045 | `VarModel` on `ShapeModel`; theorems in `PropsVar`, `PropsAdapt` | nodes as places with an address each, different for different places, so that a write changes one place; loop invariants over the places written or mended; the sums level by level as an identity for each set of optional nodes |
| C91 | proved | fem3d/fem3d.cpp 192-251 | `PrincModel` on `ShapeModel`; theorems in `PropsPrinc` | each turn solves its quadratic, with the tangent at most one, and is a similarity; the sum of squares off the diagonal falls by the square cleared, which after the first round gives a half; the sort by cases |

## Simplifications

Each model file says at its head and next to the definition where it simplifies.  In summary:

* Numbers.  Doubles are elements of an arbitrary ordered field (`LinBase.ofield`), rationals or
  reals; there is no rounding, infinity or NaN, and a division by zero is reported as a fault.
  Constants such as DBL_EPSILON, EIG_TOL and 1e-30 are parameters.  Where a square root is needed
  it is a function assumed to be one; instances over the reals show that the hypotheses can be met.
  Tests of the kind fabs(x)+a == a therefore mean x == 0.
* Integers.  Indices and reference counts are unbounded unless the property is about wrapping
  (C07, C23, C24, C36, C48, C52, C53, C57, C58, C61); sizes are then 32 or 64 bits.
* Memory.  Arrays are lists with checked access.  Memory from new has arbitrary contents and is an
  argument of the model.  Arrays that are passed separately do not overlap, except where aliasing
  is the subject (C16, C44, C69).  Release of memory is modelled where the property is about it
  (C08, C19, C28, C34, C55).  Allocation succeeds.
* Unbounded loops take fuel and report `OutOfFuel`; theorems show it is not reached, except for the
  QL iteration (C43), where the theorems hold for the runs that end.
* C26-C27: what templates decide at compile time is a parameter.  C29-C30: the numerical work is an
  uninterpreted function of the inputs it reads.  C33: rows of the array are triples, the assertion
  at line 493 is left out.  C44, C69: expression templates are a deep embedding; the scalar flag,
  which is never set, and the sharing of storage are left out.  C45-C47, C67, C68: std::logic_error
  is InvalidArgument and std::range_error OutOfRange.  C56: sizes are powers of two, M_SQRT1_2 and
  SIN are exact (their error is bounded separately over the reals).  C59-C60: eps, nextafter, sqrt
  and the golden ratio are arbitrary, the function is finite everywhere.  C70: hypot(x,y) is the
  square root of x*x+y*y, the memory of rv1 is an argument.

## Trusted base

* The Coq 8.16.1 kernel (with its virtual machine, used by `vm_compute`).
* The axioms that `Print Assumptions` lists, below.  There are none of our own.
* The hand translation from C++ to Gallina, which the citations in the model files allow to be
  compared with the code.

### Code that is modelled

* include/tree.h: BST, tree, ktree_avl, ktree_llrb; include/set.h: all classes but those that repeat
  another one with a different projection (koset, aoset, avoset and the like, see SortModel and
  KeySetModel); include/table.h; include/axis.h; include/listen.h; include/task.h;
  include/cache.h; include/conststr.h; include/ctti.h (the comparison of tags);
  include/variant.h; include/list.h: listelement_s, list_single, listelement_d, list_double, listelement_o; include/autodelete.h;
  include/event.h: the progress handler; include/mathplus.h: choose and the rounding macros;
  include/fixed.h; include/fft.h; include/matrix.h; include/tmatrix.h; include/rng.h;
  include/randomvar.h: all; include/statistics.h; include/numerics.h; include/linalg.h.
* src/linalg.cpp: all functions (lines 40-1253).  src/numerics.cpp: all.  src/statistics.cpp: all (exact arithmetic).  src/thermal.cpp and
  src/thermal.h: all.  src/traffic.cpp: str2int, str2time, fgetln, AddRSAVehicle, operator+=, Read.
* src/pavement.cpp and src/pavement.h: layers, loads, evaluation points, cache flags, check and
  queries of LEsystem (LeModel, ListModel), superposition and principal values (StressModel), the
  gradient loop (GradModel), findvalue (SortModel), use of the slab cache (PropsCalcCache); of the
  backcalculation: step_len, bowlerror, brent, conjgrad and dsm (BowlModel), kalman and gaussnewton
  (KalmanModel), deflgrad (DeflgradModel), seed and the driver (DriverModel), with the calculated deflections and gradients given.
* libop/libop.cpp: the registries of handles and the numbering of load groups.
* fem3d/fem3d.cpp: class smatrix, lines 1680-2022 (SmatModel, and IncholModel for incchol); the element matrix smatrix_elem, lines 597-630, and the assembly in mesh::solve, lines 2516-2655 (BcModel); the solution of the system in mesh::solve, lines 2657-2776 (PcgModel); coord3d::compare, node_list and the nodes, conditions and forces of class mesh with mesh::solve around the assembly, lines 296-337, 441-589, 2051-2071 and 2395-2550 (MeshModel).
* fem3d/fem3d.cpp: the Gauss tables, lines 340-358, buildSF_block, lines 891-917, and the shape functions, lines 1345-1485 (ShapeModel).
* fem3d/fem3d.cpp: the elastic tensor of material, lines 95-190 and 253-285, inv_mul_gauss, lines 632-668, and buildKe, lines 1046-1154 (StiffModel); buildSF_variable and buildSF_adaptor, lines 915-1045 (VarModel); coord_sort and coord_add, lines 1258-1314 (CoordModel); principle, lines 192-251 (PrincModel).

### Code that is not modelled

* src/pavement.cpp: the numerical kernel (Bessel functions, integration over the Hankel parameter,
  the layer matrices, calc_odemark, calc_fastnum), which are analysis, not exact algebra; swarm.
* include/list.h: list_owned and moving lists; include/meta.h (compile-time only);
  include/config-win32.h.
* fcgi, wasm, test and build; of fem3d everything but the nodes, the elastic tensor, the principal values, the shape functions, stiffness and node places of the elements, smatrix_elem, smatrix and class mesh without its results (fem3d/fem3d.cpp 95-190, 192-285, 296-358, 441-589, 597-668, 889-1154, 1258-1314, 1345-1485, 1680-2022 and 2306-2776).

### Print Assumptions per theorem

427 theorems are claimed. `Print Assumptions` answers "Closed under the global context" for all of them except those below; the axioms named are all from the standard library (`Coq.Reals`, `Coq.Logic`).

* `PropsNormal.C65_normals`: `ClassicalDedekindReals.sig_forall_dec`, `ClassicalDedekindReals.sig_not_dec`, `Classical_Prop.classic`, `FunctionalExtensionality.functional_extensionality_dep`
* `PropsNormal.C65_bound`: `ClassicalDedekindReals.sig_forall_dec`, `ClassicalDedekindReals.sig_not_dec`, `Classical_Prop.classic`, `FunctionalExtensionality.functional_extensionality_dep`
* `LinReal.C41_chol_solves_real`: `ClassicalDedekindReals.sig_forall_dec`, `ClassicalDedekindReals.sig_not_dec`, `FunctionalExtensionality.functional_extensionality_dep`
* `LinReal.C43_eig_ql_real_partial`: `ClassicalDedekindReals.sig_forall_dec`, `ClassicalDedekindReals.sig_not_dec`, `FunctionalExtensionality.functional_extensionality_dep`
* `LinReal.C66_gram_schmidt_real`: `ClassicalDedekindReals.sig_forall_dec`, `ClassicalDedekindReals.sig_not_dec`, `FunctionalExtensionality.functional_extensionality_dep`
* `StressReal.C33_ends_real`: `ClassicalDedekindReals.sig_forall_dec`, `ClassicalDedekindReals.sig_not_dec`, `FunctionalExtensionality.functional_extensionality_dep`
* `ThermalReal.C45_uniform_real`: `ClassicalDedekindReals.sig_forall_dec`, `ClassicalDedekindReals.sig_not_dec`, `FunctionalExtensionality.functional_extensionality_dep`
* `ThermalReal.C46_uneven_accepted`: `ClassicalDedekindReals.sig_forall_dec`, `ClassicalDedekindReals.sig_not_dec`, `FunctionalExtensionality.functional_extensionality_dep`
* `FftReal.C56_constants_real`: `ClassicalDedekindReals.sig_forall_dec`, `ClassicalDedekindReals.sig_not_dec`, `FunctionalExtensionality.functional_extensionality_dep`
* `FftReal.C56_fourier_real`: `ClassicalDedekindReals.sig_forall_dec`, `ClassicalDedekindReals.sig_not_dec`, `FunctionalExtensionality.functional_extensionality_dep`
* `FftReal.C56_roundtrip_real`: `ClassicalDedekindReals.sig_forall_dec`, `ClassicalDedekindReals.sig_not_dec`, `FunctionalExtensionality.functional_extensionality_dep`
* `FftReal.C56_real_roundtrip_real`: `ClassicalDedekindReals.sig_forall_dec`, `ClassicalDedekindReals.sig_not_dec`, `FunctionalExtensionality.functional_extensionality_dep`
* `FftReal.C56_sin_series`: `ClassicalDedekindReals.sig_forall_dec`, `ClassicalDedekindReals.sig_not_dec`, `FunctionalExtensionality.functional_extensionality_dep`
* `FftReal.C56_sin_digits`: `ClassicalDedekindReals.sig_forall_dec`, `ClassicalDedekindReals.sig_not_dec`, `Classical_Prop.classic`, `FunctionalExtensionality.functional_extensionality_dep`
* `SvdReal.C70_two_columns_real_partial`: `ClassicalDedekindReals.sig_forall_dec`, `ClassicalDedekindReals.sig_not_dec`, `FunctionalExtensionality.functional_extensionality_dep`
* `PropsStat.C72_cdf_is_distribution`: `ClassicalDedekindReals.sig_forall_dec`, `ClassicalDedekindReals.sig_not_dec`, `Classical_Prop.classic`, `FunctionalExtensionality.functional_extensionality_dep`
* `PropsStat.C72_cdf_limits`: `ClassicalDedekindReals.sig_forall_dec`, `ClassicalDedekindReals.sig_not_dec`, `Classical_Prop.classic`, `FunctionalExtensionality.functional_extensionality_dep`
* `PropsStat.C72_pdf`: `ClassicalDedekindReals.sig_forall_dec`, `ClassicalDedekindReals.sig_not_dec`, `Classical_Prop.classic`, `FunctionalExtensionality.functional_extensionality_dep`
* `PropsStat.C73_inv_defined_partial`: `ClassicalDedekindReals.sig_forall_dec`, `ClassicalDedekindReals.sig_not_dec`, `Classical_Prop.classic`, `FunctionalExtensionality.functional_extensionality_dep`
* `PropsStat.C73_inv_special`: `ClassicalDedekindReals.sig_forall_dec`, `ClassicalDedekindReals.sig_not_dec`, `Classical_Prop.classic`, `FunctionalExtensionality.functional_extensionality_dep`
* `PropsStat.C74_normal`: `ClassicalDedekindReals.sig_forall_dec`, `ClassicalDedekindReals.sig_not_dec`, `FunctionalExtensionality.functional_extensionality_dep`
* `PropsStat.C74_dirac`: `ClassicalDedekindReals.sig_forall_dec`, `ClassicalDedekindReals.sig_not_dec`, `FunctionalExtensionality.functional_extensionality_dep`
* `PropsStat.C74_lognormal`: `ClassicalDedekindReals.sig_forall_dec`, `ClassicalDedekindReals.sig_not_dec`, `Classical_Prop.classic`, `FunctionalExtensionality.functional_extensionality_dep`
* `PropsStat.C74_lognormal_infinite_refuted`: `ClassicalDedekindReals.sig_forall_dec`, `ClassicalDedekindReals.sig_not_dec`, `Classical_Prop.classic`, `FunctionalExtensionality.functional_extensionality_dep`
* `PropsStat.C74_uniform_partial`: `ClassicalDedekindReals.sig_forall_dec`, `ClassicalDedekindReals.sig_not_dec`, `Classical_Prop.classic`, `FunctionalExtensionality.functional_extensionality_dep`
* `PropsStat.C74_uniform_order_refuted`: `ClassicalDedekindReals.sig_forall_dec`, `ClassicalDedekindReals.sig_not_dec`, `FunctionalExtensionality.functional_extensionality_dep`
* `PropsStat.C74_discrete_partial`: `ClassicalDedekindReals.sig_forall_dec`, `ClassicalDedekindReals.sig_not_dec`, `Classical_Prop.classic`, `FunctionalExtensionality.functional_extensionality_dep`
* `PropsStat.C74_discrete_deviation_refuted`: `ClassicalDedekindReals.sig_forall_dec`, `ClassicalDedekindReals.sig_not_dec`, `Classical_Prop.classic`, `FunctionalExtensionality.functional_extensionality_dep`
* `PropsStat.C74_discrete_refused`: `ClassicalDedekindReals.sig_forall_dec`, `ClassicalDedekindReals.sig_not_dec`, `Classical_Prop.classic`, `FunctionalExtensionality.functional_extensionality_dep`
* `PropsStat.C74_make_rv`: `ClassicalDedekindReals.sig_forall_dec`, `ClassicalDedekindReals.sig_not_dec`, `Classical_Prop.classic`, `FunctionalExtensionality.functional_extensionality_dep`
* `PropsStat.C75_rnd_pairs`: `ClassicalDedekindReals.sig_forall_dec`, `ClassicalDedekindReals.sig_not_dec`, `Classical_Prop.classic`, `FunctionalExtensionality.functional_extensionality_dep`
* `PropsBrentReal.C77_brent_convex_partial`: `ClassicalDedekindReals.sig_forall_dec`, `FunctionalExtensionality.functional_extensionality_dep`

The theorems of each property (all others closed under the global context):

* C01: `C01_tree_is_map`, `C01_tree_is_map_separate_keys`
* C02: `C02_order_statistics`
* C03: `C03_lookup_depth`
* C04: `C04_add_positions_partial`, `C04_remove_largest_positions_partial`, `C04_remove_positions_refuted`
* C05: `C05_remove_separate_keys_refuted`, `C05_remove_largest_separate_keys_partial`
* C06: `C06_llrb_is_ordered_map`, `C06_getindex_out_of_range_refuted`, `C06_depth_twice_black_height_refuted`
* C07: `C07_capacity`, `C07_capacity_monotone`, `C07_huge_refuted`
* C08: `C08_sequence_set_is_list`, `C08_remove_count_wrap_refuted`
* C09: `C09_gap_refuted`, `C09_gap_partial`
* C10: `C10_sort_sorts`
* C11: `C11_find_exact`, `C11_find_after_sort`
* C12: `C12_compact_removes_duplicates`
* C13: `C13_indexed_set`, `C13_iset_getorder_refuted`
* C14: `C14_keyed_set_is_map`
* C15: `C15_remove_refuted`, `C15_remove_always_wrong`, `C15_add_replace_partial`
* C16: `C16_self_assignment_refuted`, `C16_assignment_copies_partial`
* C17: `C17_table_axis_edits`, `C17_preexisting_positions_refuted`
* C18: `C18_empty_axis_refuted`, `C18_empty_axis_no_cells`, `C18_single_axis_partial`
* C19: `C19_dispatch_in_order`, `C19_detach_in_handler_refuted`, `C19_before_on_empty_refuted`, `C19_moved_listener_refuted`
* C20: `C20_dependent_axis_partial`, `C20_parent_remove_refuted`
* C21: `C21_order_and_once`, `C21_all_delivered`
* C22: `C22_calls_end_partial`, `C22_aborted_with_tasks_never_ends`, `C22_destructor_refuted`
* C23: `C23_blocks_partial`, `C23_first_slab_refuted`, `C23_large_request_refuted`, `C23_huge_request_refuted`
* C24: `C24_replay_refuted`, `C24_replay_nondecreasing_partial`, `C24_replay_single_slab_partial`
* C25: `C25_hash_partial`, `C25_compare_text`, `C25_compare_preorder`, `C25_operators`, `C25_ne_partial`, `C25_pieces`, `C25_hash_refuted`, `C25_ne_refuted`
* C26: `C26_general`, `C26_plain_partial`, `C26_base_refuted`, `C26_copy_refuted`
* C27: `C27_write_after_use_partial`, `C27_reset`, `C27_assign_refuted`
* C28: `C28_layer_list`, `C28_links_consistent`, `C28_position_past_end_refuted`, `C28_layer_of_empty_refuted`
* C29: `C29_results_current_partial`, `C29_refused_after_change`, `C29_backcalc_refuted`, `C29_backcalc_out_of_bounds_refuted`, `C29_directions_refuted`
* C30: `C30_automatic_layer`, `C30_explicit_layer`, `C30_layer_unique`, `C30_after_calculation_partial`, `C30_after_edit_refuted`, `C30_boundary_after_edit_refuted`
* C31: `C31_one_radius_partial`, `C31_any_radii_error`, `C31_two_radii_refuted`, `C31_modulus_left_stepped`
* C32: `C32_rotates`, `C32_centre_partial`, `C32_centre_refuted`, `C32_invariants`, `C32_superposition`, `C32_deflection`
* C33: `C33_turns`, `C33_principal`, `C33_strains`, `C33_ends_real`
* C34: `C34_handles_isolate_partial`, `C34_create_not_error_partial`, `C34_reset_refuted`, `C34_reset_handle_lives_refuted`, `C34_thermal_error_value_refuted`
* C35: `C35_same_number_refuted`, `C35_group_zero_refuted`, `C35_group_one_refuted`, `C35_result_number_refuted`, `C35_remove_after_add_partial`, `C35_result_after_add_partial`, `C35_groups_full`, `C35_remove_all`
* C36: `C36_transpose`
* C37: `C37_packed_triangle`, `C37_packed_band`, `C37_wide_band_refuted`
* C38: `C38_gauss_solves`, `C38_gauss_safe`, `C38_gauss_rejects`, `C38_gauss_accepts`, `C38_img_solves`, `C38_img_safe`, `C38_img_accepts`, `C38_gauss_threshold_refuted`
* C39: `C39_img_det_partial`, `C39_img_det_refuted`
* C40: `C40_lu_solves`, `C40_lu_accepts`, `C40_lu_mul`, `C40_lu_mul_accepts`, `C40_lu_empty_refuted`, `C40_lu_inverse`, `C40_lu_inverse_accepts`
* C41: `C41_chol_solves`, `C41_chol_column`, `C41_positive_definite_unique`, `C41_tri_factor`, `C41_dense_factor`, `C41_band_factor`, `C41_band_solves`, `C41_wide_band_refuted`, `C41_chol_inverse`, `C41_ldl_column`, `C41_ldl_solves`, `C41_chol_solves_real`
* C42: `C42_qr_decides`, `C42_qr_reflections_partial`, `C42_qr_last_partial`, `C42_qr_refuted`
* C43: `C43_eig_ql_partial`, `C43_sort_keeps_pairs`, `C43_eigenvalues_complete`, `C43_bksub_eig_one_column`, `C43_bksub_eig_partial`, `C43_bksub_eig_refuted`, `C43_equ_eig_partial`, `C43_inv_eig_partial`, `C43_eig_ql_real_partial`
* C44: `C44_tmatrix_element`, `C44_tmatrix_assign`, `C44_tmatrix_add`, `C44_tmatrix_sub`, `C44_tmatrix_scalar`, `C44_tmatrix_typed`, `C44_tmatrix_fill`, `C44_dense_unary`, `C44_dense_binary`, `C44_dense_product`, `C44_dense_fill`, `C44_lazy_size`, `C44_lazy_element`, `C44_lazy_operators`, `C44_lazy_equal`, `C44_getdense_partial`, `C44_getdense_operand`, `C44_lazy_null`, `C44_getdense_neg_refuted`, `C44_getdense_trans_refuted`, `C44_getdense_add_refuted`, `C44_getdense_mul_refuted`, `C44_getdense_bounds_refuted`, `C44_lazy_element_refuted`
* C45: `C45_uniform`, `C45_uniform_real`
* C46: `C46_interpolate_partial`, `C46_polynomial_partial`, `C46_no_undefined`, `C46_uneven_refuted`, `C46_uneven_accepted`, `C46_unsorted_refuted`
* C47: `C47_reject_partial`, `C47_misaligned_partial`, `C47_valid_accepted`, `C47_below_refuted`, `C47_order0_refuted`, `C47_no_layers_refuted`
* C48: `C48_unsigned_partial`, `C48_minus_refuted`, `C48_large_refuted`
* C49: `C49_line`, `C49_no_room`, `C49_last_line_refuted`
* C50: `C50_axles`
* C51: `C51_reads`, `C51_sums_partial`, `C51_last_day_twice_refuted`
* C52: `C52_intervals`
* C53: `C53_certified`
* C54: `C54_dealt_by_rank_partial`, `C54_creation_order_partial`, `C54_rolled_kept`, `C54_unset_keys_refuted`
* C55: `C55_counts_exact`, `C55_legal_histories_partial`, `C55_assign_realisation`, `C55_assign_variable_partial`, `C55_assign_keeps_house_refuted`, `C55_self_assignment_refuted`, `C55_null_source_refuted`, `C55_teardown_refuted`, `C55_roll_dangling_refuted`
* C56: `C56_transform`, `C56_frequencies`, `C56_root`, `C56_roundtrip`, `C56_convolution`, `C56_convolution_last`, `C56_real_transform`, `C56_real_frequencies`, `C56_real_roundtrip`, `C56_real_convolution`, `C56_real_scale_last_refuted`, `C56_constants_real`, `C56_fourier_real`, `C56_roundtrip_real`, `C56_real_roundtrip_real`, `C56_sin_series`, `C56_sin_digits`
* C57: `C57_choose_partial`, `C57_choose_exact`, `C57_edges_refuted`, `C57_products_refuted`
* C58: `C58_floor_partial`, `C58_ceil_partial`, `C58_round_partial`, `C58_edges_refuted`, `C58_double_refuted`
* C59: `C59_core`, `C59_fzero_partial`, `C59_outside_refuted`
* C60: `C60_peak_refuted`, `C60_reversed_refuted`, `C60_total`, `C60_single_partial`, `C60_pair_partial`, `C60_inside`
* C61: `C61_fixed`, `C61_rounding`, `C61_overflow`
* C62: `C62_well_nested`, `C62_shown`, `C62_rejected_partial`, `C62_unknown_rejected`, `C62_stop_refuted`, `C62_zero_length_refuted`
* C63: `C63_cached_geometry_partial`, `C63_cached_geometry_refuted`
* C64: `C64_weighted_partial`, `C64_nan_refuted`, `C64_sum_refuted`
* C65: `C65_normals`, `C65_bound`
* C66: `C66_gram_schmidt`, `C66_regular_orthonormal`, `C66_gram_schmidt_real`
* C67: `C67_trapezoidal_rule`, `C67_element_matrices`, `C67_shape_functions`
* C68: `C68_steady_flux`
* C69: `C69_matrix`, `C69_number`, `C69_own_element_partial`, `C69_own_element_after`, `C69_dense_matrix`, `C69_dense_number`, `C69_own_element_refuted`, `C69_dense_own_element_refuted`
* C70: `C70_decomposes_partial`, `C70_result_partial`, `C70_two_columns_partial`, `C70_least_squares`, `C70_equ_svd_partial`, `C70_inv_svd_partial`, `C70_orth_svd_partial`, `C70_in_bounds_refuted`, `C70_singular_refuted`, `C70_cancellation_refuted`, `C70_two_columns_real_partial`
* C71: `C71_bst_is_map_partial`, `C71_bst_height_partial`, `C71_order_is_rank_partial`, `C71_order_after_remove_refuted`, `C71_remove_any_key_partial`, `C71_remove_above_refuted`
* C72: `C72_cdf_is_distribution`, `C72_cdf_limits`, `C72_pdf`
* C73: `C73_inv_defined_partial`, `C73_inv_special`
* C74: `C74_normal`, `C74_dirac`, `C74_lognormal`, `C74_lognormal_infinite_refuted`, `C74_uniform_partial`, `C74_uniform_order_refuted`, `C74_discrete_partial`, `C74_discrete_deviation_refuted`, `C74_discrete_refused`, `C74_make_rv`
* C75: `C75_rnd_pairs`
* C76: `C76_list_partial`, `C76_chains`, `C76_remove_refuted`, `C76_remove_null_refuted`, `C76_insert_first_refuted`, `C76_pop_empty_refuted`, `C76_empty_frees`, `C76_autodelete_safe`, `C76_autodelete_leak_partial`, `C76_autodelete_leak_refuted`
* C77: `C77_brent_not_worse`, `C77_conjgrad_not_worse`, `C77_clamp`, `C77_turning_point`, `C77_turning_point_refuted`, `C77_level_never_ends_refuted`, `C77_brent_stalls_refuted`, `C77_brent_hill_refuted`, `C77_brent_convex_partial`, `C77_conjgrad_direction`
* C78: `C78_kalman_partial`, `C78_noise_suffices`, `C78_kalman_fit`, `C78_kalman_fit_refuted`, `C78_gaussnewton_partial`, `C78_gaussnewton_fit`
* C79: `C79_dsm_sound_partial`, `C79_dsm_safe`, `C79_dsm_tolerance_refuted`, `C79_dsm_falling_refuted`, `C79_dsm_clamp_refuted`
* C80: `C80_deflgrad`, `C80_length_refuted`, `C80_flat_refuted`
* C81: `C81_backcalc_partial`, `C81_exact_fit_refuted`, `C81_groups_refuted`, `C81_default_group_refuted`
* C82: `C82_assembly`, `C82_assembly_safe`, `C82_prepare`, `C82_tidy_long`, `C82_tidy_refuted`, `C82_chol_refuted`, `C82_chol_partial`, `C82_nonzero_refuted`, `C82_demo`
* C83: `C83_incchol`, `C83_exact`, `C83_fails_only`, `C83_no_exception`, `C83_positive_refuted`
* C84: `C84_solved`, `C84_no_force_refuted`, `C84_hypotheses`, `C84_demo`
* C85: `C85_assembled`, `C85_positive`, `C85_solved`, `C85_repeated_refuted`, `C85_hypotheses`, `C85_demo`
* C86: `C86_goes_on`, `C86_mesh`, `C86_built`, `C86_solved`, `C86_stale_copy_refuted`, `C86_getorderofnode_refuted`, `C86_duplicate_add_refuted`, `C86_two_planes_refuted`, `C86_hypotheses`, `C86_demo`
* C87: `C87_defined`, `C87_unity`, `C87_nodes`, `C87_straight`, `C87_slope`, `C87_slope_absolute`, `C87_slope_decay`, `C87_slope_infinite`, `C87_block`, `C87_gauss_2`, `C87_gauss_3`, `C87_gauss_4`, `C87_gauss_A`, `C87_lobatto_4`, `C87_getgauss`, `C87_weights`, `C87_infinite_refuted`, `C87_hypotheses`, `C87_demo`
* C88: `C88_hooke`, `C88_stiffness`, `C88_gauss`, `C88_symmetric`, `C88_force`, `C88_energy`, `C88_material`, `C88_firm`, `C88_mesh`, `C88_patch`, `C88_rigid`, `C88_box`, `C88_pivot_refuted`, `C88_hypotheses`
* C89: `C89_sort`, `C89_box`, `C89_nodes`, `C89_element`, `C89_twisted_refuted`, `C89_hypotheses`
* C90: `C90_affine`, `C90_nodes`, `C90_adaptor`, `C90_adaptor_only`, `C90_middle_refuted`, `C90_hypotheses`
* C91: `C91_round`, `C91_principle`, `C91_bounds`, `C91_hypotheses`

The seeded edits are in seeded/LOG.jsonl. Each edit was built in a copy of rocq/. `theorems_failed` starts with the statement at which the build of a file stopped, written File.name for a lemma; the C.. names after it are the theorems whose text leads to that statement through the names it uses, so they were not built, rather than each being shown to fail by itself.
