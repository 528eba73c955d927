# Formal model of modred: design

Source under study: `/repo` (belson17/modred, pinned), read as text.  Everything here is
Rocq/Coq 8.16.1, sources in `rocq/theories`, built with `coq_makefile`.

An area of the code has up to four files: `XModel.v` (definitions, each citing the lines it
models), `XProofs.v` (lemmas), `XProps.v` (the theorems named in `MANIFEST.json`, their
examples, `Print Assumptions`), `XExamples.v` (further examples).

## 1. Layers

1. **Data** (`Prelude`, `NdArray`, `Matrix`, `VSArraysModel.nd`).  Python exceptions are values
   (`res A = Ok a | Raise e`).  A two-dimensional array is a shape with an entry function,
   compared inside its bounds.
2. **Message passing** (`Spmd`, `SpmdFacts`, `SpmdLock`, `SpmdEnds`, `SpmdWrites`, `SpmdTrace`).  A process
   language (isend, recv, wait, barrier, get and put on a shared store, raise) with an
   interleaving small-step semantics for `P` ranks.  Messages are FIFO per (source, destination,
   context, tag).  `wait` on a send completes at once for messages that MPI buffers, otherwise
   only after reception; which messages are buffered is a predicate over which every theorem
   quantifies.  `always_ends c Q`: every execution from `c` is finite and every stuck
   configuration satisfies `Q`.  Steps of different ranks commute when no rank writes what
   another uses (`separate`), so one terminating schedule determines all of them; programs are
   verified by giving a lock-step schedule (`wp`).
3. **Parallel algorithms**: reductions, broadcasts, inner product arrays, symmetric arrays, linear
   combinations, derivatives, saving and loading.
4. **Handle classes** (`HandlesModel`): a method body is a sequence of the four operations through
   which these classes act (inner products, symmetric inner products, linear combinations,
   `call_and_bcast`); `exec` is the program of a rank, `ok_runs` transfers a sequential reading
   (`ok`) to every schedule, whatever the method reads and writes.  Main programs (`MainModel`) are
   sequences of such methods and of saving steps closed by a barrier; `main_ends` is the same for them.
5. **Exact linear algebra** over any field with a conjugation and an order on its real elements
   (record `sfield`, `Field.v`).  Instances (`FieldInst.v`): Gaussian rationals `QI` and rationals
   `QR` (used by the examples, computable), real numbers `RR` and complex numbers `CC` of the
   standard library.  LAPACK and SciPy routines are *parameters*; the theorems assume the contract
   of the routine for the one call in question and hold for every answer that satisfies it.
6. **State machines**: handles with the shared base cache (C11), DMD handle objects (C25), Galerkin
   projection objects (C32).
7. **Text files** (`TextModel`, `SignalsModel`): character by character.

## 2. Properties

`properties.jsonl` states them, `MANIFEST.json` names the theorems.

| id | model | method of proof |
|----|-------|-----------------|
| C01, C02, C39 | `ParallelModel` | induction over workers; base-256 digits |
| C03 | `VecSpaceModel` | integer arithmetic |
| C04, C05, C07 | `InnerProdModel`, `SymmModel` | lock-step run, loop invariants, commutation |
| C06, C41 | `LinCombModel` | the same |
| C08-C10, C42 | `ReductionsModel` | invariants over bit masks, block folds |
| C11 | `VecHandleModel` | invariant over operation histories |
| C12, C40 | `TextModel`, `SignalsModel` | induction over lines and characters |
| C13, C14 | `HankelModel` | index arithmetic |
| C15-C17 | `DecompModel` | sortedness makes truncation a prefix; eigenvalue argument |
| C18 | `VSArraysModel` | matrix algebra |
| C19, C20 | `PodModel`, `PodHandlesModel` | matrix algebra; coordinates (`HandlesSpace`) for handles |
| C21 | `BpodModel`, `BpodHandlesModel` | the same |
| C22-C26 | `DmdModel`, `DmdHandlesModel`, `DmdHistory` | the same; histories of calls |
| C27 | `TlsModel`, `DmdHandlesModel` | projection of the data, then DMD |
| C28-C30 | `EraModel` | index arithmetic; similarity of realizations |
| C31 | `OkidModel` | uniqueness of least squares solutions, deadbeat observer |
| C32 | `GalerkinModel`, `GalerkinHandlesModel` | matrix algebra; histories of calls |
| C33 | `DerivsModel` | lock-step run |
| C34 | `TrapzModel` | induction over the grids |
| C35 | `SanityModel` | symbolic execution of the checks |
| C36, C37 | `LtiModel`, `Lti` | induction over time; similarity |
| C38 | `DecompIOModel` | lock-step run on text files |
| C43 | `FloatModel` | error bounds against gaps between exact values; ties are exact |
| C44 | models of C04-C06, `SpmdTrace` | traces of executions, per rank and in total |
| C45 | models of C04-C06, C33, `SpmdTrace` | all ranks have passed the same number of barriers |
| C46 | handle classes | one `lin_combine` with coefficients from the attributes |
| C47 | POD functions and PODHandles | orthogonal families, Gram-Schmidt without roots, level bound on eigenvalues |
| C48 | models of C21, C29, C30, C32 | factorization of the Hankel arrays by snapshots; matrix algebra |
| C49 | `put_model`, `put_decomp` and other put methods | forced steps; invariant for ranks that write the same texts |
| C50 | `drss`, `rss` | similarity to a diagonal array; triangle inequality over an ordered field |
| C51 | `__eq__` of the vector spaces, `smart_eq`, `sum_lists`, `sum_arrays`, `flatten_list`, `make_iterable`, `InnerProductBlock`, `print_msg`, `Vector` | loop invariants; composition with C01, C04, C08 and C18 |
| C52 | `lsim`, `impulse`, `OKID`, `make_sampled_format`, `compute_ERA_model` composed | composition of C28-C31 and C36; reality of the model |
| C53 | `MainModel`, `ProgramsModel`: main programs of the examples | sequential reading carried to all schedules; composition of C19-C23 and C32 |
| C54 | `CglModel`, `TutorialModel`: array examples | C21, C32 and C47; Krylov spaces of the Crank-Nicolson step (`CglProofs`) |
| C55 | `HermiteModel`: differentiation arrays | polynomials, Leibniz formula and root counting (`Poly`), weighted Lagrange polynomials (`HermiteProofs`), Jacobi array and Hermite polynomials (`HermiteRoots`) |
| C56 | `CglInputModel`: optimal disturbance | growth bounded by singular values (`svd_bound`), invariant of the loop over times (`CglInputProofs`) |
| C57 | `CustomModel`: CustomVector, arrays as vectors | from C34; subset types of the objects on one grid (`CustomProps`) |
| C58 | `MatlabModel`: OKID.m | the loops build the regressor and run the recursion of C31; minimum-norm fits are unique; then C31 (`MatlabProps`) |
| C59 | `MatlabTextModel`: save_mat_text.m, load_mat_text.m | index loops against the lists of `TextModel`; then C12 (`MatlabTextProps`) |
| C60 | `HeldModel`, `HeldProofs`, `HeldBounds` | programs with notes of the references; erasing the notes gives the programs of C04-C06; bound for every reachable note |
| C61 | `FailProofs` | all ranks have passed equally many barriers and the last operation is a barrier; simulation of a run with part of the store by one with all of it |
| C62 | `ObjectsModel`, `ObjectsSim`, `ObjectsProofs` | step-for-step simulation of the value model by the one with a heap; objects that `+=` changes are unshared |
| C63 | `DoubleModel`: SpecFloat | C04 and C05 need only that 0 is neutral, which rounding keeps; C06's order of terms |
| C64 | `AccuracyModel`: rounded vector operations | C06's sums in any order; error of a rounded sum by induction on the terms added |
| C65 | `PodHandlesModel`, `BpodHandlesModel`, `DmdHandlesModel` | cases on the attributes; a launch in which all ranks have failed or wait is stuck |
| C66 | `LeftModel`, equal to the other models by C66_same, C66_tls_same and C66_era_same | sequential reading of the methods; loops with the state at the exception |
| C67 | `HistoryModel` over the method models; `CaughtModel` with exceptions caught; `GetLeftModel` with sources that cannot be read | calls as data; get methods assign what get_array returns or raise what it raises (file formats: C38) |
| C68 | `DmdModel`, `DmdHandlesModel`, `TlsModel` (no new definitions of code) | consequence of C22, C26 and C27 for sequences with nothing dropped; the exact modes by way of the same pairing; TLS DMD on the denoised pairs |
| C69 | `BpodModel`, `BpodHandlesModel`, `EraModel` (no new definitions of code) | BPOD modes balance the empirical Gramians, coefficients included; the modes written by BPODHandles too; an ERA model of the right order is balanced over the times of the Hankel array |
| C70 | `HandlesModel`, `PodModel`, `DmdModel`, `TlsModel`, `BpodModel`, `GalerkinModel` (no new definitions of code) | methods of the handle classes see the vectors through inner products alone: equal results and equal inner products of what is written, for any two spaces, numbers of processes and schedules; array functions: a change of coordinates of data and weights changes no value and maps the modes |

A statement that is false of the code is proved in the form that holds, with a theorem
`..._refuted` giving the witness; section 5 lists them.

## 3. Trusted base

* **Coq's kernel.**
* **Axioms.**  Every theorem in `MANIFEST.json` is "Closed under the global context": no axioms
  (each `Props` file prints this).  The development as a whole loads these standard-library
  axioms, which `coqchk` lists: those of the real numbers (`Coq.Reals.Rdefinitions.*`,
  `Coq.Reals.ClassicalDedekindReals.sig_forall_dec` and `sig_not_dec`,
  `Coq.Logic.FunctionalExtensionality.functional_extensionality_dep`, `Coq.Logic.Classical_Prop.classic`), used only
  by the instances `RR` and `CC` in `FieldInst.v` and by examples and two remarks (`C55_real_deriv`, `C55_real_wderiv`) in
  `HermiteExamples.v` and `CglInputExamples.v`, on which no listed theorem depends; and the module
  parameters of `Coq.ssr.ssrunder`, loaded by std++.
* **Libraries**: the standard library and std++ (finite maps and lists; it adds no axioms).
* **The reading of `/repo`** in the comment above each definition.
* **What is assumed of code outside modred**:
  * MPI (`Spmd.v` header): ordered delivery, completion of sends, barriers, tag limit; `bcast` as
    sends from the root.
  * CPython frees an object when its last reference goes (C60 only; what is not counted is in the header of
    `HeldModel.v`).
  * File system: a put is visible to all ranks at once; files are not changed by others.
  * `numpy.linalg.svd`, `eigh`, `argsort`, `scipy.linalg.eig` (`DecompModel`: `svd_contract` (in C52 also: real factors of the real Hankel array), `eigh_contract`,
    `argsort_contract`, `eig_contract`), `cholesky`, `inv`, square roots (`PodModel`: `cholesky_contract`, `inv_contract`,
    `sqrt_ok`), `lstsq` (`OkidModel`: normal equations; in C58_agree least norm), MATLAB's `pinv` (`MatlabModel`: `pinv_contract`), `solve` (`CglModel`: `solve_contract`), `solve_lyapunov` (`LtiModel`: `lyap_contract`),
    `np.round` (`EraProps`: `round_ok`), `eigvalsh` (`eigh_contract` with some vectors), `np.exp` (non-zero), `scipy.linalg.expm` (invertible), `scipy.signal.dlsim` and `dimpulse` (`LtiModel`, as documented).
    Contracts are hypotheses of theorems, never axioms; each example exhibits values that satisfy them.
  * User-supplied inner products and vectors: the laws in `ip_space` (`HandlesProofs`) where a
    theorem says so (proved of those modred supplies, C57); otherwise arbitrary functions.
  * Vectors as objects (C62): `x * c` is a new object; `x += y` changes `x` (`in_place`) or rebinds it; loading a file
    gives a new object.
  * Number formatting: `printing` (`TextProofs`): `float(x.__format__)` gives `x` back, in the usual characters.
    MATLAB's `load` of text files and dropping of zero imaginary parts as documented (`MatlabTextModel`).
    NumPy 1.23 or later for `view` of Fortran-ordered arrays.

## 4. What is and is not modelled

Modelled (all of the computation in): `parallel.py` 56-247; `reductions.py`; `vectorspace.py`;
`vectors.py`; `util.py` 13-138, 151-627; `py2to3.py` 18-40; `pod.py`; `bpod.py`; `dmd.py`; `era.py`; `okid.py`;
`ltigalerkinproj.py`; `matlab/OKID.m` (without `size(Y)`, printed), `save_mat_text.m`, `load_mat_text.m`.

Simplified:
* Arithmetic is exact; no rounding (except in C43, C63 and C64), overflow, NaN or infinities.  Theorems about
  tolerances compare exact numbers.
* Element types of arrays are not tracked, except where the code depends on them (dtype of the inner
  product array in C04, imaginary parts dropped in C28, C31, C36, element types of files in C12).
* Vectors are values: aliasing and in-place changes of vectors are modelled only in C35, C41 and, for `lin_combine`,
  C62.
* Printing and timing in the algorithms, except divisions by zero in the time estimates (C03, C33); what the printing
  functions do by themselves is in C51.
* `make_iterable` is modelled (C51) but not called by the other models: their arguments are lists.
* MINLOC/MAXLOC in reductions: values are pairs.
* Example programs: the random data are any data; the store holds what `get` returns, so base vectors and scales are
  applied already; `sanity_check`, printing and the put methods between (C35, C38, C49) are left out.  In
  C53_ex3_refuted a put is two steps (emptied, then written).  In C54 the grid and the operators of `main_CGL` are
  arguments (C56_setup shows that those it builds will do), its one-dimensional B and C are two-dimensional.

Not modelled: `py2to3.py` 1-17, 41-59, `_version.py`, `__init__.py`, `tests`, `examples` (except the main
programs of `tutorial_ex3` to `tutorial_ex6` and `rom_ex2`, C53, and `tutorial_ex1`, `tutorial_ex2`, `rom_ex1` and `main_CGL` without plots, C54, C56, `hermite.py`, C55, and `customvector.py`, C57);
`util.get_data_members` (reflection); ragged chunks
in `Hankel_chunks`; compressed files and multi-character delimiters in text files; `matlab/testOKID_python.m` but its lines 43-47; pickling (an abstract
pair of functions); mpi4py's pickling of messages.

## 5. Findings

Behaviour of the code that the proofs brought out, with the theorem.

*Parallel layer.*
* Zero-weight tasks at the end are dropped by `find_assignments` (C01_zero_weights_refuted).
* With weights of very different size a task whose weight is lost in the floating-point sum is dropped
  (C43_absorbed_weight_refuted).
* The vectors `lin_combine` stores depend on the number of processes through rounding, and equal columns of
  coefficients can give unequal sums (C63_lin_combine_refuted; the differences are bounded, C64_agree); so do symmetric inner product arrays if the inner
  product is not symmetric to the last bit (C63_symmetric_refuted).
* A node with more processes than its share can exceed `max_vecs_per_node` (C03_uneven_nodes_refuted).
* The inner product array has the type of the first inner product; later complex values lose their
  imaginary part or raise (C04_mixed_types_refuted); doc/detailed_guide.rst:43-46 rules such inner products out.
* Message tags reach `P*P - 2 + P/2`; the guaranteed MPI limit 32767 is exceeded from 182 ranks
  (C07_standard_limit, C07_symm_limit_exceeded).
* An exception in a function called by `call_and_bcast`, or in a put on rank zero, leaves the other ranks
  waiting for ever (C10_call_and_bcast_raising, C38_put_raises, C38_get_missing, C49_galerkin_unset). So does decomposing
  before the correlation or Hankel array is computed (C65_decomposing).
* The warning of `compute_symm_inner_product_array` about redundant reads overstates them: only vectors of the last
  chunk are read that often (C44_symmetric_warning_refuted).
* The limit on vectors in memory is exceeded by one or two per process in the inner products, by two or three in
  `lin_combine` (C60_limit_refuted): loop variables, the list sent last and `sum_layer` still refer to vectors.
* `lin_combine` changes the caller's vectors if they are kept in memory and `x * 1` returns `x` itself
  (C62_product_returns_operand_refuted); doc/detailed_guide.rst:32-42 does not ask for a new object, and `sanity_check` would not notice.
* Whether `lin_combine` of real and complex vectors raises depends on their order, and so on the number of processes
  (C62_mixed_kinds_refuted).
* A rank that cannot read a vector raises, but the others are not told and may wait for ever
  (C61_every_rank_fails_refuted). No rank returns a result in that case (C61).
* `lin_combine` in place is right on one process with one chunk and wrong otherwise (C41_in_place_refuted).
* `print_msg` with an invalid channel raises on rank zero only (C51_print_agree_refuted); `print_from_rank_zero` ignores
  its channel (C51_print_channel_refuted).
* `tutorial_ex3.py`, run on several processes by runall.py:11-14, saves its data on every rank without a barrier: a rank
  can read a vector another is rewriting (C53_ex3_refuted).  Without the barrier of the other examples a rank may
  find no data (C53_no_barrier_refuted).
* All examples test for the output directory and then create it on every rank: a slower rank raises
  FileExistsError (C53_makedirs_refuted); right if it exists before (C53_makedirs).
* With `dt = 0`, ranks with tasks raise while ranks without wait at the barrier (C33_zero_dt).

*Handles and files.*
* The class-level base cache is stale after the base is rewritten (C11_stale_refuted), and returns the
  wrong base for handles that compare equal but differ in scale or base (C11_equal_refuted,
  C11_equal_memory_refuted).
* Integer arrays are saved as the floats with the same bits (C12_ints_lost); Fortran-ordered complex arrays
  and 0-d arrays raise (C12_fortran, C12_scalar); `%` as delimiter raises TypeError (C12_percent); empty arrays come back
  as (0, 1); a real file with an even number of columns is silently read as complex (C12_real_as_complex); vectors
  come back as columns (C12_vector).
* A complex array without imaginary parts does not survive `load_mat_text.m` and `save_mat_text.m`: MATLAB makes it real
  (C59_no_imaginary_refuted).  MATLAB reads four delimiters only (C59_unreadable).  `save_mat_text.m` never closes its file,
  and testOKID_python.m:30-33 (comments) call `load_mat_text` without its second argument.
* ERA writes its files on every rank without a barrier: right if all ranks have the same arrays (C49_era_model), otherwise
  the file depends on the schedule (C49_era_race_refuted).
* Loaded decompositions with one value are 0-d (C38_pod_single_refuted, C38_bpod_single_refuted), and
  `compute_modes` then raises (C49_loaded_single); complex DMD
  eigenvalues and eigenvectors come back as real and imaginary columns (C38_dmd_complex_refuted).
* `get_file_list` with an empty extension returns nothing (C40_empty_extension_refuted); `load_multiple_signals` repeats a
  one-signal file in all channels (C40_broadcast_refuted), compares times by `np.allclose` only, and its error message
  has an unfilled `%s`.
* A handle with NaN entries does not equal itself (C51_smart_eq_nan_refuted).
* The sanity check accepts inner products without conjugation (C35_bilinear_refuted).

*Decompositions.*
* `eigh` without tolerance keeps zeros, and raises TypeError on a negative eigenvalue with
  `is_positive_definite` (C16_zero_kept, C16_no_tolerance_negative).
* `eig_biorthog` is not biorthogonal for repeated eigenvalues (C17_repeated_refuted), hence neither are DMD
  adjoint modes (C22_repeated_refuted).
* Spaces with no weights, unit weights or the same weights in one and two dimensions compute the same products but are
  not `==` (C51_products_space_refuted); handle spaces differ by verbosity (C51_vs_eq_refuted).
* One-element weights are rejected (C18_one_element_refuted).
* Tolerances of direct methods act on singular values, of snapshot methods on their squares
  (C20_same_truncation_refuted, C26_same_tolerance_refuted).
* BPOD modes need data with Hankel structure (C21_not_Hankel_refuted), which the data of tutorial_ex3 and tutorial_ex6 lack; left-over vectors raise only after
  all the work (C21_leftover); no inputs raises ZeroDivisionError (C21_no_blocks).
* DMDHandles and TLSqrDMDHandles ignore `rtol` (C26_handles_rtol; dmd.py:786, 1767, 1786; also 1285 in the array
  function).
* A sequential `compute_decomp` after one with advanced vectors leaves the old advanced vectors in use
  (C25_refuted, C25_stale_modes); a failed one has already replaced the handles.
* After a failed `compute_decomp` the object holds the new vectors with the former decomposition, and the modes methods
  combine the two without complaint (C66_pod_modes, C66_bpod_modes, C66_dmd_modes, C66_tls_modes); TLSqrDMDHandles can also be left with new eigenvectors of
  the sum of the correlation arrays beside the former ones of the projected array (C66_tls).
* `compute_decomp` of other vectors leaves the former `proj_coeffs` (and `spectral_coeffs`) in the object, and `put_proj_coeffs`
  writes them without complaint, of whatever size (C67_stale); `get_decomp` leaves the former correlation arrays, and
  the DMD `compute_proj_coeffs` then mixes the two (C67_dmd); without a cross-correlation array it raises
  after assigning `proj_coeffs`, so the two coefficient arrays may be of two decompositions (C67_coeffs_mixed).
* `get_decomp` assigns the attributes one by one: when a source cannot be read, those before it are already new, and the
  object is left with, say, the eigenvalues of one decomposition and the eigenvectors of another (C67_pod_get,
  C67_bpod_get, C67_dmd_get, C67_tls_get; get_proj_coeffs likewise, C67_get_coeffs).
* `raise(ValueError, ...)` at dmd.py:959, 965 raises TypeError in Python 3.
* The snapshot version of total-least-squares DMD omits a conjugate in the spectral coefficients
  (dmd.py:1329-1330, C27_spectral_refuted); the handle version does not.

*Systems.*
* ERA drops imaginary parts of Markov parameters (C28_complex_refuted); `make_sampled_format` accepts drifting
  times (C28_drift_refuted) and does not return the documented `dt`; the size check of the Hankel arrays is
  too weak and too strict (C29_check_refuted), the default sizes are not maximal (C29_not_maximal), the constructor's `mc`
  and `mo` are ignored (C29_constructor_ignored).
* After a failed `ERA.compute_model`, `put_model` puts the former model and `put_decomp` the new Hankel arrays with the
  former singular vectors (C66_era_kept, C66_era_mixed).
* OKID: `num_Markovs` beyond the samples or zero raise (C31_too_many, C31_none).
* `matlab/OKID.m`, against okid.OKID: asked for `r` parameters it returns `r + 1`, and its comment says `r`; with more parameters
  than samples it answers where OKID raises (C58_too_many); its absolute cutoff 1e-5 treats small data as zero, with other
  results (C58_cutoff_refuted).
* OKID's first parameter is D, that of ERA and `impulse` is CB; nothing converts between them, and OKID's array given to
  ERA as it is yields a model one step late (C52_undropped).
* `lsim` drops imaginary parts (C36_complex_refuted); `impulse` without a number of steps gives 99 samples
  (C36_impulse_default).
* `balanced_truncation` solves the continuous-time Lyapunov equation for a discrete-time system
  (C37_gramian_refuted) and transposes without conjugating.
* `rss`, documented as stable, has an eigenvalue 0 when a draw is 0 (C50_rss_zero_refuted).
* `compute_derivs_arrays` given one advanced vector for many vectors repeats it without complaint (C33_arrays), where
  `compute_derivs_handles` raises RuntimeError (C33_length_mismatch).
* Galerkin projection: a failed inversion leaves unprojected values in the attribute (C32_failed_attribute); outputs given
  as numbers make a row with arrays (C32_C) and a column with handles (C32_handles_C).
* `hermite.py`: `herroots(0)` returns one node, although the polynomial of degree 0 has no roots (C55_limits).
* `examples/customvector.py`: vectors on different grids with as many points are multiplied without complaint, with the grid of
  the first, so that the inner product is not symmetric (C57_mixed_refuted); likewise a sum silently takes the grid of its first term.

## 6. Wrong programs

`seeded/LOG.jsonl` lists edits of single definitions of the models, each made in a scratch copy that was then built.
"rejected": a theorem or a lemma it uses no longer compiles; the first that fails in each file is named.  This includes
edits that only break the proof text while the statement stays true; where that is known a note says so.
"survived" and "only examples failed" led to tightened theorems or to a note why the edit changes nothing.
