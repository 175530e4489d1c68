# Formal model of mVMC – design

## Layout

* `rocq/theories/Base/*.v` – integer ranges, C-array updates, finite sums (no model content).
* `rocq/theories/<Area>/Model.v` – executable Gallina transcription of the C code of one area, every
  definition carries a comment with the file and lines in /repo it models and what was simplified.
* `rocq/theories/<Area>/Spec.v` – small independent specification (where the property is not
  expressible directly from standard vocabulary).
* `rocq/theories/<Area>/Proofs.v` – lemmas.
* `rocq/theories/<Area>/Properties.v` – only the property theorems (each `exact lemma`), concrete
  non-vacuity examples and `Print Assumptions`.

## Modelling conventions

* C `int` is unbounded `Z` unless the property is about wrap-around (SFMT: words mod 2^32).
* C arrays are total functions `Z -> V` with point update; where a property is about memory safety the
  bounds are explicit (list of written indices, or slices of an allocation).
* `double`/`double complex` are exact: a commutative ring / field or `R`.  Rounding is not modelled.
  IEEE special values appear only where the code tests for them (`isfinite`).
* Random numbers are an arbitrary stream (oracle); the wave-function amplitude used by the Metropolis
  test is an arbitrary function; MPI collectives are modelled by their sum/broadcast semantics.
* Loops whose termination depends on random numbers are modelled as relations/partial functions on
  explicit fuel, fuel exhaustion being a distinct outcome.

## Trusted base

* Coq 8.16.1 kernel (and `coqchk`), with the standard-library axioms listed per theorem at the end of this file.
  No axiom of our own, no `Admitted`, no switched-off check.
* The reading of the C sources: the code was never built or run; every model definition cites file and lines.
* The conventions above: unbounded integers, exact reals, sequential semantics of OpenMP loops where stated,
  sums for MPI reductions.
* The oracles listed below (LAPACK/PFAPACK results, `clog`, Gauss-Legendre nodes, text of numbers).

## What is modelled

| area | code | simplifications |
|------|------|-----------------|
| Par | splitloop.c, safempi(_fcmp).c chunk loops, vmcmain.c process groups and multi-definition mode | transfers are lists of chunks; int overflow appears as a separate outcome in C31 |
| Proj | projection.c (MakeProjCnt, UpdateProjCnt, UpdateProjCnt_fsz) | writes checked against the array bounds; OpenMP iterations by their write sets (C46) |
| Mem | setmemory.c, readdef.c array sizes and offsets, workspace.c, requests of all callers | addresses are offsets in one block; C30 models one session per pool, not nested |
| Para | parameter.c (shifts, rescaling, SyncModifiedParameter) | reals |
| Samp | vmcmake.c, vmcmake_fsz.c (make samples, proposals, burn) , matrix.c failure path, qp.c weight | random words and amplitudes are oracles; loops on random numbers have fuel with a distinct outcome; C17 takes uninitialised memory to be the same on all ranks and sums in rank order |
| SR | vmccal.c accumulation, average.c, stcopt*.c (dposv, pdposv, cg), vmcmain.c loop | complex accumulation; the solver of the linear system is an oracle for dposv/pdposv; the `_real` copies are area Rsr |
| Pf | pfupdate.c, pfupdate_two_fcmp.c, matrix.c (fcmp versions) | ZSKPFA, ZGETRF/ZGETRI are an oracle that returns Pfaffian and inverse; Pfaffians defined in Spec |
| Slater | slater.c, qp.c, legendrepoly.c, part of vmccal.c | nodes and weights of GaussLeg are an oracle |
| Rbm | rbm.c | `clog` inverts `cexp`; static OpenMP schedule; saveRBMCnt (which uses cabs where creal is meant) not modelled |
| Green | locgrn.c GreenFunc1/2/N and helper, projection.c ProjRatio | Pfaffian routine for n moved electrons is a hypothesis of C21_reduction_partial |
| Lan | lslocgrn.c bookkeeping, vmccal.c QQQQ/QCAQ sums, average.c, physcal_lanczos.c | local values of H and HA per sample are oracles; one process |
| Def | readdef.c name list, keyword tables, Green request files | text without NUL; bytes above 127 are not lowered |
| File | avevar.c, parameter.c ReadInitParameter, readdef.c ReadInputParameters | the text of a number read back is that number; no backflow (OutputOptData omits it) |
| Opt | readdef.c ReadDefFileIdxPara: flags, Gutzwiller, Jastrow, RBM layer and orbital tables | headers cut off, words are numbers or not; no int overflow; uninitialised i, j, spn start as 0; antiparallel reader only with general orbitals |
| Rng | SFMT.c, SFMT-sse2.h, SFMT.h to_real2, vmcmain.c seeds | little-endian, MEXP=19937; doubles by Flocq rounding |
| `Ham/` | `calham.c` CalculateHamiltonian, CalculateHamiltonian0, CalculateDoubleOccupation; `lslocgrn.c` LSLocalQ, LSLocalCisAjs and the functions they call | parallel regions as any division of the iterations among any number of threads with any work space contents; exact numbers; unused CalculateHamiltonian1/2 and the backflow variant left out |
| Fsz | slater_fsz.c, pfupdate_fsz.c, pfupdate_two_fsz.c, matrix.c CalculateMAll_fsz | one angle of the spin projection, as readdef.c demands with general orbitals; Pfaffian routine an oracle; the serial copies CalculateNewPfM2_fsz/CalculateNewPfMTwo2_fsz are the same code without OpenMP |
| Gfz | locgrn_fsz.c | as Green; GreenFunc1_fsz2 with equal places (never called so) outside |
| Hfz | calham_fsz.c CalculateHamiltonian_fsz, CalculateHamiltonian0_fsz, CalculateSz_fsz | as Ham; unused CalculateHamiltonian1/2_fsz and the real copy left out |
| Cgr | calgrn.c CalculateGreenFunc, calgrn_fsz.c CalculateGreenFunc_fsz | executions are sequences of iterations with their threads (general spins: two steps per iteration, since t, u, v are shared); sequentially consistent memory |
| Rsr | vmccal.c `_real` accumulation, average.c WeightAverageSROpt_real, stcopt.c:66-83, stcopt_cg_impl.c real copy | BLAS calls by their definition; the Slater, Green and local-energy `_real` copies were compared with the complex ones by a normalising diff only (they differ in ignoring RBM and the imaginary parts of projection weights) |
| Mark | the Metropolis step of vmcmake.c and vmcmake_fsz.c: proposals (Samp) with the weights filled in from Proj, Rbm, Pf, Fsz; projection.c LogProjRatio | one process holds all projections; logarithm of a vanishing overlap is minus infinity; words uniformly distributed and independent is the meaning of the averages in Spec.v; a weight a counts with min(1,a), C67_share bounds the difference; a step that reads more than n words does not count within n; the values of `_pf_block_update` are those of Blk, the real copies those of Rel |
| Rel | the copies in real arithmetic: pfupdate_real.c, pfupdate_two_real.c, qp_real.c, locgrn_real.c, calham_real.c, the weights of vmcmake_real.c; readdef.c:641-642 | double is R; one process holds all projections; the factorisation from scratch (matrix.c calculateMAll_child_real) is not modelled, the matrices are those of `sampled`; the general-spin copies (`*_fsz_real.c`) repeat the text of the complex ones and are not modelled separately |
| Ltl | `src/ltl2inv` (`ltl2pfa`, `utu2pfa`, `sktdsmx`, `ltl2inv`, `utu2inv`, `trmmt`), call sequence of `calculateMAll_child_fcmp` | exact arithmetic; a division by zero is the outcome None; BLAS swap/trmm and LAPACK lacpy by their documented meaning; PFAPACK sktrf and LAPACK trtri are parameters with stated contracts (`factorised`, `inverts`); the panel width is a parameter |
| Blk | `src/pfupdates` (`updated_tdi`, `pf_interface`, `orbital_mat`, `skslc`, `skmv`) with the calls of vmcmake.c, vmcmake.c:88-107 | exact arithmetic, upper storage; std::vector and fresh memory explicit, writes beyond a block, `vector::at` and divisions by zero are None; PFAPACK sktrf and skpfa, LAPACK trtri by contract (met by `Blk/Reference.v`, `Ltl/Cases.v` for all sizes); every kept configuration has a non-zero Pfaffian for the projection (the code marks "not computed" by a zero ratio and inverts the central matrix; the sampler only tests the weighted sum) |
| Uhf | `src/ComplexUHF`: makeham.c, diag.c, green.c, cal_energy.c, initial.c, the loop of UHFmain.c, ZHEEVall and cmp_MMProd of matrixlapack.c | exact arithmetic; the Fock terms are on (Def.h:31); LAPACK zheev is a parameter with the contract `diagonalises` for the size in use (met in closed form for one site in Cases.v); the interaction tables are those of Ham, pair hoppings with the opposite row the reader adds; readers, output.c and the orbital output are not modelled |
| Orb | `src/ComplexUHF/output.c` (orbital and gap files), the orbital readers of `src/ComplexUHF/readdef.c` and `src/mVMC/readdef.c`, the reader of orbital parameters (`mVMC/readdef.c:1406-1449`) | exact arithmetic; numbers are written with ten digits in the program and exactly here; a line that is not a number is None; rows of the definition files are what sscanf delivers; optimisation flags after the rows not modelled; random offsets are arbitrary values |
| Trm | the readers of the Hamiltonian files in `src/mVMC/readdef.c` (Transfer, CoulombIntra, pairs, PairHop, InterAll, TwoBodyG, LocSpin) and in `src/ComplexUHF/readdef.c` | a line is the list of its numbers, headers and counts are read before; numbers exact; a %d in front of a number that is not an integer is an outcome of its own (Stray), not followed; files exist |
| Grd | the assembly of the vector of derivatives in `src/mVMC/vmccal.c` and `vmccal_fsz.c`, the division of the parameter array in `setmemory.c`; joins the models of Slater, Rbm, Proj, Ham, SR | derivatives and energies exact; statements about averages for samples whose weights are proportional to the squared wave function (an enumeration of the configurations or the limit of sampling); the solution of the linear system is any solution |
| Sym | the reader of lattice transformations in `src/mVMC/readdef.c`; joins the models of Slater, Rbm, Proj and the means of Grd | one complete line per weight; a write outside its row is the outcome None; fixed spins |
| Inv | no new code; joins the models of Sym, Ham, Green and Grd | fixed spins, projections not split over processes, as in Ham and Grd |
| Ifz | no new code; joins the models of Sym, Hfz, Gfz, Fsz and Grd | projections not split over processes, no machine, as in Hfz |
| Otr | readdef.c GetInfoOptTrans, parameter.c:87-89 | lines with at least three columns, one line per weight |
| Chk | readdef.c:375-382, 588-661 | settings as read; integers without overflow; errors found before these checks are not followed; the first spins (vmcmake_fsz.c:455-467) are those of Samp |
<!-- more areas -->

## What is not modelled

Backflow (`*BF*`), the `_real` duplicates except where named, CalculateHamiltonian1/2 (unused), input and output of src/ComplexUHF, src/StdFace, src/pfapack,
timers, logging, the dry run, tool/.
Numerical rounding, NaN and infinities (except where the code tests for them), MPI failures and out-of-memory.

## Defects of the code found by the proofs

Each is a theorem named `..._refuted` with a concrete input or execution.

* C11: free spins with NExUpdatePath=3 and 2Sz given: the total spin changes.
* C17: CalculateMAll leaves the remaining projections untouched after a singular one; ranks of a group then disagree with a single process.
* C18: UpdateRBMCnt_fsz, spin flip on one site: the general visible layer is not updated.
* C21: calculateNewPfMN_child passes n instead of 2n to the Pfaffian routine: three-body Green functions are 0.
* C22/C24: an accepted move with one vanishing projection divides by zero.
* C28: with backflow the integer block is too small.
* C29, C45: flags of OptTrans are written at a place that ignores the RBM parameters and the stride 2.
* C30: calHCACA2 and calculateNewPfMN_child overrun their workspace.
* C31: chunk loop overflows int near INT_MAX.
* C33, C36: stored derivatives of the second process of a group (or after a skipped sample) are read from the wrong place.
* C37: averages of one step cannot be read back; with fewer steps than averaged steps unwritten memory is averaged.
* C39: the quadratic equation of the Lanczos step may degenerate (division by zero); the real version ignores the failure return.
* C40: a repeated line in the request file makes the reader write beyond the table.
* C44: inputs without any allowed configuration are accepted and the initial sample loops forever.
* C45: imaginary flags are not set for real families, parallel orbitals take the complex flag as optimisation flag, the index column is ignored.
* C50: data race in the parameter update of the conjugate-gradient variant.
* C51: derivatives of transform weights are written with the wrong stride.
* C52: threads can reach different worksharing loops in RBMRatio.
* C53: without a hidden-layer file the derivative of the couplings is added to a wrong slot.
* C54: expectation values after the Lanczos step are conjugated or wrong in complex mode.
* C55: mismatching initial-value files are ignored if another input file follows; missing lines repeat the last value.
* C56: repeated pairs, unknown parameters and asymmetric Jastrow tables are accepted; sites are written before they are checked.
* C57: a word among the flags loops forever.
* `calham.c:135-183`: lines of Transfer and InterAll whose creator and annihilator have different spins are evaluated with the annihilator's spin; the readers accept them, and the manual's InterAll example contains such lines (C59_spins_ignored, C59_spin_flip_refuted).
* `lslocgrn.c:677`: with an RBM, calHCACA2 passes counters it never filled to CalculateHamiltonian (C60_machine_refuted); `lslocgrn.c:609` calHCACA1 passes the counters of the configuration before the move.
* `lslocgrn.c` UpdateMAll inverts the matrix of every projection after the trial move; when the Pfaffian of one projection vanishes although the sum does not, the inverse does not exist (hypothesis no_partial_zero of C60).
* `calham_fsz.c:32-45`: the value averaged and printed as S^z with general orbitals is n_up - n_down, twice the S^z of the manual (and four times its square) (C64_twice_sz, C64_sz_refuted).
* `calgrn_fsz.c:63,83`: t in the first loop and u, v in the second are not private; with two threads rows are evaluated with spins of other rows (C65_race_refuted).
* `calgrn.c:66-89`: requests whose creator and annihilator have different spins are accepted and evaluated as if they had the same (C65_spins_ignored, C65_flip_refuted).
* `stcopt.c:88-106`: the cut threshold is relative to the largest diagonal of all components, also those not optimised; complex runs of real functions can drop parameters that real runs keep (C66_same_choice_refuted).
* `vmcmake.c` (`gen_rand32()%Nsite`, `%Ne`): the remainders are not equally likely, so detailed balance holds only up to (2^32 mod sites)/2^32 per word; exact balance fails on three sites (C68_balance_refuted). Of no practical weight, but exact stationarity needs a number of sites dividing 2^32.
* `readdef.c:641-642`: parameters of the restricted Boltzmann machine do not count for the choice between real and complex routines, and the real ones ignore the machine: it is sampled and measured as if absent (C69_machine_refuted).
* `qp_real.c:43,62`: complex weights of momentum projections do not count either and lose their imaginary parts (C69_momentum_refuted).
* `calham_real.c`: with real parameters and complex hopping amplitudes the stored local energy is the real part only; averages of Hermitian Hamiltonians are not affected, the second moment (and the variance printed from it) is (C69_hopping_refuted).
* `pf_interface.cc:83-85`: the minus sign gives the Pfaffian for odd numbers of electrons per spin and its negative for even ones; ratios do not change (C71_sign_refuted, C71_ratio).
* `vmcmake.c:84` with `qp.c:86-104`: with NSplitSize > 1 the updaters fill Pfaffians of all projections from 0 on, the sum reads them from 0 on with weights from qpStart on: wrong weights and ratios (C71_split_refuted).
* `vmcmake.c:91-96`: VMC_BLOCK_UPDATE_SIZE=1 is accepted; an exchange then writes past the updater's arrays, since `mmax - 2` wraps around (C71_block1_refuted).
* `ComplexUHF/makeham.c:70-139`: a row of CoulombInter or Hund with twice the same site, which the reader accepts, loses its one-body part n_i: mean field and energy are those of another Hamiltonian (C72_same_site_refuted).
* `mVMC/readdef.c:2526-2532`: with periodic boundaries the main program replaces all signs of an orbital definition file by 1, while the Hartree-Fock program (`ComplexUHF/readdef.c:598-624`) uses the signs of the file: pairs with sign -1 start with the wrong sign (C73_signs_refuted).
* `ComplexUHF/output.c:78-84`: with as many electrons as spin-orbitals the gap is computed from an eigenvalue behind the end of the array (C73_gap_refuted).
* `ComplexUHF/output.c:245-406`: a class number without cells gives 0/0, a line that is not a number (C73_average).
* `mVMC/readdef.c:1973-2083, 2420-2460` and `ComplexUHF/readdef.c:468-596`: rows beyond the announced number are written outside the arrays; the number is compared only after the last row (C74_extra_row_refuted).
* `mVMC/readdef.c:1973-1997, 2420-2460`: spins are not checked; a hopping to spin 5 is accepted and addresses a spin-orbital that does not exist (C74_spin_refuted).
* `mVMC/readdef.c:1982`: the variables of sscanf live through the loop, so that a hopping line without imaginary part takes that of the line before; the Hartree-Fock program takes 0 (C74_short_line_refuted).
* `mVMC/readdef.c:1976` and the like: a file whose header announces no rows is skipped whatever it contains (C74_zero_count_refuted).
* `ComplexUHF/readdef.c:526-596`: the arguments of fscanf read the row pointer behind the last one at the end of every file (C74_pointer_refuted).
* `common/setmemory.c:49-59`: allocating a table without rows writes its first row pointer (C74_allocation_refuted).
* `mVMC/readdef.c:1999-2015`: a LocSpin file that names one site twice and another not at all is accepted; the row is written before the site is checked (C74_locspin_refuted).
* `mVMC/vmccal_fsz.c:164`: with general orbitals the derivatives of the pair parameters are stored directly behind those of the correlation factors although with a machine the parameters lie behind its weights; the readers do not forbid the combination (C75_machine_offset_refuted).
* not a slip of the code but a limit of the method: the force leaves out the configurations on which the wave function vanishes, so that a pair parameter at 0 can stay at 0 although moving it lowers the energy (C75_zero_parameter_refuted).
* `mVMC/readdef.c:2251`: with antiperiodic boundaries (negative NMPTrans) a table without the column of signs is accepted with all signs 0; the wave function is then 0 everywhere (C76_no_sign_refuted).
* `mVMC/readdef.c:2252-2254`: numbers of transformations and sites are not checked before they are used as indices (C76_site_refuted); a repeated line makes up for a missing one (C76_repeated_refuted).
* `mVMC/qp.c:57-59`, `setmemory.c:252`: nothing compares NMPTrans with the number of transformations of the file; if it is larger, weights are read behind the array (C76_number_refuted).
* C79: the reader of the additional transformations counts its lines but never compares the count, so missing and repeated lines are accepted; images outside the lattice are accepted and later used as indices.
* C80: a Lanczos step with general orbitals is accepted if NSPGaussLeg > 1 (the two checks are joined by else); an odd number of local spins plus conduction electrons is rounded down; |2Sz| larger than the number of electrons is accepted.
<!-- more defects -->

Seen while reading, not (yet) proved: fclose(NULL) in several readers; the error path of PhysCalLanczos_fcmp leaks; zvo_ls_cisajs
mislabels rows when lines are repeated; spins in Green request files are not checked; SlaterElmBFDiff/BackFlowDiff race on shared
variables and tOrbSgn_i is uninitialised; CalculateGreenFuncBF passes uninitialised rbmCnt pointers; OutputOptData omits backflow;
the binary zvo_varbin writes half of the complex data; LocSpn values and NLocalSpin are unchecked; Ne=0 takes a modulus by zero;
`-m 0` divides by zero (C02); the selection threshold takes the maximum over fixed components too; FreeWorkSpaceAll leaks the
complex pools; saveRBMCnt uses cabs where creal is meant.

## Plan per property

| id | model | proof method |
|----|-------|--------------|
| C01 | `SplitLoop` | linear arithmetic with div/mod |
| C02 | `initMultiDefMode` group formula | arithmetic |
| C03 | group/seed assignment in `main` | arithmetic |
| C04-C06 | `MakeProjCnt`, `UpdateProjCnt`, `UpdateProjCnt_fsz` as loops over function arrays | loops summed into closed form per counter cell, then case analysis |
| C07 | list of indices written by the same loops | arithmetic |
| C08-C10 | `SetFlagShift`, `shiftGJ/DH2/DH4`, `SyncModifiedParameter` over R | sums over sites; counting identities |
| C11-C16 | sampler as a state machine with oracle for random numbers and acceptance | invariant by induction on the step list |
| C17 | product of p copies of the sampler with summed amplitude | simulation |
| C18 | `MakeRBMCnt`, `UpdateRBMCnt(_fsz)` | as C04; the fsz version is expected to be refuted for on-site flips |
| C19-C21 | `GreenFunc1/2/N` on electron labelings and an arbitrary antisymmetric amplitude | label-replacement semantics of operator strings, case analysis / induction |
| C22-C24 | update formulas as mathcomp matrices over a field; Pfaffian defined by recursion | Sherman-Morrison type identities |
| C25-C26 | `UpdateSlaterElm_fcmp`, `SlaterElmDiff_fcmp` | sums |
| C27 | index formulas | arithmetic |
| C28-C29 | pointer walk of `SetMemoryDef`/`SetMemory` | arithmetic |
| C30 | workspace allocator state machine; request/get table of callers | invariant; one caller expected to be refuted |
| C31 | chunk loop | induction on the remaining length |
| C32 | per-rank accumulation + Allreduce | sums over a partition |
| C33 | direct and stored accumulation of OO | sums; offset case expected to be refuted |
| C34 | selection loops of `StochasticOpt` | list induction |
| C35-C36 | `stcOptInit`, `operate_by_S` over R | sums |
| C37-C38 | writer/reader token streams; iteration loop | list reasoning; NSROptItrSmp=1 expected to be refuted |
| C39 | `CalculateEne*` over R | real algebra |
| C40 | numbering loops of `ReadGreen` | list induction |
| C41 | keyword table and name-list loop | list/string induction |
| C42 | SFMT block generation on words mod 2^32 | induction over the stream |
| C43 | proposal functions | mod arithmetic |
| C44 | initial sample feasibility | pigeonhole; free-spin case expected to be refuted |
| C45 | flag readers | list induction; partly expected to be refuted |
| C46 | write sets of the OpenMP loops in projection.c | disjointness |
| C47 | SyncModifiedParameter twice, on all processes | algebra of shifts |
| C48 | the conjugate-gradient loop of stcopt_cg | residual invariant |
| C49 | index maps of the block-cyclic distribution | div/mod arithmetic |
| C50 | the threaded update loop as interleavings of reads and writes | commutation / a losing schedule |
| C51 | calculateOptTransDiff | sums, slots |
| C52-C53 | RBMRatio, RBMDiff | sums over blocks and threads |
| C54 | expectation values of the Lanczos state | quadratic forms over R and C |
| C55 | ReadInputParameters | induction over keywords and lines |
| C56-C57 | readers of index tables and flags | list induction, counting of pairs |
| C58 | init_gen_rand with RndSeed + group | injectivity of the step of SFMT |
| C59 | sums of local values by induction over the plan of every thread; permutation of the plans; Green function theorems (C19, C20) for each term |
| C60 | every term: move, energy of the moved configuration by C59, move back; threshold branch by the anticommutator expansion; sum over lines as an observable product. Missing: machine with two-body terms (refuted), the low-rank routine (C21) |
| C61 | general spins by renaming: a configuration of spins and sites is a table of spin-orbitals, then the determinant identities of C22-C25 |
| C62 | derivative of the Pfaffian by its inverse, summed over projections |
| C63 | `GreenFunc1_fsz`, `GreenFunc1_fsz2`, `GreenFunc2_fsz`, `GreenFunc2_fsz2` over checked tables | antisymmetric functions of labelled electrons; value of two bilinears for each coincidence of places, then the code's branches |
| C64 | `CalculateHamiltonian_fsz` as a fold over threads and iterations | each term of each kind through C63, sums over any schedule by permutation |
| C65 | `calculate_green`, `calculate_green_fsz` over lists of events | every row sets its own cell and each cell is added to once, by induction over the events |
| C66 | `main_cal_real`, `spread`, `cg_init_real`, `operate_by_S_real` | real arrays are those of the complex code on samples whose derivatives were made real |
| C67 | `propose`, `weight` on the executions of Samp; `inner_step` | ratios of C04-C06, C18, C52, C24 and C61 combined; inversion of executions for the decision |
| C68 | `transition`, `next` averaged over all streams of n words | an involution on the streams that exchanges the two sites of the move makes every stream from x to y a stream of equal length from y to x; below the last full block of remainders it is a bijection |
| C69 | `green1_real`, `green2_real`, `calculate_hamiltonian_real`, `weight_real`, `update_mall_real`, `update_mall_two_real` | a relation between complex and real states kept by every statement; then the theorems of the complex code for the wave function with real parts |
| C70 | `utu2pfa`, `ltl2pfa`, `utu2inv`, `ltl2inv`, `sktdsmx`, `trmmt`, `pfaffian_and_inverse` | Pfaffian invariant under unit triangular congruence (one row at a time), odd under interchanges, product of every other superdiagonal entry for tridiagonal matrices; solver by invariants over its four loops; the result is skew because a right inverse of a skew matrix is; sums reindexed by the interchanges |
| C71 | `initialize`, `push_update`, `push_update_safe`, `push_pair`, `pop_update`, `merge_updates`, `inv_update`, `try`, `trials` | invariant between the arrays and the pending hops, kept by push, pop and merge; the low-rank identity for Pfaffians gives the ratio, the block inverse of the central matrix gives the update; sign of the pairing from reversing each 2x2 block |
| C72 | `makeham`, `diag`, `green`, `cal_energy`, `step`, `iterate`, `initial` | row by row, the entries added are the linear part of Wick's theorem; orthonormal orbitals give a projector, its complement of trace zero vanishes (completeness), so the spectrum bounds every determinant; double counting is minus the second-order part; the difference of two mean fields is bilinear and bounded by the interactions |
| C73 | `uhf_ap`, `uhf_ap_p`, `uhf_general`, `main_ap`, `main_ap_p`, `main_general`, `pair_general`, `pair_antiparallel`, `written`, `read_lines`, `output_gap` | Pfaffian of a sum of n antisymmetrised products is the determinant of the 2n orbitals (induction on the pairs: expansion of the Pfaffian along the first two orbitals commutes); both readers agree on index and sign of every cell; means over a class of equal values |
| C74 | `get_transfer_info`, `get_info_coulomb_intra`, `read_pair_d_value`, `read_pair_hop_value`, `get_info_inter_all`, `get_info_two_body_g`, `uhf_transfer`, `uhf_lines`, `uhf_pairs`, `uhf_pair_hop`, `uhf_inter_all`, `main_hamiltonian`, `uhf_hamiltonian` | scanning a complete line gives its row; one loop lemma for all readers (outcome decided by the first bad row, else by the number of rows); rows once written are kept; lists of terms row by row |
| C75 | `sr_opt_o`, `sr_opt_o_fsz`, `with_para`, `main_cal`, `stcOptInit` | derivatives of products of factors; adjoints of strings of operators through injections of the configurations; derivative of a quotient of quadratic forms; exact means; positivity of the covariance matrix (C12) |
| C76 | `get_trans_sym`, `init_opt_trans`; `init_qp_weight`, `update_slater_elm` (Slater), counters (Proj), machine (Rbm) | a Pfaffian with scaled rows and columns; the sum over a group is permuted by multiplication; permutations of sums over sites, neurons and words |
| C77 | `calculate_hamiltonian` (Ham), `sr_opt_o` (Grd), `psi` and the strings of operators (Green) | a string between moved spin-orbitals acts on a moved configuration like the original one; lists of terms are permuted by the symmetry; derivatives of equal functions are equal |
| C78 | `calculate_hamiltonian_fsz` (Hfz), `sr_opt_o_fsz` (Grd), `slater_elm_diff_fsz` (Fsz), `fpsi` and the strings of operators (Gfz) | as C77; spins move with their electrons, so strings may flip them; no hypothesis on the configurations |
| C79 | `get_opt_trans`, `init_opt` | induction over the lines; independence of the previous contents from completeness |
| C80 | `check_settings`, `adjust_block` | case analysis over unbounded integers; both directions separately, since the code accepts more than the consistent settings |
<!-- more rows -->

## Print Assumptions

All axioms are those of the standard library's real numbers (`ClassicalDedekindReals`), functional extensionality
(`FunctionalExtensionality`) and excluded middle (`Classical_Prop`). Written by tools/assumptions.py:

<!-- assumptions -->
* closed under the global context: C01_split_loop_balanced, C01_split_loop_tiles, C01_split_loop_unique_owner, C01_split_loop_within, C02_multidef_balanced, C02_multidef_monotone, C02_multidef_total, C02_multidef_zero_refuted, C03_full_group_size, C03_seed_iff_same_group, C04_hop_update_is_recount, C04_make_counts_spec, C05_spin_hop_update_is_recount, C06_exchange_update_is_recount, C07_cells_fill_exactly, C09_shift_flags_exact, C11_no_undefined, C11_no_undefined_fsz, C11_sz_conserved_path3_refuted, C11_tables_consistent, C11_tables_consistent_fsz, C12_rejected_step, C12_rejected_step_fsz, C12_revert_exchange, C12_revert_hop, C12_revert_hop_fsz, C13_initial_sample, C13_local_spins_single, C13_local_spins_single_fsz, C14_counters_current, C14_counters_current_fsz, C15_exchange_exists, C15_exchange_exists_fsz, C15_exchange_legal, C15_exchange_legal_fsz, C16_slots, C16_slots_fsz, C17_as_single, C17_as_single_fsz, C17_lockstep, C17_lockstep_fsz, C17_singular_refuted, C27_numbering, C28_backflow_refuted, C28_cg_tile, C28_double_tables_tile, C28_green_tile, C28_integer_tables_tile, C28_lanczos_tile, C28_projection_tile, C28_sr_tile, C28_walker_tile, C29_flags_same_places_partial, C29_flags_same_places_refuted, C29_init_file_same_places, C29_input_tile, C29_output_same_places, C29_pointers_tile, C30_calHCACA2_refuted, C30_callers_fit, C30_callers_safe, C30_careful_blocks_safe, C30_pfMN_child_refuted, C31_allreduce_complete, C31_bcast_complete, C31_chunks_overflow_refuted, C31_chunks_tile, C38_last_steps_recorded, C40_direct, C40_numbering, C40_repeated_refuted, C41_accepted, C41_blank_line_refuted, C41_ends, C41_long_line_refuted, C41_missing_name_refuted, C41_names, C42_initial_state, C42_not_stuck, C42_recurrence, C42_versions_agree, C43_draws_in_range, C43_hopping_in_range, C43_proposals_in_range_fsz, C43_spin_in_range, C44_accepted_but_endless_refuted, C44_completes_iff_feasible, C44_completes_iff_feasible_fsz, C45_flags_partial, C45_imaginary_refuted, C45_order_refuted, C45_parallel_refuted, C45_trans_refuted, C46_dh2_iterations_disjoint, C46_dh4_iterations_disjoint, C49_block_cyclic_bijection, C52_same_branch_refuted, C55_applied, C55_missing_lines_refuted, C55_rejected_partial, C56_both_antisymmetric, C56_both_values, C56_general_antisymmetric, C56_general_values, C56_jastrow_refuted, C56_outside_refuted, C56_parameter_refuted, C56_repeated_refuted, C56_site_pairs, C56_sites, C57_numbers_partial, C57_word_refuted, C58_group_same, C58_groups_differ, C67_decision, C67_decision_fsz, C69_selected, C74_allocation_refuted, C76_complete, C76_default, C76_file, C79_missing_refuted, C80_accepted, C80_accepts, C80_block, C80_first_spin, C80_first_spin_refuted, C80_lanczos_refuted, C80_odd_refuted, C80_spin_refuted.

* `sig_forall_dec`: C49_distributed_entries, C50_parallel_update_partial, C55_ignored_refuted, C55_other_refuted, C73_gap_refuted, C74_extra_row_refuted, C74_judged, C74_locspin_refuted, C74_pointer_refuted, C74_requests, C76_repeated_refuted, C76_site_refuted, C79_determined, C79_file, C79_outside_refuted, C79_twice_refuted.

* `functional_extensionality_dep`, `sig_forall_dec`: C08_ratios_unchanged, C08_shifted_factors_centred, C09_fixed_factor_unchanged, C09_fixed_family_unchanged, C09_fixed_gutzwiller_stops_all, C18_flip_refuted, C18_from_scratch, C18_hop, C18_hop_is_recomputation, C18_move_partial, C22_any_sequence, C22_from_scratch, C22_one_electron_update, C22_recompute_agrees, C22_singular_projection_refuted, C23_any_sequence, C23_two_electron_update, C24_one_electron_pfaffian, C24_two_electron_pfaffian, C26_other_slots, C27_legendre, C32_observables_over_all_samples, C34_selection_partition, C34_update_selected_only, C35_covariance_matrix_psd, C35_diagonal, C48_converges, C48_residual_exact, C49_gather_restores, C50_both_components_refuted, C61_any_sequence, C61_elements, C61_from_scratch, C61_one_electron_ratio, C61_skew, C61_two_electron_ratio, C62_other_slots, C63_commutator, C66_cg_update, C67_share, C69_update, C69_update_two, C70_frame, C70_pfaffian, C71_block1_refuted, C71_ratio, C71_split_refuted, C72_hamiltonian, C72_hermitian, C72_initial, C72_same_site_refuted, C73_average, C74_hamiltonian, C74_same, C74_short_line_refuted, C74_spin_refuted, C74_zero_count_refuted, C75_self_adjoint, C78_files.

* `functional_extensionality_dep`, `sig_forall_dec`, `sig_not_dec`: C08_wave_function_scaled, C10_amplitudes_rescaled, C10_transformation_weights_rescaled, C19_antisymmetric, C19_green1, C19_values, C20_commutator, C20_green2, C21_reduction_partial, C21_short, C25_elements, C25_skew, C27_amplitude, C27_weights, C32_averages_over_all_samples, C33_second_process_refuted, C33_skipped_sample_refuted, C33_store_equals_direct_partial, C35_assembled_is_covariance, C36_group_of_two_refuted, C36_operator_is_covariance_partial, C37_family_files, C37_few_steps_refuted, C37_one_step_refuted, C37_single_file, C38_mean_and_deviation, C47_idempotent, C47_processes_agree, C48_parameter_change_solves, C52_log_ratio, C52_ratio, C52_weight, C54_one_body_conjugate_partial, C54_one_body_real, C54_one_body_refuted, C54_two_body_partial, C54_two_body_real, C54_two_body_refuted, C59_anticommutation, C59_diagonal, C59_double_occupation, C59_energy, C59_spins_ignored, C60_cisajs_partial, C60_hopping, C60_square_partial, C62_overlap, C63_antisymmetric, C63_one, C63_one_flip, C63_two, C63_two_flip, C64_diagonal, C64_energy, C64_sz_refuted, C64_twice_sz, C65_fsz_partial, C65_measured, C65_race_refuted, C65_spins_ignored, C66_cg_choice_partial, C66_cg_partial, C66_imaginary_parts_kept, C66_same_choice_refuted, C66_same_system, C66_store_partial, C66_system, C67_weight, C67_weight_fsz, C68_balance, C68_balance_fsz, C68_near_balance, C68_near_balance_fsz, C68_near_stationary, C68_near_stationary_fsz, C68_stationary, C68_stationary_fsz, C69_energy, C69_green1, C69_green2, C69_shadow, C69_table_skew, C69_weight, C70_inverse, C70_singular, C70_tables, C71_sampling, C71_sign_refuted, C71_singular, C71_updates, C72_converged, C72_energy, C72_fixed_point, C72_lowest, C72_state, C73_antiparallel, C73_determinant, C73_gap, C73_general, C73_parallel, C73_signs_refuted, C75_flat, C76_density, C76_joint, C76_means, C76_no_sign_refuted, C76_number_refuted, C76_overlap, C76_probability, C76_wave, C77_energies, C77_expectation, C77_files, C77_local, C77_local_energy, C78_energies, C78_expectation, C78_local, C78_local_energy, C78_probability, C78_wave.

* `classic`, `functional_extensionality_dep`, `sig_forall_dec`, `sig_not_dec`: C21_kernel_refuted, C26_slater_derivative, C39_degenerate_refuted, C39_minimum, C39_minimum_real, C39_real_failure_refuted, C39_reported_partial, C42_reals, C51_slots_refuted, C51_values_partial, C53_derivatives_partial, C53_no_bias_refuted, C59_spin_flip_refuted, C60_machine_refuted, C62_derivatives, C65_flip_refuted, C68_balance_refuted, C69_hopping_refuted, C69_machine_refuted, C69_momentum_refuted, C75_derivatives, C75_downhill, C75_energy, C75_gradient, C75_gradient_flat, C75_machine_offset_refuted, C75_zero_parameter_refuted, C77_derivatives, C78_derivatives.

<!-- end assumptions -->
