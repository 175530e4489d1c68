{"id": "C01", "title": "Loop splitting is an exact balanced partition", "statement": "When a loop of length n is divided among the processes of a communicator, the half-open ranges handed to ranks 0..size-1 are consecutive, start at 0 and end at n, so every iteration is executed by exactly one process; range lengths differ by at most one.", "quantifier": "all loop lengths n>=0, all communicator sizes >=1, all ranks", "why_tests_cant": "Correctness must hold for every pair (n,size), including size>n and n not divisible by size; tests run a handful of process counts.", "anchors": ["src/mVMC/splitloop.c:SplitLoop"]}
{"id": "C02", "title": "Multi-definition mode assigns every process to exactly one job, evenly", "statement": "In the -m N mode the assignment of MPI processes to the N independent jobs is monotone in the rank, uses job numbers 0..N-1 only, gives every job at least one process and job sizes that differ by at most one.", "quantifier": "all world sizes and all N with 1<=N<=size", "why_tests_cant": "Quantifies over all process counts; a test can only launch a few.", "anchors": ["src/mVMC/vmcmain.c:initMultiDefMode"]}
{"id": "C03", "title": "Process groups share or separate random streams as intended", "statement": "With NSplitSize processes per group, two processes use the same random seed if and only if they belong to the same sampling group, and every full group has exactly NSplitSize members.", "quantifier": "all world sizes, NSplitSize>=1, all pairs of ranks", "why_tests_cant": "Universal over ranks and sizes.", "anchors": ["src/mVMC/vmcmain.c:main"]}
{"id": "C04", "title": "Incremental correlation counters equal counters from scratch (hopping)", "statement": "After an electron hops, the incrementally updated Gutzwiller/Jastrow/doublon-holon counters equal the counters recomputed from the new occupation numbers.", "quantifier": "all lattices, index tables, occupations with entries 0/1, source and destination sites and spins for which the hop is legal", "why_tests_cant": "A single wrong coefficient shows up only for particular combinations of site order, equal indices and occupations; tests cannot enumerate tables and configurations.", "anchors": ["src/mVMC/projection.c:MakeProjCnt", "src/mVMC/projection.c:UpdateProjCnt"]}
{"id": "C05", "title": "Incremental correlation counters equal counters from scratch (spin-changing hop)", "statement": "The same for the hop (ri,s)->(rj,t) that may change the spin, including the on-site spin flip.", "quantifier": "all lattices, tables, occupations and legal moves including ri=rj", "why_tests_cant": "Same combinatorial explosion, plus the ri=rj special case.", "anchors": ["src/mVMC/projection.c:UpdateProjCnt_fsz"]}
{"id": "C06", "title": "Exchange counters: two chained in-place updates equal recomputation", "statement": "For an exchange of two electrons the two successive counter updates, the second one done in place, give the counters of the final configuration.", "quantifier": "all lattices, tables, occupations and exchange partners", "why_tests_cant": "Aliasing of the input and output buffer matters only for some index coincidences.", "anchors": ["src/mVMC/projection.c:UpdateProjCnt", "src/mVMC/vmcmake.c:VMCMakeSample"]}
{"id": "C07", "title": "Correlation counter indices stay inside the parameter section", "statement": "Every counter cell written while counting or updating lies in [0,NProj), and the four families of correlation factors occupy disjoint index ranges that together fill [0,NProj).", "quantifier": "all tables whose entries are within their declared ranges, all occupations", "why_tests_cant": "Memory safety for all table contents.", "anchors": ["src/mVMC/projection.c:MakeProjCnt", "src/mVMC/readdef.c:ReadDefFileNInt"]}
{"id": "C08", "title": "Renormalising correlation parameters leaves the wave function unchanged", "statement": "Shifting the Gutzwiller-Jastrow and doublon-holon parameters after an optimisation step multiplies the wave function by the same constant for all electron configurations with a fixed number of electrons.", "quantifier": "all parameter values, index tables and all pairs of configurations with the same electron number", "why_tests_cant": "It is a statement about every pair of configurations and every real parameter vector.", "anchors": ["src/mVMC/parameter.c:SyncModifiedParameter", "src/mVMC/parameter.c:shiftGJ", "src/mVMC/parameter.c:shiftDH2", "src/mVMC/parameter.c:shiftDH4", "src/mVMC/projection.c:LogProjVal"]}
{"id": "C09", "title": "Shifts touch only correlation factors that are all being optimised", "statement": "If any Gutzwiller factor is held fixed, or any factor of a family is held fixed, the renormalising shift of that family is not applied, so a fixed correlation factor never changes.", "quantifier": "all optimisation-flag vectors", "why_tests_cant": "2^NPara flag vectors.", "anchors": ["src/mVMC/parameter.c:SetFlagShift", "src/mVMC/parameter.c:SyncModifiedParameter"]}
{"id": "C10", "title": "Pair-amplitude rescaling preserves ratios and bounds the maximum", "statement": "After parameter synchronisation the largest modulus of the pair amplitudes is exactly 4, and all ratios of pair amplitudes (hence all physical expectation values) are unchanged, provided some amplitude is non-zero.", "quantifier": "all amplitude vectors not identically zero", "why_tests_cant": "Continuum of inputs.", "anchors": ["src/mVMC/parameter.c:SyncModifiedParameter"]}
{"id": "C11", "title": "Monte Carlo configuration tables stay mutually consistent", "statement": "At every step of the sampler (hopping, exchange, local spin flip, accepted or rejected) the electron-to-site table, the site-to-electron table and the occupation table describe the same set of electrons: no site/spin holds two electrons, each electron is where the tables say and the numbers of up and down electrons are conserved when the total Sz is conserved.", "quantifier": "all initial configurations, all random number streams, all acceptance decisions, any number of steps", "why_tests_cant": "A property of all infinite executions of a Markov chain.", "anchors": ["src/mVMC/vmcmake.c:VMCMakeSample", "src/mVMC/vmcmake.c:updateEleConfig", "src/mVMC/vmcmake.c:revertEleConfig", "src/mVMC/vmcmake.c:makeCandidate_hopping", "src/mVMC/vmcmake.c:makeCandidate_exchange"]}
{"id": "C12", "title": "Rejected moves leave no trace", "statement": "A proposed hop or exchange that is rejected restores all configuration tables to exactly the values they had before.", "quantifier": "all consistent configurations and all proposals", "why_tests_cant": "All configurations.", "anchors": ["src/mVMC/vmcmake.c:revertEleConfig", "src/mVMC/vmcmake_fsz.c:revertEleConfig_fsz"]}
{"id": "C13", "title": "Local-spin sites always hold exactly one electron", "statement": "Sites declared as local spins hold exactly one electron in the initial sample and after any number of hopping, exchange and spin-flip updates.", "quantifier": "all local-spin masks, random streams and acceptance decisions", "why_tests_cant": "Inductive over unbounded runs.", "anchors": ["src/mVMC/vmcmake.c:makeInitialSample", "src/mVMC/vmcmake.c:makeCandidate_hopping", "src/mVMC/vmcmake_fsz.c:makeCandidate_LocalSpinFlip_localspin"]}
{"id": "C14", "title": "Stored counters always belong to the current configuration", "statement": "Throughout sampling the correlation counters kept with the walker equal the counters of its current occupation numbers, so saved samples are self-consistent.", "quantifier": "all executions of the sampler", "why_tests_cant": "Errors accumulate only along particular histories.", "anchors": ["src/mVMC/vmcmake.c:VMCMakeSample", "src/mVMC/vmcmake.c:saveEleConfig"]}
{"id": "C15", "title": "Exchange proposals exist whenever the code starts searching for one", "statement": "If the exchange proposal routine does not report rejection, both a singly occupied spin-s site and a singly occupied site of opposite spin exist, so its random search loops can succeed; the proposal it returns is a legal exchange.", "quantifier": "all configurations with equal numbers of up and down electrons (or, in the free-spin version, all configurations)", "why_tests_cant": "Existence claim over all configurations; failure is an infinite loop.", "anchors": ["src/mVMC/vmcmake.c:makeCandidate_exchange", "src/mVMC/vmcmake_fsz.c:makeCandidate_exchange_fsz"]}
{"id": "C16", "title": "Sample slots are filled exactly once", "statement": "One sampling run stores samples in slots 0..NVMCSample-1, each slot exactly once and in order, whether or not the run is a continuation of an earlier one.", "quantifier": "all warm-up and sample counts, both burn states", "why_tests_cant": "Off-by-one errors at all sizes.", "anchors": ["src/mVMC/vmcmake.c:VMCMakeSample"]}
{"id": "C17", "title": "Ranks of one sampling group walk in lockstep", "statement": "All processes of a sampling group hold identical walkers at every step, and this walker is the one a single process would have produced with the same seed (in exact arithmetic).", "quantifier": "all group sizes, seeds, numbers of steps", "why_tests_cant": "Quantifies over schedules and group sizes.", "anchors": ["src/mVMC/vmcmake.c:VMCMakeSample", "src/mVMC/qp.c:CalculateLogIP_fcmp"]}
{"id": "C18", "title": "Incremental RBM counters equal counters from scratch", "statement": "After a hop the incrementally updated visible-field and neuron sums of the RBM equal the recomputed ones, including spin-changing moves.", "quantifier": "all RBM index tables, weights, occupations and legal moves", "why_tests_cant": "All tables and configurations.", "anchors": ["src/mVMC/rbm.c:MakeRBMCnt", "src/mVMC/rbm.c:UpdateRBMCnt", "src/mVMC/rbm.c:UpdateRBMCnt_fsz"]}
{"id": "C19", "title": "One-body local Green function is the fermionic matrix element", "statement": "The local one-body Green function equals the amplitude ratio obtained by acting with c^dagger_i c_j on the configuration, with 0 for Pauli-blocked moves and the density for i=j, and the configuration tables are unchanged on return.", "quantifier": "all antisymmetric wave functions, configurations, site pairs and spins", "why_tests_cant": "All wave functions.", "anchors": ["src/mVMC/locgrn.c:GreenFunc1"]}
{"id": "C20", "title": "Two-body local Green function obeys fermionic operator algebra in every index coincidence", "statement": "The local two-body Green function equals the amplitude ratio obtained by acting with c^dagger_i c_j c^dagger_k c_l, for all coincidences among i,j,k,l and spins.", "quantifier": "all antisymmetric wave functions, configurations, 4-tuples of sites, spin pairs", "why_tests_cant": "15 coincidence patterns times occupations times signs.", "anchors": ["src/mVMC/locgrn.c:GreenFunc2"]}
{"id": "C21", "title": "N-body Green function reduction is sound", "statement": "The recursive reduction of an n-body operator string to shorter strings preserves its matrix element.", "quantifier": "all n, all operator strings, all antisymmetric wave functions and configurations", "why_tests_cant": "Unbounded recursion over operator strings.", "anchors": ["src/mVMC/locgrn.c:GreenFuncN"]}
{"id": "C22", "title": "Updated inverse matrix is the inverse of the updated matrix (one electron)", "statement": "After an accepted single-electron move the stored inverse is the inverse of the new pair matrix in exact arithmetic, it stays skew-symmetric, and therefore this holds after any number of accepted moves.", "quantifier": "all even sizes, all skew-symmetric invertible matrices with non-zero update ratio, any number of updates", "why_tests_cant": "Algebraic identity of unbounded size.", "anchors": ["src/mVMC/pfupdate.c:updateMAll_child"]}
{"id": "C23", "title": "Updated inverse matrix is the inverse of the updated matrix (two electrons)", "statement": "The same for the two-electron update, whatever value is used for the old (a,b) matrix element.", "quantifier": "all sizes, matrices, pairs of electrons", "why_tests_cant": "Algebraic identity; the code reads a wrong old element (raOld instead of rbOld), so independence from it must be shown for all values.", "anchors": ["src/mVMC/pfupdate_two_fcmp.c:updateMAllTwo_child_fcmp"]}
{"id": "C24", "title": "Pfaffian ratios used in Metropolis tests are exact", "statement": "The new Pfaffian computed from the old inverse equals the Pfaffian of the moved configuration for one- and two-electron moves, in exact arithmetic.", "quantifier": "all sizes, matrices and moves", "why_tests_cant": "Algebraic identity of unbounded size.", "anchors": ["src/mVMC/pfupdate.c:CalculateNewPfM", "src/mVMC/pfupdate_two_fcmp.c:calculateNewPfMTwo_child_fcmp"]}
{"id": "C25", "title": "Pair matrix is skew-symmetric for every input table", "statement": "The pair-amplitude table built for each quantum-number projection is skew-symmetric, whatever orbital index table, signs, translations and amplitudes the user supplies.", "quantifier": "all tables, all sizes", "why_tests_cant": "All user inputs.", "anchors": ["src/mVMC/slater.c:UpdateSlaterElm_fcmp"]}
{"id": "C26", "title": "Logarithmic derivative of the pair amplitudes is correct", "statement": "The derivative of the projected amplitude with respect to each pair parameter used by the optimiser equals the formal derivative of the pair matrix contracted with its inverse.", "quantifier": "all tables, sizes, skew-symmetric inverses", "why_tests_cant": "Identity in arbitrary dimension.", "anchors": ["src/mVMC/slater.c:SlaterElmDiff_fcmp"]}
{"id": "C27", "title": "Projection indices are used consistently", "statement": "The weight, pair matrix, translation and spin-rotation angle used for one quantum-projection index all refer to the same (optional transform, translation, angle) triple, and the index enumerates all triples exactly once.", "quantifier": "all numbers of angles, translations and transforms", "why_tests_cant": "All sizes.", "anchors": ["src/mVMC/qp.c:InitQPWeight", "src/mVMC/qp.c:UpdateQPWeight", "src/mVMC/slater.c:UpdateSlaterElm_fcmp", "src/mVMC/slater.c:SlaterElmDiff_fcmp"]}
{"id": "C28", "title": "Definition arrays fit the allocated integer block exactly", "statement": "The integer tables read from definition files are carved out of one allocation as pairwise disjoint consecutive slices whose total length equals the allocated length.", "quantifier": "all non-negative input sizes (no backflow)", "why_tests_cant": "Linear arithmetic over thirty unbounded sizes.", "anchors": ["src/mVMC/setmemory.c:SetMemoryDef", "src/mVMC/readdef.c:ReadDefFileNInt"]}
{"id": "C29", "title": "Parameter vector sections tile the parameter array", "statement": "The correlation, RBM, pair-amplitude and transform sections are disjoint, in order and cover [0,NPara); the optimisation-flag reader, the averaging output and the initial-parameter reader use the same offsets.", "quantifier": "all section sizes", "why_tests_cant": "All sizes.", "anchors": ["src/mVMC/setmemory.c:SetMemory", "src/mVMC/readdef.c:ReadDefFileIdxPara", "src/mVMC/avevar.c:OutputOptData", "src/mVMC/parameter.c:ReadInitParameter"]}
{"id": "C30", "title": "Workspace blocks handed out between requests never overlap and never overrun", "statement": "Blocks obtained from the scratch allocator between one reservation and the release are pairwise disjoint and inside the reserved memory whenever the caller asks for no more than it reserved; every caller does so.", "quantifier": "all sequences of reservations, requests and releases; all problem sizes for the callers", "why_tests_cant": "All call histories.", "anchors": ["src/mVMC/workspace.c", "src/mVMC/lslocgrn.c:calHCACA2"]}
{"id": "C31", "title": "Large messages are sent completely and in bounded pieces", "statement": "The chunked MPI wrappers transfer every element exactly once, in order, in pieces of at most 2^20 elements, and terminate.", "quantifier": "all message lengths", "why_tests_cant": "Lengths beyond 2^20 and remainders.", "anchors": ["src/mVMC/safempi.c", "src/mVMC/safempi_fcmp.c"]}
{"id": "C32", "title": "Averages do not depend on how samples are divided among processes", "statement": "The weighted averages of energy and observables after reduction equal the average over all samples computed by one process, in exact arithmetic, and samples that are skipped contribute to neither numerator nor denominator.", "quantifier": "all numbers of processes, samples and sample values", "why_tests_cant": "All partitions.", "anchors": ["src/mVMC/vmccal.c:VMCMainCal", "src/mVMC/average.c:WeightAverageWE"]}
{"id": "C33", "title": "Stored-derivative mode computes the same overlap matrix", "statement": "Accumulating the overlap matrix sample by sample and computing it from stored derivatives give the same matrix.", "quantifier": "all sample values, all sample ranges handled by a process", "why_tests_cant": "Depends on the process' sample offset, which single-process tests always have equal to 0.", "anchors": ["src/mVMC/vmccal.c:VMCMainCal", "src/mVMC/vmccal.c:calculateOO_Store", "src/mVMC/vmccal.c:calculateOO"]}
{"id": "C34", "title": "Parameter selection in stochastic reconfiguration is a partition", "statement": "Every real or imaginary parameter component is counted exactly once as fixed, cut or optimised; the selection map is strictly increasing, contains exactly the optimised components, and only these are changed by the update.", "quantifier": "all flag vectors, overlap diagonals and thresholds", "why_tests_cant": "2^(2 NPara) flag vectors.", "anchors": ["src/mVMC/stcopt.c:StochasticOpt"]}
{"id": "C35", "title": "Overlap matrix is symmetric positive semidefinite and the force is a covariance", "statement": "The matrix assembled for the linear solver equals the covariance matrix of the logarithmic derivatives (with the diagonal stabilisation added), hence is symmetric and positive semidefinite, and the right-hand side is minus the step width times the energy covariance.", "quantifier": "all samples and parameter selections", "why_tests_cant": "All samples.", "anchors": ["src/mVMC/stcopt_dposv.c:stcOptInit"]}
{"id": "C36", "title": "Conjugate-gradient operator equals the assembled matrix", "statement": "Multiplying by the overlap operator in the matrix-free solver gives the same vector as the assembled overlap matrix.", "quantifier": "all samples, vectors and selections", "why_tests_cant": "All inputs.", "anchors": ["src/mVMC/stcopt_cg_impl.c:operate_by_S", "src/mVMC/stcopt_dposv.c:stcOptInit"]}
{"id": "C37", "title": "Parameter files can be read back", "statement": "A parameter file written at the end of optimisation, used as the initial-parameter file of another run with the same input, restores the averaged parameters.", "quantifier": "all parameter values and section sizes, all numbers of averaged steps", "why_tests_cant": "All sizes; depends on the number of averaged steps.", "anchors": ["src/mVMC/avevar.c:OutputOptData", "src/mVMC/parameter.c:ReadInitParameter", "src/mVMC/vmcmain.c:outputData"]}
{"id": "C38", "title": "Optimised averages use exactly the last NSROptItrSmp steps", "statement": "The optimisation loop stores the parameters of exactly the last NSROptItrSmp steps, each in its own slot.", "quantifier": "all step counts with NSROptItrSmp<=NSROptItrStep", "why_tests_cant": "All sizes.", "anchors": ["src/mVMC/vmcmain.c:VMCParaOpt", "src/mVMC/avevar.c:StoreOptData"]}
{"id": "C39", "title": "Lanczos step picks the minimising mixing parameter", "statement": "The chosen mixing coefficient is a stationary point of the variational energy of (1+alpha H)|psi>, and the energy reported is the minimum over all real alpha.", "quantifier": "all moments h1..h4 with positive-definite norm", "why_tests_cant": "Continuum of inputs.", "anchors": ["src/mVMC/physcal_lanczos.c:CalculateEne", "src/mVMC/physcal_lanczos.c:CalculateEneByAlpha", "src/mVMC/physcal_lanczos.c:PhysCalLanczos_real"]}
{"id": "C40", "title": "One-body Green function numbering for Lanczos is injective and complete", "statement": "The table that numbers the one-body operators needed in Lanczos mode gives different numbers to different operators, covers all operators used by the requested two-body operators, and uses exactly the numbers 0..n-1.", "quantifier": "all Green function request files", "why_tests_cant": "All files, including duplicated lines.", "anchors": ["src/mVMC/readdef.c:CountOneBodyGForLanczos", "src/mVMC/readdef.c:ReadGreen"]}
{"id": "C41", "title": "Name list accepts exactly one file per known keyword", "statement": "Reading the name list succeeds only if every keyword is known (case-insensitively) and no keyword occurs twice; unknown or repeated keywords are rejected.", "quantifier": "all name list contents", "why_tests_cant": "All strings.", "anchors": ["src/mVMC/readdef.c:GetFileName", "src/mVMC/readdef.c:CheckKW", "src/mVMC/readdef.c:CheckWords"]}
{"id": "C42", "title": "Random number generator: block generation follows the recurrence", "statement": "The in-place block regeneration of the random state yields exactly the sequence of the generator's linear recurrence, for any number of regenerations, and real numbers used in Metropolis tests are in [0,1).", "quantifier": "all seeds and stream positions", "why_tests_cant": "Unbounded streams.", "anchors": ["src/sfmt/SFMT.c:gen_rand_all", "src/sfmt/SFMT.c:gen_rand32", "src/sfmt/SFMT.h:genrand_real2"]}
{"id": "C43", "title": "Random proposals stay within range", "statement": "Random electron, site and spin choices always lie in their index ranges.", "quantifier": "all random words and all sizes", "why_tests_cant": "All streams.", "anchors": ["src/mVMC/vmcmake.c:makeCandidate_hopping"]}
{"id": "C44", "title": "Initial sample construction completes for every accepted input", "statement": "For every input accepted by the reader the construction of an initial configuration terminates (for suitable random numbers).", "quantifier": "all accepted inputs", "why_tests_cant": "Needs a feasibility argument over all inputs.", "anchors": ["src/mVMC/vmcmake.c:makeInitialSample", "src/mVMC/vmcmake_fsz.c:makeInitialSample_fsz", "src/mVMC/readdef.c:ReadDefFileNInt"]}
{"id": "C45", "title": "Optimisation flags read from the input cover every parameter component", "statement": "After reading the definition files every component (real and imaginary) of every parameter has a defined optimisation flag equal to what the file says, and a parameter declared fixed is not optimised.", "quantifier": "all definition files accepted by the reader", "why_tests_cant": "All files.", "anchors": ["src/mVMC/readdef.c:GetInfoOpt", "src/mVMC/readdef.c:GetInfoOptOrbitalParalell", "src/mVMC/readdef.c:ReadDefFileIdxPara"]}
{"id": "C46", "title": "Parallel doublon-holon counting is free of write conflicts", "statement": "Different iterations of the parallel loops over doublon-holon shapes write different counters, so the counters do not depend on the thread schedule.", "quantifier": "all tables, configurations, thread schedules", "why_tests_cant": "Races show up only under particular schedules.", "anchors": ["src/mVMC/projection.c:MakeProjCnt", "src/mVMC/projection.c:UpdateProjCnt"]}
{"id": "C47", "title": "Parameter synchronisation is idempotent and leaves all processes with the same parameters", "statement": "With more than one process, after a synchronisation every process holds the same parameters, whatever each of them held before. Synchronising again changes nothing: the correlation factors are already centred and the pair amplitudes already scaled.", "quantifier": "all process counts, all parameter values with a non-zero pair amplitude (and orbital-transformation weight where present), all flags", "why_tests_cant": "Continuum of parameter values; a test sees one vector and cannot distinguish a fixed point from slow drift.", "anchors": ["src/mVMC/parameter.c:SyncModifiedParameter", "src/mVMC/parameter.c:shiftGJ", "src/mVMC/parameter.c:shiftDH2", "src/mVMC/parameter.c:shiftDH4"]}
{"id": "C48", "title": "Conjugate-gradient iteration solves the stabilised covariance equations", "statement": "The residual vector kept by the iteration is exact at every iteration, including those where it is recomputed; stopping early implies that the squared residual is below the threshold; for a symmetric positive definite matrix as many iterations as unknowns suffice, so with diagonal stabilisation the computed parameter change solves the covariance equations of the selected components to the requested tolerance.", "quantifier": "all sizes, matrices, right-hand sides, thresholds, samples and selections", "why_tests_cant": "All matrices; convergence needs orthogonality of all residuals.", "anchors": ["src/mVMC/stcopt_cg_impl.c:StochasticOptCG_Main"]}
{"id": "C49", "title": "Block-cyclic distribution of the linear system is exact", "statement": "On every process grid and block size each row or column index is held by exactly one process; every distributed matrix and vector entry equals the corresponding entry of the assembled system; gathering the distributed solution restores the vector.", "quantifier": "all matrix sizes, block sizes and process grids", "why_tests_cant": "All grids.", "anchors": ["src/mVMC/stcopt_pdposv.c:stcOptMain"]}
{"id": "C50", "title": "Parallel parameter update of the conjugate-gradient variant gives the sequential result", "statement": "Whatever the interleaving of the loads and stores of the parallel update loop, the parameters end as after the sequential loop.", "quantifier": "all selections, changes and interleavings", "why_tests_cant": "Number of interleavings; a lost update needs an unlucky schedule.", "anchors": ["src/mVMC/stcopt_cg_impl.c:StochasticOptCG"]}
{"id": "C51", "title": "Logarithmic derivative with respect to each transform weight is stored in the slot the optimiser reads", "statement": "When the weights of the optional transforms are optimised, the derivative of the amplitude with respect to weight i, divided by the amplitude, is stored in the two slots of that parameter (real and imaginary component).", "quantifier": "all numbers of transforms, translations and angles, all weights and Pfaffians", "why_tests_cant": "No test sample optimises more than one transform weight; the wrong stride only shows from the second weight on.", "anchors": ["src/mVMC/vmccal.c:calculateOptTransDiff", "src/mVMC/vmccal.c:VMCMainCal"]}
{"id": "C52", "title": "RBM ratio is the quotient of RBM weights for any thread count and block size", "statement": "The ratio (and its logarithm used in the Metropolis step) computed blockwise and in parallel from new and old RBM counters equals the quotient of the RBM weights of the two configurations, and all threads meet the same worksharing loops.", "quantifier": "all RBM tables, weights, configurations with non-vanishing weight, numbers of threads, block sizes", "why_tests_cant": "Neuron counts, block sizes and thread counts are unbounded; remainders modulo eight and uneven chunks only show for particular combinations.", "anchors": ["src/mVMC/rbm.c:RBMRatio", "src/mVMC/rbm.c:LogRBMRatio", "src/mVMC/rbm.c:WeightRBM", "src/mVMC/rbm.c:LogWeightRBM"]}
{"id": "C53", "title": "RBM derivative slots hold the logarithmic derivatives", "statement": "For each RBM weight the two slots handed to the optimiser contain the logarithmic derivatives of the wave function with respect to the real and imaginary part of that weight.", "quantifier": "all RBM tables, weights and configurations", "why_tests_cant": "All tables, including those where several sites share a weight or a kind of weight is absent.", "anchors": ["src/mVMC/rbm.c:RBMDiff", "src/mVMC/vmccal.c:VMCMainCal"]}
{"id": "C54", "title": "Expectation values after the Lanczos step", "statement": "The one-body and two-body expectation values written after the Lanczos step are the sample estimates of the operators in the state (1 + alpha H)|psi> with the alpha reported.", "quantifier": "all lists of samples with positive weights for which (1 + alpha H)|psi> does not vanish, all numbers of operators, all alpha", "why_tests_cant": "Complex samples, where conjugation matters, and every number of operators.", "anchors": ["src/mVMC/vmccal.c:calculateQCAQ", "src/mVMC/vmccal.c:calculateQCACAQDC", "src/mVMC/physcal_lanczos.c:CalculatePhysVal_real", "src/mVMC/physcal_lanczos.c:CalculatePhysVal_fcmp"]}
{"id": "C55", "title": "Initial-value files that do not fit the input are rejected", "statement": "A file of initial values for one family of parameters whose declared or actual number of entries differs from the number of parameters of the family stops the run; it is never silently ignored or applied to other parameters.", "quantifier": "all name lists and file contents, all section sizes", "why_tests_cant": "Depends on which other files are named; all combinations.", "anchors": ["src/mVMC/readdef.c:ReadInputParameters", "src/mVMC/vmcmain.c:main"]}
{"id": "C56", "title": "Index files: accepted tables of pair orbitals are antisymmetric and say what the files say", "statement": "Whatever the orbital files contain, tables accepted by the reader assign opposite signs and equal parameters to exchanged spin orbitals; if no pair is listed twice, every pair of spin orbitals (and every site and pair of sites for the one- and two-body factors) has exactly the parameter and sign of its line. A file that lists a pair twice, names a parameter that does not exist, or names a site or spin that does not exist is refused without writing anywhere else.", "quantifier": "all file contents, lattice sizes and boundary conditions", "why_tests_cant": "All files; a wrong entry is used silently as parameter 0.", "anchors": ["src/mVMC/readdef.c:GetInfoOrbitalGeneral", "src/mVMC/readdef.c:GetInfoOrbitalAntiParallel", "src/mVMC/readdef.c:GetInfoOrbitalParallel", "src/mVMC/readdef.c:GetInfoGutzwiller", "src/mVMC/readdef.c:GetInfoJastrow"]}
{"id": "C57", "title": "Reading the definition files ends", "statement": "Reading the optimisation flags of the definition files ends for every file, accepted or not.", "quantifier": "all file contents", "why_tests_cant": "All files; non-termination cannot be observed by a test.", "anchors": ["src/mVMC/readdef.c:GetInfoOpt", "src/mVMC/readdef.c:GetInfoOptOrbitalParalell", "src/mVMC/readdef.c:ReadDefFileIdxPara"]}
{"id": "C58", "title": "Random streams of different process groups differ", "statement": "Processes of different sampling groups draw different random numbers (in every block of 624 numbers at least one differs), and processes of the same group draw the same numbers, whatever the memory of the generator held before initialisation.", "quantifier": "all seeds, split sizes and ranks whose sum stays an int, all blocks", "why_tests_cant": "2^31 seeds and unboundedly many blocks; tests compare a few streams.", "anchors": ["src/mVMC/vmcmain.c:257", "src/sfmt/SFMT.c:init_gen_rand", "src/sfmt/SFMT.c:gen_rand_all"]}
{"id": "C59", "title": "The local energy is the matrix element of the Hamiltonian", "statement": "For every sampled configuration the local energy is the sum over all lines of the definition files of coefficient times matrix element of the operator the manual assigns to the line, divided by the amplitude of the configuration, however the lines are divided among threads and whatever the threads work space held before. The part with number operators and the double occupation are those sums too.", "quantifier": "all lattices, wave functions, configurations, Hamiltonians, numbers of threads and schedules", "why_tests_cant": "Tests compare total energies of a few lattices; a wrong sign or coefficient in a rarely used kind of term, or a term lost by one schedule, passes.", "anchors": ["src/mVMC/calham.c:CalculateHamiltonian", "src/mVMC/calham.c:CalculateHamiltonian0", "src/mVMC/calham.c:CalculateDoubleOccupation"]}
{"id": "C60", "title": "The Lanczos step measures H*H and H times one-body operators", "statement": "For every sampled configuration the value accumulated for the power-Lanczos step is the matrix element of the Hamiltonian times the Hamiltonian, divided by the amplitude of the configuration; those stored for the Green functions are the matrix elements of the Hamiltonian times each listed one-body operator and nothing else in the output is written. The configuration, its tables and the stored inverse matrices are the same afterwards as before.", "quantifier": "all lattices, wave functions, configurations, Hamiltonians that keep spins, thresholds on either side, numbers of threads and schedules", "why_tests_cant": "The routine moves an electron, recomputes matrices and puts everything back; an error shows only as a slightly wrong variance or in configurations where the intermediate amplitude vanishes, which random tests rarely visit.", "anchors": ["src/mVMC/lslocgrn.c:LSLocalQ", "src/mVMC/lslocgrn.c:LSLocalCisAjs", "src/mVMC/lslocgrn.c:calHCA", "src/mVMC/lslocgrn.c:calHCACA"]}
{"id": "C61", "title": "With general spins, Pfaffians and inverse matrices stay exact", "statement": "With general spins the table of pair amplitudes is, for every projection and every two spin-orbitals, the antisymmetrised projected pair amplitude of the parameters. For every configuration, the new Pfaffian computed for a move of one or two electrons, with or without change of spin, is the Pfaffian of the pair matrix of the new configuration; after any sequence of accepted moves the stored Pfaffians and inverse matrices are those of the current configuration; recomputed from scratch they are too and no other projection is touched.", "quantifier": "all lattices, electron numbers, tables, parameters, configurations, sequences of moves", "why_tests_cant": "Wrong updates show up only as drift between recomputations; tests run a few small lattices with few spin-changing moves.", "anchors": ["src/mVMC/slater_fsz.c:UpdateSlaterElm_fsz", "src/mVMC/pfupdate_fsz.c:CalculateNewPfM_fsz", "src/mVMC/pfupdate_fsz.c:UpdateMAll_fsz", "src/mVMC/pfupdate_two_fsz.c:CalculateNewPfMTwo_fsz", "src/mVMC/pfupdate_two_fsz.c:UpdateMAllTwo_fsz", "src/mVMC/matrix.c:CalculateMAll_fsz"]}
{"id": "C62", "title": "With general spins, pair parameter derivatives are exact", "statement": "With general spins, for every configuration with non-zero amplitude the two entries stored for each pair parameter are the logarithmic derivatives of the projected amplitude with respect to the real and the imaginary part of the parameter, and no other entry is changed.", "quantifier": "all lattices, tables, projections, parameters, configurations", "why_tests_cant": "A wrong sign in one rarely used transformation only slows the optimisation down; numerical tests compare energies.", "anchors": ["src/mVMC/slater_fsz.c:SlaterElmDiff_fsz", "src/mVMC/qp.c:CalculateIP_fcmp"]}
{"id": "C63", "title": "With general spins, local Green functions are matrix elements", "statement": "With general spins, for every sampled configuration with non-zero amplitude and all sites and spins, the local one- and two-body Green functions are the matrix elements of the products of creation and annihilation operators over the amplitude, including products that flip spins and every coincidence of the places involved. The configuration tables are the same afterwards as before. The wave function of the specification changes sign under exchange of any two electrons and the operators obey the fermion commutation rule.", "quantifier": "all lattices, electron numbers, correlation factors, projections, parameters, configurations, sites and spins", "why_tests_cant": "The two-body function distinguishes fourteen coincidence patterns of four spin-orbitals; a test run meets only those of its Hamiltonian.", "anchors": ["src/mVMC/locgrn_fsz.c:GreenFunc1_fsz", "src/mVMC/locgrn_fsz.c:GreenFunc1_fsz2", "src/mVMC/locgrn_fsz.c:GreenFunc2_fsz", "src/mVMC/locgrn_fsz.c:GreenFunc2_fsz2"]}
{"id": "C64", "title": "With general spins, the local energy is the matrix element of the Hamiltonian", "statement": "With general spins, for every sampled configuration the local energy is the sum over all lines of the definition files, whatever their spins, of coefficient times matrix element of the operator the manual assigns to the line, divided by the amplitude, however the lines are divided among threads and whatever their work space held before. The part with number operators is that sum too, and the value averaged as S^z is S^z of the configuration.", "quantifier": "all lattices, wave functions with general spins, configurations, Hamiltonians, numbers of threads and schedules", "why_tests_cant": "Spin-flipping one- and two-body lines in all combinations of sites and threads are not met by the few general-spin tests, and a constant factor in S^z is not compared with anything.", "anchors": ["src/mVMC/calham_fsz.c:CalculateHamiltonian_fsz", "src/mVMC/calham_fsz.c:CalculateHamiltonian0_fsz", "src/mVMC/calham_fsz.c:CalculateSz_fsz", "doc/en/source/output.rst:133"]}
{"id": "C65", "title": "Measured Green functions are averages of the requested operators", "statement": "Each sample adds its weight times the matrix elements, over its amplitude, of exactly the operators requested in the one-body and two-body files, and for products its weight times local value of the first factor times conjugate of the second, in whatever order and by whatever threads the rows are evaluated. This holds for requests that keep and that change spins, with fixed and with general spins.", "quantifier": "all lattices, wave functions, configurations, requests, numbers of threads and interleavings", "why_tests_cant": "Tests run one thread and requests that keep spins; a race between rows or an ignored spin column shows in no test.", "anchors": ["src/mVMC/calgrn.c:CalculateGreenFunc", "src/mVMC/calgrn_fsz.c:CalculateGreenFunc_fsz", "doc/en/source/expert.rst: OneBodyG, TwoBodyG"]}
{"id": "C66", "title": "Runs with all parameters real take the same optimisation step as complex runs", "statement": "When every parameter is declared real, the linear system solved in an optimisation step is the stabilised covariance of the real derivatives with minus twice the step width times their covariance with the energy, the same as the complex code builds from the same samples; only real parts of parameters are changed; the conjugate-gradient variant and the variant that stores derivatives use the same matrix, right-hand side and choice of parameters.", "quantifier": "all samples, numbers of processes and groups, parameters, flags and cut thresholds", "why_tests_cant": "Tests run either the real or the complex code on one system; agreement of the two on the same data is never compared.", "anchors": ["src/mVMC/vmccal.c:calculateOO_real", "src/mVMC/average.c:WeightAverageSROpt_real", "src/mVMC/stcopt.c:StochasticOpt", "src/mVMC/stcopt_cg_impl.c"]}
{"id": "C67", "title": "A proposed move is accepted with the ratio of the squared amplitudes", "statement": "In every step of the sampler the weight compared with the random number equals |psi(new)|^2/|psi(old)|^2 of the full wave function (correlation factors, RBM factor with fixed spins, projected pairing function) for the configuration the tables hold after the proposed move; it is computed from the incremental counters and low-rank Pfaffian formulas. The next random word alone decides: either all tables hold the proposed configuration or they are exactly as before. The share of the 2^32 words that accept a weight a lies in [min(1,a), min(1,a)+2^-32).", "quantifier": "for all inputs, wave functions, stored configurations, random streams, proposals (hopping, exchange, spin flips) and contents of scratch arrays, with fixed and with general spins", "why_tests_cant": "A wrong weight gives a plausible but different distribution; tests compare energies within statistical errors for a few lattices and cannot enumerate proposals or streams.", "anchors": ["src/mVMC/vmcmake.c:147-305", "src/mVMC/vmcmake_fsz.c:157-378", "src/mVMC/projection.c:40-47", "src/mVMC/rbm.c", "src/mVMC/pfupdate.c", "src/mVMC/pfupdate_two_fcmp.c", "src/sfmt/SFMT.h:100-110"]}
{"id": "C68", "title": "One sampling step keeps the distribution |psi|^2", "statement": "One step of the sampler, seen as a random map driven by uniformly distributed 32-bit words, satisfies detailed balance with respect to |psi|^2: the flow from x to y equals the flow from y to x, hence |psi|^2 is stationary on every set of configurations closed under the steps. The random searches and the rejected searches (no free target, no partner) included.", "quantifier": "for all inputs, wave functions, pairs of configurations and numbers of words read; exact when the number of sites divides 2^32, otherwise up to an explicit bound of (words read)*(2^32 mod sites)/2^32", "why_tests_cant": "Detailed balance is a statement about the probabilities of all random streams; a run sees one stream, and a small asymmetry stays below the statistical error.", "anchors": ["src/mVMC/vmcmake.c:147-305", "src/mVMC/vmcmake.c:510-629", "src/mVMC/vmcmake_fsz.c:157-378", "src/mVMC/vmcmake_fsz.c:560-790", "src/sfmt/SFMT.h:100-110"]}
{"id": "C69", "title": "Runs with real parameters compute what the wave function prescribes", "statement": "When no correlation or pair parameter is declared complex the program runs copies of the sampler, the local Green functions, the local energy and the matrix updates in real arithmetic. For a wave function with real parameters these return the same values as the wave function prescribes: matrix elements of the operators, the real part of the local value of the Hamiltonian, the ratio of squared amplitudes as weight of a proposal, and inverse matrices and Pfaffians of the new configuration after an update. In general they compute the values of the wave function without its restricted Boltzmann machine and with the real parts of momentum weights and pair amplitudes.", "quantifier": "for all wave functions, lattices, sampled configurations, proposals, Hamiltonians, thread schedules and skew-symmetric real tables", "why_tests_cant": "The real and the complex code are separate copies of a few thousand lines; a test compares their averages for one model, and none of the provided tests has a machine or complex momentum weights together with real parameters.", "anchors": ["src/mVMC/readdef.c:641-642", "src/mVMC/pfupdate_real.c:44-220", "src/mVMC/pfupdate_two_real.c", "src/mVMC/qp_real.c:38-70", "src/mVMC/locgrn_real.c:41-330", "src/mVMC/calham_real.c", "src/mVMC/vmcmake_real.c:60-330", "src/mVMC/vmcmain.c:554-558"]}
{"id": "C70", "title": "Pfaffian and inverse from the tridiagonal factorisation are exact", "statement": "Given a factorisation P U T U^T P^T (or with a lower triangle) of a skew-symmetric matrix of even size, the library returns its Pfaffian, and overwrites the factors by the inverse matrix, which is skew-symmetric and a two-sided inverse, whether it multiplies panel by panel and mirrors one triangle or multiplies at once. It divides by zero exactly when the Pfaffian is zero and writes to no cell outside the matrix. Hence the Pfaffians and inverses the program recomputes for a configuration are those of its matrix of pair amplitudes, given only the contracts of the external routines (tridiagonal factorisation and triangular inversion).", "quantifier": "for all even sizes, leading dimensions, pivot sequences, panel widths and contents of the work space, upper and lower storage, all complex entries", "why_tests_cant": "Tests compare a few random matrices to a tolerance with the default panel width; a wrong sign for a pivot pattern, a wrong panel border or a use of stale work space shows only for particular sizes and pivots.", "anchors": ["src/ltl2inv/pfaffian.tcc:11-38", "src/ltl2inv/invert.tcc:11-116", "src/ltl2inv/trmmt.tcc:12-34", "src/mVMC/matrix.c:340-385"]}
{"id": "C71", "title": "Block updates of the Pfaffian during sampling are exact", "statement": "When the sampler keeps accepted moves pending in blocks instead of updating the inverse at once, then after any sequence of hops and exchanges, each kept or undone, every value it reads is, up to one sign that depends on the number of electrons alone, the Pfaffian of the pair amplitudes of the configuration that is tried; so the ratios from which moves are accepted are exact. Merging pending moves leaves the Pfaffian and the inverse of the configuration reached. An updater fails to initialise exactly when the Pfaffian is zero.", "quantifier": "for all numbers of sites and electrons, all amplitudes, all block sizes (at least 2 with exchanges), all sequences of moves and decisions whose kept configurations have non-zero Pfaffian, all contents of fresh memory, all panel widths", "why_tests_cant": "Whether stale rows, a wrong merge or a wrong undo shows depends on which electrons move again before a merge, on the order of accepted and rejected moves and on the block size; tests follow a few random sequences to a tolerance.", "anchors": ["src/pfupdates/updated_tdi.tcc:55-531", "src/pfupdates/pf_interface.cc:24-160", "src/pfupdates/orbital_mat.tcc:15-65", "src/pfupdates/skslc.tcc:11-33", "src/pfupdates/skmv.tcc:12-34", "src/mVMC/vmcmake.c:82-305"]}
{"id": "C72", "title": "The Hartree-Fock program solves the mean field of the same Hamiltonian", "statement": "The program that prepares starting wave functions diagonalises, in every pass, the derivative of the energy of a determinant for exactly the Hamiltonian the Monte Carlo program measures; with Hermitian input files this matrix is Hermitian. Every pass, from any Green functions, yields a determinant with the prescribed number of electrons and the lowest mean-field energy among all of them. At a fixed point the reported energy is the energy of that determinant and is stationary under all rotations of its orbitals; when the program reports convergence, reported energy and printed Green functions differ from those of the determinant by at most a stated multiple of the threshold.", "quantifier": "for all lattices, all Hamiltonian files (every kind of term, complex and spin-mixing hoppings, four-operator terms), all Green functions, mixing ratios, thresholds and numbers of passes, given a correct Hermitian eigenvalue routine", "why_tests_cant": "A wrong exchange or double-counting term for one kind of interaction only shows when that file is present with off-diagonal Green functions of the matching spins; reference runs use few kinds of terms and compare one converged energy.", "anchors": ["src/ComplexUHF/makeham.c:24-218", "src/ComplexUHF/diag.c:28-77", "src/ComplexUHF/green.c:26-51", "src/ComplexUHF/cal_energy.c:26-200", "src/ComplexUHF/UHFmain.c:105-140", "src/ComplexUHF/initial.c:26-62", "src/ComplexUHF/matrixlapack.c:74-292"]}
{"id": "C73", "title": "Starting orbitals written by the Hartree-Fock program are read back as the determinant they stand for", "statement": "The pair orbitals that the Hartree-Fock program writes stand for the Slater determinant of the lowest orbitals of its mean field. When the main program reads these files with the same definition files and no projection, the Pfaffian of every configuration is that determinant, up to one constant factor, and with the random offsets of the files every pair amplitude differs from the exact one by at most the size of the offset. Each line of an orbital file is the mean of its class with the signs of the definition file. The gap file holds the distance between the highest occupied and the lowest empty level and is never negative.", "quantifier": "for all lattices, all numbers of electrons, all mean fields, all orbital files complete for their kind (general, opposite spins only, opposite and equal spins) whose classes respect the symmetry of the amplitudes, all signs, all random offsets, all configurations", "why_tests_cant": "Two programs with separately written readers have to agree on the index, order and sign of every cell; a mismatch in one class only lowers the quality of the starting point, no run fails.", "anchors": ["src/ComplexUHF/output.c:69-405", "src/ComplexUHF/readdef.c:415-430", "src/ComplexUHF/readdef.c:598-713", "src/mVMC/readdef.c:1406-1449", "src/mVMC/readdef.c:2476-2639", "src/mVMC/setmemory.c:156-171"]}
{"id": "C74", "title": "Both programs work with the Hamiltonian that the definition files state", "statement": "When the lines of the Transfer, CoulombIntra, CoulombInter, Hund, PairHop, Exchange and InterAll files are complete, the main program goes on exactly when every file has as many rows as its header announces, every site exists and (unless the spin is left free) the four-operator terms keep the spins; it then works with the Hamiltonian that has one term per row, in the order of the rows, a pair hopping row giving both directions. The Hartree-Fock program works with the same Hamiltonian when it reads the same files. Requests for two-body Green's functions are kept as written. Bad rows and missing rows end the run.", "quantifier": "for all files with complete lines, all numbers of rows and sites, all values, all contents of the memory before", "why_tests_cant": "A number put in a wrong column, a term dropped or doubled, or a value carried over from the line before gives a run of a different model that ends normally; test inputs are well-formed and symmetric.", "anchors": ["src/mVMC/readdef.c:861-906", "src/mVMC/readdef.c:1532-1592", "src/mVMC/readdef.c:1973-2083", "src/mVMC/readdef.c:2354-2460", "src/ComplexUHF/readdef.c:432-596", "src/common/setmemory.c:49-59"]}
{"id": "C75", "title": "The optimisation follows the gradient of the energy", "statement": "For every sampled configuration the program assembles, in the order of the parameters, the logarithmic derivatives of the wave function with respect to the real and imaginary part of every parameter of the correlation factors, the Boltzmann machine and the pair amplitudes, and nothing else. For a Hamiltonian given by hermitian files, whenever the sampled averages are exact, the printed energy is <psi|H|psi>/<psi|psi>, twice the force on a parameter is the derivative of this energy with respect to that parameter, apart from an explicit contribution of the configurations on which the wave function vanishes (none for correlation factors and machine), and the step that solves the assembled linear system never raises the energy to first order and lowers it when the matrix is stabilised, no selected component is constant and the gradient does not vanish.", "quantifier": "for all sizes, projections, machines, parameter values, hermitian Hamiltonians, selections of parameters, numbers of processes and samples with exact averages", "why_tests_cant": "A wrong offset or a wrong factor between the real and the imaginary part still gives a descent that converges somewhere; comparing with finite differences of a sampled energy is blurred by noise larger than the error, and only for the few parameters tried.", "anchors": ["src/mVMC/vmccal.c:130-230", "src/mVMC/vmccal_fsz.c:151-166", "src/mVMC/setmemory.c:299-303", "src/mVMC/stcopt_dposv.c:53-85", "src/mVMC/calham.c:59-230", "src/mVMC/slater.c:100-185"]}
{"id": "C76", "title": "The projection gives the wave function the requested lattice symmetry", "statement": "When the transformations of the input file form a group with multiplicative weights (signs collected at antiperiodic boundaries allowed) and the correlation factors and the Boltzmann machine do not distinguish equivalent sites, moving all electrons by a transformation multiplies the wave function that the program evaluates by the inverse weight of the transformation and the collected signs. Equivalent configurations are then equally probable, and densities and density correlations of equivalent sites agree. The transformations used are exactly those of the file, and a file without repeated lines is accepted exactly when it defines every site for every transformation.", "quantifier": "for all lattices, groups, weights, additional transforms commuting with the group, pair amplitudes (no symmetry of the orbitals assumed), correlation factors, machines, configurations", "why_tests_cant": "A sign or an order of composition that is wrong for one group or for one boundary condition is invisible on the few symmetric lattices tried, and the violation of a symmetry by a few configurations disappears in the sampling error.", "anchors": ["src/mVMC/readdef.c:2232-2265", "src/mVMC/readdef.c:1138-1144", "src/mVMC/readdef.c:742-746", "src/mVMC/slater.c:37-96", "src/mVMC/qp.c:38-127", "src/mVMC/setmemory.c:171-190"]}
{"id": "C77", "title": "Energies, derivatives and Green functions respect the lattice symmetry", "statement": "When the wave function has a lattice symmetry and the Hamiltonian files list equivalent terms alike (hoppings across an antiperiodic boundary with opposite sign), the Hamiltonian is invariant, and two sampled configurations that differ by the symmetry get the same local energy and the same logarithmic derivatives from the program, whatever the schedule of its threads. Green functions between equivalent sites agree up to the signs collected at the boundary, both on equivalent configurations and as expectation values.", "quantifier": "for all lattices, groups, weights of modulus one, wave functions, Hamiltonians, strings of operators, configurations, thread schedules", "why_tests_cant": "Reference values compare averages; an evaluation that is wrong for half of a set of equivalent configurations changes averages within their error, and tests run small lattices with trivial signs.", "anchors": ["src/mVMC/calham.c:45-230", "src/mVMC/locgrn.c:40-250", "src/mVMC/vmccal.c:130-230", "src/mVMC/slater.c:37-420", "src/mVMC/qp.c:38-127", "src/mVMC/readdef.c:2232-2265"]}
{"id": "C78", "title": "With general spins, wave function, Green functions, energies and derivatives respect the lattice symmetry", "statement": "In a calculation with general spin orbitals, a configuration moved by a lattice transformation with its spins has the original amplitude up to the weight of the transformation and the signs collected at the boundary, hence the same probability. When the Hamiltonian files list equivalent terms alike, including hoppings and four-operator terms that flip spins, two sampled configurations that differ by the symmetry get the same local energy and the same logarithmic derivatives from the program, whatever the schedule of its threads. Green functions between equivalent spin-orbitals agree up to the signs of the boundary, on equivalent configurations and as expectation values.", "quantifier": "for all lattices, groups, weights of modulus one, general orbitals, Hamiltonians, strings of operators, configurations with any spins, thread schedules", "why_tests_cant": "Tests with general spins use few sites, trivial signs and compare averages; an evaluation that is wrong for some of a set of equivalent configurations changes averages within their error.", "anchors": ["src/mVMC/slater_fsz.c", "src/mVMC/locgrn_fsz.c", "src/mVMC/calham_fsz.c", "src/mVMC/vmccal_fsz.c:151-166", "src/mVMC/qp.c:38-127", "src/mVMC/readdef.c:2232-2265"]}
{"id": "C79", "title": "The additional transformations and their weights are those of the file", "statement": "With optimised additional transformations, the program projects with exactly the images, signs and initial weights that the file lists, marks one parameter per transformation, and refuses files that lack lines, repeat entries or name sites outside the lattice.", "quantifier": "for all lattices, numbers of transformations, weights, tables in any order, boundary conditions, previous contents of the memory", "why_tests_cant": "No test uses additional transformations, and a table with missing lines runs with whatever the allocated memory held, often zero.", "anchors": ["src/mVMC/readdef.c:2385-2419", "src/mVMC/readdef.c:1065-1071", "src/mVMC/parameter.c:87-89", "src/mVMC/setmemory.c:215-227"]}
{"id": "C80", "title": "Run settings are accepted when, and only when, they are consistent", "statement": "Settings whose numbers of local spins, conduction electrons, total spin, orbitals, Lanczos mode and update path are consistent are accepted, and the run has exactly the stated number of electrons. Settings that the program does not support are refused: odd numbers of electrons, a Lanczos step with general orbitals, a total spin that the electrons cannot have, a fixed total spin without general orbitals, local spins that cannot move. The block size of the machine is a positive multiple of eight near the requested one. The first configuration with general orbitals has the requested total spin.", "quantifier": "for all settings", "why_tests_cant": "Tests run supported settings; which unsupported combinations pass the checks is a question about all of them.", "anchors": ["src/mVMC/readdef.c:375-382", "src/mVMC/readdef.c:588-661", "src/mVMC/vmcmake_fsz.c:455-467"]}
