{
 "C02": {
  "status": "proved",
  "note": "proved for 1<=N<=size; N=0 passes the code's check and divides by zero (refuted boundary)."
 },
 "C31": {
  "status": "proved",
  "note": "proved for all lengths up to INT_MAX-2^20+1; above that the int addition overflows (refuted boundary)."
 },
 "C11": {
  "note": "Consistency of the tables in all runs; conservation of the spin numbers in all runs except 2Sz given with NExUpdatePath=3, where the code violates it (refuted theorem with a run)."
 },
 "C17": {
  "note": "Lockstep proved for all groups; equality with a single process proved when no projection is singular where matrices are recomputed; without this the claim is false (refuted theorem with a run)."
 },
 "C44": {
  "note": "Completion is proved equivalent to the existence of a configuration; the reader accepts inputs without one (refuted theorem)."
 },
 "C28": {
  "status": "proved",
  "note": "proved for all sizes without backflow, as quantified; with backflow the allocation is too small (refuted theorem)."
 },
 "C33": {
  "note": "Proved for a process whose samples start at 0 with none skipped; for the other processes and for skipped samples the claim is false (two refuted theorems)."
 },
 "C36": {
  "note": "Proved for groups of one process with no skipped samples and weight 1 (the code's weight); for a group of two processes the claim is false (refuted theorem)."
 },
 "C50": {
  "note": "Proved when no parameter has both components selected; otherwise a schedule loses an update (refuted theorem)."
 },
 "C22": {
  "status": "proved",
  "note": "proved for every sequence of accepted moves through configurations without vanishing Pfaffians, as quantified; a projection whose Pfaffian vanishes while the total does not is accepted by the code and divides by zero (refuted boundary)."
 },
 "C18": {
  "note": "Proved for all moves except a spin flip on one site with visible weights per site and spin, where the code is wrong (refuted theorem)."
 },
 "C52": {
  "note": "Values proved for all thread counts and block sizes under the static schedule; the threads can meet different worksharing loops, which OpenMP does not allow (refuted theorem)."
 },
 "C53": {
  "note": "Proved for machines whose neuron families have bias and coupling tables; without a bias table the code adds to a wrong slot (refuted theorem)."
 },
 "C21": {
  "note": "Reduction and restoring proved for strings of every length, with the routine for the Pfaffian of the moved configuration as a hypothesis (not needed for one and two bilinears); the routine in the code is wrong for three bilinears (refuted theorem)."
 },
 "C19": {
  "note": "For projected pair wave functions with correlation factors and optional machine factor that does not vanish; real arithmetic; sampled configuration with non-zero amplitude."
 },
 "C20": {
  "note": "As C19, for every coincidence of the four spin-orbitals."
 },
 "C39": {
  "note": "Whenever a mixing is reported it is the global minimiser and the energy and variance belong to it (both modes); reported whenever there are two different stationary energies and the norm passes the code's threshold. When the quadratic equation degenerates the code divides by zero although a minimum exists, and the real version ignores the failure return (refuted boundaries)."
 },
 "C54": {
  "note": "Proved in real mode. In complex mode the one-body values are the complex conjugates, and the two-body values are wrong when the local energy is complex (refuted with samples)."
 },
 "C40": {
  "note": "Both readers of the request files. With exchange-type two-body operators the claim holds for all files with sites and spins in range, duplicates included; without them and in Lanczos mode it holds for files without repeated lines, and a repeated line makes the reader write beyond the table (refuted theorem)."
 },
 "C41": {
  "status": "proved",
  "note": "Proved for all files whose lines fit into the 256-byte buffer: accepted only with known keywords used once; exact acceptance for files of comments, empty lines and pairs. Missing file names, blank lines, words of 200 characters and longer lines are mishandled (refuted boundaries)."
 },
 "C37": {
  "note": "Proved for at least two averaged steps, not more than steps taken, for the single file and for the files of the families; with one averaged step, or more averaged steps than steps, the claim is false (refuted theorems). Backflow parameters are not written by the code and not covered."
 },
 "C55": {
  "note": "Files that fit are applied exactly; a wrong number in a header stops the run if no other input file follows; otherwise, and for missing lines, odd numbers of parallel orbitals and files cut short, the claim is false (refuted theorems)."
 },
 "C45": {
  "note": "Real parts: every parameter has the flag of its line; imaginary parts only in families declared complex. False otherwise: unset imaginary flags, parallel orbitals, line order, OptTrans (refuted theorems)."
 },
 "C56": {
  "note": "Antisymmetry for all files and values for files without repeated pairs proved; repeated pairs, unknown parameters, unknown spins and asymmetric Jastrow tables are accepted or written outside (refuted theorems)."
 },
 "C57": {
  "note": "Files of numbers are read to the end; a word among the flags loops forever (refuted theorem)."
 },
 "C59": {
  "note": "Proved for definition files whose bilinears keep the spin (one- and two-body terms of all seven kinds, with correlation factors and machine). For lines that change spins the program uses the annihilators' spins for the creators; a line of the manual's own example gets a wrong value (refuted theorem)."
 },
 "C60": {
  "note": "Complete for Hamiltonians of number operators and hopping (C60_hopping, machine allowed). With two-body terms C60_square_partial assumes no machine and a correct low-rank Pfaffian routine (see C21); C60_machine_refuted shows the machine case reads uninitialised counters."
 },
 "C64": {
  "note": "Energy and diagonal part proved for all spins and schedules. The value printed as S^z is exactly twice S^z (C64_twice_sz), so that clause is refuted."
 },
 "C65": {
  "note": "Fixed spins: proved for requests that keep spins in every interleaving; other rows measure a different operator (refuted). General spins: proved for all requests when iterations of different threads do not overlap; with overlap the shared variables t, u, v give wrong values (refuted)."
 },
 "C66": {
  "note": "System, imaginary parts and update proved for all divisions of the samples. Conjugate gradients and stored derivatives under the conditions of C36/C33 (one process per group, no skipped sample, weight 1), outside which the complex code is refuted too. Equal choice of parameters in real and complex runs is refuted."
 },
 "C68": {
  "note": "Detailed balance and stationarity proved for all inputs and streams: exactly when the number of sites divides 2^32, within an explicit bound otherwise. The exact statement without that condition is refuted on three sites."
 },
 "C69": {
  "note": "Proved for all wave functions with real parameters and no machine; for any other the values are proved to be those of its real part without machine, so machines, complex momentum weights and complex hopping amplitudes are refuted."
 },
 "C70": {
  "note": "Proved for the routines of src/ltl2inv and the call sequence of matrix.c in exact arithmetic; the tridiagonal factorisation (PFAPACK) and the triangular inversion (LAPACK), which are not part of the repository, enter by their documented contracts."
 },
 "C71": {
  "note": "Proved for the updaters and the sampler's calls, external factorisations by contract. Refuted: that the delivered number is the Pfaffian itself (sign for even numbers of electrons per spin), that the projections may be split over processes, and that block size 1 works with exchanges."
 },
 "C72": {
  "note": "Proved for every pass and for the whole loop, the eigenvalue routine by contract. Refuted: that rows of CoulombInter and Hund naming one site twice enter the mean field completely."
 },
 "C73": {
  "note": "Proved for all three kinds of orbital files when both programs read the same signs. Refuted: that signs survive with periodic boundaries; that the gap is defined when all levels are occupied."
 },
 "C74": {
  "note": "Proved for files with complete lines and at most as many rows as announced. Refuted: that surplus rows are rejected, that spins are checked, that short lines mean the same to both programs, that rows are read when the header announces none, that all row pointers read exist, that an empty table is allocated within bounds, that every site is named."
 },
 "C75": {
  "note": "Proved for fixed spins and exact averages. Refuted: that the force is the gradient for parameters that move zeros of the wave function, and that the program for general orbitals stores derivatives at the places of their parameters when there is a machine."
 },
 "C76": {
  "note": "Proved for fixed spins. Refuted: that the reader notices missing signs, sites outside the lattice, repeated lines, or a number of transformations smaller than NMPTrans."
 },
 "C77": {
  "note": "Proved for fixed spins; general spins are C78."
 },
 "C78": {
  "note": "Proved for general spins, without a machine (the program does not evaluate it with general orbitals)."
 },
 "C79": {
  "note": "Files are stored as written. Refuted: missing lines, repeated lines and images outside the lattice are accepted. Where the flags are written is C29 and C45."
 },
 "C80": {
  "note": "Consistent settings are accepted and keep the number of electrons; accepted ones have the listed properties. Refuted: Lanczos with general orbitals, odd numbers of electrons and impossible total spins can pass; the latter start from a wrong total spin. With possible spins the first configuration has the requested one."
 }
}