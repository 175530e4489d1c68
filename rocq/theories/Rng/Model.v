(** Random numbers (src/sfmt/SFMT.c, SFMT-sse2.h, SFMT-params19937.h, SFMT.h) on a little-endian machine (neither ONLY64 nor BIG_ENDIAN64), MEXP=19937 (src/mVMC/CMakeLists.txt:13).
    The state sfmt[156] is an array of 32-bit words psfmt32[624]; words are integers in [0, 2^32). *)
From Coq Require Import ZArith List Bool.
From Verif Require Import Base.ZLoop.
Import ListNotations.
Local Open Scope Z_scope.

(** SFMT-params.h: N = MEXP/128+1, N32 = 4*N; SFMT-params19937.h:4-16 *)
Definition N : Z := 156.
Definition N32 : Z := 624.
Definition POS1 : Z := 122.
Definition SL1 : Z := 18.
Definition SL2 : Z := 1.
Definition SR1 : Z := 11.
Definition SR2 : Z := 1.
Definition MSK (k : Z) : Z := match k with 0 => 0xdfffffef | 1 => 0xddfecb7f | 2 => 0xbffaffff | _ => 0xbffffff6 end.
Definition parity (k : Z) : Z := match k with 0 => 1 | 1 => 0 | 2 => 0 | _ => 0x13c9e684 end.

Definition memory := Z -> Z.
Definition quad := (Z * Z * Z * Z)%type.
Definition u32 (x : Z) : Z := x mod 2 ^ 32.
Definition u64 (x : Z) : Z := x mod 2 ^ 64.
(** SFMT.c:184-197 lshift128 *)
Definition lshift128 (q : quad) (shift : Z) : quad :=
  let '(u0, u1, u2, u3) := q in
  let th := Z.lor (u64 (Z.shiftl u3 32)) u2 in let tl := Z.lor (u64 (Z.shiftl u1 32)) u0 in
  let oh := Z.lor (u64 (Z.shiftl th (shift * 8))) (Z.shiftr tl (64 - shift * 8)) in
  let ol := u64 (Z.shiftl tl (shift * 8)) in
  (u32 ol, u32 (Z.shiftr ol 32), u32 oh, u32 (Z.shiftr oh 32)).
(** SFMT.c:145-158 rshift128 *)
Definition rshift128 (q : quad) (shift : Z) : quad :=
  let '(u0, u1, u2, u3) := q in
  let th := Z.lor (u64 (Z.shiftl u3 32)) u2 in let tl := Z.lor (u64 (Z.shiftl u1 32)) u0 in
  let oh := Z.shiftr th (shift * 8) in
  let ol := Z.lor (Z.shiftr tl (shift * 8)) (u64 (Z.shiftl th (64 - shift * 8))) in
  (u32 ol, u32 (Z.shiftr ol 32), u32 oh, u32 (Z.shiftr oh 32)).
Definition load (m : memory) (i : Z) : quad := (m (4 * i), m (4 * i + 1), m (4 * i + 2), m (4 * i + 3)).
Definition lane (q : quad) (k : Z) : Z := let '(u0, u1, u2, u3) := q in match k with 0 => u0 | 1 => u1 | 2 => u2 | _ => u3 end.
(** SFMT.c:227-243 do_recursion: r, a, b, c, d = elements of sfmt, which may be the same; the four words are written one after the other *)
Definition do_recursion (m : memory) (r a b c d : Z) : memory :=
  let x := lshift128 (load m a) SL2 in
  let y := rshift128 (load m c) SR2 in
  let word m k := Z.lxor (Z.lxor (Z.lxor (Z.lxor (m (4 * a + k)) (lane x k)) (Z.land (Z.shiftr (m (4 * b + k)) SR1) (MSK k))) (lane y k)) (u32 (Z.shiftl (m (4 * d + k)) SL1)) in
  let m := upd m (4 * r) (word m 0) in
  let m := upd m (4 * r + 1) (word m 1) in
  let m := upd m (4 * r + 2) (word m 2) in
  upd m (4 * r + 3) (word m 3).
(** SFMT.c:251-267 gen_rand_all; r1, r2 point to elements of sfmt *)
Definition gen_rand_all (m : memory) : memory :=
  let body (shift : Z) i '(m, r1, r2) := (do_recursion m i i (i + shift) r1 r2, r2, i) in
  fst (fst (loop (N - POS1) N (body (POS1 - N)) (loop 0 (N - POS1) (body POS1) (m, N - 2, N - 1)))).

(** ** SSE2: 128-bit integers *)
Definition join (q : quad) : Z := let '(u0, u1, u2, u3) := q in u0 + 2 ^ 32 * (u1 + 2 ^ 32 * (u2 + 2 ^ 32 * u3)).
Definition split (x : Z) : quad := (u32 x, u32 (x / 2 ^ 32), u32 (x / 2 ^ 64), u32 (x / 2 ^ 96)).
Definition lanes (f : Z -> Z) (q : quad) : quad := let '(u0, u1, u2, u3) := q in (f u0, f u1, f u2, f u3).
(** _mm_slli_si128, _mm_srli_si128 (bytes), _mm_slli_epi32, _mm_srli_epi32 *)
Definition slli_si128 (x n : Z) : Z := (x * 2 ^ (8 * n)) mod 2 ^ 128.
Definition srli_si128 (x n : Z) : Z := x / 2 ^ (8 * n).
Definition slli_epi32 (x n : Z) : Z := join (lanes (fun u => u32 (u * 2 ^ n)) (split x)).
Definition srli_epi32 (x n : Z) : Z := join (lanes (fun u => u / 2 ^ n) (split x)).
(** SFMT-sse2.h:31-46 *)
Definition mm_recursion (a b c d mask : Z) : Z :=
  let y := srli_epi32 b SR1 in
  let z := srli_si128 c SR2 in
  let v := slli_epi32 d SL1 in
  let z := Z.lxor z a in
  let z := Z.lxor z v in
  let x := slli_si128 a SL2 in
  let y := Z.land y mask in
  Z.lxor (Z.lxor z x) y.
Definition store (m : memory) (i x : Z) : memory := let '(u0, u1, u2, u3) := split x in upd (upd (upd (upd m (4 * i) u0) (4 * i + 1) u1) (4 * i + 2) u2) (4 * i + 3) u3.
(** SFMT-sse2.h:52-71; r1, r2 are values *)
Definition gen_rand_all_sse2 (m : memory) : memory :=
  let mask := join (MSK 0, MSK 1, MSK 2, MSK 3) in
  let body (shift : Z) i '(m, r1, r2) := let r := mm_recursion (join (load m i)) (join (load m (i + shift))) r1 r2 mask in (store m i r, r2, r) in
  fst (fst (loop (N - POS1) N (body (POS1 - N)) (loop 0 (N - POS1) (body POS1) (m, join (load m (N - 2)), join (load m (N - 1)))))).

(** ** initialisation and use *)
(** SFMT.c:347-375 period_certification; [inner] never gets a sign: no mask has the top bit *)
Definition certify (m : memory) : memory :=
  let inner := fold_left (fun s i => Z.lxor s (Z.land (m i) (parity i))) (zrange 0 4) 0 in
  let inner := fold_left (fun s i => Z.lxor s (Z.shiftr s i)) [16; 8; 4; 2; 1] inner in
  if Z.land inner 1 =? 1 then m
  else match find (fun ij => negb (Z.land (u32 (Z.shiftl 1 (snd ij))) (parity (fst ij)) =? 0)) (list_prod (zrange 0 4) (zrange 0 32)) with
       | Some (i, j) => upd m i (Z.lxor (m i) (u32 (Z.shiftl 1 j)))
       | None => m
       end.
(** SFMT.c:537-549 init_gen_rand: memory, idx; [m0] = whatever was there *)
Definition init_gen_rand (m0 : memory) (seed : Z) : memory * Z :=
  (certify (loop 1 N32 (fun i m => upd m i (u32 (1812433253 * Z.lxor (m (i - 1)) (Z.shiftr (m (i - 1)) 30) + i))) (upd m0 0 seed)), N32).
(** SFMT.c:410-420 gen_rand32, with either version of gen_rand_all *)
Definition gen_rand32 (all : memory -> memory) (st : memory * Z) : Z * (memory * Z) :=
  let (m, idx) := st in
  let '(m, idx) := if N32 <=? idx then (all m, 0) else (m, idx) in
  (m idx, (m, idx + 1)).
(** the numbers of n calls *)
Fixpoint numbers (all : memory -> memory) (n : nat) (st : memory * Z) : list Z :=
  match n with O => [] | S n => let (x, st) := gen_rand32 all st in x :: numbers all n st end.
(** vmcmain.c:237-239, 257: the seed of an MPI process (int converted to uint32_t; int overflow not modelled) *)
Definition process_seed (RndSeed NSplitSize rank : Z) : Z := u32 (RndSeed + rank / NSplitSize).
