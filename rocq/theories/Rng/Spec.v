(** The generator SFMT-19937 and its use. *)
From Coq Require Import ZArith List Bool.
From Verif Require Import Base.ZLoop Rng.Model.
Import ListNotations.
Local Open Scope Z_scope.

(** bit n of element e (four words) of a sequence of words *)
Definition bit (W : Z -> Z) (e n : Z) : bool := Z.testbit (W (4 * e + n / 32)) (n mod 32).
(** the recurrence: bit n of element e + 156 *)
Definition mask : Z := 0xbffffff6bffaffffddfecb7fdfffffef.
Definition follows (W : Z -> Z) (e n : Z) : Prop :=
  bit W (e + 156) n =
    xorb (bit W e n)
   (xorb ((8 <=? n) && bit W e (n - 8))
   (xorb ((n mod 32 <? 21) && Z.testbit mask n && bit W (e + 122) (n + 11))
   (xorb ((n <? 120) && bit W (e + 154) (n + 8))
         ((18 <=? n mod 32) && bit W (e + 155) (n - 18))))).
Definition in32 (m : memory) : Prop := forall i, 0 <= i < 624 -> 0 <= m i < 2 ^ 32.
(** number k after m has been put into the state *)
Definition number (all : memory -> memory) (m : memory) (k : Z) : Z := nth (Z.to_nat k) (numbers all (S (Z.to_nat k)) (m, 624)) 0.
(** the state, followed by all numbers *)
Definition stream (all : memory -> memory) (m : memory) (k : Z) : Z := if k <? 624 then m k else number all m (k - 624).
(** parity of the bits selected by the parity vector *)
Definition odd_parity (m : memory) : bool := fold_left xorb (map (fun n => bit m 0 n && Z.testbit 0x13c9e684000000000000000000000001 n) (zrange 0 128)) false.
