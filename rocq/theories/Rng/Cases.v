(** The reference values of SFMT-19937 (seed 1234). *)
From Coq Require Import ZArith List Bool.
From Verif Require Import Base.ZLoop Rng.Model.
Import ListNotations.
Local Open Scope Z_scope.

Lemma reference : numbers gen_rand_all 8 (init_gen_rand (fun _ => 0) 1234) = [3440181298; 1564997079; 1510669302; 2930277156; 1452439940; 3796268453; 423124208; 2143818589].
Proof. vm_compute. reflexivity. Qed.
