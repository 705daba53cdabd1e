(** C01-C06: bit tricks and integer helpers (core/constexpr.hpp). *)
From Coq Require Import NArith ZArith List Bool Sorted Lia.
From Verif Require Import Bits Visit SpecBits BitsBase BitsOnes BitsProofs BitsLeft VisitProofs.
Import ListNotations.
Local Open Scope N_scope.

(** C01 *)
Theorem C01_ones : forall x, x < 2 ^ 64 -> ones x = grade_of x.
Proof. exact ones_correct. Qed.
Print Assumptions C01_ones.
Example C01_case : 0xF0F0000000000001 < 2 ^ 64 /\ ones 0xF0F0000000000001 = 9.
Proof. split; reflexivity. Qed.

(** C02 *)
Theorem C02_swaps : forall l r, l < 2 ^ 64 -> r < 2 ^ 64 ->
  swaps_count (N.shiftr l 1) r = N.of_nat (inversions l r).
Proof. exact swaps_count_correct. Qed.
Print Assumptions C02_swaps.
Example C02_case : swaps_count (N.shiftr 13 1) 3 = 4.
Proof. reflexivity. Qed.

(** C03 *)
Theorem C03_successor : forall x n, 0 < x -> x < 2 ^ n -> n <= 63 ->
  exists y, next_combination x (2 ^ n - 1) = Some y /\
  ((y <> 0 /\ x < y /\ y < 2 ^ n /\ grade_of y = grade_of x /\
    (forall z, x < z -> z < y -> grade_of z <> grade_of x)) \/
   (y = 0 /\ forall z, x < z -> z < 2 ^ n -> grade_of z <> grade_of x)).
Proof. exact next_combination_correct. Qed.
Print Assumptions C03_successor.
Theorem C03_first : forall k n, k <= n -> n <= 63 ->
  grade_of (first_combination k) = k /\ first_combination k < 2 ^ n /\
  (forall z, z < first_combination k -> grade_of z <> k).
Proof. exact first_combination_correct. Qed.
Print Assumptions C03_first.
Theorem C03_enumeration : forall k n, 1 <= k -> k <= n -> n <= 63 ->
  exists fuel l, kvector_bitsets fuel (2 ^ n - 1) (first_combination k) = Some l /\
    StronglySorted N.lt l /\ (forall z, In z l <-> z < 2 ^ n /\ grade_of z = k).
Proof. exact kvector_enumeration. Qed.
Print Assumptions C03_enumeration.
Example C03_case : kvector_bitsets 20 (2 ^ 4 - 1) (first_combination 2) = Some [3; 5; 6; 9; 10; 12].
Proof. reflexivity. Qed.

(** C04 *)
Theorem C04_lowest : forall x, 0 < x -> x < 2 ^ 64 ->
  exists i, rightmost_set_bit x = 2 ^ i /\ N.testbit x i = true /\
            (forall j, j < i -> N.testbit x j = false).
Proof. exact rightmost_set_bit_correct. Qed.
Print Assumptions C04_lowest.
Theorem C04_index : forall i, i < 64 -> set_bit_index (2 ^ i) = i.
Proof. exact set_bit_index_correct. Qed.
Print Assumptions C04_index.
Theorem C04_visit : forall (S : Type) (f : S -> N -> S * bool) st x, x < 2 ^ 64 ->
  for_each_basis_vector f st x = Some (fold_stop f st (map N.succ (indices x))).
Proof. exact @for_each_basis_vector_correct. Qed.
Print Assumptions C04_visit.
Example C04_case : for_each_basis_vector (fun s i => (s ++ [i], i <? 5)) [] 0x35 = Some ([1; 3; 5], false).
Proof. reflexivity. Qed.

(** C05: false in general; true of every argument below 2^8. *)
Theorem C05_highest_partial : forall x, 0 < x -> x < 2 ^ 8 -> leftmost_set_bit x = Some (2 ^ N.log2 x).
Proof. exact leftmost_set_bit_small. Qed.
Print Assumptions C05_highest_partial.
Theorem C05_highest_refuted : forall k, 8 <= k -> k < 64 -> leftmost_set_bit (2 ^ k) <> Some (2 ^ k).
Proof. exact leftmost_set_bit_wrong. Qed.
Print Assumptions C05_highest_refuted.
(** The words on which the function is right: no gap of seven or more zeros below the highest bit, except
    at bit 0. *)
Theorem C05_highest_exact : forall x, 0 < x -> x < 2 ^ 64 ->
  (leftmost_set_bit x = Some (2 ^ N.log2 x) <->
   forall i, 0 < i -> i <= N.log2 x -> exists j, i <= j /\ j <= i + 6 /\ N.testbit x j = true).
Proof. exact leftmost_exact. Qed.
Print Assumptions C05_highest_exact.
Example C05_exact_case : leftmost_set_bit 0x8102 = Some 0x8000 /\ leftmost_set_bit 0x8002 <> Some 0x8000.
Proof. split; [reflexivity|discriminate]. Qed.
Example C05_case : leftmost_set_bit 0x35 = Some 0x20 /\ leftmost_set_bit 0x100 = Some 0xFF.
Proof. split; reflexivity. Qed.

(** C06 *)
Theorem C06_gcd : forall l r, (0 <= l)%Z -> (0 <= r)%Z -> gcd l r = Some (Z.gcd l r).
Proof. exact gcd_correct. Qed.
Print Assumptions C06_gcd.
Theorem C06_ipow : forall b e, (0 <= e)%Z -> ipow b e = Some (b ^ e)%Z.
Proof. exact ipow_correct. Qed.
Print Assumptions C06_ipow.
Theorem C06_isqrt : forall a, (0 <= a)%Z -> isqrt a = Some (Z.sqrt a).
Proof. exact isqrt_correct. Qed.
Print Assumptions C06_isqrt.
Example C06_case : gcd 84 60 = Some 12%Z /\ ipow (-3) 5 = Some (-243)%Z /\ isqrt 99 = Some 9%Z.
Proof. repeat split; reflexivity. Qed.
