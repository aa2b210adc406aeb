(** Property theorems for src/utilities: C01, C02, C50, C51 (splitVector), C52. *)
From Coq Require Import QArith Qabs Ascii.
From Verif Require Import Base M_utilities S_utilities L_utilities.
Open Scope Z_scope.

(** C01. In-range triples are packed without int overflow, into range, and unpacked exactly. *)
Theorem C01_compress3_then_decompress3 : forall s1 s2 s3 i1 i2 i3,
  0 <= i1 < s1 -> 0 <= i2 < s2 -> 0 <= i3 < s3 -> s1 * s2 * s3 <= INT_MAX ->
  exists k, compress3Indices i1 i2 i3 s1 s2 s3 = Ok k /\ 0 <= k < s1 * s2 * s3 /\
            decompress3Indices k s1 s2 s3 = Ok (i1, i2, i3).
Proof. exact compress3_roundtrip. Qed.
Print Assumptions C01_compress3_then_decompress3.
Example C01_ex1 : 0 <= 4 < 5 /\ 0 <= 2 < 3 /\ 0 <= 6 < 7 /\ 5 * 3 * 7 <= INT_MAX /\
  compress3Indices 4 2 6 5 3 7 = Ok 104.
Proof. unfold INT_MAX. repeat split; try lia. Qed.

Theorem C01_decompress3_then_compress3 : forall s1 s2 s3 k,
  0 < s1 -> 0 < s2 -> 0 < s3 -> s1 * s2 * s3 <= INT_MAX -> 0 <= k < s1 * s2 * s3 ->
  exists i1 i2 i3, decompress3Indices k s1 s2 s3 = Ok (i1, i2, i3) /\
    0 <= i1 < s1 /\ 0 <= i2 < s2 /\ 0 <= i3 < s3 /\ compress3Indices i1 i2 i3 s1 s2 s3 = Ok k.
Proof. exact decompress3_roundtrip. Qed.
Print Assumptions C01_decompress3_then_compress3.
Example C01_ex2 : decompress3Indices 104 5 3 7 = Ok (4, 2, 6).
Proof. reflexivity. Qed.

(** the order is row-major: the packed index is the position in the nested-loop enumeration *)
Theorem C01_compress3_is_row_major : forall s1 s2 s3 i1 i2 i3,
  0 <= i1 < s1 -> 0 <= i2 < s2 -> 0 <= i3 < s3 -> s1 * s2 * s3 <= INT_MAX ->
  exists k, compress3Indices i1 i2 i3 s1 s2 s3 = Ok k /\
            zget (rowMajor3 s1 s2 s3) k = Some (i1, i2, i3).
Proof. exact compress3_rowmajor. Qed.
Print Assumptions C01_compress3_is_row_major.

Theorem C01_compress2_then_decompress2 : forall s1 s2 i1 i2,
  0 <= i1 < s1 -> 0 <= i2 < s2 -> s1 * s2 <= INT_MAX ->
  exists k, compress2Indices i1 i2 s1 s2 = Ok k /\ 0 <= k < s1 * s2 /\
            decompress2Indices k s1 s2 = Ok (i1, i2).
Proof. exact compress2_roundtrip. Qed.
Print Assumptions C01_compress2_then_decompress2.

Theorem C01_decompress2_then_compress2 : forall s1 s2 k,
  0 < s1 -> 0 < s2 -> s1 * s2 <= INT_MAX -> 0 <= k < s1 * s2 ->
  exists i1 i2, decompress2Indices k s1 s2 = Ok (i1, i2) /\ 0 <= i1 < s1 /\ 0 <= i2 < s2 /\
    compress2Indices i1 i2 s1 s2 = Ok k.
Proof. exact decompress2_roundtrip. Qed.
Print Assumptions C01_decompress2_then_compress2.

Theorem C01_compress2_is_row_major : forall s1 s2 i1 i2,
  0 <= i1 < s1 -> 0 <= i2 < s2 -> s1 * s2 <= INT_MAX ->
  exists k, compress2Indices i1 i2 s1 s2 = Ok k /\ zget (rowMajor2 s1 s2) k = Some (i1, i2).
Proof. exact compress2_rowmajor. Qed.
Print Assumptions C01_compress2_is_row_major.
Example C01_ex3 : compress2Indices 3 1 4 6 = Ok 19 /\ decompress2Indices 19 4 6 = Ok (3, 1).
Proof. split; reflexivity. Qed.

(** C02. For a positive modulus up to 2^30 (above it the int addition may overflow). *)
Theorem C02_mod_is_remainder : forall a b, 0 < b <= 1073741824 ->
  exists m, cmod a b = Ok m /\ 0 <= m < b /\ exists q, a = q * b + m.
Proof. exact cmod_remainder. Qed.
Print Assumptions C02_mod_is_remainder.
Theorem C02_mod_is_periodic : forall a b n, 0 < b <= 1073741824 -> cmod (a + n * b) b = cmod a b.
Proof. exact cmod_periodic. Qed.
Print Assumptions C02_mod_is_periodic.
Example C02_ex : cmod (-7) 5 = Ok 3 /\ cmod (-5) 5 = Ok 0 /\ cmod 12 5 = Ok 2.
Proof. repeat split. Qed.
(** beyond 2^30 the intermediate sum overflows: undefined behaviour *)
Theorem C02_mod_large_modulus_refuted : exists a b, 0 < b <= INT_MAX /\ 0 <= a <= INT_MAX /\ cmod a b = UB.
Proof. exact cmod_overflows. Qed.
Print Assumptions C02_mod_large_modulus_refuted.

(** C50. The function named "max" returns the smallest relative change, not the largest. *)
Theorem C50_findMaxRelativeDifference_refuted :
  exists x xRef m, Forall (fun b => ~ (b == 0)%Q) xRef /\ findMaxRelativeDifference x xRef = Ok m /\
                   ~ isMaxRelChange x xRef m.
Proof. exact fmrd_not_max. Qed.
Print Assumptions C50_findMaxRelativeDifference_refuted.
Theorem C50_findMaxRelativeDifference_is_minimum : forall x xRef m,
  Forall (fun b => ~ (b == 0)%Q) xRef ->
  findMaxRelativeDifference x xRef = Ok m -> isMinRelChange x xRef m.
Proof. exact fmrd_is_min. Qed.
Print Assumptions C50_findMaxRelativeDifference_is_minimum.
Example C50_ex : exists m, findMaxRelativeDifference [1; 3]%Q [2; 1]%Q = Ok m /\ (m == 1#2)%Q.
Proof. eexists; split; [vm_compute; reflexivity|reflexivity]. Qed.

(** C51. splitVector: the while loop needs at most as many rounds as elements, loses nothing,
    keeps the order, all chunks are full except possibly the last. *)
Theorem C51_splitVector : forall (A : Type) (c : nat), (1 <= c)%nat ->
  forall fuel (l : list A), (length l <= fuel)%nat ->
  exists ch, splitVector_loop fuel l c = Some ch /\ concat ch = l /\
    Forall (fun x => (1 <= length x <= c)%nat) ch /\
    (forall i x, nth_error ch i = Some x -> (S i < length ch)%nat -> length x = c).
Proof. exact @splitVector_ok. Qed.
Print Assumptions C51_splitVector.
Example C51_ex : splitVector_loop 5 [1; 2; 3; 4; 5] 2 = Some [[1; 2]; [3; 4]; [5]].
Proof. reflexivity. Qed.
(** chunk size 0 is not rejected: the loop never ends *)
Theorem C51_splitVector_zero_chunk_never_ends : forall (A : Type) (a : A) l fuel,
  splitVector_loop fuel (a :: l) 0 = None.
Proof. exact @splitVector_zero_diverges. Qed.
Print Assumptions C51_splitVector_zero_chunk_never_ends.

(** C52. tokenize computes exactly the unique decomposition into words and separator runs. *)
Theorem C52_tokenize_spec : forall s toks, tokenize s = toks <-> Tokens s toks.
Proof. exact tokenize_spec. Qed.
Print Assumptions C52_tokenize_spec.
Example C52_ex : tokenize ["a"; "b"; ","; " "; "c"; "|"]%char = [["a"; "b"]; ["c"]]%char.
Proof. reflexivity. Qed.
