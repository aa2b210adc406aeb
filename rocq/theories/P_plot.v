(** C140: the file of couplings asked for by the user *)
From Coq Require Import Permutation.
From Verif Require Import Base BaseLemmas M_mpi S_mpi L_mpi M_elphio L_elphio M_plot S_plot L_plot L_plot2.
From Coq Require Import Lia.
Open Scope Z_scope.

(** pairs: one point fixed or all with all, k slowest *)
Theorem C140_pairs : forall (P : Type) (pts : list P),
  (forall q, pairsOf (QFixed q) pts = map (fun k => (k, q)) pts) /\ (forall k, pairsOf (KFixed k) pts = map (fun q => (k, q)) pts) /\
  zlen (pairsOf AllToAll pts) = zlen pts * zlen pts /\
  forall i j k q, zget pts i = Some k -> zget pts j = Some q -> zget (pairsOf AllToAll pts) (i * zlen pts + j) = Some (k, q).
Proof. intros P pts. split; [intro; apply pairs_q|split; [intro; apply pairs_k|split; [apply pairs_all_len|intros; apply pairs_all; assumption]]]. Qed.
Print Assumptions C140_pairs.

(** band ranges: accepted ranges lie within the bands, valid requests are kept, the default (0,-1) means all bands,
    a negative first band means the first one and a last band out of range means the last one *)
Theorem C140_ranges_partial : forall nEl nPh, 0 < nEl -> 0 < nPh ->
  (forall b1 b2 b3 r1 r2 r3, ranges nEl nPh b1 b2 b3 = Ok (r1, r2, r3) -> 0 <= fst r1 <= snd r1 /\ snd r1 < nEl /\ 0 <= fst r2 <= snd r2 /\ snd r2 < nEl /\ 0 <= fst r3 <= snd r3 /\ snd r3 < nPh) /\
  (forall lo hi, 0 <= lo <= hi -> 0 < hi < nEl -> clampRange nEl (lo, hi) = (lo, hi)) /\ clampRange nEl (0, -1) = (0, nEl - 1) /\
  (forall lo hi, lo < 0 -> fst (clampRange nEl (lo, hi)) = 0) /\ (forall lo hi, nEl <= hi -> snd (clampRange nEl (lo, hi)) = nEl - 1) /\
  (forall l1 h1 l2 h2 l3 h3, 0 <= l1 <= h1 -> 0 < h1 < nEl -> 0 <= l2 <= h2 -> 0 < h2 < nEl -> 0 <= l3 <= h3 -> 0 < h3 < nPh ->
     ranges nEl nPh (l1, h1) (l2, h2) (l3, h3) = Ok ((l1, h1), (l2, h2), (l3, h3))).
Proof.
  intros nEl nPh N1 N3. split; [intros; apply (ranges_ok nEl nPh b1 b2 b3); assumption|]. split; [intros; apply clamp_kept; lia|]. split; [reflexivity|].
  split; [intros; unfold clampRange; cbn [fst snd]; destruct (lo <? 0) eqn:E; lia|].
  split; [intros; unfold clampRange; cbn [fst snd]; rewrite (proj2 (Z.leb_le nEl hi)), orb_true_r by lia; reflexivity|].
  intros. unfold ranges. rewrite !clamp_kept by lia. cbn [fst snd].
  rewrite (proj2 (Z.ltb_ge h3 l3)), (proj2 (Z.ltb_ge h1 l1)), (proj2 (Z.ltb_ge h2 l2)) by lia. reflexivity.
Qed.
Print Assumptions C140_ranges_partial.
(** the first band alone cannot be asked for: the range (0,0) becomes all bands *)
Theorem C140_first_band_refuted : forall n, clampRange n (0, 0) = (0, n - 1).
Proof. reflexivity. Qed.
Print Assumptions C140_first_band_refuted.

(** HDF5 with MPI: complete file when every process has a pair and writes its part in one piece *)
Theorem C140_file_partial : forall (P A : Type) (zero : A) maxSize (g : P -> P -> Z -> Z -> Z -> A) r1 r2 r3 pairs size order,
  fst r1 <= snd r1 -> fst r2 <= snd r2 -> fst r3 <= snd r3 -> fits (zlen pairs) size -> size <= zlen pairs ->
  (forall r, 0 <= r < size -> (zlen pairs * (r + 1) / size - zlen pairs * r / size) * bandProd r1 r2 r3 <= maxSize) ->
  zlen pairs * bandProd r1 r2 r3 < 4294967296 -> Permutation order (zrange 0 size) ->
  exists ds, plotParallel zero maxSize g r1 r2 r3 pairs size order = Ok ds /\ fileComplete g r1 r2 r3 pairs ds.
Proof. intros. apply plot_ok; assumption. Qed.
Print Assumptions C140_file_partial.
(** one process with more than maxSize numbers: some later pair gets the values of the first *)
Theorem C140_bunches_refuted : forall (P A : Type) (zero : A) maxSize (g : P -> P -> Z -> Z -> Z -> A) r1 r2 r3 pairs,
  fst r1 <= snd r1 -> fst r2 <= snd r2 -> fst r3 <= snd r3 -> fits (zlen pairs) 1 -> zlen pairs * bandProd r1 r2 r3 < 4294967296 ->
  bandProd r1 r2 r3 <= maxSize < zlen pairs * bandProd r1 r2 r3 ->
  exists ds k, plotParallel zero maxSize g r1 r2 r3 pairs 1 [0] = Ok ds /\ 0 < k < zlen pairs /\
  forall k0 q0 b1 b2 b3, zget pairs 0 = Some (k0, q0) -> within r1 b1 -> within r2 b2 -> within r3 b3 -> ds (place r1 r2 r3 k b1 b2 b3) = Some (g k0 q0 b1 b2 b3).
Proof. intros P A zero mx g r1 r2 r3 pairs O1 O2 O3 F W [R B]. apply second_bunch; assumption. Qed.
Print Assumptions C140_bunches_refuted.
(** more processes than pairs *)
Theorem C140_few_refuted : forall (P A : Type) (zero : A) maxSize (g : P -> P -> Z -> Z -> Z -> A) r1 r2 r3 pairs size order,
  fits (zlen pairs) size -> zlen pairs < size -> Permutation order (zrange 0 size) -> zlen pairs * bandProd r1 r2 r3 < 4294967296 ->
  plotParallel zero maxSize g r1 r2 r3 pairs size order = UB.
Proof. intros. apply plot_few; assumption. Qed.
Print Assumptions C140_few_refuted.
(** HDF5 without MPI: the file holds zeros whatever the coupling; with several processes the gather is undefined *)
Theorem C140_serial_refuted : forall (P A : Type) (zero : A) (g : P -> P -> Z -> Z -> Z -> A) r1 r2 r3 pairs,
  fst r1 <= snd r1 -> fst r2 <= snd r2 -> fst r3 <= snd r3 -> zlen pairs * bandProd r1 r2 r3 <= plotMaxSize ->
  (fits (zlen pairs) 1 -> plotSerial zero g r1 r2 r3 pairs 1 = Ok (repeat zero (Z.to_nat (zlen pairs * bandProd r1 r2 r3)))) /\
  forall size, 2 <= size < 2147483648 -> fits (zlen pairs) size -> 0 < zlen pairs -> plotSerial zero g r1 r2 r3 pairs size = UB.
Proof.
  intros P A zero g r1 r2 r3 pairs O1 O2 O3 S. split; [intro F; apply serial_one; assumption|]. intros size S2 F N. apply serial_many; try assumption; [lia|]. unfold plotMaxSize in S. nia.
Qed.
Print Assumptions C140_serial_refuted.
(** with pools, all processes make the same number of collective calls *)
Theorem C140_pools : forall n size r mine mx, fits n size -> 0 <= r < size -> divideWorkIter n r size = Ok mine ->
  (forall r' l, 0 <= r' < size -> divideWorkIter n r' size = Ok l -> zlen l <= mx) -> (exists r' l, 0 <= r' < size /\ divideWorkIter n r' size = Ok l /\ zlen l = mx) -> cacheCalls (zlen mine) mx = mx.
Proof. exact calls_equal. Qed.
Print Assumptions C140_pools.

(** three points, all pairs, bands 0-1, 1-1 and all modes, two processes *)
Definition exPairs : list (Z * Z) := pairsOf AllToAll [10; 20; 30].
Definition exG (k q a b c : Z) : Z := k * 1000 + q * 100 + a * 10 + b * 3 + c.
Example C140_ex : ranges 4 3 (0, 1) (1, 1) (0, -1) = Ok ((0, 1), (1, 1), (0, 2)) /\ fits (zlen exPairs) 2 /\ zlen exPairs = 9 /\
  (forall r, 0 <= r < 2 -> (zlen exPairs * (r + 1) / 2 - zlen exPairs * r / 2) * bandProd (0, 1) (1, 1) (0, 2) <= plotMaxSize) /\
  match plotParallel 0 plotMaxSize exG (0, 1) (1, 1) (0, 2) exPairs 2 [1; 0] with Ok ds => ds (place (0, 1) (1, 1) (0, 2) 5 1 1 2) = Some (exG 20 30 1 1 2) | _ => False end.
Proof.
  split; [reflexivity|]. split; [repeat split; vm_compute; congruence|]. split; [reflexivity|]. split; [|vm_compute; reflexivity].
  intros r Hr. assert (r = 0 \/ r = 1) as [-> | ->] by lia; vm_compute; discriminate.
Qed.
(** a piece too large for one process: 9 pairs of 6 values, at most 20 values in a piece *)
Example C140_ex_bunches : bandProd (0, 1) (1, 1) (0, 2) <= 20 < zlen exPairs * bandProd (0, 1) (1, 1) (0, 2) /\
  match plotParallel 0 20 exG (0, 1) (1, 1) (0, 2) exPairs 1 [0] with Ok ds => ds (place (0, 1) (1, 1) (0, 2) 3 0 1 0) = Some (exG 10 10 0 1 0) | _ => False end.
Proof. split; [vm_compute; split; congruence|vm_compute; reflexivity]. Qed.
(** five pairs, three processes: the largest share is 2 *)
Example C140_ex_pools : map (fun r => match divideWorkIter 5 r 3 with Ok l => cacheCalls (zlen l) 2 | _ => 0 end) [0; 1; 2] = [2; 2; 2].
Proof. reflexivity. Qed.
