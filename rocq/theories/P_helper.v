(** C53: states reached from pairs of states. C51: batches of wavevectors. C63, C64: batches on devices. *)
From Coq Require Import QArith Qround Permutation.
From Verif Require Import Base M_utilities M_mpi S_mpi M_points S_points M_irreducible M_helper S_helper L_helper L_helper2.
Open Scope Z_scope.

(** C53: for every mesh centred at Gamma (up to 1000 points per direction, the resolution of the tolerance of the code), every
    list F of points kept by the window, number of processes and split over threads: every process obtains the same list of
    mesh points, sorted and without repetitions; it contains exactly the points reached as a + b or a - b from points of F;
    any wavevector reached is found, and at the place found is stored that wavevector. *)
Theorem C53_third_points : forall (m : mesh) (F : list Z) (inner : points),
  resolved m -> gammaMesh m -> increasing F -> Forall (fun ik => 0 <= ik < nodes m) F -> setActiveLayer (fullMesh m) F = Ok inner ->
  forall size sched, fits (zlen F) size -> (forall r l, Permutation (concat (sched r l)) l) ->
  exists filt p, thirdStatePoints inner size sched = Ok (repeat (filt, p) (Z.to_nat size)) /\ increasing filt /\
    (forall x, In x filt <-> 0 <= x < nodes m /\ exists a b, In a F /\ In b F /\ thirdOf m a b (meshCoordinates m x)) /\
    (forall a b c, In a F -> In b F -> thirdOf m a b c ->
       exists i v, getIndex p c = Ok i /\ 0 <= i < numPoints p /\ getPointCoordinates p i = Ok v /\ sameWavevector c v).
Proof. exact third_points. Qed.
Print Assumptions C53_third_points.
Example C53_ex : let m := Mesh 4 2 1 (V3 0 0 0) in exists inner, setActiveLayer (fullMesh m) [1; 2] = Ok inner /\
  exists p, thirdStatePoints inner 3 (fun _ l => [l; []]) = Ok [([0; 1; 2; 3], p); ([0; 1; 2; 3], p); ([0; 1; 2; 3], p)].
Proof. eexists. split; [vm_compute; reflexivity|]. eexists. vm_compute. reflexivity. Qed.

(** C53: what is returned for the pair (iq1, iq2) was computed for q1 + q2 (or q1 - q2, or k2 - k1), for every contiguous list
    of points. Missing: lists that are not contiguous, see below. *)
Theorem C53_cache_partial : forall (K D : Type) (diag : K -> D) (add sub : K -> K -> K) (outer inner : Z -> K) (a n : Z), 0 < n ->
  (forall iq2, exists c, prepare diag add sub outer inner (zrange a n) iq2 = Ok c /\
    forall iq1 plus, a <= iq1 < a + n -> get c plus iq1 = Ok (diag ((if plus then add else sub) (outer iq1) (inner iq2)))) /\
  (forall k1, exists c, prepareEl diag sub inner k1 (zrange a n) = Ok c /\
    forall ik2, a <= ik2 < a + n -> getEl c ik2 = Ok (diag (sub (inner ik2) k1))).
Proof. intros K D diag add sub outer inner a n Hn. split; [intro iq2; exact (cache_ok diag add sub outer inner a n iq2 Hn)|intro k1; exact (cacheEl_ok diag sub inner k1 a n Hn)]. Qed.
Print Assumptions C53_cache_partial.
Example C53_cache_ex : exists c, prepare (fun k => 100 + k) Z.add Z.sub (fun i => 10 * i) (fun i => i) (zrange 3 4) 7 = Ok c /\ get c true 5 = Ok 157 /\ get c false 6 = Ok 153.
Proof. eexists. split; [vm_compute; reflexivity|]. split; reflexivity. Qed.
(** finding (helper_3rd_state.cpp:202-226, 228-318): the cache is indexed by iq1 - (first point of the list). With a gap in the
    list the values of another wavevector are returned, or memory outside the vector is read. *)
Theorem C53_cache_gap_refuted :
  (exists c, prepare (fun k : Z => k) Z.add Z.sub (fun i => 10 * i) (fun i => i) [0; 2; 3] 1 = Ok c /\ get c true 2 = Ok 31) /\
  (exists c, prepare (fun k : Z => k) Z.add Z.sub (fun i => 10 * i) (fun i => i) [0; 2] 1 = Ok c /\ get c true 2 = UB).
Proof. split; eexists; (split; [vm_compute; reflexivity|reflexivity]). Qed.
Print Assumptions C53_cache_gap_refuted.

(** C51: the batches of the scattering builders are, in order, a partition of the list of wavevectors, in n parts whose sizes
    differ by at most one. *)
Theorem C51_batches : forall (A : Type) (l : list A) n, 0 < n -> zlen l * n <= INT_MAX ->
  exists bs, allBatches l n = Ok bs /\ concat bs = l /\ zlen bs = n /\
  forall b, In b bs -> zlen l / n <= zlen b <= (zlen l + n - 1) / n.
Proof. exact @batches_ok. Qed.
Print Assumptions C51_batches.
Example C51_batches_ex : allBatches [10; 11; 12; 13; 14] 3 = Ok [[10]; [11; 12]; [13; 14]].
Proof. vm_compute. reflexivity. Qed.
(** the product of the two numbers must fit in an int *)
Theorem C51_batches_overflow : exists (l : list unit) n, 0 < n /\ INT_MAX < zlen l * n /\ allBatches l n = UB.
Proof. exists [tt; tt; tt], 715827883. split; [lia|]. split; [vm_compute; reflexivity|]. unfold allBatches. change (zlen [tt; tt; tt]) with 3.
  assert (E : batchBounds 3 715827883 = UB); [|rewrite E; reflexivity].
  unfold batchBounds.
  assert (X : forall (A B : Type) (f : A -> res B) l x, (forall y, In y l -> f y = UB \/ exists v, f y = Ok v) -> In x l -> f x = UB -> mapM f l = UB).
  { intros A B f. induction l as [|y l IH]; intros x H Hx Ex; [destruct Hx|]. cbn [mapM]. destruct (H y (or_introl eq_refl)) as [E|(v & E)]; rewrite E; cbn [bind]; [reflexivity|].
    destruct Hx as [->|Hx]; [congruence|]. rewrite (IH x); [reflexivity|intros z Hz; apply H; right; exact Hz|exact Hx|exact Ex]. }
  apply (X _ _ _ _ 715827882).
  - intros y _. unfold ck. destruct (_ && _); [|left; reflexivity]. cbn [bind]. destruct (_ && _); [|left; reflexivity]. right. eexists. reflexivity.
  - apply BaseLemmas.in_zrange. lia.
  - reflexivity.
Qed.
Print Assumptions C51_batches_overflow.
(** C51: the batches of the band structure built with velocities cover the points 0 .. niks-1, in order. *)
Theorem C51_active_batches : forall niks size, 0 <= niks -> 0 < size ->
  exists bs, stepLoop (S (Z.to_nat niks)) niks size 0 = Ok bs /\
  concat (map (fun b => zrange (fst b) (snd b - fst b)) bs) = zrange 0 niks /\ forall b, In b bs -> 1 <= snd b - fst b <= size.
Proof. intros niks size H0 Hs. destruct (step_ok niks size Hs (Z.to_nat niks) 0) as (bs & E & C & S); [lia|lia|]. rewrite Z.sub_0_r in C. exists bs. auto. Qed.
Print Assumptions C51_active_batches.
Example C51_active_ex : stepLoop 8 7 3 0 = Ok [(0, 3); (3, 6); (6, 7)].
Proof. reflexivity. Qed.

(** C63: the batches sent to a device are, in order, a partition of the wavevectors of the process, none empty nor larger than
    the size asked. Missing: a process without wavevectors, see below. *)
Theorem C63_device_batches_partial : forall (A : Type) (l : list A) batchSize, l <> [] -> 1 <= batchSize ->
  exists bs, splitToBatches l batchSize = Ok bs /\ concat bs = l /\ forall b, In b bs -> 1 <= zlen b <= batchSize.
Proof. exact @split_ok. Qed.
Print Assumptions C63_device_batches_partial.
Example C63_ex : splitToBatches [10; 11; 12; 13; 14] 2 = Ok [[10; 11]; [12; 13]; [14]].
Proof. vm_compute. reflexivity. Qed.
(** finding (common_kokkos.cpp:136-180): with no wavevectors the batch size becomes zero and the number of batches is computed by
    an integer division by zero; a process of a run with more processes than wavevectors gets there. *)
Theorem C63_no_points_refuted : (forall (A : Type) n, 1 <= n -> splitToBatches (@nil A) n = UB) /\
  exists n size r, fits n size /\ 0 <= r < size /\ divideWorkIter n r size = Ok [].
Proof. split; [intros A n Hn; apply split_nil; lia|]. exists 2, 3, 0. split; [unfold fits; lia|]. split; [lia|]. vm_compute. reflexivity. Qed.
Print Assumptions C63_no_points_refuted.

(** C64: the number of points per batch chosen for energies and eigenvectors fits in the memory left; the error is raised only when
    not even one point fits in 95% of it. *)
Theorem C64_batch_size : forall per avail, (0 < per)%Q -> (0 < avail)%Q -> (avail / per <= inject_Z INT_MAX)%Q ->
  (estimateBatchSize per avail = Err /\ (avail * (95 # 100) < per)%Q) \/
  exists n, estimateBatchSize per avail = Ok n /\ 1 <= n /\ (inject_Z n * per <= avail)%Q.
Proof. exact batchSize_ok. Qed.
Print Assumptions C64_batch_size.
Example C64_ex : estimateBatchSize (3 # 1) (100 # 1) = Ok 31.
Proof. vm_compute. reflexivity. Qed.
(** C64, couplings: the number of batches is between 1 and the number of points, and a batch exceeds the memory left by less than the
    memory of one point. Missing: that it does not exceed it, see below. *)
Theorem C64_batches_partial : forall (A : Type) (l : list A) per avail, l <> [] -> (0 < per)%Q -> (0 < avail)%Q -> (per <= avail)%Q ->
  zlen l * zlen l <= INT_MAX ->
  exists n bs, estimateNumBatches (zlen l) per avail = Ok n /\ 1 <= n <= zlen l /\ allBatches l n = Ok bs /\ concat bs = l /\
  forall b, In b bs -> (inject_Z (zlen b) * per < avail + per)%Q.
Proof. exact @batches_memory. Qed.
Print Assumptions C64_batches_partial.
Example C64_batches_ex : estimateNumBatches 10 (3 # 1) (8 # 1) = Ok 4 /\ allBatches [0; 1; 2; 3; 4; 5; 6; 7; 8; 9] 4 = Ok [[0; 1]; [2; 3; 4]; [5; 6]; [7; 8; 9]].
Proof. split; vm_compute; reflexivity. Qed.
(** finding (interaction_3ph.cpp:407-440, interaction_elph.cpp:458-490): 3 points of size 2 and memory 3 give 2 batches, one of which
    has 2 points and size 4. *)
Theorem C64_batches_refuted : exists (l : list Z) per avail n bs b, (0 < per)%Q /\ (per <= avail)%Q /\
  estimateNumBatches (zlen l) per avail = Ok n /\ allBatches l n = Ok bs /\ In b bs /\ (avail < inject_Z (zlen b) * per)%Q.
Proof. exists [0; 1; 2], (2 # 1)%Q, (3 # 1)%Q, 2, [[0]; [1; 2]], [1; 2]. split; [reflexivity|]. split; [discriminate|]. split; [vm_compute; reflexivity|]. split; [vm_compute; reflexivity|]. split; [right; left; reflexivity|reflexivity]. Qed.
Print Assumptions C64_batches_refuted.
