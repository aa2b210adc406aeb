(** Property theorems for src/mpi: C03-C07, C56. *)
From Verif Require Import Base M_utilities M_mpi S_mpi L_mpi.

(** C03. [fits n size]: at least one rank and n*size below 2^64 (size_t arithmetic). *)
Theorem C03_shares_partition_tasks : forall n size, fits n size ->
  exists shares, mapM (fun r => divideWorkIter n r size) (zrange 0 size) = Ok shares /\
                 concat shares = zrange 0 n.
Proof. exact divideWorkIter_partition. Qed.
Print Assumptions C03_shares_partition_tasks.

Theorem C03_shares_balanced : forall n size r r' l l', fits n size -> 0 <= r < size -> 0 <= r' < size ->
  divideWorkIter n r size = Ok l -> divideWorkIter n r' size = Ok l' -> Z.abs (zlen l - zlen l') <= 1.
Proof. exact divideWorkIter_balanced. Qed.
Print Assumptions C03_shares_balanced.

(** divideWork gives the bounds of the same share *)
Theorem C03_divideWork_agrees : forall n size r, fits n size -> 0 <= r < size ->
  exists a b, divideWork n r size = (a, b) /\ a <= b /\ divideWorkIter n r size = Ok (zrange a (b - a)).
Proof. exact divideWork_agrees. Qed.
Print Assumptions C03_divideWork_agrees.

(** workDivHelper = lengths and start points of those shares *)
Theorem C03_workDivHelper_matches : forall n size, fits n size -> n <= INT_MAX ->
  exists shares, mapM (fun r => divideWorkIter n r size) (zrange 0 size) = Ok shares /\
    fst (workDivHelper n size) = map zlen shares /\
    (forall r share, zget shares r = Some share ->
        exists h c, zget (snd (workDivHelper n size)) r = Some h /\
                    zget (fst (workDivHelper n size)) r = Some c /\ share = zrange h c) /\
    snd (workDivHelper n size) = map (fun r => fst (divideWork n r size)) (zrange 0 size).
Proof. exact workDivHelper_matches. Qed.
Print Assumptions C03_workDivHelper_matches.
Example C03_ex : fits 10 4 /\ 10 <= INT_MAX /\
  mapM (fun r => divideWorkIter 10 r 4) (zrange 0 4) = Ok [[0; 1]; [2; 3; 4]; [5; 6]; [7; 8; 9]] /\
  workDivHelper 10 4 = ([2; 3; 2; 3], [0; 2; 5; 7]).
Proof. unfold fits, INT_MAX. repeat split; lia. Qed.

(** C04. Whatever the previous content of the receive buffer. *)
Theorem C04_gathered_shares_are_serial : forall (A : Type) (f : Z -> A) n size shares (out : list A),
  fits n size -> n <= INT_MAX -> zlen out = n ->
  mapM (fun r => divideWorkIter n r size) (zrange 0 size) = Ok shares ->
  allGatherv (map (map f) shares) out = Ok (map f (zrange 0 n)) /\
  gatherv (map (map f) shares) out = Ok (map f (zrange 0 n)).
Proof. exact @allGatherv_serial. Qed.
Print Assumptions C04_gathered_shares_are_serial.
Example C04_ex : allGatherv [[10]; [20; 30]; [40; 50]] [0; 0; 0; 0; 0] = Ok [10; 20; 30; 40; 50].
Proof. reflexivity. Qed.

(** C05. World communicator, or any communicator with less than INT_MAX elements in total. *)
Theorem C05_bigAllGatherV_partial : forall (A : Type) (members : list Z) (dataIn : list (list A)) workDivs (out : list A),
  members <> [] -> zlen members = zlen workDivs ->
  Forall2 (fun d c => 0 <= c <= zlen d) dataIn workDivs ->
  zlen out = zsum workDivs ->
  (zsum workDivs < INT_MAX \/ members = zrange 0 (zlen members)) ->
  bigAllGatherV members dataIn workDivs (offsets workDivs) out =
  Ok (concat (map (fun p => firstn (Z.to_nat (snd p)) (fst p)) (combine dataIn workDivs))).
Proof. exact @bigAllGatherV_offsets_ok. Qed.
Print Assumptions C05_bigAllGatherV_partial.
Example C05_ex : bigAllGatherV [2; 3] [[1; 2]; [3]] [2; 1] (offsets [2; 1]) [0; 0; 0] = Ok [1; 2; 3].
Proof. reflexivity. Qed.
(** In a pool other than the first, a large gather reads workDivs out of range whatever the data. *)
Theorem C05_bigAllGatherV_pool_refuted : exists members workDivs,
  Forall (fun c => 0 <= c) workDivs /\ zlen members = zlen workDivs /\
  (exists ps p, 0 <= p /\ members = zrange (p * ps) ps) /\
  forall (A : Type) (dataIn : list (list A)) out,
    bigAllGatherV members dataIn workDivs (offsets workDivs) out = UB.
Proof. exact bigAllGatherV_pool_UB. Qed.
Print Assumptions C05_bigAllGatherV_pool_refuted.

(** C06. On one rank the two-buffer version leaves the output untouched. *)
Theorem C06_allReduceSum_two_buffers_refuted : exists ins outs,
  length ins = 1%nat /\ length outs = 1%nat /\
  allReduceSum2 ins outs <> [sumOfBuffers ins].
Proof. exact allReduceSum2_single. Qed.
Print Assumptions C06_allReduceSum_two_buffers_refuted.
Theorem C06_allReduceSum_two_buffers_partial : forall (ins outs : list (list Z)) n,
  (2 <= length ins)%nat -> Forall (fun b => length b = n) ins -> Forall (fun b => length b = n) outs ->
  Forall (fun out => forall i, (i < n)%nat -> nth_error out i = Some (zsum (map (fun b => nth i b 0) ins)))
    (allReduceSum2 ins outs).
Proof. exact allReduceSum2_multi. Qed.
Print Assumptions C06_allReduceSum_two_buffers_partial.
(** The in-place version is right on any number of ranks. *)
Theorem C06_allReduceSum_in_place : forall (bufs : list (list Z)) n,
  bufs <> [] -> Forall (fun b => length b = n) bufs ->
  Forall (fun out => length out = n /\
     forall i, (i < n)%nat -> nth_error out i = Some (zsum (map (fun b => nth i b 0) bufs)))
    (allReduceSum bufs) /\ length (allReduceSum bufs) = length bufs.
Proof. exact allReduceSum_inplace. Qed.
Print Assumptions C06_allReduceSum_in_place.
Example C06_ex : allReduceSum [[1; 2]; [3; 4]; [5; 6]] = [[9; 12]; [9; 12]; [9; 12]] /\
                 allReduceSum [[7]] = [[7]].
Proof. split; reflexivity. Qed.

(** C07. *)
Theorem C07_bad_pool_size_stops : forall size ps rank,
  0 < size <= 1073741824 -> 0 <= ps <= 1073741824 ->
  (ps = 0 \/ size mod ps <> 0) -> makePools size ps rank = Err.
Proof. exact makePools_err. Qed.
Print Assumptions C07_bad_pool_size_stops.
Theorem C07_pools_tile : forall k ps rank, 0 < k -> 0 < ps <= 1073741824 -> 0 <= rank < k * ps ->
  exists p, makePools (k * ps) ps rank = Ok p /\
    poolSize p = ps /\ interSize p = k /\
    0 <= poolId p < k /\ 0 <= poolRank p < ps /\ rank = poolId p * ps + poolRank p /\
    interColor p = poolRank p /\ interRank p = poolId p.
Proof. exact makePools_tile. Qed.
Print Assumptions C07_pools_tile.
(** hence two processes agree in (pool, rank in pool) only if they are the same *)
Theorem C07_pool_coordinates_identify_process : forall k ps r r' p p', 0 < k -> 0 < ps <= 1073741824 ->
  0 <= r < k * ps -> 0 <= r' < k * ps ->
  makePools (k * ps) ps r = Ok p -> makePools (k * ps) ps r' = Ok p' ->
  poolId p = poolId p' -> poolRank p = poolRank p' -> r = r'.
Proof. exact makePools_injective. Qed.
Print Assumptions C07_pool_coordinates_identify_process.
Example C07_ex : makePools 6 2 5 = Ok {| poolId := 2; poolRank := 1; poolSize := 2;
   interColor := 1; interRank := 2; interSize := 3 |} /\ makePools 6 4 5 = Err.
Proof. split; reflexivity. Qed.

(** C56. Up to INT_MAX^2 elements (the number of blocks is itself an int argument). *)
Theorem C56_datatypeHelper_lossless : forall count, 0 <= count <= INT_MAX * INT_MAX ->
  exists blocks remain disp, datatypeHelper count = Ok (blocks, remain, disp) /\
    0 <= remain < INT_MAX /\ disp = blocks * INT_MAX /\ blocks * INT_MAX + remain = count.
Proof. exact datatypeHelper_ok. Qed.
Print Assumptions C56_datatypeHelper_lossless.
Example C56_ex : datatypeHelper 5000000000 = Ok (2, 705032706, 4294967294).
Proof. reflexivity. Qed.
