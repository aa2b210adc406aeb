(** Model of src/mpi/mpiController.cpp and src/mpi/mpiController.h (build with MPI_AVAIL). *)
From Verif Require Import Base M_utilities.

(** mpiController.cpp:169-175  divideWork: size_t arithmetic, rank and size converted to size_t. *)
Definition divideWork (numTasks rank size : Z) : Z * Z :=
  (u64 (numTasks * rank) / size, u64 (numTasks * (rank + 1)) / size).

(** mpiController.cpp:177-199  divideWorkIter, rank_/size_ already chosen by the communicator.
    [localSize] is a size_t subtraction (wraps); a wrapped size makes the allocation fail. *)
Definition divideWorkIter (numTasks rank size : Z) : res (list Z) :=
  let start := u64 (numTasks * rank) / size in
  let stop := u64 (numTasks * (rank + 1)) / size in
  if stop <? start then UB else Ok (zrange start (stop - start)).

(** mpiController.cpp:203-225  workDivHelper: (workDivs, workDivisionHeads), stored in ints. *)
Definition workDivHelper (numTasks size : Z) : list Z * list Z :=
  let heads := map (fun i => to_int32 (u64 (numTasks * i) / size)) (zrange 0 size) in
  let tails := map (fun i => to_int32 (u64 (numTasks * (i + 1)) / size)) (zrange 0 size) in
  (map (fun p => fst p - snd p) (combine tails heads), heads).

(** TRUSTED: MPI_Allgatherv / MPI_Gatherv.  Process i sends [send i]; its sendcount must equal
    counts[i]; the data lands at displs[i] of the receive buffer [out]. *)
Definition writeAt {A} (out : list A) (displ : Z) (data : list A) : res (list A) :=
  if (0 <=? displ) && (displ + zlen data <=? zlen out) then
    Ok (firstn (Z.to_nat displ) out ++ data ++ skipn (Z.to_nat displ + length data) out)
  else UB.

Fixpoint mpiGatherv {A} (sends : list (list A)) (counts displs : list Z) (out : list A) : res (list A) :=
  match sends, counts, displs with
  | [], [], [] => Ok out
  | s :: ss, c :: cs, d :: ds =>
      if zlen s =? c then do out' <- writeAt out d s ; mpiGatherv ss cs ds out' else UB
  | _, _, _ => UB
  end.

(** mpiController.h:667-697 gatherv (result on the head) and 719-750 allGatherv (result on every
    rank): counts and displacements come from workDivHelper(size of the output buffer).
    gatherv stores the size in an int first. *)
Definition gatherv {A} (sends : list (list A)) (out : list A) : res (list A) :=
  let numTasks := to_int32 (zlen out) in
  let t := workDivHelper (u64 numTasks) (zlen sends) in
  mpiGatherv sends (fst t) (snd t) out.

Definition allGatherv {A} (sends : list (list A)) (out : list A) : res (list A) :=
  let t := workDivHelper (zlen out) (zlen sends) in
  mpiGatherv sends (fst t) (snd t) out.

(** mpiController.h:519-535  allReduceSum(dataIn, dataOut): [ins] are the ranks' input buffers,
    [outs] their output buffers before the call; the result is the list of output buffers.
    TRUSTED: MPI_Allreduce with MPI_SUM = element-wise sum. *)
Definition addBuf (a b : list Z) : list Z := map (fun p => fst p + snd p) (combine a b).
Definition sumBufs (n : nat) (l : list (list Z)) : list Z := fold_right addBuf (repeat 0 n) l.

Definition allReduceSum2 (ins outs : list (list Z)) : list (list Z) :=
  if zlen ins =? 1 then outs                       (* l.522: if (size == 1) return; *)
  else map (fun o => sumBufs (length o) ins) outs.

(** mpiController.h:564-583  in-place allReduceSum over the world communicator. *)
Definition allReduceSum (bufs : list (list Z)) : list (list Z) :=
  if zlen bufs =? 1 then bufs
  else map (fun b => sumBufs (length b) bufs) bufs.

(** mpiController.cpp:33-80  pools. Input: world size and the value given to -ps (already parsed as
    a non-negative int, 1 when absent). exit(1) is modelled by [Err].
    TRUSTED: MPI_Comm_split(color, key): processes of equal color ordered by key. *)
Record poolInfo := { poolId : Z; poolRank : Z; poolSize : Z; interColor : Z; interRank : Z; interSize : Z }.

Definition commSplitMembers (size : Z) (color : Z -> Z) (c : Z) : list Z :=
  filter (fun r => color r =? c) (zrange 0 size).
Fixpoint posOf (x : Z) (l : list Z) : Z :=
  match l with [] => 0 | y :: r => if x =? y then 0 else 1 + posOf x r end.

Definition makePools (size tmpPoolSize rank : Z) : res poolInfo :=
  if tmpPoolSize =? 0 then Err else
  do m <- cmod size tmpPoolSize ;
  if negb (m =? 0) then Err else
  let pid := fun r => Z.quot r tmpPoolSize in
  let members := commSplitMembers size pid (pid rank) in
  let pSize := zlen members in
  if negb (pSize =? tmpPoolSize) then Err else
  do color <- cmod rank pSize ;
  let cmembers := commSplitMembers size (fun r => modZ r pSize) color in
  Ok {| poolId := pid rank; poolRank := posOf rank members; poolSize := pSize;
        interColor := color; interRank := posOf rank cmembers; interSize := zlen cmembers |}.

(** mpiController.h:775-827  datatypeHelper: number of full blocks of INT_MAX elements and the
    remainder; the described data are block*INT_MAX contiguous elements followed by the remainder
    at element displacement block*INT_MAX. MPI_Type_vector and MPI_Type_contiguous take int counts. *)
Definition datatypeHelper (count : Z) : res (Z * Z * Z) :=
  let blockSize := Z.quot count INT_MAX in
  let remain := Z.rem count INT_MAX in
  do b <- ck blockSize ;
  do r <- ck remain ;
  Ok (b, r, blockSize * INT_MAX).   (* (blocks, remainder, displacement of the remainder) *)

(** mpiController.h:831-950 bigAllGatherV, branch outSize >= INT_MAX (l.887-942): the number of
    elements process [thisRank] of a communicator (world rank [worldRank]) sends to everyone.
    l.930 reads workDivs[rank] with the world rank; out-of-range read is UB. *)
Definition bigAllGatherV_sendCount (workDivs : list Z) (worldRank thisRank : Z) : res Z :=
  match zget workDivs worldRank with Some c => Ok c | None => UB end.

(** same function, branch outSize < INT_MAX (l.857-876): l.870 reads workDivs_[thisRank]. *)
Definition bigAllGatherV_smallSendCount (workDivs : list Z) (worldRank thisRank : Z) : res Z :=
  match zget workDivs thisRank with Some c => Ok (to_int32 c) | None => UB end.

(** Whole call on a communicator whose member i has world rank [members i]; [sends i] is what member
    i holds in dataIn (at least its share). The receive side (l.894-917) expects workDivs[i] elements
    from member i at offset workDivisionHeads[i]. *)
Definition bigAllGatherV {A} (members : list Z) (dataIn : list (list A))
    (workDivs workDivisionHeads : list Z) (out : list A) : res (list A) :=
  let nRanks := zlen members in
  let ranks := zrange 0 nRanks in
  if nRanks =? 1 then
    (* l.847-852 *)
    match dataIn, workDivs with
    | d :: _, w :: _ => if w <=? zlen d then writeAt out 0 (firstn (Z.to_nat w) d) else UB
    | _, _ => UB
    end
  else
    let outSize := last workDivisionHeads 0 + last workDivs 0 in
    let count := if outSize <? INT_MAX then bigAllGatherV_smallSendCount workDivs
                 else bigAllGatherV_sendCount workDivs in
    do cnts <- mapM (fun r => match zget members r with Some w => count w r | None => UB end) ranks ;
    do sends <- mapM (fun p => let '(d, c) := p in
                      if (0 <=? c) && (c <=? zlen d) then Ok (firstn (Z.to_nat c) d) else UB)
                    (combine dataIn cnts) ;
    mpiGatherv sends workDivs workDivisionHeads out.
