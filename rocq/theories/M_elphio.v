(** Model of the files of the electron-phonon coupling: writers of src/apps/qe_to_phoebe_utils.cpp:377-722, readers of
    src/interaction/interaction_elph_parsing.cpp:160-633. HDF5 built with MPI; a data set is a function from positions to what was
    written there, a file of format 2 a function from data set numbers to data sets. Elements of any type [A]. *)
From Verif Require Import Base M_mpi.
Open Scope Z_scope.

(** numWannier, numModes, numPhBravaisVectors, numElBravaisVectors *)
Record dims := { dW : Z; dM : Z; dP : Z; dE : Z }.
Definition tensor5 (A : Type) : Type := Z -> Z -> Z -> Z -> Z -> A.
(** Eigen tensors are stored with the first index fastest: gWannier.data() and Eigen::TensorMap *)
Definition data {A} (d : dims) (g : tensor5 A) (x : Z) : A :=
  g (x mod dW d) (x / dW d mod dW d) (x / dW d / dW d mod dM d) (x / dW d / dW d / dM d mod dP d) (x / dW d / dW d / dM d / dP d).
Definition tensorMap {A} (d : dims) (v : Z -> A) : tensor5 A := fun i j nu p e => v (i + dW d * (j + dW d * (nu + dM d * (p + dP d * e)))).
(** elements of one electronic lattice vector: utils l.517-518, parsing l.379-380 *)
Definition perVec (d : dims) : Z := dW d * dW d * dM d * dP d.

(** utils l.514-535, parsing l.377-400: lattice vectors are added to a bunch until the next one would exceed [maxSize]; the last bunch may
    be empty *)
Fixpoint bunchesFrom (maxSize sp cur : Z) (n : nat) : list Z :=
  match n with
  | O => [cur]
  | S m => if maxSize <? (cur + 1 + 1) * sp then (cur + 1) :: bunchesFrom maxSize sp 0 m else bunchesFrom maxSize sp (cur + 1) m
  end.
Definition bunches (maxSize sp numBVs : Z) : list Z := bunchesFrom maxSize sp 0 (Z.to_nat numBVs).
(** int(pow(1000, 3)) / sizeof(std::complex<double>) *)
Definition maxSizeCode : Z := 62500000.

(** * format 1, parallel HDF5 *)
Definition dataset (A : Type) : Type := Z -> option A.
(** dgwannier.select({0, off}, {1, n}).write_raw(src) *)
Definition selectWrite {A} (off n : Z) (src : Z -> A) (ds : dataset A) : dataset A := fun x => if (off <=? x) && (x <? off + n) then Some (src (x - off)) else ds x.
(** utils l.541-571: the bunches of one process. [buf], [len]: gwan and its size. gwanSliceStart is an int; the address of the element
    after the last, used for an empty bunch, is allowed *)
Fixpoint writeBunches {A} (distributed : bool) (sp start net len : Z) (buf : Z -> A) (bs : list Z) (ds : dataset A) : res (dataset A) :=
  match bs with
  | [] => Ok ds
  | b :: rest =>
    let n := b * sp in
    let slice := if distributed then 0 else start + net in
    if 2147483647 <? slice then UB else
    if len <? slice + n then UB else
    writeBunches distributed sp start (net + n) len buf rest (selectWrite (start + net) n (fun y => buf (slice + y)) ds)
  end.
(** utils l.462-467, 503-571: one process. [local]: dimension(4) of its tensor *)
Definition writeRank {A} (maxSize : Z) (d : dims) (size r local : Z) (g : tensor5 A) (ds : dataset A) : res (dataset A) :=
  do mine <- divideWorkIter (dE d) r size ;
  match mine with
  | [] => UB
  | first :: _ =>
    let distributed := negb (local =? dE d) in
    let numBVs := last mine first + 1 - first in
    writeBunches distributed (perVec d) (first * perVec d) 0 (perVec d * local) (data d g) (bunches maxSize (perVec d) numBVs) ds
  end.
(** all processes, in the order in which their writes reach the file *)
Definition writeV1 {A} (maxSize : Z) (d : dims) (size : Z) (order : list Z) (parts : Z -> Z * tensor5 A) : res (dataset A) :=
  foldM (fun ds r => writeRank maxSize d size r (fst (parts r)) (snd (parts r)) ds) order (fun _ => None).

(** parsing l.402-444: bunches read by a process into a buffer of [len] elements; elements never written read as [zero] (HDF5's fill
    value); a selection beyond the data set throws, caught as Error *)
Fixpoint readBunches {A} (zero : A) (total : Z) (ds : dataset A) (sp offset at_ len : Z) (bs : list Z) (buf : Z -> A) : res (Z -> A) :=
  match bs with
  | [] => Ok buf
  | b :: rest =>
    let n := b * sp in
    if total <? offset + at_ + n then Err else
    if len <? at_ + n then UB else
    readBunches zero total ds sp offset (at_ + n) len rest
      (fun y => if (at_ <=? y) && (y <? at_ + n) then match ds (offset + y) with Some a => a | None => zero end else buf y)
  end.
(** no pools, parsing l.326-334, 377-444: what a process reads, its place in the tensor and its number of elements *)
Definition readRank {A} (zero : A) (maxSize : Z) (d : dims) (size r : Z) (ds : dataset A) : res (Z * Z * (Z -> A)) :=
  do mine <- divideWorkIter (dE d) r size ;
  match mine with
  | [] => UB
  | first :: _ =>
    let sp := perVec d in let start := first * sp in
    let stop := (last mine first + 1) * sp - 1 in
    let numElements := stop - start + 1 in
    do buf <- readBunches zero (sp * dE d) ds sp start 0 numElements (bunches maxSize sp (last mine first + 1 - first)) (fun _ => zero) ;
    Ok (start, numElements, buf)
  end.
(** l.450-461, bigAllGatherV (see C05): element of the process that holds it *)
Fixpoint gatherAll {A} (zero : A) (parts : list (Z * Z * (Z -> A))) (x : Z) : A :=
  match parts with
  | [] => zero
  | (start, n, buf) :: rest => if (start <=? x) && (x <? start + n) then buf (x - start) else gatherAll zero rest x
  end.
Definition readV1 {A} (zero : A) (maxSize : Z) (d : dims) (size : Z) (ds : dataset A) : res (tensor5 A) :=
  do parts <- mapM (fun r => readRank zero maxSize d size r ds) (zrange 0 size) ;
  Ok (tensorMap d (gatherAll zero parts)).
(** with pools, l.339-352, 377-444, 462-473: process r of a pool of [size] keeps its lattice vectors; the other pools receive a copy *)
Definition readV1pool {A} (zero : A) (maxSize : Z) (d : dims) (size r : Z) (ds : dataset A) : res (list Z * tensor5 A) :=
  do mine <- divideWorkIter (dE d) r size ;
  match mine with
  | [] => UB
  | first :: _ =>
    let sp := perVec d in
    do buf <- readBunches zero (sp * dE d) ds sp (first * sp) 0 (sp * zlen mine) (bunches maxSize sp (last mine first + 1 - first)) (fun _ => zero) ;
    Ok (mine, tensorMap d buf)
  end.

(** * format 2 *)
(** the file: slices by number, whether the header is there *)
Record file2 (A : Type) := { slices : Z -> option (Z -> A); header : bool }.
Arguments slices {A}. Arguments header {A}.
(** utils l.665-674: every process opens the file with File::Overwrite, which truncates it (HDF5 file locks ignored); l.680-712 it writes its
    slices; l.718-720, 394-440 the head process then writes the header *)
Inductive event := Open (r : Z) | Put (r e : Z) | Header (r : Z).
Definition rankOf (ev : event) : Z := match ev with Open r => r | Put r _ => r | Header r => r end.
(** l.682-702: flattened slice of lattice vector e; [first] of divideWorkIter *)
Definition sliceData {A} (d : dims) (g : tensor5 A) (eLocal x : Z) : A := g (x mod dW d) (x / dW d mod dW d) (x / dW d / dW d mod dM d) (x / dW d / dW d / dM d) eLocal.
Definition apply2 {A} (d : dims) (size : Z) (parts : Z -> Z * tensor5 A) (f : file2 A) (ev : event) : res (file2 A) :=
  match ev with
  | Open _ => Ok {| slices := fun _ => None; header := false |}
  | Put r e =>
    do mine <- divideWorkIter (dE d) r size ;
    let eLocal := if fst (parts r) =? dE d then e else e - hd 0 mine in
    Ok {| slices := fun e' => if e' =? e then Some (sliceData d (snd (parts r)) eLocal) else slices f e'; header := header f |}
  | Header _ => Ok {| slices := slices f; header := true |}
  end.
Definition program (d : dims) (size r : Z) : res (list event) :=
  do mine <- divideWorkIter (dE d) r size ;
  Ok (Open r :: map (Put r) mine ++ (if r =? 0 then [Header 0] else [])).
Definition writeV2 {A} (d : dims) (size : Z) (parts : Z -> Z * tensor5 A) (schedule : list event) : res (file2 A) :=
  foldM (apply2 d size parts) schedule {| slices := fun _ => None; header := false |}.

(** parsing l.566-623: missing data sets throw, caught as Error *)
Definition getSlice {A} (d : dims) (f : file2 A) (e : Z) : res (Z -> Z -> Z -> Z -> A) :=
  match slices f e with
  | None => Err
  | Some v => Ok (fun i j nu p => v (i + dW d * (j + dW d * (nu + dM d * p))))
  end.
Definition readSlices {A} (zero : A) (d : dims) (f : file2 A) (shift : Z) (mine : list Z) : res (tensor5 A) :=
  if header f then
    foldM (fun t e => do s <- getSlice d f e ; Ok (fun i j nu p e' => if e' =? e - shift then s i j nu p else t i j nu p e')) mine (fun _ _ _ _ _ => zero)
  else Err.
(** no pools, l.601-624: each process reads its slices, then the tensor of the head process is broadcast. Value on every process *)
Definition readV2 {A} (zero : A) (d : dims) (size : Z) (f : file2 A) : res (tensor5 A) :=
  do all <- mapM (fun r => do mine <- divideWorkIter (dE d) r size ; readSlices zero d f 0 mine) (zrange 0 size) ;
  match all with [] => UB | t :: _ => Ok t end.
(** pools, l.574-599 *)
Definition readV2pool {A} (zero : A) (d : dims) (size r : Z) (f : file2 A) : res (list Z * tensor5 A) :=
  do mine <- divideWorkIter (dE d) r size ;
  match mine with [] => Ok ([], fun _ _ _ _ _ => zero) | first :: _ => do t <- readSlices zero d f first mine ; Ok (mine, t) end.
(** parseHeaderHDF5 l.212-227: lattice vectors (or degeneracies) kept by a process of a pool *)
Definition localVectors {B} (mine : list Z) (v : Z -> B) (zero : B) (i : Z) : B := match zget mine i with Some e => v e | None => zero end.
