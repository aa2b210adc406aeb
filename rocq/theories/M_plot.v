(** Model of the application that prints electron-phonon couplings (src/apps/elph_plot_app.cpp). Points and values of any type; the coupling
    of a pair is an oracle. *)
From Verif Require Import Base M_mpi M_elphio.
Open Scope Z_scope.

(** l.36-50, 69-88: couplingPlotStyle with the fixed point *)
Inductive style (P : Type) := QFixed (q : P) | KFixed (k : P) | AllToAll.
Arguments QFixed {P}. Arguments KFixed {P}. Arguments AllToAll {P}.
(** l.62-90: pairs (k, q) *)
Definition pairsOf {P} (s : style P) (pts : list P) : list (P * P) :=
  flat_map (fun x => match s with QFixed q => [(x, q)] | KFixed k => [(k, x)] | AllToAll => map (fun q => (x, q)) pts end) pts.
(** l.109-131: range asked for and number of bands *)
Definition clampRange (n : Z) (b : Z * Z) : Z * Z :=
  let hi := if (snd b <=? 0) || (n <=? snd b) then n - 1 else snd b in
  let lo := if fst b <? 0 then 0 else fst b in (lo, hi).
(** l.92-138; electron bands 1 and 2, phonon modes *)
Definition ranges (nEl nPh : Z) (b1 b2 b3 : Z * Z) : res ((Z * Z) * (Z * Z) * (Z * Z)) :=
  let r1 := clampRange nEl b1 in let r2 := clampRange nEl b2 in let r3 := clampRange nPh b3 in
  if (snd r3 <? fst r3) || (snd r1 <? fst r1) || (snd r2 <? fst r2) then Err else Ok (r1, r2, r3).
Definition span (r : Z * Z) : list Z := zrange (fst r) (snd r - fst r + 1).
(** l.215-228 *)
Definition bandValues {P A} (g : P -> P -> Z -> Z -> Z -> A) (r1 r2 r3 : Z * Z) (p : P * P) : list A :=
  flat_map (fun i => flat_map (fun j => map (fun k => g (fst p) (snd p) i j k) (span r3)) (span r2)) (span r1).
(** l.241-243 *)
Definition bandProd (r1 r2 r3 : Z * Z) : Z := (snd r1 - fst r1 + 1) * (snd r2 - fst r2 + 1) * (snd r3 - fst r3 + 1).
(** l.148-149, 172-229: allGs of a process *)
Definition valuesOf {P A} (g : P -> P -> Z -> Z -> Z -> A) (r1 r2 r3 : Z * Z) (pairs : list (P * P)) (mine : list Z) : res (list A) :=
  do vs <- mapM (fun i => match zget pairs i with Some p => Ok (bandValues g r1 r2 r3 p) | None => UB end) mine ; Ok (concat vs).
Definition at_ {A} (zero : A) (l : list A) (y : Z) : A := match zget l y with Some a => a | None => zero end.
(** l.157-164: calls of cacheElPh, which is collective in a pool, of a process with [mine] pairs when the largest share is [mx] *)
Definition cacheCalls (mine mx : Z) : Z := mine + if mine <? mx then 1 else 0.

(** l.283: int(pow(1000, 3)) / sizeof(double) *)
Definition plotMaxSize : Z := 125000000.
(** l.249-319, HDF5 with MPI: one process. &allGs[0] is the source of every bunch *)
Definition plotRank {P A} (zero : A) (maxSize : Z) (g : P -> P -> Z -> Z -> Z -> A) (r1 r2 r3 : Z * Z) (pairs : list (P * P)) (size r : Z) (ds : dataset A) : res (dataset A) :=
  do mine <- divideWorkIter (zlen pairs) r size ;
  do vals <- valuesOf g r1 r2 r3 pairs mine ;
  match mine with
  | [] => UB
  | first :: _ =>
    let sp := bandProd r1 r2 r3 in
    writeBunches true sp (first * sp) 0 (zlen vals) (at_ zero vals) (bunches maxSize sp (last mine first + 1 - first)) ds
  end.
(** globalSize is an unsigned int: a larger data set is created too small and the writes beyond its end throw *)
Definition plotParallel {P A} (zero : A) (maxSize : Z) (g : P -> P -> Z -> Z -> Z -> A) (r1 r2 r3 : Z * Z) (pairs : list (P * P)) (size : Z) (order : list Z) : res (dataset A) :=
  if 4294967296 <=? zlen pairs * bandProd r1 r2 r3 then Err else
  foldM (fun ds r => plotRank zero maxSize g r1 r2 r3 pairs size r ds) order (fun _ => None).
(** l.320-339, HDF5 without MPI: allGatherv(&collectedGs, &allGs) sends collectedGs and receives in allGs; the file gets collectedGs of the head *)
Definition plotSerial {P A} (zero : A) (g : P -> P -> Z -> Z -> Z -> A) (r1 r2 r3 : Z * Z) (pairs : list (P * P)) (size : Z) : res (list A) :=
  let globalSize := zlen pairs * bandProd r1 r2 r3 in
  if plotMaxSize <? globalSize then Err else
  let collected := map (fun r => if r =? 0 then repeat zero (Z.to_nat globalSize) else []) (zrange 0 size) in
  do _ <- mapM (fun r => do mine <- divideWorkIter (zlen pairs) r size ; do vals <- valuesOf g r1 r2 r3 pairs mine ; allGatherv collected vals) (zrange 0 size) ;
  match collected with c :: _ => Ok c | [] => UB end.
