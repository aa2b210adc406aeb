(** Model of src/bte/vector_bte.cpp and of the matrix product of src/bte/vector_epa.cpp. Values are rationals: no
    rounding; a division by zero (infinity or NaN in the program) gives 0 here, so theorems on quotients exclude it. *)
From Coq Require Import QArith Qcanon.
From Verif Require Import Base M_utilities M_matrix.
Open Scope Z_scope.

(** vector_bte.h:155-200: [vCalc] = statisticsSweep.getNumCalculations(), [vMu] = numChemPots, [vTemp] = numTemps,
    [vDim] = dimensionality, [vN] = numStates; [vData row iBte] = data. numCalculations of the class is vRows. *)
Record vbte := { vCalc : Z; vMu : Z; vTemp : Z; vDim : Z; vN : Z; vExcl : list Z; vData : Z -> Z -> Qc }.
Definition vRows (v : vbte) : Z := vCalc v * vDim v.
Definition withData (v : vbte) (d : Z -> Z -> Qc) : vbte :=
  {| vCalc := vCalc v; vMu := vMu v; vTemp := vTemp v; vDim := vDim v; vN := vN v; vExcl := vExcl v; vData := d |}.
(** vector_bte.cpp:5-35 constructor: [acoustic iBte] = energy of the state below 0.1 cm^-1 *)
Definition newVector (calcs mus temps dim n : Z) (isPhonon : bool) (acoustic : Z -> bool) : res vbte :=
  if dim <=? 0 then Err else
  Ok {| vCalc := calcs; vMu := mus; vTemp := temps; vDim := dim; vN := n;
        vExcl := if isPhonon then filter acoustic (zrange 0 n) else []; vData := fun _ _ => 0%Qc |}.
(** l.331-341 operator() *)
Definition vget (v : vbte) (iCalc iDim iState : Z) : Qc := vData v (iCalc * vDim v + iDim) iState.

(** l.344-361 *)
Definition glob2Loc (v : vbte) (imu it iDim : Z) : res Z := compress3Indices imu it iDim (vMu v) (vTemp v) (vDim v).
Definition loc2Glob (v : vbte) (i : Z) : res (Z * Z * Z) := decompress3Indices i (vMu v) (vTemp v) (vDim v).

(** l.113-175 baseOperator *)
Inductive vop := Sums | Divs | Prod | Diff.
Definition applyOp (o : vop) (a b : Qc) : Qc :=
  match o with Sums => a + b | Divs => a / b | Prod => a * b | Diff => a - b end%Qc.
Definition isExcluded (v : vbte) (iBte : Z) : bool := existsb (Z.eqb iBte) (vExcl v).
(** row of [w] used for row [r] of [v] *)
Definition broadcastRow (v w : vbte) (r : Z) : res Z :=
  do g <- loc2Glob v r ;
  let '(imu, it, _) := g in
  do i2 <- glob2Loc w imu it 0 ;
  if (0 <=? i2) && (i2 <? vRows w) then Ok i2 else UB.
Definition baseOperator (o : vop) (v w : vbte) : res vbte :=
  if negb (vN v =? vN w) then Err else
  if negb (vCalc v =? vCalc w) then Err else
  do rowOf <-
    (if vDim v =? vDim w then Ok (zrange 0 (vRows v))
     else if vDim w =? 1 then mapM (broadcastRow v w) (zrange 0 (vRows v))
     else Err) ;
  Ok (withData v (fun r s => if isExcluded v s then 0%Qc else applyOp o (vData v r s) (vData w (nth (Z.to_nat r) rowOf 0) s))).
(** l.182-188, 257-262 *)
Definition vscale (c : Qc) (v : vbte) : vbte := withData v (fun r s => vData v r s * c)%Qc.
Definition vneg (v : vbte) : vbte := withData v (fun r s => - vData v r s)%Qc.
(** l.191-206: [rows], [cols], [m]: Eigen matrix; elements of a vector without 3 components are out of range *)
Definition vscaleCalcs (v : vbte) (rows cols : Z) (m : Z -> Z -> Qc) : res vbte :=
  if negb (rows =? vCalc v) || negb (cols =? 3) then Err else
  if negb (vDim v =? 3) then UB else
  Ok (withData v (fun r s => vData v r s * m (r / 3)%Z (r mod 3)%Z)%Qc).
(** l.275-290 *)
Definition vreciprocal (v : vbte) : vbte :=
  withData v (fun r s => if Qc_eq_dec (vData v r s) 0 then 0 else 1 / vData v r s)%Qc.
(** l.292-328: [pop iCalc iBte] = getPopPopPm1 of the state; three components are assumed *)
Definition canonical2Population (pop : Z -> Z -> Qc) (v : vbte) : res vbte :=
  if negb (vDim v =? 3) then UB else Ok (withData v (fun r s => vData v r s * pop (r / 3)%Z s)%Qc).
Definition population2Canonical (isFermi : bool) (pop : Z -> Z -> Qc) (v : vbte) : res vbte :=
  if isFermi then Err else
  if negb (vDim v =? 3) then UB else Ok (withData v (fun r s => vData v r s / pop (r / 3)%Z s)%Qc).

(** * l.66-111 dot *)
(** 3x3 rotation applied to a vector, component i *)
Definition rotate (R : Z -> Z -> Qc) (x : Z -> Qc) (i : Z) : Qc := (R i 0%Z * x 0%Z + R i 1%Z * x 1%Z + R i 2%Z * x 2%Z)%Qc.
(** [stateToBte], [star]: stateToBte and getRotationsStar of the band structure. The state index is searched in the
    list of excluded BTE indices (l.85). *)
Definition dotState (stateToBte : Z -> Z) (star : Z -> list (Z -> Z -> Qc)) (v w : vbte) (iCalc i is : Z) : Qc :=
  if isExcluded v is then 0%Qc else
  qsum (map (fun R => rotate R (fun j => vget v iCalc j (stateToBte is)) i * rotate R (fun j => vget w iCalc j (stateToBte is)) i)%Qc (star is)).
(** [ranks]: for every process the irreducible states of parallelIrrStateIterator, split in the chunks of its
    threads; OpenMP reduction and MPI sum *)
Definition vdot (stateToBte : Z -> Z) (star : Z -> list (Z -> Z -> Qc)) (ranks : list (list (list Z))) (v w : vbte) : res (Z -> Z -> Qc) :=
  if negb (vRows v =? vRows w) || negb (vN v =? vN w) then Err else
  if negb (vDim w =? 3) then Err else
  Ok (fun iCalc i => qsum (map (fun threads => qsum (map (fun chunk => qsum (map (dotState stateToBte star v w iCalc i) chunk)) threads)) ranks)).

(** * l.209-245 vector times distributed matrix *)
Definition addAt (acc : Z -> Qc) (j : Z) (x : Qc) : Z -> Qc := fun k => if k =? j then (acc k + x)%Qc else acc k.
(** one thread, one row: the elements (i, j) of its share *)
Definition threadProduct (L : layout) (p : Z * Z) (buf : list Qc) (x : Z -> Qc) (chunk : list (Z * Z)) : res (Z -> Qc) :=
  foldM (fun acc t => do m <- pget 0%Qc L p buf (fst t) (snd t) ; Ok (addAt acc (snd t) (x (fst t) * m)%Qc)) chunk (fun _ => 0%Qc).
(** one process: sum over its threads (critical section); [chunks] = its local elements split over the threads *)
Definition rankProduct (L : layout) (x : Z -> Qc) (rank : (Z * Z) * list Qc * list (list (Z * Z))) : res (Z -> Qc) :=
  let '(p, buf, chunks) := rank in
  foldM (fun acc chunk => do part <- threadProduct L p buf x chunk ; Ok (fun j => acc j + part j)%Qc) chunks (fun _ => 0%Qc).
Definition timesMatrix (L : layout) (ranks : list ((Z * Z) * list Qc * list (list (Z * Z)))) (v : vbte) : res vbte :=
  if negb (vRows v =? vDim v) then Err else
  if negb (lRows L =? vN v) then Err else
  if negb (lCols L =? vN v) then UB else
  do rows <- mapM (fun r => do parts <- mapM (rankProduct L (vData v r)) ranks ; Ok (fun j => qsum (map (fun f => f j) parts))) (zrange 0 (vRows v)) ;
  Ok (withData v (fun r s => nth (Z.to_nat r) rows (fun _ => 0%Qc) s)).
(** vector_epa.cpp:149-168: matrix times vector for VectorEPA; the elements of a process in order; assignment *)
Definition epaRankProduct (L : layout) (x : Z -> Qc) (rank : (Z * Z) * list Qc) : res (Z -> Qc) :=
  let '(p, buf) := rank in
  foldM (fun (acc : Z -> Qc) t => do m <- pget 0%Qc L p buf (fst t) (snd t) ; Ok (fun k => if k =? fst t then (m * x (snd t))%Qc else acc k))
        (getAllLocalStates L p) (fun _ => 0%Qc).
Definition epaTimesMatrix (L : layout) (ranks : list ((Z * Z) * list Qc)) (x : Z -> Qc) : res (Z -> Qc) :=
  do parts <- mapM (epaRankProduct L x) ranks ; Ok (fun j => qsum (map (fun f => f j) parts)).
