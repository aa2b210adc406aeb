(** Model of src/apps/qe_to_phoebe_wannier.cpp and of the reading part of src/apps/elph_qe_to_phoebe_app.cpp: from the couplings of the
    ab initio code on a coarse mesh to the tensor in the Wannier representation. Numbers are exact; files are already split into numbers. *)
From Coq Require Import Reals QArith.
From Verif Require Import Base M_utilities M_mpi M_complex M_phonon M_interaction.
Open Scope Z_scope.

(** g(ib1, ib2, nu, ik, iq) = < k+q,ib1 | dV_{q,nu} | k,ib2 > (elph_qe_to_phoebe_app.cpp:241-243) *)
Definition tensor5 : Type := Z -> Z -> Z -> Z -> Z -> cplx.
(** [bB] bands, [bW] Wannier functions, [bM] modes; [kqI ik iq] = kPoints.getIndex(k+q); [uM ik] = uMatrices(:, :, ik), bands x Wannier functions;
    [phE iq] = phEigenvectors(:, :, iq) and [phI iq] what Eigen's inverse() returns for it; [elV], [phV]: lattice vectors *)
Record bloch := { bB : Z; bW : Z; bM : Z; bK : Z; bQ : Z; kC : Z -> vec; qC : Z -> vec; kqI : Z -> Z -> Z; uM : Z -> cmat; phE : Z -> cmat; phI : Z -> cmat;
                  nE : Z; elV : Z -> vec; nP : Z; phV : Z -> vec }.

(** * Rotation to the Wannier gauge: one parallel region (l.224-264 and 568-608) *)
(** iterations (nu, i, j, l) of loops collapsed by OpenMP, last index fastest *)
Definition iter4 : Type := Z * Z * Z * Z.
Definition collapse4 (a b c d : Z) : list iter4 := list_prod (list_prod (list_prod (zrange 0 a) (zrange 0 b)) (zrange 0 c)) (zrange 0 d).
Definition loop1 (nM nW nB : Z) : list iter4 := collapse4 nM nW nB nB.
Definition loop2 (nM nW nB : Z) : list iter4 := collapse4 nM nW nW nB.
(** T(i, j, nu) += x *)
Definition tensor3 : Type := Z -> Z -> Z -> cplx.
Definition addTo (T : tensor3) (i j nu : Z) (x : cplx) : tensor3 :=
  fun i' j' nu' => if (i' =? i) && (j' =? j) && (nu' =? nu) then cadd (T i' j' nu') x else T i' j' nu'.
Definition zero3 : tensor3 := fun _ _ _ => c0.
(** what one thread does with its iterations [c1] of the first loop and [c2] of the second: tmp and tmp2 belong to the thread; uKDagger(j, l) = conj(uK(l, j)) *)
Definition threadFirst (uKq : cmat) (g : Z -> Z -> Z -> cplx) (c1 : list iter4) : tensor3 :=
  fold_left (fun T (x : iter4) => let '(nu, i, j, l) := x in addTo T i j nu (cmul (uKq l i) (g l j nu))) c1 zero3.
Definition threadSecond (uK : cmat) (tmp : tensor3) (c2 : list iter4) : tensor3 :=
  fold_left (fun T (x : iter4) => let '(nu, i, j, l) := x in addTo T i j nu (cmul (tmp i l nu) (cconj (uK l j)))) c2 zero3.
(** the iterations of the two loops given to each thread *)
Definition schedule : Type := list (list iter4 * list iter4).
(** the critical section adds up the tensors of the threads *)
Definition rotateRegion (s : schedule) (uKq uK : cmat) (g : Z -> Z -> Z -> cplx) (i j nu : Z) : cplx :=
  csum (map (fun t => threadSecond uK (threadFirst uKq g (fst t)) (snd t) i j nu) s).
(** TRUSTED: what libgomp does without a schedule clause: consecutive blocks, the first n mod T threads one iteration more *)
Definition staticShare {A} (T t : Z) (l : list A) : list A :=
  let n := zlen l in let q := n / T in let r := n mod T in
  let start := if t <? r then t * (q + 1) else t * q + r in
  firstn (Z.to_nat (if t <? r then q + 1 else q)) (skipn (Z.to_nat start) l).
Definition staticSchedule (T nM nW nB : Z) : schedule := map (fun t => (staticShare T t (loop1 nM nW nB), staticShare T t (loop2 nM nW nB))) (zrange 0 T).

(** * blochToWannier (l.442-793) *)
(** each process fills the entries of its share, the others stay zero, allReduceSum adds the processes *)
Definition reduced (shares : list (list Z)) (f : Z -> cplx) (i : Z) : cplx := csum (map (fun mine => if existsb (Z.eqb i) mine then f i else c0) shares).
Definition allShares (n size : Z) : res (list (list Z)) := mapM (fun r => divideWorkIter n r size) (zrange 0 size).
(** exp(-i x.R) / n *)
Definition phaseOf (n : Z) (x R : vec) : cplx := cscale (/ IZR n) (cexpi (- dot3 x R)).

Section Transform.
Variable D : bloch.
(** [sched ik iq]: distribution between threads in the region of ik, iq. The loops of l.640-672 and 750-782 give whole lattice vectors or whole q-points to a
    thread: sums. l.473-532, polar correction: below *)
Definition blochToWannier (sched : Z -> Z -> schedule) (size : Z) (g : tensor5) : res tensor5 :=
  do sq <- allShares (bQ D) size ;
  do sk <- allShares (bK D) size ;
  do se <- allShares (nE D) size ;
  let gRot := fun i j nu ik iq => reduced sq (fun iq => rotateRegion (sched ik iq) (uM D (kqI D ik iq)) (uM D ik) (fun l j nu => g l j nu ik iq) i j nu) iq in
  let phK := fun ik iR => reduced sk (fun ik => phaseOf (bK D) (kC D ik) (elV D iR)) ik in
  let gMixed := fun i j nu iR iq => reduced sq (fun iq => csumTo (bK D) (fun ik => cmul (gRot i j nu ik iq) (phK ik iR))) iq in
  let uQM1s := fun nu nu2 iq => reduced sq (fun iq => phI D iq nu nu2) iq in
  let gTmp := fun i j nu irE iq => reduced sq (fun iq => csumTo (bM D) (fun nu2 => cmul (gMixed i j nu2 irE iq) (uQM1s nu2 nu iq))) iq in
  let phQ := fun irP iq => reduced sq (fun iq => phaseOf (bQ D) (qC D iq) (phV D irP)) iq in
  Ok (fun i j nu irP irE => reduced se (fun irE => csumTo (bQ D) (fun iq => cmul (phQ irP iq) (gTmp i j nu irE iq))) irE).

(** * BlochToWannierEfficient (l.14-440): one file for each irreducible q, with the points of its star *)
Record starPoint := { sQ : vec; sKq : Z -> Z; sG : Z -> Z -> Z -> Z -> cplx; sInv : cmat; sSched : Z -> schedule }.
(** l.194-375 and 397-408: sum over the points of one file *)
Definition fileSum (file : list starPoint) (i j nu irP irE : Z) : cplx :=
  csum (map (fun s => cmul (phaseOf (bQ D) (sQ s) (phV D irP))
    (csumTo (bM D) (fun nu2 => cmul
       (csumTo (bK D) (fun ik => cmul (rotateRegion (sSched s ik) (uM D (sKq s ik)) (uM D ik) (fun l j nu => sG s l j nu ik) i j nu2) (phaseOf (bK D) (kC D ik) (elV D irE))))
       (sInv s nu2 nu)))) file).
(** l.93-96: file of a process at round iLoop *)
Definition fileAt (files : list (list starPoint)) (mine : list Z) (iLoop : Z) : list starPoint :=
  match zget mine iLoop with Some f => match zget files f with Some s => s | None => [] end | None => [] end.
(** the tensors of the processes. l.66-68: localElIndices[0] of a process without vectors is undefined; l.383-384: chunks *)
Definition blochToWannierEfficient (size : Z) (files : list (list starPoint)) : res (list tensor5) :=
  if zlen files <? size then Err else
  do locals <- allShares (nE D) size ;
  if existsb (fun l => zlen l =? 0) locals then UB else
  do its <- allShares (zlen files) size ;
  let loopSize := fold_right Z.max 0 (map zlen its) in
  match splitVector_loop (Z.to_nat (nE D)) (zrange 0 (nE D)) (Z.to_nat (Z.quot (nE D) size)) with
  | None => UB
  | Some chunks =>
    Ok (map (fun loc => fun i j nu irP irELocal =>
      csumTo loopSize (fun iLoop => csum (map (fun chunk => csum (map (fun irE =>
        if existsb (Z.eqb irE) loc && (irE - hd 0 loc =? irELocal) then csum (map (fun mine => fileSum (fileAt files mine iLoop) i j nu irP irE) its) else c0) chunk)) chunks))) locals)
  end.
End Transform.

(** * Reading the couplings *)
(** l.115-130 and elph_qe_to_phoebe_app.cpp:209-262: bands offset, ..., offset + numWannier - 1 are copied, the rest of the tensor is zero *)
Definition readBands (offset nW : Z) (gQE : tensor5) : tensor5 :=
  fun b1 b2 nu ik iq => if (b1 <? nW) && (b2 <? nW) then gQE (offset + b1) (offset + b2) nu ik iq else c0.
(** l.922-996: energies of the ab initio code and of Wannier90 at the first point; a negative size is undefined *)
Definition difference (eQE eW : list Q) (i : Z) : Q := fold_right Qplus 0%Q (map (fun ib => (nth (Z.to_nat (ib + i)) eQE 0 - nth (Z.to_nat ib) eW 0) * (nth (Z.to_nat (ib + i)) eQE 0 - nth (Z.to_nat ib) eW 0))%Q (zrange 0 (zlen eW))).
Definition leastOf (l : list Q) : Q := match l with [] => 0%Q | x :: r => fold_left (fun a y => if Qle_bool a y then a else y) r x end.
Definition computeOffset (eQE eW : list Q) : res Z :=
  let possible := zlen eQE - zlen eW in
  if possible <? 0 then UB else
  let ds := map (difference eQE eW) (zrange 0 possible) in
  let offset := match find (fun i => Qeq_bool (difference eQE eW i) (leastOf ds)) (zrange 0 possible) with Some i => i + 1 | None => -1 end in
  let offset := if possible =? 0 then 0 else offset in
  if offset =? -1 then Err else Ok offset.
(** l.891-919: product of the disentanglement matrix [a] (bands x Wannier) and of the rotation [b] *)
Definition rotationProduct (nW : Z) (a b : cmat) : cmat := fun i j => csumTo nW (fun k => cmul (b k j) (a i k)).

(** * Long range part: subtracted before the transformation *)
(** interaction_elph.cpp:124-136 getPolarCorrectionStatic, 207-229 with ev1 = adjoint of U(k), ev2 = adjoint of U(k+q); [x nu]: coefficient of the mode *)
Definition polarBloch (nW : Z) (uK uKq : cmat) (x : Z -> cplx) (ib1 ib2 nu : Z) : cplx :=
  cmul (x nu) (csumTo nW (fun w => cmul (cconj (adjoint uKq w ib2)) (adjoint uK w ib1))).
Definition awayFromGamma (q : vec) : bool := if Rlt_dec (1 / 100000000) (sqrt (dot3 q q)) then true else false.
(** l.133-192: gStar(i, j) -= v(j, i) *)
Definition subtractDistributed (D : bloch) (x : Z -> Z -> cplx) (g : tensor5) : tensor5 :=
  fun i j nu ik iq => if awayFromGamma (qC D iq) then csub (g i j nu ik iq) (polarBloch (bW D) (uM D ik) (uM D (kqI D ik iq)) (x iq) j i nu) else g i j nu ik iq.
(** l.473-532: gFull(i, j) -= v(i, j). The loop of l.510-515 fills numBands columns of matrices of numWannier columns: undefined if there are more bands *)
Definition subtractAtOnce (D : bloch) (x : Z -> Z -> cplx) (g : tensor5) : res tensor5 :=
  if bW D <? bB D then UB else
  Ok (fun i j nu ik iq => if awayFromGamma (qC D iq) then csub (g i j nu ik iq) (polarBloch (bW D) (uM D ik) (uM D (kqI D ik iq)) (x iq) i j nu) else g i j nu ik iq).
