(** Vocabulary for the transformation to the Wannier representation. *)
From Coq Require Import Reals QArith Permutation.
From Verif Require Import Base M_mpi S_mpi M_wigner S_wigner M_complex M_electron M_interaction S_interaction M_wannier.
Open Scope Z_scope.

(** direct and reciprocal lattice *)
Definition Dual (A B : Z -> vec) : Prop := forall i j, 0 <= i < 3 -> 0 <= j < 3 -> dot3 (A i) (B j) = (if i =? j then 2 * PI else 0)%R.
(** integer combination of the lattice vectors *)
Definition cart (A : Z -> vec) (v : v3) : vec := let '(a, b, c) := v in fun x => (IZR a * A 0%Z x + IZR b * A 1%Z x + IZR c * A 2%Z x)%R.
(** point (a/N0, b/N1, c/N2) in reciprocal coordinates *)
Definition meshPoint (B : Z -> vec) (N v : v3) : vec :=
  let '(n0, n1, n2) := N in let '(a, b, c) := v in fun x => (IZR a / IZR n0 * B 0%Z x + IZR b / IZR n1 * B 1%Z x + IZR c / IZR n2 * B 2%Z x)%R.
(** pts 0, ..., pts (n-1) are the points of the mesh, in any order *)
Definition FullMesh (B : Z -> vec) (N : v3) (n : Z) (pts : Z -> vec) : Prop :=
  n = cells N /\ exists c : Z -> v3,
    (forall i, 0 <= i < n -> let '(n0, n1, n2) := N in let '(x, y, z) := c i in 0 <= x < n0 /\ 0 <= y < n1 /\ 0 <= z < n2) /\
    (forall i j, 0 <= i < n -> 0 <= j < n -> c i = c j -> i = j) /\
    forall i x, 0 <= i < n -> 0 <= x < 3 -> pts i x = meshPoint B N (c i) x.
(** lattice vectors and degeneracies of a list of Wigner-Seitz vectors *)
Definition latV (A : Z -> vec) (ws : list (v3 * Z)) (i : Z) : vec := match zget ws i with Some x => cart A (fst x) | None => fun _ => 0%R end.
Definition latDeg (ws : list (v3 * Z)) (i : Z) : R := match zget ws i with Some x => IZR (snd x) | None => 1%R end.

(** the iterations are given to the threads, each one once *)
Definition Distributes (s : schedule) (nM nW nB : Z) : Prop := Permutation (concat (map fst s)) (loop1 nM nW nB) /\ Permutation (concat (map snd s)) (loop2 nM nW nB).
(** a thread that has an iteration (nu, i, ., .) of the second loop has all the iterations (nu, i, ., .) of the first loop *)
Definition Aligned (s : schedule) (nM nW nB : Z) : Prop := forall t nu i j l, In t s -> In (nu, i, j, l) (snd t) -> forall j' l', 0 <= j' < nB -> 0 <= l' < nB -> In (nu, i, j', l') (fst t).
(** U(k+q)^T g U(k)^* *)
Definition rotated (nB : Z) (uKq uK : cmat) (g : Z -> Z -> Z -> cplx) (i j nu : Z) : cplx :=
  csumTo nB (fun l => csumTo nB (fun l' => cmul (cmul (uKq l' i) (g l' l nu)) (cconj (uK l j)))).
(** what the tensor in the Wannier representation should be *)
Definition wannierTensor (D : bloch) (g : tensor5) : tensor5 := fun i j nu irP irE =>
  csumTo (bQ D) (fun iq => csumTo (bM D) (fun nu2 => csumTo (bK D) (fun ik =>
    cmul (cscale (/ IZR (bK D) * / IZR (bQ D)) (cexpi (- dot3 (kC D ik) (elV D irE) - dot3 (qC D iq) (phV D irP))))
      (cmul (rotated (bB D) (uM D (kqI D ik iq)) (uM D ik) (fun a b m => g a b m ik iq) i j nu2) (phI D iq nu2 nu))))).
(** rows of u orthonormal, inverse matrix *)
Definition RowsOrthonormal (nB nW : Z) (u : cmat) : Prop := forall a b, 0 <= a < nB -> 0 <= b < nB -> csumTo nW (fun w => cmul (u a w) (cconj (u b w))) = if a =? b then c1 else c0.
Definition ColumnsOrthonormal (nB nW : Z) (u : cmat) : Prop := forall a b, 0 <= a < nW -> 0 <= b < nW -> csumTo nB (fun i => cmul (cconj (u i a)) (u i b)) = if a =? b then c1 else c0.
Definition LeftInverse (n : Z) (v u : cmat) : Prop := forall a b, 0 <= a < n -> 0 <= b < n -> csumTo n (fun m => cmul (v a m) (u m b)) = if a =? b then c1 else c0.
(** the tensor as the interpolation reads it: degeneracies of the vectors, first index of g the state at k+q *)
Definition asStored (D : bloch) (deg : Z -> R) (T : tensor5) : list elVector :=
  map (fun e => {| eR := elV D e; eDeg := deg e; eG := fun irP nu w1 w2 => T w2 w1 nu irP e |}) (zrange 0 (nE D)).
(** a band of the ab initio calculation on the mesh as coefficients on the Wannier functions *)
Definition stateOf (D : bloch) (ik b : Z) : Z -> cplx := fun w => uM D ik b w.
(** the points of the stars, file after file, are the points of the mesh with their couplings *)
Definition starOf (D : bloch) (sched : Z -> Z -> schedule) (g : tensor5) (iq : Z) : starPoint :=
  {| sQ := qC D iq; sKq := fun ik => kqI D ik iq; sG := fun a b nu ik => g a b nu ik iq; sInv := phI D iq; sSched := fun ik => sched ik iq |}.
(** coordinates of a band window: eW = eQE[o ... o + length eW) *)
Definition windowAt (eQE eW : list Q) (o : Z) : Prop := 0 <= o /\ o + zlen eW <= zlen eQE /\ forall i, 0 <= i < zlen eW -> (nth (Z.to_nat (i + o)) eQE 0 == nth (Z.to_nat i) eW 0)%Q.
Definition increasing (l : list Q) : Prop := forall i j, 0 <= i -> i < j -> j < zlen l -> (nth (Z.to_nat i) l 0 < nth (Z.to_nat j) l 0)%Q.
(** the meshes of k and q, and the lattice vectors that the crystal gives for them *)
Definition CoarseGrids (D : bloch) (A B : Z -> vec) (kMesh qMesh : v3) (nx : Z) (d : v3 -> Q) (wsK wsQ : list (v3 * Z)) : Prop :=
  positive kMesh /\ positive qMesh /\ 1 <= nx /\ compact kMesh d /\ compact qMesh d /\ (forall w, (d (0, 0, 0)%Z <= d w)%Q) /\
  buildWignerSeitzVectors kMesh nx d = Ok wsK /\ buildWignerSeitzVectors qMesh nx d = Ok wsQ /\ Dual A B /\
  FullMesh B kMesh (bK D) (kC D) /\ FullMesh B qMesh (bQ D) (qC D) /\
  nE D = zlen wsK /\ elV D = latV A wsK /\ nP D = zlen wsQ /\ phV D = latV A wsQ.
(** rotations without disentanglement; the inverse is the inverse *)
Definition GoodGauge (D : bloch) : Prop :=
  bB D = bW D /\ (forall ik, 0 <= ik < bK D -> RowsOrthonormal (bB D) (bW D) (uM D ik)) /\
  (forall ik iq, 0 <= ik < bK D -> 0 <= iq < bQ D -> 0 <= kqI D ik iq < bK D) /\ forall iq, 0 <= iq < bQ D -> LeftInverse (bM D) (phI D iq) (phE D iq).
(** numbers of points and vectors that the division of work can handle *)
Definition Sizes (D : bloch) (size : Z) : Prop := fits (bQ D) size /\ fits (bK D) size /\ fits (nE D) size.
(** threads share each region so that every thread owns complete rows (one thread is a special case) *)
Definition GoodThreads (D : bloch) (sched : Z -> Z -> schedule) : Prop :=
  forall ik iq, 0 <= ik < bK D -> 0 <= iq < bQ D -> Distributes (sched ik iq) (bM D) (bW D) (bB D) /\ Aligned (sched ik iq) (bM D) (bW D) (bB D).
(** what the interpolation computes at points ik, iq of the meshes, between band b1 at k and band b2 at k+q, for mode nu *)
Definition interpolated (D : bloch) (degE degP : Z -> R) (T : tensor5) (ik iq b1 b2 nu : Z) : cplx :=
  elphAmplitude (bW D) (bM D) (nP D) (phV D) degP (asStored D degE T) (kC D ik) (qC D iq) (stateOf D ik b1) (stateOf D (kqI D ik iq) b2) (column (phE D iq) nu).
(** Hamiltonian on the coarse mesh in the Wannier gauge, and the matrices H(R) that Wannier90 makes of it *)
Definition blochH (D : bloch) (en : Z -> Z -> R) (ik m n : Z) : cplx := csumTo (bB D) (fun b => cmul (cscale (en ik b) (uM D ik b m)) (cconj (uM D ik b n))).
Definition wannier90 (D : bloch) (en : Z -> Z -> R) (deg : Z -> R) (r : Z -> Z -> Z -> Z -> cplx) : wannier :=
  {| M_electron.nW := bW D; nR := nE D; brav := elV D; degR := deg; h0R := fun iR m n => csumTo (bK D) (fun ik => cmul (blochH D en ik m n) (cscale (/ IZR (bK D)) (cexpi (- dot3 (kC D ik) (elV D iR))))); rMatrix := r |}.
