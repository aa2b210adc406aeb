(** Model of src/observable/phonon_viscosity.cpp, electron_viscosity.cpp and viscosity_io.cpp. Real numbers: no rounding. One
    calculation (calcRTA repeats it; the relaxons accept only one). *)
From Coq Require Import Reals.
From Verif Require Import Base M_complex M_phonon M_particle M_wte.
Open Scope Z_scope.

Definition tensor4 : Type := Z -> Z -> Z -> Z -> R.
(** rotation * vector *)
Definition rotR (r : Z -> Z -> R) (v : vec) : vec := fun i => (r i 0%Z * v 0%Z + r i 1%Z * v 1%Z + r i 2%Z * v 2%Z)%R.

(** * calcRTA: phonon_viscosity.cpp:19-80, electron_viscosity.cpp:24-78 *)
(** an irreducible state: energy, wavevector, velocity, n(n+1) or f(1-f) (getPopPopPm1), relaxation time, whether its index is in
    excludeIndices, rotations of its star *)
Record vState := { sEn : R; sQ : vec; sV : vec; sPop : R; sTau : R; sExcl : bool; sRots : list (Z -> Z -> R) }.
(** phonons l.41-47, [cut] = 0.001 / ryToCmm1; electrons skip nothing *)
Definition skipPh (cut : R) (s : vState) : bool := sExcl s || rltb (sEn s) cut.
Definition skipEl (s : vState) : bool := false.
(** phonons l.52-76, electrons l.50-74; [ws]: Points::bzToWs (see C54) *)
Definition rtaState (ws : vec -> vec) (skip : vState -> bool) (kBT norm : R) (s : vState) : tensor4 := fun i j k l =>
  if skip s then 0%R else
  rsum (map (fun r => let q := ws (rotR r (sQ s)) in let v := rotR r (sV s) in (q i * v j * q k * v l * sPop s * sTau s / kBT * norm)%R) (sRots s)).
(** l.34-79: private copies of the threads of each process are added, then those of the processes. [ranks]: chunks of states of the
    threads of each process *)
Definition rtaTensor ws skip (kBT norm : R) (ranks : list (list (list vState))) : tensor4 := fun i j k l =>
  rsum (map (fun threads => rsum (map (fun chunk => rsum (map (fun s => rtaState ws skip kBT norm s i j k l) chunk)) threads)) ranks).
(** phonons l.21-22; electrons l.26-27 *)
Definition phononRTA ws (cut kBT numPoints volume : R) := rtaTensor ws (skipPh cut) kBT (1 / numPoints / volume)%R.
Definition electronRTA ws (spin kBT numPoints volume : R) := rtaTensor ws skipEl kBT (spin / numPoints / volume)%R.

(** * viscosity_io.cpp:62-196 genericCalcSpecialEigenvectors *)
(** all states 0 ... vn-1: energies, populations getPopPopPm1, wavevectors folded by bzToWs, velocities *)
Record system := { vn : Z; vEn : Z -> R; vPop : Z -> R; vK : Z -> vec; vVel : Z -> vec }.
(** settings: particle, cutoff 0.001 / ryToCmm1, spinFactor, volume, number of points, kBT, T = kBT / kB, chemical potential *)
Record setting := { gPh : bool; gCut : R; gSpin : R; gVol : R; gN : R; gkBT : R; gT : R; gMu : R }.
(** l.120, 153, 170 *)
Definition acoustic (g : setting) (S : system) (is : Z) : bool := gPh g && rltb (vEn S is) (gCut g).
(** each process fills the entries of its states in a vector of zeros, allReduceSum (trusted) adds the vectors *)
Definition gather (ranks : list (list Z)) (f : Z -> R) (is : Z) : R := rsum (map (fun mine => rsum (map (fun j => if j =? is then f j else 0%R) mine)) ranks).
Definition reduce (ranks : list (list Z)) (f : Z -> R) : R := rsum (map (fun mine => rsum (map f mine)) ranks).
(** l.128-137 *)
Definition specialC (g : setting) (S : system) (ranks : list (list Z)) : R :=
  (reduce ranks (fun is => if acoustic g S is then 0 else vPop S is * (vEn S is - gMu g) * (vEn S is - gMu g)) * (gSpin g / (gVol g * gN g * gkBT g * gT g)))%R.
(** l.117-123, 131, 138 *)
Definition theta0 (g : setting) (S : system) (ranks : list (list Z)) (is : Z) : option R :=
  omap (fun s => gather ranks (fun is => if acoustic g S is then 0 else sqrt (vPop S is) * (vEn S is - gMu g) * sqrt (gSpin g))%R is * s)%R
    (fdiv 1 (sqrt (gkBT g * gT g * gVol g * gN g * specialC g S ranks))).
(** l.124-127, 134, 139-141 *)
Definition specialU (g : setting) (S : system) (ranks : list (list Z)) : R :=
  if gPh g then 1%R else (reduce ranks (vPop S) * (gSpin g / (gVol g * gN g * gkBT g)))%R.
Definition thetaE (g : setting) (S : system) (ranks : list (list Z)) (is : Z) : option R :=
  omap (fun s => gather ranks (fun is => if gPh g then 0 else sqrt (vPop S is) * sqrt (gSpin g))%R is * s)%R
    (fdiv 1 (sqrt (gkBT g * specialU g S ranks * gN g * gVol g))).
(** l.147-162 *)
Definition specialA (g : setting) (S : system) (ranks : list (list Z)) (i : Z) : R :=
  (reduce ranks (fun is => if acoustic g S is then 0 else vPop S is * vK S is i * vK S is i) * (gSpin g / (gkBT g * gN g * gVol g)))%R.
(** l.166-183 *)
Definition phi (g : setting) (S : system) (ranks : list (list Z)) (i is : Z) : option R :=
  omap (fun s => gather ranks (fun is => if acoustic g S is then 0 else vK S is i * sqrt (vPop S is) * sqrt (gSpin g))%R is * s)%R
    (fdiv 1 (sqrt (gkBT g * gVol g * gN g * specialA g S ranks i))).

(** * viscosity_io.cpp:9-59 genericRelaxonEigenvectorsCheck *)
(** [locals]: elements (state, relaxon) of the matrix of eigenvectors of each process. l.18-31: scalar products; a relaxon beyond
    [nr] is written out of the vector *)
Definition overlaps (nr : Z) (locals : list (list (Z * Z))) (vecs : Z -> Z -> R) (theta : Z -> R) : res (list R) :=
  if forallb (fun p => (snd p <? nr)) (concat locals) then
    Ok (map (fun gm => Rabs (rsum (map (fun mine => rsum (map (fun p => if snd p =? gm then vecs (fst p) (snd p) * theta (fst p) else 0)%R mine)) locals))) (zrange 0 nr))
  else UB.
(** l.34 Eigen's maxCoeff: first largest element and its index *)
Fixpoint maxFrom (i : Z) (best : R) (ib : Z) (l : list R) : R * Z :=
  match l with [] => (best, ib) | x :: r => if rltb best x then maxFrom (i + 1) x i r else maxFrom (i + 1) best ib r end.
Definition maxCoeff (l : list R) : res (R * Z) := match l with [] => UB | x :: r => Ok (maxFrom 1 x 0 r) end.
(** l.42: the head process prints elements 0 ... 9; l.56: threshold 0.75, -1 otherwise (phonon_viscosity.h:67). The comparison is made
    on a float, here a real number *)
Definition findSpecial (nr : Z) (locals : list (list (Z * Z))) (vecs : Z -> Z -> R) (theta : Z -> R) : res Z :=
  do prod <- overlaps nr locals vecs theta ;
  do m <- maxCoeff prod ;
  if nr <? 10 then UB else
  Ok (if rleb (3 / 4) (fst m) then snd m else -1).

(** * phonon_viscosity.cpp:82-209 calcFromRelaxons; the eigenvectors phi and A are numbers *)
(** l.129-173: w(i, j, alpha); a process adds the elements it owns *)
Definition wRelax (nr : Z) (locals : list (list (Z * Z))) (S : system) (ph : Z -> Z -> R) (vecs : Z -> Z -> R) (i j alpha : Z) : R :=
  rsum (map (fun mine => rsum (map (fun p => if snd p <? nr then if snd p =? alpha then (ph j (fst p) * vVel S (fst p) i) * vecs (fst p) (snd p) else 0 else 0)%R mine)) locals).
(** l.176-208; [shares]: relaxons of each process (divideWorkIter) *)
Definition phononRelaxons (numCalc nr : Z) (locals : list (list (Z * Z))) (shares : list (list Z)) (S : system) (ph : Z -> Z -> R) (A : Z -> R)
    (vecs : Z -> Z -> R) (lam : Z -> R) (alpha0 : Z) : res tensor4 :=
  if 1 <? numCalc then Err else
  Ok (fun i j k l => rsum (map (fun mine => rsum (map (fun al =>
    if rleb (lam al) 0 then 0 else if al =? alpha0 then 0 else
    let w := fun i j => wRelax nr locals S ph vecs i j al in
    1 / 2 * (w i j * w k l + w i l * w k j) * sqrt (A i * A k) / lam al)%R mine)) shares)).

(** * electron_viscosity.cpp:80-187 calcFromRelaxons *)
(** l.121, 149: eigenvalues(alpha) is read before the test of alpha *)
Definition relaxonRead (nr : Z) (lam : Z -> R) (alpha0 alphaE : Z) (p : Z * Z) : res bool :=
  if nr <=? snd p then UB else Ok (negb (rleb (lam (snd p)) 0) && negb (snd p =? alpha0) && negb (snd p =? alphaE)).
(** l.113-142; [used]: elements of each process, with the outcome of these tests *)
Definition fRelaxons (kBT : R) (S : system) (vecs : Z -> Z -> R) (lam : Z -> R) (used : list (list ((Z * Z) * bool))) (k l al : Z) : R :=
  rsum (map (fun own => rsum (map (fun pu => let '((is, a), u) := (pu : (Z * Z) * bool) in
    if u then if a =? al then vK S is k * vVel S is l * sqrt (vPop S is) / kBT / lam a * vecs is a else 0 else 0)%R own)) used).
(** l.145-160 *)
Definition fStates (vecs : Z -> Z -> R) (fR : Z -> Z -> Z -> R) (used : list (list ((Z * Z) * bool))) (i j is : Z) : R :=
  rsum (map (fun own => rsum (map (fun pu => let '((s, a), u) := (pu : (Z * Z) * bool) in
    if u then if s =? is then vecs s a * fR i j a else 0 else 0)%R own)) used).
(** l.163-187 *)
Definition electronRelaxons (numCalc nr : Z) (kBT numPoints volume : R) (locals : list (list (Z * Z))) (mine : list (list Z)) (S : system)
    (vecs : Z -> Z -> R) (lam : Z -> R) (alpha0 alphaE : Z) : res tensor4 :=
  if 1 <? numCalc then Err else
  do used <- mapM (fun own => mapM (fun p => do u <- relaxonRead nr lam alpha0 alphaE p ; Ok (p, u)) own) locals ;
  let f := fStates vecs (fRelaxons kBT S vecs lam used) used in
  let norm := (1 / volume / numPoints)%R in
  Ok (fun i j k l => rsum (map (fun own => rsum (map (fun is =>
    1 / 2 * vPop S is * norm * sqrt (vPop S is) * (vK S is i * vVel S is j * f k l is + vK S is i * vVel S is l * f k j is))%R own)) mine)).

(** * viscosity_io.cpp:314-376 genericOutputRealSpaceToJSON: Du, Wji0 *)
Definition Du (locals : list (list (Z * Z))) (ph : Z -> Z -> R) (D : Z -> Z -> R) (i j : Z) : R :=
  rsum (map (fun own => rsum (map (fun p => ph i (fst p) * D (fst p) (snd p) * ph j (snd p))%R own)) locals).
Definition Wji0 (g : setting) (S : system) (ranks : list (list Z)) (ph : Z -> Z -> R) (th : Z -> R) (j i : Z) : R :=
  reduce ranks (fun is => if acoustic g S is then 0 else ph i is * vVel S is j * th is)%R.
