(** What is expected of viscosities and of the special eigenvectors, without reference to the loops of the code. *)
From Coq Require Import Reals Permutation.
From Verif Require Import Base M_complex M_phonon M_particle M_wte S_wte M_visc.
Open Scope Z_scope.

(** all states of the full zone: an irreducible state and a rotation of its star *)
Definition zoneStates (keep : vState -> bool) (ranks : list (list (list vState))) : list (vState * (Z -> Z -> R)) :=
  flat_map (fun s => map (fun r => (s, r)) (sRots s)) (filter keep (concat (concat ranks))).
(** a vector times a matrix *)
Definition image (r : Z -> Z -> R) (v : vec) : vec := fun i => over3 (fun c => r i c * v c)%R.
(** flux of momentum i along j carried by a state *)
Definition flux (ws : vec -> vec) (sr : vState * (Z -> Z -> R)) (i j : Z) : R := (ws (image (snd sr) (sQ (fst sr))) i * image (snd sr) (sV (fst sr)) j)%R.
(** sum over all pairs of directions *)
Definition form4 (t : tensor4) (x : Z -> Z -> R) : R := over3 (fun i => over3 (fun j => over3 (fun k => over3 (fun l => x i j * t i j k l * x k l)%R))).
(** a tensor in a rotated frame *)
Definition frame4 (P : Z -> Z -> R) (t : tensor4) : tensor4 := fun i j k l =>
  over3 (fun a => over3 (fun b => over3 (fun c => over3 (fun d => P i a * P j b * P k c * P l d * t a b c d)%R))).
Definition inDir (i : Z) : Prop := 0 <= i < 3.
(** sums over states *)
Definition total (n : Z) (f : Z -> R) : R := rsum (map f (zrange 0 n)).
Definition orthonormal (n : Z) (vecs : Z -> Z -> R) : Prop :=
  forall a b, 0 <= a < n -> 0 <= b < n -> total n (fun is => vecs is a * vecs is b)%R = if a =? b then 1%R else 0%R.
(** absolute value of the scalar product of a relaxon with a vector *)
Definition overlap (n : Z) (vecs : Z -> Z -> R) (theta : Z -> R) (a : Z) : R := Rabs (total n (fun is => vecs is a * theta is)%R).
(** each element of a n x n matrix belongs to one process; each of n states does *)
Definition ownedPairs (n : Z) (locals : list (list (Z * Z))) : Prop := Permutation (concat locals) (list_prod (zrange 0 n) (zrange 0 n)).
Definition ownedStates (n : Z) (ranks : list (list Z)) : Prop := Permutation (concat ranks) (zrange 0 n).
(** the eigenvectors of a diagonal collision matrix *)
Definition diagonalVecs (is al : Z) : R := if is =? al then 1%R else 0%R.
(** the viscosity of states with relaxation times tau, full zone *)
Definition zoneViscosity (S : system) (kBT norm : R) (tau : Z -> R) : tensor4 := fun i j k l =>
  total (vn S) (fun is => vK S is i * vVel S is j * vK S is k * vVel S is l * vPop S is * tau is / kBT * norm)%R.
(** state b is the image of state a under the matrix P *)
Definition Rotated (ws : vec -> vec) (P : Z -> Z -> R) (a b : vState * (Z -> Z -> R)) : Prop :=
  (sPop (fst a) * sTau (fst a) = sPop (fst b) * sTau (fst b))%R /\
  forall i, inDir i -> ws (image (snd b) (sQ (fst b))) i = over3 (fun c => P i c * ws (image (snd a) (sQ (fst a))) c)%R /\
                       image (snd b) (sV (fst b)) i = over3 (fun c => P i c * image (snd a) (sV (fst a)) c)%R.

(** settings and states of a calculation: positive temperature, volume, number of points and spin degeneracy; no negative n(n+1) or f(1-f) *)
Definition physical (g : setting) (S : system) : Prop :=
  (0 < gSpin g)%R /\ (0 < gkBT g)%R /\ (0 < gT g)%R /\ (0 < gVol g)%R /\ (0 < gN g)%R /\ forall is, 0 <= is < vn S -> (0 <= vPop S is)%R.
(** a vector of norm one, proportional to sqrt(n(n+1)) f on the states that count *)
Definition unitAlong (g : setting) (S : system) (f th : Z -> R) : Prop :=
  total (vn S) (fun is => th is * th is)%R = 1%R /\
  exists c, (0 < c)%R /\ forall is, 0 <= is < vn S -> th is = if gPh g && rltb (vEn S is) (gCut g) then 0%R else (c * (sqrt (vPop S is) * f is))%R.
