(** Vocabulary for the Fourier interpolation of bands. *)
From Coq Require Import Reals QArith.
From Verif Require Import Base M_wigner S_wigner M_complex.
Open Scope Z_scope.

(** A x = b, for square matrices of size n *)
Definition Solves (n : Z) (A : cmat) (x b : Z -> cplx) : Prop := forall i, 0 <= i < n -> csumTo n (fun j => cmul (A i j) (x j)) = b i.
(** x^+ A x *)
Definition quadratic (n : Z) (A : cmat) (x : Z -> cplx) : cplx := csumTo n (fun i => csumTo n (fun j => cmul (cconj (x i)) (cmul (A i j) (x j)))).
Definition PositiveDefinite (n : Z) (A : cmat) : Prop :=
  (forall i j, A i j = cconj (A j i)) /\
  forall x, (exists i, 0 <= i < n /\ x i <> c0) -> snd (quadratic n A x) = 0%R /\ (0 < fst (quadratic n A x))%R.
(** the point k displaced by t along the axis i *)
Definition along (k : vec) (i : Z) (t : R) : vec := fun x => if x =? i then (k x + t)%R else k x.
(** no vector of the superlattice is as short as zero, up to the tolerance *)
Definition separated (g : v3) (d : v3 -> Q) : Prop := forall w, images g (0, 0, 0) w -> w <> (0, 0, 0) -> ((1 # 1000000) <= d w - d (0, 0, 0)%Z)%Q.
(** a band has an energy in the window at some point *)
Definition touches (lo hi : Q) (band : list Q) : Prop := exists x, In x band /\ (lo <= x <= hi)%Q.
(** bands in order of energy at each of the n points *)
Definition ordered (n : nat) (coarse : list (list Q)) : Prop := Forall (fun b => length b = n) coarse /\
  forall a b ba bb p, 0 <= a -> a <= b -> zget coarse a = Some ba -> zget coarse b = Some bb -> (p < n)%nat -> (nth p ba 0 <= nth p bb 0)%Q.
Definition below (lo : Q) (band : list Q) : bool := forallb (fun x => negb (Qle_bool lo x)) band.
Definition above (hi : Q) (band : list Q) : bool := forallb (fun x => negb (Qle_bool x hi)) band.
(** the crystal, the complete mesh of coarse points and the lattice vectors found for it *)
From Verif Require Import S_wannier M_fourier.
Definition FourierSetup (g : v3) (cutoff : Q) (d : v3 -> Q) (ws : list (v3 * Z)) (A B : Z -> vec) (nD : Z) (pts : Z -> vec) : Prop :=
  positive g /\ (1 <= cutoff)%Q /\ compact g d /\ (forall w, (d (0, 0, 0)%Z <= d w)%Q) /\ separated g d /\
  setPositionVectors g cutoff d = Ok ws /\ Dual A B /\ FullMesh B g nD pts.
(** the function sum_m c_m exp(i k.R_m) / n_m has the value e_i at the point k_i *)
Definition passesThrough (pos : Z -> vec) (deg : Z -> R) (nP : Z) (c : Z -> cplx) (pts : Z -> vec) (nD : Z) (e : Z -> R) : Prop :=
  forall i, 0 <= i < nD -> csumTo nP (fun m => cmul (c m) (cscale (/ deg m) (cexpi (dot3 (pts i) (pos m))))) = (e i, 0%R).
(** roughness of a function: sum of weight |c_m|^2 over all lattice vectors but the first *)
Definition roughnessOf (weight : Z -> R) (nP : Z) (c : Z -> cplx) : R :=
  fold_right Rplus 0%R (map (fun m => weight m * (fst (c m) * fst (c m) + snd (c m) * snd (c m)))%R (zrange 1 (nP - 1))).
(** doc/sphinx/source/theory/thEpa.rst: weight of a lattice vector x times as long as the shortest one, with A = B = 3/4 *)
Definition documentedWeight (x : R) : R := ((1 - 3 / 4 * x) ^ 2 + 3 / 4 * x ^ 6)%R.
Definition lengthOf (v : vec) : R := sqrt (v 0%Z * v 0%Z + v 1%Z * v 1%Z + v 2%Z * v 2%Z)%R.
(** r is the smallest of a and of the lengths of the vectors 1 ... n - 1 *)
Definition smallest (pos : Z -> vec) (n : Z) (a r : R) : Prop := (r <= a)%R /\ (forall m, 1 <= m < n -> (r <= lengthOf (pos m))%R) /\
  (r = a \/ exists m, 1 <= m < n /\ r = lengthOf (pos m)).
