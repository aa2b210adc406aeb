(** Model of scattering of phonons by isotopes: src/bte/ph_scattering.cpp:22-43, 616-710. Doubles are real numbers. The addition of the
    rates to the matrix and to the linewidths is in M_scattering (isotopeEvent); here is the rate itself. *)
From Coq Require Import Reals.
From Verif Require Import Base M_complex M_particle M_delta.
Open Scope Z_scope.

(** l.29-39: couplings and masses of the atoms; the sizes are compared with the number of atoms *)
Definition massVariance (nAtoms : Z) (couplings masses : list R) : res (list R) :=
  if negb (zlen masses =? zlen couplings) || negb (zlen masses =? nAtoms) then Err else
  Ok (map (fun p => (fst p * (snd p * snd p))%R) (combine couplings masses)).

(** kinds of smearing; the tetrahedra of band 2 give the weight at energy 1 *)
Inductive smearingKind := Gaussian (width : R) | Adaptive (q0 q1 q2 : M_delta.vec) (cutoff : R) | Tetrahedra.
(** a state: energy, velocity, energies of the band at the corners of the cell, eigenvector (Cartesian index, atom) *)
Record mode := { mEn : R; mVel : M_delta.vec; mCell : Z -> R; mEv : Z -> Z -> cplx }.
(** l.685-694: the first of the two adaptive values is overwritten by the second *)
Definition deltaIso (k : smearingKind) (s1 s2 : mode) : R :=
  match k with
  | Gaussian width => gaussianSmearing width (mEn s1 - mEn s2)
  | Adaptive q0 q1 q2 cutoff => adaptiveSmearing q0 q1 q2 cutoff (mEn s1 - mEn s2) (mVel s1) * (1 / 2)
  | Tetrahedra => tetraSmearing (mCell s2) (mEn s1)
  end%R.
(** l.696-703 *)
Definition overlap (ev1 ev2 : Z -> Z -> cplx) (iat : Z) : cplx := csumTo 3 (fun k => cmul (cconj (ev1 k iat)) (ev2 k iat)).
Definition isoStrength (mv : list R) (ev1 ev2 : Z -> Z -> cplx) : R :=
  rsum (map (fun p => (cnorm2 (overlap ev1 ev2 (fst p)) * snd p)%R) (combine (zrange 0 (zlen mv)) mv)).
(** l.704, 707-712; [norm] = 1 / number of points *)
Definition isoRate (mv : list R) (k : smearingKind) (norm : R) (n1 n2 : R) (s1 s2 : mode) : R :=
  (isoStrength mv (mEv s1) (mEv s2) * (PI * (1 / 2) * norm * mEn s1 * mEn s2 * deltaIso k s1 s2) * (n1 * n2 + 1 / 2 * (n1 + n2)))%R.
