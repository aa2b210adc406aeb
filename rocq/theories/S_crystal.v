(** Specification for C146 and C147: crystals and the periodic table *)
From Coq Require Import Reals QArith String Ascii.
From Verif Require Import Base M_points M_particle M_context M_crystal.
Open Scope Z_scope.

(** lattice vectors: the columns of the unit cell *)
Definition a1 (A : rmat) : rvec := RV (vx (m0 A)) (vx (m1 A)) (vx (m2 A)).
Definition a2 (A : rmat) : rvec := RV (vy (m0 A)) (vy (m1 A)) (vy (m2 A)).
Definition a3 (A : rmat) : rvec := RV (vz (m0 A)) (vz (m1 A)) (vz (m2 A)).
Definition vadd (u v : rvec) : rvec := RV (vx u + vx v) (vy u + vy v) (vz u + vz v).
Definition vlin (u v w : rvec) (x : rvec) : rvec := vadd (rscale (vx x) u) (vadd (rscale (vy x) v) (rscale (vz x) w)).
(** the point with crystal coordinates x *)
Definition point (A : rmat) (x : rvec) : rvec := vlin (a1 A) (a2 A) (a3 A) x.
Definition norm2 (v : rvec) : R := rdot v v.
Definition zvec (a b c : Z) : rvec := RV (IZR a) (IZR b) (IZR c).
(** [O] keeps all scalar products *)
Definition isometry (O : rmat) : Prop := forall u v, rdot (rapp O u) (rapp O v) = rdot u v.

(** contract of spglib, for the lattice whose vectors are the columns of [A], atoms at crystal coordinates [xs] and their types: an operation
    x -> W x + w keeps lengths and angles, and takes each atom to an atom of the same type in some cell *)
Definition spgSound (A : rmat) (xs : list rvec) (types : list Z) (ops : list (zrot * rvec)) : Prop :=
  forall W w, In (W, w) ops ->
    (forall u v, rdot (point A (rapp (rotR W) u)) (point A (rapp (rotR W) v)) = rdot (point A u) (point A v)) /\
    forall i x t, zget xs i = Some x -> zget types i = Some t ->
      exists j y n0 n1 n2, zget xs j = Some y /\ zget types j = Some t /\ vadd (rapp (rotR W) x) w = vadd y (zvec n0 n1 n2).

(** value chosen by the user for species s, if there is one *)
Definition chosen (custom : list Q) (s : Z) (natural : Q) : Q :=
  match zget custom s with Some c => if Qltb 0 c then c else natural | None => natural end.
(** the data of one element *)
Definition elementOf (s : str) (e : element) : Prop := In e elements /\ symbol e = s.

(** histories of the periodic table *)
Inductive setting := SetMass (s : str) (x : Q) | SetVariance (s : str) (x : Q).
Definition applySetting (t : list element) (o : setting) : res (list element) :=
  match o with SetMass s x => setMass t s x | SetVariance s x => setMassVariance t s x end.
(** last value set for s *)
Fixpoint lastMass (h : list setting) (s : str) (d : Q) : Q :=
  match h with
  | [] => d
  | SetMass s' x :: r => lastMass r s (if streq s' s then x else d)
  | SetVariance _ _ :: r => lastMass r s d
  end.
Fixpoint lastVariance (h : list setting) (s : str) (d : Q) : Q :=
  match h with
  | [] => d
  | SetVariance s' x :: r => lastVariance r s (if streq s' s then x else d)
  | SetMass _ _ :: r => lastVariance r s d
  end.
Definition settingName (o : setting) : str := match o with SetMass s _ | SetVariance s _ => s end.
