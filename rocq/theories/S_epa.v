(** Vocabulary for the EPA approximation. *)
From Coq Require Import QArith Qabs Permutation.
From Verif Require Import Base M_wigner M_epa.
Open Scope Z_scope.

(** energies e0, e0 + b, e0 + 2b, ... *)
Definition uniform (e0 b : Q) (en : list Q) : Prop := (0 < b)%Q /\ 0 < zlen en /\ forall i x, zget en i = Some x -> (x == e0 + inject_Z i * b)%Q.
(** j is the position of an energy of the list closest to x *)
Definition nearest (en : list Q) (x : Q) (j : Z) : Prop :=
  exists ej, zget en j = Some ej /\ forall i ei, zget en i = Some ei -> (Qabs (x - ej) <= Qabs (x - ei))%Q.
(** the bin numbers computed for x fit an int *)
Definition fitsInt (e0 b x : Q) : Prop := (Qabs ((x - e0) / b) <= inject_Z 2147483646)%Q.
(** all terms of the sums for the pair of bins (i, j): a term is (weight, |g|^2, frequency) *)
Definition epaTerms (nB nK : Z) (gauss : Z -> Z -> Z -> Q) (i j nu : Z) (stars : list (list epaQ)) : list (Q * Q * Q) :=
  flat_map (fun star => flat_map (fun ik => flat_map (fun q => flat_map (fun ib2 => map (fun ib1 =>
    ((gauss i ib2 ik * gauss j ib1 (qKq q ik))%Q, qG2 q ib1 ib2 nu ik, qPh q nu)) (zrange 0 nB)) (zrange 0 nB)) star) (zrange 0 nK)) stars.
Definition totalWeight (l : list (Q * Q * Q)) : Q := sumQ (map (fun t => fst (fst t)) l).
(** weighted sum of |g|^2 / (2 omega) *)
Definition totalCoupling (l : list (Q * Q * Q)) : Q := sumQ (map (fun t => fst (fst t) * (snd (fst t) / (2 * snd t)))%Q l).
(** a density of states linear in the energy, on the energies of the grid *)
Definition linearDos (a b : Q) (energies dos : list Q) : Prop := zlen dos = zlen energies /\ forall i e x, zget energies i = Some e -> zget dos i = Some x -> (x == a + b * e)%Q.
(** linear interpolation of a table at energy e of a uniform grid *)
Definition interpolatedAt (energies dos : list Q) (e : Q) (v : Q) : Prop :=
  exists i e1 e2 d1 d2, zget energies i = Some e1 /\ zget energies (i + 1) = Some e2 /\ zget dos i = Some d1 /\ zget dos (i + 1) = Some d2 /\
    (e1 <= e <= e2)%Q /\ (v * (e2 - e1) == d1 * (e2 - e) + d2 * (e - e1))%Q.
(** outside of the range of the energies from which both neighbours can be taken *)
Definition outsideGrid (energies : list Q) (e : Q) : Prop := forall i e1 e2, zget energies i = Some e1 -> zget energies (i + 1) = Some e2 -> ~ (e1 <= e /\ e < e2)%Q.
(** x . T . x *)
Definition quad3 (T : Z -> Z -> Q) (x : Z -> Q) : Q := sumQ (map (fun ij => x (fst ij) * T (fst ij) (snd ij) * x (snd ij))%Q (list_prod (zrange 0 3) (zrange 0 3))).
(** t is the contribution of a mode of frequency w to the rate at energy e, with populations [bose] and [fermi]: absorption and emission, couplings of
    the nearest bins, density of states interpolated at the final energy, none outside of the energies of the grid (first e0, last el) *)
Definition oneTerm (binEn : list Q) (g : Z -> Z -> Z -> Q) (energies dos : list Q) (e0 el norm : Q) (bose : Z -> Q) (fermi : Q -> Q) (e : Q) (nu : Z) (w t : Q) : Prop :=
  exists jE jA jM em ab, nearest binEn e jE /\ nearest binEn (e + w) jA /\ nearest binEn (e - w) jM /\
    ((e0 < e - w)%Q -> interpolatedAt energies dos (e - w) em) /\ ((e - w <= e0)%Q -> (em == 0)%Q) /\
    ((e + w < el)%Q -> interpolatedAt energies dos (e + w) ab) /\ ((el <= e + w)%Q -> (ab == 0)%Q) /\
    (t == norm * (g nu jE jA * (bose nu + fermi (e + w)) * ab + g nu jE jM * (bose nu + 1 - fermi (e - w)) * em))%Q.
(** frequencies not negative, and every bin or step number computed fits an int *)
Definition regularInput (b0 b : Q) (step : Q) (ph energies : list Q) : Prop :=
  forall e w, In e energies -> In w ph -> ((0 <= w)%Q /\ (w / step <= inject_Z 2147483647)%Q) /\ fitsInt b0 b e /\ fitsInt b0 b (e + w) /\ fitsInt b0 b (e - w).
(** the operation P permutes the velocities of every star *)
Definition starsClosed (P : Z -> Z -> Q) (states : list epaState) : Prop :=
  forall s, In s states -> exists rs, Permutation rs (sRot s) /\
    Forall2 (fun r r' => forall i, 0 <= i < 3 -> (rotV P (rotV r (sVel s)) i == rotV r' (sVel s) i)%Q) (sRot s) rs.
