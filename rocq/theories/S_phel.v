From Coq Require Import QArith Qcanon Reals Permutation.
From Verif Require Import Base M_matrix M_scattering M_phel.
Open Scope Z_scope.

Definition positivePart (x : Qc) : Qc := if Qclt_le_dec 0 x then x else 0%Qc.
(** transitions of the electrons of point k that absorb the phonon (q, ib3): sum of g^2 f (1 - f) delta over the two bands *)
Definition absorbed (X : phel) (c q ib3 k : Z) : Qc :=
  qsum (map (fun t => symmetrizeCoupling (enEl X k) (enSum X k q) (enPh X q) (gsq X k q) (fst t) (snd t) ib3 * ffTerm X c k (fst t)
                      * positivePart (smear X k q (fst t) (snd t) ib3))%Qc
    (list_prod (zrange 0 (zlen (enEl X k))) (zrange 0 (zlen (enSum X k q))))).
(** pi / (N T) times a sum over electron points *)
Definition phelRate (X : phel) (c q ib3 : Z) (ks : list (Z * Qc)) : Qc :=
  (piQ X / (Q2Qc (inject_Z (meshSize X)) * temp X c) * qsum (map (fun t => snd t * absorbed X c q ib3 (fst t)) ks))%Qc.
(** all electron points of a set of stars, each once; irreducible ones with the sizes of the stars *)
Definition eachOnce (ks : list Z) : list (Z * Qc) := map (fun k => (k, 1%Qc)) ks.
Definition bySize (X : phel) : list (Z * Qc) := map (fun k => (k, Q2Qc (inject_Z (zlen (stars X k))))) (kIrr X).
(** symmetries: a map of the points that leaves the interaction unchanged when both points are moved *)
Definition symmetricUnder (X : phel) (rot : Z -> Z) : Prop := forall c k q, enEl X (rot k) = enEl X k /\ enSum X (rot k) (rot q) = enSum X k q /\ enPh X (rot q) = enPh X q /\
  (forall ib, ffTerm X c (rot k) ib = ffTerm X c k ib) /\
  (forall ib1 ib2 ib3, gsq X (rot k) (rot q) ib1 ib2 ib3 = gsq X k q ib1 ib2 ib3 /\ smear X (rot k) (rot q) ib1 ib2 ib3 = smear X k q ib1 ib2 ib3).
(** the stars are made of images of their first points and cover all points once *)
Definition starsUnder (X : phel) (rots : list (Z -> Z)) (all : list Z) : Prop :=
  Permutation (flat_map (stars X) (kIrr X)) all /\ forall k k', In k (kIrr X) -> In k' (stars X k) -> exists rot, In rot rots /\ k' = rot k.
