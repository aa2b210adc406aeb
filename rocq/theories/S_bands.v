(** Specification of state numbering and windows. *)
From Coq Require Import QArith.
From Verif Require Import Base M_utilities M_mpi M_reduce M_points M_irreducible S_points M_bands.
Open Scope Z_scope.

(** (ik, ib) is a state: wavevector ik exists and has more than ib bands *)
Definition isState (nb : list Z) (ik ib : Z) : Prop := exists n, zget nb ik = Some n /\ 0 <= ib < n.
(** number of bands at wavevector k *)
Definition bandsAt (nb : list Z) (k : Z) : Z := match zget nb k with Some n => n | None => 0 end.
(** number of slots *)
Definition total (f : Z -> Z) (nb : list Z) : Z := zsum (map f nb).

(** tables of irreducible points: [irr] lists them, [red2irr] gives the position in [irr] of the
    representative of every point *)
Definition indexMaps (irr red2irr : list Z) (n : Z) : Prop :=
  0 < zlen irr /\
  (forall i, 0 <= i < zlen irr -> exists ik, zget irr i = Some ik /\ 0 <= ik < n /\ zget red2irr ik = Some i) /\
  (forall ik, 0 <= ik < n -> exists i, zget red2irr ik = Some i /\ 0 <= i < zlen irr).

(** the representative of ik *)
Definition representative (irr red2irr : list Z) (ik e : Z) : Prop :=
  exists i, zget red2irr ik = Some i /\ zget irr i = Some e.

(** Result of a window: the first and last kept band, and the energies of the kept bands *)
Definition windowResult {E} (kept : E -> Prop) (energies : list E) (out : list E * list Z) : Prop :=
  (fst out = [] <-> forall i e, zget energies i = Some e -> ~ kept e) /\
  (fst out = [] -> snd out = []) /\
  (fst out <> [] -> exists a b ea eb, snd out = [a; b] /\ zget energies a = Some ea /\ kept ea /\
      zget energies b = Some eb /\ kept eb /\
      forall i e, zget energies i = Some e -> kept e -> a <= i <= b) /\
  (** the returned energies are those of the kept bands, in order *)
  exists idx, (forall i, In i idx <-> exists e, zget energies i = Some e /\ kept e) /\
    increasing idx /\
    map (@Some E) (fst out) = map (zget energies) idx.

(** What a window keeps of a wavevector: whether it keeps something, the first and the last band *)
Definition keeps {E} (apply : Z -> list E * list Z) (ik : Z) : bool := match fst (apply ik) with [] => false | _ => true end.
Definition firstBand {E} (apply : Z -> list E * list Z) (ik : Z) : Z := nth 0 (snd (apply ik)) 0.
Definition lastBand {E} (apply : Z -> list E * list Z) (ik : Z) : Z := nth 1 (snd (apply ik)) 0.
