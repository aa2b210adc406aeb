(** C49: Wigner-Seitz vectors. *)
From Coq Require Import QArith.
From Verif Require Import Base M_wigner S_wigner L_wigner.
Open Scope Z_scope.

(** C49: for every supercell g, search size nx >= 1 and length d for which the shortest images do not reach beyond the
    neighbouring supercells: no error; the origin comes first; the vectors returned are exactly the translations as short as
    their images (up to the tolerance), once each; every translation t is represented, the weights of its images add up to 1,
    and the total weight is the number of cells. [sel] = any decision of "image of t". Lengths are exact. *)
Theorem C49_weights g nx d : positive g -> 1 <= nx -> compact g d -> (forall w, (d (0, 0, 0)%Z <= d w)%Q) ->
  exists n r, buildWignerSeitzVectors g nx d = Ok (((0, 0, 0), n) :: r) /\
    let out := ((0, 0, 0), n) :: r in
    NoDup (map fst out) /\ (forall v, In v (map fst out) <-> shortest g d v) /\
    (forall t, (exists v, In v (map fst out) /\ images g t v) /\
       forall sel, (forall v, sel v = true <-> images g t v) -> (sumQ (map weight (filter (fun x => sel (fst x)) out)) == 1)%Q) /\
    (sumQ (map weight out) == inject_Z (cells g))%Q.
Proof. exact (build_weights g nx d). Qed.
Example C49_ex : positive (2, 1, 1) /\ compact (2, 1, 1) d1 /\ (forall w, (d1 (0, 0, 0)%Z <= d1 w)%Q) /\
  buildWignerSeitzVectors (2, 1, 1) 1 d1 = Ok [((0, 0, 0), 1); ((-1, 0, 0), 2); ((1, 0, 0), 2)].
Proof. split; [cbn [positive]; lia|]. split; [exact d1_compact|]. split; [exact d1_origin|]. vm_compute. reflexivity. Qed.

(** finding (crystal.cpp:574-592): the version with shifts collects a vector when it is ALREADY in the list, so it stops with an
    error on supercells of more than one cell: the weights it stores do not add up. *)
Theorem C49_withShift_refuted : exists g d, positive g /\ compact g d /\ (forall w, (d (0, 0, 0)%Z <= d w)%Q) /\
  buildWithShift g 1 1 (fun _ _ => d) = Err.
Proof. exists (2, 1, 1), d1. split; [cbn [positive]; lia|]. split; [exact d1_compact|]. split; [exact d1_origin|exact shift_err]. Qed.

Print Assumptions C49_weights.
Print Assumptions C49_withShift_refuted.
