(** Long range part, threads, disentangled bands, offset of the bands. *)
From Coq Require Import Reals QArith Permutation.
From Verif Require Import Base BaseLemmas M_utilities L_utilities M_mpi S_mpi L_mpi M_wigner S_wigner L_wigner M_complex L_complex L_dft M_electron S_electron M_interaction S_interaction M_wannier S_wannier L_wannier L_wannier2 L_wannier3 L_wannier4.
From Coq Require Import Lia Lra.
Open Scope Z_scope.

(** * Long range part *)
Section Polar.
Variables (D : bloch) (g : tensor5) (x : Z -> Z -> cplx) (A B : Z -> vec) (kMesh qMesh : v3) (nx : Z) (d : v3 -> Q) (wsK wsQ : list (v3 * Z)).
Hypothesis (HG : CoarseGrids D A B kMesh qMesh nx d wsK wsQ).
Definition ov (ik iq b1 b2 : Z) : cplx := overlap (bW D) (stateOf D (kqI D ik iq) b2) (stateOf D ik b1).
Lemma polar_conj ik iq b1 b2 nu : polarBloch (bW D) (uM D ik) (uM D (kqI D ik iq)) (x iq) b1 b2 nu = cmul (x iq nu) (cconj (ov ik iq b1 b2)).
Proof. unfold polarBloch, ov, overlap, stateOf, adjoint. rewrite csumTo_conj. f_equal. apply csumTo_ext. intros w _. rewrite !conj_mul, !conj_conj. reflexivity. Qed.
Lemma distributed_total sched size : GoodGauge D -> Sizes D size -> GoodThreads D sched -> exists T, blochToWannier D sched size (subtractDistributed D x g) = Ok T /\
  forall ik iq b1 b2 nu, 0 <= ik < bK D -> 0 <= iq < bQ D -> 0 <= b1 < bB D -> 0 <= b2 < bB D -> 0 <= nu < bM D -> awayFromGamma (qC D iq) = true ->
    cadd (interpolated D (latDeg wsK) (latDeg wsQ) T ik iq b1 b2 nu) (cmul (x iq nu) (ov ik iq b1 b2)) =
    cadd (g b2 b1 nu ik iq) (cmul (x iq nu) (csub (ov ik iq b1 b2) (cconj (ov ik iq b1 b2)))).
Proof.
  intros G1 S1 T1. destruct (round_trip D (subtractDistributed D x g) A B kMesh qMesh nx d wsK wsQ HG sched size G1 S1 T1) as (T & ET & HT). exists T. split; [exact ET|]. intros ik iq b1 b2 nu Hk Hq H1 H2 Hn Aw.
  rewrite HT by assumption. unfold subtractDistributed. rewrite Aw, polar_conj. ring.
Qed.
Lemma at_once_total sched size : GoodGauge D -> Sizes D size -> GoodThreads D sched -> exists g' T, subtractAtOnce D x g = Ok g' /\ blochToWannier D sched size g' = Ok T /\
  forall ik iq b1 b2 nu, 0 <= ik < bK D -> 0 <= iq < bQ D -> 0 <= b1 < bB D -> 0 <= b2 < bB D -> 0 <= nu < bM D -> awayFromGamma (qC D iq) = true ->
    cadd (interpolated D (latDeg wsK) (latDeg wsQ) T ik iq b1 b2 nu) (cmul (x iq nu) (ov ik iq b1 b2)) =
    cadd (g b2 b1 nu ik iq) (cmul (x iq nu) (csub (ov ik iq b1 b2) (cconj (ov ik iq b2 b1)))).
Proof.
  intros G1 S1 T1. unfold subtractAtOnce. replace (bW D <? bB D) with false by (destruct G1 as (-> & _); lia).
  match goal with |- exists g' T, Ok ?h = _ /\ _ => exists h; destruct (round_trip D h A B kMesh qMesh nx d wsK wsQ HG sched size G1 S1 T1) as (T & ET & HT) end.
  exists T. split; [reflexivity|]. split; [exact ET|]. intros ik iq b1 b2 nu Hk Hq H1 H2 Hn Aw.
  rewrite HT by assumption. rewrite Aw, polar_conj. ring.
Qed.
End Polar.

(** * Threads *)
Definition swap2 : cmat := fun i j => if i + j =? 1 then c1 else c0.
Lemma swap2_rows : RowsOrthonormal 2 2 swap2.
Proof.
  intros a b Ha Hb. assert (a = 0 \/ a = 1) as [-> | ->] by lia; assert (b = 0 \/ b = 1) as [-> | ->] by lia; unfold csumTo, swap2; change (zrange 0 2) with [0; 1]; cbn [map csum fold_right Z.eqb Pos.eqb Z.add Pos.add]; cring.
Qed.
Lemma four_threads uKq g : rotateRegion (staticSchedule 4 3 2 2) uKq swap2 g 1 0 0 = c0.
Proof.
  unfold rotateRegion. let s := eval vm_compute in (staticSchedule 4 3 2 2) in change (staticSchedule 4 3 2 2) with s.
  cbn [map fst snd]. rewrite !second_sum. cbn [map hits Z.eqb Pos.eqb andb]. rewrite !first_sum. cbn [map hits Z.eqb Pos.eqb andb]. unfold swap2. cbn [Z.add Z.eqb Pos.eqb Pos.add csum fold_right]. cring.
Qed.

(** * Rotations *)
Lemma csumTo_delta_l n f a : 0 <= a < n -> csumTo n (fun i => cmul (f i) (if a =? i then c1 else c0)) = f a.
Proof. intro H. rewrite <- (csumTo_delta n f a H). apply csumTo_ext. intros i _. rewrite Z.eqb_sym. reflexivity. Qed.
Lemma product_columns nB nW a b : ColumnsOrthonormal nB nW a -> ColumnsOrthonormal nW nW b -> ColumnsOrthonormal nB nW (rotationProduct nW a b).
Proof.
  intros Ha Hb m n Hm Hn. rewrite <- (Hb m n Hm Hn). unfold rotationProduct.
  transitivity (csumTo nW (fun k => csumTo nW (fun k' => cmul (cmul (cconj (b k m)) (b k' n)) (csumTo nB (fun i => cmul (cconj (a i k)) (a i k')))))).
  - transitivity (csumTo nB (fun i => csumTo nW (fun k => csumTo nW (fun k' => cmul (cmul (cconj (b k m)) (b k' n)) (cmul (cconj (a i k)) (a i k')))))).
    + apply csumTo_ext. intros i _. rewrite csumTo_conj, <- csumTo_mul_r. apply csumTo_ext. intros k _. rewrite <- csumTo_mul_l. apply csumTo_ext. intros k' _. rewrite conj_mul. ring.
    + rewrite csumTo_swap. apply csumTo_ext. intros k _. rewrite csumTo_swap. apply csumTo_ext. intros k' _. apply csumTo_mul_l.
  - apply csumTo_ext. intros k Hk. rewrite <- (csumTo_delta_l nW (fun k' => cmul (cconj (b k m)) (b k' n)) k Hk). apply csumTo_ext. intros k' Hk'. rewrite (Ha k k' Hk Hk'). reflexivity.
Qed.
Lemma product_rows nB nW a b : RowsOrthonormal nB nW a -> RowsOrthonormal nW nW b -> RowsOrthonormal nB nW (rotationProduct nW a b).
Proof.
  intros Ha Hb m n Hm Hn. rewrite <- (Ha m n Hm Hn). unfold rotationProduct.
  transitivity (csumTo nW (fun k => csumTo nW (fun k' => cmul (cmul (a m k) (cconj (a n k'))) (csumTo nW (fun w => cmul (b k w) (cconj (b k' w))))))).
  - transitivity (csumTo nW (fun w => csumTo nW (fun k => csumTo nW (fun k' => cmul (cmul (a m k) (cconj (a n k'))) (cmul (b k w) (cconj (b k' w))))))).
    + apply csumTo_ext. intros w _. rewrite csumTo_conj, <- csumTo_mul_r. apply csumTo_ext. intros k _. rewrite <- csumTo_mul_l. apply csumTo_ext. intros k' _. rewrite conj_mul. ring.
    + rewrite csumTo_swap. apply csumTo_ext. intros k _. rewrite csumTo_swap. apply csumTo_ext. intros k' _. apply csumTo_mul_l.
  - apply csumTo_ext. intros k Hk. rewrite <- (csumTo_delta_l nW (fun k' => cmul (a m k) (cconj (a n k'))) k Hk). apply csumTo_ext. intros k' Hk'. rewrite (Hb k k' Hk Hk'). reflexivity.
Qed.

(** * A crystal for the examples: mesh (2, 1, 1) for electrons and phonons, two bands, six modes *)
Definition exA (i : Z) : vec := fun x => if x =? i then 1%R else 0%R.
Definition exB (i : Z) : vec := fun x => if x =? i then (2 * PI)%R else 0%R.
Definition exWs : list (v3 * Z) := [((0, 0, 0), 1); ((-1, 0, 0), 2); ((1, 0, 0), 2)].
Definition exPts (i : Z) : vec := meshPoint exB (2, 1, 1) (i, 0, 0).
Definition exD (nB : Z) (u : Z -> cmat) : bloch :=
  {| bB := nB; bW := nB; bM := 6; bK := 2; bQ := 2; kC := exPts; qC := exPts; kqI := fun ik iq => (ik + iq) mod 2; uM := u; phE := fun _ => idMat; phI := fun _ => idMat;
     nE := 3; elV := latV exA exWs; nP := 3; phV := latV exA exWs |}.
Lemma ex_dual : Dual exA exB.
Proof.
  intros i j Hi Hj. assert (i = 0 \/ i = 1 \/ i = 2) as [-> | [-> | ->]] by lia; assert (j = 0 \/ j = 1 \/ j = 2) as [-> | [-> | ->]] by lia; unfold dot3, exA, exB; cbn [Z.eqb Pos.eqb]; lra.
Qed.
Lemma ex_mesh : FullMesh exB (2, 1, 1) 2 exPts.
Proof.
  split; [reflexivity|]. exists (fun i => (i, 0, 0)). split; [|split].
  - intros i Hi. lia.
  - intros i j _ _ E. injection E as ->. reflexivity.
  - reflexivity.
Qed.
Lemma ex_grids nB u : CoarseGrids (exD nB u) exA exB (2, 1, 1) (2, 1, 1) 1 d1 exWs exWs.
Proof.
  split; [cbn [positive]; lia|]. split; [cbn [positive]; lia|]. split; [lia|]. split; [exact d1_compact|]. split; [exact d1_compact|]. split; [exact d1_origin|].
  split; [vm_compute; reflexivity|]. split; [vm_compute; reflexivity|]. split; [exact ex_dual|]. split; [exact ex_mesh|]. split; [exact ex_mesh|]. repeat split.
Qed.
Lemma id_rows n : RowsOrthonormal n n idMat.
Proof.
  intros a b Ha Hb. transitivity (idMat a b); [|reflexivity]. rewrite <- (csumTo_delta n (fun w => idMat a w) b Hb). apply csumTo_ext. intros w _. unfold idMat. rewrite (Z.eqb_sym w b). destruct (a =? w), (b =? w); cring.
Qed.
Lemma id_inverse n : LeftInverse n idMat idMat.
Proof. intros a b Ha Hb. transitivity (idMat a b); [|reflexivity]. rewrite <- (csumTo_delta n (fun w => idMat a w) b Hb). apply csumTo_ext. intros w _. unfold idMat. reflexivity. Qed.
Lemma ex_gauge nB u : (forall ik, 0 <= ik < 2 -> RowsOrthonormal nB nB (u ik)) -> GoodGauge (exD nB u).
Proof.
  intro H. split; [reflexivity|]. split; [exact H|]. split; [|intros; apply id_inverse]. intros ik iq _ _. cbn [exD kqI bK]. apply Z.mod_pos_bound. lia.
Qed.
Lemma ex_sizes nB u : Sizes (exD nB u) 2.
Proof. unfold Sizes, fits. cbn [exD bQ bK nE]. lia. Qed.
Lemma ex_threads nB u : 0 <= nB -> GoodThreads (exD nB u) (fun _ _ => staticSchedule 3 6 nB nB).
Proof. intros Hn ik iq _ _. cbn [exD bM bW bB]. split; [apply static_distributes; lia|apply static_aligned; try lia]. exists (2 * nB). ring. Qed.
