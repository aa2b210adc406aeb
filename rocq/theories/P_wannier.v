(** Properties C101-C107: from the couplings of the ab initio code to the Wannier representation. *)
From Coq Require Import Reals QArith Permutation.
From Verif Require Import Base BaseLemmas M_utilities M_mpi S_mpi L_mpi M_wigner S_wigner M_complex L_complex M_electron S_electron M_interaction S_interaction M_wannier S_wannier L_wannier2 L_wannier3 L_wannier4 L_wannier5 L_wannier6.
From Coq Require Import Lia Lra.
Open Scope Z_scope.

(** * C101: at the points of the coarse meshes the interpolation gives back the couplings of the ab initio code *)
Theorem C101_round_trip D g A B kMesh qMesh nx d wsK wsQ sched size : CoarseGrids D A B kMesh qMesh nx d wsK wsQ -> GoodGauge D -> Sizes D size -> GoodThreads D sched ->
  exists T, blochToWannier D sched size g = Ok T /\
    forall ik iq b1 b2 nu, 0 <= ik < bK D -> 0 <= iq < bQ D -> 0 <= b1 < bB D -> 0 <= b2 < bB D -> 0 <= nu < bM D -> interpolated D (latDeg wsK) (latDeg wsQ) T ik iq b1 b2 nu = g b2 b1 nu ik iq.
Proof. intro H. apply round_trip with (1 := H). Qed.
Print Assumptions C101_round_trip.
(** the tensor does not depend on the number of processes nor on the threads *)
Theorem C101_processes D g sched sched' size size' : Sizes D size -> Sizes D size' -> GoodThreads D sched -> GoodThreads D sched' ->
  exists T T', blochToWannier D sched size g = Ok T /\ blochToWannier D sched' size' g = Ok T' /\
    forall i j nu irP irE, 0 <= i < bW D -> 0 <= j < bW D -> 0 <= nu < bM D -> 0 <= irP < nP D -> 0 <= irE < nE D -> T i j nu irP irE = T' i j nu irP irE.
Proof.
  intros (A1 & A2 & A3) (B1 & B2 & B3) G1 G2. destruct (btw_ok D g sched size A1 A2 A3 G1) as (T & ET & HT). destruct (btw_ok D g sched' size' B1 B2 B3 G2) as (T' & ET' & HT').
  exists T, T'. split; [exact ET|]. split; [exact ET'|]. intros. rewrite HT, HT' by assumption. reflexivity.
Qed.
Print Assumptions C101_processes.
Definition exU (ik : Z) : cmat := if ik =? 0 then idMat else swap2.
Lemma exU_rows ik : RowsOrthonormal 2 2 (exU ik). Proof. unfold exU. destruct (ik =? 0); [apply id_rows|apply swap2_rows]. Qed.
Example C101_ex : CoarseGrids (exD 2 exU) exA exB (2, 1, 1) (2, 1, 1) 1 d1 exWs exWs /\ GoodGauge (exD 2 exU) /\ Sizes (exD 2 exU) 2 /\ GoodThreads (exD 2 exU) (fun _ _ => staticSchedule 3 6 2 2).
Proof. split; [apply ex_grids|]. split; [apply ex_gauge; intros; apply exU_rows|]. split; [apply ex_sizes|apply ex_threads; lia]. Qed.

(** * C102: at the points of the coarse mesh the interpolated Hamiltonian has the bands and the states of the ab initio code *)
Theorem C102_bands D en A B kMesh qMesh nx d wsK wsQ r ik b m : CoarseGrids D A B kMesh qMesh nx d wsK wsQ -> 0 <= ik < bK D -> RowsOrthonormal (bB D) (bW D) (uM D ik) -> 0 <= b < bB D ->
  csumTo (bW D) (fun n => cmul (hostH (wannier90 D en (latDeg wsK) r) (kC D ik) m n) (stateOf D ik b n)) = cscale (en ik b) (stateOf D ik b m).
Proof.
  intros HG Hk Or Hb. rewrite <- (blochH_eigen D en ik b m Or Hb). apply csumTo_ext. intros n _. f_equal. exact (host_back D A B kMesh qMesh nx d wsK wsQ en HG r ik m n Hk).
Qed.
Print Assumptions C102_bands.
Example C102_ex : CoarseGrids (exD 2 exU) exA exB (2, 1, 1) (2, 1, 1) 1 d1 exWs exWs /\ RowsOrthonormal 2 2 (exU 1).
Proof. split; [apply ex_grids|apply exU_rows]. Qed.

(** * C103: rotation to the Wannier gauge and threads *)
Theorem C103_rotation s nM nW nB uKq uK g i j nu : Distributes s nM nW nB -> Aligned s nM nW nB -> 0 <= i < nW -> 0 <= j < nW -> 0 <= nu < nM ->
  rotateRegion s uKq uK g i j nu = rotated nB uKq uK g i j nu.
Proof. apply rotate_aligned. Qed.
Print Assumptions C103_rotation.
Theorem C103_static_partial T nM nW nB uKq uK g i j nu : 0 < T -> 0 <= nB -> (T | nM * nW) -> 0 <= i < nW -> 0 <= j < nW -> 0 <= nu < nM ->
  rotateRegion (staticSchedule T nM nW nB) uKq uK g i j nu = rotated nB uKq uK g i j nu.
Proof. intros. apply (rotate_aligned _ nM nW nB); try assumption; [apply static_distributes; lia|apply static_aligned; try lia; assumption]. Qed.
Print Assumptions C103_static_partial.
(** full statement: for any number of threads. Missing: it is false, with one thread the result is right and with four it is not *)
Theorem C103_threads_refuted : exists nM nW uKq uK g i j nu, RowsOrthonormal nW nW uKq /\ RowsOrthonormal nW nW uK /\ 0 <= i < nW /\ 0 <= j < nW /\ 0 <= nu < nM /\
  Distributes (staticSchedule 4 nM nW nW) nM nW nW /\ rotateRegion (staticSchedule 1 nM nW nW) uKq uK g i j nu = rotated nW uKq uK g i j nu /\
  rotateRegion (staticSchedule 4 nM nW nW) uKq uK g i j nu <> rotated nW uKq uK g i j nu.
Proof.
  exists 3, 2, swap2, swap2, (fun _ _ _ => c1), 1, 0, 0. split; [apply swap2_rows|]. split; [apply swap2_rows|]. split; [lia|]. split; [lia|]. split; [lia|]. split; [apply static_distributes; lia|].
  split; [apply (rotate_aligned _ 3 2 2); try lia; [apply static_distributes; lia|apply static_aligned; try lia; apply Z.divide_1_l]|].
  rewrite four_threads. unfold rotated, csumTo, swap2. change (zrange 0 2) with [0; 1]. cbn [map csum fold_right Z.eqb Pos.eqb Z.add Pos.add]. intro E. apply (f_equal fst) in E. cbv [cadd cmul cconj c1 c0 fst snd] in E. lra.
Qed.
Print Assumptions C103_threads_refuted.
Example C103_ex : (4 | 6 * 2) /\ Distributes [(loop1 3 2 2, loop2 3 2 2)] 3 2 2 /\ Aligned [(loop1 3 2 2, loop2 3 2 2)] 3 2 2.
Proof. split; [exists 3; reflexivity|apply one_thread]. Qed.

(** * C104: the distributed transformation, file after file, makes the same tensor *)
Theorem C104_distributed D g sched size files : 0 < size <= zlen files -> size <= nE D -> fits (zlen files) size -> Sizes D size -> GoodThreads D sched ->
  Permutation (concat files) (map (starOf D sched g) (zrange 0 (bQ D))) ->
  exists T locals out, blochToWannier D sched size g = Ok T /\ allShares (nE D) size = Ok locals /\ blochToWannierEfficient D size files = Ok out /\ zlen out = size /\
    forall r loc part e irE i j nu irP, zget locals r = Some loc -> zget out r = Some part -> zget loc e = Some irE -> 0 <= i < bW D -> 0 <= j < bW D -> 0 <= nu < bM D -> 0 <= irP < nP D -> 0 <= irE < nE D ->
      part i j nu irP e = T i j nu irP irE.
Proof.
  intros Hs He Ff (Fq & Fk & Fe) Ht P. destruct (btw_ok D g sched size Fq Fk Fe Ht) as (T & ET & HT). destruct (distributed_ok D g sched size files Hs He Fe Ff Ht P) as (locals & out & EL & EO & Eo & H).
  exists T, locals, out. split; [exact ET|]. split; [exact EL|]. split; [exact EO|]. split; [exact Eo|]. intros r loc part e irE i j nu irP Hr Hp HE Hi Hj Hnu Hirp Hire. rewrite HT by assumption. eapply H; eassumption.
Qed.
Print Assumptions C104_distributed.
(** more processes than lattice vectors: the program reads the first element of an empty list *)
Theorem C104_few_vectors_refuted D size files : nE D < size -> size <= zlen files -> fits (nE D) size -> blochToWannierEfficient D size files = UB.
Proof.
  intros H1 H2 F. unfold blochToWannierEfficient. replace (zlen files <? size) with false by lia.
  assert (EL : allShares (nE D) size = Ok (map (fun r => zrange (cut (nE D) size r) (cut (nE D) size (r + 1) - cut (nE D) size r)) (zrange 0 size))). { apply mapM_ok. intros x Hx. apply in_zrange in Hx. apply divideWorkIter_cut; [assumption|lia]. }
  rewrite EL. cbn [bind]. destruct F as (F1 & F2 & _). rewrite (zrange_cons 0 size) by lia. cbn [map existsb]. unfold cut. rewrite Z.mul_0_r, Z.mul_1_r, Z.div_0_l, Z.div_small by lia. reflexivity.
Qed.
Print Assumptions C104_few_vectors_refuted.
Example C104_ex : let D := exD 2 exU in let g := fun b1 b2 nu ik iq => (IZR (b1 + 2 * b2 + 4 * nu), IZR (ik - iq)) in let s := fun _ _ => staticSchedule 3 6 2 2 in
  let files := [[starOf D s g 1]; [starOf D s g 0]] in
  0 < 2 <= zlen files /\ 2 <= nE D /\ fits (zlen files) 2 /\ Sizes D 2 /\ GoodThreads D s /\ Permutation (concat files) (map (starOf D s g) (zrange 0 (bQ D))).
Proof.
  cbv zeta. split; [cbn; lia|]. split; [cbn [exD nE]; lia|]. split; [unfold fits; cbn; lia|]. split; [apply ex_sizes|]. split; [apply ex_threads; lia|]. cbn [concat app exD bQ]. change (zrange 0 2) with [0; 1]. cbn [map]. apply perm_swap.
Qed.

(** * C105: the long range part subtracted before and added back after the interpolation *)
(** full statement: the sum is g. The files of the ab initio code, one at a time: the overlap subtracted is the complex conjugate of the one added *)
Theorem C105_distributed_partial D g x A B kMesh qMesh nx d wsK wsQ sched size : CoarseGrids D A B kMesh qMesh nx d wsK wsQ -> GoodGauge D -> Sizes D size -> GoodThreads D sched ->
  exists T, blochToWannier D sched size (subtractDistributed D x g) = Ok T /\
    forall ik iq b1 b2 nu, 0 <= ik < bK D -> 0 <= iq < bQ D -> 0 <= b1 < bB D -> 0 <= b2 < bB D -> 0 <= nu < bM D -> awayFromGamma (qC D iq) = true ->
      let S := overlap (bW D) (stateOf D (kqI D ik iq) b2) (stateOf D ik b1) in
      cadd (interpolated D (latDeg wsK) (latDeg wsQ) T ik iq b1 b2 nu) (cmul (x iq nu) S) = cadd (g b2 b1 nu ik iq) (cmul (x iq nu) (csub S (cconj S))).
Proof. intro H. apply distributed_total with (1 := H). Qed.
Print Assumptions C105_distributed_partial.
(** all the couplings at once: the bands are exchanged too *)
Theorem C105_at_once_partial D g x A B kMesh qMesh nx d wsK wsQ sched size : CoarseGrids D A B kMesh qMesh nx d wsK wsQ -> GoodGauge D -> Sizes D size -> GoodThreads D sched ->
  exists g' T, subtractAtOnce D x g = Ok g' /\ blochToWannier D sched size g' = Ok T /\
    forall ik iq b1 b2 nu, 0 <= ik < bK D -> 0 <= iq < bQ D -> 0 <= b1 < bB D -> 0 <= b2 < bB D -> 0 <= nu < bM D -> awayFromGamma (qC D iq) = true ->
      let S := fun b1 b2 => overlap (bW D) (stateOf D (kqI D ik iq) b2) (stateOf D ik b1) in
      cadd (interpolated D (latDeg wsK) (latDeg wsQ) T ik iq b1 b2 nu) (cmul (x iq nu) (S b1 b2)) = cadd (g b2 b1 nu ik iq) (cmul (x iq nu) (csub (S b1 b2) (cconj (S b2 b1)))).
Proof. intro H. apply at_once_total with (1 := H). Qed.
Print Assumptions C105_at_once_partial.
Definition exPhase (ik : Z) : cmat := if ik =? 0 then idMat else fun i j => if i =? j then (0, 1)%R else c0.
Lemma exPhase_rows ik : RowsOrthonormal 1 1 (exPhase ik).
Proof. unfold exPhase. destruct (ik =? 0); [apply id_rows|]. intros a b Ha Hb. replace a with 0 by lia. replace b with 0 by lia. unfold csumTo. change (zrange 0 1) with [0]. cbn [map csum fold_right Z.eqb]. cring. Qed.
Lemma ex_away : awayFromGamma (exPts 1) = true.
Proof.
  unfold awayFromGamma. destruct (Rlt_dec _ _) as [|N]; [reflexivity|]. exfalso. apply N. replace (dot3 (exPts 1) (exPts 1)) with (PI * PI)%R by (unfold dot3, exPts, meshPoint, exB; cbn [Z.eqb Pos.eqb]; field).
  rewrite sqrt_square by (pose proof PI_RGT_0; lra). pose proof PI2_1. lra.
Qed.
Theorem C105_polar_refuted : exists D A B kMesh qMesh nx d wsK wsQ sched size x g T, CoarseGrids D A B kMesh qMesh nx d wsK wsQ /\ GoodGauge D /\ Sizes D size /\ GoodThreads D sched /\
  blochToWannier D sched size (subtractDistributed D x g) = Ok T /\ exists ik iq b1 b2 nu, 0 <= ik < bK D /\ 0 <= iq < bQ D /\ 0 <= b1 < bB D /\ 0 <= b2 < bB D /\ 0 <= nu < bM D /\
  cadd (interpolated D (latDeg wsK) (latDeg wsQ) T ik iq b1 b2 nu) (cmul (x iq nu) (overlap (bW D) (stateOf D (kqI D ik iq) b2) (stateOf D ik b1))) <> g b2 b1 nu ik iq.
Proof.
  assert (H1 := ex_grids 1 exPhase). assert (H2 : GoodGauge (exD 1 exPhase)) by (apply ex_gauge; intros; apply exPhase_rows). assert (H3 := ex_sizes 1 exPhase). assert (H4 := ex_threads 1 exPhase ltac:(lia)).
  destruct (distributed_total (exD 1 exPhase) (fun _ _ _ _ _ => c0) (fun _ _ => c1) exA exB (2, 1, 1) (2, 1, 1) 1 d1 exWs exWs H1 _ 2 H2 H3 H4) as (T & ET & HT).
  exists (exD 1 exPhase), exA, exB, (2, 1, 1), (2, 1, 1), 1, d1, exWs, exWs, (fun _ _ => staticSchedule 3 6 1 1), 2, (fun _ _ => c1), (fun _ _ _ _ _ => c0), T.
  split; [exact H1|]. split; [exact H2|]. split; [exact H3|]. split; [exact H4|]. split; [exact ET|]. exists 0, 1, 0, 0, 0. split; [cbn [exD bK]; lia|]. split; [cbn [exD bQ]; lia|]. split; [cbn [exD bB]; lia|]. split; [cbn [exD bB]; lia|]. split; [cbn [exD bM]; lia|].
  specialize (HT 0 1 0 0 0 ltac:(cbn [exD bK]; lia) ltac:(cbn [exD bQ]; lia) ltac:(cbn [exD bB]; lia) ltac:(cbn [exD bB]; lia) ltac:(cbn [exD bM]; lia) ex_away). unfold ov in HT. rewrite HT.
  cbn [exD kqI bW uM]. unfold overlap, stateOf. cbn [exD uM]. change ((0 + 1) mod 2) with 1. unfold exPhase. cbn [Z.eqb]. unfold csumTo, idMat. change (zrange 0 1) with [0]. cbn [map csum fold_right Z.eqb].
  intro E. apply (f_equal snd) in E. cbv [cadd cmul csub cconj c1 c0 fst snd] in E. lra.
Qed.
Print Assumptions C105_polar_refuted.
(** with disentanglement the second branch writes past the end of its matrices *)
Theorem C105_disentangled_refuted D x g : bW D < bB D -> subtractAtOnce D x g = UB.
Proof. intro H. unfold subtractAtOnce. replace (bW D <? bB D) with true by lia. reflexivity. Qed.
Print Assumptions C105_disentangled_refuted.
Example C105_ex : CoarseGrids (exD 2 exU) exA exB (2, 1, 1) (2, 1, 1) 1 d1 exWs exWs /\ GoodGauge (exD 2 exU) /\ Sizes (exD 2 exU) 2 /\ GoodThreads (exD 2 exU) (fun _ _ => staticSchedule 3 6 2 2) /\ awayFromGamma (qC (exD 2 exU) 1) = true.
Proof. destruct C101_ex as (A1 & A2 & A3 & A4). split; [exact A1|]. split; [exact A2|]. split; [exact A3|]. split; [exact A4|exact ex_away]. Qed.

(** * C106: bands read, disentanglement *)
(** as many bands as Wannier functions: the couplings come back with the band numbers of the ab initio code *)
Theorem C106_bands_read_partial D gQE offset A B kMesh qMesh nx d wsK wsQ sched size : CoarseGrids D A B kMesh qMesh nx d wsK wsQ -> GoodGauge D -> Sizes D size -> GoodThreads D sched ->
  exists T, blochToWannier D sched size (readBands offset (bW D) gQE) = Ok T /\
    forall ik iq b1 b2 nu, 0 <= ik < bK D -> 0 <= iq < bQ D -> 0 <= b1 < bB D -> 0 <= b2 < bB D -> 0 <= nu < bM D ->
      interpolated D (latDeg wsK) (latDeg wsQ) T ik iq b1 b2 nu = gQE (offset + b2) (offset + b1) nu ik iq.
Proof.
  intros H G S1 T1. destruct (round_trip D (readBands offset (bW D) gQE) A B kMesh qMesh nx d wsK wsQ H sched size G S1 T1) as (T & ET & HT). exists T. split; [exact ET|]. intros ik iq b1 b2 nu Hk Hq H1 H2 Hn. rewrite HT by assumption.
  unfold readBands. destruct G as (E & _). replace ((b2 <? bW D) && (b1 <? bW D)) with true by lia. reflexivity.
Qed.
Print Assumptions C106_bands_read_partial.
(** product of the disentanglement matrix and of the rotation *)
Theorem C106_product nB nW a b : (ColumnsOrthonormal nB nW a -> ColumnsOrthonormal nW nW b -> ColumnsOrthonormal nB nW (rotationProduct nW a b)) /\
  (RowsOrthonormal nB nW a -> RowsOrthonormal nW nW b -> RowsOrthonormal nB nW (rotationProduct nW a b)).
Proof. split; [apply product_columns|apply product_rows]. Qed.
Print Assumptions C106_product.
(** more bands than Wannier functions: the couplings of the bands after the first numWannier are lost, whatever their weight *)
Definition exDis : bloch :=
  {| bB := 2; bW := 1; bM := 3; bK := 1; bQ := 1; kC := fun _ _ => 0%R; qC := fun _ _ => 0%R; kqI := fun _ _ => 0; uM := fun _ i _ => if i =? 1 then c1 else c0; phE := fun _ => idMat; phI := fun _ => idMat;
     nE := 1; elV := fun _ _ => 0%R; nP := 1; phV := fun _ _ => 0%R |}.
Theorem C106_disentangled_refuted : exists D sched size g T T', (forall ik, 0 <= ik < bK D -> ColumnsOrthonormal (bB D) (bW D) (uM D ik)) /\ Sizes D size /\ GoodThreads D sched /\
  blochToWannier D sched size g = Ok T /\ blochToWannier D sched size (readBands 0 (bW D) g) = Ok T' /\ T 0 0 0 0 0 = c1 /\ T' 0 0 0 0 0 = c0.
Proof.
  set (g := (fun _ _ _ _ _ => c1) : tensor5). assert (S1 : fits 1 1) by (unfold fits; lia).
  assert (G : GoodThreads exDis (fun _ _ => [(loop1 3 1 2, loop2 3 1 2)])) by (intros ik iq _ _; apply one_thread).
  destruct (btw_ok exDis g _ 1 S1 S1 S1 G) as (T & ET & HT). destruct (btw_ok exDis (readBands 0 1 g) _ 1 S1 S1 S1 G) as (T' & ET' & HT').
  exists exDis, (fun _ _ => [(loop1 3 1 2, loop2 3 1 2)]), 1, g, T, T'. split.
  { intros ik _ a b Ha Hb. cbn [exDis bW] in Ha, Hb. replace a with 0 by lia. replace b with 0 by lia. cbn [exDis bB uM]. unfold csumTo. change (zrange 0 2) with [0; 1]. cbn [map csum fold_right Z.eqb Pos.eqb]. cring. }
  split; [split; [exact S1|split; exact S1]|]. split; [exact G|]. split; [exact ET|]. split; [exact ET'|].
  assert (X : forall h, wannierTensor exDis h 0 0 0 0 0 = h 1 1 0 0 0).
  { intro h. unfold wannierTensor, rotated. cbn [exDis bQ bM bK bB kC qC elV phV phI uM kqI]. unfold csumTo. change (zrange 0 1) with [0]. change (zrange 0 2) with [0; 1]. change (zrange 0 3) with [0; 1; 2]. unfold idMat. cbn [map csum fold_right Z.eqb Pos.eqb].
    replace (- dot3 (fun _ : Z => 0%R) (fun _ : Z => 0%R) - dot3 (fun _ : Z => 0%R) (fun _ : Z => 0%R))%R with 0%R by (unfold dot3; ring). rewrite expi_0. replace (/ 1 * / 1)%R with 1%R by field. cring. }
  rewrite (HT 0 0 0 0 0), (HT' 0 0 0 0 0) by (cbn [exDis bW bM nP nE]; lia). rewrite !X. split; reflexivity.
Qed.
Print Assumptions C106_disentangled_refuted.
Example C106_ex : CoarseGrids (exD 2 exU) exA exB (2, 1, 1) (2, 1, 1) 1 d1 exWs exWs /\ GoodGauge (exD 2 exU) /\ ColumnsOrthonormal 2 1 (uM exDis 0) /\ ColumnsOrthonormal 1 1 idMat.
Proof.
  destruct C101_ex as (A1 & A2 & _). split; [exact A1|]. split; [exact A2|]. split; intros a b Ha Hb; replace a with 0 by lia; replace b with 0 by lia; cbn [exDis uM]; unfold csumTo, idMat; [change (zrange 0 2) with [0; 1]|change (zrange 0 1) with [0]]; cbn [map csum fold_right Z.eqb Pos.eqb]; cring.
Qed.

(** * C107: number of bands of the ab initio code below those of Wannier90 *)
(** full statement: if the bands of Wannier90 are the bands o, o + 1, ... of the ab initio code, the answer is o. It is so only if no band is left above *)
Theorem C107_offset_partial eQE eW o : increasing eQE -> windowAt eQE eW o -> 0 < zlen eW -> computeOffset eQE eW = Ok (if o + zlen eW =? zlen eQE then o else o + 1).
Proof. intros. apply offset_value; assumption. Qed.
Print Assumptions C107_offset_partial.
Theorem C107_offset_refuted : exists eQE eW o, increasing eQE /\ windowAt eQE eW o /\ 0 < zlen eW /\ computeOffset eQE eW = Ok (o + 1).
Proof.
  exists [1; 2; 3; 4]%Q, [2; 3]%Q, 1. assert (I : increasing [1; 2; 3; 4]%Q).
  { intros i j Hi Hij Hj. change (zlen [1; 2; 3; 4]%Q) with 4 in Hj. assert (i = 0 \/ i = 1 \/ i = 2) as [-> | [-> | ->]] by lia; assert (j = 1 \/ j = 2 \/ j = 3) as [-> | [-> | ->]] by lia; try lia; reflexivity. }
  assert (W : windowAt [1; 2; 3; 4]%Q [2; 3]%Q 1).
  { split; [lia|]. split; [cbn; lia|]. intros i Hi. change (zlen [2; 3]%Q) with 2 in Hi. assert (i = 0 \/ i = 1) as [-> | ->] by lia; reflexivity. }
  split; [exact I|]. split; [exact W|]. split; [reflexivity|]. rewrite (offset_value _ _ 1 I W) by reflexivity. reflexivity.
Qed.
Print Assumptions C107_offset_refuted.
Theorem C107_fewer_bands_refuted eQE eW : zlen eQE < zlen eW -> computeOffset eQE eW = UB.
Proof. intro H. unfold computeOffset. replace (zlen eQE - zlen eW <? 0) with true by lia. reflexivity. Qed.
Print Assumptions C107_fewer_bands_refuted.
Example C107_ex : increasing [1; 2; 3]%Q /\ windowAt [1; 2; 3]%Q [2; 3]%Q 1.
Proof.
  split.
  - intros i j Hi Hij Hj. change (zlen [1; 2; 3]%Q) with 3 in Hj. assert (i = 0 \/ i = 1) as [-> | ->] by lia; assert (j = 1 \/ j = 2) as [-> | ->] by lia; try lia; reflexivity.
  - split; [lia|]. split; [cbn; lia|]. intros i Hi. change (zlen [2; 3]%Q) with 2 in Hi. assert (i = 0 \/ i = 1) as [-> | ->] by lia; reflexivity.
Qed.
