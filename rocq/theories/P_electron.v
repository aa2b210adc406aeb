(** Property theorems for interpolated electronic bands: C81 (Hamiltonian), C82 (device Hamiltonian), C83 (Berry connection),
    C84 (velocities), C85 (degenerate velocities), C86 (batches on the device). *)
From Coq Require Import Reals QArith Permutation.
From Verif Require Import Base BaseLemmas M_complex L_complex M_helper M_electron S_electron L_electron L_electron2 L_electron3 L_electron4 L_electron5.
From Coq Require Import Lia Lra.
Open Scope Z_scope.

(** a chain with one orbital: bands 2 cos k *)
Definition exW : wannier := {| nW := 1; nR := 2; brav := fun iR => v3r (if iR =? 0 then 1 else -1) 0 0; degR := fun _ => 1%R; h0R := fun _ _ _ => c1; rMatrix := fun _ _ _ _ => c0 |}.
Definition exNeg (iR : Z) : Z := 1 - iR.
Lemma exW_hermitian : HermitianHoppings exW exNeg.
Proof.
  intros iR h. cbn in h. unfold exNeg. assert (iR = 0 \/ iR = 1) as [-> | ->] by lia; cbn; (split; [lia|]; split; [reflexivity|]; split; [|split; [reflexivity|intros; cring]]); intros i hi; assert (i = 0 \/ i = 1 \/ i = 2) as [-> | [-> | ->]] by lia; cbn; lra.
Qed.

(** C81. If H(-R) = H(R)^+ the Hamiltonian is Hermitian at every wavevector, with or without shifts. *)
Theorem C81_hermitian : forall W neg k, HermitianHoppings W neg -> Hermitian (nW W) (hostH W k).
Proof. exact host_hermitian. Qed.
Print Assumptions C81_hermitian.
Theorem C81_hermitian_shifts : forall W S neg k, HermitianHoppings W neg -> HermitianShifts W S neg -> Hermitian (nW W) (hostShiftH W S k).
Proof. exact hostShift_hermitian. Qed.
Print Assumptions C81_hermitian_shifts.
Theorem C81_periodic : forall W G k, ReciprocalVector W G -> SameMat (nW W) (hostH W (vadd k G)) (hostH W k).
Proof. exact host_periodic. Qed.
Print Assumptions C81_periodic.
Theorem C81_periodic_shifts : forall W S G k, ReciprocalVector W G -> ReciprocalOfShifts W S G -> SameMat (nW W) (hostShiftH W S (vadd k G)) (hostShiftH W S k).
Proof. exact hostShift_periodic. Qed.
Print Assumptions C81_periodic_shifts.
(** real hoppings: H(-k) is the conjugate of H(k), so that energies at k and -k are the same *)
Theorem C81_time_reversal : forall W S k, (forall iR m n, 0 <= iR < nR W -> 0 <= m < nW W -> 0 <= n < nW W -> snd (h0R W iR m n) = 0%R) ->
  forall m n, 0 <= m < nW W -> 0 <= n < nW W -> hostH W (vopp k) m n = cconj (hostH W k m n) /\ hostShiftH W S (vopp k) m n = cconj (hostShiftH W S k m n).
Proof. intros W S k h m n hm hn. split; [apply host_reversal|apply hostShift_reversal]; assumption. Qed.
Print Assumptions C81_time_reversal.
(** null shifts change nothing *)
Theorem C81_null_shifts : forall W S k, (forall m n iR, degS S m n iR = 1) -> (forall i d m n iR, vecS S i d m n iR = 0%R) ->
  forall m n, hostShiftH W S k m n = hostH W k m n.
Proof. exact hostShift_one. Qed.
Print Assumptions C81_null_shifts.
Example C81_ex : HermitianHoppings exW exNeg /\ ReciprocalVector exW (v3r (2 * PI) 0 0) /\ hostH exW (v3r 0 0 0) 0 0 = (2, 0)%R /\ hostH exW (v3r PI 0 0) 0 0 = (-2, 0)%R.
Proof.
  split; [exact exW_hermitian|]. split.
  { intros iR h. cbn in h. assert (iR = 0 \/ iR = 1) as [-> | ->] by lia; [exists 1|exists (-1)]; unfold dot3, v3r; cbn; ring. }
  split; unfold hostH, csumTo; change (zrange 0 (nR exW)) with [0; 1]; cbn [map csum fold_right]; apply cplx_eq; cbn; unfold dot3, v3r; cbn; rewrite ?Rinv_1.
  - replace (0 * 1 + 0 * 0 + 0 * 0)%R with 0%R by ring. replace (0 * -1 + 0 * 0 + 0 * 0)%R with 0%R by ring. rewrite cos_0, sin_0. ring.
  - replace (0 * 1 + 0 * 0 + 0 * 0)%R with 0%R by ring. replace (0 * -1 + 0 * 0 + 0 * 0)%R with 0%R by ring. rewrite cos_0, sin_0. ring.
  - replace (PI * 1 + 0 * 0 + 0 * 0)%R with PI by ring. replace (PI * -1 + 0 * 0 + 0 * 0)%R with (- PI)%R by ring. rewrite cos_neg, sin_neg, cos_PI, sin_PI. ring.
  - replace (PI * 1 + 0 * 0 + 0 * 0)%R with PI by ring. replace (PI * -1 + 0 * 0 + 0 * 0)%R with (- PI)%R by ring. rewrite cos_neg, sin_neg, cos_PI, sin_PI. ring.
Qed.

(** C82. The device builds the same Hamiltonian as the host ... *)
Theorem C82_same_without_shifts : forall W k m n, 0 <= m < nW W -> 0 <= n < nW W -> deviceH W k m n = Ok (hostH W k m n).
Proof. exact device_host. Qed.
Print Assumptions C82_same_without_shifts.
(** ... but not with shifts: as soon as there are more lattice vectors than orbitals it reads outside the Hamiltonian ... *)
Theorem C82_shifts_out_of_bounds_refuted : forall W S k m n, nW W < nR W -> 0 <= nW W -> (forall iR, 0 <= iR < nR W -> 1 <= degS S m n iR) -> deviceShiftH W S k m n = UB.
Proof. exact deviceShift_UB. Qed.
Print Assumptions C82_shifts_out_of_bounds_refuted.
(** ... and where it does not, it multiplies by the number of shifts instead of dividing. *)
Definition exW1 : wannier := {| nW := 1; nR := 1; brav := fun _ => v3r 0 0 0; degR := fun _ => 1%R; h0R := fun _ _ _ => c1; rMatrix := fun _ _ _ _ => c0 |}.
Definition exS2 : shifts := {| degS := fun _ _ _ => 2; vecS := fun _ _ _ _ _ => 0%R |}.
Theorem C82_shifts_refuted : exists W S k, HermitianHoppings W (fun iR => iR) /\ hostShiftH W S k 0 0 = (1, 0)%R /\ deviceShiftH W S k 0 0 = Ok (4, 0)%R.
Proof.
  exists exW1, exS2, (v3r 0 0 0). split.
  { intros iR h. cbn in h. cbn. repeat split; try lia; try reflexivity; [|intros; cring]. intros i hi. unfold v3r. destruct (i =? 0); [ring|]. destruct (i =? 1); ring. }
  assert (D : forall a b, dot3 (v3r 0 0 0) (shifted exW1 exS2 a 0 0 b) = 0%R) by (intros; unfold dot3, v3r; cbn; ring). split.
  - unfold hostShiftH, csumTo. change (zrange 0 (nR exW1)) with [0]. cbn [map csum fold_right]. change (degS exS2 0 0 0) with 2. change (zrange 0 2) with [0; 1]. cbn [map csum fold_right]. rewrite !D, expi_0. apply cplx_eq; cbn; field.
  - unfold deviceShiftH. change (zrange 0 (nR exW1)) with [0]. cbn [foldM]. change (degS exS2 0 0 0) with 2. change (zrange 0 2) with [0; 1]. cbn [foldM].
    assert (E : h0d exW1 0 0 0 = Ok c1) by reflexivity. rewrite !D, expi_0, E. cbn [bind]. f_equal. apply cplx_eq; cbn; field.
Qed.
Print Assumptions C82_shifts_refuted.
Example C82_ex : 0 <= 0 < nW exW /\ deviceH exW (v3r 0 0 0) 0 0 = Ok (2, 0)%R.
Proof. split; [cbn; lia|]. rewrite device_host by (cbn; lia). f_equal. apply C81_ex. Qed.

(** C83. The Berry connection should be U^+ (sum over R of exp(ikR) r(R) / deg) U; instead the position matrix is always read out of its bounds. *)
Theorem C83_berry_connection_refuted : forall W k i m n, 3 < nR W -> berryW W k i m n = UB.
Proof. exact berry_UB. Qed.
Print Assumptions C83_berry_connection_refuted.
Example C83_ex : 3 < nR {| nW := 1; nR := 7; brav := fun _ => v3r 0 0 0; degR := fun _ => 1%R; h0R := fun _ _ _ => c1; rMatrix := fun _ _ _ _ => c0 |}.
Proof. cbn. lia. Qed.

(** C84. The velocity operator is Hermitian for any eigenvectors, on host and device. *)
Theorem C84_hermitian : forall nb delta k U Hp Hm, delta <> 0%R -> Hermitian nb (hostVelocity nb delta k U Hp Hm) /\ Hermitian nb (deviceVelocity nb delta k U Hp Hm).
Proof. intros. split; [apply host_velocity_hermitian|apply device_velocity_hermitian; assumption]. Qed.
Print Assumptions C84_hermitian.
(** Host and device agree, except for 1e-6 <= |k| <= 1e-3 ... *)
Theorem C84_host_device_partial : forall nb delta k U Hp Hm, delta <> 0%R -> (/ 1000000 < dot3 k k \/ dot3 k k < / 1000000000000)%R ->
  SameMat nb (deviceVelocity nb delta k U Hp Hm) (hostVelocity nb delta k U Hp Hm).
Proof. exact velocity_host_device. Qed.
Print Assumptions C84_host_device_partial.
(** ... where the device returns zero for a wavevector that is not Gamma. *)
Theorem C84_near_gamma_refuted : exists k, let Hs := fun s => hostH exW (vaxpy k (s * / 100000000) (unitVec 0)) in
  deviceVelocity 1 (/ 100000000) k idMat (Hs 1%R) (Hs (-1)%R) 0 0 = c0 /\ hostVelocity 1 (/ 100000000) k idMat (Hs 1%R) (Hs (-1)%R) 0 0 <> c0.
Proof.
  exists (v3r (/ 10000) 0 0). set (k := v3r (/ 10000) 0 0). set (d := (/ 100000000)%R). cbv zeta.
  assert (K : dot3 k k = (/ 100000000)%R) by (unfold dot3, k, v3r; cbn; field). split.
  - unfold deviceVelocity, deviceGamma. destruct (Rlt_dec _ _) as [G|G]; [rewrite K in G; lra|reflexivity].
  - unfold hostVelocity, hostGamma. destruct (Rlt_dec _ _) as [G|_].
    + exfalso. rewrite K in G. replace (/ 100000000)%R with (/ 10000 * / 10000)%R in G by field. rewrite sqrt_square in G by lra. lra.
    + assert (E : rotateV 1 idMat (hostDer d (hostH exW (vaxpy k (1 * d) (unitVec 0))) (hostH exW (vaxpy k (-1 * d) (unitVec 0)))) 0 0 = hostDer d (hostH exW (vaxpy k (1 * d) (unitVec 0))) (hostH exW (vaxpy k (-1 * d) (unitVec 0))) 0 0).
      { generalize (hostDer d (hostH exW (vaxpy k (1 * d) (unitVec 0))) (hostH exW (vaxpy k (-1 * d) (unitVec 0)))). intro A. unfold rotateV, matMul, csumTo. change (zrange 0 1) with [0]. cbn [map csum fold_right]. unfold adjoint, idMat. change (0 =? 0) with true. cbn [cconj]. apply cplx_eq; cbn; ring. }
      rewrite E. replace (1 * d)%R with d by ring. replace (-1 * d)%R with (- d)%R by ring.
      rewrite (hostDer_central exW exNeg) by (try exact exW_hermitian; try (cbn; lia); unfold d; lra).
      intro Z. apply (f_equal fst) in Z. unfold diffTerm, csumTo in Z. change (zrange 0 (nR exW)) with [0; 1] in Z. cbn [map csum fold_right] in Z.
      cbn in Z. unfold dot3, k, v3r in Z. cbn in Z. unfold Rdiv in Z. rewrite Rinv_1 in Z.
      replace (/ 10000 * 1 + 0 * 0 + 0 * 0)%R with (/ 10000)%R in Z by ring. replace (/ 10000 * -1 + 0 * 0 + 0 * 0)%R with (- / 10000)%R in Z by ring.
      replace (d * -1)%R with (- d)%R in Z by ring. replace (d * 1)%R with d in Z by ring. rewrite !sin_neg, !cos_neg in Z.
      assert (P1 : (0 < sin (/ 10000))%R) by (apply sin_gt_0; [lra|pose proof PI2_3_2; lra]).
      assert (P2 : (0 < sin d)%R) by (unfold d; apply sin_gt_0; [lra|pose proof PI2_3_2; lra]).
      assert (P3 : (0 < / d)%R) by (unfold d; lra).
      assert (Q : (0 < sin d * / d * sin (/ 10000))%R) by (apply Rmult_lt_0_compat; [apply Rmult_lt_0_compat|]; assumption). revert Z Q. generalize (/ d)%R. intros. nra.
Qed.
Print Assumptions C84_near_gamma_refuted.
(** The derivative of the Hamiltonian by finite differences: how far it is from the derivative. *)
Theorem C84_gradient_is_derivative : forall W i k m n, 0 <= i < 3 ->
  derivable_pt_lim (fun t => fst (hostH W (vaxpy k t (unitVec i)) m n)) 0 (fst (gradH W i k m n)) /\
  derivable_pt_lim (fun t => snd (hostH W (vaxpy k t (unitVec i)) m n)) 0 (snd (gradH W i k m n)).
Proof. intros. split; [apply gradH_re|apply gradH_im]; assumption. Qed.
Print Assumptions C84_gradient_is_derivative.
Theorem C84_derivative_error : forall W neg delta i k m n, HermitianHoppings W neg -> 0 <= i < 3 -> delta <> 0%R -> 0 <= m < nW W -> 0 <= n < nW W ->
  (cabs (csub (hostDer delta (hostH W (vaxpy k delta (unitVec i))) (hostH W (vaxpy k (- delta) (unitVec i))) m n) (gradH W i k m n))
   <= rsumTo (nR W) (fun iR => delta * delta / 6 * (Rabs (brav W iR i) * Rabs (brav W iR i) * Rabs (brav W iR i)) * Rabs (/ degR W iR) * cabs (h0R W iR m n)))%R.
Proof. exact derivative_error. Qed.
Print Assumptions C84_derivative_error.
(** The Hamiltonians used for point iK and direction i are those at k + delta e_i and k - delta e_i. *)
Theorem C84_wavevectors : forall delta ks iK k i, zget ks iK = Some k -> 0 <= i < 3 ->
  zget (allVectors delta ks) (iK * 7) = Some k /\
  zget (allVectors delta ks) (iK * 7 + i * 2 + 1) = Some (vaxpy k delta (unitVec i)) /\
  zget (allVectors delta ks) (iK * 7 + i * 2 + 2) = Some (vaxpy k (- delta) (unitVec i)).
Proof.
  intros delta ks iK k i h hi. split; [rewrite <- (Z.add_0_r (iK * 7)), (allVectors_get _ _ _ _ _ h) by lia; reflexivity|].
  rewrite <- !Z.add_assoc, !(allVectors_get _ _ _ _ _ h) by lia. assert (i = 0 \/ i = 1 \/ i = 2) as [-> | [-> | ->]] by lia; split; reflexivity.
Qed.
Print Assumptions C84_wavevectors.
(** The choice of the phases of the eigenvectors changes the velocity operator by a phase: the velocities of the bands, and the
    squares of all elements, do not depend on it. *)
Theorem C84_phases : forall n U A (ph : Z -> cplx), (forall i, cnorm2 (ph i) = 1%R) -> forall i j,
  cnorm2 (rotateV n (fun a b => cmul (U a b) (ph b)) A i j) = cnorm2 (rotateV n U A i j) /\
  rotateV n (fun a b => cmul (U a b) (ph b)) A i i = rotateV n U A i i.
Proof.
  intros n U A ph h i j. rewrite !rotateV_phase. split; [rewrite !norm2_mul, norm2_conj, !h; ring|]. rewrite conj_mul_self, h. fold c1. ring.
Qed.
Print Assumptions C84_phases.
Example C84_ex : HermitianHoppings exW exNeg /\ (/ 1000000 < dot3 (v3r 1 0 0) (v3r 1 0 0))%R /\ zget [v3r 1 0 0] 0 = Some (v3r 1 0 0) /\ gradH exW 0 (v3r (PI / 2) 0 0) 0 0 = (-2, 0)%R.
Proof.
  split; [exact exW_hermitian|]. split; [unfold dot3, v3r; cbn; lra|]. split; [reflexivity|].
  unfold gradH, csumTo. change (zrange 0 (nR exW)) with [0; 1]. cbn [map csum fold_right].
  apply cplx_eq; cbn; unfold dot3, v3r; cbn; replace (PI / 2 * 1 + 0 * 0 + 0 * 0)%R with (PI / 2)%R by ring; replace (PI / 2 * -1 + 0 * 0 + 0 * 0)%R with (- (PI / 2))%R by ring;
    rewrite ?cos_neg, ?sin_neg, ?cos_PI2, ?sin_PI2; field.
Qed.

(** C85. The bands are cut into groups of bands within the threshold of the first one: each band belongs to one group. *)
Theorem C85_groups : forall thr en nb, 0 <= nb ->
  concat (map (fun b => zrange (fst b) (snd b)) (blocks thr en nb)) = zrange 0 nb /\ (forall b, In b (blocks thr en nb) -> Group thr en nb (fst b) (snd b)).
Proof. intros thr en nb h. split; [apply blocks_cover, h|]. intros b hb. apply blocks_group; assumption. Qed.
Print Assumptions C85_groups.
(** The velocity operator stays Hermitian, is diagonal inside each group, keeps the trace of each group and all other elements. *)
Theorem C85_hermitian : forall solve thr en nb v, ReadsEntries solve -> 0 <= nb -> Hermitian nb v -> Hermitian nb (hostDegenerate solve thr en nb v).
Proof. exact host_hermitian_deg. Qed.
Print Assumptions C85_hermitian.
Theorem C85_diagonal : forall solve thr en nb v b i j, ReadsEntries solve -> 0 <= nb -> Diagonalises (snd b) (blockPart v (fst b)) (solve (snd b) (blockPart v (fst b))) ->
  In b (blocks thr en nb) -> fst b <= i < fst b + snd b -> fst b <= j < fst b + snd b -> i <> j -> hostDegenerate solve thr en nb v i j = c0.
Proof. exact host_block_diagonal. Qed.
Print Assumptions C85_diagonal.
Theorem C85_trace : forall solve thr en nb v b, ReadsEntries solve -> 0 <= nb -> Unitary (snd b) (solve (snd b) (blockPart v (fst b))) -> Hermitian nb v -> In b (blocks thr en nb) ->
  csumTo (snd b) (fun i => hostDegenerate solve thr en nb v (fst b + i) (fst b + i)) = csumTo (snd b) (fun i => v (fst b + i) (fst b + i)).
Proof. exact host_block_trace. Qed.
Print Assumptions C85_trace.
Theorem C85_others_unchanged : forall solve thr en nb v i j, ReadsEntries solve -> 0 <= nb -> 0 <= i < nb ->
  (forall b, In b (blocks thr en nb) -> fst b <= i < fst b + snd b -> fst b <= j < fst b + snd b -> snd b = 1) -> hostDegenerate solve thr en nb v i j = v i j.
Proof. exact host_other. Qed.
Print Assumptions C85_others_unchanged.
(** On the device the groups of size iDeg of all points are found in order, whatever the order of the threads ... *)
Theorem C85_enumeration : forall nb iDeg counts order, Permutation order (zrange 0 (zlen counts)) ->
  funcKB nb iDeg counts order = Ok (map (fun p => Some (Z.quot p nb, Z.rem p nb)) (starts iDeg counts)).
Proof. exact funcKB_spec. Qed.
Print Assumptions C85_enumeration.
(** ... and the result is that of the host, for every number of points and bands. *)
Theorem C85_device_host : forall solve thr ens nb sched vs, ReadsEntries solve -> 0 <= nb -> (forall d, Permutation (sched d) (zrange 0 (zlen ens * nb))) ->
  exists vs', deviceDegenerate solve thr ens nb sched vs = Ok vs' /\ forall iK en, zget ens iK = Some en -> SameMat nb (vs' iK) (hostDegenerate solve thr en nb (vs iK)).
Proof. exact device_host_degenerate. Qed.
Print Assumptions C85_device_host.
Definition exX : cmat := fun i j => cscale (/ sqrt 2) (if (i =? 1) && (j =? 1) then copp c1 else c1).
Definition exV : cmat := fun i j => if i =? j then c0 else c1.
Definition exEn (i : Z) : Q := if i <? 2 then 0%Q else 1%Q.
Example C85_ex : ReadsEntries (fun _ _ => exX) /\ Hermitian 3 exV /\ Diagonalises 2 (blockPart exV 0) exX /\ In (0, 2) (blocks (1 # 10) exEn 3) /\ blocks (1 # 10) exEn 3 = [(0, 2); (2, 1)].
Proof.
  split; [intros n A B _ i j _ _; reflexivity|]. split.
  { intros i j _ _. unfold exV. rewrite Z.eqb_sym. destruct (j =? i); cring. }
  assert (S2 : (sqrt 2 * sqrt 2 = 2)%R) by (apply sqrt_sqrt; lra). assert (P : (0 < sqrt 2)%R) by (apply sqrt_lt_R0; lra).
  assert (I2 : (/ sqrt 2 * / sqrt 2 = / 2)%R) by (rewrite <- Rinv_mult, S2; reflexivity).
  split; [|split; [now left|reflexivity]]. split; [split|].
  - intros i j hi hj. unfold matMul, csumTo. change (zrange 0 2) with [0; 1]. cbn [map csum fold_right]. set (r := (/ sqrt 2)%R) in *. assert (i = 0 \/ i = 1) as [-> | ->] by lia; assert (j = 0 \/ j = 1) as [-> | ->] by lia; unfold adjoint, exX; fold r; apply cplx_eq; cbn; nra.
  - intros i j hi hj. unfold matMul, csumTo. change (zrange 0 2) with [0; 1]. cbn [map csum fold_right]. set (r := (/ sqrt 2)%R) in *. assert (i = 0 \/ i = 1) as [-> | ->] by lia; assert (j = 0 \/ j = 1) as [-> | ->] by lia; unfold adjoint, exX; fold r; apply cplx_eq; cbn; nra.
  - intros i j hi hj hn. unfold matMul, csumTo. change (zrange 0 2) with [0; 1]. cbn [map csum fold_right]. set (r := (/ sqrt 2)%R) in *. assert (i = 0 \/ i = 1) as [-> | ->] by lia; assert (j = 0 \/ j = 1) as [-> | ->] by lia; try lia; unfold adjoint, exX, blockPart, exV; fold r; apply cplx_eq; cbn; field.
Qed.

(** C86. The bands of a list of points do not depend on the size of the batches. *)
Theorem C86_batches : forall {K D} (diag : K -> D) (coords : list K) (iks : list Z) batchSize d0, iks <> [] -> length iks = length coords -> 1 <= batchSize ->
  kokkosPopulate diag coords iks batchSize d0 = Ok (map diag coords).
Proof. intros K D. exact populate_ok. Qed.
Print Assumptions C86_batches.
(** A process without points stops on a division by zero. *)
Theorem C86_no_points_refuted : forall {K D} (diag : K -> D) batchSize d0, 0 <= batchSize -> kokkosPopulate diag [] [] batchSize d0 = UB.
Proof. intros K D diag b d0 h. unfold kokkosPopulate. rewrite L_helper2.split_nil by exact h. reflexivity. Qed.
Print Assumptions C86_no_points_refuted.
Example C86_ex : kokkosPopulate (fun x => x * x) [1; 2; 3; 4; 5] [10; 11; 12; 13; 14] 2 0 = Ok [1; 4; 9; 16; 25].
Proof. reflexivity. Qed.
