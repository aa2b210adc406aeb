(** Property theorems for the dynamical matrix: C87 (Fourier transform of the force constants), C88 (Hermitian, q and -q), C89 (device),
    C90 (acoustic modes), C91 (frequencies and eigenvectors), C92 (square root of the dynamical matrix), C93 (dipole-dipole term). *)
From Coq Require Import Reals QArith Qreals Permutation.
From Verif Require Import Base BaseLemmas M_complex L_complex M_electron S_electron M_phonon S_phonon L_phonon L_phonon2 L_phonon3 L_phonon4 L_phonon5.
From Coq Require Import Lia Lra.
Open Scope Z_scope.

(** one atom, 2x1x1 supercell: neighbours along x tied by springs *)
Definition exPh : phonon :=
  {| nAt := 1; cell := fun c i => if c =? i then 7%Q else 0%Q; recip := fun c i => if c =? i then (2 * PI / 7)%R else 0%R; grid := fun c => if c =? 0 then 2 else 1;
     tau := fun _ _ => 0%Q; mass := fun _ => 4%R; force := fun i j m1 _ _ _ _ => if i =? j then (if m1 =? 0 then 1 else -1)%R else 0%R;
     hasDiel := false; lr2d := false; eps := fun i j => if i =? j then 1%R else 0%R; born := fun _ k i => if k =? i then 1%R else 0%R; vol := 343%R; gMax := 14%R |}.
(** the same atoms with charges *)
Definition exPolar : phonon :=
  {| nAt := 1; cell := cell exPh; recip := recip exPh; grid := grid exPh; tau := tau exPh; mass := mass exPh; force := force exPh;
     hasDiel := true; lr2d := false; eps := eps exPh; born := born exPh; vol := 343%R; gMax := 14%R |}.
Lemma exPh_grid : gridPositive exPh. Proof. repeat split; cbn; lia. Qed.
Lemma exPh_sym : SymmetricForce exPh.
Proof.
  intros i j a b [[n1 n2] n3] _ _ _ _. unfold forceAt. cbn [wrap opp3z]. cbn [force exPh]. rewrite (Z.eqb_sym j i).
  replace ((- n1) mod grid exPh 0) with (n1 mod grid exPh 0); [reflexivity|]. change (grid exPh 0) with 2.
  pose proof (Z.div_mod n1 2). pose proof (Z.mod_pos_bound n1 2). pose proof (Z.div_mod (- n1) 2). pose proof (Z.mod_pos_bound (- n1) 2). lia.
Qed.
Lemma exPh_net : NoNetForce exPh.
Proof.
  intros i j a _ _ _. change (zrange 0 (nAt exPh)) with [0]. change (gridCells exPh) with [(0, 0, 0); (1, 0, 0)].
  cbn [map rsum fold_right]. change (forceAt exPh i j (0, 0, 0) a 0) with (if i =? j then 1 else 0)%R. change (forceAt exPh i j (1, 0, 0) a 0) with (if i =? j then -1 else 0)%R.
  destruct (i =? j); ring.
Qed.
Lemma exPh_weights : WeightsOne exPh. Proof. apply weightsOneB_spec. vm_compute. reflexivity. Qed.
Lemma exBad_weights : WeightsOne exBad. Proof. apply weightsOneB_spec. vm_compute. reflexivity. Qed.

(** C87. Without charges the matrix built from the reordered tables is the Fourier transform of the force constants over the periodic images
    of each pair of atoms; images are weighted by 1/k when k images are equally close and 0 when another one is closer. *)
Theorem C87_fourier : forall P q i j a b, gridPositive P -> 0 <= a < nAt P -> 0 <= b < nAt P -> shortRange P q i j a b = fourier P q i j a b.
Proof. exact shortRange_fourier. Qed.
Print Assumptions C87_fourier.
Theorem C87_weights : forall r l, wsWeight r l =
  if existsb (fun v => negb (Qle_bool (qdot r v - qdot v v / 2) (1 # 100000))) l then 0%Q
  else (1 # Pos.of_nat (1 + length (filter (fun v => Qle_bool (Qabs.Qabs (qdot r v - qdot v v / 2)) (1 # 100000)) l))).
Proof. exact wsWeight_val. Qed.
Print Assumptions C87_weights.
(** a pair has the same weight seen from either atom *)
Theorem C87_weights_symmetric : forall P n1 n2 n3 a b, wsCache P (- n1) (- n2) (- n3) a b = wsCache P n1 n2 n3 b a.
Proof. exact wsCache_opp. Qed.
Print Assumptions C87_weights_symmetric.
Theorem C87_periodic : forall P G q m n, gridPositive P -> hasDiel P = false -> Reciprocal P G -> 0 <= m < 3 * nAt P -> 0 <= n < 3 * nAt P ->
  dynHost P (vadd q G) m n = dynHost P q m n.
Proof. exact dynHost_periodic. Qed.
Print Assumptions C87_periodic.
Example C87_ex : gridPositive exPh /\ Reciprocal exPh (recip exPh 0) /\ weightsChecked exPh = true /\ wsCache exPh 1 0 0 0 0 = (1 # 2)%Q /\ wsCache exPh 2 0 0 0 0 = 0%Q /\ wsCache exPh 0 0 0 0 0 = 1%Q.
Proof.
  split; [exact exPh_grid|]. split.
  { intros c hc. assert (c = 0 \/ c = 1 \/ c = 2) as [-> | [-> | ->]] by lia; [exists 1|exists 0|exists 0]; unfold dot3, toR; cbn; unfold Q2R; cbn; field. }
  split; [vm_compute; reflexivity|]. repeat split; vm_compute; reflexivity.
Qed.

(** C88. The matrix given to the eigensolver is Hermitian; with symmetric force constants (and a symmetric on-site correction) it already was
    before the symmetrisation, which therefore changes nothing; at -q it is the conjugate, so that frequencies at q and -q are the same. *)
Theorem C88_hermitian : forall P q n, Hermitian n (dynHost P q).
Proof. exact dynHost_hermitian. Qed.
Print Assumptions C88_hermitian.
Theorem C88_symmetrisation_idle : forall P q m n, gridPositive P -> SymmetricForce P -> (hasDiel P = true -> forall i j a, lr1 P i j a = lr1 P j i a) ->
  0 <= m < 3 * nAt P -> 0 <= n < 3 * nAt P -> dynHost P q m n = cscale (/ sqrt (mass P (m / 3) * mass P (n / 3))) (dynTmp P q m n).
Proof. exact dynHost_plain. Qed.
Print Assumptions C88_symmetrisation_idle.
Theorem C88_reversal : forall P q m n, gridPositive P -> 0 <= m < 3 * nAt P -> 0 <= n < 3 * nAt P -> dynHost P (vopp q) m n = cconj (dynHost P q m n).
Proof. exact dynHost_reversal. Qed.
Print Assumptions C88_reversal.
Theorem C88_same_frequencies : forall P q w x, gridPositive P -> EigenPair (3 * nAt P) (dynHost P q) w x ->
  EigenPair (3 * nAt P) (dynHost P (vopp q)) w (fun m => cconj (x m)).
Proof. exact eigen_reversal. Qed.
Print Assumptions C88_same_frequencies.
Example C88_ex : gridPositive exPh /\ SymmetricForce exPh /\ hasDiel exPolar = true /\ forall i j a, 0 <= i < 3 -> 0 <= j < 3 -> lr1 exPolar i j a = lr1 exPolar j i a.
Proof.
  split; [exact exPh_grid|]. split; [exact exPh_sym|]. split; [reflexivity|]. intros. apply (scalar_lr1 exPolar (fun _ => 1%R)); [reflexivity|assumption..].
Qed.

(** C89. The device builds the same matrix as the host, whatever the order in which its threads add the vectors G. (lr2d is the option of the
    two-dimensional long range term, false in phonon_h0.h:187 and never set.) *)
Theorem C89_device : forall P order q m n, lr2d P = false -> Permutation order (gVectors P) -> dynDevice P order q m n = dynHost P q m n.
Proof. exact device_host. Qed.
Print Assumptions C89_device.
Example C89_ex : lr2d exPolar = false /\ Permutation (rev (gVectors exPolar)) (gVectors exPolar).
Proof. split; [reflexivity|apply Permutation_sym, Permutation_rev]. Qed.

(** C90. At q = 0 the three rigid translations have zero frequency, provided the force constants are symmetric and exert no net force ... *)
Theorem C90_acoustic : forall P j, gridPositive P -> SymmetricForce P -> WeightsOne P -> NoNetForce P -> MassesPositive P -> hasDiel P = false ->
  0 <= j < 3 -> EigenPair (3 * nAt P) (dynHost P vzero) 0 (translation P j).
Proof. intros P j g S W N M D hj. apply (acoustic_iff P g S W N M); [|exact hj]. intros D'. congruence. Qed.
Print Assumptions C90_acoustic.
(** ... in polar materials if the Born charges are scalars ... *)
Theorem C90_acoustic_polar : forall P z j, gridPositive P -> SymmetricForce P -> WeightsOne P -> NoNetForce P -> MassesPositive P ->
  (forall b k l, 0 <= k < 3 -> 0 <= l < 3 -> born P b k l = if k =? l then z b else 0%R) ->
  0 <= j < 3 -> EigenPair (3 * nAt P) (dynHost P vzero) 0 (translation P j).
Proof. intros P z j g S W N M Z hj. apply (acoustic_iff P g S W N M); [|exact hj]. intros _ i k a hi hk _. now apply (scalar_lr1 P z). Qed.
Print Assumptions C90_acoustic_polar.
(** ... or, in general, exactly when the on-site correction is symmetric ... *)
Theorem C90_acoustic_exactly : forall P, gridPositive P -> SymmetricForce P -> WeightsOne P -> NoNetForce P -> MassesPositive P ->
  ((forall j, 0 <= j < 3 -> EigenPair (3 * nAt P) (dynHost P vzero) 0 (translation P j)) <->
   (hasDiel P = true -> forall i j a, 0 <= i < 3 -> 0 <= j < 3 -> 0 <= a < nAt P -> lr1 P i j a = lr1 P j i a)).
Proof. exact acoustic_iff. Qed.
Print Assumptions C90_acoustic_exactly.
(** ... which neutral charge tensors do not ensure. *)
Theorem C90_acoustic_tensor_charges_refuted : exists P, gridPositive P /\ SymmetricForce P /\ WeightsOne P /\ NoNetForce P /\ MassesPositive P /\ NeutralCharges P /\
  ~ (forall j, 0 <= j < 3 -> EigenPair (3 * nAt P) (dynHost P vzero) 0 (translation P j)).
Proof.
  exists exBad. split; [repeat split; cbn; lia|]. assert (S : SymmetricForce exBad) by (intros i j a b [[n1 n2] n3] _ _ _ _; reflexivity).
  assert (N : NoNetForce exBad).
  { intros i j a _ _ _. apply rsum_zero. intros b _. apply rsum_zero. intros [[m1 m2] m3] _. reflexivity. }
  assert (M : MassesPositive exBad) by (intros a _; cbn; lra).
  split; [exact S|]. split; [exact exBad_weights|]. split; [exact N|]. split; [exact M|]. split.
  { intros k i hk hi. change (zrange 0 (nAt exBad)) with [0; 1; 2]. assert (k = 0 \/ k = 1 \/ k = 2) as [-> | [-> | ->]] by lia; assert (i = 0 \/ i = 1 \/ i = 2) as [-> | [-> | ->]] by lia; cbn; ring. }
  intros A. assert (g : gridPositive exBad) by (repeat split; cbn; lia).
  pose proof (proj1 (acoustic_iff exBad g S exBad_weights N M) A eq_refl 0 1 0 ltac:(lia) ltac:(lia) ltac:(cbn; lia)) as E. destruct bad_lr1. lra.
Qed.
Print Assumptions C90_acoustic_tensor_charges_refuted.
Example C90_ex : gridPositive exPh /\ SymmetricForce exPh /\ WeightsOne exPh /\ NoNetForce exPh /\ MassesPositive exPh /\ hasDiel exPh = false /\ gridPositive exPolar /\ WeightsOne exPolar /\ MassesPositive exPolar /\ force exPh 0 0 0 0 0 0 0 = 1%R.
Proof.
  split; [exact exPh_grid|]. split; [exact exPh_sym|]. split; [exact exPh_weights|]. split; [exact exPh_net|]. split; [intros a _; cbn; lra|]. split; [reflexivity|].
  split; [exact exPh_grid|]. split; [exact exPh_weights|]. split; [intros a _; cbn; lra|]. reflexivity.
Qed.

(** C91. A frequency is the signed square root of an eigenvalue, on both paths; order and number of modes are those of the eigenvalues, negative
    eigenvalues give negative frequencies. Eigenvectors scaled by the masses satisfy U^+ M U = 1. *)
Theorem C91_same : forall w, freqHost w = freqDevice w.
Proof. exact freq_same. Qed.
Print Assumptions C91_same.
Theorem C91_square : forall w, (freqHost w * Rabs (freqHost w) = w)%R.
Proof. exact freq_square. Qed.
Print Assumptions C91_square.
Theorem C91_order : forall w v, (w < v)%R -> (freqHost w < freqHost v)%R.
Proof. exact freq_incr. Qed.
Print Assumptions C91_order.
Theorem C91_mass_normalised : forall P U n1 n2, MassesPositive P -> Unitary (3 * nAt P) U -> 0 <= n1 < 3 * nAt P -> 0 <= n2 < 3 * nAt P ->
  csumTo (3 * nAt P) (fun m => cscale (mass P (m / 3)) (cmul (cconj (massScale P U m n1)) (massScale P U m n2))) = idMat n1 n2.
Proof. exact mass_norm. Qed.
Print Assumptions C91_mass_normalised.
Example C91_ex : freqHost 4 = 2%R /\ freqHost (-4) = (-2)%R /\ MassesPositive exPh /\ Unitary (3 * nAt exPh) idMat.
Proof.
  split. { unfold freqHost. destruct (Rlt_dec 4 0); [lra|]. replace 4%R with (2 * 2)%R by ring. apply sqrt_square. lra. }
  split. { unfold freqHost. destruct (Rlt_dec (-4) 0); [|lra]. replace (- -4)%R with (2 * 2)%R by ring. rewrite sqrt_square; lra. }
  split; [intros a _; cbn; lra|].
  assert (A : SameMat 3 (adjoint idMat) idMat) by (intros i j _ _; unfold adjoint, idMat; rewrite Z.eqb_sym; destruct (i =? j); apply cplx_eq; cbn; ring).
  split; change (3 * nAt exPh) with 3.
  - eapply same_trans; [apply same_mul; [exact A|apply same_refl]|apply same_id_l].
  - eapply same_trans; [apply same_mul; [apply same_refl|exact A]|apply same_id_l].
Qed.

(** C92. The matrix differentiated to obtain velocities is the square root of the dynamical matrix: it squares to it when the crystal is stable,
    is Hermitian and does not depend on the phases of the eigenvectors. When the eigenvectors do not change along a direction the velocity
    operator is diagonal with the finite differences of the frequencies. *)
Theorem C92_root : forall n D U w, Unitary n U -> SameMat n (rotateV n U D) (diagR w) -> (forall i, 0 <= i < n -> (0 <= w i)%R) ->
  SameMat n (matMul n (sqrtDyn n U (fun i => freqHost (w i))) (sqrtDyn n U (fun i => freqHost (w i)))) D.
Proof. exact sqrtDyn_root. Qed.
Print Assumptions C92_root.
Theorem C92_hermitian : forall n U e, Hermitian n (sqrtDyn n U e).
Proof. exact sqrtDyn_hermitian. Qed.
Print Assumptions C92_hermitian.
Theorem C92_phases : forall n U e p, SameMat n (sqrtDyn n (fun m l => cmul (U m l) (cexpi (p l))) e) (sqrtDyn n U e).
Proof. exact sqrtDyn_phase. Qed.
Print Assumptions C92_phases.
Theorem C92_velocity : forall n delta U ep em, delta <> 0%R -> Unitary n U ->
  SameMat n (rotateV n U (hostDer delta (sqrtDyn n U ep) (sqrtDyn n U em))) (diagR (fun i => (ep i - em i) / (2 * delta))%R).
Proof. exact velocity_diag. Qed.
Print Assumptions C92_velocity.
Example C92_ex : Unitary 3 idMat /\ SameMat 3 (rotateV 3 idMat (diagR (fun i => IZR (i + 1)))) (diagR (fun i => IZR (i + 1))) /\ forall i, 0 <= i < 3 -> (0 <= IZR (i + 1))%R.
Proof.
  assert (A : SameMat 3 (adjoint idMat) idMat) by (intros i j _ _; unfold adjoint, idMat; rewrite Z.eqb_sym; destruct (i =? j); apply cplx_eq; cbn; ring).
  split; [split|split].
  - eapply same_trans; [apply same_mul; [exact A|apply same_refl]|apply same_id_l].
  - eapply same_trans; [apply same_mul; [apply same_refl|exact A]|apply same_id_l].
  - unfold rotateV. eapply same_trans; [apply same_id_r|]. eapply same_trans; [apply same_mul; [exact A|apply same_refl]|apply same_id_l].
  - intros i hi. apply IZR_le. lia.
Qed.

(** C93. Expected: each term of the dipole-dipole sum is 4 pi e^2 / V ... In the code fourPi is 2 pi (constants.h:12): every term has half the value. *)
Theorem C93_dipole_refuted : forall P q G i j a b, lr2d P = false -> inCut P (quad (eps P) (vadd G q)) = true ->
  lrTerm P q G i j a b = cscale (/ 2) (dipoleTerm P (vadd G q) i j a b).
Proof. exact dipole_half. Qed.
Print Assumptions C93_dipole_refuted.
Example C93_ex : lr2d exPolar = false /\ inCut exPolar (quad (eps exPolar) (vadd vzero (v3r 1 0 0))) = true /\ dipoleTerm exPolar (vadd vzero (v3r 1 0 0)) 0 0 0 0 <> c0.
Proof.
  split; [reflexivity|]. assert (Q : quad (eps exPolar) (vadd vzero (v3r 1 0 0)) = 1%R) by (unfold quad, dot3, vadd, vzero, v3r; cbn; ring). split.
  - rewrite Q. unfold inCut. destruct (Rlt_dec 0 1); [|lra]. destruct (Rlt_dec 1 (4 * gMax exPolar)); [reflexivity|cbn in *; lra].
  - unfold dipoleTerm. rewrite Q. change (fun k : Z => (Q2R (tau exPolar 0 k) - Q2R (tau exPolar 0 k))%R) with (tauDiff exPolar 0 0). replace (dot3 (vadd vzero (v3r 1 0 0)) (tauDiff exPolar 0 0)) with 0%R by (unfold dot3, tauDiff; ring). rewrite expi_0. intro E. apply (f_equal fst) in E.
    cbn [cscale c1 c0 fst] in E. unfold gZ, vadd, vzero, v3r in E. cbn in E. pose proof (exp_pos (- (1) / 4)). pose proof PI_RGT_0. assert (0 < PI * exp (- (1) / 4))%R by nra. lra.
Qed.
