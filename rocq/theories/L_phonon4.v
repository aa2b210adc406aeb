From Coq Require Import Reals QArith Qreals Permutation.
From Verif Require Import Base BaseLemmas M_complex L_complex M_electron S_electron L_electron2 L_electron3 L_electron4 L_electron5 M_phonon S_phonon L_phonon L_phonon2 L_phonon3.
From Coq Require Import Lia Lra.
Open Scope Z_scope.

(** * frequencies *)
Lemma freq_same w : freqHost w = freqDevice w.
Proof.
  unfold freqHost, freqDevice. destruct (Rlt_dec w 0), (Rlt_dec 0 w); try lra; try reflexivity.
  assert (w = 0%R) as -> by lra. rewrite Ropp_0, sqrt_0. ring.
Qed.
Lemma freq_square w : (freqHost w * Rabs (freqHost w) = w)%R.
Proof.
  unfold freqHost. destruct (Rlt_dec w 0) as [h|h].
  - rewrite Rabs_Ropp, (Rabs_pos_eq (sqrt (- w))) by apply sqrt_pos. rewrite <- Ropp_mult_distr_l, sqrt_sqrt by lra. ring.
  - rewrite Rabs_pos_eq by apply sqrt_pos. apply sqrt_sqrt. lra.
Qed.
Lemma freq_incr w v : (w < v)%R -> (freqHost w < freqHost v)%R.
Proof.
  intros h. unfold freqHost. destruct (Rlt_dec w 0), (Rlt_dec v 0); try lra.
  - apply Ropp_lt_contravar, sqrt_lt_1; lra.
  - pose proof (sqrt_lt_R0 (- w) ltac:(lra)). pose proof (sqrt_pos v). lra.
  - apply sqrt_lt_1; lra.
Qed.

(** * eigenvectors scaled by the masses *)
Lemma mass_norm P U n1 n2 : MassesPositive P -> Unitary (3 * nAt P) U -> 0 <= n1 < 3 * nAt P -> 0 <= n2 < 3 * nAt P ->
  csumTo (3 * nAt P) (fun m => cscale (mass P (m / 3)) (cmul (cconj (massScale P U m n1)) (massScale P U m n2))) = idMat n1 n2.
Proof.
  intros M [U1 _] h1 h2. rewrite <- (U1 n1 n2 h1 h2). apply csumTo_ext. intros m hm. destruct (idx3 P m hm) as [_ ha]. specialize (M _ ha).
  unfold massScale, adjoint. rewrite conj_scale. pose proof (sqrt_lt_R0 _ M) as S. pose proof (sqrt_sqrt (mass P (m / 3)) ltac:(lra)) as Q.
  generalize dependent (sqrt (mass P (m / 3))). intros s Hs Q. rewrite <- Q. generalize (U m n1), (U m n2). intros. apply cplx_eq; cbn; field; lra.
Qed.

(** * square root of the dynamical matrix *)
Lemma mul_diag n A e i j : 0 <= j < n -> matMul n A (diagR e) i j = cscale (e j) (A i j).
Proof.
  intros h. unfold matMul, diagR. rewrite (csumTo_ext _ _ (fun l => if l =? j then cscale (e l) (A i l) else c0)).
  - apply (csumTo_single n (fun l => cscale (e l) (A i l))). exact h.
  - intros l _. destruct (Z.eqb_spec l j) as [->|]; [generalize (A i j)|generalize (A i l)]; intros; apply cplx_eq; cbn; ring.
Qed.
Lemma diag_mul n A e i j : 0 <= i < n -> matMul n (diagR e) A i j = cscale (e i) (A i j).
Proof.
  intros h. unfold matMul, diagR. rewrite (csumTo_ext _ _ (fun l => if l =? i then cscale (e l) (A l j) else c0)).
  - apply (csumTo_single n (fun l => cscale (e l) (A l j))). exact h.
  - intros l _. rewrite Z.eqb_sym. destruct (Z.eqb_spec l i) as [->|]; [generalize (A i j)|generalize (A l j)]; intros; apply cplx_eq; cbn; ring.
Qed.
Lemma sqrtDyn_def n U e : sqrtDyn n U e = matMul n (matMul n U (diagR e)) (adjoint U).
Proof. reflexivity. Qed.
Lemma sqrtDyn_sum n U e i j : 0 <= i < n -> 0 <= j < n -> sqrtDyn n U e i j = csumTo n (fun l => cscale (e l) (cmul (U i l) (cconj (U j l)))).
Proof.
  intros hi hj. rewrite !sqrtDyn_def. unfold matMul at 1. apply csumTo_ext. intros l hl.
  rewrite mul_diag by assumption. unfold adjoint. now rewrite <- scale_mul_l.
Qed.
Lemma sqrtDyn_hermitian n U e : Hermitian n (sqrtDyn n U e).
Proof.
  intros i j hi hj. rewrite !sqrtDyn_sum by assumption. rewrite csumTo_conj. apply csumTo_ext. intros l _. rewrite conj_scale, conj_mul, conj_conj.
  generalize (U i l), (U j l). intros. apply cplx_eq; cbn; ring.
Qed.
Lemma same_mul n A A' B B' : SameMat n A A' -> SameMat n B B' -> SameMat n (matMul n A B) (matMul n A' B').
Proof. intros h k i j hi hj. unfold matMul. apply csumTo_ext. intros l hl. now rewrite h, k. Qed.
Lemma same_trans n A B D : SameMat n A B -> SameMat n B D -> SameMat n A D.
Proof. intros h k i j hi hj. now rewrite h, k. Qed.
Lemma same_sym n A B : SameMat n A B -> SameMat n B A.
Proof. intros h i j hi hj. now rewrite h. Qed.
Lemma same_refl n A : SameMat n A A. Proof. intros i j _ _. reflexivity. Qed.
Lemma same_assoc n A B D : SameMat n (matMul n (matMul n A B) D) (matMul n A (matMul n B D)).
Proof. intros i j _ _. apply matMul_assoc. Qed.
Lemma same_id_l n A : SameMat n (matMul n idMat A) A.
Proof. intros i j hi hj. apply matMul_id_l. exact hi. Qed.
Lemma same_id_r n A : SameMat n (matMul n A idMat) A.
Proof.
  intros i j hi hj. unfold matMul, idMat. rewrite (csumTo_ext _ _ (fun l => if l =? j then A i l else c0)).
  - apply (csumTo_single n (fun l => A i l)). exact hj.
  - intros l _. destruct (l =? j); generalize (A i l); intros; apply cplx_eq; cbn; ring.
Qed.
(** U^+ (U e U^+) U = e *)
Lemma rotate_sqrt n U e : Unitary n U -> SameMat n (rotateV n U (sqrtDyn n U e)) (diagR e).
Proof.
  intros [U1 U2]. unfold rotateV. rewrite sqrtDyn_def.
  eapply same_trans; [apply same_mul; [apply same_sym, same_assoc|apply same_refl]|].
  eapply same_trans; [apply same_assoc|]. eapply same_trans; [apply same_mul; [|exact U1]|].
  2:{ apply same_id_r. }
  eapply same_trans; [apply same_sym, same_assoc|]. eapply same_trans; [apply same_mul; [exact U1|apply same_refl]|]. apply same_id_l.
Qed.
Lemma sqrtDyn_square n U e : Unitary n U -> SameMat n (matMul n (sqrtDyn n U e) (sqrtDyn n U e)) (sqrtDyn n U (fun i => (e i * e i)%R)).
Proof.
  intros [U1 U2]. rewrite !sqrtDyn_def.
  eapply same_trans; [apply same_assoc|].
  eapply same_trans; [apply same_mul; [apply same_refl|]; eapply same_trans; [apply same_sym, same_assoc|]|].
  { apply same_mul; [|apply same_refl]. eapply same_trans; [apply same_sym, same_assoc|]. eapply same_trans; [apply same_mul; [exact U1|apply same_refl]|]. apply same_id_l. }
  eapply same_trans; [apply same_sym, same_assoc|]. apply same_mul; [|apply same_refl].
  intros i j hi hj. rewrite !mul_diag by assumption. rewrite scale_scale. reflexivity.
Qed.
(** a matrix that U diagonalises is U e U^+ *)
Lemma diagonal_form n D U w : Unitary n U -> SameMat n (rotateV n U D) (diagR w) -> SameMat n (sqrtDyn n U w) D.
Proof.
  intros [U1 U2] h. rewrite sqrtDyn_def.
  eapply same_trans; [apply same_mul; [apply same_mul; [apply same_refl|apply same_sym, h]|apply same_refl]|].
  unfold rotateV. eapply same_trans; [apply same_mul; [apply same_sym, same_assoc|apply same_refl]|].
  eapply same_trans; [apply same_assoc|]. eapply same_trans; [apply same_mul; [|exact U2]|]; [|apply same_id_r].
  eapply same_trans; [apply same_sym, same_assoc|]. eapply same_trans; [apply same_mul; [exact U2|apply same_refl]|]. apply same_id_l.
Qed.
Lemma sqrtDyn_ext n U e e' : (forall i, 0 <= i < n -> e i = e' i) -> SameMat n (sqrtDyn n U e) (sqrtDyn n U e').
Proof. intros h i j hi hj. rewrite !sqrtDyn_sum by assumption. apply csumTo_ext. intros l hl. now rewrite h. Qed.
Lemma sqrtDyn_root n D U w : Unitary n U -> SameMat n (rotateV n U D) (diagR w) -> (forall i, 0 <= i < n -> (0 <= w i)%R) ->
  SameMat n (matMul n (sqrtDyn n U (fun i => freqHost (w i))) (sqrtDyn n U (fun i => freqHost (w i)))) D.
Proof.
  intros u h p. eapply same_trans; [apply sqrtDyn_square, u|]. eapply same_trans; [|apply diagonal_form; eassumption].
  apply sqrtDyn_ext. intros i hi. specialize (p i hi). pose proof (freq_square (w i)) as F. rewrite Rabs_pos_eq in F; [exact F|].
  unfold freqHost. destruct (Rlt_dec (w i) 0); [lra|]. apply sqrt_pos.
Qed.
(** phases of the eigenvectors *)
Lemma sqrtDyn_phase n U e (p : Z -> R) : SameMat n (sqrtDyn n (fun m l => cmul (U m l) (cexpi (p l))) e) (sqrtDyn n U e).
Proof.
  intros i j hi hj. rewrite !sqrtDyn_sum by assumption. apply csumTo_ext. intros l _. f_equal. rewrite conj_mul, conj_expi.
  replace (cmul (cmul (U i l) (cexpi (p l))) (cmul (cconj (U j l)) (cexpi (- p l)))) with (cmul (cmul (U i l) (cconj (U j l))) (cmul (cexpi (p l)) (cexpi (- p l)))) by ring.
  rewrite <- expi_add, Rplus_opp_r, expi_0. ring.
Qed.
(** velocity for eigenvectors that do not change with q *)
Lemma velocity_diag n delta U ep em : delta <> 0%R -> Unitary n U ->
  SameMat n (rotateV n U (hostDer delta (sqrtDyn n U ep) (sqrtDyn n U em))) (diagR (fun i => (ep i - em i) / (2 * delta))%R).
Proof.
  intros hd u. eapply same_trans; [|apply rotate_sqrt, u]. apply rotateV_same; [apply same_refl|].
  intros i j hi hj. unfold hostDer. cbv zeta. rewrite !conj_scale, conj_sub. rewrite <- (sqrtDyn_hermitian n U ep i j hi hj), <- (sqrtDyn_hermitian n U em i j hi hj).
  rewrite !sqrtDyn_sum by assumption.
  transitivity (cscale (/ (2 * delta)) (csumTo n (fun l => cscale (ep l - em l) (cmul (U i l) (cconj (U j l)))))).
  - rewrite (csumTo_ext _ (fun l => cscale (ep l - em l) (cmul (U i l) (cconj (U j l)))) (fun l => cadd (cscale (ep l) (cmul (U i l) (cconj (U j l)))) (cscale (-1) (cscale (em l) (cmul (U i l) (cconj (U j l))))))).
    + rewrite csumTo_add, csumTo_scale. generalize (csumTo n (fun l => cscale (ep l) (cmul (U i l) (cconj (U j l))))), (csumTo n (fun l => cscale (em l) (cmul (U i l) (cconj (U j l))))). intros. apply cplx_eq; cbn; field; exact hd.
    + intros l _. generalize (cmul (U i l) (cconj (U j l))). intros. apply cplx_eq; cbn; ring.
  - rewrite <- csumTo_scale. apply csumTo_ext. intros l _. rewrite scale_scale. f_equal. field. exact hd.
Qed.

(** * dipole-dipole term *)
Lemma dipole_half P q G i j a b : lr2d P = false -> inCut P (quad (eps P) (vadd G q)) = true ->
  lrTerm P q G i j a b = cscale (/ 2) (dipoleTerm P (vadd G q) i j a b).
Proof.
  intros L C. unfold lrTerm, dipoleTerm. cbv zeta. unfold normHost, gegHost, lrNorm. rewrite L, C. change (fun k : Z => (Q2R (tau P a k) - Q2R (tau P b k))%R) with (tauDiff P a b).
  replace (dot3 (vadd G q) (tauDiff P a b)) with (dot3 (tauDiff P a b) (vadd G q)) by (unfold dot3; ring).
  unfold cppE2, cppFourPi. unfold Rdiv.
  generalize (cexpi (dot3 (tauDiff P a b) (vadd G q))), (exp (- quad (eps P) (vadd G q) * / 4)), (gZ P (vadd G q) i a), (gZ P (vadd G q) j b), (/ quad (eps P) (vadd G q))%R, (/ vol P)%R.
  intros. apply cplx_eq; cbn; field.
Qed.

(** * weights from a computation *)
Definition weightsOneB (P : phonon) : bool :=
  forallb (fun ab => forallb (fun m => Qeq_bool (fold_right Qplus 0%Q (map (fun n : Z * Z * Z => let '(n1, n2, n3) := n in wsCache P n1 n2 n3 (snd ab) (fst ab))
    (filter (fun n => eq3 (wrap P n) m) (cellsBig P)))) 1) (gridCells P)) (list_prod (zrange 0 (nAt P)) (zrange 0 (nAt P))).
Lemma weightsOneB_spec P : weightsOneB P = true -> WeightsOne P.
Proof.
  intros h a b m ha hb hm. unfold weightsOneB in h. rewrite forallb_forall in h. specialize (h (a, b)). rewrite forallb_forall in h.
  assert (E : In (a, b) (list_prod (zrange 0 (nAt P)) (zrange 0 (nAt P)))) by (apply in_prod_iff; rewrite !in_zrange; lia).
  specialize (h E m hm). apply Qeq_bool_eq in h. cbn [fst snd] in h. apply Qeq_eqR in h. rewrite RMicromega.Q2R_1 in h. rewrite <- h.
  generalize (filter (fun n => eq3 (wrap P n) m) (cellsBig P)). intro l. induction l as [|[[n1 n2] n3] l IH]; cbn [map fold_right rsum].
  - symmetry. apply RMicromega.Q2R_0.
  - rewrite Q2R_plus, <- IH. reflexivity.
Qed.
