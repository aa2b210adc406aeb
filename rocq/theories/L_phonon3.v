From Coq Require Import Reals QArith Qreals Permutation.
From Verif Require Import Base BaseLemmas M_utilities L_utilities M_complex L_complex M_matrix L_matrix M_electron S_electron L_electron4 M_phonon S_phonon L_phonon L_phonon2.
From Coq Require Import Lia Lra.
Open Scope Z_scope.

Lemma eq3_spec m n : eq3 m n = true <-> m = n.
Proof.
  destruct m as [[a b] c], n as [[x y] z]. unfold eq3. rewrite !Bool.andb_true_iff, !Z.eqb_eq. split; [intros [[-> ->] ->]; reflexivity|].
  intros h. injection h as -> -> ->. easy.
Qed.
Lemma wrap_in P n : gridPositive P -> In (wrap P n) (gridCells P).
Proof.
  intros (h0 & h1 & h2). destruct n as [[n1 n2] n3]. unfold gridCells. cbn [wrap].
  rewrite !in_prod_iff, !in_zrange. pose proof (Z.mod_pos_bound n1 _ h0). pose proof (Z.mod_pos_bound n2 _ h1). pose proof (Z.mod_pos_bound n3 _ h2). lia.
Qed.
Lemma NoDup_grid P : NoDup (gridCells P).
Proof. unfold gridCells. apply NoDup_list_prod; [apply NoDup_list_prod|]; apply NoDup_zrange. Qed.
Lemma forceAt_wrap P i j n a b : gridPositive P -> forceAt P i j (wrap P n) a b = forceAt P i j n a b.
Proof.
  intros (h0 & h1 & h2). destruct n as [[n1 n2] n3]. unfold forceAt. cbn [wrap]. rewrite !Z.mod_mod by lia. reflexivity.
Qed.
Lemma dot3_zero v : dot3 vzero v = 0%R.
Proof. unfold dot3, vzero. ring. Qed.
Lemma fourier_gamma P i j a b : gridPositive P -> WeightsOne P -> 0 <= a < nAt P -> 0 <= b < nAt P ->
  fourier P vzero i j a b = (rsum (map (fun m => forceAt P i j m a b) (gridCells P)), 0%R).
Proof.
  intros g W ha hb. unfold fourier.
  rewrite (csum_map_ext _ (fun n => ((weightAt P n a b * forceAt P i j n a b)%R, 0%R))).
  2:{ intros n _. rewrite dot3_zero, Ropp_0, expi_0. apply cplx_eq; cbn; ring. }
  rewrite csum_real. f_equal.
  transitivity (rsum (map (fun n => rsum (map (fun m => if eq3 m (wrap P n) then (weightAt P n a b * forceAt P i j m a b)%R else 0%R) (gridCells P))) (cellsBig P))).
  { apply rsum_ext. intros n _. rewrite (rsum_single eq3 (fun m => (weightAt P n a b * forceAt P i j m a b)%R)); [|apply eq3_spec|apply NoDup_grid|now apply wrap_in].
    now rewrite forceAt_wrap. }
  rewrite rsum_swap. apply rsum_ext. intros m hm.
  rewrite (rsum_ext _ (fun n => forceAt P i j m a b * (if eq3 (wrap P n) m then weightAt P n a b else 0))%R).
  - rewrite rsum_mul_l, <- rsum_filter, W by assumption. ring.
  - intros n _. assert (E : eq3 m (wrap P n) = eq3 (wrap P n) m). { destruct (eq3 m (wrap P n)) eqn:E1, (eq3 (wrap P n) m) eqn:E2; try reflexivity. - apply eq3_spec in E1. rewrite <- E1 in E2. rewrite (proj2 (eq3_spec m m) eq_refl) in E2. easy. - apply eq3_spec in E2. rewrite E2 in E1. rewrite (proj2 (eq3_spec m m) eq_refl) in E1. easy. }
    rewrite E. destruct (eq3 (wrap P n) m); ring.
Qed.
Lemma fourier_acoustic P i j a : gridPositive P -> WeightsOne P -> NoNetForce P -> 0 <= i < 3 -> 0 <= j < 3 -> 0 <= a < nAt P ->
  csumTo (nAt P) (fun b => fourier P vzero i j a b) = c0.
Proof.
  intros g W N hi hj ha. rewrite (csumTo_ext _ _ (fun b => (rsum (map (fun m => forceAt P i j m a b) (gridCells P)), 0%R))) by (intros; now apply fourier_gamma).
  unfold csumTo. rewrite csum_real, N by assumption. reflexivity.
Qed.

(** * long range term at q = 0 *)
Lemma geg_ext P g g' : (forall i, g' i = g i) -> gegHost P g' = gegHost P g.
Proof. intros h. unfold gegHost, quad, vnorm, dot3. now rewrite !h. Qed.
Lemma norm_ext P g g' : (forall i, g' i = g i) -> normHost P g' = normHost P g.
Proof. intros h. unfold normHost. rewrite (geg_ext P g g' h). unfold vnorm, dot3. now rewrite !h. Qed.
Lemma gZ_ext P g g' i a : (forall i, g' i = g i) -> gZ P g' i a = gZ P g i a.
Proof. intros h. unfold gZ. now rewrite !h. Qed.
Definition lrGamma (P : phonon) (G : vec) (i j a b : Z) : cplx :=
  if inCut P (gegHost P G) then cscale (normHost P G * (gZ P G i a * gZ P G j b)) (cexpi (dot3 (tauDiff P a b) G)) else c0.
Lemma lrTerm_gamma P G i j a b : lrTerm P vzero G i j a b = lrGamma P G i j a b.
Proof.
  assert (h : forall i, vadd G vzero i = G i) by (intros; unfold vadd, vzero; ring).
  unfold lrTerm, lrGamma. cbv zeta. rewrite (geg_ext P _ _ h), (norm_ext P _ _ h), !(gZ_ext P _ _ _ _ h).
  replace (dot3 (tauDiff P a b) (vadd G vzero)) with (dot3 (tauDiff P a b) G) by (unfold dot3; now rewrite !h).
  destruct (inCut P (gegHost P G)); [|reflexivity]. generalize (cexpi (dot3 (tauDiff P a b) G)). intro. apply cplx_eq; cbn; ring.
Qed.
Lemma lrGamma_odd P G G' i j a b : (forall i, G' i = (- G i)%R) -> lrGamma P G' i j a b = cconj (lrGamma P G i j a b).
Proof.
  intros h. unfold lrGamma. rewrite (gegHost_opp P G G' h), (normHost_opp P G G' h), !(gZ_opp P G G' _ _ h), (dot3_opp_r _ G) by exact h.
  destruct (inCut P (gegHost P G)); [|now rewrite conj_0]. rewrite conj_scale, conj_expi. f_equal. ring.
Qed.
Lemma real_sum P i j a b : snd (csum (map (fun G => lrGamma P G i j a b) (gVectors P))) = 0%R.
Proof.
  assert (E : csum (map (fun G => lrGamma P G i j a b) (gVectors P)) = cconj (csum (map (fun G => lrGamma P G i j a b) (gVectors P)))).
  { rewrite csum_conj. apply csum_gVectors. intros. now apply lrGamma_odd. }
  apply (f_equal snd) in E. cbn [cconj snd] in E. lra.
Qed.
Lemma csum_fst {A} (f : A -> cplx) l : fst (csum (map f l)) = rsum (map (fun x => fst (f x)) l).
Proof. induction l; cbn [map]; [reflexivity|]. rewrite csum_cons, rsum_cons, <- IHl. reflexivity. Qed.
Lemma csum_snd {A} (f : A -> cplx) l : snd (csum (map f l)) = rsum (map (fun x => snd (f x)) l).
Proof. induction l; cbn [map]; [reflexivity|]. rewrite csum_cons, rsum_cons, <- IHl. reflexivity. Qed.
(** the sum over b of the term that depends on q, at q = 0 *)
Lemma lr_sum P i j a : csumTo (nAt P) (fun b => csum (map (fun G => lrTerm P vzero G i j a b) (gVectors P))) = ((- lr1 P i j a)%R, 0%R).
Proof.
  rewrite (csumTo_ext _ _ (fun b => csum (map (fun G => lrGamma P G i j a b) (gVectors P)))) by (intros; apply csum_map_ext; intros; apply lrTerm_gamma).
  unfold csumTo. apply cplx_eq; cbn [fst snd].
  - rewrite csum_fst. rewrite (rsum_ext _ (fun b => rsum (map (fun G => fst (lrGamma P G i j a b)) (gVectors P)))) by (intros; apply csum_fst).
    rewrite rsum_swap. unfold lr1. replace (- rsum (map (fun g => if inCut P (gegHost P g) then - normHost P g * gZ P g i a * fnAt P g a j else 0) (gVectors P)))%R
      with (-1 * rsum (map (fun g => if inCut P (gegHost P g) then - normHost P g * gZ P g i a * fnAt P g a j else 0) (gVectors P)))%R by lra.
    rewrite <- rsum_mul_l. apply rsum_ext. intros G _. unfold lrGamma. destruct (inCut P (gegHost P G)).
    + rewrite (rsum_ext _ (fun b => (normHost P G * gZ P G i a) * (gZ P G j b * cos (dot3 (tauDiff P a b) G)))%R).
      * rewrite rsum_mul_l. unfold fnAt. ring.
      * intros b _. cbn [fst cscale cexpi]. ring.
    + rewrite rsum_zero; [ring|]. reflexivity.
  - rewrite csum_snd. apply rsum_zero. intros b _. apply real_sum.
Qed.
Lemma lr_sum' P i j a : csumTo (nAt P) (fun b => csum (map (fun G => lrTerm P vzero G j i b a) (gVectors P))) = ((- lr1 P i j a)%R, 0%R).
Proof.
  transitivity (cconj (csumTo (nAt P) (fun b => csum (map (fun G => lrTerm P vzero G i j a b) (gVectors P))))).
  - rewrite csumTo_conj. apply csumTo_ext. intros b _. rewrite csum_conj. apply csum_map_ext. intros G _. apply lrTerm_hermitian.
  - rewrite lr_sum. apply cplx_eq; cbn; ring.
Qed.

(** * sums over the 3 nAt components *)
Lemma csumTo_S n f : 0 <= n -> csumTo (n + 1) f = cadd (csumTo n f) (f n).
Proof. intros h. unfold csumTo. rewrite zrange_S by lia. rewrite map_app, csum_app. cbn [map]. rewrite csum_cons, csum_nil. replace (0 + n) with n by lia. f_equal. apply cplx_eq; cbn; ring. Qed.
Lemma csumTo_3 n f : 0 <= n -> csumTo (3 * n) f = csumTo n (fun b => cadd (cadd (f (3 * b)) (f (3 * b + 1))) (f (3 * b + 2))).
Proof.
  intros h. revert n h. apply natlike_ind.
  - reflexivity.
  - intros n h IH. unfold Z.succ. rewrite csumTo_S by lia. rewrite <- IH. replace (3 * (n + 1)) with (3 * n + 1 + 1 + 1) by lia.
    rewrite !csumTo_S by lia. replace (3 * n + 1 + 1) with (3 * n + 2) by lia.
    generalize (csumTo (3 * n) f), (f (3 * n)), (f (3 * n + 1)), (f (3 * n + 2)). intros. apply cplx_eq; cbn; ring.
Qed.
Lemma split3 b j : 0 <= j < 3 -> (3 * b + j) mod 3 = j /\ (3 * b + j) / 3 = b.
Proof. intros h. assert ((3 * b + j) / 3 = b) by (symmetry; apply Z.div_unique with j; lia). split; [|assumption]. rewrite Z.mod_eq by lia. lia. Qed.
Lemma pick3 n (f : Z -> cplx) (w : Z -> R) j : 0 <= n -> 0 <= j < 3 ->
  csumTo (3 * n) (fun l => cmul (f l) (if l mod 3 =? j then (w (l / 3), 0%R) else c0)) = csumTo n (fun b => cscale (w b) (f (3 * b + j))).
Proof.
  intros h hj. rewrite csumTo_3 by assumption. apply csumTo_ext. intros b _.
  destruct (split3 b 0 ltac:(lia)) as [E0 F0], (split3 b 1 ltac:(lia)) as [E1 F1], (split3 b 2 ltac:(lia)) as [E2 F2].
  rewrite Z.add_0_r in E0, F0. rewrite E0, F0, E1, F1, E2, F2.
  assert (j = 0 \/ j = 1 \/ j = 2) as [-> | [-> | ->]] by lia; cbn [Z.eqb Pos.eqb]; rewrite ?Z.add_0_r;
    generalize (f (3 * b)), (f (3 * b + 1)), (f (3 * b + 2)); intros; apply cplx_eq; cbn; ring.
Qed.

(** * translations at q = 0 *)
Lemma dyn_sum P i j a : gridPositive P -> WeightsOne P -> NoNetForce P -> 0 <= i < 3 -> 0 <= j < 3 -> 0 <= a < nAt P ->
  csumTo (nAt P) (fun b => dyn P vzero i j a b) = c0.
Proof.
  intros g W N hi hj ha. unfold dyn.
  rewrite (csumTo_ext _ _ (fun b => if hasDiel P then cadd (fourier P vzero i j a b) (longRange P vzero i j a b) else fourier P vzero i j a b)) by (intros; now rewrite shortRange_fourier by assumption).
  destruct (hasDiel P); [|now apply fourier_acoustic].
  rewrite csumTo_add, fourier_acoustic by assumption. unfold longRange. rewrite csumTo_add, lr_sum.
  rewrite (csumTo_ext _ _ (fun b => if b =? a then (lr1 P i j a, 0%R) else c0)) by (intros; now rewrite Z.eqb_sym).
  rewrite (csumTo_single (nAt P) (fun _ => (lr1 P i j a, 0%R)) a) by assumption. apply cplx_eq; cbn; ring.
Qed.
(** the sums over the other atom *)
Lemma dyn_sum' P i j a : gridPositive P -> SymmetricForce P -> WeightsOne P -> NoNetForce P -> 0 <= i < 3 -> 0 <= j < 3 -> 0 <= a < nAt P ->
  csumTo (nAt P) (fun b => dyn P vzero j i b a) = if hasDiel P then ((lr1 P j i a - lr1 P i j a)%R, 0%R) else c0.
Proof.
  intros g S W N hi hj ha. unfold dyn.
  rewrite (csumTo_ext _ _ (fun b => if hasDiel P then cadd (cconj (fourier P vzero i j a b)) (longRange P vzero j i b a) else cconj (fourier P vzero i j a b)))
    by (intros; rewrite shortRange_fourier by assumption; now rewrite (fourier_hermitian P vzero j i) by assumption).
  destruct (hasDiel P).
  - rewrite csumTo_add, <- csumTo_conj, fourier_acoustic by assumption. unfold longRange. rewrite csumTo_add, lr_sum'.
    rewrite (csumTo_single (nAt P) (fun b => (lr1 P j i b, 0%R)) a) by assumption. rewrite conj_0. apply cplx_eq; cbn; ring.
  - rewrite <- csumTo_conj, fourier_acoustic by assumption. apply conj_0.
Qed.
Lemma translation_image P a i j : gridPositive P -> SymmetricForce P -> WeightsOne P -> NoNetForce P -> MassesPositive P ->
  0 <= i < 3 -> 0 <= j < 3 -> 0 <= a < nAt P ->
  mulVec (3 * nAt P) (dynHost P vzero) (translation P j) (3 * a + i)
  = if hasDiel P then ((lr1 P j i a - lr1 P i j a) / (2 * sqrt (mass P a)), 0)%R else c0.
Proof.
  intros g S W N M hi hj ha. unfold mulVec, translation. rewrite (pick3 (nAt P) (dynHost P vzero (3 * a + i)) (fun b => sqrt (mass P b)) j) by lia.
  destruct (split3 a i hi) as [Ei Fi].
  rewrite (csumTo_ext _ _ (fun b => cscale (/ (2 * sqrt (mass P a))) (cadd (dyn P vzero i j a b) (cconj (dyn P vzero j i b a))))).
  - rewrite csumTo_scale, csumTo_add, <- csumTo_conj, dyn_sum, dyn_sum' by assumption.
    destruct (hasDiel P); [|rewrite conj_0]; apply cplx_eq; cbn; unfold Rdiv; ring.
  - intros b hb. destruct (split3 b j hj) as [Ej Fj]. unfold dynHost, hermitise, dynTmp. rewrite Ei, Fi, Ej, Fj.
    pose proof (M a ha) as Ma. pose proof (M b hb) as Mb. rewrite sqrt_mult by lra. pose proof (sqrt_lt_R0 _ Ma). pose proof (sqrt_lt_R0 _ Mb).
    generalize (dyn P vzero i j a b), (dyn P vzero j i b a). intros x y. apply cplx_eq; cbn; field; lra.
Qed.
Lemma acoustic_iff P : gridPositive P -> SymmetricForce P -> WeightsOne P -> NoNetForce P -> MassesPositive P ->
  ((forall j, 0 <= j < 3 -> EigenPair (3 * nAt P) (dynHost P vzero) 0 (translation P j)) <->
   (hasDiel P = true -> forall i j a, 0 <= i < 3 -> 0 <= j < 3 -> 0 <= a < nAt P -> lr1 P i j a = lr1 P j i a)).
Proof.
  intros g S W N M. split.
  - intros E D i j a hi hj ha. pose proof (translation_image P a i j g S W N M hi hj ha) as T. rewrite D in T.
    rewrite (E j hj) in T by lia. apply (f_equal fst) in T. cbn in T. pose proof (sqrt_lt_R0 _ (M a ha)).
    rewrite Rmult_0_l in T. unfold Rdiv in T. symmetry in T. apply Rmult_integral in T. destruct T as [T|T]; [lra|].
    exfalso. apply (Rinv_neq_0_compat (2 * sqrt (mass P a))); [lra|exact T].
  - intros L j hj m hm. destruct (idx3 P m hm) as [h1 h2]. rewrite (Z.div_mod m 3) at 1 by lia.
    rewrite translation_image by assumption. destruct (hasDiel P).
    + rewrite (L eq_refl (m mod 3) j) by assumption. apply cplx_eq; cbn; unfold Rdiv; ring.
    + apply cplx_eq; cbn; ring.
Qed.
