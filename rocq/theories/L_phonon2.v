From Coq Require Import Reals QArith Qreals Permutation.
From Verif Require Import Base BaseLemmas M_utilities L_utilities M_complex L_complex M_matrix L_matrix M_electron S_electron L_electron4 M_phonon S_phonon L_phonon.
From Coq Require Import Lia Lra.
Open Scope Z_scope.

Lemma dot3_opp_r q v w : (forall i, w i = (- v i)%R) -> dot3 q w = (- dot3 q v)%R.
Proof. intros h. unfold dot3. rewrite !h. ring. Qed.
Lemma dot3_opp_l q v : dot3 (vopp q) v = (- dot3 q v)%R.
Proof. unfold dot3, vopp. ring. Qed.

(** * short range *)
Lemma fourier_hermitian P q i j a b : SymmetricForce P -> 0 <= i < 3 -> 0 <= j < 3 -> 0 <= a < nAt P -> 0 <= b < nAt P ->
  fourier P q i j a b = cconj (fourier P q j i b a).
Proof.
  intros S hi hj ha hb. unfold fourier. rewrite csum_conj, cellsBig_sym, csum_symBox. apply csum_map_ext. intros n _.
  rewrite conj_scale, conj_expi. rewrite (S j i b a n hj hi hb ha). rewrite <- (weightAt_opp P n b a). f_equal.
  f_equal. rewrite (dot3_opp_r q (latticeAt P n)) by apply latticeAt_opp. ring.
Qed.
Lemma fourier_reversal P q i j a b : fourier P (vopp q) i j a b = cconj (fourier P q i j a b).
Proof. unfold fourier. rewrite csum_conj. apply csum_map_ext. intros n _. rewrite conj_scale, conj_expi, dot3_opp_l. reflexivity. Qed.
Lemma fourier_periodic P G q i j a b : Reciprocal P G -> fourier P (vadd q G) i j a b = fourier P q i j a b.
Proof.
  intros R. unfold fourier. apply csum_map_ext. intros [[n1 n2] n3] _. f_equal.
  destruct (R 0 ltac:(lia)) as [z0 E0], (R 1 ltac:(lia)) as [z1 E1], (R 2 ltac:(lia)) as [z2 E2].
  rewrite <- (expi_period (- dot3 q (latticeAt P (n1, n2, n3))) (- (n1 * z0 + n2 * z1 + n3 * z2))). f_equal.
  rewrite opp_IZR, !plus_IZR, !mult_IZR.
  replace (2 * PI * - (IZR n1 * IZR z0 + IZR n2 * IZR z1 + IZR n3 * IZR z2))%R
    with (- (IZR n1 * (2 * PI * IZR z0) + IZR n2 * (2 * PI * IZR z1) + IZR n3 * (2 * PI * IZR z2)))%R by ring.
  rewrite <- E0, <- E1, <- E2. unfold dot3, vadd, toR. cbn. ring.
Qed.

(** * long range *)
Lemma gVectors_box P : gVectors P = map (fun m : Z * Z * Z => let '(m1, m2, m3) := m in fun i => (IZR m1 * recip P 0%Z i + IZR m2 * recip P 1%Z i + IZR m3 * recip P 2%Z i)%R) (symBox (nrx P 0) (nrx P 1) (nrx P 2)).
Proof. reflexivity. Qed.
Definition sameVec (v w : vec) : Prop := forall i, v i = w i.
Lemma quad_opp A g g' : (forall i, g' i = (- g i)%R) -> quad A g' = quad A g.
Proof. intros h. unfold quad, dot3. rewrite !h. ring. Qed.
Lemma vnorm_opp g g' : (forall i, g' i = (- g i)%R) -> vnorm g' = vnorm g.
Proof. intros h. unfold vnorm. f_equal. unfold dot3. rewrite !h. ring. Qed.
Lemma gegHost_opp P g g' : (forall i, g' i = (- g i)%R) -> gegHost P g' = gegHost P g.
Proof.
  intros h. unfold gegHost. rewrite !(quad_opp _ g g' h), (vnorm_opp g g' h), !h.
  replace (- g 0%Z * - g 0%Z + - g 1%Z * - g 1%Z)%R with (g 0%Z * g 0%Z + g 1%Z * g 1%Z)%R by ring. reflexivity.
Qed.
Lemma normHost_opp P g g' : (forall i, g' i = (- g i)%R) -> normHost P g' = normHost P g.
Proof. intros h. unfold normHost. now rewrite (gegHost_opp P g g' h), (vnorm_opp g g' h). Qed.
Lemma gZ_opp P g g' i a : (forall i, g' i = (- g i)%R) -> gZ P g' i a = (- gZ P g i a)%R.
Proof. intros h. unfold gZ. rewrite !h. ring. Qed.
(** a sum over the vectors G may be written with - G *)
Lemma csum_gVectors P (f : vec -> cplx) (g : vec -> cplx) :
  (forall G G', (forall i, G' i = (- G i)%R) -> f G' = g G) -> csum (map f (gVectors P)) = csum (map g (gVectors P)).
Proof.
  intros h. rewrite gVectors_box, !map_map. rewrite csum_symBox. apply csum_map_ext. intros [[m1 m2] m3] _.
  apply h. intros i. cbn. rewrite !opp_IZR. ring.
Qed.
Lemma vadd_opp G G' q : (forall i, G' i = (- G i)%R) -> forall i, vadd G' (vopp q) i = (- vadd G q i)%R.
Proof. intros h i. unfold vadd, vopp. rewrite h. ring. Qed.
Lemma lrTerm_reversal P q G G' i j a b : (forall i, G' i = (- G i)%R) -> lrTerm P (vopp q) G' i j a b = cconj (lrTerm P q G i j a b).
Proof.
  intros h. pose proof (vadd_opp G G' q h) as v. unfold lrTerm. cbv zeta.
  rewrite (gegHost_opp P _ _ v), (normHost_opp P _ _ v), !(gZ_opp P _ _ _ _ v).
  destruct (inCut P (gegHost P (vadd G q))); [|now rewrite conj_0].
  rewrite conj_mul, conj_scale, conj_expi. rewrite (dot3_opp_r (tauDiff P a b) (vadd G q)) by exact v.
  generalize (cexpi (- dot3 (tauDiff P a b) (vadd G q))). intro. apply cplx_eq; cbn; ring.
Qed.
Lemma tauDiff_swap P a b v : dot3 (tauDiff P b a) v = (- dot3 (tauDiff P a b) v)%R.
Proof. unfold dot3, tauDiff. ring. Qed.
Lemma lrTerm_hermitian P q G i j a b : lrTerm P q G i j a b = cconj (lrTerm P q G j i b a).
Proof.
  unfold lrTerm. cbv zeta. destruct (inCut P (gegHost P (vadd G q))); [|now rewrite conj_0].
  rewrite conj_mul, conj_scale, conj_expi, (tauDiff_swap P a b), Ropp_involutive.
  generalize (cexpi (dot3 (tauDiff P a b) (vadd G q))). intro. apply cplx_eq; cbn; ring.
Qed.
Lemma longRange_reversal P q i j a b : longRange P (vopp q) i j a b = cconj (longRange P q i j a b).
Proof.
  unfold longRange. rewrite conj_add, csum_conj. f_equal.
  - destruct (a =? b); [|now rewrite conj_0]. apply cplx_eq; cbn; ring.
  - apply csum_gVectors. intros G G' h. now apply lrTerm_reversal.
Qed.
Lemma longRange_hermitian P q i j a b : lr1 P i j a = lr1 P j i a -> longRange P q i j a b = cconj (longRange P q j i b a).
Proof.
  intros S. unfold longRange. rewrite conj_add, csum_conj. f_equal.
  - rewrite (Z.eqb_sym b a). destruct (Z.eqb_spec a b) as [<-|]; [|now rewrite conj_0]. rewrite S. apply cplx_eq; cbn; ring.
  - apply csum_map_ext. intros G _. apply lrTerm_hermitian.
Qed.

(** * the dynamical matrix *)
Lemma idx3 (P : phonon) m : 0 <= m < 3 * nAt P -> 0 <= m mod 3 < 3 /\ 0 <= m / 3 < nAt P.
Proof. intros h. pose proof (Z.mod_pos_bound m 3 ltac:(lia)). split; [lia|]. split; [apply Z.div_pos; lia|apply Z.div_lt_upper_bound; lia]. Qed.
Lemma dynTmp_reversal P q m n : gridPositive P -> 0 <= m < 3 * nAt P -> 0 <= n < 3 * nAt P -> dynTmp P (vopp q) m n = cconj (dynTmp P q m n).
Proof.
  intros g hm hn. apply idx3 in hm, hn. unfold dynTmp, dyn. rewrite !shortRange_fourier by easy. rewrite longRange_reversal, fourier_reversal.
  destruct (hasDiel P); [now rewrite conj_add|reflexivity].
Qed.
Lemma dynTmp_hermitian P q : gridPositive P -> SymmetricForce P -> (hasDiel P = true -> forall i j a, lr1 P i j a = lr1 P j i a) ->
  Hermitian (3 * nAt P) (dynTmp P q).
Proof.
  intros g S L m n hm hn. apply idx3 in hm, hn. unfold dynTmp, dyn. rewrite !shortRange_fourier by easy. rewrite (fourier_hermitian P q (m mod 3)) by easy.
  destruct (hasDiel P); [|reflexivity]. rewrite conj_add. f_equal. apply longRange_hermitian. now apply L.
Qed.
Lemma dynHost_hermitian P q n : Hermitian n (dynHost P q).
Proof.
  intros i j hi hj. unfold dynHost. rewrite conj_scale. rewrite (Rmult_comm (mass P (j / 3))). f_equal.
  apply (hermitise_hermitian n); assumption.
Qed.
Lemma dynHost_reversal P q m n : gridPositive P -> 0 <= m < 3 * nAt P -> 0 <= n < 3 * nAt P -> dynHost P (vopp q) m n = cconj (dynHost P q m n).
Proof.
  intros g hm hn. unfold dynHost, hermitise. rewrite !dynTmp_reversal by assumption. rewrite !conj_scale, conj_add. reflexivity.
Qed.
Lemma dynHost_plain P q m n : gridPositive P -> SymmetricForce P -> (hasDiel P = true -> forall i j a, lr1 P i j a = lr1 P j i a) ->
  0 <= m < 3 * nAt P -> 0 <= n < 3 * nAt P -> dynHost P q m n = cscale (/ sqrt (mass P (m / 3) * mass P (n / 3))) (dynTmp P q m n).
Proof. intros g S L hm hn. unfold dynHost. f_equal. apply (hermitise_id (3 * nAt P)); [now apply dynTmp_hermitian|assumption..]. Qed.
Lemma dynHost_periodic P G q m n : gridPositive P -> hasDiel P = false -> Reciprocal P G -> 0 <= m < 3 * nAt P -> 0 <= n < 3 * nAt P ->
  dynHost P (vadd q G) m n = dynHost P q m n.
Proof.
  intros g D R hm hn. pose proof (idx3 P m hm). pose proof (idx3 P n hn). unfold dynHost, hermitise, dynTmp, dyn. rewrite D.
  rewrite !shortRange_fourier by easy. now rewrite !fourier_periodic.
Qed.
Lemma eigen_reversal P q w x : gridPositive P -> EigenPair (3 * nAt P) (dynHost P q) w x ->
  EigenPair (3 * nAt P) (dynHost P (vopp q)) w (fun m => cconj (x m)).
Proof.
  intros g E m hm. unfold mulVec. rewrite (csumTo_ext _ _ (fun l => cconj (cmul (dynHost P q m l) (x l)))).
  - rewrite <- csumTo_conj. change (csumTo (3 * nAt P) (fun i => cmul (dynHost P q m i) (x i))) with (mulVec (3 * nAt P) (dynHost P q) x m). rewrite E by assumption. apply conj_scale.
  - intros l hl. rewrite dynHost_reversal by assumption. now rewrite conj_mul.
Qed.

(** * device *)
Lemma rsum3 f : rsum (map f (zrange 0 3)) = (f 0%Z + f 1%Z + f 2%Z)%R.
Proof. change (zrange 0 3) with [0; 1; 2]. cbn. ring. Qed.
Lemma gegD_quad P g : gegD P g = quad (eps P) g.
Proof. unfold gegD. change (zrange 0 9) with [0; 1; 2; 3; 4; 5; 6; 7; 8]. cbn. unfold quad, dot3. ring. Qed.
Lemma gqzD_gZ P g x : gqzD P g x = gZ P g (x mod 3) (x / 3).
Proof. unfold gqzD. rewrite rsum3. reflexivity. Qed.
Lemma lrTermD_host P q G m n : lr2d P = false -> lrTermD P q G m n = lrTerm P q G (m mod 3) (n mod 3) (m / 3) (n / 3).
Proof.
  intros L. unfold lrTermD, lrTerm. cbv zeta. change (fun i : Z => (G i + q i)%R) with (vadd G q).
  rewrite gegD_quad. replace (gegHost P (vadd G q)) with (quad (eps P) (vadd G q)) by (unfold gegHost; now rewrite L).
  destruct (inCut P _); [|reflexivity]. rewrite !gqzD_gZ, rsum3. cbv beta.
  replace (normHost P (vadd G q)) with (normD P * exp (- quad (eps P) (vadd G q) * / 4) / quad (eps P) (vadd G q))%R
    by (unfold normHost, lrNorm, gegHost; now rewrite L).
  match goal with |- cmul (cmul (cscale _ (cexpi ?x)) _) _ = _ => change x with (dot3 (tauDiff P (m / 3) (n / 3)) (vadd G q)) end.
  generalize (cexpi (dot3 (tauDiff P (m / 3) (n / 3)) (vadd G q))), (normD P * exp (- quad (eps P) (vadd G q) * / 4) / quad (eps P) (vadd G q))%R, (gZ P (vadd G q) (m mod 3) (m / 3)), (gZ P (vadd G q) (n mod 3) (n / 3)). intros. apply cplx_eq; cbn; ring.
Qed.
Lemma fold_csum {A} (f : A -> cplx) l (d : cplx) : fold_left (fun (d : cplx) x => cadd d (f x)) l d = cadd d (csum (map f l)).
Proof.
  revert d. induction l; intros d; cbn [fold_left map].
  - rewrite csum_nil. unfold cadd. destruct d. cbn. f_equal; ring.
  - rewrite IHl, csum_cons. unfold cadd. cbn [fst snd]. f_equal; rewrite Rplus_assoc; reflexivity.
Qed.
Lemma dynD_host P order q m n : lr2d P = false -> Permutation order (gVectors P) -> dynD P order q m n = dynTmp P q m n.
Proof.
  intros L p. unfold dynD, dynTmp, dyn.
  assert (S : shortD P q m n = shortRange P q (m mod 3) (n mod 3) (m / 3) (n / 3)).
  { unfold shortD, shortRange. apply csum_map_ext. intros e _. unfold mat2Rd. generalize (cexpi (- dot3 q (bravaisOf P e))). intro. apply cplx_eq; cbn; ring. }
  rewrite S. destruct (hasDiel P); [|reflexivity]. rewrite fold_csum. unfold longRange, lr1D.
  rewrite (csum_perm _ _ (Permutation_map _ p)). rewrite (csum_map_ext _ (fun G => lrTerm P q G (m mod 3) (n mod 3) (m / 3) (n / 3))) by (intros; now apply lrTermD_host).
  ring.
Qed.
Lemma device_host P order q m n : lr2d P = false -> Permutation order (gVectors P) -> dynDevice P order q m n = dynHost P q m n.
Proof. intros L p. unfold dynDevice, dynHost, massD, hermitise. now rewrite !dynD_host by assumption. Qed.
