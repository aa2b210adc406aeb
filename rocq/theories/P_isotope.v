(** Property C152: scattering of phonons by isotopes *)
From Coq Require Import Reals Lra.
From Verif Require Import Base BaseLemmas M_complex M_particle L_particle M_delta S_delta L_delta P_delta M_isotope S_isotope.
From Coq Require Import Lia.
Open Scope R_scope.

Lemma csumTo3 f : csumTo 3 f = cadd (f 0%Z) (cadd (f 1%Z) (cadd (f 2%Z) c0)). Proof. reflexivity. Qed.
Lemma overlap_sym a b i : cnorm2 (overlap a b i) = cnorm2 (overlap b a i).
Proof. unfold overlap. rewrite !csumTo3. unfold cnorm2, cadd, cmul, cconj, c0. cbn [fst snd]. ring. Qed.
Lemma strength_sym mv a b : isoStrength mv a b = isoStrength mv b a.
Proof. unfold isoStrength. f_equal. apply map_ext. intro p. now rewrite overlap_sym. Qed.

Lemma overlap_explicit a b i : cnorm2 (overlap a b i) = scalarProduct2 (fun k => a k i) (fun k => b k i).
Proof. unfold overlap. rewrite csumTo3. unfold scalarProduct2, cnorm2, cadd, cmul, cconj, c0. cbn [fst snd]. ring. Qed.

(** A process and its reverse have the same rate with Gaussian smearing (up to the cut of C42, energies closer than six widths). *)
Theorem C152_reverse : forall mv width norm n1 n2 s1 s2, 0 < width -> Rabs (mEn s1 - mEn s2) <= 6 * width ->
  isoRate mv (Gaussian width) norm n2 n1 s2 s1 = isoRate mv (Gaussian width) norm n1 n2 s1 s2.
Proof.
  intros mv width norm n1 n2 s1 s2 HW HE. unfold isoRate. rewrite (strength_sym mv (mEv s2)). cbn [deltaIso].
  replace (mEn s2 - mEn s1) with (- (mEn s1 - mEn s2)) by ring. rewrite (proj1 (C42_gaussian_even_partial width (mEn s1 - mEn s2) HW) HE). ring.
Qed.
Print Assumptions C152_reverse.

(** With adaptive smearing it is not: the width comes from the velocity of the first state only. A state at rest scatters into no other,
    the others scatter into it. *)
Theorem C152_adaptive_reverse_refuted : exists mv q0 q1 q2 cutoff norm n s1 s2,
  isoRate mv (Adaptive q0 q1 q2 cutoff) norm n n s2 s1 = 0 /\ 0 < isoRate mv (Adaptive q0 q1 q2 cutoff) norm n n s1 s2.
Proof.
  set (ev := fun k i : Z => if (k =? 0)%Z then c1 else c0).
  exists [1], (1, 0, 0), (0, 1, 0), (0, 0, 1), 1, 1, 1.
  exists {| mEn := 2; mVel := (1, 0, 0); mCell := fun _ => 2; mEv := ev |}, {| mEn := 1; mVel := (0, 0, 0); mCell := fun _ => 1; mEv := ev |}.
  assert (ST : isoStrength [1] ev ev = 1) by (unfold isoStrength, overlap; cbn [zlen]; change (zrange 0 (zlen [1])) with [0%Z]; cbn [combine map rsum fold_right fst snd]; rewrite csumTo3; unfold ev, cnorm2, cadd, cmul, cconj, c0, c1; cbn; ring).
  unfold isoRate. cbn [mEn mVel mEv deltaIso]. rewrite ST. split.
  - assert (A : adaptiveSmearing (1, 0, 0) (0, 1, 0) (0, 0, 1) 1 (1 - 2) (0, 0, 0) = 0); [|rewrite A; ring].
    unfold adaptiveSmearing. rewrite (proj2 (reqb_ne (1 - 2) 0)) by lra. rewrite Bool.andb_false_r.
    assert (W : adaptiveWidth (1, 0, 0) (0, 1, 0) (0, 0, 1) (0, 0, 0) = 0) by (unfold adaptiveWidth, vdot; match goal with |- sqrt ?x = 0 => replace x with 0 by (field) end; apply sqrt_0).
    rewrite W, (proj2 (reqb_eq 0 0) eq_refl). reflexivity.
  - assert (A : 0 < adaptiveSmearing (1, 0, 0) (0, 1, 0) (0, 0, 1) 1 (2 - 1) (1, 0, 0)).
    { unfold adaptiveSmearing. rewrite (proj2 (reqb_ne (2 - 1) 0)) by lra. rewrite Bool.andb_false_r.
      assert (W : adaptiveWidth (1, 0, 0) (0, 1, 0) (0, 0, 1) (1, 0, 0) = sqrt (/ 6)) by (unfold adaptiveWidth, vdot; f_equal; field).
      assert (P : 0 < sqrt (/ 6)) by (apply sqrt_lt_R0; lra). assert (L : sqrt (/ 6) < 1) by (rewrite <- sqrt_1; apply sqrt_lt_1; lra).
      rewrite W, (proj2 (reqb_ne _ 0)) by lra. rewrite (proj2 (rltb_lt (sqrt (/ 6)) 1)) by exact L. cbv zeta.
      replace (rltb (2 * 1) (Rabs (2 - 1))) with false by (symmetry; apply rltb_ge; rewrite Rabs_right; lra).
      replace (rltb 6 ((2 - 1) / 1)) with false by (symmetry; apply rltb_ge; lra).
      pose proof (exp_pos (- ((2 - 1) / 1) * ((2 - 1) / 1))). pose proof (sqrt_lt_R0 PI PI_RGT_0).
      apply Rdiv_lt_0_compat; [apply Rdiv_lt_0_compat; [apply Rdiv_lt_0_compat; assumption|lra]|unfold erf2; lra]. }
    pose proof PI_RGT_0. match goal with |- 0 < ?a => replace a with (PI * adaptiveSmearing (1, 0, 0) (0, 1, 0) (0, 0, 1) 1 (2 - 1) (1, 0, 0)) by field end. apply Rmult_lt_0_compat; assumption.
Qed.
Print Assumptions C152_adaptive_reverse_refuted.
(** Between states with the same velocity, and always when the second smearing vanishes, the adaptive rate has half of the mean smearing
    or the whole of it: the sum of the two values was intended. *)
Theorem C152_adaptive_half_refuted : forall q0 q1 q2 cutoff s1 s2, mVel s1 = mVel s2 ->
  deltaIso (Adaptive q0 q1 q2 cutoff) s1 s2 = meanAdaptive q0 q1 q2 cutoff s1 s2 / 2.
Proof. intros q0 q1 q2 cutoff s1 s2 H. unfold deltaIso, meanAdaptive. rewrite H. field. Qed.
Print Assumptions C152_adaptive_half_refuted.

(** Divided by n(n+1), the rate between states of equal populations is the formula of Tamura for eigenvectors of the dynamical matrix: the
    masses cancel and the temperature does not enter. *)
Theorem C152_tamura : forall couplings masses w1 w2 kind norm n s1 s2 mv, massVariance (zlen masses) couplings masses = Ok mv -> (forall m, In m masses -> 0 < m) -> 0 < n ->
  mEv s1 = displacement masses w1 -> mEv s2 = displacement masses w2 ->
  isoRate mv kind norm n n s1 s2 / (n * (n + 1)) = tamura couplings w1 w2 norm (mEn s1) (mEn s2) (deltaIso kind s1 s2).
Proof.
  intros couplings masses w1 w2 kind norm n s1 s2 mv HM HP Hn H1 H2. unfold massVariance in HM. rewrite Z.eqb_refl in HM. cbn [negb] in HM. rewrite Bool.orb_false_r in HM.
  destruct (Z.eqb_spec (zlen masses) (zlen couplings)) as [EL|]; [|discriminate]. cbn [negb] in HM. injection HM as <-.
  assert (S : isoStrength (map (fun p => fst p * (snd p * snd p)) (combine couplings masses)) (mEv s1) (mEv s2) = rsum (map (fun p => snd p * cnorm2 (overlap w1 w2 (fst p))) (combine (zrange 0 (zlen couplings)) couplings))).
  { rewrite H1, H2. unfold isoStrength.
    assert (LM : zlen (map (fun p => fst p * (snd p * snd p)) (combine couplings masses)) = zlen couplings) by (unfold zlen in *; rewrite map_length, combine_length; lia). rewrite LM.
    assert (G : forall (cs ms : list R) a, length cs = length ms -> (forall i m, nth_error ms i = Some m -> zget masses (a + Z.of_nat i) = Some m /\ 0 < m) ->
      rsum (map (fun p => cnorm2 (overlap (displacement masses w1) (displacement masses w2) (fst p)) * snd p) (combine (zrange a (zlen cs)) (map (fun p => fst p * (snd p * snd p)) (combine cs ms)))) =
      rsum (map (fun p => snd p * cnorm2 (overlap w1 w2 (fst p))) (combine (zrange a (zlen cs)) cs))).
    { induction cs as [|c cs IH]; intros ms a HL HG; [rewrite !combine_nil; reflexivity|]. destruct ms as [|m ms]; [discriminate|].
      rewrite zlen_cons, zrange_cons by (unfold zlen; lia). replace (1 + zlen cs - 1)%Z with (zlen cs) by lia. cbn [combine map rsum fold_right fst snd].
      fold (rsum (map (fun p => cnorm2 (overlap (displacement masses w1) (displacement masses w2) (fst p)) * snd p) (combine (zrange (a + 1) (zlen cs)) (map (fun p => fst p * (snd p * snd p)) (combine cs ms))))).
      fold (rsum (map (fun p => snd p * cnorm2 (overlap w1 w2 (fst p))) (combine (zrange (a + 1) (zlen cs)) cs))).
      rewrite IH; [|now injection HL|intros i m' Hm; specialize (HG (S i) m' Hm); replace (a + 1 + Z.of_nat i)%Z with (a + Z.of_nat (S i))%Z by lia; exact HG]. f_equal.
      destruct (HG 0%nat m eq_refl) as [Z0 Pm]. rewrite Z.add_0_r in Z0.
      assert (O : cnorm2 (overlap (displacement masses w1) (displacement masses w2) a) = (/ sqrt m * / sqrt m) * (/ sqrt m * / sqrt m) * cnorm2 (overlap w1 w2 a)).
      { unfold overlap. rewrite !csumTo3. unfold displacement. rewrite Z0. unfold cnorm2, cadd, cmul, cconj, cscale, c0. cbn [fst snd]. ring. }
      rewrite O. assert (I : / sqrt m * / sqrt m = / m) by (rewrite <- Rinv_mult, sqrt_sqrt by lra; reflexivity). rewrite I. field. lra. }
    apply G; [unfold zlen in EL; lia|]. intros i m Hm. split; [|apply HP; eapply nth_error_In; exact Hm]. rewrite Z.add_0_l. unfold zget. destruct (Z.ltb_spec (Z.of_nat i) 0); [lia|]. now rewrite Nat2Z.id. }
  unfold isoRate, tamura. rewrite S. rewrite (map_ext _ (fun p => snd p * scalarProduct2 (fun k => w1 k (fst p)) (fun k => w2 k (fst p)))); [field; lra|].
  intro p. now rewrite overlap_explicit.
Qed.
Print Assumptions C152_tamura.
(** Never negative; zero without mass disorder. *)
Theorem C152_nonnegative : forall mv q0 q1 q2 cutoff width kind norm n1 n2 s1 s2, kind = Gaussian width \/ kind = Adaptive q0 q1 q2 cutoff -> 0 < width -> (forall x, In x mv -> 0 <= x) -> 0 <= norm -> 0 <= n1 -> 0 <= n2 -> 0 <= mEn s1 -> 0 <= mEn s2 ->
  0 <= isoRate mv kind norm n1 n2 s1 s2 /\ ((forall x, In x mv -> x = 0) -> isoRate mv kind norm n1 n2 s1 s2 = 0).
Proof.
  intros mv q0 q1 q2 cutoff width kind norm n1 n2 s1 s2 HK HW HV HN H1 H2 E1 E2. pose proof PI_RGT_0.
  assert (HD : 0 <= deltaIso kind s1 s2) by (destruct HK as [-> | ->]; cbn [deltaIso]; [apply C42_gaussian_nonnegative, HW|apply Rmult_le_pos; [apply C42_adaptive_nonnegative|lra]]).
  split.
  - assert (S : 0 <= isoStrength mv (mEv s1) (mEv s2)).
    { unfold isoStrength. apply rsum_nonneg. intros x Hx. apply in_map_iff in Hx. destruct Hx as ([i v] & <- & Hin). apply in_combine_r in Hin. cbn [fst snd].
      apply Rmult_le_pos; [unfold cnorm2; nra|now apply HV]. }
    assert (A : 0 <= PI * (1 / 2) * norm * mEn s1 * mEn s2 * deltaIso kind s1 s2) by (apply Rmult_le_pos; [apply Rmult_le_pos; [apply Rmult_le_pos; [apply Rmult_le_pos; [lra|]|]|]|]; assumption).
    assert (B : 0 <= n1 * n2 + 1 / 2 * (n1 + n2)) by (pose proof (Rmult_le_pos n1 n2 H1 H2); lra).
    unfold isoRate. apply Rmult_le_pos; [apply Rmult_le_pos|]; assumption.
  - intros HZ. unfold isoRate. assert (S : isoStrength mv (mEv s1) (mEv s2) = 0); [|rewrite S; ring]. unfold isoStrength.
    assert (G : forall l : list (Z * R), (forall p, In p l -> snd p = 0) -> rsum (map (fun p => cnorm2 (overlap (mEv s1) (mEv s2) (fst p)) * snd p) l) = 0).
    { induction l as [|p l IH]; intros HL; [reflexivity|]. cbn [map rsum fold_right]. fold (rsum (map (fun p => cnorm2 (overlap (mEv s1) (mEv s2) (fst p)) * snd p) l)). rewrite IH by (intros; apply HL; now right). rewrite (HL p (or_introl eq_refl)). ring. }
    apply G. intros [i v] Hp. apply in_combine_r in Hp. now apply HZ.
Qed.
Print Assumptions C152_nonnegative.
Example C152_ex : massVariance 2 [2; 3] [4; 1] = Ok [2 * (4 * 4); 3 * (1 * 1)] /\ (forall m, In m [4; 1] -> 0 < m) /\ massVariance 2 [2] [4; 1] = Err.
Proof. split; [reflexivity|]. split; [|reflexivity]. intros m [<-|[<-|[]]]; lra. Qed.
