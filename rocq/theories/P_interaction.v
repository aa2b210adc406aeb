(** C96 (three-phonon couplings), C97 (invariances of the three-phonon couplings), C98 (ShengBTE force constants), C99 (electron-phonon couplings), C100 (polar term). *)
From Coq Require Import Reals QArith Qreals Permutation.
From Verif Require Import Base BaseLemmas M_utilities M_complex L_complex M_electron S_electron L_electron M_phonon S_phonon L_phonon L_phonon2 L_phonon3 M_interaction S_interaction L_interaction L_interaction2 L_interaction3 L_interaction4 L_interaction5.
From Coq Require Import Lia Lra.
Open Scope Z_scope.

(** one atom, one cell; only the xxx component of the force constants; weight [w] of the third cell *)
Definition exT (w : R) : ifc3 :=
  {| cAt := 1; nr2 := 1; nr3 := 1; pos2 := fun _ _ => 0%R; pos3 := fun _ _ => 0%R; wt2 := fun _ _ _ => 1%R; wt3 := fun _ _ _ => w;
     d3 := fun i1 i2 i3 _ _ => if (i1 =? 0) && (i2 =? 0) && (i3 =? 0) then 1%R else 0%R |}.
Definition exP : point3 := {| pQ := fun _ => 0%R; pNb1 := 3; pEv1 := idMat; pNbP := 3; pEvP := idMat; pNbM := 2; pEvM := idMat |}.
Lemma exT_value w v s q1 q2 : amplitude (exT w) (fun _ _ _ => v) s q1 q2 (column idMat 0) (column idMat 0) (column idMat 0) = (v, 0%R).
Proof.
  rewrite amp_unit by (cbn; lia). cbn [nr2 nr3 exT wt2 d3 pos2 pos3]. unfold csumTo. change (zrange 0 1) with [0]. cbn [map csum fold_right]. cbn [Z.eqb andb].
  assert (Z : (s * dot3 q2 (fun _ : Z => 0) - dot3 (fun i : Z => q1 i + s * q2 i) (fun _ : Z => 0) = 0)%R) by (unfold dot3; ring). rewrite Z, expi_0. cring.
Qed.

(** C96. The couplings of point i are the squared moduli of the matrix elements between the states given for point i, whatever the other points of the call and their
    numbers of bands: with q3 = q1 + q2 and with q3 = q1 - q2. Partial: the weights of the third cells must be 0 or 1 (they are, for files read by the code). *)
Theorem C96_couplings_partial : forall T q2 ev2 nb2 ps out, WeightsOneOrZero T -> getCouplingsSquared T q2 ev2 nb2 ps = Ok out ->
  zlen out = zlen ps /\ forall i p, zget ps i = Some p -> exists plus minus, zget out i = Some (plus, minus) /\
  tDims plus = (pNb1 p, nb2, pNbP p) /\ tDims minus = (pNb1 p, nb2, pNbM p) /\
  (forall b1 b2 b3, inside (tDims plus) b1 b2 b3 -> tVal plus b1 b2 b3 = cnorm2 (amplitude T (wt3 T) 1 (pQ p) q2 (column (pEv1 p) b1) (column ev2 b2) (column (pEvP p) b3))) /\
  (forall b1 b2 b3, inside (tDims minus) b1 b2 b3 -> tVal minus b1 b2 b3 = cnorm2 (amplitude T (wt3 T) (-1) (pQ p) q2 (column (pEv1 p) b1) (conjOf (column ev2 b2)) (column (pEvM p) b3))).
Proof.
  intros T q2 ev2 nb2 ps out W E. assert (out = map (fun p => (couplingPlus T q2 ev2 nb2 p, couplingMins T q2 ev2 nb2 p)) ps) as -> by (unfold getCouplingsSquared in E; destruct ps; [discriminate|injection E as <-; reflexivity]).
  split; [apply zlen_map|].
  intros i p Hp. exists (couplingPlus T q2 ev2 nb2 p), (couplingMins T q2 ev2 nb2 p). split; [rewrite zget_map, Hp; reflexivity|].
  split; [reflexivity|]. split; [reflexivity|]. split.
  - intros b1 b2 b3 (I1 & I2 & I3). cbn [tDims fst snd couplingPlus] in I1, I2, I3. rewrite plus_value by lia. f_equal. apply amplitude_ext; [intros; apply sq3_one, W|auto].
  - intros b1 b2 b3 (I1 & I2 & I3). cbn [tDims fst snd couplingMins] in I1, I2, I3. rewrite mins_value by lia. f_equal. apply amplitude_ext; [intros; apply sq3_one, W|auto].
Qed.
Print Assumptions C96_couplings_partial.
(** For any weights, the weight of the third cell counts twice. *)
Theorem C96_squared_weights : forall T q2 ev2 nb2 p b1 b2 b3,
  (inside (tDims (couplingPlus T q2 ev2 nb2 p)) b1 b2 b3 -> tVal (couplingPlus T q2 ev2 nb2 p) b1 b2 b3 =
    cnorm2 (amplitude T (fun r a b => wt3 T r a b * wt3 T r a b)%R 1 (pQ p) q2 (column (pEv1 p) b1) (column ev2 b2) (column (pEvP p) b3))) /\
  (inside (tDims (couplingMins T q2 ev2 nb2 p)) b1 b2 b3 -> tVal (couplingMins T q2 ev2 nb2 p) b1 b2 b3 =
    cnorm2 (amplitude T (fun r a b => wt3 T r a b * wt3 T r a b)%R (-1) (pQ p) q2 (column (pEv1 p) b1) (conjOf (column ev2 b2)) (column (pEvM p) b3))).
Proof. intros. split; intros (I1 & I2 & I3); cbn in I1, I2, I3; [apply plus_value|apply mins_value]; lia. Qed.
Print Assumptions C96_squared_weights.
(** With the weight 1/2 of a cell shared by two images, a coupling is four times too small. *)
Theorem C96_weights_refuted : exists T q2 ev2 nb2 p b1 b2 b3, inside (tDims (couplingPlus T q2 ev2 nb2 p)) b1 b2 b3 /\ 0 <= nr3 T <= nr2 T /\
  cnorm2 (amplitude T (wt3 T) 1 (pQ p) q2 (column (pEv1 p) b1) (column ev2 b2) (column (pEvP p) b3)) <> 0%R /\
  (4 * tVal (couplingPlus T q2 ev2 nb2 p) b1 b2 b3 = cnorm2 (amplitude T (wt3 T) 1 (pQ p) q2 (column (pEv1 p) b1) (column ev2 b2) (column (pEvP p) b3)))%R.
Proof.
  exists (exT (1 / 2)), (fun _ => 0%R), idMat, 3, exP, 0, 0, 0. split; [unfold inside; cbn; lia|]. split; [cbn; lia|].
  rewrite plus_value by (cbn; lia). cbn [pEv1 pEvP exP]. change (wt3 (exT (1 / 2))) with (fun _ _ _ : Z => (1 / 2)%R). change (sq3 (exT (1 / 2))) with (fun _ _ _ : Z => (1 / 2 * (1 / 2))%R).
  rewrite !exT_value. unfold cnorm2. cbn [fst snd]. split; [|field]. lra.
Qed.
Print Assumptions C96_weights_refuted.
(** Points can be given to separate calls. *)
Theorem C96_batches : forall T q2 ev2 nb2 ps qs a b, getCouplingsSquared T q2 ev2 nb2 ps = Ok a -> getCouplingsSquared T q2 ev2 nb2 qs = Ok b ->
  getCouplingsSquared T q2 ev2 nb2 (ps ++ qs) = Ok (a ++ b).
Proof.
  intros T q2 ev2 nb2 ps qs a b Ha Hb. unfold getCouplingsSquared in *. destruct ps as [|p ps]; [discriminate|]. destruct qs as [|r qs]; [discriminate|]. injection Ha as <-. injection Hb as <-. cbn [app map]. rewrite map_app. reflexivity.
Qed.
Print Assumptions C96_batches.
(** A call without points, or force constants with more third than second cells, read or write outside of the arrays. *)
Theorem C96_outside_refuted : (forall T q2 ev2 nb2, getCouplingsSquared T q2 ev2 nb2 [] = UB) /\ (forall T, 0 < cAt T -> nr2 T < nr3 T -> construct3 T = UB) /\ (forall T, nr3 T <= nr2 T -> construct3 T = Ok T).
Proof.
  split; [reflexivity|]. split; intros T H.
  - intro L. unfold construct3. replace (0 <? cAt T) with true by lia. replace (nr2 T <? nr3 T) with true by lia. reflexivity.
  - unfold construct3. replace (nr2 T <? nr3 T) with false by lia. rewrite Bool.andb_false_r. reflexivity.
Qed.
Print Assumptions C96_outside_refuted.
Example C96_ex : WeightsOneOrZero (exT 1) /\ exists out, getCouplingsSquared (exT 1) (fun _ => 0%R) idMat 3 [exP] = Ok out /\
  match out with [(p, _)] => tVal p 0 0 0 = 1%R | _ => False end.
Proof.
  split; [intros r a b; right; reflexivity|]. eexists. split; [reflexivity|]. cbn [map]. rewrite plus_value by (cbn; lia). cbn [pEv1 pEvP exP]. change (sq3 (exT 1)) with (fun _ _ _ : Z => (1 * 1)%R).
  rewrite exT_value. unfold cnorm2. cbn [fst snd]. ring.
Qed.

(** C97. Eigenvectors are known up to a phase: the couplings do not depend on it. *)
Theorem C97_phases : forall T q2 ev2 nb2 q nb1 ev1 nbP evP nbM evM u1 u2 u3 u4 b1 b2 b3,
  (forall b, cnorm2 (u1 b) = 1%R) -> (forall b, cnorm2 (u2 b) = 1%R) -> (forall b, cnorm2 (u3 b) = 1%R) -> (forall b, cnorm2 (u4 b) = 1%R) ->
  let p := Build_point3 q nb1 ev1 nbP evP nbM evM in let p' := Build_point3 q nb1 (phased u1 ev1) nbP (phased u3 evP) nbM (phased u4 evM) in
  (inside (nb1, nb2, nbP) b1 b2 b3 -> tVal (couplingPlus T q2 (phased u2 ev2) nb2 p') b1 b2 b3 = tVal (couplingPlus T q2 ev2 nb2 p) b1 b2 b3) /\
  (inside (nb1, nb2, nbM) b1 b2 b3 -> tVal (couplingMins T q2 (phased u2 ev2) nb2 p') b1 b2 b3 = tVal (couplingMins T q2 ev2 nb2 p) b1 b2 b3).
Proof.
  intros T q2 ev2 nb2 q nb1 ev1 nbP evP nbM evM u1 u2 u3 u4 b1 b2 b3 N1 N2 N3 N4 p p'.
  assert (K : forall w s e1 e2 e3 a b c, cnorm2 a = 1%R -> cnorm2 b = 1%R -> cnorm2 c = 1%R ->
    cnorm2 (amplitude T w s q q2 (fun i => cmul a (e1 i)) (fun i => cmul b (e2 i)) (fun i => cmul c (e3 i))) = cnorm2 (amplitude T w s q q2 e1 e2 e3)).
  { intros w s e1 e2 e3 a b c Ha Hb Hc.
    destruct (leg1 T w s q q2 (fun i => cmul b (e2 i)) (fun i => cmul c (e3 i))) as (B1 & L1). rewrite !L1, linear_phase, <- L1 by exact Ha.
    destruct (leg2 T w s q q2 e1 (fun i => cmul c (e3 i))) as (B2 & L2). rewrite !L2, linear_phase, <- L2 by exact Hb.
    destruct (leg3 T w s q q2 e1 e2) as (B3 & L3). rewrite !L3, !norm2_conj. apply linear_phase, Hc. }
  split; intros (I1 & I2 & I3); cbn [fst snd] in I1, I2, I3.
  - rewrite !plus_value by (cbn; lia). apply K; auto.
  - rewrite !mins_value by (cbn; lia). cbn [p p' pQ pEv1 pEvM].
    rewrite <- (K (sq3 T) (-1)%R (column ev1 b1) (conjOf (column ev2 b2)) (column evM b3) (u1 b1) (cconj (u2 b2)) (u4 b3)) by (rewrite ?norm2_conj; auto). f_equal. apply amplitude_ext; [reflexivity|].
    intros i _. split; [reflexivity|]. split; [|reflexivity]. unfold conjOf, column, phased. apply conj_mul.
Qed.
Print Assumptions C97_phases.
(** Eigenvectors of degenerate bands are known up to a unitary matrix: the sum of the couplings on these bands does not depend on it, for each of the states. *)
Theorem C97_degenerate_1 : forall T q2 ev2 nb2 q nb1 ev1 nbP evP nbM evM s n U b2 b3, Unitary n U -> 0 <= s -> 0 <= n -> s + n <= nb1 ->
  let p := Build_point3 q nb1 ev1 nbP evP nbM evM in let p' := Build_point3 q nb1 (mixed s n U ev1) nbP evP nbM evM in
  (b3 < nbP -> bandSum s n (fun b => tVal (couplingPlus T q2 ev2 nb2 p') b b2 b3) = bandSum s n (fun b => tVal (couplingPlus T q2 ev2 nb2 p) b b2 b3)) /\
  (b3 < nbM -> bandSum s n (fun b => tVal (couplingMins T q2 ev2 nb2 p') b b2 b3) = bandSum s n (fun b => tVal (couplingMins T q2 ev2 nb2 p) b b2 b3)).
Proof.
  intros T q2 ev2 nb2 q nb1 ev1 nbP evP nbM evM s n U b2 b3 HU Hs Hn Hb p p'.
  split; intro H3.
  - destruct (leg1 T (sq3 T) 1 q q2 (column ev2 b2) (column evP b3)) as (B & L).
    transitivity (bandSum s n (fun b => cnorm2 (csumTo (3 * cAt T) (fun i => cmul (column (mixed s n U ev1) b i) (B i))))); [|rewrite linear_mixed by exact HU]; unfold bandSum; f_equal; apply map_ext_in; intros b Hb'; apply in_zrange in Hb'; rewrite plus_value by (cbn; lia); cbn [p p' pQ pEv1 pEvP]; rewrite L; reflexivity.
  - destruct (leg1 T (sq3 T) (-1) q q2 (conjOf (column ev2 b2)) (column evM b3)) as (B & L).
    transitivity (bandSum s n (fun b => cnorm2 (csumTo (3 * cAt T) (fun i => cmul (column (mixed s n U ev1) b i) (B i))))); [|rewrite linear_mixed by exact HU]; unfold bandSum; f_equal; apply map_ext_in; intros b Hb'; apply in_zrange in Hb'; rewrite mins_value by (cbn; lia); cbn [p p' pQ pEv1 pEvM]; rewrite L; reflexivity.
Qed.
Print Assumptions C97_degenerate_1.
Theorem C97_degenerate_2 : forall T q2 ev2 nb2 p s n U b1 b3, Unitary n U -> 0 <= s -> 0 <= n -> s + n <= nb2 -> b1 < pNb1 p ->
  (b3 < pNbP p -> bandSum s n (fun b => tVal (couplingPlus T q2 (mixed s n U ev2) nb2 p) b1 b b3) = bandSum s n (fun b => tVal (couplingPlus T q2 ev2 nb2 p) b1 b b3)) /\
  (b3 < pNbM p -> bandSum s n (fun b => tVal (couplingMins T q2 (mixed s n U ev2) nb2 p) b1 b b3) = bandSum s n (fun b => tVal (couplingMins T q2 ev2 nb2 p) b1 b b3)).
Proof.
  intros T q2 ev2 nb2 p s n U b1 b3 HU Hs Hn Hb H1. split; intro H3.
  - destruct (leg2 T (sq3 T) 1 (pQ p) q2 (column (pEv1 p) b1) (column (pEvP p) b3)) as (B & L).
    transitivity (bandSum s n (fun b => cnorm2 (csumTo (3 * cAt T) (fun i => cmul (column (mixed s n U ev2) b i) (B i))))); [|rewrite linear_mixed by exact HU]; unfold bandSum; f_equal; apply map_ext_in; intros b Hb'; apply in_zrange in Hb'; rewrite plus_value by lia; rewrite L; reflexivity.
  - destruct (leg2 T (sq3 T) (-1) (pQ p) q2 (column (pEv1 p) b1) (column (pEvM p) b3)) as (B & L).
    assert (C : forall ev b, cnorm2 (amplitude T (sq3 T) (-1) (pQ p) q2 (column (pEv1 p) b1) (conjOf (column ev b)) (column (pEvM p) b3)) = cnorm2 (csumTo (3 * cAt T) (fun i => cmul (column ev b i) (cconj (B i))))).
    { intros ev b. rewrite L, <- norm2_conj, csumTo_conj. f_equal. apply csumTo_ext. intros i _. unfold conjOf. rewrite conj_mul, conj_conj. reflexivity. }
    transitivity (bandSum s n (fun b => cnorm2 (csumTo (3 * cAt T) (fun i => cmul (column (mixed s n U ev2) b i) (cconj (B i)))))); [|rewrite linear_mixed by exact HU]; unfold bandSum; f_equal; apply map_ext_in; intros b Hb'; apply in_zrange in Hb'; rewrite mins_value by lia; rewrite C; reflexivity.
Qed.
Print Assumptions C97_degenerate_2.
Theorem C97_degenerate_3 : forall T q2 ev2 nb2 q nb1 ev1 nbP evP nbM evM s n U b1 b2, Unitary n U -> 0 <= s -> 0 <= n -> b1 < nb1 ->
  let p := Build_point3 q nb1 ev1 nbP evP nbM evM in let p' := Build_point3 q nb1 ev1 nbP (mixed s n U evP) nbM (mixed s n U evM) in
  (s + n <= nbP -> bandSum s n (tVal (couplingPlus T q2 ev2 nb2 p') b1 b2) = bandSum s n (tVal (couplingPlus T q2 ev2 nb2 p) b1 b2)) /\
  (s + n <= nbM -> bandSum s n (tVal (couplingMins T q2 ev2 nb2 p') b1 b2) = bandSum s n (tVal (couplingMins T q2 ev2 nb2 p) b1 b2)).
Proof.
  intros T q2 ev2 nb2 q nb1 ev1 nbP evP nbM evM s n U b1 b2 HU Hs Hn H1 p p'. split; intro H3.
  - destruct (leg3 T (sq3 T) 1 q q2 (column ev1 b1) (column ev2 b2)) as (B & L).
    transitivity (bandSum s n (fun b => cnorm2 (csumTo (3 * cAt T) (fun i => cmul (column (mixed s n U evP) b i) (B i))))); [|rewrite linear_mixed by exact HU]; unfold bandSum; f_equal; apply map_ext_in; intros b Hb'; apply in_zrange in Hb'; rewrite plus_value by (cbn; lia); cbn [p p' pQ pEv1 pEvP]; rewrite L, norm2_conj; reflexivity.
  - destruct (leg3 T (sq3 T) (-1) q q2 (column ev1 b1) (conjOf (column ev2 b2))) as (B & L).
    transitivity (bandSum s n (fun b => cnorm2 (csumTo (3 * cAt T) (fun i => cmul (column (mixed s n U evM) b i) (B i))))); [|rewrite linear_mixed by exact HU]; unfold bandSum; f_equal; apply map_ext_in; intros b Hb'; apply in_zrange in Hb'; rewrite mins_value by (cbn; lia); cbn [p p' pQ pEv1 pEvM]; rewrite L, norm2_conj; reflexivity.
Qed.
Print Assumptions C97_degenerate_3.
(** conjugates of the eigenvectors of the opposite wavevectors give the same couplings *)
Theorem C97_opposite : forall T q2 ev2 nb2 q nb1 ev1 nbP evP nbM evM b1 b2 b3,
  let p := Build_point3 q nb1 ev1 nbP evP nbM evM in let p' := Build_point3 (vopp q) nb1 (conjMat ev1) nbP (conjMat evP) nbM (conjMat evM) in
  (inside (nb1, nb2, nbP) b1 b2 b3 -> tVal (couplingPlus T (vopp q2) (conjMat ev2) nb2 p') b1 b2 b3 = tVal (couplingPlus T q2 ev2 nb2 p) b1 b2 b3) /\
  (inside (nb1, nb2, nbM) b1 b2 b3 -> tVal (couplingMins T (vopp q2) (conjMat ev2) nb2 p') b1 b2 b3 = tVal (couplingMins T q2 ev2 nb2 p) b1 b2 b3).
Proof.
  intros T q2 ev2 nb2 q nb1 ev1 nbP evP nbM evM b1 b2 b3 p p'. split; intros (I1 & I2 & I3); cbn [fst snd] in I1, I2, I3.
  - rewrite !plus_value by (cbn; lia). rewrite <- (norm2_conj (amplitude T (sq3 T) 1 (pQ p) _ _ _ _)), amp_conj. reflexivity.
  - rewrite !mins_value by (cbn; lia). rewrite <- (norm2_conj (amplitude T (sq3 T) (-1) (pQ p) _ _ _ _)), amp_conj. reflexivity.
Qed.
Print Assumptions C97_opposite.
(** emission of phonon q2 is absorption of a phonon of wavevector - q2 with the conjugate displacement *)
Theorem C97_emission : forall T q2 ev2 nb2 q nb1 ev1 nbP evP nb evM b1 b2 b3, inside (nb1, nb2, nb) b1 b2 b3 ->
  tVal (couplingMins T q2 ev2 nb2 (Build_point3 q nb1 ev1 nbP evP nb evM)) b1 b2 b3 = tVal (couplingPlus T (vopp q2) (conjMat ev2) nb2 (Build_point3 q nb1 ev1 nb evM nb evM)) b1 b2 b3.
Proof.
  intros T q2 ev2 nb2 q nb1 ev1 nbP evP nb evM b1 b2 b3 (I1 & I2 & I3). cbn [fst snd] in I1, I2, I3. rewrite mins_value, plus_value by (cbn; lia). rewrite amp_opposite. reflexivity.
Qed.
Print Assumptions C97_emission.
(** the wavevectors can change by reciprocal vectors: vectors whose products with all cells are multiples of 2 pi *)
Theorem C97_periodic : forall T q2 ev2 nb2 q nb1 ev1 nbP evP nbM evM G1 G2 b1 b2 b3, Reciprocal T G1 -> Reciprocal T G2 -> inside (nb1, nb2, nbP) b1 b2 b3 ->
  tVal (couplingPlus T (vadd q2 G2) ev2 nb2 (Build_point3 (vadd q G1) nb1 ev1 nbP evP nbM evM)) b1 b2 b3 = tVal (couplingPlus T q2 ev2 nb2 (Build_point3 q nb1 ev1 nbP evP nbM evM)) b1 b2 b3.
Proof.
  intros T q2 ev2 nb2 q nb1 ev1 nbP evP nbM evM G1 G2 b1 b2 b3 (m2 & m3 & M2 & M3) (n2 & n3 & N2 & N3) (I1 & I2 & I3). cbn [fst snd] in I1, I2, I3. rewrite !plus_value by (cbn; lia). cbn [pQ pEv1 pEvP]. f_equal.
  apply (amp_periodic T (sq3 T) q q2 G1 G2 _ _ _ m3 n2 n3 M3 N2 N3).
Qed.
Print Assumptions C97_periodic.
(** a rigid translation of the crystal, as second phonon at Gamma, does not couple to anything *)
Theorem C97_translation : forall T ev2 nb2 p t b1 b2 b3, 0 <= cAt T -> TranslationInvariant2 T -> column ev2 b2 = uniform t -> inside (pNb1 p, nb2, pNbP p) b1 b2 b3 -> tVal (couplingPlus T vzero ev2 nb2 p) b1 b2 b3 = 0%R.
Proof.
  intros T ev2 nb2 p t b1 b2 b3 HA HT He (I1 & I2 & I3). cbn [fst snd] in I1, I2, I3. rewrite plus_value by lia. rewrite He, amp_translation by assumption. unfold cnorm2, c0. cbn [fst snd]. ring.
Qed.
Print Assumptions C97_translation.
(** two atoms tied by a cubic spring: the translation invariance and the other hypotheses *)
Definition exSpring : ifc3 :=
  {| cAt := 2; nr2 := 1; nr3 := 1; pos2 := fun _ _ => 0%R; pos3 := fun _ _ => 0%R; wt2 := fun _ _ _ => 1%R; wt3 := fun _ _ _ => 1%R;
     d3 := fun i1 i2 i3 _ _ => if (i1 =? 0) && (i3 =? 0) then if i2 =? 0 then 1%R else if i2 =? 3 then (-1)%R else 0%R else 0%R |}.
Example C97_ex : TranslationInvariant2 exSpring /\ column (fun i _ => if i mod 3 =? 0 then c1 else c0) 0 = uniform (fun i => if i =? 0 then c1 else c0) /\
  Unitary 2 (fun i j => if i =? j then c0 else c1) /\ Reciprocal exSpring (fun i => IZR i) /\
  tVal (couplingPlus exSpring vzero idMat 6 (Build_point3 vzero 6 idMat 6 idMat 6 idMat)) 0 0 0 <> 0%R.
Proof.
  split; [|split; [|split; [|split]]].
  - intros i1 i3 r3 j _ _ _ Hj. change (zrange 0 (cAt exSpring)) with [0; 1]. change (zrange 0 (nr2 exSpring)) with [0]. cbn [map rsum fold_right wt2 d3 exSpring].
    destruct ((i1 =? 0) && (i3 =? 0)); [|ring]. assert (j = 0 \/ j = 1 \/ j = 2) as [-> | [-> | ->]] by lia; cbn; ring.
  - reflexivity.
  - split; intros i j Hi Hj; assert (i = 0 \/ i = 1) as [-> | ->] by lia; assert (j = 0 \/ j = 1) as [-> | ->] by lia; unfold matMul, adjoint, idMat, csumTo; change (zrange 0 2) with [0; 1]; cbn [map csum fold_right Z.eqb Pos.eqb]; cring.
  - exists (fun _ => 0), (fun _ => 0). split; intros r _; unfold dot3; cbn; ring.
  - rewrite plus_value by (cbn; lia). cbn [pQ pEv1 pEvP]. 
    replace (amplitude _ _ _ _ _ _ _ _) with c1; [unfold cnorm2, c1; cbn; lra|]. rewrite amp_unit by (cbn; lia). cbn [nr2 nr3 exSpring wt2 d3 pos2 pos3]. unfold csumTo. change (zrange 0 1) with [0]. cbn [map csum fold_right].
    cbn [Z.eqb andb]. unfold sq3. cbn [wt3 exSpring].
    assert (Z : (1 * dot3 vzero (fun _ : Z => 0) - dot3 (fun i : Z => vzero i + 1 * vzero i) (fun _ : Z => 0) = 0)%R) by (unfold dot3; ring). rewrite Z, expi_0. cring.
Qed.

(** C98. A file of force constants with as many second as third cells: the tensor read back has, for each pair of cells and three atoms, the values of the last triplet of
    the file with these cells and atoms, zero without such a triplet; the cells are those of the file, without repetitions; all weights are one. Positions of the
    file are equal or at a distance above 1e-12. *)
Theorem C98_read_back_partial : forall nA ts, 0 < nA -> zlen (positions (map tp2 ts)) = zlen (positions (map tp3 ts)) -> Separated (map tp2 ts) -> Separated (map tp3 ts) -> AtomsInside nA ts ->
  exists T l2 l3, parseSheng nA ts = Ok T /\ distinctOf (map tp2 ts) l2 /\ distinctOf (map tp3 ts) l3 /\ cAt T = nA /\ nr2 T = zlen l2 /\ nr3 T = zlen l3 /\
  (forall r p, zget l2 r = Some p -> pos2 T r = q3vec p) /\ (forall r p, zget l3 r = Some p -> pos3 T r = q3vec p) /\
  (forall r a b, wt2 T r a b = 1%R) /\ (forall r a b, wt3 T r a b = 1%R) /\
  forall i1 i2 i3 r3 r2 p2 p3, 0 <= i1 < 3 * nA -> 0 <= i2 < 3 * nA -> 0 <= i3 < 3 * nA -> zget l2 r2 = Some p2 -> zget l3 r3 = Some p3 ->
    d3 T i1 i2 i3 r3 r2 = match lastAt ts p2 p3 (i1 / 3) (i2 / 3) (i3 / 3) with Some t => tv t (i1 mod 3) (i2 mod 3) (i3 mod 3) | None => 0%R end.
Proof.
  intros nA ts HA HE S2 S3 At. destruct (sheng_ok nA ts HA HE S2 S3 At) as (T & E & K). exists T, (positions (map tp2 ts)), (positions (map tp3 ts)).
  split; [exact E|]. split; [apply positions_distinct|]. split; [apply positions_distinct|]. exact K.
Qed.
Print Assumptions C98_read_back_partial.
(** With different numbers of second and third cells the tensors are read outside of their memory. *)
Theorem C98_unequal_cells_refuted : forall nA ts, 0 < nA -> ts <> [] -> zlen (positions (map tp2 ts)) <> zlen (positions (map tp3 ts)) -> parseSheng nA ts = UB.
Proof. exact sheng_unequal. Qed.
Print Assumptions C98_unequal_cells_refuted.
Definition o3 : q3 := (0%Q, 0%Q, 0%Q).
Definition x3 : q3 := (1%Q, 0%Q, 0%Q).
Definition exTrip (a b : q3) (v : R) : triplet := {| tp2 := a; tp3 := b; ta1 := 0; ta2 := 0; ta3 := 0; tv := fun _ _ _ => v |}.
(** two cells, and the triplet of the origin given twice *)
Example C98_ex : let ts := [exTrip o3 o3 1; exTrip x3 x3 2; exTrip o3 o3 3] in
  zlen (positions (map tp2 ts)) = zlen (positions (map tp3 ts)) /\ Separated (map tp2 ts) /\ AtomsInside 1 ts /\
  match lastAt ts o3 o3 0 0 0 with Some t => tv t 0 0 0 = 3%R | None => False end /\
  zlen (positions (map tp2 [exTrip o3 o3 1; exTrip o3 x3 2])) <> zlen (positions (map tp3 [exTrip o3 o3 1; exTrip o3 x3 2])).
Proof.
  cbv zeta. split; [reflexivity|]. split; [|split; [|split]].
  - intros x y [<- | [<- | [<- | []]]] [<- | [<- | [<- | []]]]; vm_compute; congruence.
  - intros t [<- | [<- | [<- | []]]]; cbn; lia.
  - reflexivity.
  - vm_compute. discriminate.
Qed.

(** C99. The coupling is the squared modulus of the sum over the whole tensor, however its lattice vectors are divided between the processes of the pool, plus, for polar
    materials and away from Gamma, the long range coefficient of the mode times the overlap of the two electronic states. *)
Theorem C99_coupling : forall E polar k ev1 ps out i p b1 b2 nu, calcCouplingSquared E polar k ev1 ps = out -> zget ps i = Some p ->
  exists g, zget out i = Some g /\ g b1 b2 nu = cnorm2 (cadd
    (elphAmplitude (nW E) (nPh E) (nrP E) (rP E) (degP E) (concat (parts E)) k (fQ p) (column ev1 b1) (column (fEv2 p) b2) (column (fEv3 p) nu))
    (if polar then if Rlt_dec (1 / 100000000 * (1 / 100000000)) (dot3 (fQ p) (fQ p)) then cmul (fX p nu) (overlap (nW E) (column (fEv2 p) b2) (column ev1 b1)) else c0 else c0)).
Proof.
  intros E polar k ev1 ps out i p b1 b2 nu <- Hp. eexists. split; [unfold calcCouplingSquared; rewrite zget_map, Hp; reflexivity|]. unfold elphCoupling. rewrite final_amplitude. reflexivity.
Qed.
Print Assumptions C99_coupling.
(** The number of processes, and which vectors each of them holds, change nothing. *)
Theorem C99_distribution : forall E E' polar k ev1 ps i p b1 b2 nu g g', nW E' = nW E -> nPh E' = nPh E -> nrP E' = nrP E -> rP E' = rP E -> degP E' = degP E ->
  Permutation (concat (parts E')) (concat (parts E)) -> zget ps i = Some p -> zget (calcCouplingSquared E polar k ev1 ps) i = Some g -> zget (calcCouplingSquared E' polar k ev1 ps) i = Some g' -> g' b1 b2 nu = g b1 b2 nu.
Proof.
  intros E E' polar k ev1 ps i p b1 b2 nu g g' H1 H2 H3 H4 H5 HP Hp. unfold calcCouplingSquared. rewrite !zget_map, Hp. cbn [option_map]. intros G G'. injection G as <-. injection G' as <-.
  unfold elphCoupling. rewrite !final_amplitude. unfold polarPart2. rewrite H1, H2, H3, H4, H5. do 2 f_equal. unfold elphAmplitude. apply csumTo_ext. intros w2 _. apply csumTo_ext. intros m _. apply csumTo_ext. intros r _. apply csumTo_ext. intros w1 _.
  apply csum_perm, Permutation_map, HP.
Qed.
Print Assumptions C99_distribution.
(** Sums over degenerate initial, final and phonon states do not depend on the choice of the eigenvectors; [H] gives the charges of the polar term. *)
Lemma coupling_value E H polar k q : exists c, (c = c0 \/ c = c1) /\ forall ev1 ev2 ev3 b1 b2 nu, coupling E H polar k ev1 q ev2 ev3 b1 b2 nu = cnorm2 (cadd
    (elphAmplitude (nW E) (nPh E) (nrP E) (rP E) (degP E) (concat (parts E)) k q (column ev1 b1) (column ev2 b2) (column ev3 nu))
    (cmul (cmul c (polarPart1 H q ev3 nu)) (overlap (nW E) (column ev2 b2) (column ev1 b1)))).
Proof.
  exists (if polar then if Rlt_dec (1 / 100000000 * (1 / 100000000)) (dot3 q q) then c1 else c0 else c0). split; [destruct polar; [destruct (Rlt_dec _ _)|]; auto|]. intros.
  unfold coupling, calcCouplingSquared. cbn [map fQ fEv2 fEv3 fX]. unfold elphCoupling. rewrite final_amplitude. do 2 f_equal. destruct polar; [destruct (Rlt_dec _ _)|]; [unfold polarPart2, overlap, column|..]; ring.
Qed.
Theorem C99_degenerate : forall E H polar k ev1 q ev2 ev3 s n U, Unitary n U -> 3 * nAt H = nPh E -> 0 <= nAt H ->
  (forall b2 nu, bandSum s n (fun b => coupling E H polar k (mixed s n U ev1) q ev2 ev3 b b2 nu) = bandSum s n (fun b => coupling E H polar k ev1 q ev2 ev3 b b2 nu)) /\
  (forall b1 nu, bandSum s n (fun b => coupling E H polar k ev1 q (mixed s n U ev2) ev3 b1 b nu) = bandSum s n (fun b => coupling E H polar k ev1 q ev2 ev3 b1 b nu)) /\
  (forall b1 b2, bandSum s n (coupling E H polar k ev1 q ev2 (mixed s n U ev3) b1 b2) = bandSum s n (coupling E H polar k ev1 q ev2 ev3 b1 b2)).
Proof.
  intros E H polar k ev1 q ev2 ev3 s n U HU HA HN. destruct (coupling_value E H polar k q) as (c & _ & V). split; [|split].
  - intros b2 nu. destruct (eleg1 (nW E) (nPh E) (nrP E) (rP E) (degP E) (concat (parts E)) k q (column ev2 b2) (column ev3 nu) (cmul c (polarPart1 H q ev3 nu))) as (B & L).
    transitivity (bandSum s n (fun b => cnorm2 (csumTo (nW E) (fun i => cmul (column (mixed s n U ev1) b i) (B i))))); [|rewrite linear_mixed by exact HU]; unfold bandSum; f_equal; apply map_ext; intro b; rewrite V, L; reflexivity.
  - intros b1 nu. destruct (eleg2 (nW E) (nPh E) (nrP E) (rP E) (degP E) (concat (parts E)) k q (column ev1 b1) (column ev3 nu) (cmul c (polarPart1 H q ev3 nu))) as (B & L).
    transitivity (bandSum s n (fun b => cnorm2 (csumTo (nW E) (fun i => cmul (column (mixed s n U ev2) b i) (B i))))); [|rewrite linear_mixed by exact HU]; unfold bandSum; f_equal; apply map_ext; intro b; rewrite V, L, norm2_conj; reflexivity.
  - intros b1 b2. destruct (polar_linear H q HN) as (C & LC). rewrite HA in LC.
    destruct (eleg3 (nW E) (nPh E) (nrP E) (rP E) (degP E) (concat (parts E)) k q (column ev1 b1) (column ev2 b2) (fun e => csumTo (nPh E) (fun i => cmul (e i) (cmul c (C i)))) (fun i => cmul c (C i)) (fun _ => eq_refl)) as (B & L).
    assert (F : forall ev b, coupling E H polar k ev1 q ev2 ev b1 b2 b = cnorm2 (csumTo (nPh E) (fun i => cmul (column ev b i) (B i)))).
    { intros ev b. rewrite V, LC, <- L. do 3 f_equal. rewrite <- csumTo_mul_l. apply csumTo_ext. intros i _. ring. }
    transitivity (bandSum s n (fun b => cnorm2 (csumTo (nPh E) (fun i => cmul (column (mixed s n U ev3) b i) (B i))))); [|rewrite linear_mixed by exact HU]; unfold bandSum; f_equal; apply map_ext; intro b; rewrite F; reflexivity.
Qed.
Print Assumptions C99_degenerate.
(** Final points can be given to separate calls. *)
Theorem C99_batches : forall E polar k ev1 ps qs, calcCouplingSquared E polar k ev1 (ps ++ qs) = calcCouplingSquared E polar k ev1 ps ++ calcCouplingSquared E polar k ev1 qs.
Proof. intros. apply map_app. Qed.
Print Assumptions C99_batches.
(** two lattice vectors on two processes *)
Definition exEl (parts : list (list elVector)) : elph := {| nW := 1; nPh := 3; nrP := 1; rP := fun _ _ => 0%R; degP := fun _ => 1%R; parts := parts |}.
Definition exVec (x : R) : elVector := {| eR := fun _ => 0%R; eDeg := 1%R; eG := fun _ nu _ _ => if nu =? 0 then (x, 0%R) else c0 |}.
Example C99_ex : Permutation (concat (parts (exEl [[exVec 1]; [exVec 2]]))) (concat (parts (exEl [[exVec 2; exVec 1]]))) /\
  elphAmplitude 1 3 1 (fun _ _ => 0%R) (fun _ => 1%R) [exVec 1; exVec 2] (fun _ => 0%R) (fun _ => 0%R) (column idMat 0) (column idMat 0) (column idMat 0) = (3%R, 0%R).
Proof.
  split; [cbn; apply perm_swap|]. unfold elphAmplitude, csumTo. change (zrange 0 1) with [0]. change (zrange 0 3) with [0; 1; 2]. cbn [map csum fold_right eDeg eR eG exVec].
  replace (dot3 (fun _ : Z => 0) (fun _ : Z => 0) + dot3 (fun _ : Z => 0) (fun _ : Z => 0))%R with 0%R by (unfold dot3; ring). rewrite expi_0. unfold column, idMat. cbn [Z.eqb]. apply cplx_eq; cbn; field.
Qed.

(** C100. Expected: the long range coefficient is the Froehlich expression, with 4 pi e^2 / V. In the code fourPi is 2 pi (constants.h:12): it is half of it, for every material,
    wavevector and mode, and a polar coupling with no short range part is a quarter of the Froehlich one. *)
Theorem C100_froehlich_refuted : forall H q ev nu, polarPart1 H q ev nu = cscale (/ 2) (froehlich H q (column ev nu)).
Proof. intros. apply polar_half. Qed.
Print Assumptions C100_froehlich_refuted.
Theorem C100_coupling_refuted : forall E H k ev1 q ev2 ev3 b1 b2 nu, parts E = [] -> (1 / 100000000 * (1 / 100000000) < dot3 q q)%R ->
  (coupling E H true k ev1 q ev2 ev3 b1 b2 nu = / 4 * cnorm2 (cmul (froehlich H q (column ev3 nu)) (overlap (nW E) (column ev2 b2) (column ev1 b1))))%R.
Proof.
  intros E H k ev1 q ev2 ev3 b1 b2 nu HP Hq. unfold coupling, calcCouplingSquared. cbn [map fQ fEv2 fEv3 fX]. unfold elphCoupling. rewrite final_amplitude, HP. cbn [concat].
  destruct (Rlt_dec _ _); [|contradiction]. replace (elphAmplitude _ _ _ _ _ _ _ _ _ _ _) with c0.
  - replace (cadd c0 (polarPart2 E ev1 ev2 (polarPart1 H q ev3) b1 b2 nu)) with (cmul (polarPart1 H q ev3 nu) (overlap (nW E) (column ev2 b2) (column ev1 b1))) by (unfold polarPart2, overlap, column; ring).
    rewrite polar_half, !norm2_mul. generalize (froehlich H q (column ev3 nu)). intros [x y]. unfold cnorm2, cscale. cbn [fst snd]. field.
  - symmetry. unfold elphAmplitude. apply csumTo_zero. intros w2 _. apply csumTo_zero. intros m _. apply csumTo_zero. intros rr _. apply csumTo_zero. reflexivity.
Qed.
Print Assumptions C100_coupling_refuted.
(** At Gamma, to 1e-8, the polar term is left out. *)
Theorem C100_gamma : forall E H k ev1 q ev2 ev3 b1 b2 nu, (dot3 q q <= 1 / 100000000 * (1 / 100000000))%R -> coupling E H true k ev1 q ev2 ev3 b1 b2 nu = coupling E H false k ev1 q ev2 ev3 b1 b2 nu.
Proof.
  intros E H k ev1 q ev2 ev3 b1 b2 nu Hq. unfold coupling, calcCouplingSquared. cbn [map fQ fEv2 fEv3 fX]. unfold elphCoupling. destruct (Rlt_dec _ _); [lra|reflexivity].
Qed.
Print Assumptions C100_gamma.
(** one ion of charge 1 in a cell of volume 1, the box reduced to q itself *)
Definition exIon : phonon :=
  {| nAt := 1; cell := fun c i => if c =? i then 1%Q else 0%Q; recip := fun c i => if c =? i then (2 * PI)%R else 0%R; grid := fun c => 0;
     tau := fun _ _ => 0%Q; mass := fun _ => 1%R; force := fun _ _ _ _ _ _ _ => 0%R;
     hasDiel := true; lr2d := false; eps := fun i j => if i =? j then 1%R else 0%R; born := fun _ k i => if k =? i then 1%R else 0%R; vol := 1%R; gMax := 14%R |}.
Example C100_ex : froehlich exIon (v3r 1 0 0) (column idMat 0) <> c0 /\ (1 / 100000000 * (1 / 100000000) < dot3 (v3r 1 0 0) (v3r 1 0 0))%R.
Proof.
  split; [|unfold dot3, v3r; cbn; lra]. unfold froehlich. change (boxVectors exIon (v3r 1 0 0)) with [fun i : Z => (0 * recip exIon 0 i + 0 * recip exIon 1 i + 0 * recip exIon 2 i + v3r 1 0 0 i)%R].
  cbn [map csum fold_right]. set (g := fun i : Z => _). assert (G0 : g 0 = 1%R) by (unfold g, v3r; cbn; ring). assert (G1 : g 1 = 0%R) by (unfold g, v3r; cbn; ring). assert (G2 : g 2 = 0%R) by (unfold g, v3r; cbn; ring). clearbody g.
  assert (Q : quad (eps exIon) g = 1%R) by (unfold quad, dot3; rewrite G0, G1, G2; cbn; ring). rewrite Q. destruct (Rlt_dec 0 1); [|lra]. destruct (Rlt_dec (1 / 4) 14); [|lra].
  change (nAt exIon) with 1. unfold csumTo. change (zrange 0 1) with [0]. change (zrange 0 3) with [0; 1; 2]. cbn [map csum fold_right].
  assert (T : (- dot3 g (toR (tau exIon 0)) = 0)%R) by (unfold dot3, toR; cbn [tau exIon]; rewrite RMicromega.Q2R_0; ring). rewrite T, expi_0. unfold column, idMat, gZ. rewrite G0, G1, G2. cbn [born vol exIon Z.eqb Z.mul Z.add Pos.eqb Pos.mul Pos.add].
  intro E. apply (f_equal snd) in E. cbn in E. pose proof (exp_pos (- (1) / 4)). pose proof PI_RGT_0. assert (0 < PI * exp (- (1) / 4))%R by nra. lra.
Qed.
