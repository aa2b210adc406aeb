(** C118, C119: the interband terms of the Wigner transport equation. *)
From Coq Require Import Reals Permutation.
From Verif Require Import Base BaseLemmas M_complex L_complex M_phonon L_phonon M_particle M_electron S_electron M_wte S_wte L_wte.
From Coq Require Import Lia Lra.
Open Scope Z_scope.

(** * C118: phonons *)
(** the formula *)
Theorem C118_formula : forall cut temp numPoints volume ranks c1 c2, (0 < cut)%R -> (0 < temp)%R -> (forall p, In p (concat ranks) -> ~ undamped p) ->
  phCorrection cut temp numPoints volume ranks c1 c2 = Some (interbandHeat cut temp (1 / numPoints / volume / temp / temp / 2) (concat ranks) c1 c2).
Proof. intros. now apply phCorrection_value. Qed.
Print Assumptions C118_formula.
(** two bands with equal energies and infinite relaxation times: no number comes out *)
Theorem C118_undamped : forall cut temp numPoints volume ranks c1 c2 p, In p (concat ranks) -> wRots p <> [] -> undamped p ->
  phCorrection cut temp numPoints volume ranks c1 c2 = None.
Proof. exact phCorrection_none. Qed.
Print Assumptions C118_undamped.
Theorem C118_symmetric : forall cut temp numPoints volume ranks c1 c2, (0 < cut)%R -> (0 < temp)%R -> (forall p, In p (concat ranks) -> ~ undamped p) ->
  (forall p, In p (concat ranks) -> HermitianVelocity p) -> phCorrection cut temp numPoints volume ranks c1 c2 = phCorrection cut temp numPoints volume ranks c2 c1.
Proof. intros. rewrite !phCorrection_value by assumption. f_equal. now apply interbandHeat_sym. Qed.
Print Assumptions C118_symmetric.
(** heat flows down the gradient: the term never lowers the conductivity along any direction *)
Theorem C118_nonneg : forall cut temp numPoints volume ranks t x, (0 < cut)%R -> (0 < temp)%R -> (0 < numPoints)%R -> (0 < volume)%R ->
  (forall p, In p (concat ranks) -> HermitianVelocity p) -> (forall p b, In p (concat ranks) -> 0 <= b < wNb p -> (0 <= wEn p b)%R /\ (0 <= wRate p b)%R) ->
  (forall c1 c2, 0 <= c1 < 3 -> 0 <= c2 < 3 -> phCorrection cut temp numPoints volume ranks c1 c2 = Some (t c1 c2)) -> (forall p, In p (concat ranks) -> ~ undamped p) ->
  (0 <= form2 t x)%R.
Proof.
  intros cut temp N V ranks t x Hc Ht HN HV Hh Hp E Hu.
  rewrite (form2_ext t (interbandHeat cut temp (phNorm N V temp) (concat ranks)) x).
  - apply interbandHeat_psd; try assumption. unfold phNorm. apply Rlt_le. repeat apply Rdiv_lt_0_compat; lra.
  - intros i j Hi Hj. specialize (E i j Hi Hj). rewrite phCorrection_value in E by assumption. now injection E.
Qed.
Print Assumptions C118_nonneg.
(** the phases of the eigenvectors do not matter *)
Theorem C118_phases : forall u cut temp numPoints volume ranks c1 c2, (forall p b, In p (concat ranks) -> 0 <= b < wNb p -> cnorm2 (u p b) = 1%R) ->
  phCorrection cut temp numPoints volume (map (map (fun p => rephased (u p) p)) ranks) c1 c2 = phCorrection cut temp numPoints volume ranks c1 c2.
Proof. exact phCorrection_phase. Qed.
Print Assumptions C118_phases.
(** nor does the choice of eigenvectors of degenerate bands, once the intraband conductivity is added *)
Theorem C118_basis : forall U cut temp numPoints volume p r c1 c2 e g x x', (0 < cut)%R -> (0 < temp)%R -> (0 < numPoints)%R -> (0 < volume)%R -> (0 < g)%R ->
  (forall b, 0 <= b < wNb p -> wEn p b = e /\ wRate p b = g) -> wRots p = [r] -> Unitary (wNb p) U ->
  phCorrection cut temp numPoints volume [[p]] c1 c2 = Some x -> phCorrection cut temp numPoints volume [[inBasis U p]] c1 c2 = Some x' ->
  let norm := (1 / (numPoints * volume * temp * temp))%R in
  (x + intrabandHeat cut temp norm p r c1 c2 = x' + intrabandHeat cut temp norm (inBasis U p) r c1 c2)%R.
Proof.
  intros U cut temp N V p r c1 c2 e g x x' Hc Ht HN HV Hg Hb Hr HU E E' norm.
  assert (Hu : ~ undamped p) by (intros (b1 & b2 & H1 & H2 & _ & _ & G); destruct (Hb b1 H1) as [_ R1], (Hb b2 H2) as [_ R2]; lra).
  assert (D : forall q, wNb q = wNb p -> wEn q = wEn p -> wRate q = wRate p -> wRots q = wRots p -> forall y, phCorrection cut temp N V [[q]] c1 c2 = Some y ->
    (y + intrabandHeat cut temp norm q r c1 c2 = norm * (e * heatOf cut temp e / g) * velTrace r q c1 c2)%R).
  { intros q Q1 Q2 Q3 Q4 y Ey. rewrite phCorrection_value in Ey; try assumption.
    - injection Ey as <-. rewrite Rplus_comm. rewrite <- (total_heat cut temp norm q r c1 c2 e g Hg) by (rewrite Q1, Q2, Q3; exact Hb). f_equal.
      unfold interbandHeat. cbn [concat app map]. rewrite Q4, Hr. cbn [map]. rewrite !rsum_cons. change (rsum []) with 0%R. rewrite !Rplus_0_r.
      replace (phNorm N V temp) with (norm / 2)%R by (unfold phNorm, norm; field; lra). reflexivity.
    - cbn [concat app]. intros q' [<- | []]. intros (b1 & b2 & H1 & H2 & H3 & H4). apply Hu. exists b1, b2. rewrite <- Q1, <- Q2, <- Q3. tauto. }
  rewrite (D p), (D (inBasis U p)) by (reflexivity || assumption). now rewrite velTrace_basis.
Qed.
Print Assumptions C118_basis.
(** without off-diagonal velocities there is no correction *)
Theorem C118_uncoupled : forall cut temp numPoints volume ranks c1 c2, (0 < cut)%R -> (0 < temp)%R -> (forall p, In p (concat ranks) -> ~ undamped p) ->
  (forall p b1 b2 c, In p (concat ranks) -> b1 <> b2 -> wVel p b1 b2 c = c0) -> phCorrection cut temp numPoints volume ranks c1 c2 = Some 0%R.
Proof.
  intros cut temp N V ranks c1 c2 Hc Ht Hu H. rewrite phCorrection_value by assumption. f_equal. unfold interbandHeat. apply rsum_zero. intros p Hp. apply rsum_zero. intros r _.
  rewrite (overPairs_ext _ _ (fun _ _ => (0 * 0)%R)); [rewrite overPairs_mul; ring|]. intros a b _ _ Hab. unfold heatTerm, velProduct, over3. rewrite !(H p a b) by assumption. unfold cmul, c0. cbn [fst snd]. ring.
Qed.
Print Assumptions C118_uncoupled.
(** any distribution of the wavevectors over the processes gives the same tensor *)
Theorem C118_processes : forall cut temp numPoints volume ranks ranks' c1 c2, Permutation (concat ranks) (concat ranks') ->
  phCorrection cut temp numPoints volume ranks c1 c2 = phCorrection cut temp numPoints volume ranks' c1 c2.
Proof. intros. rewrite !phCorrection_flat. apply osum_perm, Permutation_map. assumption. Qed.
Print Assumptions C118_processes.

Definition idR : Z -> Z -> R := fun i j => if i =? j then 1%R else 0%R.
Definition exPoint : wPoint := {| wNb := 2; wEn := fun b => IZR (1 + b); wVel := fun b1 b2 c => if b1 =? b2 then c1 else if b1 <? b2 then cI else copp cI; wRate := fun _ => 1%R; wRots := [idR] |}.
Lemma exPoint_pair (P : Z -> Z -> Prop) : P 0 1 -> P 1 0 -> forall b1 b2, 0 <= b1 < 2 -> 0 <= b2 < 2 -> b1 <> b2 -> P b1 b2.
Proof. intros H1 H2 b1 b2 A B N. assert (b1 = 0 /\ b2 = 1 \/ b1 = 1 /\ b2 = 0) as [[-> ->] | [-> ->]] by lia; assumption. Qed.
Lemma exPoint_hermitian : HermitianVelocity exPoint.
Proof. intros b1 b2 c H1 H2 _. cbn in H1, H2. assert (b1 = 0 \/ b1 = 1) as [-> | ->] by lia; assert (b2 = 0 \/ b2 = 1) as [-> | ->] by lia; cbn; cring. Qed.
Lemma exPoint_damped : ~ undamped exPoint.
Proof. intros (b1 & b2 & _ & _ & _ & _ & H). cbn in H. lra. Qed.
Example C118_ex : (forall p, In p (concat [[exPoint]]) -> ~ undamped p) /\ HermitianVelocity exPoint /\
  phCorrection 1 1 1 1 [[exPoint]] 0 0 = Some (interbandHeat 1 1 (1 / 1 / 1 / 1 / 1 / 2) [exPoint] 0 0) /\ (0 < interbandHeat 1 1 (1 / 1 / 1 / 1 / 1 / 2) [exPoint] 0 0)%R.
Proof.
  assert (Hu : forall p, In p (concat [[exPoint]]) -> ~ undamped p) by (intros p [<- | []]; exact exPoint_damped).
  split; [exact Hu|]. split; [exact exPoint_hermitian|]. split; [apply C118_formula; (lra || exact Hu)|].
  unfold interbandHeat. cbn [map]. change (wRots exPoint) with [idR]. change (wNb exPoint) with 2. cbn [map]. rewrite !rsum_cons. change (rsum []) with 0%R. unfold overPairs. change (zrange 0 2) with [0; 1]. cbn [map Z.eqb Pos.eqb]. rewrite !rsum_cons. change (rsum []) with 0%R.
  assert (P : forall a b, (a = 0 /\ b = 1 \/ a = 1 /\ b = 0) -> (0 < heatTerm 1 1 (1 / 1 / 1 / 1 / 1 / 2) exPoint idR 0 0 a b)%R).
  { intros a b Hab. unfold heatTerm. pose proof (heatOf_nonneg 1 1 (wEn exPoint a) ltac:(lra) ltac:(lra)). pose proof (heatOf_nonneg 1 1 (wEn exPoint b) ltac:(lra) ltac:(lra)).
    assert (V : velProduct idR exPoint 0 0 a b = 1%R) by (destruct Hab as [[-> ->] | [-> ->]]; unfold velProduct, over3, idR, cmul, cI, copp; cbn; ring).
    assert (L : (0 < lorentz exPoint a b)%R) by (destruct Hab as [[-> ->] | [-> ->]]; unfold lorentz; cbn; lra).
    assert (E : (0 < wEn exPoint a + wEn exPoint b)%R) by (destruct Hab as [[-> ->] | [-> ->]]; cbn; lra).
    assert (Q : (0 < heatOf 1 1 2)%R). { unfold heatOf. destruct (Rlt_dec 2 1); [lra|]. assert (X : (0 < exp (2 / 1) - 1)%R) by (pose proof (exp_increasing 0 (2 / 1) ltac:(lra)); rewrite exp_0 in *; lra).
      apply Rinv_0_lt_compat in X. apply Rmult_lt_0_compat; [apply Rmult_lt_0_compat|]; lra. }
    assert (W : (0 < heatOf 1 1 (wEn exPoint a) + heatOf 1 1 (wEn exPoint b))%R) by (destruct Hab as [[-> ->] | [-> ->]]; cbn in *; lra).
    rewrite V. apply Rmult_lt_0_compat; [lra|]. apply Rmult_lt_0_compat; [|exact L]. apply Rmult_lt_0_compat; lra. }
  pose proof (P 0 1 ltac:(lia)). pose proof (P 1 0 ltac:(lia)). lra.
Qed.
Example C118_ex_basis : exists (U : cmat) p r e g, (0 < g)%R /\ (forall b, 0 <= b < wNb p -> wEn p b = e /\ wRate p b = g) /\ wRots p = [r] /\ Unitary (wNb p) U /\
  exists x x', phCorrection 1 1 1 1 [[p]] 0 0 = Some x /\ phCorrection 1 1 1 1 [[inBasis U p]] 0 0 = Some x'.
Proof.
  exists idMat, {| wNb := 2; wEn := fun _ => 1%R; wVel := fun b1 b2 c => c1; wRate := fun _ => 1%R; wRots := [idR] |}, idR, 1%R, 1%R.
  split; [lra|]. split; [intros; now split|]. split; [reflexivity|]. split.
  - split; intros i j Hi Hj; cbn in Hi, Hj; assert (i = 0 \/ i = 1) as [-> | ->] by lia; assert (j = 0 \/ j = 1) as [-> | ->] by lia; unfold matMul, csumTo; cbn [wNb]; change (zrange 0 2) with [0; 1];
      cbn [map csum fold_right]; unfold adjoint, idMat; cbn [Z.eqb Pos.eqb]; cring.
  - eexists _, _. split; (rewrite C118_formula; [reflexivity|lra|lra|]); intros p [<- | []] (b1 & b2 & _ & _ & _ & _ & H); cbn in H; lra.
Qed.

(** * C119: electrons *)
(** the four coefficients *)
Theorem C119_formula : forall temp mu norm ranks c1 c2, (0 < temp)%R -> 0 <= c1 < 3 -> 0 <= c2 < 3 ->
  (forall p, In p (concat ranks) -> HermitianVelocity p /\ ~ degenerate p) ->
  corrLEE temp mu norm ranks c1 c2 = Some (interband (fun p b1 b2 => - 4 * norm * slope temp mu p b1 b2)%R (concat ranks) c1 c2) /\
  corrLET temp mu norm ranks c1 c2 = Some (interband (fun p b1 b2 => - 4 * norm * (fermiT temp mu (wEn p b1) + fermiT temp mu (wEn p b2)))%R (concat ranks) c1 c2) /\
  corrLTE temp mu norm ranks c1 c2 = Some (interband (fun p b1 b2 => 4 * norm * ((wEn p b1 + wEn p b2) / 2 - mu) * slope temp mu p b1 b2)%R (concat ranks) c1 c2) /\
  corrLTT temp mu norm ranks c1 c2 = Some (interband (fun p b1 b2 => - 4 * norm * ((wEn p b1 + wEn p b2) / 2 - mu) * (fermiT temp mu (wEn p b1) + fermiT temp mu (wEn p b2)))%R (concat ranks) c1 c2).
Proof.
  intros temp mu norm ranks c1 c2 Ht H1 H2 Hp.
  assert (N : forall p b1 b2, In p (concat ranks) -> 0 <= b1 < wNb p -> 0 <= b2 < wNb p -> b1 <> b2 -> wEn p b1 <> wEn p b2)
    by (intros p b1 b2 I B1 B2 B E; apply (proj2 (Hp p I)); exists b1, b2; tauto).
  assert (E : forall p b1 b2, In p (concat ranks) -> 0 <= b1 < wNb p -> 0 <= b2 < wNb p -> b1 <> b2 -> anti (fE temp mu) p c1 c2 (b1, b2) = Some ((-4 * slope temp mu p b1 b2) * response p c1 c2 b1 b2)%R)
    by (intros p b1 b2 I B1 B2 B; apply antiE; try assumption; [now apply Hp|now apply N]).
  assert (T : forall p b1 b2, In p (concat ranks) -> 0 <= b1 < wNb p -> 0 <= b2 < wNb p -> b1 <> b2 ->
    anti (fT temp mu) p c1 c2 (b1, b2) = Some ((4 * (fermiT temp mu (wEn p b1) + fermiT temp mu (wEn p b2))) * response p c1 c2 b1 b2)%R)
    by (intros p b1 b2 I B1 B2 B; apply antiT; try assumption; [now apply Hp|intros [E' _]; exact (N p b1 b2 I B1 B2 B E')]).
  assert (X : forall w w', (forall p b1 b2, w p b1 b2 = w' p b1 b2) -> interband w (concat ranks) c1 c2 = interband w' (concat ranks) c1 c2)
    by (intros w w' Hw; unfold interband; apply rsum_ext; intros p _; apply overPairs_ext; intros a b _ _ _; now rewrite Hw).
  assert (Hh : forall p, In p (concat ranks) -> HermitianVelocity p) by (intros p I; now apply Hp).
  repeat split.
  - unfold corrLEE. rewrite (elSum_value _ _ _ _ _ _ E). f_equal. apply X. intros. ring.
  - unfold corrLET. rewrite (elSum_value _ _ _ _ _ _ T). f_equal. apply X. intros. ring.
  - unfold corrLTE. rewrite (elSum_value _ _ _ _ _ _ E). f_equal. cbn [fst]. rewrite interband_mean by (try assumption; intros; now rewrite slope_swap). apply X. intros. field.
  - unfold corrLTT. rewrite (elSum_value _ _ _ _ _ _ T). f_equal. cbn [fst]. rewrite interband_mean by (try assumption; intros; ring). apply X. intros. field.
Qed.
Print Assumptions C119_formula.
(** two bands with the same energy at any wavevector: no conductivity comes out *)
Theorem C119_degenerate_refuted : forall temp mu norm ranks c1 c2 p, In p (concat ranks) -> degenerate p ->
  corrLEE temp mu norm ranks c1 c2 = None /\ corrLTE temp mu norm ranks c1 c2 = None.
Proof. intros temp mu norm ranks c1 c2 p I (b1 & b2 & H1 & H2 & H3 & H4). split; apply (elSum_none _ _ _ _ _ p b1 b2); try assumption; now apply antiE_none. Qed.
Print Assumptions C119_degenerate_refuted.
(** the interband term never lowers the electrical conductivity along any direction *)
Theorem C119_conductivity : forall temp mu norm ranks t x, (0 < temp)%R -> (0 <= norm)%R -> (forall p, In p (concat ranks) -> HermitianVelocity p /\ ~ degenerate p) ->
  (forall p b, In p (concat ranks) -> 0 <= b < wNb p -> (0 <= wRate p b)%R) ->
  (forall c1 c2, 0 <= c1 < 3 -> 0 <= c2 < 3 -> corrLEE temp mu norm ranks c1 c2 = Some (t c1 c2)) -> (0 <= form2 t x)%R.
Proof.
  intros temp mu norm ranks t x Ht Hn Hp Hr E.
  rewrite (form2_ext t (interband (fun p b1 b2 => - 4 * norm * slope temp mu p b1 b2)%R (concat ranks)) x).
  - apply interband_form; try assumption; [intros p I; now apply Hp|]. intros p b1 b2 I B1 B2 B.
    assert (S : (slope temp mu p b1 b2 < 0)%R) by (apply slope_neg; [exact Ht|]; intro Q; apply (proj2 (Hp p I)); exists b1, b2; tauto).
    replace (- 4 * norm * slope temp mu p b1 b2)%R with (4 * norm * - slope temp mu p b1 b2)%R by ring. apply Rmult_le_pos; lra.
  - intros i j Hi Hj. pose proof (proj1 (C119_formula temp mu norm ranks i j Ht Hi Hj Hp)) as F. rewrite (E i j Hi Hj) in F. now injection F.
Qed.
Print Assumptions C119_conductivity.
(** with k and -k on the mesh, time reversal makes the conductivity symmetric *)
Theorem C119_time_reversal : forall temp mu norm points c1 c2, (0 < temp)%R -> 0 <= c1 < 3 -> 0 <= c2 < 3 ->
  (forall p, In p points -> HermitianVelocity p /\ ~ degenerate p) ->
  corrLEE temp mu norm [points; map reversed points] c1 c2 = corrLEE temp mu norm [points; map reversed points] c2 c1.
Proof.
  intros temp mu norm points c1 c2 Ht H1 H2 Hp.
  assert (Hq : forall p, In p (concat [points; map reversed points]) -> HermitianVelocity p /\ ~ degenerate p).
  { cbn [concat]. rewrite app_nil_r. intros p Hi. apply in_app_or in Hi as [Hi | Hi]; [now apply Hp|]. apply in_map_iff in Hi as (q & <- & Hi). split; [apply reversed_hermitian; now apply Hp|].
    intros D. apply (proj2 (Hp q Hi)). exact D. }
  rewrite (proj1 (C119_formula temp mu norm _ c1 c2 Ht H1 H2 Hq)), (proj1 (C119_formula temp mu norm _ c2 c1 Ht H2 H1 Hq)). f_equal.
  unfold interband. cbn [concat]. rewrite app_nil_r, !map_app, !rsum_app, !map_map.
  assert (S : forall d1 d2, 0 <= d1 < 3 -> 0 <= d2 < 3 -> rsum (map (fun x => overPairs (wNb (reversed x)) (fun b1 b2 => (-4 * norm * slope temp mu (reversed x) b1 b2 * response (reversed x) d1 d2 b1 b2)%R)) points) =
    rsum (map (fun p => overPairs (wNb p) (fun b1 b2 => (-4 * norm * slope temp mu p b1 b2 * response p d2 d1 b1 b2)%R)) points)).
  { intros d1 d2 D1 D2. apply rsum_ext. intros p I. cbn [reversed wNb]. apply overPairs_ext. intros a b A B _. rewrite response_reversed by (try assumption; now apply Hp). reflexivity. }
  rewrite (S c1 c2), (S c2 c1) by assumption. ring.
Qed.
Print Assumptions C119_time_reversal.
Theorem C119_phases : forall u temp mu norm ranks c1 c2, (forall p b, In p (concat ranks) -> 0 <= b < wNb p -> cnorm2 (u p b) = 1%R) ->
  let ranks' := map (map (fun p => rephased (u p) p)) ranks in
  corrLEE temp mu norm ranks' c1 c2 = corrLEE temp mu norm ranks c1 c2 /\ corrLET temp mu norm ranks' c1 c2 = corrLET temp mu norm ranks c1 c2 /\
  corrLTE temp mu norm ranks' c1 c2 = corrLTE temp mu norm ranks c1 c2 /\ corrLTT temp mu norm ranks' c1 c2 = corrLTT temp mu norm ranks c1 c2.
Proof. intros u temp mu norm ranks c1 c2 Hu ranks'. repeat split; apply elSum_phase; try assumption; try reflexivity; intros; (now apply antiE_phase) || (now apply antiT_phase). Qed.
Print Assumptions C119_phases.
Theorem C119_processes : forall temp mu norm ranks ranks' c1 c2, Permutation (concat ranks) (concat ranks') ->
  corrLEE temp mu norm ranks c1 c2 = corrLEE temp mu norm ranks' c1 c2 /\ corrLET temp mu norm ranks c1 c2 = corrLET temp mu norm ranks' c1 c2 /\
  corrLTE temp mu norm ranks c1 c2 = corrLTE temp mu norm ranks' c1 c2 /\ corrLTT temp mu norm ranks c1 c2 = corrLTT temp mu norm ranks' c1 c2.
Proof. intros. unfold corrLEE, corrLET, corrLTE, corrLTT. rewrite !elSum_flat. repeat split; apply osum_perm, Permutation_map; assumption. Qed.
Print Assumptions C119_processes.
(** the intraband coefficients obey L_TE = - T L_ET (see C71); the interband ones do not: both are negative for electrons above the
    chemical potential *)
Theorem C119_reciprocity_refuted : exists temp mu norm p a b, (0 < temp)%R /\ (0 < norm)%R /\ HermitianVelocity p /\ ~ degenerate p /\ (forall n, 0 <= n < wNb p -> (0 < wRate p n)%R) /\
  corrLTE temp mu norm [[p]] 0 0 = Some a /\ corrLET temp mu norm [[p]] 0 0 = Some b /\ (a < 0)%R /\ (b < 0)%R /\ a <> (- (temp * b))%R.
Proof.
  exists 1%R, 0%R, 1%R, exPoint.
  assert (Hd : ~ degenerate exPoint). { intros (b1 & b2 & H1 & H2 & H3 & H4). change (IZR (1 + b1) = IZR (1 + b2)) in H4. apply eq_IZR in H4. lia. }
  assert (Hp : forall p, In p (concat [[exPoint]]) -> HermitianVelocity p /\ ~ degenerate p) by (intros p [<- | []]; split; [exact exPoint_hermitian|exact Hd]).
  destruct (C119_formula 1 0 1 [[exPoint]] 0 0 ltac:(lra) ltac:(lia) ltac:(lia) Hp) as (_ & ET & TE & _). eexists _, _.
  split; [lra|]. split; [lra|]. split; [exact exPoint_hermitian|]. split; [exact Hd|]. split; [intros; cbn; lra|]. split; [exact TE|]. split; [exact ET|].
  assert (R : forall a b, (a = 0 /\ b = 1 \/ a = 1 /\ b = 0) -> response exPoint 0 0 a b = (1 / 4)%R) by (intros a b [[-> ->] | [-> ->]]; unfold response, cmul, cI, copp; cbn; field).
  assert (F : forall e, (0 < e)%R -> (0 < fermiT 1 0 e)%R).
  { intros e He. unfold fermiT, fermi. set (x := exp _). assert (0 < x)%R by apply exp_pos. replace (/ (x + 1) * (1 - / (x + 1)) * (e - 0) / (1 * 1))%R with (e * x * (/ (x + 1) * / (x + 1)))%R by (field; lra).
    assert (0 < / (x + 1))%R by (apply Rinv_0_lt_compat; lra). repeat apply Rmult_lt_0_compat; lra. }
  assert (S : forall a b, (a = 0 /\ b = 1 \/ a = 1 /\ b = 0) -> (slope 1 0 exPoint a b < 0)%R) by (intros a b [[-> ->] | [-> ->]]; apply slope_neg; cbn; lra).
  pose proof (F 1%R ltac:(lra)) as F1. pose proof (F 2%R ltac:(lra)) as F2. pose proof (S 0 1 ltac:(lia)) as S1. pose proof (S 1 0 ltac:(lia)) as S2.
  assert (E0 : wEn exPoint 0 = 1%R) by reflexivity. assert (E1 : wEn exPoint 1 = 2%R) by reflexivity.
  assert (A : (interband (fun p b1 b2 => (4 * 1 * ((wEn p b1 + wEn p b2) / 2 - 0) * slope 1 0 p b1 b2)%R) (concat [[exPoint]]) 0 0 < 0)%R).
  { unfold interband. cbn [concat app map]. change (wNb exPoint) with 2. unfold overPairs. change (zrange 0 2) with [0; 1]. cbn [map Z.eqb Pos.eqb]. rewrite !rsum_cons. change (rsum []) with 0%R. rewrite (R 0 1), (R 1 0), E0, E1 by lia. lra. }
  assert (B : (interband (fun p b1 b2 => (- 4 * 1 * (fermiT 1 0 (wEn p b1) + fermiT 1 0 (wEn p b2)))%R) (concat [[exPoint]]) 0 0 < 0)%R).
  { unfold interband. cbn [concat app map]. change (wNb exPoint) with 2. unfold overPairs. change (zrange 0 2) with [0; 1]. cbn [map Z.eqb Pos.eqb]. rewrite !rsum_cons. change (rsum []) with 0%R. rewrite (R 0 1), (R 1 0), E0, E1 by lia. lra. }
  split; [exact A|]. split; [exact B|]. lra.
Qed.
Print Assumptions C119_reciprocity_refuted.
(** for two degenerate bands the total L_ET depends on the choice of their eigenvectors: the interband term is twice too large *)
Definition degPoint : wPoint := {| wNb := 2; wEn := fun _ => 1%R; wVel := fun b1 b2 c => if b1 =? b2 then (if b1 =? 0 then c1 else copp c1) else c0; wRate := fun _ => 1%R; wRots := [idR] |}.
Definition degPoint' : wPoint := {| wNb := 2; wEn := fun _ => 1%R; wVel := fun b1 b2 c => if b1 =? b2 then c0 else c1; wRate := fun _ => 1%R; wRots := [idR] |}.
Definition hadamard : cmat := fun i j => if (i =? 1) && (j =? 1) then (- / sqrt 2, 0)%R else (/ sqrt 2, 0)%R.
Theorem C119_basis_refuted : exists p p' U x x' norm, HermitianVelocity p /\ Unitary (wNb p) U /\ (forall b, 0 <= b < wNb p -> (0 < wRate p b)%R) /\
  wNb p' = wNb p /\ wEn p' = wEn p /\ wRate p' = wRate p /\ (forall b1 b2 c, 0 <= b1 < wNb p -> 0 <= b2 < wNb p -> wVel p' b1 b2 c = wVel (inBasis U p) b1 b2 c) /\
  corrLET 1 0 (norm / 2) [[p]] 0 0 = Some x /\ corrLET 1 0 (norm / 2) [[p']] 0 0 = Some x' /\
  intrabandLET 1 0 norm p 0 0 <> 0%R /\ x = 0%R /\ intrabandLET 1 0 norm p' 0 0 = 0%R /\ x' = (2 * intrabandLET 1 0 norm p 0 0)%R.
Proof.
  assert (S2 : (/ sqrt 2 * / sqrt 2 = / 2)%R) by (rewrite <- Rinv_mult, sqrt_sqrt by lra; reflexivity).
  exists degPoint, degPoint', hadamard.
  assert (Hh : HermitianVelocity degPoint) by (intros b1 b2 c H1 H2 _; cbn in H1, H2; assert (b1 = 0 \/ b1 = 1) as [-> | ->] by lia; assert (b2 = 0 \/ b2 = 1) as [-> | ->] by lia; cbn; cring).
  assert (Hh' : HermitianVelocity degPoint') by (intros b1 b2 c H1 H2 _; cbn in H1, H2; assert (b1 = 0 \/ b1 = 1) as [-> | ->] by lia; assert (b2 = 0 \/ b2 = 1) as [-> | ->] by lia; cbn; cring).
  assert (V : forall p, HermitianVelocity p -> (forall b, wRate p b = 1%R) -> corrLET 1 0 (1 / 2) [[p]] 0 0 =
    Some (interband (fun p b1 b2 => - (1 / 2) * (4 * (fermiT 1 0 (wEn p b1) + fermiT 1 0 (wEn p b2))))%R (concat [[p]]) 0 0)).
  { intros p Hp Hr. unfold corrLET. apply (elSum_value (fT 1 0) (fun _ _ => (- (1 / 2))%R) (fun p b1 b2 => (4 * (fermiT 1 0 (wEn p b1) + fermiT 1 0 (wEn p b2)))%R)). intros q b1 b2 [<- | []] B1 B2 B. apply antiT; try assumption; try lia; try lra. rewrite !Hr. lra. }
  do 2 eexists. exists 1%R.
  split; [exact Hh|]. split.
  { split; intros i j Hi Hj; cbn in Hi, Hj; assert (i = 0 \/ i = 1) as [-> | ->] by lia; assert (j = 0 \/ j = 1) as [-> | ->] by lia; unfold matMul, csumTo; change (zrange 0 (wNb degPoint)) with [0; 1];
      cbn [map csum fold_right]; unfold adjoint, hadamard, idMat, cconj, cmul, cadd, c0, c1; cbn [Z.eqb Pos.eqb andb fst snd]; apply cplx_eq; cbn [fst snd]; generalize dependent (/ sqrt 2)%R; intros s S2; nra. }
  split; [intros; cbn; lra|]. split; [reflexivity|]. split; [reflexivity|]. split; [reflexivity|]. split.
  { intros b1 b2 c Hi Hj; cbn in Hi, Hj; assert (b1 = 0 \/ b1 = 1) as [-> | ->] by lia; assert (b2 = 0 \/ b2 = 1) as [-> | ->] by lia; cbn [inBasis wVel]; unfold matMul, csumTo; change (zrange 0 (wNb degPoint)) with [0; 1];
      cbn [map csum fold_right]; unfold adjoint, hadamard, cconj, cmul, cadd, copp, c0, c1; cbn [Z.eqb Pos.eqb andb fst snd degPoint degPoint' wVel]; unfold copp, c0, c1; cbn [fst snd]; apply cplx_eq; cbn [fst snd]; generalize dependent (/ sqrt 2)%R; intros s S2; nra. }
  split; [apply V; [exact Hh|reflexivity]|]. split; [apply V; [exact Hh'|reflexivity]|].
  assert (F : (0 < fermiT 1 0 1)%R).
  { unfold fermiT, fermi. set (x := exp _). assert (0 < x)%R by apply exp_pos. replace (/ (x + 1) * (1 - / (x + 1)) * (1 - 0) / (1 * 1))%R with (x * (/ (x + 1) * / (x + 1)))%R by (field; lra).
    assert (0 < / (x + 1))%R by (apply Rinv_0_lt_compat; lra). repeat apply Rmult_lt_0_compat; lra. }
  assert (I : intrabandLET 1 0 1 degPoint 0 0 = (-2 * fermiT 1 0 1)%R) by (unfold intrabandLET; change (zrange 0 (wNb degPoint)) with [0; 1]; cbn [map]; rewrite !rsum_cons; change (rsum []) with 0%R; cbn [degPoint wVel wEn wRate Z.eqb Pos.eqb c1 copp fst]; field).
  assert (I' : intrabandLET 1 0 1 degPoint' 0 0 = 0%R) by (unfold intrabandLET; change (zrange 0 (wNb degPoint')) with [0; 1]; cbn [map]; rewrite !rsum_cons; change (rsum []) with 0%R; cbn [degPoint' wVel wEn wRate Z.eqb Pos.eqb c0 fst]; field).
  rewrite I, I'. split; [lra|]. unfold interband. cbn [concat app map]. change (wNb degPoint) with 2. change (wNb degPoint') with 2. unfold overPairs. change (zrange 0 2) with [0; 1]. cbn [map Z.eqb Pos.eqb]. rewrite !rsum_cons. change (rsum []) with 0%R.
  split; [|split; [reflexivity|]]; unfold response, cmul, c0, c1, copp; cbn [degPoint degPoint' wVel wEn wRate Z.eqb Pos.eqb fst snd]; unfold c0, c1; cbn [fst snd]; field.
Qed.
Print Assumptions C119_basis_refuted.
Example C119_ex : HermitianVelocity exPoint /\ ~ degenerate exPoint /\ (forall b, 0 <= b < wNb exPoint -> (0 <= wRate exPoint b)%R) /\ exists t, (forall c1 c2, 0 <= c1 < 3 -> 0 <= c2 < 3 -> corrLEE 1 0 1 [[exPoint]] c1 c2 = Some (t c1 c2)) /\ (0 < t 0%Z 0%Z)%R.
Proof.
  assert (Hd : ~ degenerate exPoint). { intros (b1 & b2 & H1 & H2 & H3 & H4). change (IZR (1 + b1) = IZR (1 + b2)) in H4. apply eq_IZR in H4. lia. }
  assert (Hp : forall p, In p (concat [[exPoint]]) -> HermitianVelocity p /\ ~ degenerate p) by (intros p [<- | []]; split; [exact exPoint_hermitian|exact Hd]).
  split; [exact exPoint_hermitian|]. split; [exact Hd|]. split; [intros; cbn; lra|].
  exists (interband (fun p b1 b2 => - 4 * 1 * slope 1 0 p b1 b2)%R (concat [[exPoint]])). split; [intros; now apply C119_formula; try lra|].
  assert (R : forall a b, (a = 0 /\ b = 1 \/ a = 1 /\ b = 0) -> response exPoint 0 0 a b = (1 / 4)%R) by (intros a b [[-> ->] | [-> ->]]; unfold response, cmul, cI, copp; cbn; field).
  assert (S : forall a b, (a = 0 /\ b = 1 \/ a = 1 /\ b = 0) -> (slope 1 0 exPoint a b < 0)%R) by (intros a b [[-> ->] | [-> ->]]; apply slope_neg; cbn; lra).
  pose proof (S 0 1 ltac:(lia)). pose proof (S 1 0 ltac:(lia)).
  unfold interband. cbn [concat app map]. change (wNb exPoint) with 2. unfold overPairs. change (zrange 0 2) with [0; 1]. cbn [map Z.eqb Pos.eqb]. rewrite !rsum_cons. change (rsum []) with 0%R. rewrite (R 0 1), (R 1 0) by lia. lra.
Qed.
