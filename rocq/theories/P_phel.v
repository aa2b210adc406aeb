(** Property C151: linewidths of phonons due to electrons *)
From Coq Require Import QArith Qcanon Reals Permutation Lra.
From Verif Require Import Base BaseLemmas M_mpi S_mpi L_mpi M_matrix L_matrix2 M_vbte M_scattering S_scattering L_scattering L_scattering2 P_scattering M_helper M_particle S_particle L_particle P_particle M_phel S_phel L_phel.
From Verif Require L_solver.
From Coq Require Import Lia.
Open Scope Z_scope.

Lemma scaled_rate X c q ib3 ks : (1 / Q2Qc (inject_Z (meshSize X)) / temp X c * piQ X * qsum (map (fun t => snd t * absorbed X c q ib3 (fst t)) ks) = phelRate X c q ib3 ks)%Qc.
Proof. unfold phelRate, Qcdiv. rewrite Qcinv_mult_distr. ring. Qed.

(** What is computed, whatever the number of processes and of batches: pi / (N T) times the sum over irreducible electron points of the
    size of the star times the transitions that absorb the phonon; nothing below the cutoff. *)
Theorem C151_sums : forall X size batches c, fits (numK X) size -> fits (zlen (kIrr X)) size ->
  (forall k, 0 < batches k /\ zlen (qIrr X) * batches k <= INT_MAX) -> (forall k, In k (kIrr X) -> 0 <= k < numK X) -> distinctStates (qIrr X) (enPh X) (bteOf X) ->
  exists lw, phelSums X size batches c = Ok lw /\ forall q ib3 e3, In q (qIrr X) -> zget (enPh X q) ib3 = Some e3 ->
    ((e3 < cutoff X)%Qc -> lw (bteOf X q ib3) = 0%Qc) /\ ((cutoff X <= e3)%Qc -> lw (bteOf X q ib3) = phelRate X c q ib3 (bySize X)).
Proof.
  intros X size batches c F F2 HB HK D. destruct (sums_formula X size batches c F F2 HB HK D) as (lw & E & H). exists lw. split; [exact E|]. intros q ib3 e3 Hq E3.
  rewrite (H q ib3 e3 Hq E3). unfold qltb. destruct (Qclt_le_dec e3 (cutoff X)) as [L|L]; split; intros K; try reflexivity.
  - exfalso. exact (Qclt_not_le _ _ L K).
  - exfalso. exact (Qclt_not_le _ _ K L).
  - apply scaled_rate.
Qed.
Print Assumptions C151_sums.

(** The result: also after the average, which concerns the first calculation and degenerate bands only. *)
Theorem C151_linewidths : forall X size batches c, fits (numK X) size -> fits (zlen (kIrr X)) size ->
  (forall k, 0 < batches k /\ zlen (qIrr X) * batches k <= INT_MAX) -> (forall k, In k (kIrr X) -> 0 <= k < numK X) -> distinctStates (qIrr X) (enPh X) (bteOf X) ->
  exists lw, phelLinewidths X size batches c = Ok lw /\ forall q ib3 e3, In q (qIrr X) -> zget (enPh X q) ib3 = Some e3 -> (cutoff X <= e3)%Qc ->
    c <> 0 \/ (separated (enPh X q) /\ forall ib' e', zget (enPh X q) ib' = Some e' -> nearDeg e' e3 = true -> ib' = ib3) ->
    lw (bteOf X q ib3) = phelRate X c q ib3 (bySize X).
Proof.
  intros X size batches c F F2 HB HK D. destruct (C151_sums X size batches c F F2 HB HK D) as (lw & E & H). unfold phelLinewidths. rewrite E. cbn [bind]. eexists. split; [reflexivity|].
  intros q ib3 e3 Hq E3 L HC. destruct (Z.eqb_spec c 0) as [->|N].
  - destruct HC as [N|[S U]]; [congruence|]. destruct (C37_average_partial _ _ _ D (fun _ => lw) q ib3 e3 Hq S E3) as (_ & _ & A). rewrite (A U). apply (H q ib3 e3 Hq E3), L.
  - unfold averageAll. rewrite (proj2 (Z.eqb_neq c 0) N). apply (H q ib3 e3 Hq E3), L.
Qed.
Print Assumptions C151_linewidths.

(** Never negative. *)
Theorem C151_nonnegative : forall X size batches c lw, fits (numK X) size -> fits (zlen (kIrr X)) size ->
  (forall k, 0 < batches k /\ zlen (qIrr X) * batches k <= INT_MAX) -> (forall k, In k (kIrr X) -> 0 <= k < numK X) -> distinctStates (qIrr X) (enPh X) (bteOf X) ->
  (forall k q a b d, (0 <= gsq X k q a b d)%Qc) -> (forall k ib, (0 <= ffTerm X c k ib)%Qc) -> (0 < temp X c)%Qc -> 0 < meshSize X -> (0 <= piQ X)%Qc ->
  phelSums X size batches c = Ok lw -> forall q ib3 e3, In q (qIrr X) -> zget (enPh X q) ib3 = Some e3 -> (0 <= lw (bteOf X q ib3))%Qc.
Proof.
  intros X size batches c lw F F2 HB HK D HG HF HT HM HP E q ib3 e3 Hq E3. destruct (C151_sums X size batches c F F2 HB HK D) as (lw' & E' & H). rewrite E in E'. injection E' as <-.
  destruct (H q ib3 e3 Hq E3) as [HA HB']. destruct (Qclt_le_dec e3 (cutoff X)) as [L|L]; [rewrite (HA L); apply Qcle_refl|]. rewrite (HB' L). unfold phelRate. apply L_solver.Qcmult_nonneg.
  - apply Qcdiv_nonneg; [exact HP|]. apply L_solver.Qcmult_pos; [now apply Q2Qc_pos|exact HT].
  - apply L_solver.qsum_nonneg. intros t Ht. unfold bySize in Ht. apply in_map_iff in Ht. destruct Ht as (k & <- & Hk). cbn [fst snd]. apply L_solver.Qcmult_nonneg; [apply Q2Qc_nonneg; unfold zlen; lia|].
    apply absorbed_nonneg; [apply HG|apply HF].
Qed.
Print Assumptions C151_nonnegative.

(** The mean over all electron points: when the transitions are the same at all points of a star, for the phonon considered. Without
    symmetries a star is one point. *)
Theorem C151_all_points_partial : forall X c q ib3 all, Permutation (flat_map (stars X) (kIrr X)) all ->
  (forall k k', In k (kIrr X) -> In k' (stars X k) -> absorbed X c q ib3 k' = absorbed X c q ib3 k) ->
  phelRate X c q ib3 (bySize X) = phelRate X c q ib3 (eachOnce all).
Proof.
  intros X c q ib3 all HP HS. unfold phelRate. f_equal. unfold eachOnce, bySize. rewrite !map_map. cbn [fst snd].
  rewrite <- (qsum_perm _ _ (Permutation_map _ HP)), qsum_flat_map. apply qsum_ext. intros k Hk. rewrite (qsum_ext _ (fun _ => absorbed X c q ib3 k)).
  - rewrite L_scattering4.qsum_const. reflexivity.
  - intros k' Hk'. rewrite (HS k k' Hk Hk'). ring.
Qed.
Print Assumptions C151_all_points_partial.

(** Missing, and false: with symmetries the transitions of one phonon differ among the points of a star, although those of the pair of
    points do not change when both are moved. A mesh of four points with inversion: the linewidth is twice the mean over the points. *)
Definition inversion4 (k : Z) : Z := (- k) mod 4.
Definition exPhel : phel := {| kIrr := [0; 1; 2]; stars := fun k => if k =? 1 then [1; 3] else [k]; numK := 4; meshSize := 4; qIrr := [0; 1; 2];
  enEl := fun _ => [0%Qc]; enSum := fun _ _ => [1%Qc]; enPh := fun _ => [1%Qc];
  gsq := fun k q _ _ _ => if ((k mod 4 =? 1) && (q mod 4 =? 1)) || ((k mod 4 =? 3) && (q mod 4 =? 3)) then 1%Qc else 0%Qc; smear := fun _ _ _ _ _ => 1%Qc; ffTerm := fun _ _ _ => Q2Qc (1 # 4);
  temp := fun _ => 1%Qc; piQ := Q2Qc (22 # 7); cutoff := 0%Qc; bteOf := fun q _ => q |}.
Lemma exPhel_states : distinctStates (qIrr exPhel) (enPh exPhel) (bteOf exPhel).
Proof.
  split.
  - cbn [qIrr exPhel]. repeat (constructor; [intros H; repeat destruct H as [H|H]; try discriminate; exact H|]). constructor.
  - intros q ib q' ib' _ _ H H' E. change (zlen (enPh exPhel q)) with 1 in H. change (zlen (enPh exPhel q')) with 1 in H'. split; [exact E|lia].
Qed.
Theorem C151_symmetry_refuted : exists X rot all q, starsUnder X [(fun k => k); rot] all /\ symmetricUnder X rot /\ distinctStates (qIrr X) (enPh X) (bteOf X) /\ In q (qIrr X) /\
  forall size, fits 4 size -> exists lw, phelSums X size (fun _ => 1) 0 = Ok lw /\ lw (bteOf X q 0) = (Q2Qc 2 * phelRate X 0 q 0%Z (eachOnce all))%Qc /\ phelRate X 0 q 0 (eachOnce all) <> 0%Qc.
Proof.
  exists exPhel, inversion4, [0; 1; 3; 2], 1. split; [split|].
  - apply Permutation_refl.
  - intros k k' [<-|[<-|[<-|[]]]] H; cbn in H; repeat destruct H as [<-|H]; try (now destruct H); (exists (fun k => k); split; [now left|reflexivity]) || (exists inversion4; split; [right; now left|reflexivity]).
  - split; [|split; [|split; [right; now left|]]].
    + intros c k q. repeat split; try reflexivity. cbn [gsq exPhel].
      assert (M : forall x, (inversion4 x mod 4 =? 1) = (x mod 4 =? 3) /\ (inversion4 x mod 4 =? 3) = (x mod 4 =? 1)).
      { intro x. unfold inversion4. rewrite Z.mod_mod by lia. pose proof (Z.mod_pos_bound x 4 ltac:(lia)) as B. pose proof (Z.div_mod x 4 ltac:(lia)) as DM.
        assert (C : x mod 4 = 0 \/ x mod 4 = 1 \/ x mod 4 = 2 \/ x mod 4 = 3) by lia. assert (E : (- x) mod 4 = (- (x mod 4)) mod 4) by (replace (- x) with (- (x mod 4) + (- (x / 4)) * 4) by lia; apply Z.mod_add; lia).
        rewrite E. destruct C as [->|[->|[->| ->]]]; vm_compute; auto. }
      destruct (M k) as [-> ->], (M q) as [-> ->]. now rewrite Bool.orb_comm.
    + exact exPhel_states.
    + intros size F. destruct (C151_sums exPhel size (fun _ => 1) 0) as (lw & E & H).
      * exact F.
      * destruct F as (_ & F1 & F2). change (zlen (kIrr exPhel)) with 3. repeat split; lia.
      * intros k. change (zlen (qIrr exPhel)) with 3. unfold INT_MAX. lia.
      * intros k [<-|[<-|[<-|[]]]]; cbn [numK exPhel]; lia.
      * exact exPhel_states.
      * exists lw. split; [exact E|]. rewrite (proj2 (H 1 0 1%Qc (or_intror (or_introl eq_refl)) eq_refl)) by discriminate.
        split; [apply Qc_is_canon; vm_compute; reflexivity|]. intros K. apply (f_equal this) in K. vm_compute in K. discriminate.
Qed.
Print Assumptions C151_symmetry_refuted.
Example C151_ex : fits (numK exPhel) 3 /\ fits (zlen (kIrr exPhel)) 3 /\ (forall k, In k (kIrr exPhel) -> 0 <= k < numK exPhel) /\ (cutoff exPhel <= 1)%Qc /\
  (forall ib' e', zget (enPh exPhel 1) ib' = Some e' -> nearDeg e' 1%Qc = true -> ib' = 0) /\ separated (enPh exPhel 1) /\ phelRate exPhel 0 1 0 (bySize exPhel) <> 0%Qc.
Proof.
  split; [repeat split; cbn; lia|]. split; [repeat split; cbn; lia|]. split; [intros k [<-|[<-|[<-|[]]]]; cbn [numK exPhel]; lia|]. split; [discriminate|].
  split; [intros ib' e' H _; apply zget_Some in H as [H _]; change (zlen (enPh exPhel 1)) with 1 in H; lia|]. split.
  - intros a b c Ha Hb Hc _ _; destruct Ha as [<-|[]], Hc as [<-|[]]; vm_compute; reflexivity.
  - intros E. apply (f_equal this) in E. vm_compute in E. discriminate.
Qed.

Open Scope R_scope.
(** The thermal factor: f(e) - f(e + w), divided by w, is f(1 - f) / T at an energy in between; the code takes it at e. *)
Theorem C151_difference : forall e w T mu, 0 < T -> 0 < w -> exists f1 f2 xi x, getPopulation electron e T mu = Fin f1 /\ getPopulation electron (e + w) T mu = Fin f2 /\
  e < xi < e + w /\ getPopPopPm1 electron xi T mu = Fin x /\ (f1 - f2) / w = x / T.
Proof.
  intros e w T mu HT HW.
  assert (D : forall z, derivable_pt_lim (fun z => fermiDirac ((z - mu) / T)) z (- (fermiDirac ((z - mu) / T) * (1 - fermiDirac ((z - mu) / T))) * / T)).
  { intro z. apply (derivable_pt_lim_comp (fun z => (z - mu) / T) fermiDirac); [|apply fermi_deriv].
    assert (L : derivable_pt_lim (fun z => / T * z + - (mu / T)) z (/ T * 1 + 0)) by (apply derivable_pt_lim_plus; [apply derivable_pt_lim_scal, derivable_pt_lim_id | apply derivable_pt_lim_const]).
    replace (/ T) with (/ T * 1 + 0) by ring. intros eps He. destruct (L eps He) as [d Hd]. exists d. intros h Hh Hl. specialize (Hd h Hh Hl). 
    replace ((z + h - mu) / T - (z - mu) / T) with (/ T * (z + h) + - (mu / T) - (/ T * z + - (mu / T))) by (unfold Rdiv; ring). exact Hd. }
  destruct (MVT_cor2 (fun z => fermiDirac ((z - mu) / T)) (fun z => - (fermiDirac ((z - mu) / T) * (1 - fermiDirac ((z - mu) / T))) * / T) e (e + w) ltac:(lra) (fun z _ => D z)) as (xi & E & B).
  do 2 eexists. exists xi. eexists. split; [apply fermi_value, HT|]. split; [apply fermi_value, HT|]. split; [exact B|]. split; [apply fermi_ppm, HT|].
  fold (fermiDirac ((e - mu) / T)) (fermiDirac ((e + w - mu) / T)). cbv beta in E. replace (e + w - e) with w in E by ring.
  apply (Rmult_eq_reg_r w); [|lra]. unfold Rdiv at 1. rewrite Rmult_assoc, Rinv_l, Rmult_1_r by lra. unfold fermiDirac in *. unfold Rdiv in *. lra.
Qed.
Print Assumptions C151_difference.
(** Electron states far from the chemical potential are dropped whatever the temperature: a dropped state can have almost the largest
    thermal factor, 1/4. *)
Theorem C151_window_refuted : forall maxPh mu eps, 0 < maxPh -> 0 < eps -> exists T e x, 0 < T /\ phelWindow maxPh mu e = false /\ getPopPopPm1 electron e T mu = Fin x /\ 1 / 4 - eps < x <= 1 / 4.
Proof.
  intros w mu eps Hw He. set (d := Rmin eps 1). assert (Hd : 0 < d <= 1) by (unfold d; split; [apply Rmin_glb_lt; lra | apply Rmin_r]). assert (Hde : d <= eps) by apply Rmin_l.
  assert (HL : 0 < ln (1 + d)) by (rewrite <- ln_1; apply ln_increasing; lra).
  set (T := 2 * w / ln (1 + d)). assert (HT : 0 < T) by (apply Rdiv_lt_0_compat; lra).
  exists T, (mu + 2 * w). eexists. split; [exact HT|]. split; [|split; [apply fermi_ppm, HT|]].
  - unfold phelWindow. rewrite (Rabs_right (5 / 4 * w)) by lra. replace (rltb (mu + 2 * w) (mu + 5 / 4 * w)) with false; [apply Bool.andb_false_r|]. unfold rltb. destruct (Rlt_dec _ _); [lra|reflexivity].
  - replace ((mu + 2 * w - mu) / T) with (ln (1 + d)) by (unfold T; field; lra). unfold fermiDirac. rewrite exp_ln by lra.
    replace (/ (1 + d + 1) * (1 - / (1 + d + 1))) with (1 / 4 - (d / (2 * (2 + d))) ^ 2) by (field; lra).
    assert (Q : 0 <= d / (2 * (2 + d)) < d) by (split; [apply Rlt_le, Rdiv_lt_0_compat; lra|]; apply (Rmult_lt_reg_r (2 * (2 + d))); [lra|]; unfold Rdiv; rewrite Rmult_assoc, Rinv_l by lra; nra).
    assert (0 <= (d / (2 * (2 + d))) ^ 2 < d) by (set (u := d / (2 * (2 + d))) in *; split; nra). lra.
Qed.
Print Assumptions C151_window_refuted.
