(** Property theorems for smearing functions: C42, C43. *)
From Coq Require Import Reals Permutation.
From Verif Require Import Base BaseLemmas M_particle L_particle M_delta S_delta L_delta.
From Coq Require Import Lra.
Open Scope R_scope.

(** * C42 *)
(** the cutoff x > 6 is one-sided *)
Theorem C42_gaussian_even_refuted : exists width energy, 0 < width /\ gaussianSmearing width energy = 0 /\ 0 < gaussianSmearing width (- energy).
Proof.
  exists 1, 7. split; [lra|]. unfold gaussianSmearing. split.
  - rewrite (proj2 (rltb_lt 6 _)) by lra. reflexivity.
  - rewrite (proj2 (rltb_ge 6 _)) by lra. apply Rmult_lt_0_compat; [|apply exp_pos].
    replace (1 / 1 / sqrt PI) with (/ sqrt PI) by (field; apply Rgt_not_eq, sqrt_lt_R0, PI_RGT_0). apply Rinv_0_lt_compat, sqrt_lt_R0, PI_RGT_0.
Qed.
Print Assumptions C42_gaussian_even_refuted.
(** even up to six widths, and even everywhere up to the value exp(-36) at the cutoff *)
Theorem C42_gaussian_even_partial : forall width energy, 0 < width ->
  (Rabs energy <= 6 * width -> gaussianSmearing width (- energy) = gaussianSmearing width energy) /\
  Rabs (gaussianSmearing width (- energy) - gaussianSmearing width energy) <= 1 / width / sqrt PI * exp (-36).
Proof.
  intros width energy Hw. assert (P : 0 < 1 / width / sqrt PI).
  { unfold Rdiv. apply Rmult_lt_0_compat; [apply Rmult_lt_0_compat; [lra|apply Rinv_0_lt_compat, Hw]|apply Rinv_0_lt_compat, sqrt_lt_R0, PI_RGT_0]. }
  unfold gaussianSmearing. replace (- energy * (1 / width)) with (- (energy * (1 / width))) by ring. set (x := energy * (1 / width)).
  replace (- - x * - x) with (- x * x) by ring. set (p := 1 / width / sqrt PI) in *.
  assert (Sm : forall y, 6 < y -> exp (- y * y) <= exp (-36)). { intros y Hy. left. apply exp_increasing. nra. }
  pose proof (exp_pos (-36)) as E36. pose proof (exp_pos (- x * x)) as Ex. split.
  - intro H. assert (B : Rabs x <= 6).
    { unfold x. rewrite Rabs_mult, (Rabs_right (1 / width)) by (left; apply Rdiv_lt_0_compat; lra).
      apply Rmult_le_reg_r with width; [exact Hw|]. replace (Rabs energy * (1 / width) * width) with (Rabs energy) by (field; lra). exact H. }
    assert (-6 <= x <= 6). { unfold Rabs in B. destruct (Rcase_abs x); lra. }
    rewrite !(proj2 (rltb_ge 6 _)) by lra. reflexivity.
  - destruct (rltb 6 (- x)) eqn:A; destruct (rltb 6 x) eqn:B.
    + apply rltb_lt in A. apply rltb_lt in B. lra.
    + apply rltb_lt in A. rewrite Rabs_minus_sym, Rminus_0_r, Rabs_right by nra. apply Rmult_le_compat_l; [lra|].
      replace (- x * x) with (- (- x) * (- x)) by ring. apply Sm. exact A.
    + apply rltb_lt in B. rewrite Rminus_0_r, Rabs_right by nra. apply Rmult_le_compat_l; [lra|]. apply Sm. exact B.
    + rewrite Rminus_diag_eq by reflexivity. rewrite Rabs_R0. nra.
Qed.
Print Assumptions C42_gaussian_even_partial.
Theorem C42_gaussian_nonnegative : forall width energy, 0 < width -> 0 <= gaussianSmearing width energy <= gaussianSmearing width 0.
Proof.
  intros width energy Hw. assert (P : 0 < 1 / width / sqrt PI).
  { unfold Rdiv. apply Rmult_lt_0_compat; [apply Rmult_lt_0_compat; [lra|apply Rinv_0_lt_compat, Hw]|apply Rinv_0_lt_compat, sqrt_lt_R0, PI_RGT_0]. }
  unfold gaussianSmearing. set (x := energy * (1 / width)). rewrite Rmult_0_l, (proj2 (rltb_ge 6 0)) by lra.
  replace (- 0 * 0) with 0 by ring. rewrite exp_0. pose proof (exp_pos (- x * x)). destruct (rltb 6 x); [lra|]. split; [nra|].
  apply Rmult_le_compat_l; [lra|]. rewrite <- exp_0. destruct (Req_dec x 0) as [->|N]; [right; f_equal; ring|left; apply exp_increasing; nra].
Qed.
Print Assumptions C42_gaussian_nonnegative.
(** the adaptive scheme is even in the energy and in the velocity, and cut off at two widths *)
Theorem C42_adaptive_even : forall q0 q1 q2 cutoff energy v,
  adaptiveSmearing q0 q1 q2 cutoff (- energy) v = adaptiveSmearing q0 q1 q2 cutoff energy v.
Proof.
  intros q0 q1 q2 cutoff energy v. unfold adaptiveSmearing.
  assert (E : reqb (- energy) 0 = reqb energy 0). { unfold reqb. destruct (Req_EM_T (- energy) 0); destruct (Req_EM_T energy 0); try reflexivity; lra. }
  rewrite E, Rabs_Ropp. destruct (_ && _); [reflexivity|]. destruct (reqb (adaptiveWidth q0 q1 q2 v) 0) eqn:Z; [reflexivity|]. apply reqb_ne in Z.
  assert (P : 0 < adaptiveWidth q0 q1 q2 v). { pose proof (sqrt_pos ((vdot q0 v ^ 2 + vdot q1 v ^ 2 + vdot q2 v ^ 2) / 6)). unfold adaptiveWidth in *. lra. }
  set (s := if rltb (adaptiveWidth q0 q1 q2 v) cutoff then cutoff else adaptiveWidth q0 q1 q2 v).
  assert (Ps : 0 < s). { unfold s. destruct (rltb _ cutoff) eqn:C; [apply rltb_lt in C; lra|exact P]. }
  destruct (rltb (2 * s) (Rabs energy)) eqn:C; [reflexivity|]. apply rltb_ge in C.
  assert (B : forall e, Rabs e <= 2 * s -> e / s <= 6).
  { intros e He. apply Rmult_le_reg_r with s; [exact Ps|]. unfold Rdiv. rewrite Rmult_assoc, Rinv_l by lra. pose proof (Rle_abs e). lra. }
  rewrite (proj2 (rltb_ge 6 (- energy / s))) by (apply B; rewrite Rabs_Ropp; exact C). rewrite (proj2 (rltb_ge 6 (energy / s))) by (apply B; exact C).
  do 4 f_equal. field. lra.
Qed.
Print Assumptions C42_adaptive_even.
Theorem C42_adaptive_velocity_even : forall q0 q1 q2 cutoff energy v0 v1 v2,
  adaptiveSmearing q0 q1 q2 cutoff energy (- v0, - v1, - v2) = adaptiveSmearing q0 q1 q2 cutoff energy (v0, v1, v2).
Proof.
  intros [[a0 a1] a2] [[b0 b1] b2] [[c0 c1] c2] cutoff energy v0 v1 v2. unfold adaptiveSmearing, adaptiveWidth, vdot.
  replace (- v0 * - v0 + - v1 * - v1 + - v2 * - v2) with (v0 * v0 + v1 * v1 + v2 * v2) by ring.
  replace ((a0 * - v0 + a1 * - v1 + a2 * - v2) ^ 2) with ((a0 * v0 + a1 * v1 + a2 * v2) ^ 2) by ring.
  replace ((b0 * - v0 + b1 * - v1 + b2 * - v2) ^ 2) with ((b0 * v0 + b1 * v1 + b2 * v2) ^ 2) by ring.
  replace ((c0 * - v0 + c1 * - v1 + c2 * - v2) ^ 2) with ((c0 * v0 + c1 * v1 + c2 * v2) ^ 2) by ring. reflexivity.
Qed.
Print Assumptions C42_adaptive_velocity_even.
Theorem C42_adaptive_nonnegative : forall q0 q1 q2 cutoff energy v, 0 <= adaptiveSmearing q0 q1 q2 cutoff energy v /\
  (energy <> 0 -> 2 * Rmax cutoff (adaptiveWidth q0 q1 q2 v) < Rabs energy -> adaptiveSmearing q0 q1 q2 cutoff energy v = 0).
Proof.
  intros q0 q1 q2 cutoff energy v. unfold adaptiveSmearing. destruct (reqb (sqrt (vdot v v)) 0 && reqb energy 0) eqn:Z0.
  { apply andb_true_iff in Z0 as [_ Z0]. apply reqb_eq in Z0. split; [lra|]. intro C. contradiction. }
  destruct (reqb (adaptiveWidth q0 q1 q2 v) 0) eqn:Z; [split; [lra|reflexivity]|]. apply reqb_ne in Z.
  assert (P : 0 < adaptiveWidth q0 q1 q2 v). { pose proof (sqrt_pos ((vdot q0 v ^ 2 + vdot q1 v ^ 2 + vdot q2 v ^ 2) / 6)). unfold adaptiveWidth in *. lra. }
  assert (M : (if rltb (adaptiveWidth q0 q1 q2 v) cutoff then cutoff else adaptiveWidth q0 q1 q2 v) = Rmax cutoff (adaptiveWidth q0 q1 q2 v)).
  { unfold Rmax. destruct (rltb _ cutoff) eqn:C; destruct (Rle_dec cutoff _); try reflexivity; [apply rltb_lt in C; lra|apply rltb_ge in C; lra]. }
  rewrite M. set (s := Rmax cutoff (adaptiveWidth q0 q1 q2 v)). pose proof (Rmax_r cutoff (adaptiveWidth q0 q1 q2 v)) as Ps. fold s in Ps.
  split.
  - cbv zeta. destruct (rltb (2 * s) (Rabs energy)); [lra|]. destruct (rltb 6 (energy / s)); [lra|]. repeat apply div_nonneg; try (left; apply exp_pos); try apply sqrt_pos; try lra.
  - intros _ H. rewrite (proj2 (rltb_lt _ _)) by exact H. reflexivity.
Qed.
Print Assumptions C42_adaptive_nonnegative.
Example C42_ex : 0 < 1 /\ Rabs 1 <= 6 * 1 /\ 0 < gaussianSmearing 1 1.
Proof.
  split; [lra|]. split; [rewrite Rabs_right; lra|]. unfold gaussianSmearing. rewrite (proj2 (rltb_ge 6 _)) by lra.
  apply Rmult_lt_0_compat; [|apply exp_pos]. apply Rdiv_lt_0_compat; [lra|]. apply sqrt_lt_R0, PI_RGT_0.
Qed.

(** * C43 *)
Theorem C43_tetrahedra_cover_the_cell : forall x y z, 0 <= x <= 1 -> 0 <= y <= 1 -> 0 <= z <= 1 -> exists t, In t vertices /\ inTetra t (x, y, z).
Proof. exact tetra_tile. Qed.
Print Assumptions C43_tetrahedra_cover_the_cell.
Theorem C43_tetrahedra_do_not_overlap : forall t u p, In t vertices -> In u vertices -> insideTetra t p -> inTetra u p -> t = u.
Proof. exact tetra_disjoint. Qed.
Print Assumptions C43_tetrahedra_do_not_overlap.
Theorem C43_equal_volumes : forall t, In t vertices -> Z.abs (sixVolume t) = 1%Z.
Proof. intros t H. cbn in H. destruct H as [<-|[<-|[<-|[<-|[<-|[<-|[]]]]]]]; reflexivity. Qed.
Print Assumptions C43_equal_volumes.
Theorem C43_weight_nonnegative : forall en energy, 0 <= tetraSmearing en energy.
Proof.
  intros en energy. unfold tetraSmearing. pose proof (weights_nonneg en energy). destruct (rltb _ _); lra.
Qed.
Print Assumptions C43_weight_nonnegative.
(** the weight vanishes outside of the range of the corner energies *)
Theorem C43_weight_support : forall en energy, (forall i, (0 <= i < 8)%Z -> energy < en i) \/ (forall i, (0 <= i < 8)%Z -> en i < energy) -> tetraSmearing en energy = 0.
Proof.
  intros en energy H.
  assert (K : forall t, In t vertices -> tetraWeight en energy t = 0).
  { intros [[[a b] c] d] Ht. unfold tetraWeight. destruct (tetra_sorted en a b c d) as (e1 & e2 & e3 & e4 & -> & H1 & H2 & H3 & P).
    assert (R : forall i, i = a \/ i = b \/ i = c \/ i = d -> (0 <= i < 8)%Z).
    { intros i Hi. cbn in Ht. repeat destruct Ht as [Ht|Ht]; try contradiction; injection Ht as <- <- <- <-; lia. }
    assert (Q : forall e, In e [e1; e2; e3; e4] -> exists i, (0 <= i < 8)%Z /\ e = en i).
    { intros e He. apply (Permutation_in _ P) in He. cbn in He. destruct He as [<-|[<-|[<-|[<-|[]]]]]; (eexists; split; [|reflexivity]; apply R; tauto). }
    destruct (Q e1) as (i1 & R1 & E1); [cbn; tauto|]. destruct (Q e4) as (i4 & R4 & E4); [cbn; tauto|].
    assert (S : energy < e1 \/ e4 < energy) by (destruct H as [H|H]; [left; rewrite E1; apply H, R1|right; rewrite E4; apply H, R4]).
    unfold cnE. rewrite (proj2 (reqb_ne energy e1)) by lra. rewrite andb_false_r.
    destruct S as [S|S].
    - rewrite (proj2 (rleb_gt e1 energy)), (proj2 (rleb_gt e2 energy)), (proj2 (rleb_gt e3 energy)) by lra. reflexivity.
    - rewrite (proj2 (rleb_gt energy e2)), (proj2 (rleb_gt energy e3)), (proj2 (rleb_gt energy e4)) by lra. rewrite !andb_false_r. reflexivity. }
  unfold tetraSmearing. rewrite (map_ext_in (tetraWeight en energy) (fun _ => 0) vertices) by exact K. cbn [map vertices rsum fold_right].
  rewrite (proj2 (rltb_lt _ _)) by lra. lra.
Qed.
Print Assumptions C43_weight_support.
(** Normalisation of one cell: the weight (before weights below 1e-12 are dropped) is the derivative of an integrated density
    of states that grows continuously from 0 to 1, if no tetrahedron is flat. *)
Theorem C43_cell_normalised_partial : forall en lo hi,
  (forall i, (0 <= i < 8)%Z -> lo <= en i <= hi) ->
  (forall a b c d, In (a, b, c, d) vertices -> ~ (en a = en b /\ en a = en c /\ en a = en d)) ->
  exists N, integratedDos (fun e => rsum (map (tetraWeight en e) vertices) / 6) lo hi N.
Proof.
  intros en lo hi Hr Hf. replace 6 with (INR (length vertices)) by (cbn; lra).
  apply (dos_sum vertices (fun t e => tetraWeight en e t) lo hi); [|discriminate].
  intros [[[a b] c] d] Ht. unfold tetraWeight. destruct (tetra_sorted en a b c d) as (e1 & e2 & e3 & e4 & -> & H1 & H2 & H3 & P).
  assert (R : forall i, i = a \/ i = b \/ i = c \/ i = d -> (0 <= i < 8)%Z).
  { intros i Hi. cbn in Ht. repeat destruct Ht as [Ht'|Ht]; try contradiction; try (injection Ht' as <- <- <- <-; lia). }
  assert (Q : forall e, In e [e1; e2; e3; e4] -> lo <= e <= hi).
  { intros e He. apply (Permutation_in _ P) in He. cbn in He. destruct He as [<-|[<-|[<-|[<-|[]]]]]; apply Hr, R; tauto. }
  assert (L : e1 < e4).
  { destruct (Rlt_dec e1 e4) as [L|L]; [exact L|exfalso]. apply (Hf a b c d Ht).
    assert (A : forall e, In e [en a; en b; en c; en d] -> e = e1).
    { intros e He. apply (Permutation_in _ (Permutation_sym P)) in He. cbn in He. destruct He as [<-|[<-|[<-|[<-|[]]]]]; lra. }
    rewrite (A (en a)), (A (en b)), (A (en c)), (A (en d)) by (cbn; tauto). tauto. }
  exists (dosN e1 e2 e3 e4). apply (dos_weaken _ e1 e4); [apply Q; cbn; tauto|apply Q; cbn; tauto|]. apply tetra_dos; assumption.
Qed.
Print Assumptions C43_cell_normalised_partial.
(** the whole mesh: the average of the weights of all cells *)
Theorem C43_band_normalised_partial : forall (cells : list (Z -> R)) lo hi, cells <> [] ->
  (forall en i, In en cells -> (0 <= i < 8)%Z -> lo <= en i <= hi) ->
  (forall en a b c d, In en cells -> In (a, b, c, d) vertices -> ~ (en a = en b /\ en a = en c /\ en a = en d)) ->
  exists N, integratedDos (fun e => rsum (map (fun en => rsum (map (tetraWeight en e) vertices) / 6) cells) / INR (length cells)) lo hi N.
Proof.
  intros cells lo hi Hne Hr Hf. apply (dos_sum cells (fun en e => rsum (map (tetraWeight en e) vertices) / 6) lo hi); [|exact Hne].
  intros en Hen. apply C43_cell_normalised_partial; [intros i Hi; apply (Hr en i Hen Hi)|intros a b c d Ht; apply (Hf en a b c d Hen Ht)].
Qed.
Print Assumptions C43_band_normalised_partial.
(** dropping small weights changes the result by less than 1e-12/6 *)
Theorem C43_small_weights : forall en energy,
  0 <= rsum (map (tetraWeight en energy) vertices) / 6 - tetraSmearing en energy <= / 1000000000000 / 6.
Proof.
  intros en energy. unfold tetraSmearing. pose proof (weights_nonneg en energy). destruct (rltb _ _) eqn:E; [apply rltb_lt in E|]; lra.
Qed.
Print Assumptions C43_small_weights.
(** a flat band: the weight is zero at every energy but one *)
Theorem C43_flat_band_refuted : forall c en, (forall i, (0 <= i < 8)%Z -> en i = c) -> forall energy, energy <> c -> tetraSmearing en energy = 0.
Proof.
  intros c en H energy Hne. apply C43_weight_support. destruct (Rtotal_order energy c) as [L|[L|L]]; [left|contradiction|right]; intros i Hi; rewrite (H i Hi); exact L.
Qed.
Print Assumptions C43_flat_band_refuted.
Example C43_ex : (forall i, (0 <= i < 8)%Z -> 0 <= IZR i <= 7) /\
  (forall a b c d, In (a, b, c, d) vertices -> ~ (IZR a = IZR b /\ IZR a = IZR c /\ IZR a = IZR d)).
Proof.
  split; [intros i Hi; split; apply IZR_le; lia|]. intros a b c d H (E & _). apply eq_IZR in E. cbn in H.
  destruct H as [H|[H|[H|[H|[H|[H|[]]]]]]]; injection H as <- <- <- <-; discriminate E.
Qed.
Example C43_ex2 : cnE 0 1 2 3 (1 / 2) = 1 / 8.
Proof.
  unfold cnE. rewrite (proj2 (reqb_ne 0 1)) by lra. cbn [andb]. rewrite (proj2 (rleb_le 0 (1 / 2))), (proj2 (rleb_le (1 / 2) 1)) by lra. cbn [andb].
  rewrite (proj2 (reqb_ne 1 0)), (proj2 (reqb_ne 2 0)), (proj2 (reqb_ne 3 0)) by lra. cbn [orb]. field.
Qed.
