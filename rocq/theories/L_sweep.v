(** Lemmas on the sweep over temperatures and chemical potentials. *)
From Coq Require Import Reals Permutation SpecFloat.
From Verif Require Import Base BaseLemmas M_utilities L_utilities M_particle S_particle L_particle M_delta L_delta M_sweep S_sweep.
From Coq Require Import Lra.
Open Scope R_scope.

(** * expansion *)
Lemma progression_S lo d n : progression lo d (S n) = lo :: progression (lo + d) d n.
Proof.
  unfold progression. cbn [seq map]. f_equal; [cbn; lra|]. rewrite <- seq_shift, map_map. apply map_ext. intro i. rewrite S_INR. lra.
Qed.
Lemma sweepR_spec n : forall fuel lo hi d, 0 < d -> lo + INR n * d > hi -> (forall i, (i < n)%nat -> lo + INR i * d <= hi) -> (n < fuel)%nat ->
  sweepR fuel lo hi d = Some (progression lo d n).
Proof.
  induction n as [|n IH]; intros fuel lo hi d Hd Hn Hi Hf; (destruct fuel as [|f]; [lia|]); unfold sweepR; cbn [sweepLoop]; fold sweepR.
  - cbn in Hn. rewrite (proj2 (rleb_gt lo hi)) by lra. reflexivity.
  - assert (H0 := Hi 0%nat ltac:(lia)). cbn in H0. rewrite (proj2 (rleb_le lo hi)) by lra. unfold sweepR in IH.
    rewrite IH; [cbn [option_map]; rewrite progression_S; reflexivity|exact Hd| | |lia].
    + rewrite S_INR in Hn. lra.
    + intros i Hi'. specialize (Hi (S i) ltac:(lia)). rewrite S_INR in Hi. lra.
Qed.
Lemma sweep_count lo hi d : 0 < d -> exists n, lo + INR n * d > hi /\ (forall i, (i < n)%nat -> lo + INR i * d <= hi).
Proof.
  intro Hd. destruct (Rle_dec lo hi) as [H|H]; [|exists 0%nat; split; [cbn; lra|intros i Hi; lia]].
  set (m := up ((hi - lo) / d)). destruct (archimed ((hi - lo) / d)) as [A B]. fold m in A, B.
  assert (P : 0 <= (hi - lo) / d) by (apply div_nonneg; lra).
  assert (M : (0 < m)%Z) by (apply lt_IZR; lra).
  exists (Z.to_nat m). rewrite INR_IZR_INZ, Z2Nat.id by lia. split.
  - apply Rmult_lt_compat_r with (r := d) in A; [|exact Hd]. unfold Rdiv in A. rewrite Rmult_assoc, Rinv_l in A by lra. lra.
  - intros i Hi. rewrite INR_IZR_INZ. assert (C : IZR (Z.of_nat i) <= IZR m - 1). { rewrite <- minus_IZR. apply IZR_le. lia. }
    assert (D : IZR (Z.of_nat i) <= (hi - lo) / d) by lra. apply Rmult_le_compat_r with (r := d) in D; [|lra]. unfold Rdiv in D. rewrite Rmult_assoc, Rinv_l in D by lra. lra.
Qed.
Lemma sweepR_stuck fuel : forall lo hi d, d <= 0 -> lo <= hi -> sweepR fuel lo hi d = None.
Proof.
  induction fuel as [|f IH]; intros lo hi d Hd H; [reflexivity|]. unfold sweepR. cbn [sweepLoop]. rewrite (proj2 (rleb_le lo hi)) by lra.
  unfold sweepR in IH. rewrite IH by lra. reflexivity.
Qed.
Lemma sweepF_stuck fuel : forall lo hi d, SFleb lo hi = true -> SFadd 53 1024 lo d = lo -> sweepF fuel lo hi d = None.
Proof.
  induction fuel as [|f IH]; intros lo hi d H E; [reflexivity|]. unfold sweepF. cbn [sweepLoop]. rewrite H, E. unfold sweepF in IH. rewrite IH by assumption. reflexivity.
Qed.

(** * sums *)
Lemma rsum_app l l' : rsum (l ++ l') = rsum l + rsum l'.
Proof. induction l as [|x l IH]; [cbn [app]; change (rsum []) with 0; lra|]. change (rsum ((x :: l) ++ l')) with (x + rsum (l ++ l')). change (rsum (x :: l)) with (x + rsum l). lra. Qed.
Lemma rsum_concat {A} (g : A -> R) ll : rsum (map (fun l => rsum (map g l)) ll) = rsum (map g (concat ll)).
Proof.
  induction ll as [|l ll IH]; [reflexivity|]. cbn [map concat]. rewrite map_app, rsum_app. change (rsum (?x :: ?y)) with (x + rsum y). rewrite IH. reflexivity.
Qed.
Lemma rsum_perm l l' : Permutation l l' -> rsum l = rsum l'.
Proof.
  induction 1; [reflexivity| | |congruence].
  - change (rsum (x :: l)) with (x + rsum l). change (rsum (x :: l')) with (x + rsum l'). lra.
  - change (rsum (y :: x :: l)) with (y + (x + rsum l)). change (rsum (x :: y :: l)) with (x + (y + rsum l)). lra.
Qed.
Lemma rsum_le {A} (g h : A -> R) l : (forall x, In x l -> g x <= h x) -> rsum (map g l) <= rsum (map h l).
Proof.
  induction l as [|x l IH]; intro H; [cbn; lra|]. cbn [map]. change (rsum (?x :: ?y)) with (x + rsum y). change (rsum (h x :: map h l)) with (h x + rsum (map h l)).
  pose proof (H x (or_introl eq_refl)). specialize (IH (fun y Hy => H y (or_intror Hy))). lra.
Qed.
Lemma sumStates_all g ranks : sumStates g ranks = rsum (map g (allStates ranks)).
Proof.
  unfold sumStates, allStates. rewrite <- rsum_concat. rewrite <- (rsum_concat (fun c => rsum (map g c)) ranks). reflexivity.
Qed.
Lemma fermiPop_occ T mu e : fermiPop T mu e = occupation T mu e.
Proof.
  unfold fermiPop, occupation. destruct (Rle_dec T 0) as [H|H].
  - rewrite fermi_T0 by exact H. unfold rleb. destruct (Rle_dec e mu); reflexivity.
  - rewrite fermi_value by lra. reflexivity.
Qed.
Lemma fPop_count ranks np n mu T : fPop ranks np n mu T = n - electronCount (allStates ranks) np T mu.
Proof.
  unfold fPop, electronCount. rewrite sumStates_all. rewrite (map_ext (fermiPop T mu) (occupation T mu)); [reflexivity|]. intro e. apply fermiPop_occ.
Qed.
Lemma findDoping_count ranks np el v c s mu T : findDoping ranks np el v c s mu T = (el - electronCount (allStates ranks) np T mu) * (s / v / c).
Proof.
  unfold findDoping, electronCount. rewrite sumStates_all. rewrite (map_ext (fermiPop T mu) (occupation T mu)); [reflexivity|]. intro e. apply fermiPop_occ.
Qed.

(** * monotonicity *)
Lemma occ_mono T mu mu' e : mu <= mu' -> occupation T mu e <= occupation T mu' e.
Proof.
  intro H. unfold occupation. destruct (Rle_dec T 0) as [HT|HT].
  - destruct (Rle_dec e mu); destruct (Rle_dec e mu'); lra.
  - destruct (Req_dec mu mu') as [->|N]; [lra|]. left. apply fermi_decr. apply div_lt; lra.
Qed.
Lemma occ_range T mu e : 0 <= occupation T mu e <= 1.
Proof.
  unfold occupation. destruct (Rle_dec T 0); [destruct (Rle_dec e mu); lra|]. pose proof (fermi_range ((e - mu) / T)). lra.
Qed.
Lemma count_mono l np T mu mu' : 0 < np -> mu <= mu' -> electronCount l np T mu <= electronCount l np T mu'.
Proof.
  intros Hp H. unfold electronCount, Rdiv. apply Rmult_le_compat_r; [left; apply Rinv_0_lt_compat, Hp|]. apply rsum_le. intros e _. apply occ_mono, H.
Qed.
(** Lipschitz constant 1/4 of the Fermi function *)
Lemma fermi_lipschitz y z : y <= z -> fermiDirac y - fermiDirac z <= (z - y) / 4.
Proof.
  intro H. destruct (Req_dec y z) as [->|N]; [lra|]. assert (L : y < z) by lra.
  destruct (MVT_cor2 fermiDirac (fun x => - (fermiDirac x * (1 - fermiDirac x))) y z L) as (c & E & _).
  { intros c _. apply fermi_deriv. }
  pose proof (Rle_0_sqr (fermiDirac c - / 2)) as Sq. unfold Rsqr in Sq.
  assert (fermiDirac c * (1 - fermiDirac c) <= / 4) by nra. nra.
Qed.
Lemma occ_lipschitz T mu mu' e : 0 < T -> mu <= mu' -> occupation T mu' e - occupation T mu e <= (mu' - mu) / (4 * T).
Proof.
  intros HT H. unfold occupation. destruct (Rle_dec T 0); [lra|].
  replace ((mu' - mu) / (4 * T)) with (((e - mu) / T - (e - mu') / T) / 4) by (field; lra). apply fermi_lipschitz. apply div_le; lra.
Qed.
Lemma rsum_diff_le {A} (g h : A -> R) k l : (forall x, In x l -> g x - h x <= k) -> rsum (map g l) - rsum (map h l) <= INR (length l) * k.
Proof.
  induction l as [|x l IH]; intro H; [cbn; lra|]. cbn [map length]. rewrite S_INR. change (rsum (g x :: map g l)) with (g x + rsum (map g l)).
  change (rsum (h x :: map h l)) with (h x + rsum (map h l)). pose proof (H x (or_introl eq_refl)). specialize (IH (fun y Hy => H y (or_intror Hy))). lra.
Qed.
Lemma count_lipschitz l np T mu mu' : 0 < np -> 0 < T -> mu <= mu' ->
  electronCount l np T mu' - electronCount l np T mu <= INR (length l) / np * ((mu' - mu) / (4 * T)).
Proof.
  intros Hp HT H. unfold electronCount. pose proof (rsum_diff_le (occupation T mu') (occupation T mu) ((mu' - mu) / (4 * T)) l (fun x _ => occ_lipschitz T mu mu' x HT H)) as D.
  apply Rmult_le_compat_r with (r := / np) in D; [|left; apply Rinv_0_lt_compat, Hp]. unfold Rdiv at 1 2 3. lra.
Qed.

(** * bisection *)
Lemma rsgn_cases v : (0 < v /\ rsgn v = 1%Z) \/ (v = 0 /\ rsgn v = 0%Z) \/ (v < 0 /\ rsgn v = (-1)%Z).
Proof.
  unfold rsgn. destruct (Rtotal_order v 0) as [H|[H|H]].
  - right. right. rewrite (proj2 (rltb_ge 0 v)), (proj2 (rltb_lt v 0)) by lra. auto.
  - right. left. rewrite (proj2 (rltb_ge 0 v)), (proj2 (rltb_ge v 0)) by lra. auto.
  - left. rewrite (proj2 (rltb_lt 0 v)), (proj2 (rltb_ge v 0)) by lra. auto.
Qed.
Section Bisect.
Variable f : R -> R.
Variable aY : R.
Hypothesis HaY : 0 <= aY.
(** what is known at the beginning of a turn *)
Definition bracket (aX bX : R) : Prop := aX < bX /\ rsgn (f aX) = rsgn aY /\ rsgn (f bX) <> rsgn aY /\ f bX <= 0.
Hypothesis mono : forall x y, x <= y -> f y <= f x.
Lemma bracket_step aX bX : bracket aX bX -> f ((aX + bX) / 2) <> 0 ->
  if (rsgn (f ((aX + bX) / 2)) =? rsgn aY)%Z then bracket ((aX + bX) / 2) bX else bracket aX ((aX + bX) / 2).
Proof.
  intros (H & Sa & Sb & Hb) Hc. set (c := (aX + bX) / 2) in *. assert (L : aX < c /\ c < bX) by (unfold c; lra).
  destruct (Z.eqb_spec (rsgn (f c)) (rsgn aY)) as [E|E].
  - split; [lra|]. auto.
  - split; [lra|]. split; [exact Sa|]. split; [exact E|].
    destruct (rsgn_cases (f c)) as [(P & Q)|[(P & Q)|(P & Q)]]; [|lra|lra].
    exfalso. pose proof (mono aX c ltac:(lra)) as M. destruct (rsgn_cases (f aX)) as [(P' & Q')|[(P' & Q')|(P' & Q')]]; [|lra|lra]. apply E. congruence.
Qed.
Lemma bisect_spec n : forall aX bX c, bracket aX bX -> bisect f aY n aX bX = Ok c -> aX < c < bX /\ crossing f (/ 200000000) c.
Proof.
  induction n as [|n IH]; intros aX bX c B E; [discriminate|]. destruct n as [|n]; [discriminate|].
  change (bisect f aY (S (S n)) aX bX) with (let cX := (aX + bX) / 2 in let cY := f cX in
    if reqb cY 0 || rltb (Rabs (bX - aX)) (/ 100000000) then Ok cX else if (rsgn cY =? rsgn aY)%Z then bisect f aY (S n) cX bX else bisect f aY (S n) aX cX) in E.
  cbv zeta in E. pose proof B as (H & Sa & Sb & Hb).
  destruct (reqb (f ((aX + bX) / 2)) 0) eqn:Z.
  - cbn [orb] in E. injection E as <-. apply reqb_eq in Z. split; [lra|left; exact Z].
  - apply reqb_ne in Z. destruct (rltb (Rabs (bX - aX)) (/ 100000000)) eqn:W.
    + cbn [orb] in E. injection E as <-. apply rltb_lt in W. rewrite Rabs_right in W by lra. split; [lra|]. right. exists aX, bX. repeat split; try lra.
      destruct (rsgn_cases (f aX)) as [(P & Q)|[(P & Q)|(P & Q)]]; [lra|lra|]. destruct (rsgn_cases aY) as [(P' & Q')|[(P' & Q')|(P' & Q')]]; [congruence|congruence|lra].
    + cbn [orb] in E. pose proof (bracket_step aX bX B Z) as St. destruct (_ =? _)%Z.
      * destruct (IH _ _ _ St E). split; [lra|assumption].
      * destruct (IH _ _ _ St E). split; [lra|assumption].
Qed.
Lemma bisect_ok n : forall aX bX, aX < bX -> (bX - aX) / 2 ^ n < / 100000000 -> exists c, bisect f aY (S (S n)) aX bX = Ok c.
Proof.
  induction n as [|n IH]; intros aX bX H W.
  - cbn [bisect]. rewrite (proj2 (rltb_lt (Rabs (bX - aX)) (/ 100000000))); [rewrite orb_true_r; eexists; reflexivity|]. cbn in W. rewrite Rabs_right by lra. lra.
  - change (bisect f aY (S (S (S n))) aX bX) with (let cX := (aX + bX) / 2 in let cY := f cX in
    if reqb cY 0 || rltb (Rabs (bX - aX)) (/ 100000000) then Ok cX else if (rsgn cY =? rsgn aY)%Z then bisect f aY (S (S n)) cX bX else bisect f aY (S (S n)) aX cX).
    cbv zeta. destruct (_ || _); [eexists; reflexivity|].
    assert (P : 0 < 2 ^ n) by (apply pow_lt; lra).
    assert (W' : (bX - aX) / 2 / 2 ^ n < / 100000000). { replace ((bX - aX) / 2 / 2 ^ n) with ((bX - aX) / 2 ^ S n); [exact W|]. cbn [pow]. field. lra. }
    destruct (_ =? _)%Z; apply IH; try lra.
Qed.
End Bisect.
