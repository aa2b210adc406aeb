(** Property theorems for the sweep over temperatures and chemical potentials: C46, C47, C48. *)
From Coq Require Import Reals Permutation SpecFloat.
From Verif Require Import Base BaseLemmas M_utilities L_utilities M_particle S_particle L_particle M_delta L_delta M_sweep S_sweep L_sweep L_sweep2.
From Coq Require Import Lra.
Open Scope R_scope.

(** * C48 *)
(** exact arithmetic: min, min + delta, ... all not above max, the next one above max *)
Theorem C48_sweep_partial : forall lo hi delta, 0 < delta ->
  exists n, (exists turns, forall fuel, (turns <= fuel)%nat -> sweepR fuel lo hi delta = Some (progression lo delta n)) /\
            (forall x, In x (progression lo delta n) -> lo <= x <= hi) /\ hi < lo + INR n * delta.
Proof.
  intros lo hi delta Hd. destruct (sweep_count lo hi delta Hd) as (n & Hn & Hi). exists n. split; [|split; [|lra]].
  - exists (S n). intros fuel Hf. apply sweepR_spec; [exact Hd|exact Hn|exact Hi|lia].
  - intros x Hx. unfold progression in Hx. apply in_map_iff in Hx as (i & <- & Hx). apply in_seq in Hx. split; [|apply Hi; lia].
    pose proof (pos_INR i). nra.
Qed.
Print Assumptions C48_sweep_partial.
(** a step that is not positive: the program never stops *)
Theorem C48_not_positive_step_refuted : forall lo hi delta, delta <= 0 -> lo <= hi -> forall fuel, sweepR fuel lo hi delta = None.
Proof. intros lo hi delta Hd H fuel. apply sweepR_stuck; assumption. Qed.
Print Assumptions C48_not_positive_step_refuted.
(** double precision: a positive step that is too small never ends (1, 2, 2^-60) *)
Theorem C48_rounding_never_ends_refuted : exists lo hi delta, SFltb (S754_zero false) delta = true /\ SFltb lo hi = true /\
  forall fuel, sweepF fuel lo hi delta = None.
Proof.
  exists (S754_finite false 4503599627370496 (-52)), (S754_finite false 4503599627370496 (-51)), (S754_finite false 4503599627370496 (-112)).
  split; [reflexivity|]. split; [reflexivity|]. intro fuel. apply sweepF_stuck; reflexivity.
Qed.
Print Assumptions C48_rounding_never_ends_refuted.
(** double precision: from 0 to 0.3 in steps of 0.1 the end point is missing *)
Theorem C48_rounding_end_point_refuted : let tenth := S754_finite false 7205759403792794 (-56) in let three_tenths := S754_finite false 5404319552844595 (-54) in
  exists l, sweepF 10 (S754_zero false) three_tenths tenth = Some l /\ length l = 3%nat /\ SFltb (last l tenth) three_tenths = true.
Proof. eexists. split; [vm_compute; reflexivity|]. split; vm_compute; reflexivity. Qed.
Print Assumptions C48_rounding_end_point_refuted.
Example C48_ex : sweepR 10 100 300 100 = Some [100; 200; 300].
Proof.
  unfold sweepR. cbn [sweepLoop]. rewrite (proj2 (rleb_le 100 300)), (proj2 (rleb_le (100 + 100) 300)), (proj2 (rleb_le (100 + 100 + 100) 300)), (proj2 (rleb_gt (100 + 100 + 100 + 100) 300)) by lra.
  cbn [option_map]. repeat f_equal; lra.
Qed.

(** * C47 *)
(** the bisection, for any non-increasing function with a change of sign: the crossing is located to 5e-9 *)
Theorem C47_bisection_brackets : forall f aX bX c, (forall x y, x <= y -> f y <= f x) -> aX <= bX -> rsgn (f aX) <> rsgn (f bX) ->
  bisect f (f aX) maxIter aX bX = Ok c -> aX < c < bX /\ crossing f (/ 200000000) c.
Proof.
  intros f aX bX c M H S E. destruct (signs f aX bX M H S) as (L & A & B & S').
  apply (bisect_spec f (f aX) A M maxIter aX bX c); [|exact E]. repeat split; [exact L|exact S'|exact B].
Qed.
Print Assumptions C47_bisection_brackets.
(** the interval is halved at every turn: the turns suffice for every interval up to 3e21 *)
Theorem C47_bisection_stops : forall f aX bX aY, aX < bX -> bX - aX <= 3000000000000000000000 -> exists c, bisect f aY maxIter aX bX = Ok c.
Proof.
  intros f aX bX aY H W. apply (bisect_ok f aY 98 aX bX H).
  apply Rmult_lt_reg_r with (2 ^ 98); [apply pow_lt; lra|]. unfold Rdiv. rewrite Rmult_assoc, Rinv_l by (apply pow_nonzero; lra).
  assert (P : 2 ^ 98 = 316912650057057350374175801344). { rewrite (pow_IZR 2 98). reflexivity. } rewrite P. lra.
Qed.
Print Assumptions C47_bisection_stops.
(** the search: whenever it returns, every process has the same chemical potential and the electron count crosses the requested one there *)
Theorem C47_search_crossing : forall ranks numPoints numBands electrons volume cm3 spinFactor fermiLevel doping temp mus,
  0 < numPoints -> ~ (doping = 0 /\ temp = 0) ->
  findChemPot ranks numPoints numBands electrons volume cm3 spinFactor fermiLevel doping temp = Ok mus ->
  let n := electrons - doping * volume * cm3 / spinFactor in
  0 <= n <= numBands /\ exists mu, mus = map (fun _ => mu) ranks /\
  crossing (fun mu => n - electronCount (allStates ranks) numPoints temp mu) (/ 200000000) mu.
Proof. intros. apply (findChemPot_spec ranks numPoints numBands electrons volume cm3 spinFactor fermiLevel doping temp mus); assumption. Qed.
Print Assumptions C47_search_crossing.
(** at finite temperature the count matches up to numBands * 5e-9 / (4 T) *)
Theorem C47_count_matched_partial : forall ranks numPoints numBands electrons volume cm3 spinFactor fermiLevel doping temp mus mu,
  0 < numPoints -> 0 < temp -> INR (length (allStates ranks)) = numBands * numPoints ->
  findChemPot ranks numPoints numBands electrons volume cm3 spinFactor fermiLevel doping temp = Ok mus -> In mu mus ->
  Rabs (electronCount (allStates ranks) numPoints temp mu - (electrons - doping * volume * cm3 / spinFactor)) <= numBands * (/ 200000000 / (4 * temp)).
Proof.
  intros ranks np nb el v c s fermi d T mus mu Hp HT Hl E Hin.
  destruct (findChemPot_spec ranks np nb el v c s fermi d T mus Hp ltac:(lra) E) as (_ & m & -> & C). apply in_map_iff in Hin as (_ & <- & _).
  replace nb with (INR (length (allStates ranks)) / np) by (rewrite Hl; field; lra). apply (crossing_close _ _ _ _ _ _ Hp HT); [lra|exact C].
Qed.
Print Assumptions C47_count_matched_partial.
(** doping -> chemical potential -> doping *)
Theorem C47_doping_round_trip_partial : forall ranks numPoints numBands electrons volume cm3 spinFactor fermiLevel doping temp mus mu,
  0 < numPoints -> 0 < temp -> 0 < volume -> 0 < cm3 -> 0 < spinFactor -> INR (length (allStates ranks)) = numBands * numPoints ->
  findChemPot ranks numPoints numBands electrons volume cm3 spinFactor fermiLevel doping temp = Ok mus -> In mu mus ->
  Rabs (findDoping ranks numPoints electrons volume cm3 spinFactor mu temp - doping) <= numBands * (/ 200000000 / (4 * temp)) * (spinFactor / volume / cm3).
Proof.
  intros ranks np nb el v c s fermi d T mus mu Hp HT Hv Hc Hs Hl E Hin. rewrite findDoping_count.
  pose proof (C47_count_matched_partial ranks np nb el v c s fermi d T mus mu Hp HT Hl E Hin) as B.
  assert (P : 0 < s / v / c) by (repeat apply Rdiv_lt_0_compat; assumption).
  replace ((el - electronCount (allStates ranks) np T mu) * (s / v / c) - d) with
    (- (electronCount (allStates ranks) np T mu - (el - d * v * c / s)) * (s / v / c)) by (field; lra).
  rewrite Rabs_mult, Rabs_Ropp, (Rabs_right (s / v / c)) by lra. apply Rmult_le_compat_r; lra.
Qed.
Print Assumptions C47_doping_round_trip_partial.
(** it returns unless the number of electrons is impossible or its crossing is more than 1 Ry away from the bands *)
Theorem C47_search_succeeds : forall ranks numPoints numBands electrons volume cm3 spinFactor fermiLevel doping temp,
  0 < numPoints -> allStates ranks <> [] -> (forall e, In e (allStates ranks) -> Rabs e <= 100000000000000000000) ->
  let n := electrons - doping * volume * cm3 / spinFactor in 0 <= n <= numBands ->
  electronCount (allStates ranks) numPoints temp (rminl (allStates ranks) - 1) <= n <= electronCount (allStates ranks) numPoints temp (rmaxl (allStates ranks) + 1) ->
  exists mus, findChemPot ranks numPoints numBands electrons volume cm3 spinFactor fermiLevel doping temp = Ok mus.
Proof. intros. apply findChemPot_err; assumption. Qed.
Print Assumptions C47_search_succeeds.
(** in particular always at zero temperature *)
Theorem C47_zero_temperature_succeeds : forall ranks numPoints numBands electrons volume cm3 spinFactor fermiLevel doping,
  0 < numPoints -> allStates ranks <> [] -> (forall e, In e (allStates ranks) -> Rabs e <= 100000000000000000000) ->
  INR (length (allStates ranks)) = numBands * numPoints -> 0 <= electrons - doping * volume * cm3 / spinFactor <= numBands ->
  exists mus, findChemPot ranks numPoints numBands electrons volume cm3 spinFactor fermiLevel doping 0 = Ok mus.
Proof.
  intros ranks np nb el v c s fermi d Hp Hne Hb Hl Hn. apply findChemPot_err; try assumption. unfold electronsDoped.
  rewrite occ_below by (intros e He; pose proof (rminl_le _ _ He); lra). rewrite occ_above by (intros e He; pose proof (rmaxl_ge _ _ He); lra).
  rewrite Hl. replace (nb * np / np) with nb by (field; lra). exact Hn.
Qed.
Print Assumptions C47_zero_temperature_succeeds.
(** an impossible number of electrons is an error *)
Theorem C47_impossible_doping_rejected : forall ranks numPoints numBands electrons volume cm3 spinFactor fermiLevel doping temp,
  electrons - doping * volume * cm3 / spinFactor < 0 \/ numBands < electrons - doping * volume * cm3 / spinFactor ->
  findChemPot ranks numPoints numBands electrons volume cm3 spinFactor fermiLevel doping temp = Err.
Proof.
  intros ranks np nb el v c s fermi d T H. unfold findChemPot, electronsDoped. destruct (rltb nb _) eqn:E; [reflexivity|]. apply rltb_ge in E.
  rewrite (proj2 (rltb_lt _ 0)) by (destruct H; lra). reflexivity.
Qed.
Print Assumptions C47_impossible_doping_rejected.
(** at zero temperature the electron count is not matched: one state half filled *)
Theorem C47_zero_temperature_count_refuted : exists ranks electrons, exists mu, findChemPot ranks 1 1 electrons 1 1 1 0 0 0 = Ok [mu] /\
  Rabs (electronCount (allStates ranks) 1 0 mu - electrons) = 1 / 2.
Proof.
  exists [[[0]]], (1 / 2).
  destruct (C47_zero_temperature_succeeds [[[0]]] 1 1 (1 / 2) 1 1 1 0 0) as (mus & E); [lra|discriminate| |cbn; lra|lra|].
  { intros e He. cbn in He. destruct He as [<-|[]]. rewrite Rabs_R0. lra. }
  assert (Sh : exists mu, mus = [mu]).
  { unfold findChemPot, electronsDoped in E. rewrite (proj2 (rltb_ge 1 _)), (proj2 (rltb_ge _ 0)) in E by lra.
    rewrite (proj2 (reqb_ne (1 / 2 - 0 * 1 * 1 / 1) 0)), (proj2 (reqb_ne (1 / 2 - 0 * 1 * 1 / 1) 1)) in E by lra. rewrite !andb_false_r in E. cbv zeta in E.
    destruct (_ =? _)%Z in E; [discriminate|]. destruct (bisect _ _ _ _ _) as [m| |] in E; try discriminate. cbn in E. injection E as <-. eexists. reflexivity. }
  destruct Sh as (mu & ->). exists mu. split; [exact E|]. unfold electronCount, allStates. cbn [concat app map]. change (rsum [?x]) with (x + 0).
  unfold occupation. destruct (Rle_dec 0 0); [|lra]. destruct (Rle_dec 0 mu); [rewrite Rabs_right by lra; lra|rewrite Rabs_left by lra; lra].
Qed.
Print Assumptions C47_zero_temperature_count_refuted.
(** completely empty (or full) bands at zero temperature and doping: processes of a distributed band structure get different chemical potentials *)
Theorem C47_processes_differ_refuted : exists ranks mu mu', findChemPot ranks 2 1 0 1 1 1 0 0 0 = Ok [mu; mu'] /\ mu <> mu'.
Proof.
  exists [[[0]]; [[1]]], 0, 1. split; [|lra]. unfold findChemPot, electronsDoped. rewrite (proj2 (rltb_ge 1 _)), (proj2 (rltb_ge _ 0)) by lra.
  rewrite (proj2 (reqb_eq 0 0)), (proj2 (reqb_eq (0 - 0 * 1 * 1 / 1) 0)) by lra. reflexivity.
Qed.
Print Assumptions C47_processes_differ_refuted.
(** the number of electrons is independent of how states are spread over processes and threads *)
Theorem C47_count_schedule_independent : forall ranks ranks' numPoints n mu temp, Permutation (allStates ranks) (allStates ranks') ->
  fPop ranks numPoints n mu temp = fPop ranks' numPoints n mu temp.
Proof.
  intros ranks ranks' np n mu T P. rewrite !fPop_count. unfold electronCount. do 2 f_equal. apply rsum_perm, Permutation_map, P.
Qed.
Print Assumptions C47_count_schedule_independent.
(** with a Fermi level, the electrons of the undoped system are those of all states below it *)
Theorem C47_fermi_level_count : forall ranks numPoints fermiLevel,
  occupiedFromFermiLevel ranks numPoints fermiLevel = INR (length (filter (fun e => if Rlt_dec e fermiLevel then true else false) (allStates ranks))) / numPoints.
Proof.
  intros ranks np eF. unfold occupiedFromFermiLevel. rewrite sumStates_all. f_equal. generalize (allStates ranks) as l. induction l as [|e l IH]; [reflexivity|].
  cbn [map filter]. change (rsum (?a :: ?b)) with (a + rsum b). rewrite IH. destruct (Rlt_dec e eF) as [h|h].
  - rewrite (proj2 (rltb_lt e eF)) by exact h. cbn [length]. rewrite S_INR. ring.
  - rewrite (proj2 (rltb_ge e eF)) by lra. ring.
Qed.
Print Assumptions C47_fermi_level_count.
(** a Fermi level that coincides with a band: the state does not count as occupied, but the population of the program at that chemical potential does count it *)
Theorem C47_fermi_level_on_band_refuted : exists ranks fermiLevel, findDoping ranks 1 (occupiedFromFermiLevel ranks 1 fermiLevel) 1 1 1 fermiLevel 0 <> 0.
Proof.
  exists [[[0]]], 0. unfold findDoping, occupiedFromFermiLevel, sumStates. cbn [map]. change (rsum [?x]) with (x + 0). change (rsum [?x]) with (x + 0).
  rewrite (proj2 (rltb_ge 0 0)) by lra. unfold fermiPop. rewrite fermi_T0 by lra. rewrite (proj2 (rleb_le 0 0)) by lra. change (rsum [0]) with (0 + 0). change (rsum [1]) with (1 + 0). lra.
Qed.
Print Assumptions C47_fermi_level_on_band_refuted.
Example C47_ex : (forall x y, x <= y -> - y <= - x) /\ rsgn (- -1) <> rsgn (- 2) /\ exists c, bisect Ropp (- -1) maxIter (-1) 2 = Ok c.
Proof.
  split; [intros; lra|]. split.
  - destruct (rsgn_cases (- -1)) as [(P & ->)|[(P & ->)|(P & ->)]]; destruct (rsgn_cases (- 2)) as [(P' & ->)|[(P' & ->)|(P' & ->)]]; try lra; discriminate.
  - apply C47_bisection_stops; lra.
Qed.
Example C47_ex2 : exists mus, findChemPot [[[0]; [1]]; [[]]; [[2; 3]]] 2 2 1 270 1 2 0 0 0 = Ok mus.
Proof.
  apply C47_zero_temperature_succeeds; try lra; try discriminate; [|cbn; lra].
  intros e He. cbn in He. destruct He as [<-|[<-|[<-|[<-|[]]]]]; (rewrite Rabs_right; lra).
Qed.

(** * C46 *)
Theorem C46_electron_dopings_partial : forall muOf dopingOf temps dopings s, dopings <> [] -> (zlen temps * zlen dopings <= INT_MAX)%Z ->
  electronSweep muOf dopingOf temps dopings [] = Ok s ->
  numCalculations s = (zlen temps * zlen dopings)%Z /\
  forall it id t d, zget temps it = Some t -> zget dopings id = Some d ->
    exists mu, muOf d t = Ok mu /\ calcStatistics2 s it id = Ok (t, mu, d) /\ calcStatistics s (it * zlen dopings + id) = Ok (t, mu, d).
Proof.
  intros muOf dopingOf temps dopings s Hd HM E. unfold electronSweep in E. change (zlen (@nil R)) with 0%Z in E.
  rewrite Z.max_r in E by (unfold zlen; lia). unfold ck in E. unfold INT_MIN, INT_MAX in *.
  destruct (_ && _)%bool eqn:C in E; [|unfold zlen in *; lia]. cbn [bind Z.eqb] in E. rewrite fill_table in E by (unfold INT_MAX; exact HM).
  destruct (mapM _ _) as [rows| |] eqn:M in E; try discriminate. cbn [bind] in E. injection E as <-.
  pose proof (mapM_len _ _ _ M) as L. rewrite length_pairs in L. unfold numCalculations. cbn [sTable]. split; [unfold zlen; lia|].
  intros it id t d Ht Hdd. destruct (zget_Some _ _ _ Ht) as [Ri _]. destruct (zget_Some _ _ _ Hdd) as [Rj _].
  assert (Ni : nth_error temps (Z.to_nat it) = Some t) by (unfold zget in Ht; destruct (it <? 0)%Z; [discriminate|exact Ht]).
  assert (Nj : nth_error dopings (Z.to_nat id) = Some d) by (unfold zget in Hdd; destruct (id <? 0)%Z; [discriminate|exact Hdd]).
  destruct (mapM_nth _ _ _ _ _ M (nth_pairs temps dopings _ _ _ _ Ni Nj)) as (r & Hr & Er). cbn [fst snd] in Er.
  destruct (muOf d t) as [mu| |] eqn:Emu; try discriminate. cbn [bind] in Er. injection Er as <-. exists mu. split; [reflexivity|].
  assert (K : calcStatistics {| sNTemp := zlen temps; sNChemPot := zlen dopings; sNDop := zlen dopings; sTable := rows |} (it * zlen dopings + id) = Ok (t, mu, d)).
  { unfold calcStatistics. cbn [sTable]. unfold zget. destruct (Z.ltb_spec (it * zlen dopings + id) 0); [nia|].
    replace (Z.to_nat (it * zlen dopings + id)) with (Z.to_nat it * length dopings + Z.to_nat id)%nat by (unfold zlen; nia). rewrite Hr. reflexivity. }
  split; [|exact K]. unfold calcStatistics2. cbn [sNTemp sNChemPot]. destruct (compress2_ok it id (zlen temps) (zlen dopings)) as [-> _]; [lia|lia|unfold INT_MAX; exact HM|]. exact K.
Qed.
Print Assumptions C46_electron_dopings_partial.
Theorem C46_electron_chemical_potentials_partial : forall muOf dopingOf temps mus, mus <> [] -> (zlen temps * zlen mus <= INT_MAX)%Z ->
  exists s, electronSweep muOf dopingOf temps [] mus = Ok s /\ numCalculations s = (zlen temps * zlen mus)%Z /\
  forall it im t mu, zget temps it = Some t -> zget mus im = Some mu ->
    calcStatistics2 s it im = Ok (t, mu, dopingOf mu t) /\ calcStatistics s (it * zlen mus + im) = Ok (t, mu, dopingOf mu t).
Proof.
  intros muOf dopingOf temps mus Hm HM. unfold electronSweep. change (zlen (@nil R)) with 0%Z.
  rewrite Z.max_l by (unfold zlen; lia). unfold ck. unfold INT_MIN, INT_MAX in *.
  destruct (_ && _)%bool eqn:C; [|unfold zlen in *; lia]. cbn [bind].
  destruct (Z.eqb_spec (zlen mus) 0) as [Z|_]; [destruct mus; [contradiction|unfold zlen in Z; cbn in Z; lia]|]. cbn [Z.eqb]. rewrite fill_table by (unfold INT_MAX; exact HM).
  destruct (mapM _ _) as [rows| |] eqn:M.
  2, 3: exfalso; revert M; generalize (pairs temps mus) as l; induction l as [|p l IH]; intro M; [discriminate|]; cbn [mapM bind] in M;
    destruct (mapM _ l) eqn:M'; cbn [bind] in M; try discriminate; apply IH; exact M.
  cbn [bind]. eexists. split; [reflexivity|].
  pose proof (mapM_len _ _ _ M) as L. rewrite length_pairs in L. unfold numCalculations. cbn [sTable]. split; [unfold zlen; lia|].
  intros it im t mu Ht Hdd. destruct (zget_Some _ _ _ Ht) as [Ri _]. destruct (zget_Some _ _ _ Hdd) as [Rj _].
  assert (Ni : nth_error temps (Z.to_nat it) = Some t) by (unfold zget in Ht; destruct (it <? 0)%Z; [discriminate|exact Ht]).
  assert (Nj : nth_error mus (Z.to_nat im) = Some mu) by (unfold zget in Hdd; destruct (im <? 0)%Z; [discriminate|exact Hdd]).
  destruct (mapM_nth _ _ _ _ _ M (nth_pairs temps mus _ _ _ _ Ni Nj)) as (r & Hr & Er). cbn [fst snd] in Er. injection Er as <-.
  assert (K : calcStatistics {| sNTemp := zlen temps; sNChemPot := zlen mus; sNDop := zlen mus; sTable := rows |} (it * zlen mus + im) = Ok (t, mu, dopingOf mu t)).
  { unfold calcStatistics. cbn [sTable]. unfold zget. destruct (Z.ltb_spec (it * zlen mus + im) 0); [nia|].
    replace (Z.to_nat (it * zlen mus + im)) with (Z.to_nat it * length mus + Z.to_nat im)%nat by (unfold zlen; nia). rewrite Hr. reflexivity. }
  split; [|exact K]. unfold calcStatistics2. cbn [sNTemp sNChemPot]. destruct (compress2_ok it im (zlen temps) (zlen mus)) as [-> _]; [lia|lia|unfold INT_MAX; exact HM|]. exact K.
Qed.
Print Assumptions C46_electron_chemical_potentials_partial.
Theorem C46_phonons : forall temps, (zlen temps <= INT_MAX)%Z -> numCalculations (phononSweep temps) = zlen temps /\
  forall it t, zget temps it = Some t -> calcStatistics2 (phononSweep temps) it 0 = Ok (t, 0, 0) /\ calcStatistics (phononSweep temps) it = Ok (t, 0, 0).
Proof.
  intros temps HM. split; [unfold numCalculations; cbn; unfold zlen; rewrite map_length; reflexivity|]. intros it t Ht.
  assert (K : calcStatistics (phononSweep temps) it = Ok (t, 0, 0)) by (unfold calcStatistics; cbn [sTable phononSweep]; rewrite zget_map, Ht; reflexivity).
  split; [|exact K]. unfold calcStatistics2. cbn [sNTemp sNChemPot phononSweep]. destruct (zget_Some _ _ _ Ht) as [R _].
  destruct (compress2_ok it 0 (zlen temps) 1) as [-> _]; [lia|lia|lia|]. cbn [bind]. replace (it * 1 + 0)%Z with it by lia. exact K.
Qed.
Print Assumptions C46_phonons.
(** different requests have different calculation indices, and every calculation belongs to a request *)
Theorem C46_one_calculation_per_request : forall nTemp nX, (0 < nX)%Z -> 
  (forall i j i' j', (0 <= j < nX)%Z -> (0 <= j' < nX)%Z -> (i * nX + j = i' * nX + j')%Z -> i = i' /\ j = j') /\
  (forall k, (0 <= k < nTemp * nX)%Z -> exists i j, (0 <= i < nTemp)%Z /\ (0 <= j < nX)%Z /\ (k = i * nX + j)%Z).
Proof.
  intros nTemp nX HX. split.
  - intros i j i' j' Hj Hj' E. assert (i = i') by (destruct (Z.lt_trichotomy i i') as [L|[L|L]]; [exfalso; nia|exact L|exfalso; nia]). subst. split; lia.
  - intros k Hk. exists (k / nX)%Z, (k mod nX)%Z. pose proof (Z.div_mod k nX ltac:(lia)). pose proof (Z.mod_pos_bound k nX HX).
    repeat split; try lia; [apply Z.div_pos; lia|apply Z.div_lt_upper_bound; lia].
Qed.
Print Assumptions C46_one_calculation_per_request.
(** dopings and chemical potentials both given: no error, all calculations at zero temperature and chemical potential *)
Theorem C46_both_given_refuted : forall muOf dopingOf temps dopings mus s, dopings <> [] -> mus <> [] ->
  electronSweep muOf dopingOf temps dopings mus = Ok s -> forall i r, calcStatistics s i = Ok r -> r = (0, 0, 0).
Proof.
  intros muOf dopingOf temps dopings mus s Hd Hm E i r Hr. unfold electronSweep in E. destruct (ck _) as [n| |] in E; try discriminate. cbn [bind] in E.
  destruct (Z.eqb_spec (zlen mus) 0) as [Z|_]; [destruct mus; [contradiction|unfold zlen in Z; cbn in Z; lia]|].
  destruct (Z.eqb_spec (zlen dopings) 0) as [Z|_]; [destruct dopings; [contradiction|unfold zlen in Z; cbn in Z; lia]|].
  injection E as <-. unfold calcStatistics in Hr. cbn [sTable] in Hr. destruct (zget (zeros n) i) as [x|] eqn:G; [|discriminate]. injection Hr as <-.
  unfold zeros in G. rewrite zget_map in G. destruct (zget (zrange 0 n) i); [|discriminate]. injection G as <-. reflexivity.
Qed.
Print Assumptions C46_both_given_refuted.
Theorem C46_copy : forall s, copySweep s = s.
Proof. intros []. reflexivity. Qed.
Print Assumptions C46_copy.
Example C46_ex : exists s, electronSweep (fun d _ => Ok d) (fun m _ => m) [100; 300] [1; 2; 3] [] = Ok s /\ calcStatistics2 s 1 2 = Ok (300, 3, 3).
Proof. eexists. split; reflexivity. Qed.
Example C46_ex2 : exists s, electronSweep (fun d _ => Ok d) (fun m _ => m) [100; 300] [1] [2] = Ok s /\ numCalculations s = 2%Z.
Proof. eexists. split; reflexivity. Qed.
