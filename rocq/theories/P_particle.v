(** Property theorems for populations and the population window: C41, C21. *)
From Coq Require Import Reals.
From Verif Require Import Base BaseLemmas M_bands S_bands L_bands3 M_particle S_particle L_particle.
From Coq Require Import Lra.
Open Scope R_scope.

(** * C41 *)
(** values *)
Theorem C41_fermi_dirac : forall e T mu, 0 < T -> getPopulation electron e T mu = Fin (/ (exp ((e - mu) / T) + 1)).
Proof. exact fermi_value. Qed.
Print Assumptions C41_fermi_dirac.
Theorem C41_bose_einstein : forall e T mu, 0 < T -> mu < e -> getPopulation phonon e T mu = Fin (/ (exp ((e - mu) / T) - 1)).
Proof. exact bose_value. Qed.
Print Assumptions C41_bose_einstein.
Theorem C41_zero_temperature : forall s e T mu, T <= 0 ->
  (e <= mu -> getPopulation s e T mu = Fin 1) /\ (mu < e -> getPopulation s e T mu = Fin 0).
Proof.
  intros s e T mu H. rewrite fermi_T0 by exact H. split; intro E; [rewrite (proj2 (rleb_le e mu)) by exact E|rewrite (proj2 (rleb_gt e mu)) by exact E]; reflexivity.
Qed.
Print Assumptions C41_zero_temperature.
(** physical range, for all temperatures *)
Theorem C41_range : forall s e T mu n, getPopulation s e T mu = Fin n -> 0 <= n /\ (s = electron -> n <= 1).
Proof.
  intros s e T mu n H. destruct (Rle_lt_dec T 0) as [HT|HT].
  - rewrite fermi_T0 in H by exact HT. injection H as <-. destruct (rleb e mu); split; intros; lra.
  - destruct s.
    + split; [|discriminate]. destruct (Rtotal_order e mu) as [L|[L|L]].
      * rewrite bose_below in H by assumption. injection H as <-. lra.
      * subst. rewrite bose_at in H by assumption. discriminate.
      * rewrite bose_value in H by assumption. injection H as <-. left. apply bose_pos, y_pos; assumption.
    + rewrite fermi_value in H by assumption. injection H as <-. pose proof (fermi_range ((e - mu) / T)). split; intros; lra.
Qed.
Print Assumptions C41_range.
(** populations decrease with the energy *)
Theorem C41_fermi_decreases : forall e1 e2 T mu n1 n2, e1 <= e2 ->
  getPopulation electron e1 T mu = Fin n1 -> getPopulation electron e2 T mu = Fin n2 -> n2 <= n1 /\ (e1 < e2 -> 0 < T -> n2 < n1).
Proof.
  intros e1 e2 T mu n1 n2 H H1 H2. destruct (Rle_lt_dec T 0) as [HT|HT].
  - rewrite fermi_T0 in H1, H2 by exact HT. injection H1 as <-. injection H2 as <-. split; [|intros; lra].
    destruct (rleb e1 mu) eqn:A; destruct (rleb e2 mu) eqn:B; try lra. apply rleb_gt in A. apply rleb_le in B. lra.
  - rewrite fermi_value in H1, H2 by exact HT. injection H1 as <-. injection H2 as <-.
    assert (S : e1 < e2 -> fermiDirac ((e2 - mu) / T) < fermiDirac ((e1 - mu) / T)) by (intro L; apply fermi_decr, div_lt; lra).
    split; [|intros L _; apply S, L]. destruct (Req_dec e1 e2) as [->|N]; [lra|left; apply S; lra].
Qed.
Print Assumptions C41_fermi_decreases.
Theorem C41_bose_decreases : forall e1 e2 T mu, 0 < T -> mu < e1 -> e1 < e2 ->
  exists n1 n2, getPopulation phonon e1 T mu = Fin n1 /\ getPopulation phonon e2 T mu = Fin n2 /\ 0 < n2 < n1.
Proof.
  intros e1 e2 T mu HT H1 H2. do 2 eexists. split; [apply bose_value; lra|]. split; [apply bose_value; lra|].
  split; [apply bose_pos, y_pos; lra|]. apply bose_decr; [apply y_pos; lra|apply div_lt; lra].
Qed.
Print Assumptions C41_bose_decreases.
(** getPopPopPm1 is n(n+1) for phonons above the chemical potential, f(1-f) for electrons *)
Theorem C41_fluctuations_electrons : forall e T mu, 0 < T ->
  exists f, getPopulation electron e T mu = Fin f /\ getPopPopPm1 electron e T mu = Fin (f * (1 - f)).
Proof. intros e T mu HT. eexists. split; [apply fermi_value, HT|apply fermi_ppm, HT]. Qed.
Print Assumptions C41_fluctuations_electrons.
Theorem C41_fluctuations_phonons : forall e T mu, 0 < T -> mu < e ->
  exists n, getPopulation phonon e T mu = Fin n /\ getPopPopPm1 phonon e T mu = Fin (n * (n + 1)).
Proof. intros e T mu HT He. eexists. split; [apply bose_value; assumption|apply bose_ppm; lra]. Qed.
Print Assumptions C41_fluctuations_phonons.
(** the relation is lost below the chemical potential (imaginary frequencies), where the population is set to 0 *)
Theorem C41_fluctuations_phonons_refuted : exists e T mu, 0 < T /\ e < mu /\ getPopulation phonon e T mu = Fin 0 /\
  exists x, getPopPopPm1 phonon e T mu = Fin x /\ x <> 0 * (0 + 1).
Proof.
  exists (-1), 1, 0. split; [lra|]. split; [lra|]. split; [apply bose_below; lra|]. eexists. split; [apply bose_ppm; lra|].
  unfold boseEinstein. assert (E : exp ((-1 - 0) / 1) < 1) by (apply exp_lt1; lra). pose proof (exp_pos ((-1 - 0) / 1)) as P.
  set (x := exp ((-1 - 0) / 1)) in *. intro C. assert (H : / (x - 1) * (/ (x - 1) + 1) * ((x - 1) * (x - 1)) = 0) by (rewrite C; ring).
  assert (G : / (x - 1) * (/ (x - 1) + 1) * ((x - 1) * (x - 1)) = x) by (field; lra). lra.
Qed.
Print Assumptions C41_fluctuations_phonons_refuted.
(** getDnde and getDndt are the derivatives of the population *)
Theorem C41_dnde_is_derivative_electrons : forall e T mu, 0 < T ->
  exists f d, populationOfEnergy electron T mu e f /\ derivable_pt_lim f e d /\ getDnde electron e T mu false = Fin d.
Proof. exact dnde_fermi. Qed.
Print Assumptions C41_dnde_is_derivative_electrons.
Theorem C41_dnde_is_derivative_phonons : forall e T mu, 0 < T -> mu < e ->
  exists f d, populationOfEnergy phonon T mu e f /\ derivable_pt_lim f e d /\ getDnde phonon e T mu false = Fin d.
Proof. exact dnde_bose. Qed.
Print Assumptions C41_dnde_is_derivative_phonons.
Theorem C41_dndt_is_derivative_electrons : forall e T mu, 0 < T ->
  exists f d, populationOfTemperature electron T mu e f /\ derivable_pt_lim f T d /\ getDndt electron e T mu false = Fin d.
Proof. exact dndt_fermi. Qed.
Print Assumptions C41_dndt_is_derivative_electrons.
Theorem C41_dndt_is_derivative_phonons : forall e T mu, 0 < T -> mu < e ->
  exists f d, populationOfTemperature phonon T mu e f /\ derivable_pt_lim f T d /\ getDndt phonon e T mu false = Fin d.
Proof. exact dndt_bose. Qed.
Print Assumptions C41_dndt_is_derivative_phonons.
(** symmetrized versions: multiplied by sqrt(n(n+1)) they give the derivatives *)
Theorem C41_symmetrized_derivatives : forall s e T mu x, 0 < T -> getPopPopPm1 s e T mu = Fin x ->
  exists a b, getDnde s e T mu true = Fin a /\ getDnde s e T mu false = Fin (a * sqrt x) /\
              getDndt s e T mu true = Fin b /\ getDndt s e T mu false = Fin (b * sqrt x).
Proof.
  intros s e T mu x HT H. unfold getDnde, getDndt. rewrite H. do 2 eexists. split; [reflexivity|].
  assert (P : 0 <= x).
  { unfold getPopPopPm1 in H. rewrite (proj2 (reqb_ne T 0)) in H by lra.
    match type of H with (if reqb ?y 0 then _ else _) = _ => set (z := y) in H end.
    destruct (reqb z 0) eqn:E; [discriminate|]. injection H as <-. apply reqb_ne in E. destruct (quarter_over z) as [->|]; [|contradiction].
    assert (0 < / (z * z)) by (apply Rinv_0_lt_compat; nra). lra. }
  pose proof (sqrt_sqrt x P) as S. split; [f_equal; rewrite <- S at 1; field; lra|]. split; [reflexivity|]. f_equal. rewrite <- S at 1. field. lra.
Qed.
Print Assumptions C41_symmetrized_derivatives.
(** detailed balance *)
Theorem C41_detailed_balance_phonons : forall e1 e2 e3 T, 0 < T -> 0 < e1 -> 0 < e2 -> e1 + e2 = e3 ->
  exists n1 n2 n3, getPopulation phonon e1 T 0 = Fin n1 /\ getPopulation phonon e2 T 0 = Fin n2 /\ getPopulation phonon e3 T 0 = Fin n3 /\
  n1 * n2 * (n3 + 1) = (n1 + 1) * (n2 + 1) * n3.
Proof.
  intros e1 e2 e3 T HT H1 H2 H3. do 3 eexists. split; [apply bose_value; lra|]. split; [apply bose_value; lra|]. split; [apply bose_value; lra|].
  unfold boseEinstein. replace ((e3 - 0) / T) with ((e1 - 0) / T + (e2 - 0) / T) by (subst e3; field; lra). rewrite exp_plus.
  assert (A : 1 < exp ((e1 - 0) / T)) by (apply exp_gt1, y_pos; lra). assert (B : 1 < exp ((e2 - 0) / T)) by (apply exp_gt1, y_pos; lra).
  field. repeat split; nra.
Qed.
Print Assumptions C41_detailed_balance_phonons.
Theorem C41_detailed_balance_electron_phonon : forall e1 e2 w T mu, 0 < T -> 0 < w -> e2 = e1 + w ->
  exists f1 f2 n, getPopulation electron e1 T mu = Fin f1 /\ getPopulation electron e2 T mu = Fin f2 /\ getPopulation phonon w T 0 = Fin n /\
  f1 * (1 - f2) * n = f2 * (1 - f1) * (n + 1).
Proof.
  intros e1 e2 w T mu HT Hw ->. do 3 eexists. split; [apply fermi_value; lra|]. split; [apply fermi_value; lra|]. split; [apply bose_value; lra|].
  unfold boseEinstein, fermiDirac. replace ((e1 + w - mu) / T) with ((e1 - mu) / T + (w - 0) / T) by (field; lra). rewrite exp_plus.
  assert (A : 1 < exp ((w - 0) / T)) by (apply exp_gt1, y_pos; lra). pose proof (exp_pos ((e1 - mu) / T)).
  field. repeat split; nra.
Qed.
Print Assumptions C41_detailed_balance_electron_phonon.
(** electron-hole symmetry *)
Theorem C41_electron_hole : forall x T mu, 0 < T ->
  exists f g, getPopulation electron (mu + x) T mu = Fin f /\ getPopulation electron (mu - x) T mu = Fin g /\ f + g = 1.
Proof.
  intros x T mu HT. do 2 eexists. split; [apply fermi_value; lra|]. split; [apply fermi_value; lra|].
  unfold fermiDirac. replace ((mu - x - mu) / T) with (- ((mu + x - mu) / T)) by (field; lra). rewrite exp_Ropp.
  pose proof (exp_pos ((mu + x - mu) / T)). field. split; nra.
Qed.
Print Assumptions C41_electron_hole.
Example C41_ex : getPopulation electron 0 1 0 = Fin (/ (exp ((0 - 0) / 1) + 1)) /\ / (exp ((0 - 0) / 1) + 1) = 1 / 2 /\ 0 < 1 /\ 1 + 2 = 3.
Proof. split; [apply fermi_value; lra|]. split; [|lra]. replace ((0 - 0) / 1) with 0 by lra. rewrite exp_0. lra. Qed.

(** * C21 *)
(** A band above the threshold at one requested temperature and chemical potential is kept, as far as its chemical
    potential is the smallest or the largest one. Missing: chemical potentials in between (see _refuted). *)
Theorem C21_population_window_partial : forall s thr temps mus energies ib e T mu, 0 <= thr ->
  (forall t, In t temps -> 0 < t) -> In T temps -> In mu mus -> mu = rminl mus \/ mu = rmaxl mus ->
  zget energies ib = Some e -> exceeds thr (getPopPopPm1 s e T mu) = true ->
  exists a b, snd (populationWindow s thr (rmaxl temps) (rminl mus) (rmaxl mus) energies) = [a; b] /\ (a <= ib <= b)%Z /\
  In e (fst (populationWindow s thr (rmaxl temps) (rminl mus) (rmaxl mus) energies)).
Proof.
  intros s thr temps mus energies ib e T mu Ht Hpos HT Hmu Hext He Hx.
  assert (K : inPopulationWindow s thr (rmaxl temps) (rminl mus) (rmaxl mus) e = true).
  { unfold inPopulationWindow. apply orb_true_iff. pose proof (exceeds_mono s thr e T (rmaxl temps) mu Ht (Hpos T HT) (rmaxl_ge temps T HT) Hx) as M.
    destruct Hext as [E|E]; rewrite E in M; [left|right]; exact M. }
  destruct (windowFilter_spec (inPopulationWindow s thr (rmaxl temps) (rminl mus) (rmaxl mus)) energies) as (W1 & _ & W3 & idx & W4 & _ & W6).
  unfold populationWindow. destruct W3 as (a & b & ea & eb & E1 & _ & _ & _ & _ & E6).
  { intro C. apply W1 with (i := ib) (e := e) in C; [apply C; exact K|exact He]. }
  exists a, b. split; [exact E1|]. split; [apply (E6 ib e He K)|].
  assert (I : In (Some e) (map (@Some R) (fst (windowFilter (inPopulationWindow s thr (rmaxl temps) (rminl mus) (rmaxl mus)) energies)))).
  { rewrite W6. rewrite <- He. apply in_map. apply W4. exists e. split; [exact He|exact K]. }
  apply in_map_iff in I as (x & Ex & Ix). injection Ex as ->. exact Ix.
Qed.
Print Assumptions C21_population_window_partial.
(** phonons have one chemical potential, zero: complete *)
Theorem C21_phonons : forall thr temps energies ib e T, 0 <= thr -> (forall t, In t temps -> 0 < t) -> In T temps ->
  zget energies ib = Some e -> exceeds thr (getPopPopPm1 phonon e T 0) = true ->
  exists a b, snd (populationWindow phonon thr (rmaxl temps) 0 0 energies) = [a; b] /\ (a <= ib <= b)%Z /\
  In e (fst (populationWindow phonon thr (rmaxl temps) 0 0 energies)).
Proof.
  intros thr temps energies ib e T Ht Hpos HT He Hx.
  exact (C21_population_window_partial phonon thr temps [0] energies ib e T 0 Ht Hpos HT (or_introl eq_refl) (or_introl eq_refl) He Hx).
Qed.
Print Assumptions C21_phonons.
(** nothing else is kept *)
Theorem C21_discards : forall s thr tmax muMin muMax energies e, In e (fst (populationWindow s thr tmax muMin muMax energies)) ->
  In e energies /\ (exceeds thr (getPopPopPm1 s e tmax muMin) = true \/ exceeds thr (getPopPopPm1 s e tmax muMax) = true).
Proof.
  intros s thr tmax muMin muMax energies e H. unfold populationWindow in H.
  destruct (windowFilter_spec (inPopulationWindow s thr tmax muMin muMax) energies) as (_ & _ & _ & idx & W4 & _ & W6).
  apply (in_map (@Some R)) in H. rewrite W6 in H. apply in_map_iff in H as (i & E & I). apply W4 in I as (e' & G & K).
  rewrite G in E. injection E as ->. split; [apply zget_Some in G as [_ G]; exact G|]. apply orb_true_iff, K.
Qed.
Print Assumptions C21_discards.
(** three chemical potentials -1, 0, 1 and a band at 0 with f(1-f) = 1/4: discarded *)
Theorem C21_population_window_refuted : exists thr temps mus energies T mu, 0 <= thr /\ (forall t, In t temps -> 0 < t) /\ In T temps /\ In mu mus /\
  zget energies 0 = Some 0 /\ exceeds thr (getPopPopPm1 electron 0 T mu) = true /\
  populationWindow electron thr (rmaxl temps) (rminl mus) (rmaxl mus) energies = ([], []).
Proof.
  exists (/ 10000000000), [/ 100], [-1; 0; 1], [0], (/ 100), 0. split; [lra|]. split; [intros t [<-|[]]; lra|]. split; [left; reflexivity|].
  split; [right; left; reflexivity|]. split; [reflexivity|].
  assert (C50 : 80000 <= cosh 50).
  { unfold cosh. assert (E : exp 50 = exp 10 * exp 10 * exp 10 * exp 10 * exp 10). { rewrite <- !exp_plus. f_equal. lra. }
    assert (T10 : 11 <= exp 10). { pose proof (exp_ineq1 10 ltac:(lra)). lra. }
    assert (A : 11 * 11 <= exp 10 * exp 10) by (apply Rmult_le_compat; lra).
    assert (B : 11 * 11 * 11 <= exp 10 * exp 10 * exp 10) by (apply Rmult_le_compat; lra).
    assert (D : 11 * 11 * 11 * 11 <= exp 10 * exp 10 * exp 10 * exp 10) by (apply Rmult_le_compat; lra).
    assert (F : 11 * 11 * 11 * 11 * 11 <= exp 10 * exp 10 * exp 10 * exp 10 * exp 10) by (apply Rmult_le_compat; lra).
    pose proof (exp_pos (- (50))). rewrite E. lra. }
  assert (V : forall mu, Rabs mu = 1 -> exceeds (/ 10000000000) (getPopPopPm1 electron 0 (/ 100) mu) = false).
  { intros mu Hm. unfold getPopPopPm1. rewrite (proj2 (reqb_ne _ _)) by lra.
    assert (A : cosh ((0 - mu) / 2 / / 100) = cosh 50).
    { unfold Rabs in Hm. destruct (Rcase_abs mu); [replace ((0 - mu) / 2 / / 100) with 50 by (replace mu with (-1) by lra; field); reflexivity|].
      replace ((0 - mu) / 2 / / 100) with (- (50)) by (replace mu with 1 by lra; field). apply cosh_even. }
    rewrite A. rewrite (proj2 (reqb_ne _ _)) by lra. cbn [exceeds]. apply rltb_ge.
    destruct (quarter_over (cosh 50)) as [->|]; [|lra].
    assert (Q : 6400000000 <= cosh 50 * cosh 50) by (replace 6400000000 with (80000 * 80000) by lra; apply Rmult_le_compat; lra).
    assert (0 < / (cosh 50 * cosh 50)) by (apply Rinv_0_lt_compat; lra). rewrite Rabs_right by lra.
    assert (/ (cosh 50 * cosh 50) <= / 6400000000) by (apply Rinv_le_contravar; lra). lra. }
  split.
  - unfold getPopPopPm1. rewrite (proj2 (reqb_ne _ _)) by lra. replace ((0 - 0) / 2 / / 100) with 0 by lra. rewrite cosh_0.
    rewrite (proj2 (reqb_ne _ _)) by lra. cbn [exceeds]. apply rltb_lt. rewrite Rabs_right by lra. lra.
  - assert (Mi : rminl [-1; 0; 1] = -1). { cbn. unfold Rmin. destruct (Rle_dec (-1) 0) as [A|A]; [destruct (Rle_dec (-1) 1)|destruct (Rle_dec 0 1)]; lra. }
    assert (Ma : rmaxl [-1; 0; 1] = 1). { cbn. unfold Rmax. destruct (Rle_dec (-1) 0) as [A|A]; [destruct (Rle_dec 0 1)|destruct (Rle_dec (-1) 1)]; lra. }
    rewrite Mi, Ma. change (rmaxl [/ 100]) with (/ 100). unfold populationWindow.
    assert (K : inPopulationWindow electron (/ 10000000000) (/ 100) (-1) 1 0 = false).
    { unfold inPopulationWindow. rewrite (V (-1)), (V 1); [reflexivity| |]; unfold Rabs; destruct (Rcase_abs _); lra. }
    unfold windowFilter, windowLoop. change (combine (zrange 0 (zlen [0])) [0]) with [(0%Z, 0)]. cbn [fold_left]. unfold windowStep. cbn [fst snd]. rewrite K. reflexivity.
Qed.
Print Assumptions C21_population_window_refuted.
Example C21_ex : 0 <= 0 /\ (forall t, In t [1] -> 0 < t) /\ zget [1; 0] 1 = Some 0 /\ exceeds 0 (getPopPopPm1 electron 0 1 0) = true.
Proof.
  split; [lra|]. split; [intros t [<-|[]]; lra|]. split; [reflexivity|]. unfold getPopPopPm1. rewrite (proj2 (reqb_ne _ _)) by lra.
  replace ((0 - 0) / 2 / 1) with 0 by lra. rewrite cosh_0. rewrite (proj2 (reqb_ne _ _)) by lra. cbn [exceeds]. apply rltb_lt. rewrite Rabs_right by lra. lra.
Qed.
