(** Property theorems for the solvers of the BTE: C65 (fixed points of the iteration), C66 (its convergence), C67 (conjugate
    gradient), C68 (reported conductivities), C69 (exits of the loops). *)
From Coq Require Import QArith Qabs Qcanon Qcabs.
From Verif Require Import Base M_utilities M_points M_matrix M_vbte M_scattering M_solver S_utilities S_solver L_utilities L_scattering L_solver L_solver2 L_solver3.
From Coq Require Import Lia Lqa.
Open Scope Z_scope.

(** C65. One iteration leaves a population as it is exactly when that population solves A f = b; otherwise it moves each state by the
    residual divided by the diagonal. *)
Theorem C65_phonons_residual : forall P (f : field) c i s, active P s -> (forall s', 0 <= s' < pN P -> ~ active P s' -> f c i s' = 0%Qc) ->
  pM P c s s <> 0%Qc -> pPop P c s <> 0%Qc ->
  (pM P c s s * (ominiNext P f c i s - f c i s) = pDrift P c i s - product P c (f c i) s)%Qc.
Proof. exact omini_residual. Qed.
Print Assumptions C65_phonons_residual.
Theorem C65_electrons_residual : forall P b (f : field) c i s, active P s -> (forall s', 0 <= s' < pN P -> ~ active P s' -> f c i s' = 0%Qc) ->
  pM P c s s <> 0%Qc ->
  (pM P c s s * (ominiNextOmega P b f c i s - f c i s) = b c i s - product P c (f c i) s)%Qc.
Proof. exact omini_residual_omega. Qed.
Print Assumptions C65_electrons_residual.
Theorem C65_fixed_points : forall P k c i, (forall s, active P s -> pM P c s s <> 0%Qc /\ pPop P c s <> 0%Qc) ->
  (forall s, active P s -> ominiIterate P (S k) c i s = ominiIterate P k c i s) <-> solves P c (ominiIterate P k c i) (pDrift P c i).
Proof.
  intros P k c i NZ. split.
  - intros E s H. destruct (NZ s H) as (N & NP).
    pose proof (omini_residual P (ominiIterate P k) c i s H (fun s' Hs => omini_out P k c i s' Hs) N NP) as R.
    specialize (E s H). change (ominiIterate P (S k) c i s) with (ominiNext P (ominiIterate P k) c i s) in E. rewrite E in R. symmetry. apply sub_zero. rewrite <- R. ring.
  - intros S s H. destruct (NZ s H) as (N & NP).
    pose proof (omini_residual P (ominiIterate P k) c i s H (fun s' Hs => omini_out P k c i s' Hs) N NP) as R. rewrite (S s H) in R.
    change (ominiIterate P (Datatypes.S k) c i s) with (ominiNext P (ominiIterate P k) c i s). apply sub_zero, (mult_zero (pM P c s s) _ N). rewrite R. ring.
Qed.
Print Assumptions C65_fixed_points.
(** the starting point solves the system without off-diagonal elements *)
Theorem C65_starting_point : forall P c i s, active P s -> pM P c s s <> 0%Qc -> pPop P c s <> 0%Qc -> (pM P c s s * fRTA P c i s = pDrift P c i s)%Qc.
Proof. intros P c i s H N NP. unfold fRTA, toCanonical, popRTA. rewrite lift2_active by exact H. unfold times. field. split; assumption. Qed.
Print Assumptions C65_starting_point.
(** excluded states stay at zero *)
Theorem C65_excluded : forall P k c i s, 0 <= s < pN P -> ~ active P s -> ominiIterate P k c i s = 0%Qc.
Proof. exact omini_out. Qed.
Print Assumptions C65_excluded.
(** three states, one of them excluded *)
Definition C65_problem : problem := {| pN := 3; pExcl := [1]; pM := fun _ s s' => if s =? s' then Q2Qc 2 else 1%Qc; pPop := fun _ _ => Q2Qc 3;
  pDrift := fun _ _ s => Q2Qc (inject_Z (s + 1)); pVel := fun _ _ => 1%Qc; pEn := fun _ => 1%Qc; pTemp := fun _ => 1%Qc; pNorm := 1%Qc; pCalcs := 1; pDim := 1 |}.
Example C65_ex : active C65_problem 0 /\ ~ active C65_problem 1 /\ active C65_problem 2 /\
  map (fun s => this (ominiIterate C65_problem 1 0 0 s)) [0; 1; 2] = [-1#4; 0; 5#4]%Q.
Proof. unfold active. cbn [pN pExcl C65_problem In]. repeat split; try lia. Qed.

(** C66. If in each row the off-diagonal elements are together at most q times the diagonal one, the distance of the k-th population
    from the solution is at most q^k times the initial one. *)
Theorem C66_convergence_partial : forall P c i q B x, (0 <= B)%Qc -> (0 <= q)%Qc -> dominant P c q ->
  (forall s, active P s -> pM P c s s <> 0%Qc /\ pPop P c s <> 0%Qc) -> solves P c x (pDrift P c i) ->
  (forall s, active P s -> (Qcabs (fRTA P c i s - x s) <= B)%Qc) ->
  forall k s, active P s -> (Qcabs (ominiIterate P k c i s - x s) <= q ^ k * B)%Qc.
Proof. exact omini_converges. Qed.
Print Assumptions C66_convergence_partial.
(** For a symmetric positive definite matrix this may not happen: the distance grows by a factor 3/2 at every step. *)
Theorem C66_divergence_refuted : exists P x, symmetric P 0 /\ positiveDefinite P 0 /\ solves P 0 x (pDrift P 0 0) /\ active P 0 /\
  forall k s, active P s -> Qcabs (ominiIterate P k 0%Z 0%Z s - x s) = (Q2Qc (3#2) ^ k * Q2Qc (3#5))%Qc.
Proof.
  exists (tri q34), (fun _ => q25). split; [exact tri_sym |]. split; [exact tri_pd |]. split; [exact tri_sol |]. split; [apply tri_active; auto | exact tri_diverges].
Qed.
Print Assumptions C66_divergence_refuted.
Example C66_ex : dominant two1 0 (Q2Qc (1#2)) /\ solves two1 0 (fun _ => Q2Qc (1#3)) (pDrift two1 0 0) /\ active two1 1.
Proof.
  split; [| split; [exact two1_sol | apply two1_active; auto]]. intros s H. apply two1_active in H. destruct H as [-> | ->]; vm_compute; discriminate.
Qed.

(** C67. Conjugate gradient. For a symmetric positive definite matrix, from any starting point and for every right-hand side, the
    solution is reached after as many steps as there are states, and kept. *)
Theorem C67_exact : forall P c i (b guess : field), symmetric P c -> positiveDefinite P c -> forall k, (length (activeStates P) <= k)%nat ->
  solves P c (cgF (cgIterate P k (cgStart P b guess)) c i) (b c i).
Proof. intros P c i b guess SYM PD k. now apply run_exact. Qed.
Print Assumptions C67_exact.
(** the vector called residual is b - A f at every step, whatever the matrix *)
Theorem C67_residual : forall P c i (b guess : field) k s, active P s ->
  cgR (cgIterate P k (cgStart P b guess)) c i s = (b c i s - product P c (cgF (cgIterate P k (cgStart P b guess)) c i) s)%Qc.
Proof. exact run_residual. Qed.
Print Assumptions C67_residual.
(** 2 f.b - f.A f grows at every step until the solution is reached, where it is largest *)
Theorem C67_functional_grows : forall P c i (b guess : field), symmetric P c -> positiveDefinite P c -> forall k,
  ~ solves P c (cgF (cgIterate P k (cgStart P b guess)) c i) (b c i) ->
  (functional P c (b c i) (cgF (cgIterate P k (cgStart P b guess)) c i) < functional P c (b c i) (cgF (cgIterate P (S k) (cgStart P b guess)) c i))%Qc.
Proof. intros P c i b guess SYM PD k. now apply run_strict. Qed.
Print Assumptions C67_functional_grows.
Theorem C67_solution_maximises : forall P c i (b : field), symmetric P c -> positiveDefinite P c -> forall x u, solves P c x (b c i) ->
  (functional P c (b c i) u <= functional P c (b c i) x)%Qc.
Proof. intros P c i b SYM PD. exact (functional_bound P c i b SYM PD). Qed.
Print Assumptions C67_solution_maximises.
Theorem C67_solution_unique : forall P c i (b : field), positiveDefinite P c -> forall x y, solves P c x (b c i) -> solves P c y (b c i) ->
  forall s, active P s -> x s = y s.
Proof. intros P c i b PD. exact (unique P c i b PD). Qed.
Print Assumptions C67_solution_unique.
Theorem C67_solution_kept : forall P c i (b guess : field) k, solves P c (cgF (cgIterate P k (cgStart P b guess)) c i) (b c i) -> forall s, active P s ->
  cgF (cgIterate P (S k) (cgStart P b guess)) c i s = cgF (cgIterate P k (cgStart P b guess)) c i s.
Proof. intros P c i b guess k. now apply run_stays. Qed.
Print Assumptions C67_solution_kept.
Example C67_ex : symmetric two1 0 /\ positiveDefinite two1 0 /\ length (activeStates two1) = 2%nat /\
  ~ solves two1 0 (cgF (cgStart two1 (pDrift two1) (fRTA two1)) 0 0) (pDrift two1 0 0) /\
  cgF (cgIterate two1 1 (cgStart two1 (pDrift two1) (fRTA two1))) 0 0 1 = Q2Qc (1#3).
Proof.
  split; [exact two1_sym |]. split; [exact two1_pd |]. split; [reflexivity |]. split; [| apply Qc_is_canon; vm_compute; reflexivity].
  intros H. specialize (H 0 (proj2 (two1_active 0) (or_introl eq_refl))). apply (f_equal this) in H. vm_compute in H. discriminate.
Qed.

(** C68. The two formulas for the conductivity, and what the solvers show. *)
(** at the solution both formulas give the heat flux; the tensor is symmetric with a non-negative diagonal *)
Theorem C68_formulas_agree : forall P c i j f, driftIs P c -> solves P c (f c j) (pDrift P c j) ->
  variational P (adot P f) f (pDrift P) c i j = heatFlux P c (f c i) j /\ fromCanonical P f c i j = heatFlux P c (f c i) j.
Proof. exact exact_conductivity. Qed.
Print Assumptions C68_formulas_agree.
Theorem C68_symmetric : forall P c i j f, driftIs P c -> symmetric P c -> solves P c (f c i) (pDrift P c i) -> solves P c (f c j) (pDrift P c j) ->
  heatFlux P c (f c i) j = heatFlux P c (f c j) i.
Proof. exact exact_symmetric. Qed.
Print Assumptions C68_symmetric.
Theorem C68_positive : forall P c i f, driftIs P c -> positiveDefinite P c -> (0 <= pNorm P)%Qc -> solves P c (f c i) (pDrift P c i) -> (0 <= heatFlux P c (f c i) i)%Qc.
Proof. exact exact_positive. Qed.
Print Assumptions C68_positive.
(** electrons: the diagonal of the tensor shown grows with the iterations and never exceeds that of the solution *)
Theorem C68_electrons_monotone : forall P c i (b guess : field), symmetric P c -> positiveDefinite P c -> (0 <= pNorm P)%Qc -> forall k,
  (cgReportedEl P b (cgIterate P k (cgStart P b guess)) c i i <= cgReportedEl P b (cgIterate P (S k) (cgStart P b guess)) c i i)%Qc /\
  forall x : field, solves P c (x c i) (b c i) -> (cgReportedEl P b (cgIterate P k (cgStart P b guess)) c i i <= variational P (adot P x) x b c i i)%Qc.
Proof.
  intros P c i b guess SYM PD NN k.
  assert (G : forall x y, (x <= y)%Qc -> (pNorm P * pTemp P c * pTemp P c * x <= pNorm P * pTemp P c * pTemp P c * y)%Qc).
  { intros x y H. apply Qcle_sub. replace (_ - _)%Qc with (pNorm P * (pTemp P c * pTemp P c) * (y - x))%Qc by ring.
    apply Qcmult_nonneg; [apply Qcmult_nonneg; [exact NN | apply sq_nonneg] |]. revert H. qcq. lra. }
  unfold cgReportedEl. split.
  - rewrite !reported_diag. apply G. apply (run_monotone P c i b guess SYM PD (S k)).
  - intros x H. rewrite !reported_diag. apply G. now apply (functional_bound P c i b SYM PD).
Qed.
Print Assumptions C68_electrons_monotone.
(** phonons: the tensor shown mixes the populations before and after the step, and can exceed that of the solution *)
Theorem C68_phonons_refuted : exists P (x : field), symmetric P 0 /\ positiveDefinite P 0 /\ driftIs P 0 /\ (0 <= pNorm P)%Qc /\ solves P 0 (x 0 0) (pDrift P 0 0) /\
  (heatFlux P 0%Z (x 0%Z 0%Z) 0%Z < cgReported P (pDrift P) (cgStart P (pDrift P) (fRTA P)) 0%Z 0%Z 0%Z)%Qc /\
  solves P 0 (cgF (cgStep P (cgStart P (pDrift P) (fRTA P))) 0 0) (pDrift P 0 0).
Proof.
  exists two1, (fun _ _ _ => Q2Qc (1#3)). split; [exact two1_sym |]. split; [exact two1_pd |]. split; [exact two1_drift |]. split; [vm_compute; discriminate |].
  split; [exact two1_sol |]. split. { destruct two1_reported as (E1 & E2). rewrite E1. setoid_rewrite E2. vm_compute. reflexivity. }
  intros s H. apply two1_active in H. destruct H as [-> | ->]; apply Qc_is_canon; vm_compute; reflexivity.
Qed.
Print Assumptions C68_phonons_refuted.
(** it is right one step after the solution has been reached *)
Theorem C68_phonons_partial : forall P c i (guess : field) k, symmetric P c -> positiveDefinite P c -> driftIs P c ->
  solves P c (cgF (cgIterate P k (cgStart P (pDrift P) guess)) c i) (pDrift P c i) ->
  cgReported P (pDrift P) (cgIterate P k (cgStart P (pDrift P) guess)) c i i = heatFlux P c (cgF (cgIterate P k (cgStart P (pDrift P) guess)) c i) i.
Proof.
  intros P c i guess k SYM PD DR H. rewrite <- (proj1 (exact_conductivity P c i i (cgF (cgIterate P k (cgStart P (pDrift P) guess))) DR H)).
  unfold cgReported. rewrite !variational_eq, !inner_adot. do 2 f_equal. apply qsum_ext. intros s I. f_equal. apply qsum_ext. intros s' I'. f_equal.
  apply (run_stays P c i (pDrift P) guess k H). now apply in_states.
Qed.
Print Assumptions C68_phonons_partial.
Example C68_ex : driftIs two1 0 /\ (0 <= pNorm two1)%Qc /\ solves two1 0 (cgF (cgIterate two1 1 (cgStart two1 (pDrift two1) (fRTA two1))) 0 0) (pDrift two1 0 0).
Proof.
  split; [exact two1_drift |]. split; [vm_compute; discriminate |]. intros s H. apply two1_active in H. destruct H as [-> | ->]; apply Qc_is_canon; vm_compute; reflexivity.
Qed.

(** C69. The loops of the solvers. A result is that of the first iteration at which the test holds; if it holds at none the run is aborted. *)
Theorem C69_exit : forall (S T : Type) (step : S -> S * T) stop maxIterations s old t, 0 < maxIterations ->
  runSolver step stop maxIterations s old = Ok t <->
  exists k, 0 <= k < maxIterations /\ t = valueAt step s (Z.to_nat k) /\ stop k t (previousAt step s old (Z.to_nat k)) = Ok true /\
    forall j, 0 <= j < k -> stop j (valueAt step s (Z.to_nat j)) (previousAt step s old (Z.to_nat j)) = Ok false.
Proof. intros S T. exact run_ok. Qed.
Print Assumptions C69_exit.
Theorem C69_not_converged : forall (S T : Type) (step : S -> S * T) stop maxIterations s old, 0 < maxIterations ->
  (forall k, 0 <= k < maxIterations -> stop k (valueAt step s (Z.to_nat k)) (previousAt step s old (Z.to_nat k)) = Ok false) ->
  runSolver step stop maxIterations s old = Err.
Proof. intros S T. exact run_fails. Qed.
Print Assumptions C69_not_converged.
(** the test only bounds the component that changed least *)
Theorem C69_test_partial : forall threshold k new old, Forall (fun b => ~ (b == 0)%Q) old -> stopPhonon threshold k new old = Ok true ->
  exists i a b, nth_error new i = Some a /\ nth_error old i = Some b /\ (Qabs ((a - b) / b) < threshold)%Q.
Proof.
  intros threshold k new old NZ H. unfold stopPhonon in H. destruct (findMaxRelativeDifference new old) as [d | |] eqn:E; cbn in H; try discriminate.
  injection H as H. destruct (fmrd_is_min new old d NZ E) as ((i & a & b & Ha & Hb & D) & _). exists i, a, b. split; [exact Ha |]. split; [exact Hb |].
  unfold Qltb in H. rewrite <- D. apply negb_true_iff in H. destruct (Qlt_le_dec d threshold) as [L | L]; [exact L |]. apply Qle_bool_iff in L. congruence.
Qed.
Print Assumptions C69_test_partial.
(** two temperatures: the iteration is stopped when the first has converged, while the second is at less than half of its value *)
Theorem C69_all_components_refuted : exists P t f, solveIterative P (1#100) 50 (tensor P (fromCanonical P (fRTA P))) = Ok t /\
  solves P 1 f (pDrift P 1 0) /\ nth_error t 1 = Some (7#2)%Q /\ this (heatFlux P 1 f 0) = 8%Q.
Proof.
  destruct two2_iterative as (t & E & -> & S & H). exists two2. eexists. exists (fun _ => Q2Qc 4). split; [exact E |]. split; [exact S |]. split; [reflexivity | exact H].
Qed.
Print Assumptions C69_all_components_refuted.
(** with no iterations allowed the starting value is returned as the solution *)
Theorem C69_no_iterations_refuted : forall (S T : Type) (step : S -> S * T) stop maxIterations s old, maxIterations <= 0 -> runSolver step stop maxIterations s old = Ok old.
Proof. intros S T step stop maxIterations s old H. unfold runSolver. now replace (Z.to_nat maxIterations) with 0%nat by lia. Qed.
Print Assumptions C69_no_iterations_refuted.
Example C69_ex : runSolver (fun x : Z => (x / 2, [inject_Z (x / 2)])) (stopPhonon (1#3)) 10 64 [64%Q] = Err /\
  runSolver (fun x : Z => (x + 1, [inject_Z (x + 1)])) (stopPhonon (1#3)) 10 1 [1%Q] = Ok [5%Q] /\
  runSolver (fun x : Z => (x + 1, ([inject_Z (x + 1)], [inject_Z (x + 1)]))) (stopElectron (2#3) 2) 10 1 ([1%Q], [1%Q]) = Ok ([5%Q], [5%Q]).
Proof. repeat split; vm_compute; reflexivity. Qed.
