(** Property theorems for the transport coefficients: C70 (open circuit), C71 (second law), C72 (sums over processes, threads and
    stars), C73 (EPA), C74 (lists of the output), C75 (relaxons), C76 (specific heat), C77 (low dimensions), C78 (some eigenvalues). *)
From Coq Require Import QArith Qcanon Qcabs Permutation.
From Verif Require Import Base M_matrix M_vbte M_onsager S_onsager L_scattering L_onsager L_onsager2.
From Coq Require Import Lia Lqa.
Open Scope Z_scope.

(** C70. For symmetric response tensors (as in the relaxation time approximation, C71), the force opposed by the Seebeck tensor to a
    temperature gradient stops the current, and the heat that then flows is minus the thermal conductivity times the gradient. *)
Theorem C70_open_circuit_partial : forall d o X, isInverse d (LEE o) X -> isSymmetric d (LEE o) -> isSymmetric d (LET o) -> isSymmetric d (LTE o) -> isSymmetric d (LTT o) ->
  forall g j, 0 <= j < d ->
  current d o (counterForce d (seebeckOf d X o) g) g j = 0%Qc /\
  heat d o (counterForce d (seebeckOf d X o) g) g j = (- sumTo d (fun k => kappaOf d X o j k * g k))%Qc.
Proof. exact open_circuit. Qed.
Print Assumptions C70_open_circuit_partial.
(** For populations that solve the BTE exactly (matrix A, forces v and -(E - mu) v) LET need not be symmetric, and the current does not stop. *)
Theorem C70_exact_solution_refuted : exists (states : list irrState) (A : Z -> Z -> Qc) X g,
  (forall s s', 0 <= s < 6 -> 0 <= s' < 6 -> A s s' = A s' s) /\ zlen states = 6 /\
  (forall s st, zget states s = Some st -> forall i, 0 <= i < 3 ->
     sumTo 6 (fun s' => match zget states s' with Some t => A s s' * oNE t i | None => 0 end)%Qc = oVel st i /\
     sumTo 6 (fun s' => match zget states s' with Some t => A s s' * oNT t i | None => 0 end)%Qc = (- (oEn st * oVel st i))%Qc) /\
  isInverse 3 (LEE (fromPopulations 1 0 [[states]])) X /\
  current 3 (fromPopulations 1 0 [[states]]) (counterForce 3 (seebeckOf 3 X (fromPopulations 1 0 [[states]])) g) g 1 <> 0%Qc.
Proof.
  exists ex6, ex6A, ex6X, (vec3 1 0 0). split.
  { intros s s' H H'. assert (G : forall a, 0 <= a < 6 -> a = 0 \/ a = 1 \/ a = 2 \/ a = 3 \/ a = 4 \/ a = 5) by (intros; lia).
    destruct (G s H) as [-> | [-> | [-> | [-> | [-> | ->]]]]], (G s' H') as [-> | [-> | [-> | [-> | [-> | ->]]]]]; reflexivity. }
  split; [reflexivity |]. split.
  { intros s st E i Hi. assert (HS : 0 <= s < 6) by (apply BaseLemmas.zget_Some in E as (E & _); exact E).
    assert (GI : i = 0 \/ i = 1 \/ i = 2) by lia. assert (GS : s = 0 \/ s = 1 \/ s = 2 \/ s = 3 \/ s = 4 \/ s = 5) by lia.
    destruct GS as [-> | [-> | [-> | [-> | [-> | ->]]]]]; injection E as <-; destruct GI as [-> | [-> | ->]]; split; apply Qc_is_canon; vm_compute; reflexivity. }
  split.
  { intros i j Hi Hj. assert (GI : i = 0 \/ i = 1 \/ i = 2) by lia. assert (GJ : j = 0 \/ j = 1 \/ j = 2) by lia.
    destruct GI as [-> | [-> | ->]], GJ as [-> | [-> | ->]]; split; apply Qc_is_canon; vm_compute; reflexivity. }
  intros C. apply (f_equal this) in C. vm_compute in C. discriminate.
Qed.
Print Assumptions C70_exact_solution_refuted.
(** mobility times carrier density is the conductivity *)
Theorem C70_mobility : forall doping o i j, doping <> 0%Qc -> (mobilityOf doping o i j * Qcabs doping = sigmaOf o i j)%Qc.
Proof.
  intros doping o i j N. unfold mobilityOf, sigmaOf. assert (NA : Qcabs doping <> 0%Qc) by (intros E; now apply N, Qcabs_null).
  destruct (Qclt_le_dec 0 (Qcabs doping)) as [L | L]; [field; exact NA |]. exfalso. apply NA, Qcle_antisym; [exact L | apply Qcabs_nonneg].
Qed.
Print Assumptions C70_mobility.

(** two states and their opposites, at energies 1 and -1 from the chemical potential *)
Definition C70_states : list irrState := [
  {| oEn := Q2Qc 1; oVel := vec3 1 0 0; oNE := vec3 1 0 0; oNT := vec3 (-1) 0 0; oRots := [idMat; fun i j => (- idMat i j)%Qc] |};
  {| oEn := Q2Qc (-1); oVel := vec3 2 0 0; oNE := vec3 2 0 0; oNT := vec3 2 0 0; oRots := [idMat] |} ].
Definition C70_inverse : mat := fun _ _ => Q2Qc (1#6).
Example C70_ex : let o := fromPopulations 1 0 [[C70_states]] in
  isInverse 1 (LEE o) C70_inverse /\ isSymmetric 1 (LEE o) /\ isSymmetric 1 (LET o) /\ this (seebeckOf 1 C70_inverse o 0 0) = (1#3)%Q /\ this (kappaOf 1 C70_inverse o 0 0) = (16#3)%Q.
Proof.
  cbv zeta. split; [| split; [| split; [| split; vm_compute; reflexivity]]]; intros i j Hi Hj; replace i with 0 by lia; replace j with 0 by lia; try split; try reflexivity; apply Qc_is_canon; vm_compute; reflexivity.
Qed.

(** C71. Electrons in the relaxation time approximation, any symmetry, any distribution: tensors are symmetric, cross coefficients are
    reciprocal, conductivities are positive semidefinite; carriers of a single energy carry no heat at zero current. *)
Theorem C71_symmetric : forall norm mu T ranks weight, (forall s, In s (concat (concat ranks)) -> rtaPopulations T mu weight s) ->
  let o := fromPopulations norm mu ranks in forall d, isSymmetric d (LEE o) /\ isSymmetric d (LET o) /\ isSymmetric d (LTE o) /\ isSymmetric d (LTT o).
Proof. intros norm mu T ranks weight H. exact (rta_symmetric norm mu T ranks weight H). Qed.
Print Assumptions C71_symmetric.
Theorem C71_reciprocity : forall norm mu T ranks weight, (forall s, In s (concat (concat ranks)) -> rtaPopulations T mu weight s) -> T <> 0%Qc ->
  let o := fromPopulations norm mu ranks in forall i j, LTE o i j = (- (T * LET o j i))%Qc.
Proof. intros norm mu T ranks weight H NT o i j. exact (rta_reciprocity norm mu T ranks weight H i j NT). Qed.
Print Assumptions C71_reciprocity.
Theorem C71_conductivity_positive : forall norm mu T ranks weight, (forall s, In s (concat (concat ranks)) -> rtaPopulations T mu weight s) ->
  (forall s, In s (concat (concat ranks)) -> (0 <= weight s)%Qc) -> (0 <= norm)%Qc ->
  forall d e, (0 <= sumTo d (fun i => sumTo d (fun j => e i * sigmaOf (fromPopulations norm mu ranks) i j * e j)))%Qc.
Proof. intros norm mu T ranks weight H W NN. exact (sigma_psd norm mu T ranks weight H W NN). Qed.
Print Assumptions C71_conductivity_positive.
Theorem C71_thermal_conductivity_positive : forall norm mu T ranks weight, (forall s, In s (concat (concat ranks)) -> rtaPopulations T mu weight s) ->
  (forall s, In s (concat (concat ranks)) -> (0 <= weight s)%Qc) -> (0 <= norm)%Qc -> (0 < T)%Qc ->
  forall d X g, isInverse d (LEE (fromPopulations norm mu ranks)) X ->
  (0 <= sumTo d (fun i => sumTo d (fun j => g i * kappaOf d X (fromPopulations norm mu ranks) i j * g j)))%Qc.
Proof. intros norm mu T ranks weight H W NN PT d X g INV. exact (kappa_psd norm mu T ranks weight H W NN d X g PT INV). Qed.
Print Assumptions C71_thermal_conductivity_positive.
Theorem C71_single_energy : forall norm mu T ranks weight d X e, (forall s, In s (concat (concat ranks)) -> rtaPopulations T mu weight s) -> T <> 0%Qc ->
  isInverse d (LEE (fromPopulations norm mu ranks)) X -> (forall s, In s (concat (concat ranks)) -> oEn s = e) ->
  forall i j, 0 <= i < d -> 0 <= j < d -> kappaOf d X (fromPopulations norm mu ranks) i j = 0%Qc.
Proof. exact single_energy. Qed.
Print Assumptions C71_single_energy.
(** phonons *)
Theorem C71_phonons_symmetric : forall norm ranks weight, (forall s, In s (map snd (filter (fun q => negb (fst q)) (concat (concat ranks)))) -> forall i, 0 <= i < 3 -> oNT s i = (weight s * oEn s * oVel s i)%Qc) ->
  forall i j, heatConductivity norm ranks i j = heatConductivity norm ranks j i.
Proof. exact heat_rta_symmetric. Qed.
Print Assumptions C71_phonons_symmetric.
Theorem C71_phonons_positive : forall norm ranks weight, (forall s, In s (map snd (filter (fun q => negb (fst q)) (concat (concat ranks)))) -> forall i, 0 <= i < 3 -> oNT s i = (weight s * oEn s * oVel s i)%Qc) ->
  forall d e, (0 <= norm)%Qc -> (forall s, In s (map snd (filter (fun q => negb (fst q)) (concat (concat ranks)))) -> (0 <= weight s)%Qc) ->
  (0 <= sumTo d (fun i => sumTo d (fun j => e i * heatConductivity norm ranks i j * e j)))%Qc.
Proof. exact heat_rta_psd. Qed.
Print Assumptions C71_phonons_positive.
Example C71_ex : (forall s, In s (concat (concat [[C70_states]])) -> rtaPopulations 1 0 (fun _ => 1%Qc) s) /\ isInverse 1 (LEE (fromPopulations 1 0 [[C70_states]])) C70_inverse.
Proof.
  split; [| exact (proj1 C70_ex)]. intros s I i Hi. assert (GI : i = 0 \/ i = 1 \/ i = 2) by lia.
  destruct I as [<- | [<- | []]]; destruct GI as [-> | [-> | ->]]; split; apply Qc_is_canon; vm_compute; reflexivity.
Qed.

(** C72. The coefficients are the sums over all states of the zone (every state with every rotation of its star) of population times
    velocity times energies, however the irreducible states are shared between processes and threads. *)
Theorem C72_electrons : forall norm mu ranks i j, let F := fullStates ranks in let o := fromPopulations norm mu ranks in
  LEE o i j = qsum (map (fun p => rotated (snd p) (oNE (fst p)) i * rotated (snd p) (oVel (fst p)) j * norm)%Qc F) /\
  LET o i j = qsum (map (fun p => rotated (snd p) (oNT (fst p)) i * rotated (snd p) (oVel (fst p)) j * norm)%Qc F) /\
  LTE o i j = qsum (map (fun p => rotated (snd p) (oNE (fst p)) i * rotated (snd p) (oVel (fst p)) j * (oEn (fst p) - mu) * norm)%Qc F) /\
  LTT o i j = qsum (map (fun p => rotated (snd p) (oNT (fst p)) i * rotated (snd p) (oVel (fst p)) j * (oEn (fst p) - mu) * norm)%Qc F).
Proof. exact fromPopulations_sums. Qed.
Print Assumptions C72_electrons.
Theorem C72_distribution_independent : forall norm mu ranks ranks' i j, Permutation (concat (concat ranks)) (concat (concat ranks')) ->
  let o := fromPopulations norm mu ranks in let o' := fromPopulations norm mu ranks' in
  LEE o i j = LEE o' i j /\ LET o i j = LET o' i j /\ LTE o i j = LTE o' i j /\ LTT o i j = LTT o' i j.
Proof.
  intros norm mu ranks ranks' i j P o o'. destruct (fromPopulations_sums norm mu ranks i j) as (A & B & C & D), (fromPopulations_sums norm mu ranks' i j) as (A' & B' & C' & D').
  fold o in A, B, C, D. fold o' in A', B', C', D'. assert (Q : Permutation (fullStates ranks) (fullStates ranks')) by (apply Permutation_flat_map; exact P).
  rewrite A, B, C, D, A', B', C', D'. repeat split; apply L_matrix2.qsum_perm, Permutation_map, Q.
Qed.
Print Assumptions C72_distribution_independent.
Theorem C72_phonons : forall norm ranks i j, heatConductivity norm ranks i j =
  qsum (map (fun p => rotated (snd p) (oNT (fst p)) i * rotated (snd p) (oVel (fst p)) j * oEn (fst p) * norm)%Qc
    (flat_map (fun s => map (fun r => (s, r)) (oRots s)) (map snd (filter (fun q => negb (fst q)) (concat (concat ranks)))))).
Proof. exact heat_sum. Qed.
Print Assumptions C72_phonons.
(** in three dimensions the views address each number of the buffers once, where the tensors have it *)
Theorem C72_views : forall numCalc, 0 <= numCalc -> (exists l, viewWrites numCalc 3 = Ok l /\ NoDup l) /\ forall c i j, viewOffset numCalc c i j = bufferOffset numCalc 3 c i j.
Proof. intros numCalc H. split; [now apply view_three | reflexivity]. Qed.
Print Assumptions C72_views.
Example C72_ex : this (LEE (fromPopulations 1 0 [[[]; C70_states]; []]) 0 0) = 6%Q /\ length (fullStates [[[]; C70_states]; []]) = 3%nat.
Proof. split; [vm_compute; reflexivity | reflexivity]. Qed.

(** C77. In one and two dimensions the electron code writes outside of its buffers. *)
Theorem C77_low_dimensions_refuted : forall numCalc d, 0 < numCalc -> 0 <= d < 3 -> viewWrites numCalc d = UB.
Proof. exact view_low. Qed.
Print Assumptions C77_low_dimensions_refuted.
Example C77_ex : 0 < 1 /\ 0 <= 2 < 3 /\ viewWrites 1 2 = UB.
Proof. split; [lia | split; [lia | vm_compute; reflexivity]]. Qed.

(** C73. EPA. The coefficients are sums over the energy bins kept. *)
Theorem C73_sums_partial : forall factor step temp bins i j, temp <> 0%Qc -> let o := fromEPA factor step temp bins in
  let K := filter (fun b => negb (skipped b)) bins in let term := fun b => (bVel b i j / bRate b * factor * bPop b * step)%Qc in
  LEE o i j = qsum (map (fun b => term b / temp)%Qc K) /\ LET o i j = qsum (map (fun b => - (term b * bEn b / (temp * temp)))%Qc K) /\
  LTT o i j = qsum (map (fun b => - (term b * (bEn b * bEn b) / (temp * temp)))%Qc K).
Proof. intros factor step temp bins i j NT. destruct (fromEPA_sums factor step temp bins i j NT) as (A & B & _ & D). exact (conj A (conj B D)). Qed.
Print Assumptions C73_sums_partial.
(** the heat carried by the response to a force has the wrong sign: LTE is + T LET instead of - T LET (C71) *)
Theorem C73_reciprocity_refuted : forall factor step temp bins i j, temp <> 0%Qc -> let o := fromEPA factor step temp bins in LTE o i j = (temp * LET o i j)%Qc.
Proof. exact epa_reciprocity. Qed.
Print Assumptions C73_reciprocity_refuted.
(** so that carriers of a single energy conduct heat at zero current *)
Theorem C73_single_energy_refuted : exists b X, isInverse 1 (LEE (fromEPA 1 1 1 [b])) X /\ skipped b = false /\ bEn b <> 0%Qc /\
  kappaOf 1 X (fromEPA 1 1 1 [b]) 0 0 = (Q2Qc 2 * (bEn b * bEn b))%Qc.
Proof.
  exists {| bVel := fun _ _ => 1%Qc; bRate := 1%Qc; bPop := 1%Qc; bEn := Q2Qc 3 |}, (fun _ _ => 1%Qc). split.
  { intros i j Hi Hj. replace i with 0 by lia. replace j with 0 by lia. split; apply Qc_is_canon; vm_compute; reflexivity. }
  split; [vm_compute; reflexivity |]. split; [vm_compute; discriminate |]. apply Qc_is_canon. vm_compute. reflexivity.
Qed.
Print Assumptions C73_single_energy_refuted.
Example C73_ex : this (LEE (fromEPA 1 1 (Q2Qc 2) [{| bVel := fun _ _ => 1%Qc; bRate := 1%Qc; bPop := 1%Qc; bEn := 1%Qc |}; {| bVel := fun _ _ => 1%Qc; bRate := 0%Qc; bPop := 1%Qc; bEn := 1%Qc |}]) 0 0) = (1#2)%Q.
Proof. vm_compute. reflexivity. Qed.

(** C74. Lists of the output. With all dopings different from zero every list has the entry of calculation n in position n. *)
Theorem C74_lists_partial : forall l, (forall c, In c l -> kDoping c <> 0%Qc) -> jsonMobility l = map kMobility l /\ jsonTemperatures l = map kTemp l /\ jsonSigma l = map kSigma l.
Proof.
  intros l H. split; [| split; reflexivity]. rewrite json_mobility. f_equal. apply L_mpi.filter_all. intros c I. destruct (Qc_eq_dec (kDoping c) 0); [exfalso; now apply (H c I) | reflexivity].
Qed.
Print Assumptions C74_lists_partial.
(** otherwise the list of mobilities skips calculations: its first entry belongs to the second temperature *)
Theorem C74_mobility_refuted : exists c0 c1, jsonTemperatures [c0; c1] = [kTemp c0; kTemp c1] /\ jsonMobility [c0; c1] = [kMobility c1] /\ kMobility c0 0 0 <> kMobility c1 0 0.
Proof.
  exists {| kDoping := 0%Qc; kTemp := 1%Qc; kSigma := fun _ _ => 1%Qc; kMobility := fun _ _ => 1%Qc; kKappa := fun _ _ => 1%Qc; kSeebeck := fun _ _ => 1%Qc |},
    {| kDoping := 1%Qc; kTemp := Q2Qc 2; kSigma := fun _ _ => 1%Qc; kMobility := fun _ _ => Q2Qc 2; kKappa := fun _ _ => 1%Qc; kSeebeck := fun _ _ => 1%Qc |}.
  split; [reflexivity |]. split; [rewrite json_mobility; reflexivity | vm_compute; discriminate].
Qed.
Print Assumptions C74_mobility_refuted.
Example C74_ex : exists c, kDoping c <> 0%Qc /\ length (jsonMobility [c; c]) = 2%nat.
Proof.
  exists {| kDoping := 1%Qc; kTemp := Q2Qc 2; kSigma := fun _ _ => 1%Qc; kMobility := fun _ _ => Q2Qc 2; kKappa := fun _ _ => 1%Qc; kSeebeck := fun _ _ => 1%Qc |}.
  split; [vm_compute; discriminate | reflexivity].
Qed.

(** C75. Relaxons. From orthonormal eigenvectors with positive eigenvalues of a matrix A, however the matrix of eigenvectors is shared
    between processes, the populations solve A u = b. *)
Theorem C75_solution : forall n (A theta : mat) ev (b : Z -> Qc) ranks, zlen ev = n -> Permutation (concat ranks) (list_prod (zrange 0 n) (zrange 0 n)) ->
  (forall s a, 0 <= s < n -> 0 <= a < n -> sumTo n (fun s' => A s s' * theta s' a)%Qc = (eig ev a * theta s a)%Qc) ->
  (forall s s', 0 <= s < n -> 0 <= s' < n -> sumTo n (fun a => theta s a * theta s' a)%Qc = (if s =? s' then 1 else 0)%Qc) ->
  (forall a, 0 <= a < n -> (0 < eig ev a)%Qc) ->
  exists u, fromRelaxons theta ev b ranks = Ok u /\ forall s, 0 <= s < n -> sumTo n (fun s' => A s s' * u s')%Qc = b s.
Proof. exact relaxons_solve. Qed.
Print Assumptions C75_solution.
Example C75_ex : let theta := fun s a : Z => Q2Qc (if (s =? 1) && (a =? 1) then -3#5 else if s =? a then 3#5 else 4#5) in
  sumTo 2 (fun a => theta 0%Z a * theta 0%Z a)%Qc = 1%Qc /\ sumTo 2 (fun a => theta 0%Z a * theta 1%Z a)%Qc = 0%Qc /\ sumTo 2 (fun a => theta 1%Z a * theta 1%Z a)%Qc = 1%Qc /\
  Permutation (concat [[(0, 1); (1, 1)]; []; [(0, 0); (1, 0)]]) (list_prod (zrange 0 2) (zrange 0 2)).
Proof.
  cbv zeta. split; [apply Qc_is_canon; vm_compute; reflexivity |]. split; [apply Qc_is_canon; vm_compute; reflexivity |]. split; [apply Qc_is_canon; vm_compute; reflexivity |].
  cbn. apply Permutation_sym. apply perm_trans with [(0, 1); (0, 0); (1, 0); (1, 1)]; [apply perm_swap |]. apply perm_skip.
  apply perm_trans with [(0, 0); (1, 1); (1, 0)]; [apply perm_skip, perm_swap | apply perm_swap].
Qed.

(** C76. Specific heat: the sum over all states of the zone (each irreducible state as many times as its star has points) of
    |dn/dT| |E - mu|, not of phonons below the cutoff, for any sharing between threads; never negative. *)
Theorem C76_sum : forall phonon cutoff norm mu chunks, specificHeat phonon cutoff norm mu chunks =
  qsum (map (fun s => if phonon && (if Qclt_le_dec (fst (fst s)) cutoff then true else false) then 0%Qc
    else (Qcabs (snd (fst s)) * Qcabs (fst (fst s) - mu) * norm * Q2Qc (inject_Z (snd s)))%Qc) (concat chunks)).
Proof. intros. rewrite specificHeat_sum. apply qsum_ext. intros ((en & dndt) & star) _. reflexivity. Qed.
Print Assumptions C76_sum.
Theorem C76_positive : forall phonon cutoff norm mu chunks, (0 <= norm)%Qc -> (forall s, In s (concat chunks) -> 0 <= snd s) -> (0 <= specificHeat phonon cutoff norm mu chunks)%Qc.
Proof. exact specificHeat_nonneg. Qed.
Print Assumptions C76_positive.
Example C76_ex : this (specificHeat true (Q2Qc (1#10)) 1 0 [[(Q2Qc (1#20), Q2Qc 5, 1)]; [(Q2Qc 2, Q2Qc 3, 4)]]) = 24%Q.
Proof. vm_compute. reflexivity. Qed.
(** C78. If only some eigenvalues were computed, the list of eigenvalues is read out of range *)
Theorem C78_some_eigenvalues_refuted : forall theta ev b ranks p, In p (concat ranks) -> zlen ev <= snd p -> (forall q, In q (concat ranks) -> 0 <= snd q) ->
  fromRelaxons theta ev b ranks = UB.
Proof. exact fromRelaxons_missing. Qed.
Print Assumptions C78_some_eigenvalues_refuted.
Example C78_ex : In (0, 1) (concat [[(0, 0); (0, 1)]]) /\ zlen [1%Qc] <= snd (0, 1) /\ fromRelaxons (fun _ _ => 1%Qc) [1%Qc] (fun _ => 1%Qc) [[(0, 0); (0, 1)]] = UB.
Proof. split; [now right; left |]. split; [vm_compute; discriminate | vm_compute; reflexivity]. Qed.
