(** Viscosity: C120-C125. *)
From Coq Require Import Reals Permutation.
From Verif Require Import Base BaseLemmas M_complex M_phonon L_phonon M_particle L_particle M_wte S_wte L_wte M_visc S_visc L_visc L_visc2.
From Coq Require Import Lia Lra.
Open Scope Z_scope.

(** * C120: the viscosity in the relaxation time approximation *)
(** one term per state of the full zone; phonons that are excluded or below the cutoff do not count *)
Theorem C120_phonons ws cut kBT N V ranks i j k l : phononRTA ws cut kBT N V ranks i j k l =
  rsum (map (fun sr => flux ws sr i j * flux ws sr k l * (sPop (fst sr) * sTau (fst sr) / kBT * (1 / N / V)))%R
    (zoneStates (fun s => negb (sExcl s) && negb (rltb (sEn s) cut)) ranks)).
Proof.
  unfold phononRTA. rewrite rta_formula. f_equal. f_equal. unfold zoneStates. f_equal. apply filter_ext. intro s. unfold skipPh. now rewrite Bool.negb_orb.
Qed.
Theorem C120_electrons ws spin kBT N V ranks i j k l : electronRTA ws spin kBT N V ranks i j k l =
  rsum (map (fun sr => flux ws sr i j * flux ws sr k l * (sPop (fst sr) * sTau (fst sr) / kBT * (spin / N / V)))%R (zoneStates (fun _ => true) ranks)).
Proof. unfold electronRTA. apply rta_formula. Qed.
(** pairs of indices, the two momenta or the two velocities can be exchanged *)
Theorem C120_symmetric ws cut spin kBT N V ranks : forall t, t = phononRTA ws cut kBT N V ranks \/ t = electronRTA ws spin kBT N V ranks ->
  forall i j k l, t i j k l = t k l i j /\ t i j k l = t k j i l /\ t i j k l = t i l k j.
Proof. intros t [-> | ->] i j k l; apply rta_sym. Qed.
(** no flow decreases the entropy *)
Theorem C120_nonneg ws cut spin kBT N V ranks : (0 < spin)%R -> (0 < kBT)%R -> (0 < N)%R -> (0 < V)%R ->
  (forall s, In s (concat (concat ranks)) -> 0 <= sPop s /\ 0 <= sTau s)%R ->
  forall t, t = phononRTA ws cut kBT N V ranks \/ t = electronRTA ws spin kBT N V ranks -> forall x, (0 <= form4 t x)%R.
Proof.
  intros Hs Hk HN HV H t Ht x.
  assert (K : forall c s, (0 < c)%R -> In s (concat (concat ranks)) -> (0 <= sPop s * sTau s / kBT * (c / N / V))%R).
  { intros c s Hc Hin. destruct (H s Hin). unfold Rdiv. assert (0 < / kBT)%R by now apply Rinv_0_lt_compat. assert (0 < / N)%R by now apply Rinv_0_lt_compat.
    assert (0 < / V)%R by now apply Rinv_0_lt_compat. repeat apply Rmult_le_pos; lra. }
  destruct Ht as [-> | ->]; apply rta_nonneg; intros s Hin _; apply K; try assumption; lra.
Qed.
(** a symmetry of the states is a symmetry of the tensor *)
Theorem C120_rotation ws cut spin kBT N V ranks P :
  let keepPh := fun s => negb (skipPh cut s) in
  (forall zone', Permutation (zoneStates keepPh ranks) zone' -> Forall2 (Rotated ws P) (zoneStates keepPh ranks) zone' ->
    forall i j k l, inDir i -> inDir j -> inDir k -> inDir l -> frame4 P (phononRTA ws cut kBT N V ranks) i j k l = phononRTA ws cut kBT N V ranks i j k l) /\
  (forall zone', Permutation (zoneStates (fun _ => true) ranks) zone' -> Forall2 (Rotated ws P) (zoneStates (fun _ => true) ranks) zone' ->
    forall i j k l, inDir i -> inDir j -> inDir k -> inDir l -> frame4 P (electronRTA ws spin kBT N V ranks) i j k l = electronRTA ws spin kBT N V ranks i j k l).
Proof.
  split; intros zone' HP HF i j k l; [apply (rta_frame ws (skipPh cut) kBT (1 / N / V)%R ranks P zone' HP HF)|apply (rta_frame ws skipEl kBT (spin / N / V)%R ranks P zone' HP HF)].
Qed.
(** any distribution of the states over processes and threads *)
Theorem C120_processes ws cut spin kBT N V ranks ranks' : Permutation (concat (concat ranks)) (concat (concat ranks')) ->
  forall i j k l, phononRTA ws cut kBT N V ranks i j k l = phononRTA ws cut kBT N V ranks' i j k l /\ electronRTA ws spin kBT N V ranks i j k l = electronRTA ws spin kBT N V ranks' i j k l.
Proof. intros H i j k l. split; apply rta_processes; exact H. Qed.
Print Assumptions C120_phonons.
Print Assumptions C120_electrons.
Print Assumptions C120_symmetric.
Print Assumptions C120_nonneg.
Print Assumptions C120_rotation.
Print Assumptions C120_processes.
(** two processes, three states; inversion as a symmetry *)
Definition v1 (x y z : R) : vec := fun i => if i =? 0 then x else if i =? 1 then y else z.
Definition idR : Z -> Z -> R := fun i j => if i =? j then 1%R else 0%R.
Definition invR : Z -> Z -> R := fun i j => if i =? j then (-1)%R else 0%R.
Definition exState : vState := {| sEn := 1; sQ := v1 1 2 3; sV := v1 2 1 1; sPop := 1; sTau := 2; sExcl := false; sRots := [idR; invR] |}.
Definition exSkip : vState := {| sEn := 0; sQ := v1 0 0 0; sV := v1 2 1 1; sPop := 1; sTau := 2; sExcl := true; sRots := [idR] |}.
Example C120_ex : phononRTA (fun q => q) (1 / 10) 1 1 1 [[[exState]]; [[exSkip]]] 0 1 0 1 = 4%R /\
  exists zone', Permutation (zoneStates (fun s => negb (skipPh (1 / 10) s)) [[[exState]]; [[exSkip]]]) zone' /\ zone' <> [] /\
    Forall2 (Rotated (fun q => q) invR) (zoneStates (fun s => negb (skipPh (1 / 10) s)) [[[exState]]; [[exSkip]]]) zone'.
Proof.
  assert (ZS : zoneStates (fun s => negb (skipPh (1 / 10) s)) [[[exState]]; [[exSkip]]] = [(exState, idR); (exState, invR)]).
  { unfold zoneStates. cbn [concat app filter]. replace (skipPh (1 / 10) exState) with false by (unfold skipPh; cbn; symmetry; apply rltb_ge; lra). reflexivity. }
  split.
  - rewrite C120_phonons. transitivity (rsum (map (fun sr => flux (fun q => q) sr 0 1 * flux (fun q => q) sr 0 1 * (sPop (fst sr) * sTau (fst sr) / 1 * (1 / 1 / 1)))%R [(exState, idR); (exState, invR)])).
    { f_equal. f_equal. rewrite <- ZS. unfold zoneStates. f_equal; try reflexivity; try (apply filter_ext; intro s; unfold skipPh; now rewrite Bool.negb_orb). }
    cbn [map]. rewrite !rsum_cons. change (rsum []) with 0%R. unfold flux, image, over3, idR, invR. cbn [fst snd exState sQ sV sPop sTau]. unfold v1. cbn [Z.eqb Pos.eqb]. field.
  - exists [(exState, invR); (exState, idR)]. rewrite ZS. split; [apply perm_swap|]. split; [discriminate|].
    assert (A : forall r r', (r = idR /\ r' = invR) \/ (r = invR /\ r' = idR) -> Rotated (fun q => q) invR (exState, r) (exState, r')).
    { intros r r' H. split; [reflexivity|]. intros i Hi. assert (i = 0 \/ i = 1 \/ i = 2) as Hc by (unfold inDir in Hi; lia).
      destruct H as [[-> ->] | [-> ->]]; destruct Hc as [-> | [-> | ->]]; unfold image, over3, invR, idR; cbn [fst snd exState sQ sV]; unfold v1; cbn [Z.eqb Pos.eqb]; split; ring. }
    constructor; [apply A; now left|]. constructor; [apply A; now right|constructor].
Qed.

(** * C121: eigenvectors of energy, charge and momentum conservation *)
Theorem C121_energy g S ranks : physical g S -> ownedStates (vn S) ranks ->
  (0 < total (vn S) (fun is => if acoustic g S is then 0 else vPop S is * (vEn S is - gMu g) * (vEn S is - gMu g)))%R ->
  exists th, (forall is, 0 <= is < vn S -> theta0 g S ranks is = Some (th is)) /\ unitAlong g S (fun is => vEn S is - gMu g)%R th.
Proof. intros (H1 & H2 & H3 & H4 & H5 & H6) Hr Hp. destruct (theta0_unit g S ranks Hr H6 H1 H2 H3 H4 H5 Hp) as (th & A & B). exists th. split; assumption. Qed.
Theorem C121_charge g S ranks : physical g S -> ownedStates (vn S) ranks -> gPh g = false -> (0 < total (vn S) (vPop S))%R ->
  exists th, (forall is, 0 <= is < vn S -> thetaE g S ranks is = Some (th is)) /\ unitAlong g S (fun _ => 1%R) th.
Proof.
  intros (H1 & H2 & H3 & H4 & H5 & H6) Hr He Hp. destruct (thetaE_unit g S ranks Hr H6 H1 H2 H4 H5 He Hp) as (th & A & B & c & C & D). exists th. split; [exact A|]. split; [exact B|].
  exists c. split; [exact C|]. intros is His. rewrite D by assumption. unfold acoustic. rewrite He. cbn. ring.
Qed.
Theorem C121_momentum g S ranks i : physical g S -> ownedStates (vn S) ranks ->
  (0 < total (vn S) (fun is => if acoustic g S is then 0 else vPop S is * vK S is i * vK S is i))%R ->
  exists th, (forall is, 0 <= is < vn S -> phi g S ranks i is = Some (th is)) /\ unitAlong g S (fun is => vK S is i) th.
Proof. intros (H1 & H2 & H3 & H4 & H5 & H6) Hr Hp. destruct (phi_unit g S ranks Hr H6 H1 H2 H4 H5 i Hp) as (th & A & B). exists th. split; assumption. Qed.
(** energy and momentum are orthogonal when each state has a partner of the same energy and opposite wavevector *)
Theorem C121_orthogonal g S ranks i partner t p : ownedStates (vn S) ranks -> Permutation (map partner (zrange 0 (vn S))) (zrange 0 (vn S)) ->
  (forall is, 0 <= is < vn S -> vEn S (partner is) = vEn S is /\ vPop S (partner is) = vPop S is /\ vK S (partner is) i = (- vK S is i)%R) ->
  (forall is, 0 <= is < vn S -> theta0 g S ranks is = Some (t is)) -> (forall is, 0 <= is < vn S -> phi g S ranks i is = Some (p is)) ->
  total (vn S) (fun is => t is * p is)%R = 0%R.
Proof. intros Hr. apply (theta0_phi_orthogonal g S ranks Hr i partner t p). Qed.
(** one wavevector along a direction: the momentum eigenvector is not a number *)
Theorem C121_flat_refuted g S ranks i : ownedStates (vn S) ranks -> (forall is, 0 <= is < vn S -> acoustic g S is = true \/ vK S is i = 0%R) ->
  forall is, phi g S ranks i is = None.
Proof. intro Hr. apply (phi_flat g S ranks Hr i). Qed.
Print Assumptions C121_energy.
Print Assumptions C121_charge.
Print Assumptions C121_momentum.
Print Assumptions C121_orthogonal.
Print Assumptions C121_flat_refuted.
(** two electron states with opposite wavevectors along the first direction, on two processes *)
Definition exSet : setting := {| gPh := false; gCut := 0; gSpin := 2; gVol := 1; gN := 2; gkBT := 1; gT := 1; gMu := 0 |}.
Definition exSys : system := {| vn := 2; vEn := fun _ => 1%R; vPop := fun _ => 1%R; vK := fun is => v1 (if is =? 0 then 1 else -1) 0 0; vVel := fun is => v1 (if is =? 0 then 1 else -1) 0 0 |}.
Example C121_ex : physical exSet exSys /\ ownedStates 2 [[1]; [0]] /\
  (0 < total 2 (fun is => if acoustic exSet exSys is then 0 else vPop exSys is * (vEn exSys is - gMu exSet) * (vEn exSys is - gMu exSet)))%R /\
  (0 < total 2 (vPop exSys))%R /\ (0 < total 2 (fun is => if acoustic exSet exSys is then 0 else vPop exSys is * vK exSys is 0%Z * vK exSys is 0%Z))%R /\
  Permutation (map (fun is => 1 - is) (zrange 0 2)) (zrange 0 2) /\ (forall is, 0 <= is < 2 -> vK exSys (1 - is) 0 = (- vK exSys is 0%Z)%R) /\
  (forall is, 0 <= is < 2 -> vK exSys is 1 = 0%R).
Proof.
  split; [repeat split; cbn; intros; lra|]. split; [apply perm_swap|].
  split; [unfold total; change (zrange 0 2) with [0; 1]; cbn; lra|]. split; [unfold total; change (zrange 0 2) with [0; 1]; cbn; lra|].
  split; [unfold total; change (zrange 0 2) with [0; 1]; cbn; lra|]. split; [apply perm_swap|]. split; [|reflexivity].
  intros is His. assert (is = 0 \/ is = 1) as [-> | ->] by lia; cbn; ring.
Qed.

(** * C122: the relaxon of a conserved quantity *)
Theorem C122_search n locals vecs theta : 10 <= n -> ownedPairs n locals -> exists a, findSpecial n locals vecs theta = Ok a /\
  ((a = -1 /\ forall g, 0 <= g < n -> (overlap n vecs theta g < 3 / 4)%R) \/
   (0 <= a < n /\ (3 / 4 <= overlap n vecs theta a)%R /\ forall g, 0 <= g < n -> (overlap n vecs theta g <= overlap n vecs theta a)%R /\ (g < a -> (overlap n vecs theta g < overlap n vecs theta a)%R))).
Proof. apply findSpecial_spec. Qed.
(** an exact eigenvector is found whatever its sign *)
Theorem C122_exact n locals vecs theta a s : 10 <= n -> ownedPairs n locals -> orthonormal n vecs -> 0 <= a < n ->
  (s = 1 \/ s = -1)%R -> (forall is, 0 <= is < n -> theta is = (s * vecs is a)%R) -> findSpecial n locals vecs theta = Ok a.
Proof. apply findSpecial_column. Qed.
(** at most one relaxon passes the threshold *)
Theorem C122_unique n vecs theta a b : orthonormal n vecs -> total n (fun is => theta is * theta is)%R = 1%R -> 0 <= a < n -> 0 <= b < n ->
  (3 / 4 <= overlap n vecs theta a)%R -> (3 / 4 <= overlap n vecs theta b)%R -> a = b.
Proof. apply threshold_unique. Qed.
(** fewer than ten relaxons, or fewer relaxons than states: memory out of bounds *)
Theorem C122_few_refuted n nr locals vecs theta : 0 < n -> nr < n \/ (nr = n /\ n < 10) -> ownedPairs n locals -> findSpecial nr locals vecs theta = UB.
Proof. intros H1 H2 H3. now apply (findSpecial_few locals n). Qed.
Print Assumptions C122_search.
Print Assumptions C122_exact.
Print Assumptions C122_unique.
Print Assumptions C122_few_refuted.
(** twelve states on two processes; the eigenvectors are the states *)
Definition halves (n : Z) : list (list (Z * Z)) := [list_prod (zrange 0 (n / 2)) (zrange 0 n); list_prod (zrange (n / 2) (n - n / 2)) (zrange 0 n)].
Lemma diagonal_orthonormal n : orthonormal n diagonalVecs.
Proof.
  intros a b Ha Hb. rewrite (diagonal_total n (fun is => diagonalVecs is a) b Hb). unfold diagonalVecs. now rewrite Z.eqb_sym.
Qed.
Example C122_ex : ownedPairs 12 (halves 12) /\ orthonormal 12 diagonalVecs /\ findSpecial 12 (halves 12) diagonalVecs (fun is => if is =? 7 then (-1)%R else 0%R) = Ok 7.
Proof.
  assert (O : ownedPairs 12 (halves 12)) by apply Permutation_refl.
  split; [exact O|]. split; [apply diagonal_orthonormal|].
  apply (C122_exact 12 (halves 12) diagonalVecs _ 7 (-1)%R); try lia; try assumption; try apply diagonal_orthonormal; [now right|].
  intros is _. unfold diagonalVecs. destruct (is =? 7); ring.
Qed.

(** * C123: phonon viscosity from the relaxons *)
Theorem C123_one numCalc nr locals shares S ph A vecs lam alpha0 : 1 < numCalc -> phononRelaxons numCalc nr locals shares S ph A vecs lam alpha0 = Err.
Proof. intro H. unfold phononRelaxons. apply Z.ltb_lt in H. now rewrite H. Qed.
Theorem C123_symmetric numCalc nr locals shares S ph A vecs lam alpha0 t : phononRelaxons numCalc nr locals shares S ph A vecs lam alpha0 = Ok t ->
  forall i j k l, t i j k l = t k l i j /\ t i j k l = t i l k j.
Proof. apply phononRelaxons_sym. Qed.
(** a wave of polarisation u along d is damped *)
Theorem C123_damping numCalc nr locals shares S ph A vecs lam alpha0 t u d : phononRelaxons numCalc nr locals shares S ph A vecs lam alpha0 = Ok t ->
  (forall i, inDir i -> (0 <= A i)%R) -> (0 <= form4 t (fun i j => u i * d j))%R.
Proof. apply phononRelaxons_dyad. Qed.
Theorem C123_processes nr S ph A vecs lam alpha0 locals locals' shares shares' :
  Permutation (concat locals) (concat locals') -> Permutation (concat shares) (concat shares') -> forall t t',
  phononRelaxons 1 nr locals shares S ph A vecs lam alpha0 = Ok t -> phononRelaxons 1 nr locals' shares' S ph A vecs lam alpha0 = Ok t' -> forall i j k l, t i j k l = t' i j k l.
Proof. apply phononRelaxons_processes. Qed.
(** momentum eigenvectors of C121 *)
Definition drift (S : system) (kBT N V : R) (A : Z -> R) (i is : Z) : R := (vK S is i * sqrt (vPop S is) / sqrt (kBT * V * N * A i))%R.
(** relaxons that are the states: longitudinal components agree with the relaxation time approximation *)
Theorem C123_longitudinal locals shares S A kBT N V tau t i : ownedPairs (vn S) locals -> ownedStates (vn S) shares ->
  (forall is, 0 <= is < vn S -> (0 < tau is)%R /\ (0 <= vPop S is)%R) -> (0 < kBT)%R -> (0 < N)%R -> (0 < V)%R -> (0 < A i)%R ->
  phononRelaxons 1 (vn S) locals shares S (drift S kBT N V A) A diagonalVecs (fun al => 1 / tau al)%R (-1) = Ok t ->
  t i i i i = zoneViscosity S kBT (1 / N / V)%R tau i i i i.
Proof.
  intros HL HS Ht Hk HN HV HA H. rewrite (phononRelaxons_diagonal locals shares S _ A tau t HL HS (fun is h => proj1 (Ht is h)) H). apply total_ext. intros is His.
  destruct (Ht is His) as [_ Hp]. unfold drift. rewrite sqrt_square by lra. assert (Hc : (0 < kBT * V * N * A i)%R) by (repeat apply Rmult_lt_0_compat; lra).
  set (c := sqrt (kBT * V * N * A i)). assert (Hs : (0 < c)%R) by now apply sqrt_lt_R0. assert (Hcc : (c * c = kBT * V * N * A i)%R) by (apply sqrt_sqrt; lra).
  transitivity (vK S is i * vK S is i * vVel S is i * vVel S is i * (sqrt (vPop S is) * sqrt (vPop S is)) * A i * tau is / (c * c))%R; [field; lra|].
  rewrite Hcc, sqrt_sqrt by assumption. field. repeat split; lra.
Qed.
(** shear components do not: the indices of momentum and velocity are exchanged *)
Theorem C123_shear_refuted : exists S A kBT N V tau locals shares t, ownedPairs (vn S) locals /\ ownedStates (vn S) shares /\
  (forall is, 0 <= is < vn S -> (0 < tau is)%R /\ (0 <= vPop S is)%R) /\
  (forall i, inDir i -> A i = total (vn S) (fun is => vPop S is * vK S is i * vK S is i / (kBT * N * V))%R /\ (0 < A i)%R) /\
  phononRelaxons 1 (vn S) locals shares S (drift S kBT N V A) A diagonalVecs (fun al => 1 / tau al)%R (-1) = Ok t /\
  t 0 1 0 1 = 2%R /\ zoneViscosity S kBT (1 / N / V)%R tau 0 1 0 1 = 8%R.
Proof.
  set (S := {| vn := 2; vEn := fun _ => 1%R; vPop := fun _ => 1%R; vK := fun is => if is =? 0 then v1 1 1 1 else v1 (-1) (-1) (-1); vVel := fun is => if is =? 0 then v1 1 2 1 else v1 (-1) (-2) (-1) |}).
  exists S, (fun _ => 2%R), 1%R, 1%R, 1%R, (fun _ => 1%R), [list_prod (zrange 0 2) (zrange 0 2)], [zrange 0 2]. eexists.
  assert (O1 : ownedPairs 2 [list_prod (zrange 0 2) (zrange 0 2)]) by apply Permutation_refl.
  assert (O2 : ownedStates 2 [zrange 0 2]) by apply Permutation_refl.
  split; [exact O1|]. split; [exact O2|]. split; [intros; cbn; lra|]. split.
  { intros i Hi. assert (i = 0 \/ i = 1 \/ i = 2) as [-> | [-> | ->]] by (unfold inDir in Hi; lia); unfold total; change (zrange 0 (vn S)) with [0; 1]; cbn; split; lra. }
  split; [reflexivity|]. split.
  - rewrite (phononRelaxons_diagonal [list_prod (zrange 0 2) (zrange 0 2)] [zrange 0 2] S (drift S 1 1 1 (fun _ => 2%R)) (fun _ => 2%R) (fun _ => 1%R) _ O1 O2 ltac:(intros; lra) eq_refl).
    unfold total. change (zrange 0 (vn S)) with [0; 1]. cbn [map]. rewrite !rsum_cons. change (rsum []) with 0%R. unfold drift. cbn [vK vVel vPop S]. unfold v1. cbn [Z.eqb Pos.eqb].
    rewrite sqrt_1, sqrt_square by lra. replace (1 * 1 * 1 * 2)%R with 2%R by ring.
    assert (H : (sqrt 2 * sqrt 2 = 2)%R) by (apply sqrt_sqrt; lra). assert (0 < sqrt 2)%R by (apply sqrt_lt_R0; lra).
    transitivity (4 / (sqrt 2 * sqrt 2))%R; [field; lra|]. rewrite H. lra.
  - unfold zoneViscosity, total. change (zrange 0 (vn S)) with [0; 1]. cbn [map]. rewrite !rsum_cons. change (rsum []) with 0%R. cbn [vK vVel vPop S]. unfold v1. cbn [Z.eqb Pos.eqb]. field.
Qed.
Print Assumptions C123_one.
Print Assumptions C123_symmetric.
Print Assumptions C123_damping.
Print Assumptions C123_processes.
Print Assumptions C123_longitudinal.
Print Assumptions C123_shear_refuted.
Example C123_ex : exists t, phononRelaxons 1 2 [[(0, 0); (1, 0)]; [(0, 1); (1, 1)]] [[0]; [1]] exSys (drift exSys 1 1 1 (fun _ => 2%R)) (fun _ => 2%R) diagonalVecs (fun _ => 1 / 1)%R (-1) = Ok t /\ t 0 0 0 0 = 2%R.
Proof.
  eexists. split; [reflexivity|]. rewrite (C123_longitudinal [[(0, 0); (1, 0)]; [(0, 1); (1, 1)]] [[0]; [1]] exSys (fun _ => 2%R) 1 1 1 (fun _ => 1%R)); try lra.
  5: reflexivity.
  - unfold zoneViscosity, total. change (zrange 0 (vn exSys)) with [0; 1]. cbn. lra.
  - unfold ownedPairs. cbn. apply perm_skip, perm_swap.
  - apply Permutation_refl.
  - intros; cbn; lra.
Qed.

(** * C124: electron viscosity from the relaxons *)
Theorem C124_one numCalc nr kBT N V locals mine S vecs lam a0 ae : 1 < numCalc -> electronRelaxons numCalc nr kBT N V locals mine S vecs lam a0 ae = Err.
Proof. intro H. unfold electronRelaxons. apply Z.ltb_lt in H. now rewrite H. Qed.
(** the velocity indices can be exchanged; any distribution over the processes *)
Theorem C124_processes kBT N V S vecs lam a0 ae locals locals' mine mine' : ownedPairs (vn S) locals -> ownedPairs (vn S) locals' -> ownedStates (vn S) mine -> ownedStates (vn S) mine' ->
  exists t t', electronRelaxons 1 (vn S) kBT N V locals mine S vecs lam a0 ae = Ok t /\ electronRelaxons 1 (vn S) kBT N V locals' mine' S vecs lam a0 ae = Ok t' /\
  forall i j k l, t i j k l = t' i j k l /\ t i j k l = t i l k j.
Proof.
  intros H1 H2 H3 H4. destruct (electron_ok kBT N V locals mine S vecs lam a0 ae H1 H3) as (t & E & Ht). destruct (electron_ok kBT N V locals' mine' S vecs lam a0 ae H2 H4) as (t' & E' & Ht').
  exists t, t'. split; [exact E|]. split; [exact E'|]. intros i j k l. rewrite Ht, Ht', Ht. split; [reflexivity|]. apply total_ext. intros. ring.
Qed.
(** relaxons that are the states: each state counts with the square of f(1-f), and once instead of as many times as its spin degeneracy *)
Theorem C124_diagonal kBT N V locals mine S tau : ownedPairs (vn S) locals -> ownedStates (vn S) mine -> (forall is, 0 <= is < vn S -> (0 < tau is)%R /\ (0 <= vPop S is)%R) ->
  exists t, electronRelaxons 1 (vn S) kBT N V locals mine S diagonalVecs (fun al => 1 / tau al)%R (-1) (-1) = Ok t /\
  forall i j k l, t i j k l = zoneViscosity S kBT (1 / V / N)%R (fun is => vPop S is * tau is)%R i j k l.
Proof.
  intros H1 H2 H3. destruct (electron_ok kBT N V locals mine S diagonalVecs (fun al => 1 / tau al)%R (-1) (-1) H1 H2) as (t & E & _). exists t. split; [exact E|]. intros i j k l.
  rewrite (electron_diagonal kBT N V locals mine S tau t H1 H2 H3 E). apply total_ext. intros. unfold Rdiv. ring.
Qed.
Theorem C124_rta_refuted : exists S kBT N V spin tau locals mine t, ownedPairs (vn S) locals /\ ownedStates (vn S) mine /\
  (forall is, 0 <= is < vn S -> (0 < tau is)%R /\ (0 < vPop S is <= 1 / 4)%R) /\ (1 <= spin <= 2)%R /\
  electronRelaxons 1 (vn S) kBT N V locals mine S diagonalVecs (fun al => 1 / tau al)%R (-1) (-1) = Ok t /\
  t 0 0 0 0 = (1 / 8)%R /\ zoneViscosity S kBT (spin / V / N)%R tau 0 0 0 0 = 1%R.
Proof.
  set (S := {| vn := 2; vEn := fun _ => 0%R; vPop := fun _ => (1 / 4)%R; vK := fun is => v1 (if is =? 0 then 1 else -1) 0 0; vVel := fun is => v1 (if is =? 0 then 1 else -1) 0 0 |}).
  assert (O1 : ownedPairs 2 [list_prod (zrange 0 2) (zrange 0 2)]) by apply Permutation_refl.
  assert (O2 : ownedStates 2 [zrange 0 2]) by apply Permutation_refl.
  destruct (C124_diagonal 1 1 1 [list_prod (zrange 0 2) (zrange 0 2)] [zrange 0 2] S (fun _ => 1%R) O1 O2) as (t & E & Ht). { intros; cbn; lra. }
  exists S, 1%R, 1%R, 1%R, 2%R, (fun _ => 1%R), [list_prod (zrange 0 2) (zrange 0 2)], [zrange 0 2], t.
  split; [exact O1|]. split; [exact O2|]. split; [intros; cbn; lra|]. split; [lra|]. split; [exact E|]. rewrite Ht.
  split; unfold zoneViscosity, total; change (zrange 0 (vn S)) with [0; 1]; cbn; field.
Qed.
(** fewer relaxons than states: eigenvalues that were not computed are read *)
Theorem C124_few_refuted numCalc nr kBT N V locals mine S vecs lam a0 ae n : numCalc <= 1 -> 0 < n -> nr < n -> ownedPairs n locals ->
  electronRelaxons numCalc nr kBT N V locals mine S vecs lam a0 ae = UB.
Proof. intros H1 H2 H3 H4. now apply (electron_few numCalc nr kBT N V locals mine S vecs lam a0 ae n). Qed.
Print Assumptions C124_one.
Print Assumptions C124_processes.
Print Assumptions C124_diagonal.
Print Assumptions C124_rta_refuted.
Print Assumptions C124_few_refuted.
Example C124_ex : ownedPairs 2 [[(0, 0); (1, 0)]; [(0, 1); (1, 1)]] /\ ownedStates (vn exSys) [[1]; [0]] /\ forall is, 0 <= is < vn exSys -> (0 < 1)%R /\ (0 <= vPop exSys is)%R.
Proof. split; [unfold ownedPairs; cbn; apply perm_skip, perm_swap|]. split; [apply perm_swap|]. intros; cbn; lra. Qed.

(** * C125: coefficients of the real-space solver *)
Theorem C125_drag locals n ph D : ownedPairs n locals -> forall i j, Du locals ph D i j = total n (fun a => total n (fun b => ph i a * D a b * ph j b)%R).
Proof. intros H i j. now apply Du_total. Qed.
Theorem C125_symmetric locals n ph D : ownedPairs n locals -> (forall a b, 0 <= a < n -> 0 <= b < n -> D a b = D b a) -> forall i j, Du locals ph D i j = Du locals ph D j i.
Proof. intros H HD i j. now apply (Du_sym locals n). Qed.
(** collisions that conserve the momentum along a direction exert no drag along it *)
Theorem C125_conserved locals n ph D : ownedPairs n locals -> forall i j, (forall a, 0 <= a < n -> total n (fun b => D a b * ph j b)%R = 0%R) -> Du locals ph D i j = 0%R.
Proof. intros H i j HD. now apply (Du_conserved locals n). Qed.
Theorem C125_nonneg locals n ph D : ownedPairs n locals -> (forall y, (0 <= total n (fun a => total n (fun b => y a * D a b * y b)))%R) -> forall x, (0 <= form2 (Du locals ph D) x)%R.
Proof. intros H HD x. rewrite (Du_form locals n ph D x H). apply (HD (fun a => over3 (fun i => x i * ph i a)%R)). Qed.
Theorem C125_velocity g S ranks ph th : ownedStates (vn S) ranks -> forall i j, Wji0 g S ranks ph th j i = total (vn S) (fun is => if acoustic g S is then 0 else ph i is * vVel S is j * th is)%R.
Proof. intros H i j. now apply Wji0_total. Qed.
Print Assumptions C125_drag.
Print Assumptions C125_symmetric.
Print Assumptions C125_conserved.
Print Assumptions C125_nonneg.
Print Assumptions C125_velocity.
(** two states that exchange momentum: the first direction is conserved, the second is not *)
Example C125_ex : let D := fun a b => if a =? b then 1%R else (-1)%R in let ph := fun i a => if i =? 0 then 1%R else if a =? 0 then 1%R else 0%R in
  ownedPairs 2 [[(0, 0); (1, 0)]; [(0, 1); (1, 1)]] /\ (forall a, 0 <= a < 2 -> total 2 (fun b => D a b * ph 0%Z b)%R = 0%R) /\ Du [[(0, 0); (1, 0)]; [(0, 1); (1, 1)]] ph D 1 1 = 1%R /\
  forall y, (0 <= total 2 (fun a => total 2 (fun b => y a * D a b * y b)))%R.
Proof.
  intros D ph. split; [unfold ownedPairs; cbn; apply perm_skip, perm_swap|]. split.
  { intros a Ha. assert (a = 0 \/ a = 1) as [-> | ->] by lia; unfold total; change (zrange 0 2) with [0; 1]; cbn; ring. }
  split; [unfold Du; cbn; ring|]. intro y. replace (total 2 _) with ((y 0%Z - y 1%Z) * (y 0%Z - y 1%Z))%R; [apply sq_nonneg|]. unfold total. change (zrange 0 2) with [0; 1]. cbn. ring.
Qed.
