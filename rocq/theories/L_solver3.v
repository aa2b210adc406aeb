(** Convergence of the iterative solver, conductivities, exits of the loops, counterexamples. *)
From Coq Require Import QArith Qcanon Qcabs Lqa.
From Verif Require Import Base BaseLemmas M_utilities M_points M_matrix M_vbte M_scattering M_solver S_solver L_matrix2 L_mpi L_scattering L_scattering2 L_solver L_solver2.
From Coq Require Import Lia.
Open Scope Z_scope.

Lemma excluded_out P s : 0 <= s < pN P -> ~ active P s -> excluded P s = true.
Proof.
  intros H N. unfold excluded. destruct (isIn (pExcl P) s) eqn:E; [reflexivity | exfalso]. apply N. split; [exact H |].
  rewrite <- isIn_In. congruence.
Qed.
Lemma lift2_out P o u v c i s : 0 <= s < pN P -> ~ active P s -> lift2 P o u v c i s = 0%Qc.
Proof. intros H N. unfold lift2. now rewrite excluded_out. Qed.
Lemma fRTA_out P c i s : 0 <= s < pN P -> ~ active P s -> fRTA P c i s = 0%Qc.
Proof. intros H N. unfold fRTA, toCanonical, popRTA. rewrite lift2_out by assumption. unfold Qcdiv. ring. Qed.
Lemma omini_out P k c i s : 0 <= s < pN P -> ~ active P s -> ominiIterate P k c i s = 0%Qc.
Proof. intros H N. destruct k as [|k]; [now apply fRTA_out |]. unfold ominiIterate. cbn. unfold ominiNext. now apply lift2_out. Qed.
Lemma omini_converges P c i q B x : (0 <= B)%Qc -> (0 <= q)%Qc -> dominant P c q -> (forall s, active P s -> pM P c s s <> 0%Qc /\ pPop P c s <> 0%Qc) ->
  solves P c x (pDrift P c i) -> (forall s, active P s -> (Qcabs (fRTA P c i s - x s) <= B)%Qc) ->
  forall k s, active P s -> (Qcabs (ominiIterate P k c i s - x s) <= q ^ k * B)%Qc.
Proof.
  intros HB Hq DOM NZ SOL E0 k. induction k as [|k IH]; intros s H.
  - cbn [ominiIterate Nat.iter Qcpower]. replace (1 * B)%Qc with B by ring. now apply E0.
  - cbn [Qcpower]. replace (q * q ^ k * B)%Qc with (q * (q ^ k * B))%Qc by ring.
    change (ominiIterate P (S k)) with (ominiNext P (ominiIterate P k)).
    apply contraction; try assumption.
    + apply Qcmult_nonneg; [| exact HB]. clear - Hq. induction k as [|k IH]; cbn [Qcpower]; [vm_compute; discriminate | now apply Qcmult_nonneg].
    + intros s' Hs N. now apply omini_out.
Qed.

(** ** A positive definite matrix for which the iteration diverges *)
Definition tri (c : Qc) : problem := {| pN := 3; pExcl := []; pM := fun _ s s' => if s =? s' then 1%Qc else c; pPop := fun _ _ => 1%Qc;
  pDrift := fun _ _ _ => 1%Qc; pVel := fun _ _ => 1%Qc; pEn := fun _ => 1%Qc; pTemp := fun _ => 1%Qc; pNorm := 1%Qc; pCalcs := 1; pDim := 1 |}.
Definition q34 : Qc := Q2Qc (3#4).
Definition q25 : Qc := Q2Qc (2#5).
Lemma tri_states c : activeStates (tri c) = [0; 1; 2].
Proof. reflexivity. Qed.
Lemma tri_active c s : active (tri c) s <-> s = 0 \/ s = 1 \/ s = 2.
Proof. unfold active. cbn. split; [lia | intros H; split; [lia | tauto]]. Qed.
Lemma tri_pd : positiveDefinite (tri q34) 0.
Proof.
  intros u (s & H & N). apply tri_active in H.
  assert (G : u 0 <> 0%Qc \/ u 1 <> 0%Qc \/ u 2 <> 0%Qc) by (destruct H as [-> | [-> | ->]]; auto). clear s H N.
  unfold inner, product. rewrite tri_states. cbn [map qsum fold_right pM tri Z.eqb Pos.eqb]. revert G.
  generalize (u 0), (u 1), (u 2). clear u. intros x y z G.
  match goal with |- (0 < ?e)%Qc => replace e with ((1 - q34) * (x * x + y * y + z * z) + q34 * ((x + y + z) * (x + y + z)))%Qc by ring end.
  apply Qcplus_pos; [| apply Qcmult_nonneg; [vm_compute; discriminate | apply sq_nonneg]].
  apply Qcmult_pos; [vm_compute; reflexivity |]. pose proof (sq_nonneg x). pose proof (sq_nonneg y). pose proof (sq_nonneg z).
  destruct G as [G | [G | G]]; apply sq_pos in G; revert G H H0 H1; generalize (x * x)%Qc, (y * y)%Qc, (z * z)%Qc; clear; intros a b d; qcq; lra.
Qed.
Lemma tri_sym : symmetric (tri q34) 0.
Proof. intros s s' _ _. cbn. now rewrite Z.eqb_sym. Qed.
Lemma tri_sol : solves (tri q34) 0 (fun _ => q25) (fun _ => 1%Qc).
Proof. intros s H. apply tri_active in H. destruct H as [-> | [-> | ->]]; apply Qc_is_canon; vm_compute; reflexivity. Qed.
Lemma tri_step f : (forall s, 0 <= s < 3 -> f 0 0 s = f 0 0 0) -> forall s, 0 <= s < 3 ->
  ominiNext (tri q34) f 0 0 s = (1 - (q34 + q34) * f 0%Z 0%Z 0%Z)%Qc.
Proof.
  intros E s H. assert (A : active (tri q34) s) by (apply tri_active; lia).
  unfold ominiNext, fRTA, toCanonical, popRTA. rewrite !lift2_active by exact A. unfold times, diag, offDiagonal.
  change (zrange 0 (pN (tri q34))) with [0; 1; 2]. pose proof (E 1 ltac:(lia)) as E1. pose proof (E 2 ltac:(lia)) as E2.
  assert (X : s = 0 \/ s = 1 \/ s = 2) by lia.
  destruct X as [-> | [-> | ->]]; cbn [pM pPop pDrift tri filter Z.eqb Pos.eqb negb map qsum fold_right]; rewrite ?E1, ?E2; field; vm_compute; discriminate.
Qed.
Lemma tri_iterate k : (forall s, 0 <= s < 3 -> (ominiIterate (tri q34) k 0%Z 0%Z s - q25 = (- (q34 + q34)) ^ k * (1 - q25))%Qc).
Proof.
  induction k as [|k IH]; intros s H.
  - cbn [ominiIterate Nat.iter Qcpower]. assert (X : s = 0 \/ s = 1 \/ s = 2) by lia. destruct X as [-> | [-> | ->]]; apply Qc_is_canon; vm_compute; reflexivity.
  - change (ominiIterate (tri q34) (S k)) with (ominiNext (tri q34) (ominiIterate (tri q34) k)). rewrite tri_step; [| | exact H].
    + cbn [Qcpower]. replace (- (q34 + q34) * (- (q34 + q34)) ^ k * (1 - q25))%Qc with (- (q34 + q34) * ((- (q34 + q34)) ^ k * (1 - q25)))%Qc by ring.
      rewrite <- (IH 0) by lia. generalize (ominiIterate (tri q34) k 0 0 0). intros y.
      replace (1 - (q34 + q34) * y - q25)%Qc with (- (q34 + q34) * (y - q25) + (1 - q25 - (q34 + q34) * q25))%Qc by ring.
      replace (1 - q25 - (q34 + q34) * q25)%Qc with 0%Qc by (apply Qc_is_canon; vm_compute; reflexivity). ring.
    + intros s' Hs. apply sub_zero. transitivity ((ominiIterate (tri q34) k 0%Z 0%Z s' - q25) - (ominiIterate (tri q34) k 0%Z 0%Z 0%Z - q25))%Qc; [ring |].
      rewrite !IH by lia. ring.
Qed.
Lemma abs_pow (x : Qc) k : Qcabs (x ^ k) = (Qcabs x ^ k)%Qc.
Proof. induction k as [|k IH]; cbn [Qcpower]; [apply Qcabs_pos; vm_compute; discriminate | now rewrite Qcabs_Qcmult, IH]. Qed.
Lemma tri_diverges k s : active (tri q34) s -> Qcabs (ominiIterate (tri q34) k 0%Z 0%Z s - q25) = (Q2Qc (3#2) ^ k * Q2Qc (3#5))%Qc.
Proof.
  intros H. rewrite tri_iterate by (apply tri_active in H; lia). rewrite Qcabs_Qcmult, abs_pow. f_equal; [f_equal |]; apply Qc_is_canon; vm_compute; reflexivity.
Qed.

(** * Conductivities *)
Lemma inner_comm P u v : inner P u v = inner P v u.
Proof. apply qsum_ext. intros. ring. Qed.
Lemma variational_eq P b au u c i j :
  (variational P au u b c i j = pNorm P * pTemp P c * pTemp P c * (Q2Qc 2 * inner P (u c i) (b c j) - inner P (u c i) (au c j)))%Qc.
Proof.
  unfold variational, sum3, inner. set (n := (pNorm P * pTemp P c * pTemp P c)%Qc). change (states P) with (activeStates P).
  assert (G : forall g : Z -> Qc, qsum (map (fun s => g s * n)%Qc (activeStates P)) = (n * qsum (map g (activeStates P)))%Qc).
  { intros g. rewrite <- qsum_map_scale. apply qsum_ext. intros. ring. }
  rewrite (G (fun s => u c i s * b c j s)%Qc), (G (fun s => u c i s * au c j s)%Qc). unfold two. ring.
Qed.
Lemma inner_adot P u f c j : inner P u (adot P f c j) = inner P u (product P c (f c j)).
Proof. apply qsum_ext. intros s I. apply in_states in I. now rewrite adot_active. Qed.
Lemma reported_diag P b u c i : variational P (adot P u) u b c i i = (pNorm P * pTemp P c * pTemp P c * functional P c (b c i) (u c i))%Qc.
Proof. rewrite variational_eq, inner_adot. reflexivity. Qed.
Lemma exact_conductivity P c i j f : driftIs P c -> solves P c (f c j) (pDrift P c j) ->
  variational P (adot P f) f (pDrift P) c i j = heatFlux P c (f c i) j /\ fromCanonical P f c i j = heatFlux P c (f c i) j.
Proof.
  intros (NT & DR) SOL. split.
  - rewrite variational_eq, inner_adot.
    assert (X : inner P (f c i) (product P c (f c j)) = inner P (f c i) (pDrift P c j)) by (apply qsum_ext; intros s I; apply in_states in I; now rewrite (SOL s I)).
    rewrite X, two_eq. transitivity (pNorm P * pTemp P c * pTemp P c * inner P (f c i) (pDrift P c j))%Qc; [ring |].
    unfold inner, heatFlux. rewrite <- qsum_map_scale. apply qsum_ext. intros s I. apply in_states in I. rewrite (DR j s I). field. exact NT.
  - unfold fromCanonical, fromPopulation, sum3, heatFlux, inner, toPopulation. apply qsum_ext. intros. ring.
Qed.
Lemma heatFlux_drift P c j f : driftIs P c -> heatFlux P c f j = (pNorm P * pTemp P c * pTemp P c * inner P f (pDrift P c j))%Qc.
Proof.
  intros (NT & DR). unfold heatFlux, inner. rewrite <- qsum_map_scale. apply qsum_ext. intros s I. apply in_states in I. rewrite (DR j s I). field. exact NT.
Qed.
Lemma exact_symmetric P c i j f : driftIs P c -> symmetric P c -> solves P c (f c i) (pDrift P c i) -> solves P c (f c j) (pDrift P c j) ->
  heatFlux P c (f c i) j = heatFlux P c (f c j) i.
Proof.
  intros DR SYM Si Sj. rewrite !heatFlux_drift by exact DR. f_equal.
  assert (X : forall u v w, solves P c v w -> inner P u w = inner P u (product P c v)) by (intros u v w S; apply qsum_ext; intros s I; apply in_states in I; now rewrite (S s I)).
  rewrite (X _ _ _ Sj), (X _ _ _ Si). apply (ip_op_sym (activeStates P) (pM P c)). intros. apply SYM; now apply in_states.
Qed.
Lemma exact_positive P c i f : driftIs P c -> positiveDefinite P c -> (0 <= pNorm P)%Qc -> solves P c (f c i) (pDrift P c i) -> (0 <= heatFlux P c (f c i) i)%Qc.
Proof.
  intros DR PD NN S. rewrite heatFlux_drift by exact DR.
  assert (X : inner P (f c i) (pDrift P c i) = inner P (f c i) (product P c (f c i))) by (apply qsum_ext; intros s I; apply in_states in I; now rewrite (S s I)).
  rewrite X. replace (pNorm P * pTemp P c * pTemp P c)%Qc with (pNorm P * (pTemp P c * pTemp P c))%Qc by ring.
  apply Qcmult_nonneg; [apply Qcmult_nonneg; [exact NN | apply sq_nonneg] |].
  apply (pd_nonneg (activeStates P) (pM P c)). intros u (s & I & N). apply PD. exists s. split; [now apply in_states | exact N].
Qed.

(** * Exits of the loop *)
Section Loop.
Context {S T : Type}.
Variable step : S -> S * T.
Variable stop : Z -> T -> T -> res bool.
Lemma valueAt_next s k : valueAt step (fst (step s)) k = valueAt step s (Datatypes.S k).
Proof.
  unfold valueAt. do 2 f_equal. induction k as [|k IH]; [reflexivity |]. exact (f_equal (fun x => fst (step x)) IH).
Qed.
Lemma previousAt_next s old k : previousAt step s old (Datatypes.S k) = previousAt step (fst (step s)) (snd (step s)) k.
Proof. unfold previousAt. destruct k as [|k]; [reflexivity |]. symmetry. apply valueAt_next. Qed.
Lemma iterate_ok left : forall iter s old t, iterateFrom step stop iter left s old = Ok t <->
  exists k, (k <= left)%nat /\ t = valueAt step s k /\ stop (iter + Z.of_nat k) t (previousAt step s old k) = Ok true /\
    forall j, (j < k)%nat -> stop (iter + Z.of_nat j) (valueAt step s j) (previousAt step s old j) = Ok false.
Proof.
  induction left as [|left IH]; intros iter s old t.
  - cbn [iterateFrom]. destruct (step s) as [s' new] eqn:E. split.
    + intros H. destruct (stop iter new old) as [[|]| |] eqn:C; cbn in H; try discriminate. injection H as <-.
      exists 0%nat. unfold valueAt, previousAt. cbn. rewrite E. cbn. replace (iter + 0) with iter by lia. split; [lia | split; [reflexivity | split; [exact C | intros; lia]]].
    + intros (k & Hk & -> & C & _). replace k with 0%nat in * by lia. unfold valueAt, previousAt in C. cbn in C. rewrite E in C. cbn in C. replace (iter + 0) with iter in C by lia.
      rewrite C. unfold valueAt. cbn. now rewrite E.
  - cbn [iterateFrom]. destruct (step s) as [s' new] eqn:E.
    assert (E1 : fst (step s) = s') by now rewrite E. assert (E2 : snd (step s) = new) by now rewrite E.
    assert (V0 : valueAt step s 0 = new) by (unfold valueAt; cbn; exact E2).
    split.
    + intros H. destruct (stop iter new old) as [[|]| |] eqn:C; cbn in H; try discriminate.
      * injection H as <-. exists 0%nat. rewrite V0. cbn. replace (iter + 0) with iter by lia. split; [lia | split; [reflexivity | split; [exact C | intros; lia]]].
      * apply IH in H as (k & Hk & -> & K & B). exists (Datatypes.S k). rewrite <- E1 in *. rewrite valueAt_next in *. rewrite previousAt_next. rewrite E2.
        split; [lia | split; [reflexivity | split]].
        { replace (iter + Z.of_nat (Datatypes.S k)) with (iter + 1 + Z.of_nat k) by lia. exact K. }
        intros j Hj. destruct j as [|j]; [rewrite V0; cbn; replace (iter + 0) with iter by lia; exact C |].
        rewrite previousAt_next, E2, <- valueAt_next. replace (iter + Z.of_nat (Datatypes.S j)) with (iter + 1 + Z.of_nat j) by lia. apply B. lia.
    + intros (k & Hk & -> & K & B). destruct k as [|k].
      * rewrite V0 in *. cbn in K. replace (iter + 0) with iter in K by lia. rewrite K. reflexivity.
      * pose proof (B 0%nat ltac:(lia)) as B0. rewrite V0 in B0. cbn in B0. replace (iter + 0) with iter in B0 by lia. rewrite B0. cbn [bind].
        apply IH. exists k. rewrite <- E1, <- E2. split; [lia |]. split; [symmetry; apply valueAt_next |]. split.
        { rewrite <- (previousAt_next s old). replace (iter + 1 + Z.of_nat k) with (iter + Z.of_nat (Datatypes.S k)) by lia. exact K. }
        intros j Hj. rewrite <- (previousAt_next s old), valueAt_next. replace (iter + 1 + Z.of_nat j) with (iter + Z.of_nat (Datatypes.S j)) by lia. apply B. lia.
Qed.
Lemma iterate_fails left : forall iter s old,
  (forall k, (k <= left)%nat -> stop (iter + Z.of_nat k) (valueAt step s k) (previousAt step s old k) = Ok false) ->
  iterateFrom step stop iter left s old = Err.
Proof.
  induction left as [|left IH]; intros iter s old B; cbn [iterateFrom]; destruct (step s) as [s' new] eqn:E;
    assert (E1 : fst (step s) = s') by (now rewrite E); assert (E2 : snd (step s) = new) by (now rewrite E);
    assert (V0 : valueAt step s 0 = new) by (unfold valueAt; cbn; exact E2);
    pose proof (B 0%nat ltac:(lia)) as B0; rewrite V0 in B0; cbn in B0; replace (iter + 0) with iter in B0 by lia; rewrite B0; cbn [bind]; [reflexivity |].
  apply IH. intros k Hk. rewrite <- E1, <- E2, <- (previousAt_next s old), valueAt_next. replace (iter + 1 + Z.of_nat k) with (iter + Z.of_nat (Datatypes.S k)) by lia. apply B. lia.
Qed.
Lemma run_ok maxI s old t : 0 < maxI -> runSolver step stop maxI s old = Ok t <->
  exists k, 0 <= k < maxI /\ t = valueAt step s (Z.to_nat k) /\ stop k t (previousAt step s old (Z.to_nat k)) = Ok true /\
    forall j, 0 <= j < k -> stop j (valueAt step s (Z.to_nat j)) (previousAt step s old (Z.to_nat j)) = Ok false.
Proof.
  intros HM. unfold runSolver. destruct (Z.to_nat maxI) as [|m] eqn:EM; [lia |]. rewrite iterate_ok. split.
  - intros (k & Hk & -> & K & B). exists (Z.of_nat k). rewrite Nat2Z.id. split; [lia |]. split; [reflexivity |]. split; [exact K |].
    intros j Hj. specialize (B (Z.to_nat j) ltac:(lia)). cbn in B. rewrite Z2Nat.id in B by lia. exact B.
  - intros (k & Hk & -> & K & B). exists (Z.to_nat k). split; [lia |]. split; [reflexivity |]. cbn. rewrite Z2Nat.id by lia. split; [exact K |].
    intros j Hj. specialize (B (Z.of_nat j) ltac:(lia)). rewrite Nat2Z.id in B. exact B.
Qed.
Lemma run_fails maxI s old : 0 < maxI ->
  (forall k, 0 <= k < maxI -> stop k (valueAt step s (Z.to_nat k)) (previousAt step s old (Z.to_nat k)) = Ok false) -> runSolver step stop maxI s old = Err.
Proof.
  intros HM B. unfold runSolver. destruct (Z.to_nat maxI) as [|m] eqn:EM; [lia |]. apply iterate_fails. intros k Hk.
  specialize (B (Z.of_nat k) ltac:(lia)). rewrite Nat2Z.id in B. exact B.
Qed.
End Loop.

(** ** Examples *)
(** two calculations, two states, a diagonal and a coupled matrix *)
Definition two2 : problem := {| pN := 2; pExcl := []; pM := fun c s s' => if s =? s' then 1%Qc else if c =? 0 then 0%Qc else Q2Qc (-3#4); pPop := fun _ _ => 1%Qc;
  pDrift := fun _ _ _ => 1%Qc; pVel := fun _ _ => 1%Qc; pEn := fun _ => 1%Qc; pTemp := fun _ => 1%Qc; pNorm := 1%Qc; pCalcs := 2; pDim := 1 |}.
Lemma two2_iterative : exists t, solveIterative two2 (1#100) 50 (tensor two2 (fromCanonical two2 (fRTA two2))) = Ok t /\
  t = [2; 7#2]%Q /\ solves two2 1 (fun _ => Q2Qc 4) (pDrift two2 1 0) /\ this (heatFlux two2 1 (fun _ => Q2Qc 4) 0) = 8%Q.
Proof.
  eexists. split; [vm_compute; reflexivity |]. split; [reflexivity |]. split; [| vm_compute; reflexivity].
  intros s (H & _). cbn in H. assert (X : s = 0 \/ s = 1) by lia. destruct X as [-> | ->]; apply Qc_is_canon; vm_compute; reflexivity.
Qed.
(** A = [[2,1],[1,2]], b = (1,1) *)
Definition two1 : problem := {| pN := 2; pExcl := []; pM := fun _ s s' => if s =? s' then Q2Qc 2 else 1%Qc; pPop := fun _ _ => 1%Qc;
  pDrift := fun _ _ _ => 1%Qc; pVel := fun _ _ => 1%Qc; pEn := fun _ => 1%Qc; pTemp := fun _ => 1%Qc; pNorm := 1%Qc; pCalcs := 1; pDim := 1 |}.
Lemma two1_active s : active two1 s <-> s = 0 \/ s = 1.
Proof. unfold active. cbn. split; [lia | intros H; split; [lia | tauto]]. Qed.
Lemma two1_pd : positiveDefinite two1 0.
Proof.
  intros u (s & H & N). apply two1_active in H. assert (G : u 0 <> 0%Qc \/ u 1 <> 0%Qc) by (destruct H as [-> | ->]; auto). clear s H N.
  unfold inner, product. change (activeStates two1) with [0; 1]. cbn [map qsum fold_right pM two1 Z.eqb Pos.eqb]. revert G. rewrite two_eq.
  generalize (u 0), (u 1). clear u. intros x y G.
  match goal with |- (0 < ?e)%Qc => replace e with (x * x + y * y + (x + y) * (x + y))%Qc by ring end.
  pose proof (sq_nonneg x). pose proof (sq_nonneg y). pose proof (sq_nonneg (x + y)).
  destruct G as [G | G]; apply sq_pos in G; revert G H H0 H1; generalize (x * x)%Qc, (y * y)%Qc, ((x + y) * (x + y))%Qc; clear; intros a b d; qcq; lra.
Qed.
Lemma two1_sym : symmetric two1 0.
Proof. intros s s' _ _. cbn. now rewrite Z.eqb_sym. Qed.
Lemma two1_sol : solves two1 0 (fun _ => Q2Qc (1#3)) (pDrift two1 0 0).
Proof. intros s H. apply two1_active in H. destruct H as [-> | ->]; apply Qc_is_canon; vm_compute; reflexivity. Qed.
Lemma two1_reported : cgReported two1 (pDrift two1) (cgStart two1 (pDrift two1) (fRTA two1)) 0 0 0 = 1%Qc /\ heatFlux two1 0 (fun _ => Q2Qc (1#3)) 0 = Q2Qc (2#3).
Proof. split; apply Qc_is_canon; vm_compute; reflexivity. Qed.
Lemma two1_drift : driftIs two1 0.
Proof. split; [vm_compute; discriminate |]. intros j s _. apply Qc_is_canon. vm_compute. reflexivity. Qed.
