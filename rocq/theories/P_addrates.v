(** Property theorems for the scattering of phonons by electrons added to a transport calculation: C149. *)
From Coq Require Import QArith Qcanon.
From Verif Require Import Base BaseLemmas M_utilities M_points M_matrix M_vbte M_scattering M_solver M_addrates S_utilities S_solver S_addrates L_utilities L_matrix2 L_scattering L_solver L_solver2 L_solver3.
From Coq Require Import Lia Lqa.
Open Scope Z_scope.

Lemma added_active : forall P ph d c s, active P s -> pPop P c s <> 0%Qc -> addedDiagonal P ph d c s = (d c s + pPop P c s * ph c s)%Qc.
Proof. intros P ph d c s A N. unfold addedDiagonal. rewrite (not_excluded P s A). field. exact N. Qed.
Lemma qsum_single : forall (s : Z) (x : Qc) l, NoDup l -> qsum (map (fun s' => if s' =? s then x else 0%Qc) l) = if in_dec Z.eq_dec s l then x else 0%Qc.
Proof.
  intros s x l. induction l as [|a l IH]; intros D; [reflexivity|]. inversion D as [|? ? Na Nl]; subst. cbn [map]. change (qsum (?y :: ?r)) with (y + qsum r)%Qc. rewrite (IH Nl).
  destruct (Z.eqb_spec a s) as [-> | Ne].
  - destruct (in_dec Z.eq_dec s l) as [I|_]; [contradiction|]. destruct (in_dec Z.eq_dec s (s :: l)) as [_|N]; [ring | exfalso; apply N; left; reflexivity].
  - destruct (in_dec Z.eq_dec s l) as [I|I]; destruct (in_dec Z.eq_dec s (a :: l)) as [J|J]; try ring; exfalso.
    + apply J. right. exact I.
    + destruct J as [J|J]; [exact (Ne J) | exact (I J)].
Qed.
Lemma product_with : forall P ph c f s, active P s -> pPop P c s <> 0%Qc -> product (withRates P ph) c f s = (product P c f s + pPop P c s * ph c s * f s)%Qc.
Proof.
  intros P ph c f s A N. unfold product. change (activeStates (withRates P ph)) with (activeStates P).
  assert (E : (pPop P c s * ph c s * f s)%Qc = qsum (map (fun s' => if s' =? s then (pPop P c s * ph c s * f s)%Qc else 0%Qc) (activeStates P))).
  { rewrite qsum_single by apply nodup_states. destruct (in_dec Z.eq_dec s (activeStates P)) as [_|I]; [reflexivity|]. exfalso. apply I. apply in_states. exact A. }
  rewrite E, <- qsum_map_add. f_equal. apply map_ext. intros s'. cbn [pM withRates]. rewrite (Z.eqb_sym s' s). destruct (Z.eqb_spec s s') as [<- | Ne]; [|ring].
  rewrite added_active by assumption. ring.
Qed.

(** C149. In the relaxation time approximation the rates add: 1/time = 1/(time of phonons alone) + rate due to electrons, with the
    matrix in memory and without. *)
Theorem C149_rates_add : forall P ph c i s, active P s -> pPop P c s <> 0%Qc -> pM P c s s <> 0%Qc ->
  (1 / times (withRates P ph) c i s = 1 / times P c i s + ph c s)%Qc /\
  (1 / flyTimes P ph (fun c s => pM P c s s) c i s = 1 / times P c i s + ph c s)%Qc.
Proof.
  intros P ph c i s A N NM. split; unfold times, flyTimes, flyDiagonal; cbn [pPop pM withRates]; rewrite ?Z.eqb_refl, (added_active P ph _ c s A N).
  all: destruct (Qc_eq_dec (pM P c s s + pPop P c s * ph c s) 0) as [E|E]; [| field; repeat split; assumption].
  all: rewrite E; unfold Qcdiv; assert (Z0 : (/ 0 = 0)%Qc) by reflexivity; rewrite Z0, Qcmult_0_r, Z0, Qcmult_0_r; symmetry.
  all: replace (1 * / (pPop P c s * / pM P c s s) + ph c s)%Qc with ((pM P c s s + pPop P c s * ph c s) / pPop P c s)%Qc by (field; split; assumption); rewrite E; field; assumption.
Qed.
Print Assumptions C149_rates_add.

(** Matrix in memory: a population that the iterative solver leaves as it is solves the equation with the additional rate, and
    conversely; the product with the matrix (variational solver, relaxons) includes it too. *)
Theorem C149_in_memory : forall P ph (f : field) c i, confined P f c i ->
  (forall s, active P s -> pPop P c s <> 0%Qc /\ (pM P c s s + pPop P c s * ph c s)%Qc <> 0%Qc) ->
  unchanged P (ominiNext (withRates P ph)) f c i <-> solvesWith P ph c (f c i) (pDrift P c i).
Proof.
  intros P ph f c i C NZ.
  assert (R : forall s, active P s -> ((pM P c s s + pPop P c s * ph c s) * (ominiNext (withRates P ph) f c i s - f c i s) = pDrift P c i s - (product P c (f c i) s + pPop P c s * ph c s * f c i s))%Qc).
  { intros s A. destruct (NZ s A) as (N & NM). pose proof (omini_residual (withRates P ph) f c i s A C) as R.
    cbn [pM pPop pDrift withRates] in R. rewrite Z.eqb_refl, (added_active P ph _ c s A N), (product_with P ph c (f c i) s A N) in R. exact (R NM N). }
  split; intros H s A; specialize (R s A); destruct (NZ s A) as (N & NM).
  - rewrite (H s A) in R. symmetry. apply sub_zero. rewrite <- R. ring.
  - rewrite (H s A) in R. apply sub_zero, (mult_zero _ _ NM). rewrite R. ring.
Qed.
Print Assumptions C149_in_memory.
Theorem C149_in_memory_product : forall P ph (f : field) c i s, active P s -> pPop P c s <> 0%Qc ->
  adot (withRates P ph) f c i s = (adot P f c i s + pPop P c s * ph c s * f c i s)%Qc.
Proof. intros P ph f c i s A N. rewrite (adot_active (withRates P ph) f c i s A), (adot_active P f c i s A). apply product_with; assumption. Qed.
Print Assumptions C149_in_memory_product.

(** Matrix not in memory: whatever the additional rates are, the populations that the iterative solver leaves as they are solve the
    equation without them. The rates enter the diagonal but not the product computed again from the events, so that the
    difference of the two, taken for the off-diagonal part, subtracts them from what is divided by the diagonal. *)
Theorem C149_on_the_fly : forall P ph d dotF (f : field) c i,
  (forall s, active P s -> pPop P c s <> 0%Qc /\ (d c s + pPop P c s * ph c s)%Qc <> 0%Qc) ->
  unchanged P (flyNext P ph d dotF) f c i <-> (forall s, active P s -> dotF f c i s = pDrift P c i s).
Proof.
  intros P ph d dotF f c i NZ.
  assert (R : forall s, active P s -> ((d c s + pPop P c s * ph c s) * (flyNext P ph d dotF f c i s - f c i s) = pDrift P c i s - dotF f c i s)%Qc).
  { intros s A. destruct (NZ s A) as (N & ND). unfold flyNext, flyRTA, toCanonical, flyTimes, flyOff. rewrite !lift2_active by exact A. unfold flyDiagonal. rewrite (added_active P ph d c s A N). field. split; assumption. }
  split; intros H s A; specialize (R s A); destruct (NZ s A) as (N & ND).
  - rewrite (H s A) in R. symmetry. apply sub_zero. rewrite <- R. ring.
  - rewrite (H s A) in R. apply sub_zero, (mult_zero _ _ ND). rewrite R. ring.
Qed.
Print Assumptions C149_on_the_fly.
(** For example one state with rate 2 from boundaries, rate 3 from electrons and drift 10: without the matrix in memory the solver
    stays at 5, with it at 2. *)
Definition oneState : problem := {| pN := 1; pExcl := []; pM := fun _ _ _ => Q2Qc 2; pPop := fun _ _ => 1%Qc;
  pDrift := fun _ _ _ => Q2Qc 10; pVel := fun _ _ => 1%Qc; pEn := fun _ => 1%Qc; pTemp := fun _ => 1%Qc; pNorm := 1%Qc; pCalcs := 1; pDim := 1 |}.
Theorem C149_on_the_fly_refuted : exists P ph bnd evs (f g : field), active P 0 /\ (forall c s, pM P c s s = flyLinewidths (pExcl P) bnd (fun lw => lw) evs s) /\
  unchanged P (flyNext P ph (fun _ => flyLinewidths (pExcl P) bnd (fun lw => lw) evs) (builderDot (pExcl P) bnd evs)) f 0 0 /\
  ~ solvesWith P ph 0 (f 0 0) (pDrift P 0 0) /\ unchanged P (ominiNext (withRates P ph)) g 0 0 /\ solvesWith P ph 0 (g 0 0) (pDrift P 0 0) /\
  f 0 0 0 = Q2Qc 5 /\ g 0 0 0 = Q2Qc 2.
Proof.
  assert (Z0 : forall s, active oneState s -> s = 0). { intros s (H & _). cbn [pN oneState] in H. lia. }
  exists oneState, (fun _ _ => Q2Qc 3), (fun _ => Q2Qc 2), [[]], (fun _ _ _ => Q2Qc 5), (fun _ _ _ => Q2Qc 2).
  split; [split; [cbn; lia | intros []]|]. split; [intros c s; apply Qc_is_canon; reflexivity|].
  split; [intros s A; rewrite (Z0 s A); apply Qc_is_canon; vm_compute; reflexivity|].
  split. { intros H. specialize (H 0 (conj (conj (Z.le_refl 0) Z.lt_0_1) (fun x : In 0 [] => x))). apply (f_equal this) in H. vm_compute in H. discriminate. }
  split; [intros s A; rewrite (Z0 s A); apply Qc_is_canon; vm_compute; reflexivity|].
  split; [intros s A; rewrite (Z0 s A); apply Qc_is_canon; vm_compute; reflexivity|]. split; reflexivity.
Qed.
Print Assumptions C149_on_the_fly_refuted.
(** excluded states keep a zero diagonal *)
Theorem C149_excluded : forall P ph d c s, In s (pExcl P) -> addedDiagonal P ph d c s = 0%Qc.
Proof. intros P ph d c s I. unfold addedDiagonal, excluded. replace (isIn (pExcl P) s) with true; [ring|]. symmetry. unfold isIn. apply existsb_exists. exists s. split; [exact I | apply Z.eqb_refl]. Qed.
Print Assumptions C149_excluded.
(** three states of which one is excluded: the hypotheses hold, the solution is (1/12, 0, 7/12) and the first step from zero gives (1/5, 0, 3/5) *)
Definition C149_problem : problem := {| pN := 3; pExcl := [1]; pM := fun _ s s' => if s =? s' then Q2Qc 2 else 1%Qc; pPop := fun _ _ => Q2Qc 3;
  pDrift := fun _ _ s => Q2Qc (inject_Z (s + 1)); pVel := fun _ _ => 1%Qc; pEn := fun _ => 1%Qc; pTemp := fun _ => 1%Qc; pNorm := 1%Qc; pCalcs := 1; pDim := 1 |}.
Definition C149_solution : field := fun _ _ s => if s =? 0 then Q2Qc (1 # 12) else if s =? 2 then Q2Qc (7 # 12) else 0%Qc.
Example C149_ex : active C149_problem 0 /\ active C149_problem 2 /\ ~ active C149_problem 1 /\ confined C149_problem C149_solution 0 0 /\
  (forall s, active C149_problem s -> pPop C149_problem 0 s <> 0%Qc /\ (pM C149_problem 0 s s + pPop C149_problem 0 s * Q2Qc 1)%Qc <> 0%Qc) /\
  solvesWith C149_problem (fun _ _ => 1%Qc) 0 (C149_solution 0 0) (pDrift C149_problem 0 0) /\
  map (fun s => this (ominiNext (withRates C149_problem (fun _ _ => 1%Qc)) (fun _ _ _ => 0%Qc) 0 0 s)) [0; 1; 2] = [1#5; 0; 3#5]%Q.
Proof.
  assert (Z0 : forall s, active C149_problem s -> s = 0 \/ s = 2). { intros s (H & I). cbn [pN C149_problem pExcl In] in H, I. lia. }
  split; [split; cbn; lia|]. split; [split; cbn; lia|]. split; [intros (_ & H); apply H; left; reflexivity|].
  split. { intros s H N. unfold C149_solution. destruct (Z.eqb_spec s 0) as [-> | ]; [exfalso; apply N; split; cbn; lia|]. destruct (Z.eqb_spec s 2) as [-> | ]; [exfalso; apply N; split; cbn; lia | reflexivity]. }
  split. { intros s A. split; intros E; apply (f_equal this) in E; destruct (Z0 s A) as [-> | ->]; vm_compute in E; discriminate. }
  split; [intros s A; destruct (Z0 s A) as [-> | ->]; apply Qc_is_canon; vm_compute; reflexivity | reflexivity].
Qed.

(** C150, with numbers: when the relaxation time is constant the variational solver shows, at every step, twice the conductivity of
    the relaxation time approximation. *)
Lemma adot_without P u c i s : adot (withoutMatrix P) u c i s = 0%Qc.
Proof.
  unfold adot. destruct (excluded (withoutMatrix P) s); [reflexivity|]. cbn [pM withoutMatrix]. rewrite (map_ext _ (fun _ => 0%Qc)); [|intros; ring].
  induction (states (withoutMatrix P)) as [|a l IH]; [reflexivity|]. cbn [map]. change (qsum (?y :: ?r)) with (y + qsum r)%Qc. rewrite IH. ring.
Qed.
Lemma qsum_zero {A} (f : A -> Qc) l : (forall a, In a l -> f a = 0%Qc) -> qsum (map f l) = 0%Qc.
Proof. induction l as [|a l IH]; intros H; [reflexivity|]. cbn [map]. change (qsum (?y :: ?r)) with (y + qsum r)%Qc. rewrite (H a (or_introl eq_refl)), IH; [ring | intros; apply H; right; assumption]. Qed.
Lemma without_step P st c i s : active P s -> cgF (cgStep (withoutMatrix P) st) c i s = cgF st c i s.
Proof.
  intros A. unfold cgStep. cbn [cgF]. rewrite (lift2_active (withoutMatrix P)) by exact A. unfold scaled.
  assert (E : fdot (withoutMatrix P) (cgD st) (adot (withoutMatrix P) (cgD st)) c i = 0%Qc) by (unfold fdot; apply qsum_zero; intros; rewrite adot_without; ring).
  unfold ratio at 1. rewrite E. destruct (Qc_eq_dec 0 0) as [_|N]; [ring | exfalso; apply N; reflexivity].
Qed.
Theorem C150_constant_variational_refuted : forall P tau k c i j, driftIs P c ->
  constantVariational P tau k c i j = (Q2Qc 2 * fromCanonical P (constantFRTA P tau) c i j)%Qc.
Proof.
  intros P tau k c i j (NT & D). unfold constantVariational.
  set (st := Nat.iter k (cgStep (withoutMatrix P)) (cgStart (withoutMatrix P) (pDrift P) (constantFRTA P tau))).
  assert (F : forall s, active P s -> cgF st c i s = constantFRTA P tau c i s).
  { intros s A. unfold st. clear st. induction k as [|k IH]; [reflexivity|]. change (Nat.iter (S k) ?f ?x) with (f (Nat.iter k f x)). rewrite without_step by exact A. exact IH. }
  unfold cgReported, variational, fromCanonical, fromPopulation, toPopulation, sum3.
  change (states (withoutMatrix P)) with (activeStates P). change (states P) with (activeStates P).
  rewrite (qsum_zero (fun s => cgF st c i s * adot (withoutMatrix P) (cgF (cgStep (withoutMatrix P) st)) c j s * _)%Qc) by (intros; rewrite adot_without; ring).
  unfold two.
  match goal with |- (?t * ?a - 0 = ?t * ?b)%Qc => cut (a = b); [intros ->; ring|] end.
  f_equal. apply map_ext_in. intros s I. apply in_states in I. cbn [pNorm pTemp withoutMatrix]. rewrite (F s I), (D j s I). field. exact NT.
Qed.
Print Assumptions C150_constant_variational_refuted.
Definition exConstant : problem := {| pN := 2; pExcl := [0]; pM := fun _ _ _ => 0%Qc; pPop := fun _ _ => Q2Qc 3; pDrift := fun _ _ _ => Q2Qc 6; pVel := fun _ _ => 1%Qc; pEn := fun _ => Q2Qc 2;
  pTemp := fun _ => 1%Qc; pNorm := 1%Qc; pCalcs := 1; pDim := 1 |}.
(** the conductivity of the approximation is 60, the one shown after three steps 120 *)
Example C150_constant_ex : driftIs exConstant 0 /\ fromCanonical exConstant (constantFRTA exConstant (Q2Qc 5)) 0 0 0 = Q2Qc 60 /\
  constantVariational exConstant (Q2Qc 5) 3 0 0 0 = Q2Qc 120.
Proof. split; [split; [intros E; discriminate|]; intros j s _; apply Qc_is_canon; reflexivity|]. split; apply Qc_is_canon; vm_compute; reflexivity. Qed.
