From Coq Require Import Reals Permutation.
From Verif Require Import Base BaseLemmas L_mpi M_complex M_phonon L_phonon M_particle L_particle M_wte S_wte L_wte M_visc S_visc L_visc.
From Coq Require Import Lia Lra.
Open Scope Z_scope.

(** * sums over the elements of a distributed matrix *)
Lemma sum_pairs locals n (f : Z * Z -> R) : Permutation (concat locals) (list_prod (zrange 0 n) (zrange 0 n)) ->
  rsum (map (fun mine => rsum (map f mine)) locals) = total n (fun is => total n (fun al => f (is, al))).
Proof. intro H. rewrite rsum_concat, (rsum_perm_map _ _ _ H), rsum_list_prod. reflexivity. Qed.
Lemma total_single n f a : 0 <= a < n -> total n (fun x => if x =? a then f x else 0%R) = f a.
Proof. intro H. apply (rsum_single Z.eqb f); [intros; apply Z.eqb_eq|apply NoDup_zrange|apply in_zrange; lia]. Qed.
Lemma total_add n f h : total n (fun x => f x + h x)%R = (total n f + total n h)%R. Proof. apply rsum_add. Qed.
Lemma total_swap n m f : total n (fun x => total m (f x)) = total m (fun y => total n (fun x => f x y)). Proof. apply rsum_swap. Qed.

(** * the search of the special relaxon *)
Lemma all_lt locals n : Permutation (concat locals) (list_prod (zrange 0 n) (zrange 0 n)) -> forallb (fun p : Z * Z => snd p <? n) (concat locals) = true.
Proof.
  intro H. apply forallb_forall. intros [a b] Hin. apply (Permutation_in _ H), in_prod_iff in Hin. destruct Hin as [_ Hb]. apply in_zrange in Hb. apply Z.ltb_lt. cbn [snd]. lia.
Qed.
Lemma overlaps_ok locals n vecs theta : Permutation (concat locals) (list_prod (zrange 0 n) (zrange 0 n)) ->
  overlaps n locals vecs theta = Ok (map (overlap n vecs theta) (zrange 0 n)).
Proof.
  intro H. unfold overlaps. rewrite (all_lt _ _ H). f_equal. apply map_ext_in. intros gm Hg. apply in_zrange in Hg. unfold overlap. f_equal.
  rewrite (sum_pairs _ _ _ H). apply total_ext. intros is _. cbn [fst snd]. apply (total_single n (fun al => vecs is al * theta is)%R). lia.
Qed.
Lemma overlaps_few locals n nr vecs theta : 0 < n -> nr < n -> Permutation (concat locals) (list_prod (zrange 0 n) (zrange 0 n)) -> overlaps nr locals vecs theta = UB.
Proof.
  intros Hn Hr H. unfold overlaps. destruct (forallb _ _) eqn:E; [|reflexivity]. rewrite forallb_forall in E.
  assert (In (0, n - 1) (concat locals)) as K. { apply (Permutation_in _ (Permutation_sym H)), in_prod_iff. split; apply in_zrange; lia. }
  specialize (E _ K). apply Z.ltb_lt in E. cbn [snd] in E. lia.
Qed.
Lemma maxFrom_spec (o : Z -> R) : forall m i best ib, 0 <= ib < i -> best = o ib -> (forall g, 0 <= g < i -> (o g <= best)%R /\ (g < ib -> (o g < best)%R)) ->
  forall r, r = maxFrom i best ib (map o (zrange i (Z.of_nat m))) ->
  fst r = o (snd r) /\ 0 <= snd r < i + Z.of_nat m /\ forall g, 0 <= g < i + Z.of_nat m -> (o g <= fst r)%R /\ (g < snd r -> (o g < fst r)%R).
Proof.
  induction m as [|m IH]; intros i best ib Hib Hb Hall r Hr.
  - cbn in Hr. subst r. cbn [fst snd]. rewrite Z.add_0_r. repeat split; try lia; try assumption; intros; now apply Hall.
  - assert (Ez : zrange i (Z.of_nat (S m)) = i :: zrange (i + 1) (Z.of_nat m)).
    { rewrite (zrange_cons i (Z.of_nat (S m))) by lia. f_equal. f_equal. lia. }
    rewrite Ez in Hr. cbn [map maxFrom] in Hr.
    replace (i + Z.of_nat (S m)) with (i + 1 + Z.of_nat m) by lia.
    destruct (rltb best (o i)) eqn:E.
    + apply rltb_lt in E. apply (IH (i + 1) (o i) i); try assumption; try reflexivity; try lia.
      intros g Hg. destruct (Z.eq_dec g i) as [-> | Hne]; [split; [lra|lia]|]. assert (Hg' : 0 <= g < i) by lia. destruct (Hall g Hg') as [H1 H2]. split; [lra|]. intros _. lra.
    + apply rltb_ge in E. apply (IH (i + 1) best ib); try assumption; try lia.
      intros g Hg. destruct (Z.eq_dec g i) as [-> | Hne]; [split; [lra|lia]|]. apply Hall. lia.
Qed.
Lemma maxCoeff_spec (o : Z -> R) n : 0 < n -> exists a, maxCoeff (map o (zrange 0 n)) = Ok (o a, a) /\ 0 <= a < n /\ forall g, 0 <= g < n -> (o g <= o a)%R /\ (g < a -> (o g < o a)%R).
Proof.
  intro Hn. rewrite (zrange_cons 0 n) by lia. cbn [map maxCoeff].
  destruct (maxFrom 1 (o 0) 0 (map o (zrange (0 + 1) (n - 1)))) as [b a] eqn:E.
  pose proof (maxFrom_spec o (Z.to_nat (n - 1)) 1 (o 0) 0) as H. rewrite Z2Nat.id in H by lia.
  specialize (H ltac:(lia) eq_refl). assert (H0 : forall g : Z, 0 <= g < 1 -> (o g <= o 0%Z)%R /\ (g < 0 -> (o g < o 0%Z)%R)). { intros g Hg. replace g with 0 by lia. split; [lra|lia]. }
  specialize (H H0 (b, a)). symmetry in E. change (0 + 1) with 1 in E. specialize (H E). cbn [fst snd] in H. destruct H as (H1 & H2 & H3).
  exists a. subst b. split; [reflexivity|]. split; [lia|]. intros g Hg. apply H3. lia.
Qed.
Lemma findSpecial_spec locals n vecs theta : 10 <= n -> Permutation (concat locals) (list_prod (zrange 0 n) (zrange 0 n)) ->
  exists a, findSpecial n locals vecs theta = Ok a /\
  ((a = -1 /\ forall g, 0 <= g < n -> (overlap n vecs theta g < 3 / 4)%R) \/
   (0 <= a < n /\ (3 / 4 <= overlap n vecs theta a)%R /\ forall g, 0 <= g < n -> (overlap n vecs theta g <= overlap n vecs theta a)%R /\ (g < a -> (overlap n vecs theta g < overlap n vecs theta a)%R))).
Proof.
  intros Hn H. unfold findSpecial. rewrite (overlaps_ok _ _ _ _ H). cbn [bind].
  destruct (maxCoeff_spec (overlap n vecs theta) n) as (a & -> & Ha & Hmax); [lia|]. cbn [bind fst snd].
  destruct (n <? 10) eqn:E; [apply Z.ltb_lt in E; lia|]. eexists. split; [reflexivity|].
  destruct (rleb (3 / 4) (overlap n vecs theta a)) eqn:F.
  - apply rleb_le in F. right. repeat split; try assumption; try lia; intros; now apply Hmax.
  - apply rleb_gt in F. left. split; [reflexivity|]. intros g Hg. destruct (Hmax g Hg). lra.
Qed.
Lemma findSpecial_few locals n nr vecs theta : 0 < n -> nr < n \/ (nr = n /\ n < 10) -> Permutation (concat locals) (list_prod (zrange 0 n) (zrange 0 n)) ->
  findSpecial nr locals vecs theta = UB.
Proof.
  intros Hn [Hr | [-> Hr]] H; unfold findSpecial.
  - now rewrite (overlaps_few locals n).
  - rewrite (overlaps_ok _ _ _ _ H). cbn [bind]. destruct (maxCoeff_spec (overlap n vecs theta) n) as (a & -> & _ & _); [lia|]. cbn [bind].
    apply Z.ltb_lt in Hr. now rewrite Hr.
Qed.
(** Bessel *)
Lemma overlap_sq n vecs theta a : (overlap n vecs theta a * overlap n vecs theta a = total n (fun is => vecs is a * theta is) * total n (fun is => vecs is a * theta is))%R.
Proof. unfold overlap. now rewrite <- Rabs_mult, Rabs_pos_eq by apply sq_nonneg. Qed.
Lemma bessel2 n vecs theta a b : orthonormal n vecs -> total n (fun is => theta is * theta is)%R = 1%R -> 0 <= a < n -> 0 <= b < n -> a <> b ->
  (overlap n vecs theta a * overlap n vecs theta a + overlap n vecs theta b * overlap n vecs theta b <= 1)%R.
Proof.
  intros Ho Ht Ha Hb Hab. rewrite !overlap_sq. set (x := total n (fun is => vecs is a * theta is)%R). set (y := total n (fun is => vecs is b * theta is)%R).
  pose proof (total_nonneg n (fun is => (theta is - x * vecs is a - y * vecs is b) * (theta is - x * vecs is a - y * vecs is b))%R (fun is _ => sq_nonneg _)) as H.
  rewrite (total_ext _ _ (fun is => (theta is * theta is + (x * x * (vecs is a * vecs is a) + y * y * (vecs is b * vecs is b))) + ((-2 * x * (vecs is a * theta is) + -2 * y * (vecs is b * theta is)) + 2 * x * y * (vecs is a * vecs is b)))%R) in H by (intros; ring).
  rewrite !total_add, !total_mul_l in H. fold x y in H. rewrite Ht, !Ho in H by assumption. rewrite !Z.eqb_refl in H.
  replace (a =? b) with false in H by (symmetry; now apply Z.eqb_neq). lra.
Qed.
Lemma threshold_unique n vecs theta a b : orthonormal n vecs -> total n (fun is => theta is * theta is)%R = 1%R -> 0 <= a < n -> 0 <= b < n ->
  (3 / 4 <= overlap n vecs theta a)%R -> (3 / 4 <= overlap n vecs theta b)%R -> a = b.
Proof.
  intros Ho Ht Ha Hb H1 H2. destruct (Z.eq_dec a b) as [|Hne]; [assumption|]. pose proof (bessel2 n vecs theta a b Ho Ht Ha Hb Hne).
  assert (3 / 4 * (3 / 4) <= overlap n vecs theta a * overlap n vecs theta a)%R by (apply Rmult_le_compat; lra).
  assert (3 / 4 * (3 / 4) <= overlap n vecs theta b * overlap n vecs theta b)%R by (apply Rmult_le_compat; lra). lra.
Qed.
Lemma overlap_column n vecs theta a (s : R) : orthonormal n vecs -> 0 <= a < n -> (s = 1 \/ s = -1)%R -> (forall is, 0 <= is < n -> theta is = (s * vecs is a)%R) ->
  forall g, 0 <= g < n -> overlap n vecs theta g = if g =? a then 1%R else 0%R.
Proof.
  intros Ho Ha Hs Ht g Hg. unfold overlap. rewrite (total_ext _ _ (fun is => s * (vecs is g * vecs is a))%R) by (intros; rewrite Ht by assumption; ring).
  rewrite total_mul_l, Ho by assumption. destruct (g =? a); destruct Hs as [-> | ->]; rewrite ?Rmult_0_r, ?Rmult_1_r, ?Rabs_R0, ?Rabs_R1, ?Rabs_Ropp; try reflexivity.
  replace (-1)%R with (- (1))%R by ring. now rewrite Rabs_Ropp, Rabs_R1.
Qed.
Lemma findSpecial_column locals n vecs theta a s : 10 <= n -> Permutation (concat locals) (list_prod (zrange 0 n) (zrange 0 n)) -> orthonormal n vecs -> 0 <= a < n ->
  (s = 1 \/ s = -1)%R -> (forall is, 0 <= is < n -> theta is = (s * vecs is a)%R) -> findSpecial n locals vecs theta = Ok a.
Proof.
  intros Hn HP Ho Ha Hs Ht. destruct (findSpecial_spec locals n vecs theta Hn HP) as (a' & -> & H). f_equal.
  pose proof (overlap_column n vecs theta a s Ho Ha Hs Ht) as HO. destruct H as [[-> H] | (Ha' & H & _)].
  - specialize (H a Ha). rewrite HO, Z.eqb_refl in H by assumption. lra.
  - rewrite HO in H by assumption. destruct (Z.eqb_spec a' a) as [->|]; [reflexivity|lra].
Qed.

(** * phonon relaxons *)
Lemma wRelax_ok locals n nr S ph vecs i j al : Permutation (concat locals) (list_prod (zrange 0 n) (zrange 0 n)) -> 0 <= al < nr -> al < n ->
  wRelax nr locals S ph vecs i j al = total n (fun is => ph j is * vVel S is i * vecs is al)%R.
Proof.
  intros H Ha Hn. unfold wRelax. rewrite (sum_pairs _ _ _ H). apply total_ext. intros is _. cbn [fst snd].
  rewrite <- (total_single n (fun al => ph j is * vVel S is i * vecs is al)%R al) by lia. apply total_ext. intros b Hb.
  destruct (Z.eqb_spec b al) as [->|]; [|now destruct (b <? nr)]. replace (al <? nr) with true by (symmetry; apply Z.ltb_lt; lia). reflexivity.
Qed.
Definition relaxonTerm nr locals S ph (A : Z -> R) vecs (lam : Z -> R) alpha0 al i j k l : R :=
  if rleb (lam al) 0 then 0%R else if al =? alpha0 then 0%R else
  let w := fun i j => wRelax nr locals S ph vecs i j al in
  (1 / 2 * (w i j * w k l + w i l * w k j) * sqrt (A i * A k) / lam al)%R.
Lemma phononRelaxons_eq numCalc nr locals shares S ph A vecs lam alpha0 t : phononRelaxons numCalc nr locals shares S ph A vecs lam alpha0 = Ok t ->
  forall i j k l, t i j k l = rsum (map (fun al => relaxonTerm nr locals S ph A vecs lam alpha0 al i j k l) (concat shares)).
Proof. unfold phononRelaxons. destruct (1 <? numCalc); [discriminate|]. intro H. injection H as <-. intros. apply (rsum_concat (fun al => relaxonTerm nr locals S ph A vecs lam alpha0 al i j k l)). Qed.
Lemma phononRelaxons_sym numCalc nr locals shares S ph A vecs lam alpha0 t : phononRelaxons numCalc nr locals shares S ph A vecs lam alpha0 = Ok t ->
  forall i j k l, t i j k l = t k l i j /\ t i j k l = t i l k j.
Proof.
  intros H i j k l. rewrite !(phononRelaxons_eq _ _ _ _ _ _ _ _ _ _ _ H). split; apply rsum_ext; intros al _; unfold relaxonTerm; destruct (rleb _ 0); try reflexivity; destruct (al =? alpha0); try reflexivity.
  - rewrite (Rmult_comm (A k) (A i)). unfold Rdiv. ring.
  - unfold Rdiv. ring.
Qed.
Lemma relaxonTerm_dyad nr locals S ph A vecs lam alpha0 al (u d : Z -> R) : (forall i, 0 <= i < 3 -> (0 <= A i)%R) ->
  (0 <= form4 (relaxonTerm nr locals S ph A vecs lam alpha0 al) (fun i j => u i * d j))%R.
Proof.
  intro HA. unfold form4, relaxonTerm. destruct (rleb (lam al) 0) eqn:E.
  { right. unfold over3. ring. }
  apply rleb_gt in E. destruct (al =? alpha0).
  { right. unfold over3. ring. }
  cbv zeta. set (w := fun i j => wRelax nr locals S ph vecs i j al).
  set (y := over3 (fun i => over3 (fun j => u i * d j * sqrt (A i) * w i j))%R).
  assert (P : (0 <= y * y / lam al)%R). { unfold Rdiv. apply Rmult_le_pos; [apply sq_nonneg|]. left. now apply Rinv_0_lt_compat. }
  replace (over3 _) with (y * y / lam al)%R; [exact P|].
  transitivity (over3 (fun i => over3 (fun j => over3 (fun k => over3 (fun l => (u i * d j) * (1 / 2 * (w i j * w k l + w i l * w k j) * (sqrt (A i) * sqrt (A k)) / lam al) * (u k * d l))%R)))).
  - unfold y, over3. field. lra.
  - repeat (apply over3_ext; intros). rewrite sqrt_mult by (apply HA; lia). reflexivity.
Qed.
Lemma form4_rsum {X} (f : X -> tensor4) l x : form4 (fun i j k m => rsum (map (fun a => f a i j k m) l)) x = rsum (map (fun a => form4 (f a) x) l).
Proof.
  unfold form4. rewrite <- over3_rsum. apply over3_ext; intros i _. rewrite <- over3_rsum. apply over3_ext; intros j _. rewrite <- over3_rsum. apply over3_ext; intros k _.
  rewrite <- over3_rsum. apply over3_ext; intros m _. rewrite rsum_mul_r, rsum_mul_l. reflexivity.
Qed.
Lemma form4_ext t t' x : (forall i j k l, t i j k l = t' i j k l) -> form4 t x = form4 t' x.
Proof. intro H. unfold form4. repeat (apply over3_ext; intros). now rewrite H. Qed.
Lemma phononRelaxons_dyad numCalc nr locals shares S ph A vecs lam alpha0 t u d : phononRelaxons numCalc nr locals shares S ph A vecs lam alpha0 = Ok t ->
  (forall i, 0 <= i < 3 -> (0 <= A i)%R) -> (0 <= form4 t (fun i j => u i * d j))%R.
Proof.
  intros H HA. rewrite (form4_ext _ _ _ (phononRelaxons_eq _ _ _ _ _ _ _ _ _ _ _ H)). rewrite form4_rsum. apply rsum_nonneg. intros. now apply relaxonTerm_dyad.
Qed.
Lemma phononRelaxons_processes nr S ph A vecs lam alpha0 locals locals' shares shares' :
  Permutation (concat locals) (concat locals') -> Permutation (concat shares) (concat shares') -> forall t t',
  phononRelaxons 1 nr locals shares S ph A vecs lam alpha0 = Ok t -> phononRelaxons 1 nr locals' shares' S ph A vecs lam alpha0 = Ok t' -> forall i j k l, t i j k l = t' i j k l.
Proof.
  intros H1 H2 t t' Ht Ht' i j k l. rewrite (phononRelaxons_eq _ _ _ _ _ _ _ _ _ _ _ Ht), (phononRelaxons_eq _ _ _ _ _ _ _ _ _ _ _ Ht').
  rewrite (rsum_perm_map _ _ _ H2). apply rsum_ext. intros al _. unfold relaxonTerm.
  assert (W : forall i j, wRelax nr locals S ph vecs i j al = wRelax nr locals' S ph vecs i j al). { intros. unfold wRelax. rewrite !rsum_concat. now apply rsum_perm_map. }
  destruct (rleb _ 0); [reflexivity|]. destruct (al =? alpha0); [reflexivity|]. now rewrite !W.
Qed.
Lemma diagonal_total n f al : 0 <= al < n -> total n (fun is => f is * diagonalVecs is al)%R = f al.
Proof. intro H. rewrite <- (total_single n f al H). apply total_ext. intros is _. unfold diagonalVecs. destruct (is =? al); ring. Qed.
(** a collision matrix without off-diagonal elements: relaxons are states *)
Lemma phononRelaxons_diagonal locals shares S ph A tau t : let n := vn S in
  Permutation (concat locals) (list_prod (zrange 0 n) (zrange 0 n)) -> Permutation (concat shares) (zrange 0 n) -> (forall is, 0 <= is < n -> (0 < tau is)%R) ->
  phononRelaxons 1 n locals shares S ph A diagonalVecs (fun al => 1 / tau al)%R (-1) = Ok t ->
  forall i j k l, t i j k l = total n (fun is => (ph j is * vVel S is i) * (ph l is * vVel S is k) * sqrt (A i * A k) * tau is)%R.
Proof.
  intros n HL HS Htau H i j k l. rewrite (phononRelaxons_eq _ _ _ _ _ _ _ _ _ _ _ H). rewrite (rsum_perm_map _ _ _ HS). apply total_ext. intros al Hal.
  unfold relaxonTerm. cbv zeta. rewrite !(wRelax_ok locals n) by (assumption || lia).
  rewrite !(diagonal_total n (fun is => ph _ is * vVel S is _)%R) by assumption.
  pose proof (Htau al Hal) as Ht. assert (0 < 1 / tau al)%R by (unfold Rdiv; rewrite Rmult_1_l; now apply Rinv_0_lt_compat).
  replace (rleb (1 / tau al) 0) with false by (symmetry; apply rleb_gt; lra). replace (al =? -1) with false by (symmetry; apply Z.eqb_neq; lia).
  field. lra.
Qed.

(** * electron relaxons *)
Lemma electron_few numCalc nr kBT N V locals mine S vecs lam a0 ae n : numCalc <= 1 -> 0 < n -> nr < n -> Permutation (concat locals) (list_prod (zrange 0 n) (zrange 0 n)) ->
  electronRelaxons numCalc nr kBT N V locals mine S vecs lam a0 ae = UB.
Proof.
  intros Hc Hn Hr H. unfold electronRelaxons. replace (1 <? numCalc) with false by (symmetry; apply Z.ltb_ge; lia).
  assert (K : In (0, n - 1) (concat locals)). { apply (Permutation_in _ (Permutation_sym H)), in_prod_iff. split; apply in_zrange; lia. }
  assert (E : mapM (fun own => mapM (fun p => do u <- relaxonRead nr lam a0 ae p; Ok (p, u)) own) locals = UB); [|now rewrite E].
  clear H. induction locals as [|own locals IH]; [contradiction|]. cbn [mapM]. cbn [concat] in K.
  assert (G : forall own, (exists x, mapM (fun p => do u <- relaxonRead nr lam a0 ae p; Ok (p, u)) own = Ok x) \/ mapM (fun p => do u <- relaxonRead nr lam a0 ae p; Ok (p, u)) own = UB).
  { clear. induction own as [|p own IH]; [left; now exists []|]. cbn [mapM].
    assert (Q : relaxonRead nr lam a0 ae p = UB \/ exists u, relaxonRead nr lam a0 ae p = Ok u) by (unfold relaxonRead; destruct (nr <=? snd p); [now left|right; eexists; reflexivity]).
    destruct Q as [-> | [u ->]]; [now right|]. cbn [bind].
    destruct IH as [[x ->] | ->]; [left; cbn; eexists; reflexivity|right; reflexivity]. }
  apply in_app_or in K. destruct K as [K | K].
  - assert (E : mapM (fun p => do u <- relaxonRead nr lam a0 ae p; Ok (p, u)) own = UB); [|now rewrite E].
    clear IH. induction own as [|p own IH']; [contradiction|]. cbn [mapM]. destruct K as [-> | K].
    + unfold relaxonRead. cbn [snd]. replace (nr <=? n - 1) with true by (symmetry; apply Z.leb_le; lia). reflexivity.
    + rewrite (IH' K). unfold relaxonRead. destruct (nr <=? snd p); reflexivity.
  - rewrite (IH K). destruct (G own) as [[x ->] | ->]; reflexivity.
Qed.
Definition readable (lam : Z -> R) (a0 ae a : Z) : bool := negb (rleb (lam a) 0) && negb (a =? a0) && negb (a =? ae).
Definition eRel (kBT : R) (n : Z) S vecs (lam : Z -> R) a0 ae k l al : R :=
  if readable lam a0 ae al then total n (fun is => vK S is k * vVel S is l * sqrt (vPop S is) / kBT / lam al * vecs is al)%R else 0%R.
Definition eF kBT n S vecs lam a0 ae i j is : R := total n (fun al => if readable lam a0 ae al then vecs is al * eRel kBT n S vecs lam a0 ae i j al else 0)%R.
Lemma electron_ok kBT N V locals mine S vecs lam a0 ae : let n := vn S in
  Permutation (concat locals) (list_prod (zrange 0 n) (zrange 0 n)) -> Permutation (concat mine) (zrange 0 n) ->
  exists t, electronRelaxons 1 n kBT N V locals mine S vecs lam a0 ae = Ok t /\ forall i j k l, t i j k l =
    total n (fun is => 1 / 2 * vPop S is * (1 / V / N) * sqrt (vPop S is) * (vK S is i * vVel S is j * eF kBT n S vecs lam a0 ae k l is + vK S is i * vVel S is l * eF kBT n S vecs lam a0 ae k j is))%R.
Proof.
  intros n HL HM. unfold electronRelaxons. change (1 <? 1) with false. cbv iota.
  assert (E : mapM (fun own => mapM (fun p => do u <- relaxonRead n lam a0 ae p; Ok (p, u)) own) locals = Ok (map (map (fun p => (p, readable lam a0 ae (snd p)))) locals)).
  { assert (Hin : forall p, In p (concat locals) -> snd p < n).
    { intros [x y] Hp. apply (Permutation_in _ HL), in_prod_iff in Hp. destruct Hp as [_ Hy]. apply in_zrange in Hy. cbn. lia. }
    clear HL. induction locals as [|own locals IH]; [reflexivity|]. cbn [mapM map concat] in *.
    assert (E1 : mapM (fun p => do u <- relaxonRead n lam a0 ae p; Ok (p, u)) own = Ok (map (fun p => (p, readable lam a0 ae (snd p))) own)).
    { assert (Ho : forall p, In p own -> snd p < n) by (intros; apply Hin, in_or_app; now left). clear -Ho.
      induction own as [|p own IH]; [reflexivity|]. cbn [mapM map]. unfold relaxonRead at 1. replace (n <=? snd p) with false by (symmetry; apply Z.leb_gt, Ho; now left).
      cbn [bind]. rewrite IH by (intros; apply Ho; now right). reflexivity. }
    rewrite E1. cbn [bind]. rewrite IH by (intros; apply Hin, in_or_app; now right). reflexivity. }
  rewrite E. cbn [bind]. eexists. split; [reflexivity|]. intros i j k l. cbv beta zeta.
  set (used := map _ locals). set (fr := fRelaxons kBT S vecs lam used). assert (Hfr : forall k l al, 0 <= al < n -> fr k l al = eRel kBT n S vecs lam a0 ae k l al).
  { intros k' l' al Hal. unfold fr, fRelaxons, used. rewrite map_map.
    rewrite (rsum_ext _ (fun own => rsum (map (fun p => if readable lam a0 ae (snd p) then if snd p =? al then vK S (fst p) k' * vVel S (fst p) l' * sqrt (vPop S (fst p)) / kBT / lam (snd p) * vecs (fst p) (snd p) else 0 else 0)%R own))).
    2:{ intros own _. rewrite map_map. apply rsum_ext. intros [x y] _. reflexivity. }
    rewrite (sum_pairs _ _ _ HL). unfold eRel. cbn [fst snd].
    destruct (readable lam a0 ae al) eqn:Hr.
    - apply total_ext. intros is His. rewrite <- (total_single n (fun al => vK S is k' * vVel S is l' * sqrt (vPop S is) / kBT / lam al * vecs is al)%R al) by assumption.
      apply total_ext. intros b _. destruct (Z.eqb_spec b al) as [->|]; [now rewrite Hr|]. now destruct (readable lam a0 ae b).
    - unfold total at 1. apply rsum_zero. intros is _. apply rsum_zero. intros b _. destruct (Z.eqb_spec b al) as [->|]; [now rewrite Hr|]. now destruct (readable lam a0 ae b). }
  set (ff := fStates vecs fr used). assert (Hff : forall i j is, 0 <= is < n -> ff i j is = eF kBT n S vecs lam a0 ae i j is).
  { intros i' j' is His. unfold ff, fStates, used. rewrite map_map.
    rewrite (rsum_ext _ (fun own => rsum (map (fun p => if readable lam a0 ae (snd p) then if fst p =? is then vecs (fst p) (snd p) * fr i' j' (snd p) else 0 else 0)%R own))).
    2:{ intros own _. rewrite map_map. apply rsum_ext. intros [x y] _. reflexivity. }
    rewrite (sum_pairs _ _ _ HL), total_swap. unfold eF. apply total_ext. intros al Hal. cbn [fst snd].
    destruct (readable lam a0 ae al); [|unfold total; now apply rsum_zero].
    rewrite <- (Hfr i' j' al Hal). apply (total_single n (fun x => vecs x al * fr i' j' al)%R is His). }
  rewrite rsum_concat, (rsum_perm_map _ _ _ HM). apply total_ext. intros is His. now rewrite !Hff.
Qed.
Lemma electron_diagonal kBT N V locals mine S tau t : let n := vn S in
  Permutation (concat locals) (list_prod (zrange 0 n) (zrange 0 n)) -> Permutation (concat mine) (zrange 0 n) -> (forall is, 0 <= is < n -> (0 < tau is)%R /\ (0 <= vPop S is)%R) ->
  electronRelaxons 1 n kBT N V locals mine S diagonalVecs (fun al => 1 / tau al)%R (-1) (-1) = Ok t ->
  forall i j k l, t i j k l = total n (fun is => vK S is i * vVel S is j * vK S is k * vVel S is l * (vPop S is * vPop S is) * tau is / kBT * (1 / V / N))%R.
Proof.
  intros n HL HM Htau H i j k l. destruct (electron_ok kBT N V locals mine S diagonalVecs (fun al => 1 / tau al)%R (-1) (-1) HL HM) as (t' & E & Ht'). fold n in E.
  rewrite H in E. injection E as <-. rewrite Ht'. apply total_ext. intros is His. fold n.
  assert (Hr : forall al, 0 <= al < n -> readable (fun al => 1 / tau al)%R (-1) (-1) al = true).
  { intros al Hal. unfold readable. destruct (Htau al Hal) as [Ht _]. assert (0 < 1 / tau al)%R by (unfold Rdiv; rewrite Rmult_1_l; now apply Rinv_0_lt_compat).
    replace (rleb (1 / tau al) 0) with false by (symmetry; apply rleb_gt; lra). replace (al =? -1) with false by (symmetry; apply Z.eqb_neq; lia). reflexivity. }
  assert (HF : forall a b, eF kBT n S diagonalVecs (fun al => 1 / tau al)%R (-1) (-1) a b is = (vK S is a * vVel S is b * sqrt (vPop S is) / kBT * tau is)%R).
  { intros a b. unfold eF. rewrite (total_ext _ _ (fun al => if al =? is then eRel kBT n S diagonalVecs (fun al => 1 / tau al)%R (-1) (-1) a b al else 0%R)).
    2:{ intros al Hal. rewrite Hr by assumption. unfold diagonalVecs at 1. rewrite (Z.eqb_sym is al). destruct (al =? is); ring. }
    rewrite (total_single n _ is His). unfold eRel. rewrite Hr by assumption. rewrite (diagonal_total n (fun x => vK S x a * vVel S x b * sqrt (vPop S x) / kBT / (1 / tau is))%R is His).
    destruct (Htau is His) as [Ht _]. unfold Rdiv. rewrite Rmult_1_l, Rinv_inv. ring. }
  rewrite !HF. destruct (Htau is His) as [_ Hp].
  transitivity (vK S is i * vVel S is j * vK S is k * vVel S is l * (vPop S is * (sqrt (vPop S is) * sqrt (vPop S is))) * tau is / kBT * (1 / V / N))%R.
  - set (x := sqrt (vPop S is)). unfold Rdiv. generalize (/ kBT)%R, (1 * / V * / N)%R. intros b c. replace (1 * / 2)%R with (/ 2)%R by ring. field.
  - now rewrite sqrt_sqrt.
Qed.

(** * coefficients of the real-space solver *)
Lemma Du_total locals n ph D i j : Permutation (concat locals) (list_prod (zrange 0 n) (zrange 0 n)) ->
  Du locals ph D i j = total n (fun a => total n (fun b => ph i a * D a b * ph j b)%R).
Proof. intro H. unfold Du. rewrite (sum_pairs _ _ _ H). reflexivity. Qed.
Lemma Du_sym locals n ph D i j : Permutation (concat locals) (list_prod (zrange 0 n) (zrange 0 n)) -> (forall a b, 0 <= a < n -> 0 <= b < n -> D a b = D b a) -> Du locals ph D i j = Du locals ph D j i.
Proof. intros H HD. rewrite !(Du_total _ _ _ _ _ _ H), total_swap. apply total_ext. intros a Ha. apply total_ext. intros b Hb. rewrite HD by assumption. ring. Qed.
Lemma Du_conserved locals n ph D i j : Permutation (concat locals) (list_prod (zrange 0 n) (zrange 0 n)) ->
  (forall a, 0 <= a < n -> total n (fun b => D a b * ph j b)%R = 0%R) -> Du locals ph D i j = 0%R.
Proof.
  intros H HD. rewrite (Du_total _ _ _ _ _ _ H). apply rsum_zero. intros a Ha. apply in_zrange in Ha.
  transitivity (ph i a * total n (fun b => D a b * ph j b))%R; [rewrite <- total_mul_l; apply total_ext; intros; ring|]. rewrite HD by lia. ring.
Qed.
Lemma Du_form locals n ph D x : Permutation (concat locals) (list_prod (zrange 0 n) (zrange 0 n)) ->
  form2 (Du locals ph D) x = total n (fun a => total n (fun b => over3 (fun i => x i * ph i a) * D a b * over3 (fun i => x i * ph i b))%R).
Proof.
  intro H. unfold form2.
  transitivity (over3 (fun i => over3 (fun j => total n (fun a => total n (fun b => x i * (ph i a * D a b * ph j b) * x j)%R)))).
  { apply over3_ext; intros i _. apply over3_ext; intros j _. rewrite (Du_total _ _ _ _ _ _ H). rewrite <- total_mul_l, <- total_mul_r. apply total_ext. intros.
    now rewrite <- total_mul_l, <- total_mul_r. }
  unfold over3 at 1 2 3 4. rewrite <- !total_add. apply total_ext. intros a _. rewrite <- !total_add. apply total_ext. intros b _. unfold over3. ring.
Qed.
Lemma Wji0_total g S ranks ph th j i : Permutation (concat ranks) (zrange 0 (vn S)) ->
  Wji0 g S ranks ph th j i = total (vn S) (fun is => if acoustic g S is then 0 else ph i is * vVel S is j * th is)%R.
Proof. intro H. unfold Wji0. now apply reduce_total. Qed.
