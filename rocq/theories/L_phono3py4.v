From Coq Require Import Reals QArith Qabs Permutation Sorted.
From Verif Require Import Base BaseLemmas M_utilities L_utilities M_points L_points M_phonon L_matrix M_phono3py S_phono3py L_phono3py L_phono3py3.
From Coq Require Import Lia Lqa.
Open Scope Z_scope.

Lemma Qltb_comp a b a' b' : (a == a')%Q -> (b == b')%Q -> Qltb a b = Qltb a' b'.
Proof. intros E E'. destruct (Qltb a' b') eqn:H; [apply Qltb_iff; apply Qltb_iff in H; now rewrite E, E'|apply Qltb_niff; apply Qltb_niff in H; now rewrite E, E']. Qed.
Lemma sameVec_get a b i : sameVec a b -> 0 <= i < 3 -> (a i == b i)%Q.
Proof. intros (H0 & H1 & H2) Hi. assert (i = 0 \/ i = 1 \/ i = 2) as [-> | [-> | ->]] by lia; assumption. Qed.
Lemma p3Weight_comp F r r' : sameVec r r' -> p3Weight F r = p3Weight F r'.
Proof.
  intro H. unfold p3Weight. assert (E : forall l k, p3Loop r l k = p3Loop r' l k); [|now rewrite E]. induction l as [|v l IH]; intro k; [reflexivity|]. cbn [p3Loop].
  assert (EC : (qdot r v - qdot v v / 2 == qdot r' v - qdot v v / 2)%Q) by (assert (EQ : (qdot r v == qdot r' v)%Q) by (apply qdot_comp; [intros; now apply sameVec_get|reflexivity]); now rewrite EQ).
  rewrite (Qltb_comp p3tol _ p3tol _ (Qeq_refl _) EC). destruct (Qltb _ _); [reflexivity|]. rewrite (Qltb_comp (Qabs _) p3tol (Qabs (qdot r' v - qdot v v / 2)) p3tol) by (try reflexivity; now rewrite EC). apply IH.
Qed.
Lemma p3vector_same F R R' na nb : sameVec R R' -> sameVec (p3vector F R na nb) (p3vector F R' na nb).
Proof. intros (H0 & H1 & H2). unfold sameVec, p3vector. now rewrite H0, H1, H2. Qed.

(** * the set of lattice vectors *)
Lemma bravais_fold F : forall l acc, let f := fun l (x : Z * Z * z3) => let '(na, nb, n) := x in if Qltb 0 (p3Weight F (p3vector F (lat (pCell F) n) na nb)) then setInsert (lat (pCell F) n) l else l in
  ordered acc -> ordered (fold_left f l acc) /\ (forall x, In x acc -> In x (fold_left f l acc)) /\
  (forall x, In x (fold_left f l acc) -> In x acc \/ exists na nb n, In (na, nb, n) l /\ x = lat (pCell F) n) /\
  (forall na nb n, In (na, nb, n) l -> (0 < p3Weight F (p3vector F (lat (pCell F) n) na nb))%Q -> exists x, In x (fold_left f l acc) /\ sameVec x (lat (pCell F) n)).
Proof.
  induction l as [|[[na nb] n] l IH]; intros acc f HO; cbn [fold_left].
  - split; [exact HO|]. split; [auto|]. split; [now left|]. contradiction.
  - set (acc' := f acc (na, nb, n)). assert (HO' : ordered acc') by (unfold acc', f; destruct (Qltb _ _); [now apply setInsert_ordered|exact HO]).
    destruct (IH acc' HO') as (I1 & I2 & I3 & I4). fold f in I1, I2, I3, I4. split; [exact I1|]. split; [|split].
    + intros x Hx. apply I2. unfold acc', f. destruct (Qltb _ _); [now apply setInsert_old|exact Hx].
    + intros x Hx. destruct (I3 x Hx) as [Ha | (a & b & k & Hin & E)]; [|right; exists a, b, k; split; [now right|exact E]]. unfold acc', f in Ha. destruct (Qltb _ _); [|now left].
      apply setInsert_in in Ha. destruct Ha as [-> | Ha]; [right; exists na, nb, n; split; [now left|reflexivity]|now left].
    + intros a b k [E | Hin] Hw; [|now apply (I4 a b k)]. injection E as -> -> ->. destruct (setInsert_new (lat (pCell F) k) acc) as (x & Hx & Ex). exists x. split; [|exact Ex]. apply I2. unfold acc', f. now rewrite Qltb_true.
Qed.
Section Reader.
Variables (F : p3file) (s : z3 -> Z).
Hypothesis HS : wellSized F.
Hypothesis HI : independent (pCell F).
Hypothesis HC : orderedSupercell F s.
Let gp : forall c, 0 <= c < 3 -> 0 < pGrid F c := proj1 (proj2 (proj2 HS)).

Lemma in_pairs na nb n : In (na, nb, n) (pairsWindow F) <-> 0 <= na < pAt F /\ 0 <= nb < pAt F /\ inWindow F n.
Proof.
  destruct n as [[n1 n2] n3]. unfold pairsWindow, p3range, z3. cbn [inWindow]. rewrite !in_prod_iff, !in_zrange. pose proof (gp 0 ltac:(lia)). pose proof (gp 1 ltac:(lia)). pose proof (gp 2 ltac:(lia)). lia.
Qed.
Lemma in_window n : In n (window F) <-> inWindow F n.
Proof.
  destruct n as [[n1 n2] n3]. unfold window, p3range, z3. cbn [inWindow]. rewrite in_map_iff. pose proof (gp 0 ltac:(lia)). pose proof (gp 1 ltac:(lia)). pose proof (gp 2 ltac:(lia)). split.
  - intros ([[a b] c] & E & Hin). injection E as -> -> ->. rewrite !in_prod_iff, !in_zrange in Hin. lia.
  - intro Hw. exists (n3, n2, n1). split; [reflexivity|]. rewrite !in_prod_iff, !in_zrange. lia.
Qed.
Lemma NoDup_window : NoDup (window F).
Proof.
  unfold window. apply FinFun.Injective_map_NoDup; [intros [[a b] c] [[a' b'] c'] E; injection E as -> -> ->; reflexivity|]. repeat apply NoDup_list_prod; apply NoDup_zrange.
Qed.
Lemma NoDup_pairs : NoDup (pairsWindow F).
Proof. unfold pairsWindow. repeat apply NoDup_list_prod; apply NoDup_zrange. Qed.
Lemma bravais_ordered : ordered (bravais F).
Proof. apply (bravais_fold F (pairsWindow F) []). constructor. Qed.
Lemma bravais_from x : In x (bravais F) -> exists n, inWindow F n /\ x = lat (pCell F) n.
Proof.
  intro Hx. destruct (bravais_fold F (pairsWindow F) [] ltac:(constructor)) as (_ & _ & H & _). destruct (H x Hx) as [[] | (na & nb & n & Hin & E)]. exists n. split; [|exact E]. apply in_pairs in Hin. apply Hin.
Qed.
Lemma bravais_has na nb n : 0 <= na < pAt F -> 0 <= nb < pAt F -> inWindow F n -> (0 < p3Weight F (p3vector F (lat (pCell F) n) na nb))%Q -> exists ir x, findVec (bravais F) (lat (pCell F) n) = Some ir /\ zget (bravais F) ir = Some x /\ sameVec x (lat (pCell F) n).
Proof.
  intros Ha Hb Hn Hw. destruct (bravais_fold F (pairsWindow F) [] ltac:(constructor)) as (_ & _ & _ & H). destruct (H na nb n ltac:(apply in_pairs; auto) Hw) as (x & Hx & Ex).
  destruct (findVec (bravais F) (lat (pCell F) n)) as [ir|] eqn:Ef; [|exfalso; now apply (findVec_none _ _ x Ef)]. destruct (findVec_some _ _ _ Ef) as (y & Hy & Ey). now exists ir, y.
Qed.
Lemma same_cell n m : sameVec (lat (pCell F) n) (lat (pCell F) m) -> n = m.
Proof. intro H. apply HI. intros i Hi. now apply sameVec_get. Qed.
Lemma findVec_inj n m ir : findVec (bravais F) (lat (pCell F) n) = Some ir -> findVec (bravais F) (lat (pCell F) m) = Some ir -> n = m.
Proof.
  intros H K. apply findVec_some in H, K. destruct H as (x & Hx & Ex), K as (y & Hy & Ey). rewrite Hx in Hy. injection Hy as <-. apply same_cell. apply vsame_trans with x; [now apply vsame_sym|exact Ey].
Qed.

(** * weights *)
Definition uW (x : Z * Z * z3) : list (wkey * Q) := let '(na, nb, n) := x in
  if Qltb 0 (p3Weight F (p3vector F (lat (pCell F) n) na nb)) then match findVec (bravais F) (lat (pCell F) n) with Some ir => [((ir, na, nb), p3Weight F (p3vector F (lat (pCell F) n) na nb))] | None => [] end else [].
Lemma weights_updates : p3weights F = Ok (applyU wkeyb (fun _ v => v) (fun _ => 0%Q) (flat_map uW (pairsWindow F))).
Proof.
  unfold p3weights. apply foldM_apply. intros [[na nb] n] m Hin. apply in_pairs in Hin. unfold uW. destruct (Qltb 0 _) eqn:Ew; [|reflexivity]. apply Qltb_iff in Ew.
  destruct (bravais_has na nb n (proj1 Hin) (proj1 (proj2 Hin)) (proj2 (proj2 Hin)) Ew) as (ir & x & -> & _). reflexivity.
Qed.
Lemma in_uW na nb n k v : In (k, v) (uW (na, nb, n)) <-> exists ir, k = (ir, na, nb) /\ (0 < p3Weight F (p3vector F (lat (pCell F) n) na nb))%Q /\ findVec (bravais F) (lat (pCell F) n) = Some ir /\ v = p3Weight F (p3vector F (lat (pCell F) n) na nb).
Proof.
  unfold uW. destruct (Qltb 0 _) eqn:Ew.
  - apply Qltb_iff in Ew. destruct (findVec _ _) as [ir|] eqn:Ef.
    + split; [intros [E | []]; injection E as <- <-; exists ir; auto|]. intros (ir' & -> & _ & E & ->). injection E as ->. now left.
    + split; [contradiction|]. intros (ir' & _ & _ & E & _). discriminate.
  - apply Qltb_niff in Ew. split; [contradiction|]. intros (ir' & _ & E & _). exfalso. lra.
Qed.
Lemma p3Weight_nonneg r : (0 <= p3Weight F r)%Q.
Proof. unfold p3Weight. destruct (p3Loop _ _ _); [unfold Qle; cbn; lia|apply Qle_refl]. Qed.
Lemma weights_val ir R na nb : zget (bravais F) ir = Some R -> 0 <= na < pAt F -> 0 <= nb < pAt F ->
  applyU wkeyb (fun _ v => v) (fun _ => 0%Q) (flat_map uW (pairsWindow F)) (ir, na, nb) = p3Weight F (p3vector F R na nb).
Proof.
  intros HR Ha Hb. destruct (bravais_from R) as (n & Hn & ->); [apply zget_Some in HR; apply HR|]. pose proof (findVec_at _ (lat (pCell F) n) ir _ bravais_ordered HR (vsame_refl _)) as Ef.
  destruct (Qlt_le_dec 0 (p3Weight F (p3vector F (lat (pCell F) n) na nb))) as [Hw | Hw].
  - rewrite (applyU_in wkeyb (fun _ v => v) wkeyb_spec _ _ _ (p3Weight F (p3vector F (lat (pCell F) n) na nb))); [reflexivity| |].
    + apply NoDup_keys; [apply NoDup_pairs| |].
      * intros [[a b] k] _. unfold uW. destruct (Qltb _ _); [|constructor]. destruct (findVec (bravais F) (lat (pCell F) k)); [apply NoDup_cons; [intros []|constructor]|constructor].
      * intros [[a b] k] [[a' b'] k'] key v v' _ _ H1 H2. apply in_uW in H1, H2. destruct H1 as (i1 & -> & _ & E1 & _), H2 as (i2 & E & _ & E2 & _). injection E as <- <- <-. f_equal. now apply (findVec_inj k k' i1).
    + apply in_flat_map. exists (na, nb, n). split; [now apply in_pairs|]. apply in_uW. exists ir. auto.
  - assert (E0 : p3Weight F (p3vector F (lat (pCell F) n) na nb) = 0%Q). { unfold p3Weight in *. destruct (p3Loop _ _ _); [exfalso; revert Hw; unfold Qle; cbn; lia|reflexivity]. }
    rewrite E0. rewrite (applyU_out wkeyb (fun _ v => v) wkeyb_spec); [reflexivity|]. intro Hin. apply in_map_iff in Hin. destruct Hin as ([k v] & Ek & Hin). cbn [fst] in Ek. subst k. apply in_flat_map in Hin. destruct Hin as ([[a b] k] & _ & Hin). apply in_uW in Hin.
    destruct Hin as (i1 & E & Hp & E1 & _). injection E as <- <- <-. rewrite (findVec_inj k n ir E1 Ef) in Hp. rewrite E0 in Hp. revert Hp. apply Qlt_irrefl.
Qed.

(** * force constants *)
Definition pm (a : Z) : Z := match zget (p2s F) a with Some x => x | None => 0 end.
Lemma pm_get a : 0 <= a < pAt F -> zget (p2s F) a = Some (pm a) /\ 0 <= pm a /\ pm a + numCells F <= numSup F.
Proof.
  intro Ha. pose proof HS as HS0; destruct HS0 as (_ & _ & _ & L & Hx). destruct (zget_inrange (p2s F) a ltac:(lia)) as [x E]. unfold pm. rewrite E. split; [reflexivity|]. now apply (Hx a).
Qed.
Lemma positive1_mod n N : 0 < N -> positive1 n N = n mod N.
Proof.
  intro HN. unfold positive1. rewrite modZ_pos by exact HN. pose proof (Z.mod_pos_bound (n + 1) N HN). pose proof (Z.mod_pos_bound n N HN).
  pose proof (Z.div_mod n N ltac:(lia)). destruct (Z.leb_spec ((n + 1) mod N) 0) as [L | L].
  - assert ((n + 1) mod N = 0) as E by lia. apply Z.mod_divide in E; [|lia]. destruct E as [q E]. replace ((n + 1) mod N) with 0 by (symmetry; apply Z.mod_divide; [lia|now exists q]).
    apply Z.mod_unique with (q - 1); lia.
  - pose proof (Z.div_mod (n + 1) N ltac:(lia)). apply Z.mod_unique with ((n + 1) / N); lia.
Qed.
Lemma positive3_wrap n : positive3 F n = wrap F n.
Proof. destruct n as [[n1 n2] n3]. unfold positive3, wrap. rewrite !positive1_mod by (apply gp; lia). reflexivity. Qed.
Lemma wrap_range n : 0 <= fst (fst (wrap F n)) < pGrid F 0 /\ 0 <= snd (fst (wrap F n)) < pGrid F 1 /\ 0 <= snd (wrap F n) < pGrid F 2.
Proof. destruct n as [[n1 n2] n3]. unfold wrap. cbn [fst snd]. repeat split; apply Z.mod_pos_bound, gp; lia. Qed.
Lemma findRow_skip v l l' : (forall t, In t l -> exists i, 0 <= i < 3 /\ ((1 # 1000000000000) <= Qabs (v i - cellPos F t i))%Q) -> findRow F (l ++ l') v = findRow F l' v.
Proof.
  induction l as [|t l IH]; intro H; [reflexivity|]. cbn [app findRow]. rewrite Qltb_false; [apply IH; intros; apply H; now right|].
  destruct (H t (or_introl eq_refl)) as (i & Hi & Hv). 
  assert (SQ : forall x, ((1 # 1000000000000) <= Qabs x)%Q -> ((1 # 1000000000000) * (1 # 1000000000000) <= x * x)%Q).
  { intros x Hx. setoid_replace (x * x)%Q with (Qabs x * Qabs x)%Q by (rewrite <- Qabs_Qmult; symmetry; apply Qabs_pos; destruct (Qlt_le_dec x 0); nra). nra. }
  specialize (SQ _ Hv). unfold qdot, vdiff.
  assert (N : forall x : Q, (0 <= x * x)%Q) by (intro x; destruct (Qlt_le_dec x 0); nra).
  pose proof (N (v 0%Z - cellPos F t 0%Z)%Q). pose proof (N (v 1%Z - cellPos F t 1%Z)%Q). pose proof (N (v 2%Z - cellPos F t 2%Z)%Q).
  assert (i = 0 \/ i = 1 \/ i = 2) as [-> | [-> | ->]] by lia; lra.
Qed.
Lemma findIndexRow_ok n : findIndexRow F (lat (pCell F) (positive3 F n)) = Ok (s (wrap F n)).
Proof.
  rewrite positive3_wrap. destruct (HC (wrap F n) (wrap_range n)) as (Hr & He & Hb). unfold findIndexRow. replace (numCells F) with (s (wrap F n) + (numCells F - s (wrap F n))) by lia.
  rewrite <- zrange_app by lia. rewrite findRow_skip by (intros t Ht; apply in_zrange in Ht; apply Hb; lia). rewrite zrange_cons by lia. cbn [findRow]. rewrite Qltb_true; [f_equal; lia|].
  rewrite (qdot_comp _ _ (fun _ => 0%Q) (fun _ => 0%Q)).
  - reflexivity.
  - intros i Hi. unfold vdiff. rewrite Z.add_0_l, (He i Hi). ring.
  - intros i Hi. unfold vdiff. rewrite Z.add_0_l, (He i Hi). ring.
Qed.
Definition mU := applyU mkeyb Rplus.
Definition uXyz (na nb nc ir2 ir3 iR2 iR3 : Z) (x : z3) : list (mkey * R) := let '(i, j, k) := x in
  [((na * 3 + i, nb * 3 + j, nc * 3 + k, iR3, iR2), (fc3 F (pm na) (pm nb + ir2) (pm nc + ir3) i j k * p3conv F)%R)].
Definition uC r3 na nb ir2 ir3 iR2 iR3 nc := if Qeq_bool (p3Weight F (p3vector F r3 na nc)) 0 then [] else flat_map (uXyz na nb nc ir2 ir3 iR2 iR3) xyz.
Definition uAB r2 r3 ir2 ir3 iR2 iR3 (ab : Z * Z) := if Qeq_bool (p3Weight F (p3vector F r2 (fst ab) (snd ab))) 0 then [] else flat_map (uC r3 (fst ab) (snd ab) ir2 ir3 iR2 iR3) (zrange 0 (pAt F)).
Definition u3 r2 ir2 iR2 n := match findVec (bravais F) (lat (pCell F) n) with None => [] | Some iR3 => flat_map (uAB r2 (lat (pCell F) n) ir2 (s (wrap F n)) iR2 iR3) (list_prod (zrange 0 (pAt F)) (zrange 0 (pAt F))) end.
Definition u2 n := match findVec (bravais F) (lat (pCell F) n) with None => [] | Some iR2 => flat_map (u3 (lat (pCell F) n) (s (wrap F n)) iR2) (window F) end.
Lemma in_xyz i j k : In (i, j, k) xyz <-> 0 <= i < 3 /\ 0 <= j < 3 /\ 0 <= k < 3.
Proof. unfold xyz. rewrite !in_prod_iff, !in_zrange. lia. Qed.
Lemma stepC_ok r3 na nb ir2 ir3 iR2 iR3 m nc : 0 <= na < pAt F -> 0 <= nb < pAt F -> 0 <= nc < pAt F -> 0 <= ir2 < numCells F -> 0 <= ir3 < numCells F -> 
  stepC F r3 na nb ir2 ir3 iR2 iR3 m nc = Ok (mU m (uC r3 na nb ir2 ir3 iR2 iR3 nc)).
Proof.
  intros Ha Hb Hc H2 H3. unfold stepC, uC. destruct (Qeq_bool _ _); [reflexivity|]. apply foldM_apply. intros [[i j] k] m' Hin. apply in_xyz in Hin. unfold stepXyz, uXyz.
  pose proof HS as HS0; destruct HS0 as (_ & B & _). rewrite !(fun a x (H : 0 <= a < pAt F) (K : 0 <= x < 3) => proj1 (compress2_ok a x (pAt F) 3 H K B)) by lia. cbn [bind]. unfold fcAt.
  destruct (pm_get na Ha) as (Ea & A1 & A2). destruct (pm_get nb Hb) as (Eb & B1 & B2). destruct (pm_get nc Hc) as (Ec & C1 & C2). rewrite Ea, Eb, Ec.
  replace ((0 <=? pm na) && (pm na <? numSup F)) with true by (symmetry; apply Bool.andb_true_iff; split; [apply Z.leb_le|apply Z.ltb_lt]; lia).
  replace ((0 <=? pm nb + ir2) && (pm nb + ir2 <? numSup F)) with true by (symmetry; apply Bool.andb_true_iff; split; [apply Z.leb_le|apply Z.ltb_lt]; lia).
  replace ((0 <=? pm nc + ir3) && (pm nc + ir3 <? numSup F)) with true by (symmetry; apply Bool.andb_true_iff; split; [apply Z.leb_le|apply Z.ltb_lt]; lia). reflexivity.
Qed.
Lemma cells_range n : 0 <= s (wrap F n) < numCells F. Proof. apply (HC (wrap F n) (wrap_range n)). Qed.
Lemma fold_ok m : foldM (step2 F (bravais F)) (window F) m = Ok (mU m (flat_map u2 (window F))).
Proof.
  apply foldM_apply. intros n2 m2 _. unfold step2, u2. destruct (findVec (bravais F) (lat (pCell F) n2)) as [iR2|]; [|reflexivity]. rewrite findIndexRow_ok. cbn [bind].
  apply foldM_apply. intros n3 m3 _. unfold step3, u3. destruct (findVec (bravais F) (lat (pCell F) n3)) as [iR3|]; [|reflexivity]. rewrite findIndexRow_ok. cbn [bind].
  apply foldM_apply. intros [na nb] m4 Hab. apply in_prod_iff in Hab. rewrite !in_zrange in Hab. unfold stepAB, uAB. cbn [fst snd]. destruct (Qeq_bool _ _); [reflexivity|].
  apply foldM_apply. intros nc m5 Hc. apply in_zrange in Hc. apply stepC_ok; try lia; apply cells_range.
Qed.
(** * keys *)
Lemma in_uC r3 na nb ir2 ir3 iR2 iR3 nc key v : In (key, v) (uC r3 na nb ir2 ir3 iR2 iR3 nc) <-> exists i j k, 0 <= i < 3 /\ 0 <= j < 3 /\ 0 <= k < 3 /\ Qeq_bool (p3Weight F (p3vector F r3 na nc)) 0 = false /\
   key = (na * 3 + i, nb * 3 + j, nc * 3 + k, iR3, iR2) /\ v = (fc3 F (pm na) (pm nb + ir2) (pm nc + ir3) i j k * p3conv F)%R.
Proof.
  unfold uC. destruct (Qeq_bool _ _) eqn:E.
  - split; [contradiction|]. intros (i & j & k & _ & _ & _ & K & _). discriminate.
  - rewrite in_flat_map. split.
    + intros ([[i j] k] & Hin & Hk). apply in_xyz in Hin. unfold uXyz in Hk. destruct Hk as [Hk | []]. injection Hk as <- <-. exists i, j, k. intuition.
    + intros (i & j & k & Hi & Hj & Hk & _ & -> & ->). exists (i, j, k). split; [apply in_xyz; auto|]. now left.
Qed.
Lemma in_u2 n2 key v : In (key, v) (u2 n2) <-> exists iR2 iR3 n3 na nb nc i j k, findVec (bravais F) (lat (pCell F) n2) = Some iR2 /\ findVec (bravais F) (lat (pCell F) n3) = Some iR3 /\ inWindow F n3 /\
   0 <= na < pAt F /\ 0 <= nb < pAt F /\ 0 <= nc < pAt F /\ 0 <= i < 3 /\ 0 <= j < 3 /\ 0 <= k < 3 /\
   Qeq_bool (p3Weight F (p3vector F (lat (pCell F) n2) na nb)) 0 = false /\ Qeq_bool (p3Weight F (p3vector F (lat (pCell F) n3) na nc)) 0 = false /\
   key = (na * 3 + i, nb * 3 + j, nc * 3 + k, iR3, iR2) /\ v = (fc3 F (pm na) (pm nb + s (wrap F n2)) (pm nc + s (wrap F n3)) i j k * p3conv F)%R.
Proof.
  unfold u2. split.
  - destruct (findVec (bravais F) (lat (pCell F) n2)) as [iR2|] eqn:E2; [|contradiction]. intro H. apply in_flat_map in H. destruct H as (n3 & Hn3 & H). apply in_window in Hn3. unfold u3 in H.
    destruct (findVec (bravais F) (lat (pCell F) n3)) as [iR3|] eqn:E3; [|contradiction]. apply in_flat_map in H. destruct H as ([na nb] & Hab & H). apply in_prod_iff in Hab. rewrite !in_zrange in Hab. unfold uAB in H. cbn [fst snd] in H.
    destruct (Qeq_bool (p3Weight F (p3vector F (lat (pCell F) n2) na nb)) 0) eqn:W2; [contradiction|]. apply in_flat_map in H. destruct H as (nc & Hc & H). apply in_zrange in Hc. apply in_uC in H. destruct H as (i & j & k & Hi & Hj & Hk & W3 & Ek & Ev).
    exists iR2, iR3, n3, na, nb, nc, i, j, k. repeat (split; [first [reflexivity|assumption|lia]|]). exact Ev.
  - intros (iR2 & iR3 & n3 & na & nb & nc & i & j & k & E2 & E3 & Hn & Ha & Hb & Hc & Hi & Hj & Hk & W2 & W3 & -> & ->). rewrite E2. apply in_flat_map. exists n3. split; [now apply in_window|]. unfold u3. rewrite E3. apply in_flat_map. exists (na, nb).
    split; [apply in_prod_iff; rewrite !in_zrange; lia|]. unfold uAB. cbn [fst snd]. rewrite W2. apply in_flat_map. exists nc. split; [apply in_zrange; lia|]. apply in_uC. exists i, j, k. auto 10.
Qed.
Lemma ind_inj a i b j : 0 <= i < 3 -> 0 <= j < 3 -> a * 3 + i = b * 3 + j -> a = b /\ i = j. Proof. lia. Qed.
Lemma NoDup_xyz : NoDup xyz. Proof. repeat apply NoDup_list_prod; apply NoDup_zrange. Qed.
Lemma keys_NoDup : NoDup (map fst (flat_map u2 (window F))).
Proof.
  apply NoDup_keys; [apply NoDup_window| |].
  - intros n2 _. unfold u2. destruct (findVec _ _) as [iR2|]; [|constructor]. apply NoDup_keys; [apply NoDup_window| |].
    + intros n3 _. unfold u3. destruct (findVec _ _) as [iR3|]; [|constructor]. apply NoDup_keys; [apply NoDup_list_prod; apply NoDup_zrange| |].
      * intros [na nb] _. unfold uAB. destruct (Qeq_bool _ _); [constructor|]. apply NoDup_keys; [apply NoDup_zrange| |].
        -- intros nc _. unfold uC. destruct (Qeq_bool _ _); [constructor|]. apply NoDup_keys; [apply NoDup_xyz| |].
           ++ intros [[i j] k] _. apply NoDup_cons; [intros []|constructor].
           ++ intros [[i j] k] [[i' j'] k'] key v v' _ _ H1 H2. destruct H1 as [H1 | []], H2 as [H2 | []]. injection H1 as <- _. injection H2 as E1 E2 E3 _. f_equal; [f_equal|]; lia.
        -- intros nc nc' key v v' _ _ H1 H2. apply in_uC in H1, H2. destruct H1 as (i & j & k & _ & _ & Hk & _ & -> & _), H2 as (i' & j' & k' & _ & _ & Hk' & _ & E & _). injection E as _ _ E. lia.
      * intros [na nb] [na' nb'] key v v' _ _ H1 H2. unfold uAB in *. cbn [fst snd] in *. destruct (Qeq_bool _ _) in H1; [contradiction|]. destruct (Qeq_bool _ _) in H2; [contradiction|]. apply in_flat_map in H1, H2.
        destruct H1 as (c & _ & H1), H2 as (c' & _ & H2). apply in_uC in H1, H2. destruct H1 as (i & j & k & Hi & Hj & Hk & _ & -> & _), H2 as (i' & j' & k' & Hi' & Hj' & Hk' & _ & E & _). injection E as E1 E2 _. f_equal; lia.
    + intros n3 n3' key v v' _ _ H1 H2. unfold u3 in *. destruct (findVec (bravais F) (lat (pCell F) n3)) as [i1|] eqn:F1; [|contradiction]. destruct (findVec (bravais F) (lat (pCell F) n3')) as [i2|] eqn:F2; [|contradiction].
      apply in_flat_map in H1, H2. destruct H1 as ([a b] & _ & H1), H2 as ([a' b'] & _ & H2). unfold uAB in *. destruct (Qeq_bool _ _) in H1; [contradiction|]. destruct (Qeq_bool _ _) in H2; [contradiction|]. apply in_flat_map in H1, H2.
      destruct H1 as (c & _ & H1), H2 as (c' & _ & H2). apply in_uC in H1, H2. destruct H1 as (i & j & k & _ & _ & _ & _ & -> & _), H2 as (i' & j' & k' & _ & _ & _ & _ & E & _). injection E as _ _ _ E. subst i2. now apply (findVec_inj n3 n3' i1).
  - intros n2 n2' key v v' _ _ H1 H2. apply in_u2 in H1, H2. destruct H1 as (iR2 & iR3 & n3 & na & nb & nc & i & j & k & E2 & _ & _ & _ & _ & _ & _ & _ & _ & _ & _ & -> & _).
    destruct H2 as (iR2' & iR3' & n3' & na' & nb' & nc' & i' & j' & k' & E2' & _ & _ & _ & _ & _ & _ & _ & _ & _ & _ & E & _). injection E as _ _ _ _ <-. now apply (findVec_inj n2 n2' iR2).
Qed.
Lemma reader_ok : exists bv w m, parsePhono3py F = Ok (bv, w, m) /\ readCorrectly F s bv w m.
Proof.
  unfold parsePhono3py. rewrite weights_updates. cbn [bind]. rewrite fold_ok. cbn [bind]. eexists _, _, _. split; [reflexivity|]. split; [|split; [|split]].
  - intros i j a b Hi Hj E. exact (ordered_unique _ bravais_ordered i j a b Hi Hj E).
  - intros n na nb Hn Ha Hb Hw. destruct (bravais_has na nb n Ha Hb Hn Hw) as (ir & x & _ & Hx & Ex). now exists ir, x.
  - intros. now apply weights_val.
  - intros iR2 iR3 R2 R3 n2 n3 na nb nc a b c i j k G2 V2 G3 V3 Pa Pb Pc Hi Hj Hk.
    destruct (bravais_from R2) as (n2' & Hn2 & E2); [apply zget_Some in G2; apply G2|]. destruct (bravais_from R3) as (n3' & Hn3 & E3); [apply zget_Some in G3; apply G3|]. subst R2 R3. apply same_cell in V2, V3. subst n2' n3'.
    pose proof (findVec_at _ _ _ _ bravais_ordered G2 (vsame_refl _)) as F2. pose proof (findVec_at _ _ _ _ bravais_ordered G3 (vsame_refl _)) as F3.
    assert (La : zlen (p2s F) = pAt F) by apply HS. pose proof (proj1 (zget_Some _ _ _ Pa)) as Ra. pose proof (proj1 (zget_Some _ _ _ Pb)) as Rb. pose proof (proj1 (zget_Some _ _ _ Pc)) as Rc. rewrite La in Ra, Rb, Rc.
    assert (Ma : pm na = a) by (unfold pm; now rewrite Pa). assert (Mb : pm nb = b) by (unfold pm; now rewrite Pb). assert (Mc : pm nc = c) by (unfold pm; now rewrite Pc).
    destruct (Qeq_bool (p3Weight F (p3vector F (lat (pCell F) n2) na nb)) 0) eqn:W2; [|destruct (Qeq_bool (p3Weight F (p3vector F (lat (pCell F) n3) na nc)) 0) eqn:W3]; cbn [orb].
    3: { unfold mU. rewrite (applyU_in mkeyb Rplus mkeyb_spec _ _ _ (fc3 F a (b + s (wrap F n2)) (c + s (wrap F n3)) i j k * p3conv F)%R keys_NoDup); [apply Rplus_0_l|].
      apply in_flat_map. exists n2. split; [now apply in_window|]. apply in_u2. exists iR2, iR3, n3, na, nb, nc, i, j, k. rewrite Ma, Mb, Mc. repeat (split; [first [reflexivity|assumption|lia]|]). reflexivity. }
    all: unfold mU; rewrite (applyU_out mkeyb Rplus mkeyb_spec); [reflexivity|]; intro Hin; apply in_map_iff in Hin; destruct Hin as ([key v] & Ek & Hin); cbn [fst] in Ek; subst key; apply in_flat_map in Hin; destruct Hin as (n & _ & Hin); apply in_u2 in Hin;
      destruct Hin as (jR2 & jR3 & m3 & a' & b' & c' & i' & j' & k' & X2 & X3 & _ & Ha' & Hb' & Hc' & Hi' & Hj' & Hk' & Y2 & Y3 & E & _); injection E as E1 E4 E5 <- <-;
      destruct (ind_inj na i a' i' Hi Hi' E1) as [<- _]; destruct (ind_inj nb j b' j' Hj Hj' E4) as [<- _]; destruct (ind_inj nc k c' k' Hk Hk' E5) as [<- _];
      rewrite (findVec_inj _ _ _ X2 F2) in Y2; rewrite (findVec_inj _ _ _ X3 F3) in Y3; congruence.
Qed.
End Reader.
