From Coq Require Import QArith Qabs Qround Lqa.
From Verif Require Import Base BaseLemmas M_utilities L_utilities M_points S_points.
Open Scope Z_scope.

(** * rationals *)
Lemma Qltb_spec a b : reflect (a < b)%Q (Qltb a b).
Proof.
  unfold Qltb. destruct (Qle_bool b a) eqn:E; constructor.
  - apply Qle_bool_iff in E. intro H. lra.
  - assert (~ (b <= a)%Q) by (rewrite <- Qle_bool_iff, E; discriminate). lra.
Qed.
Lemma Qltb_true a b : (a < b)%Q -> Qltb a b = true.
Proof. intros H; destruct (Qltb_spec a b); [reflexivity|contradiction]. Qed.
Lemma Qltb_false a b : (b <= a)%Q -> Qltb a b = false.
Proof. intros H; destruct (Qltb_spec a b); [lra|reflexivity]. Qed.
Lemma Qle_bool_true a b : (a <= b)%Q -> Qle_bool a b = true.
Proof. apply Qle_bool_iff. Qed.
Lemma Qle_bool_false a b : (b < a)%Q -> Qle_bool a b = false.
Proof. intro H. destruct (Qle_bool a b) eqn:E; [|reflexivity]. apply Qle_bool_iff in E. lra. Qed.

#[global] Instance Qltb_comp : Proper (Qeq ==> Qeq ==> eq) Qltb.
Proof. intros a b E c d F. unfold Qltb. rewrite E, F. reflexivity. Qed.

Lemma Qfloor_unique x n : (inject_Z n <= x)%Q -> (x < inject_Z (n + 1))%Q -> Qfloor x = n.
Proof.
  intros H1 H2.
  pose proof (Qfloor_le x) as A. pose proof (Qlt_floor x) as B.
  assert (inject_Z n < inject_Z (Qfloor x + 1))%Q by lra.
  assert (inject_Z (Qfloor x) < inject_Z (n + 1))%Q by lra.
  rewrite <- Zlt_Qlt in *. lia.
Qed.

Lemma Qfloor_Z_add x n : Qfloor (x + inject_Z n) = Qfloor x + n.
Proof.
  apply Qfloor_unique.
  - rewrite inject_Z_plus. pose proof (Qfloor_le x). lra.
  - pose proof (Qlt_floor x) as B. rewrite inject_Z_plus in *. rewrite inject_Z_plus. 
    change (inject_Z 1) with 1%Q in *. lra.
Qed.

#[global] Instance cround_comp : Proper (Qeq ==> eq) cround.
Proof.
  intros a b E. unfold cround.
  assert (F : Qfloor (a + (1#2)) = Qfloor (b + (1#2))) by (apply Qfloor_comp; rewrite E; reflexivity).
  assert (G : Qfloor (- a + (1#2)) = Qfloor (- b + (1#2))) by (apply Qfloor_comp; rewrite E; reflexivity).
  rewrite F, G, E. reflexivity.
Qed.

(** cround is characterised by |n - x| <= 1/2, halves going away from zero *)
Lemma cround_near x : (Qabs (inject_Z (cround x) - x) <= 1 # 2)%Q.
Proof.
  unfold cround. destruct (Qle_bool 0 x) eqn:E.
  - pose proof (Qfloor_le (x + (1#2))) as A. pose proof (Qlt_floor (x + (1#2))) as B.
    rewrite inject_Z_plus in B. change (inject_Z 1) with 1%Q in B.
    apply Qabs_case; intros; lra.
  - pose proof (Qfloor_le (-x + (1#2))) as A. pose proof (Qlt_floor (-x + (1#2))) as B.
    rewrite inject_Z_plus in B. change (inject_Z 1) with 1%Q in B.
    rewrite inject_Z_opp. apply Qabs_case; intros; lra.
Qed.

Lemma Qabs_lt_inv x a : (Qabs x < a)%Q -> (- a < x /\ x < a)%Q.
Proof. revert x. intros x. apply Qabs_case; intros; lra. Qed.
Lemma Qabs_le_inv x a : (Qabs x <= a)%Q -> (- a <= x /\ x <= a)%Q.
Proof. revert x. intros x. apply Qabs_case; intros; lra. Qed.

Lemma cround_unique x n : (Qabs (inject_Z n - x) < 1 # 2)%Q -> cround x = n.
Proof.
  intro H. apply Qabs_lt_inv in H.
  pose proof (cround_near x) as N. apply Qabs_le_inv in N.
  assert (inject_Z (cround x) < inject_Z (n + 1))%Q by (rewrite inject_Z_plus; change (inject_Z 1) with 1%Q; lra).
  assert (inject_Z n < inject_Z (cround x + 1))%Q by (rewrite inject_Z_plus; change (inject_Z 1) with 1%Q; lra).
  rewrite <- Zlt_Qlt in *. lia.
Qed.

Lemma cround_Z n : cround (inject_Z n) = n.
Proof. apply cround_unique. setoid_replace (inject_Z n - inject_Z n)%Q with 0%Q by ring. reflexivity. Qed.

Lemma injZ_pos m : 0 < m -> (0 < inject_Z m)%Q.
Proof. intro. change 0%Q with (inject_Z 0). rewrite <- Zlt_Qlt. assumption. Qed.
Lemma injZ_neq m : 0 < m -> ~ (inject_Z m == 0)%Q.
Proof. intros H E. apply injZ_pos in H. lra. Qed.

(** * mesh indices *)
Lemma nodes_pos m : posMesh m -> 0 < nodes m.
Proof. unfold posMesh, nodes. intros (A & B & C). nia. Qed.

Lemma meshIndices_spec m i j k : posMesh m -> 0 <= i < m0 m -> 0 <= j < m1 m -> 0 <= k < m2 m ->
  meshIndices m (k * m0 m * m1 m + j * m0 m + i) = (i, j, k).
Proof.
  intros (A & B & C) Hi Hj Hk. unfold meshIndices.
  assert (E1 : Z.quot (k * m0 m * m1 m + j * m0 m + i) (m0 m * m1 m) = k).
  { rewrite Z.quot_div_nonneg by nia. symmetry. apply Z.div_unique with (j * m0 m + i); nia. }
  rewrite E1.
  assert (E2 : k * m0 m * m1 m + j * m0 m + i - k * m0 m * m1 m = j * m0 m + i) by lia.
  rewrite E2.
  assert (E3 : Z.quot (j * m0 m + i) (m0 m) = j).
  { rewrite Z.quot_div_nonneg by nia. symmetry. apply Z.div_unique with i; nia. }
  rewrite E3. rewrite modZ_pos by lia.
  replace ((j * m0 m + i) mod m0 m) with i; [reflexivity|].
  apply Z.mod_unique with j; nia.
Qed.

Lemma meshIndex_decode m ik : posMesh m -> 0 <= ik < nodes m ->
  exists i j k, 0 <= i < m0 m /\ 0 <= j < m1 m /\ 0 <= k < m2 m /\
    ik = k * m0 m * m1 m + j * m0 m + i.
Proof.
  intros (A & B & C) H. unfold nodes in H.
  exists (ik mod m0 m), ((ik / m0 m) mod m1 m), (ik / (m0 m * m1 m)).
  assert (M : 0 < m0 m * m1 m) by nia.
  split; [apply Z.mod_pos_bound; lia|]. split; [apply Z.mod_pos_bound; lia|].
  split.
  - split; [apply Z.div_pos; lia|]. apply Z.div_lt_upper_bound; nia.
  - pose proof (Z.div_mod ik (m0 m) ltac:(lia)) as E1.
    pose proof (Z.div_mod (ik / m0 m) (m1 m) ltac:(lia)) as E2.
    rewrite Z.div_div in E2 by lia. nia.
Qed.

Lemma nodeIndex_range m i j k : posMesh m -> 0 <= i < m0 m -> 0 <= j < m1 m -> 0 <= k < m2 m ->
  0 <= k * m0 m * m1 m + j * m0 m + i < nodes m.
Proof.
  unfold nodes. intros (A & B & C) Hi Hj Hk.
  assert (0 <= j * m0 m + i < m0 m * m1 m) by nia.
  assert (0 <= k * (m0 m * m1 m) <= (m2 m - 1) * (m0 m * m1 m)) by nia.
  nia.
Qed.

Lemma meshCoordinates_node m i j k : posMesh m -> 0 <= i < m0 m -> 0 <= j < m1 m -> 0 <= k < m2 m ->
  meshCoordinates m (k * m0 m * m1 m + j * m0 m + i) = gridNode m i j k.
Proof. intros. unfold meshCoordinates. rewrite meshIndices_spec by assumption. reflexivity. Qed.

(** * lookup on a full mesh *)
Lemma scaled_node (c o : Q) (m i n : Z) : 0 < m ->
  (c - (inject_Z i / inject_Z m + o) == inject_Z n)%Q ->
  ((c - o) * inject_Z m == inject_Z (i + n * m))%Q.
Proof.
  intros Hm E. rewrite inject_Z_plus, inject_Z_mult.
  setoid_replace c with ((inject_Z i / inject_Z m + o) + inject_Z n)%Q by (rewrite <- E; ring).
  field. apply injZ_neq; assumption.
Qed.

Lemma isPointStoredMesh_node m c i j k : posMesh m ->
  sameWavevector c (gridNode m i j k) ->
  isPointStoredMesh m c = (k mod m2 m) * m0 m * m1 m + (j mod m1 m) * m0 m + (i mod m0 m).
Proof.
  intros (A & B & C) (n0 & n1 & n2 & (E0 & E1 & E2)).
  unfold vsub, gridNode in E0, E1, E2. cbn [c0 c1 c2] in E0, E1, E2.
  unfold isPointStoredMesh, meshScaled.
  apply scaled_node in E0; [|assumption]. apply scaled_node in E1; [|assumption].
  apply scaled_node in E2; [|assumption].
  rewrite !modZ_pos by assumption.
  assert (R0 := cround_comp _ _ E0). assert (R1 := cround_comp _ _ E1). assert (R2 := cround_comp _ _ E2).
  rewrite cround_Z in R0, R1, R2. rewrite R0, R1, R2.
  rewrite Qle_bool_false.
  - rewrite !Z.mod_add by lia. reflexivity.
  - rewrite E0, E1, E2. unfold eps6. ring_simplify. reflexivity.
Qed.

Lemma getIndex_full m c ik : posMesh m -> 0 <= ik < nodes m ->
  sameWavevector c (meshCoordinates m ik) -> getIndex (fullMesh m) c = Ok ik.
Proof.
  intros P H S. destruct (meshIndex_decode m ik P H) as (i & j & k & Hi & Hj & Hk & ->).
  rewrite meshCoordinates_node in S by assumption.
  unfold getIndex, isPointStored, fullMesh. cbn [explicitlyStored pmesh negb bind].
  rewrite (isPointStoredMesh_node m c i j k P S).
  rewrite !Z.mod_small by lia.
  pose proof (nodeIndex_range m i j k P Hi Hj Hk) as R.
  destruct (Z.eqb_spec (k * m0 m * m1 m + j * m0 m + i) (-1)); [lia|reflexivity].
Qed.

Lemma sameWavevector_refl a : sameWavevector a a.
Proof. exists 0, 0, 0. unfold veq, vsub; cbn [c0 c1 c2]. repeat split; ring. Qed.
Lemma sameWavevector_sym a b : sameWavevector a b -> sameWavevector b a.
Proof.
  intros (n0 & n1 & n2 & (E0 & E1 & E2)). exists (-n0), (-n1), (-n2).
  unfold veq, vsub in *; cbn [c0 c1 c2] in *. rewrite !inject_Z_opp, <- E0, <- E1, <- E2. repeat split; ring.
Qed.
Lemma sameWavevector_trans a b c : sameWavevector a b -> sameWavevector b c -> sameWavevector a c.
Proof.
  intros (n0 & n1 & n2 & (E0 & E1 & E2)) (l0 & l1 & l2 & (F0 & F1 & F2)).
  exists (n0 + l0), (n1 + l1), (n2 + l2).
  unfold veq, vsub in *; cbn [c0 c1 c2] in *.
  rewrite !inject_Z_plus, <- E0, <- E1, <- E2, <- F0, <- F1, <- F2. repeat split; ring.
Qed.

Lemma injZ_eq a b : (inject_Z a == inject_Z b)%Q -> a = b.
Proof. unfold Qeq, inject_Z. cbn. lia. Qed.

Lemma same_component i i' m n o : 0 < m -> 0 <= i < m -> 0 <= i' < m ->
  ((inject_Z i / inject_Z m + o) - (inject_Z i' / inject_Z m + o) == inject_Z n)%Q -> i = i' .
Proof.
  intros Hm Hi Hi' E.
  assert (E' : (inject_Z i == inject_Z (i' + n * m))%Q).
  { rewrite inject_Z_plus, inject_Z_mult, <- E. field. apply injZ_neq; assumption. }
  apply injZ_eq in E'.
  assert (n = 0). { destruct (Z_lt_le_dec n 0); [nia|]. destruct (Z_lt_le_dec 0 n); [nia|lia]. }
  subst n. lia.
Qed.

Lemma mesh_distinct m ik ik' : posMesh m -> 0 <= ik < nodes m -> 0 <= ik' < nodes m ->
  sameWavevector (meshCoordinates m ik) (meshCoordinates m ik') -> ik = ik'.
Proof.
  intros P H H' S.
  pose proof (getIndex_full m (meshCoordinates m ik) ik P H (sameWavevector_refl _)) as E.
  rewrite (getIndex_full m _ ik' P H' S) in E. congruence.
Qed.

Lemma gridNode_fold m i j k : posMesh m ->
  sameWavevector (gridNode m i j k) (gridNode m (i mod m0 m) (j mod m1 m) (k mod m2 m)).
Proof.
  intros (A & B & C). exists (i / m0 m), (j / m1 m), (k / m2 m).
  unfold veq, vsub, gridNode; cbn [c0 c1 c2].
  assert (X : forall i m, 0 < m -> (inject_Z i == inject_Z m * inject_Z (i / m) + inject_Z (i mod m))%Q).
  { intros. rewrite <- inject_Z_mult, <- inject_Z_plus, <- Z.div_mod by lia. reflexivity. }
  repeat split; [rewrite (X i (m0 m)) at 1 by assumption
                |rewrite (X j (m1 m)) at 1 by assumption
                |rewrite (X k (m2 m)) at 1 by assumption]; field; apply injZ_neq; assumption.
Qed.

Lemma getIndex_any_node m i j k : posMesh m ->
  exists ik, getIndex (fullMesh m) (gridNode m i j k) = Ok ik /\ 0 <= ik < nodes m /\
    sameWavevector (gridNode m i j k) (meshCoordinates m ik).
Proof.
  intros P. assert (P' := P). destruct P' as (A & B & C).
  pose proof (Z.mod_pos_bound i _ A). pose proof (Z.mod_pos_bound j _ B). pose proof (Z.mod_pos_bound k _ C).
  eexists. split; [|split].
  2: apply (nodeIndex_range m (i mod m0 m) (j mod m1 m) (k mod m2 m)); assumption.
  2: rewrite meshCoordinates_node by assumption; apply gridNode_fold; assumption.
  apply getIndex_full; [assumption|apply nodeIndex_range; assumption|].
  rewrite meshCoordinates_node by assumption. apply gridNode_fold; assumption.
Qed.

(** * C09 *)
Lemma scaled_dev' (r c o : Q) (m : Z) : 0 < m ->
  ((c - (r / inject_Z m + o)) * inject_Z m == - (r - (c - o) * inject_Z m))%Q.
Proof. intro. field. apply injZ_neq; assumption. Qed.
Lemma getIndex_nearest m c ik : posMesh m -> getIndex (fullMesh m) c = Ok ik ->
  0 <= ik < nodes m /\
  exists i j k, sameWavevector (gridNode m i j k) (meshCoordinates m ik) /\
    (Qabs ((c0 c - c0 (gridNode m i j k)) * inject_Z (m0 m)) <= 1 # 2)%Q /\
    (Qabs ((c1 c - c1 (gridNode m i j k)) * inject_Z (m1 m)) <= 1 # 2)%Q /\
    (Qabs ((c2 c - c2 (gridNode m i j k)) * inject_Z (m2 m)) <= 1 # 2)%Q.
Proof.
  intros P. assert (P' := P). destruct P' as (A & B & C).
  unfold getIndex, isPointStored, fullMesh. cbn [explicitlyStored pmesh negb bind].
  unfold isPointStoredMesh, meshScaled.
  set (x := ((c0 c - c0 (off m)) * inject_Z (m0 m))%Q).
  set (y := ((c1 c - c1 (off m)) * inject_Z (m1 m))%Q).
  set (z := ((c2 c - c2 (off m)) * inject_Z (m2 m))%Q).
  rewrite !modZ_pos by assumption.
  destruct (Qle_bool eps6 _); [discriminate|].
  pose proof (Z.mod_pos_bound (cround x) _ A). pose proof (Z.mod_pos_bound (cround y) _ B).
  pose proof (Z.mod_pos_bound (cround z) _ C).
  pose proof (nodeIndex_range m _ _ _ P H H0 H1) as R.
  destruct (Z.eqb_spec (cround z mod m2 m * m0 m * m1 m + cround y mod m1 m * m0 m + cround x mod m0 m) (-1)); [lia|].
  intro E. injection E as <-. split; [assumption|].
  exists (cround x), (cround y), (cround z). split.
  - rewrite meshCoordinates_node by assumption. apply gridNode_fold; assumption.
  - unfold gridNode; cbn [c0 c1 c2].
    pose proof (cround_near x) as N0. pose proof (cround_near y) as N1. pose proof (cround_near z) as N2.
    rewrite <- Qabs_opp in N0, N1, N2.
    rewrite !scaled_dev' by assumption. auto.
Qed.

Lemma scaled_dev (c o : Q) (m i : Z) : 0 < m ->
  ((inject_Z i / inject_Z m + o - c) * inject_Z m == inject_Z i - (c - o) * inject_Z m)%Q.
Proof. intro. field. apply injZ_neq; assumption. Qed.

Lemma getIndex_offmesh m c i j k : posMesh m ->
  (0 <= (c0 (gridNode m i j k) - c0 c) * inject_Z (m0 m) < 1 # 2)%Q ->
  (0 <= (c1 (gridNode m i j k) - c1 c) * inject_Z (m1 m) < 1 # 2)%Q ->
  (0 <= (c2 (gridNode m i j k) - c2 c) * inject_Z (m2 m) < 1 # 2)%Q ->
  (eps6 <= (c0 (gridNode m i j k) - c0 c) * inject_Z (m0 m) \/
   eps6 <= (c1 (gridNode m i j k) - c1 c) * inject_Z (m1 m) \/
   eps6 <= (c2 (gridNode m i j k) - c2 c) * inject_Z (m2 m))%Q ->
  getIndex (fullMesh m) c = Err.
Proof.
  intros (A & B & C). unfold gridNode; cbn [c0 c1 c2].
  rewrite !scaled_dev by assumption. intros H0 H1 H2 H.
  unfold getIndex, isPointStored, fullMesh. cbn [explicitlyStored pmesh negb bind].
  unfold isPointStoredMesh, meshScaled.
  set (x := ((c0 c - c0 (off m)) * inject_Z (m0 m))%Q) in *.
  set (y := ((c1 c - c1 (off m)) * inject_Z (m1 m))%Q) in *.
  set (z := ((c2 c - c2 (off m)) * inject_Z (m2 m))%Q) in *.
  assert (X : cround x = i) by (apply cround_unique; apply Qabs_case; intros; lra).
  assert (Y : cround y = j) by (apply cround_unique; apply Qabs_case; intros; lra).
  assert (Z : cround z = k) by (apply cround_unique; apply Qabs_case; intros; lra).
  rewrite X, Y, Z. rewrite Qle_bool_true by lra. reflexivity.
Qed.

Lemma offmesh_accepted : exists m c, posMesh m /\ gammaMesh m /\
  (forall i j k, ~ sameWavevector c (gridNode m i j k)) /\
  (forall i j k, 1 # 10 <= Qabs (c0 c - c0 (gridNode m i j k)))%Q /\
  getIndex (fullMesh m) c = Ok 0.
Proof.
  exists (Mesh 2 2 2 (V3 0 0 0)), (V3 (3#20) 0 0).
  split; [repeat split|]. split; [repeat split|].
  assert (X : forall i, (1 # 10 <= Qabs ((3#20) - (inject_Z i / inject_Z 2 + 0)))%Q).
  { intro i. setoid_replace ((3#20) - (inject_Z i / inject_Z 2 + 0))%Q with ((3#20) - inject_Z i * (1#2))%Q
      by (unfold Qdiv, Qinv; cbn; ring).
    destruct (Z_le_gt_dec i 0) as [Hi|Hi].
    - assert (inject_Z i <= inject_Z 0)%Q by (rewrite <- Zle_Qle; assumption).
      change (inject_Z 0) with 0%Q in *. apply Qabs_case; intros; lra.
    - assert (inject_Z 1 <= inject_Z i)%Q by (rewrite <- Zle_Qle; lia).
      change (inject_Z 1) with 1%Q in *. apply Qabs_case; intros; lra. }
  split; [|split].
  - intros i j k (n0 & n1 & n2 & (E0 & _ & _)). unfold vsub, gridNode in E0; cbn [c0 c1 c2 off m0] in E0.
    assert (E : ((3#20) - inject_Z i * (1#2) == inject_Z n0)%Q).
    { rewrite <- E0. unfold Qdiv, Qinv; cbn; ring. }
    assert (F : (inject_Z 3 == inject_Z (20 * n0 + 10 * i))%Q).
    { rewrite inject_Z_plus, !inject_Z_mult, <- E. change (inject_Z 3) with 3%Q.
      change (inject_Z 20) with 20%Q. change (inject_Z 10) with 10%Q. ring. }
    apply injZ_eq in F. lia.
  - intros i j k. apply X.
  - vm_compute. reflexivity.
Qed.

(** * C10 *)
Lemma veq_refl a : veq a a.
Proof. repeat split; reflexivity. Qed.
Lemma same_veq a a' b : veq a a' -> sameWavevector a' b -> sameWavevector a b.
Proof.
  intros (E0 & E1 & E2) (n0 & n1 & n2 & (F0 & F1 & F2)). exists n0, n1, n2.
  unfold veq, vsub in *; cbn [c0 c1 c2] in *. rewrite E0, E1, E2. auto.
Qed.
Lemma same_vadd a a' b b' : sameWavevector a a' -> sameWavevector b b' -> sameWavevector (vadd a b) (vadd a' b').
Proof.
  intros (n0 & n1 & n2 & (E0 & E1 & E2)) (l0 & l1 & l2 & (F0 & F1 & F2)).
  exists (n0 + l0), (n1 + l1), (n2 + l2).
  unfold veq, vsub, vadd in *; cbn [c0 c1 c2] in *.
  rewrite !inject_Z_plus, <- E0, <- E1, <- E2, <- F0, <- F1, <- F2. repeat split; ring.
Qed.
Lemma same_vsub a a' b b' : sameWavevector a a' -> sameWavevector b b' -> sameWavevector (vsub a b) (vsub a' b').
Proof.
  intros (n0 & n1 & n2 & (E0 & E1 & E2)) (l0 & l1 & l2 & (F0 & F1 & F2)).
  exists (n0 - l0), (n1 - l1), (n2 - l2).
  unfold veq, vsub in *; cbn [c0 c1 c2] in *. unfold Z.sub.
  rewrite !inject_Z_plus, !inject_Z_opp, <- E0, <- E1, <- E2, <- F0, <- F1, <- F2. repeat split; ring.
Qed.

Lemma gamma_vadd m i j k i' j' k' : posMesh m -> gammaMesh m ->
  veq (vadd (gridNode m i j k) (gridNode m i' j' k')) (gridNode m (i + i') (j + j') (k + k')).
Proof.
  intros (A & B & C) (G0 & G1 & G2). unfold veq, vadd, gridNode; cbn [c0 c1 c2].
  rewrite G0, G1, G2, !inject_Z_plus. repeat split; field; apply injZ_neq; assumption.
Qed.
Lemma gamma_vsub m i j k i' j' k' : posMesh m -> gammaMesh m ->
  veq (vsub (gridNode m i j k) (gridNode m i' j' k')) (gridNode m (i - i') (j - j') (k - k')).
Proof.
  intros (A & B & C) (G0 & G1 & G2). unfold veq, vsub, gridNode; cbn [c0 c1 c2]. unfold Z.sub.
  rewrite G0, G1, G2, !inject_Z_plus, !inject_Z_opp. repeat split; field; apply injZ_neq; assumption.
Qed.

Lemma getIndex_same_node m c i j k : posMesh m -> sameWavevector c (gridNode m i j k) ->
  exists ik, getIndex (fullMesh m) c = Ok ik /\ 0 <= ik < nodes m /\ sameWavevector (meshCoordinates m ik) c.
Proof.
  intros P S. destruct (getIndex_any_node m i j k P) as (ik & _ & R & S').
  assert (S2 : sameWavevector c (meshCoordinates m ik)) by (eapply sameWavevector_trans; eassumption).
  exists ik. split; [apply getIndex_full; assumption|]. split; [assumption|apply sameWavevector_sym; assumption].
Qed.

Lemma pointOp_spec op m a b i j k : posMesh m ->
  sameWavevector (op (meshCoordinates m a) (meshCoordinates m b)) (gridNode m i j k) ->
  exists ik u, pointOp op (fullMesh m) a b = Ok (ik, u) /\ 0 <= ik < nodes m /\ intVec u /\
    veq (meshCoordinates m ik) (vadd (op (meshCoordinates m a) (meshCoordinates m b)) u).
Proof.
  intros P S. destruct (getIndex_same_node m _ i j k P S) as (ik & E & R & S').
  exists ik, (vsub (meshCoordinates m ik) (op (meshCoordinates m a) (meshCoordinates m b))).
  split; [|split; [assumption|split; [exact S'|]]].
  - assert (X : forall i, getPointCoordinates (fullMesh m) i = Ok (meshCoordinates m i)) by reflexivity.
    unfold pointOp. rewrite !X. cbn [bind]. rewrite E. cbn [bind]. rewrite X. reflexivity.
  - unfold veq, vadd, vsub; cbn [c0 c1 c2]. repeat split; ring.
Qed.

Lemma pointAdd_spec m a b : posMesh m -> gammaMesh m -> 0 <= a < nodes m -> 0 <= b < nodes m ->
  exists ik u, pointAdd (fullMesh m) a b = Ok (ik, u) /\ 0 <= ik < nodes m /\ intVec u /\
    veq (meshCoordinates m ik) (vadd (vadd (meshCoordinates m a) (meshCoordinates m b)) u).
Proof.
  intros P G Ha Hb.
  destruct (meshIndex_decode m a P Ha) as (i & j & k & Hi & Hj & Hk & Ea).
  destruct (meshIndex_decode m b P Hb) as (i' & j' & k' & Hi' & Hj' & Hk' & Eb).
  apply (pointOp_spec vadd m a b (i + i') (j + j') (k + k') P).
  rewrite Ea, Eb, !meshCoordinates_node by assumption.
  eapply same_veq; [apply gamma_vadd; assumption|apply sameWavevector_refl].
Qed.
Lemma pointSub_spec m a b : posMesh m -> gammaMesh m -> 0 <= a < nodes m -> 0 <= b < nodes m ->
  exists ik u, pointSub (fullMesh m) a b = Ok (ik, u) /\ 0 <= ik < nodes m /\ intVec u /\
    veq (meshCoordinates m ik) (vadd (vsub (meshCoordinates m a) (meshCoordinates m b)) u).
Proof.
  intros P G Ha Hb.
  destruct (meshIndex_decode m a P Ha) as (i & j & k & Hi & Hj & Hk & Ea).
  destruct (meshIndex_decode m b P Hb) as (i' & j' & k' & Hi' & Hj' & Hk' & Eb).
  apply (pointOp_spec vsub m a b (i - i') (j - j') (k - k') P).
  rewrite Ea, Eb, !meshCoordinates_node by assumption.
  eapply same_veq; [apply gamma_vsub; assumption|apply sameWavevector_refl].
Qed.

Lemma veq_umk a b u : veq a (vadd b u) -> intVec u -> sameWavevector a b.
Proof.
  intros (E0 & E1 & E2) (n0 & n1 & n2 & (F0 & F1 & F2)). exists n0, n1, n2.
  unfold veq, vsub, vadd in *; cbn [c0 c1 c2] in *. rewrite E0, E1, E2, F0, F1, F2. repeat split; ring.
Qed.



Lemma vadd_comm a b : veq (vadd a b) (vadd b a).
Proof. unfold veq, vadd; cbn [c0 c1 c2]. repeat split; ring. Qed.
Lemma veq_sym a b : veq a b -> veq b a.
Proof. intros (A & B & C); repeat split; symmetry; assumption. Qed.
Lemma veq_same a b : veq a b -> sameWavevector a b.
Proof. intro. eapply same_veq; [eassumption|apply sameWavevector_refl]. Qed.


Lemma pointAdd_comm m a b : posMesh m -> gammaMesh m -> 0 <= a < nodes m -> 0 <= b < nodes m ->
  exists ik u u', pointAdd (fullMesh m) a b = Ok (ik, u) /\ pointAdd (fullMesh m) b a = Ok (ik, u') /\ veq u u'.
Proof.
  intros P G Ha Hb.
  destruct (pointAdd_spec m a b P G Ha Hb) as (ik & u & E & R & I & V).
  destruct (pointAdd_spec m b a P G Hb Ha) as (ik' & u' & E' & R' & I' & V').
  assert (ik = ik').
  { apply (mesh_distinct m); [assumption..|].
    eapply sameWavevector_trans; [eapply veq_umk; eassumption|].
    eapply sameWavevector_trans; [apply veq_same, vadd_comm|].
    apply sameWavevector_sym. eapply veq_umk; eassumption. }
  subst ik'. exists ik, u, u'. split; [assumption|split; [assumption|]].
  destruct V as (V0 & V1 & V2), V' as (V0' & V1' & V2').
  unfold veq, vadd in *; cbn [c0 c1 c2] in *. repeat split; lra.
Qed.

Lemma pointAdd_assoc m a b c : posMesh m -> gammaMesh m ->
  0 <= a < nodes m -> 0 <= b < nodes m -> 0 <= c < nodes m ->
  exists ab uab bc ubc r u u', pointAdd (fullMesh m) a b = Ok (ab, uab) /\ pointAdd (fullMesh m) b c = Ok (bc, ubc) /\
    pointAdd (fullMesh m) ab c = Ok (r, u) /\ pointAdd (fullMesh m) a bc = Ok (r, u') /\
    veq (vadd uab u) (vadd ubc u').
Proof.
  intros P G Ha Hb Hc.
  destruct (pointAdd_spec m a b P G Ha Hb) as (ab & uab & E1 & R1 & I1 & V1).
  destruct (pointAdd_spec m b c P G Hb Hc) as (bc & ubc & E2 & R2 & I2 & V2).
  destruct (pointAdd_spec m ab c P G R1 Hc) as (r & u & E3 & R3 & I3 & V3).
  destruct (pointAdd_spec m a bc P G Ha R2) as (r' & u' & E4 & R4 & I4 & V4).
  assert (r = r').
  { apply (mesh_distinct m); [assumption..|].
    eapply sameWavevector_trans; [eapply veq_umk; eassumption|].
    apply sameWavevector_sym.
    eapply sameWavevector_trans; [eapply veq_umk; eassumption|].
    eapply sameWavevector_trans;
      [apply same_vadd; [apply sameWavevector_refl|eapply veq_umk; eassumption]|].
    apply sameWavevector_sym.
    eapply sameWavevector_trans;
      [apply same_vadd; [eapply veq_umk; eassumption|apply sameWavevector_refl]|].
    apply veq_same. unfold veq, vadd; cbn [c0 c1 c2]. repeat split; ring. }
  subst r'. exists ab, uab, bc, ubc, r, u, u'. repeat (split; [assumption|]).
  destruct V1 as (? & ? & ?), V2 as (? & ? & ?), V3 as (? & ? & ?), V4 as (? & ? & ?).
  unfold veq, vadd in *; cbn [c0 c1 c2] in *. repeat split; lra.
Qed.

Lemma pointAdd_sub m a b : posMesh m -> gammaMesh m -> 0 <= a < nodes m -> 0 <= b < nodes m ->
  exists ab u u', pointAdd (fullMesh m) a b = Ok (ab, u) /\ pointSub (fullMesh m) ab b = Ok (a, u') /\
    veq (vadd u u') (V3 0 0 0).
Proof.
  intros P G Ha Hb.
  destruct (pointAdd_spec m a b P G Ha Hb) as (ab & u & E1 & R1 & I1 & V1).
  destruct (pointSub_spec m ab b P G R1 Hb) as (r & u' & E2 & R2 & I2 & V2).
  assert (r = a).
  { apply (mesh_distinct m); [assumption..|].
    eapply sameWavevector_trans; [eapply veq_umk; eassumption|].
    eapply sameWavevector_trans;
      [apply same_vsub; [eapply veq_umk; eassumption|apply sameWavevector_refl]|].
    apply veq_same. unfold veq, vadd, vsub; cbn [c0 c1 c2]. repeat split; ring. }
  subst r. exists ab, u, u'. repeat (split; [assumption|]).
  destruct V1 as (? & ? & ?), V2 as (? & ? & ?).
  unfold veq, vadd, vsub in *; cbn [c0 c1 c2] in *. repeat split; lra.
Qed.

Lemma hasUmklapp_spec u : intVec u -> (hasUmklapp u = true <-> ~ veq u (V3 0 0 0)).
Proof.
  intros (n0 & n1 & n2 & (E0 & E1 & E2)). cbn [c0 c1 c2] in *. unfold hasUmklapp, sqNorm.
  rewrite E0, E1, E2. rewrite <- !inject_Z_mult, <- !inject_Z_plus.
  set (s := n0 * n0 + n1 * n1 + n2 * n2).
  assert (V : veq u (V3 0 0 0) <-> s = 0).
  { unfold veq; cbn [c0 c1 c2]. rewrite E0, E1, E2. change 0%Q with (inject_Z 0). split.
    - intros (F0 & F1 & F2). apply injZ_eq in F0, F1, F2. subst s n0 n1 n2. reflexivity.
    - intro. assert (n0 = 0 /\ n1 = 0 /\ n2 = 0) as (-> & -> & ->) by (subst s; nia). repeat split; reflexivity. }
  rewrite V. destruct (Z.eq_dec s 0) as [->|N].
  - split; [vm_compute; discriminate|lia].
  - split; [intros _; exact N|intros _].
    rewrite Qltb_false; [reflexivity|].
    assert (1 <= s) by (subst s; nia).
    assert (inject_Z 1 <= inject_Z s)%Q by (rewrite <- Zle_Qle; assumption).
    change (inject_Z 1) with 1%Q in *. unfold eps8. lra.
Qed.

Lemma shifted_add : exists m a b ik u, posMesh m /\ 0 <= a < nodes m /\ 0 <= b < nodes m /\
  pointAdd (fullMesh m) a b = Ok (ik, u) /\ ~ intVec u.
Proof.
  exists (Mesh 4 4 4 (V3 (1#16) 0 0)), 0, 0.
  eexists _, _. split; [repeat split|]. split; [vm_compute; split; congruence|]. split; [vm_compute; split; congruence|].
  split; [vm_compute; reflexivity|].
  intros (n0 & n1 & n2 & (E0 & _ & _)). unfold Qeq in E0. cbn in E0. lia.
Qed.
