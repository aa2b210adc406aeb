(** The collision operator in memory and on the fly. *)
From Coq Require Import QArith Qcanon Permutation.
From Verif Require Import Base BaseLemmas M_mpi M_points S_points M_irreducible M_matrix S_matrix L_fill L_irreducible L_matrix L_matrix2 L_matrix3 M_vbte S_vbte L_vbte M_scattering S_scattering L_scattering.
Open Scope Z_scope.

Lemma ite_zero c : ite c 0%Qc = 0%Qc. Proof. destruct c; reflexivity. Qed.
Lemma ofMat_toMat sym b i : 0 <= i < 3 -> (sym = false -> i = 0) -> ofMat sym (toMat sym b i) = (b, i).
Proof. intros H H0. destruct sym; cbn [ofMat toMat]; [f_equal; [rewrite Z.mul_comm, Z.div_add_l by lia; rewrite Z.div_small by lia; lia|rewrite Z.add_comm, Z.mul_comm, Z_mod_plus_full; apply Z.mod_small; lia]|rewrite H0 by reflexivity; reflexivity]. Qed.
Lemma toMat_range sym n b i : 0 <= i < 3 -> 0 <= b < n -> 0 <= toMat sym b i < matSize sym n.
Proof. destruct sym; cbn [toMat matSize]; lia. Qed.
Lemma toMat_ofMat sym m : toMat sym (fst (ofMat sym m)) (snd (ofMat sym m)) = m.
Proof. destruct sym; cbn [toMat ofMat fst snd]; [pose proof (Z.div_mod m 3); lia|reflexivity]. Qed.
Lemma ofMat_range sym n m : 0 <= m < matSize sym n -> 0 <= fst (ofMat sym m) < n /\ 0 <= snd (ofMat sym m) < 3 /\ (sym = false -> snd (ofMat sym m) = 0).
Proof.
  destruct sym; cbn [ofMat matSize fst snd]; intro H; [|repeat split; lia]. repeat split; try discriminate.
  - apply Z.div_pos; lia. - apply Z.div_lt_upper_bound; lia. - apply Z.mod_pos_bound; lia. - apply Z.mod_pos_bound; lia.
Qed.
Lemma isIn_In l x : isIn l x = true <-> In x l.
Proof. unfold isIn. rewrite existsb_exists. split; [intros (y & H & E); replace x with y by lia; exact H|intro H; exists x; split; [exact H|lia]]. Qed.
Lemma toMat_eqb sym b i b' i' : 0 <= i < 3 -> 0 <= i' < 3 -> (sym = false -> i = 0 /\ i' = 0) -> (toMat sym b i =? toMat sym b' i') = (b =? b') && (i =? i').
Proof. destruct sym; cbn [toMat]; intros H H' Hs; [lia|]. destruct (Hs eq_refl) as [-> ->]. rewrite Z.eqb_refl, andb_true_r. reflexivity. Qed.

Lemma qsum_add3 {A} (f g h : A -> Qc) l : (qsum (map f l) + qsum (map g l) + qsum (map h l) = qsum (map (fun a => f a + g a + h a) l))%Qc.
Proof. rewrite <- !qsum_map_add. reflexivity. Qed.
Section Operator.
Variables (G : grid) (HG : goodGrid G) (ev : Z -> Z -> list event) (Hev : goodEvents G ev).
Variables (excl : list Z) (Hav : avoids excl ev) (bnd : Z -> Qc) (sym : bool) (Hrot : sym = false -> unrotated ev).
Notation N := (gN G).
Notation all := (allEvents G ev).

Lemma irr_point q : In q (gIrr G) -> 0 <= q < gPts G.
Proof.
  destruct HG as (_ & HP & _ & P & S & _). intro H. cut (0 <= q < 0 + gPts G); [lia|]. apply in_zrange. apply (Permutation_in _ P). apply in_flat_map. exists q. split; [exact H|apply S; exact H].
Qed.
Lemma star_point q k : In q (gIrr G) -> In k (gStar G q) -> 0 <= k < gPts G.
Proof. destruct HG as (_ & HP & _ & P & S & _). intros H Hk. cut (0 <= k < 0 + gPts G); [lia|]. apply in_zrange. apply (Permutation_in _ P). apply in_flat_map. exists q. split; assumption. Qed.
Lemma all_facts e : In e all -> 0 <= evBte1 e < N /\ 0 <= evBte2 e < N /\ evIs1 e = gB2S G (evBte1 e) /\ evIs2Irr e = gB2S G (evBte2 e) /\
  ~ In (evBte1 e) excl /\ ~ In (evBte2 e) excl.
Proof.
  unfold allEvents. rewrite in_flat_map. intros ([q1 q2] & Hp & He). apply in_prod_iff in Hp as [H1 H2]. cbn [fst snd] in He.
  destruct HG as (_ & HP & _ & P & _). apply (Permutation_in _ (Permutation_sym P)) in H2. apply in_flat_map in H2 as (q & Hq & H2).
  destruct (Hev q1 q2 q e H1 Hq H2 He) as (A & B & C & D & _). destruct (Hav q1 q2 e He). tauto.
Qed.
Lemma same_state e : In e all -> (evIs1 e =? evIs2Irr e) = (evBte1 e =? evBte2 e).
Proof.
  intro H. destruct (all_facts e H) as (A & B & -> & -> & _). destruct HG as (_ & _ & _ & _ & _ & I).
  destruct (evBte1 e =? evBte2 e) eqn:E; [replace (evBte2 e) with (evBte1 e) by lia; apply Z.eqb_refl|].
  apply Z.eqb_neq. intro C. apply (f_equal (gS2B G)) in C. rewrite (proj1 (I _ A)), (proj1 (I _ B)) in C. lia.
Qed.

(** * matrix-free *)
Lemma rateOut_sum es b : rateOut es b = qsum (map (fun e => ite (b =? evBte1 e) (evDiag e)) es).
Proof. unfold rateOut. rewrite qsum_filter. apply qsum_ext. intros e _. rewrite Z.eqb_sym. reflexivity. Qed.
Lemma coupling_sum es b i b' j : coupling es b i b' j = qsum (map (fun e => ite (b =? evBte1 e) (ite (evBte2 e =? b') (evRot e i j * evOff e)))%Qc es).
Proof. unfold coupling. rewrite qsum_filter. apply qsum_ext. intros e _. rewrite ite_and, (Z.eqb_sym b). reflexivity. Qed.
Lemma coupling_excluded b i b' j : In b excl \/ In b' excl -> coupling all b i b' j = 0%Qc.
Proof.
  intro H. rewrite coupling_sum. erewrite qsum_ext; [apply (qsum_zero all)|]. intros e He. cbv beta. destruct (all_facts e He) as (_ & _ & _ & _ & A & B).
  destruct (b =? evBte1 e) eqn:E; [|reflexivity]. destruct (evBte2 e =? b') eqn:F; [|reflexivity]. exfalso. destruct H as [H|H]; [apply A|apply B].
  - replace (evBte1 e) with b by lia. exact H.
  - replace (evBte2 e) with b' by lia. exact H.
Qed.
Lemma element_excluded b i b' j : In b excl \/ In b' excl -> elementSpec excl bnd all b i b' j = 0%Qc.
Proof.
  intro H. unfold elementSpec. destruct (b =? b') eqn:E; [|apply coupling_excluded; exact H]. destruct (i =? j); [|reflexivity]. unfold linewidthSpec.
  assert (isIn excl b = true) as ->; [|reflexivity]. apply isIn_In. destruct H as [H|H]; [exact H|]. replace b with b' by lia. exact H.
Qed.
Lemma collision_split x i b : 0 <= i < 3 -> 0 <= b < N -> collision N excl bnd all x i b =
  (linewidthSpec excl bnd all b * x i b + qsum (map (fun e => ite (b =? evBte1 e) (ite (negb (evBte2 e =? b)) (evOff e * rotate (evRot e) (fun j => x j (evBte2 e)) i))) all))%Qc.
Proof.
  intros Hi Hb. unfold collision.
  rewrite (qsum_ext _ (fun b' => ite (b' =? b) (linewidthSpec excl bnd all b * x i b) + qsum (map (fun e => ite (b =? evBte1 e) (ite (evBte2 e =? b') (ite (negb (b' =? b)) (evOff e * rotate (evRot e) (fun j => x j b') i)))) all))%Qc).
  - rewrite qsum_map_add. f_equal.
    + rewrite (qsum_one _ _ b Z.eq_dec); [rewrite Z.eqb_refl; reflexivity|apply NoDup_zrange|apply in_zrange; lia|].
      intros y _ Hy. replace (y =? b) with false by lia. reflexivity.
    + rewrite (qsum_swap (fun b' e => ite (b =? evBte1 e) (ite (evBte2 e =? b') (ite (negb (b' =? b)) (evOff e * rotate (evRot e) (fun j => x j b') i)))%Qc)).
      apply qsum_ext. intros e He. destruct (all_facts e He) as (_ & B & _). rewrite qsum_ite. f_equal.
      rewrite (qsum_one _ _ (evBte2 e) Z.eq_dec); [rewrite Z.eqb_refl; reflexivity|apply NoDup_zrange|apply in_zrange; lia|].
      intros y _ Hy. replace (evBte2 e =? y) with false by lia. reflexivity.
  - intros b' _. unfold elementSpec. rewrite (Z.eqb_sym b b'). destruct (b' =? b) eqn:E.
    + assert (b' = b) as -> by lia. cbn [ite negb]. rewrite (qsum_ext _ (fun _ : event => 0%Qc)), qsum_zero.
      2:{ intros e _. destruct (b =? evBte1 e), (evBte2 e =? b); reflexivity. }
      assert (C : i = 0 \/ i = 1 \/ i = 2) by lia. destruct C as [->|[->| ->]]; cbn [Z.eqb Pos.eqb]. all: ring.
    + cbn [ite negb]. rewrite !coupling_sum, Qcplus_0_l.
      transitivity (qsum (map (fun e => ite (b =? evBte1 e) (ite (evBte2 e =? b') (evRot e i 0%Z * evOff e)) * x 0%Z b') all) + qsum (map (fun e => ite (b =? evBte1 e) (ite (evBte2 e =? b') (evRot e i 1%Z * evOff e)) * x 1%Z b') all) + qsum (map (fun e => ite (b =? evBte1 e) (ite (evBte2 e =? b') (evRot e i 2%Z * evOff e)) * x 2%Z b') all))%Qc.
      * assert (Q : forall (f : event -> Qc) k, (qsum (map f all) * k = qsum (map (fun e => f e * k) all))%Qc).
        { intros f k. rewrite (qsum_ext (fun e => f e * k)%Qc (fun e => k * f e)%Qc) by (intros; ring). rewrite qsum_map_scale. ring. }
        rewrite !Q. reflexivity.
      * rewrite qsum_add3. apply qsum_ext. intros e _. unfold rotate. destruct (b =? evBte1 e), (evBte2 e =? b'); cbn [ite]; ring.
Qed.
Lemma flyDot_collision evs x i b : Permutation (concat evs) all -> 0 <= i < 3 -> 0 <= b < N -> flyDot excl bnd evs x i b = collision N excl bnd all x i b.
Proof.
  intros P Hi Hb. rewrite collision_split by assumption. unfold flyDot, finishDot, linewidthSpec.
  rewrite (qsum_ext (fun es => rankDot x es i b) (fun es => qsum (map (fun e => ite (b =? evBte1 e) (ite (negb (evIs1 e =? evIs2Irr e)) (evOff e * rotate (evRot e) (fun j => x j (evBte2 e)) i) + evDiag e * x i (evBte1 e)))%Qc es))) by (intros; apply rankDot_sum; exact Hi).
  rewrite qsum_concat. rewrite (qsum_perm _ _ (Permutation_map _ P)).
  destruct (isIn excl b) eqn:X.
  - rewrite (qsum_ext _ (fun _ : event => 0%Qc)), qsum_zero; [ring|]. intros e He. destruct (all_facts e He) as (_ & _ & _ & _ & A & _).
    destruct (b =? evBte1 e) eqn:E; [|reflexivity]. exfalso. apply A. replace (evBte1 e) with b by lia. apply isIn_In. exact X.
  - rewrite rateOut_sum.
    rewrite (qsum_ext _ (fun e => ite (b =? evBte1 e) (ite (negb (evBte2 e =? b)) (evOff e * rotate (evRot e) (fun j => x j (evBte2 e)) i)) + x i b * ite (b =? evBte1 e) (evDiag e)))%Qc.
    + rewrite qsum_map_add, qsum_map_scale. ring.
    + intros e He. rewrite (same_state e He). destruct (b =? evBte1 e) eqn:E; cbn [ite]; [|ring]. assert (evBte1 e = b) as -> by lia. rewrite (Z.eqb_sym b). ring.
Qed.

(** * in memory *)
Section Memory.
Variables (L : layout) (HL : validLayout L) (Hr : lRows L = matSize sym N) (Hc : lCols L = matSize sym N).
Variables (chunks : Z * Z -> list (list (Z * Z))) (Hch : splitElements L chunks).
Lemma local_iff p r c : isProcess L p -> (In (r, c) (getAllLocalStates L p) <-> inMatrix L r c /\ indicesAreLocal L p r c = true).
Proof. intro Hp. rewrite (states_In L HL p Hp). unfold indicesAreLocal. destruct (_ =? -1) eqn:E; split; intros [A B]; (split; [exact A|]); try reflexivity; try discriminate; lia. Qed.
Lemma localPairs_cover p q1 q2 : In p (processes L) -> In (q1, q2) (localPairs G sym (chunks p)) -> In (q1, q2) (list_prod (gIrr G) (zrange 0 (gPts G))).
Proof.
  intros Hp H. apply isProcess_in in Hp. apply localPairs_In in H as ([r c] & Ht & -> & Hk). apply (Permutation_in _ (Hch p)) in Ht. apply local_iff in Ht as [[A B] _]; [|exact Hp].
  rewrite Hr in A. rewrite Hc in B. cbn [fst snd] in *. destruct HG as (_ & HP & _ & _ & _ & I).
  destruct (ofMat_range sym N r A) as (A1 & _). destruct (ofMat_range sym N c B) as (B1 & _).
  apply in_prod; [apply I; exact A1|]. apply in_zrange. pose proof (star_point _ _ (proj2 (I _ B1)) Hk). lia.
Qed.
Lemma owned_pair p q1 q2 e i j : In p (processes L) -> In (q1, q2) (list_prod (gIrr G) (zrange 0 (gPts G))) -> In e (ev q1 q2) -> 0 <= i < 3 -> 0 <= j < 3 -> (sym = false -> i = 0 /\ j = 0) ->
  indicesAreLocal L p (toMat sym (evBte1 e) i) (toMat sym (evBte2 e) j) = true -> In (q1, q2) (localPairs G sym (chunks p)).
Proof.
  intros Hp Hq He Hi Hj H0 O. apply isProcess_in in Hp. apply in_prod_iff in Hq as [H1 H2]. destruct HG as (_ & HP & _ & P & _ & _).
  apply (Permutation_in _ (Permutation_sym P)) in H2. apply in_flat_map in H2 as (q & Hq & H2).
  destruct (Hev q1 q2 q e H1 Hq H2 He) as (A & B & C & D & E & F).
  apply localPairs_In. exists (toMat sym (evBte1 e) i, toMat sym (evBte2 e) j). cbn [fst snd]. split.
  - apply (Permutation_in _ (Permutation_sym (Hch p))). apply local_iff; [exact Hp|]. split; [|exact O]. unfold inMatrix. rewrite Hr, Hc. split; apply toMat_range; assumption.
  - rewrite !ofMat_toMat by (try assumption; intro Z0; apply H0 in Z0; tauto). cbn [fst]. rewrite <- C, <- D, E, F. split; [reflexivity|exact H2].
Qed.
(** [evs]: events met by the processes, either iterator *)
Variable evs : Z * Z -> list event.
Hypothesis Hevs : evs = matrixEvents G sym ev chunks \/ evs = matrixEventsRow G sym ev chunks.
Lemma rank_sum p (g : event -> Qc) : In p (processes L) ->
  (forall q1 q2 e, In (q1, q2) (list_prod (gIrr G) (zrange 0 (gPts G))) -> In e (ev q1 q2) -> ~ In (q1, q2) (localPairs G sym (chunks p)) -> g e = 0%Qc) ->
  qsum (map g (evs p)) = qsum (map g all).
Proof.
  intros Hp H.
  assert (E : Permutation (evs p) (flat_map (fun q => ev (fst q) (snd q)) (localPairs G sym (chunks p)))).
  { destruct Hevs as [-> | ->].
    - unfold matrixEvents. rewrite rankEvents_flat. apply Permutation_flat_map. apply flatPairs_matrix, localPairs_NoDup.
    - unfold matrixEventsRow. rewrite rankEventsRow_flat.
      + apply Permutation_flat_map. apply flatPairsRow_matrix, localPairs_NoDup.
      + intros x Hx. unfold matrixPairsRow in Hx. apply in_map_iff in Hx as (k & <- & Hk). cbn [snd]. apply (proj1 (keysOf_In _ _)) in Hk. apply in_map_iff in Hk as ([q1 q2] & <- & Hk).
        apply localPairs_cover in Hk; [|exact Hp]. apply in_prod_iff in Hk as [Hk _]. apply irr_point in Hk. cbn [fst]. lia. }
  rewrite (qsum_perm _ _ (Permutation_map g E)). unfold allEvents. rewrite !qsum_flat_map. apply qsum_incl.
  - exact pdec.
  - apply localPairs_NoDup.
  - destruct HG as (_ & _ & Nd & _). apply NoDup_list_prod; [exact Nd|apply NoDup_zrange].
  - intros [q1 q2] Hq. eapply localPairs_cover; eassumption.
  - intros [q1 q2] Hq Hn. cbn [fst snd]. rewrite (qsum_ext _ (fun _ : event => 0%Qc)), qsum_zero; [reflexivity|]. intros e He. eapply H; eassumption.
Qed.
Lemma owner_sum (r c : Z) (d : Qc) : inMatrix L r c -> qsum (map (fun p => ite (indicesAreLocal L p r c) d) (processes L)) = d.
Proof.
  intro H. destruct (one_owner L r c HL H) as (p & Hp & O & U). rewrite (qsum_one _ _ p pdec).
  - rewrite O. reflexivity.
  - unfold processes. apply NoDup_list_prod; apply NoDup_zrange.
  - apply isProcess_In. exact Hp.
  - intros q Hq Hne. destruct (indicesAreLocal L q r c) eqn:E; [|reflexivity]. exfalso. apply Hne. apply U; [apply isProcess_In; exact Hq|exact E].
Qed.
Notation A := (buildInMemory sym excl N bnd L (processes L) evs).
Lemma mem_diag b : imDiag A b = linewidthSpec excl bnd all b.
Proof.
  unfold buildInMemory. cbn [imDiag]. unfold finishLinewidths, linewidthSpec. destruct (isIn excl b); [reflexivity|]. f_equal. unfold total1. rewrite map_map.
  rewrite (qsum_ext _ (fun p => qsum (map (fun e => ite (b =? evBte1 e) (ite (indicesAreLocal L p (toMat sym (evBte1 e) 0) (toMat sym (evBte2 e) 0)) (evDiag e))) all))).
  - rewrite (qsum_swap (fun p e => ite (b =? evBte1 e) (ite (indicesAreLocal L p (toMat sym (evBte1 e) 0) (toMat sym (evBte2 e) 0)) (evDiag e)))). rewrite rateOut_sum. apply qsum_ext. intros e He.
    rewrite qsum_ite. f_equal. destruct (all_facts e He) as (A1 & A2 & _). apply owner_sum. unfold inMatrix. rewrite Hr, Hc. split; apply toMat_range; lia.
  - intros p Hp. rewrite matrix_lw. apply rank_sum; [exact Hp|]. intros q1 q2 e Hq He Hn. destruct (b =? evBte1 e); [|reflexivity]. cbn [ite].
    destruct (indicesAreLocal _ _ _ _) eqn:O; [|reflexivity]. exfalso. apply Hn. apply (owned_pair p q1 q2 e 0 0); try assumption; try lia.
Qed.
Lemma elemOf_eq e b i b' j : In e all -> 0 <= i < 3 -> 0 <= j < 3 -> (sym = false -> i = 0 /\ j = 0) -> b <> b' ->
  elemOf sym e (toMat sym b i) (toMat sym b' j) = ite (b =? evBte1 e) (ite (evBte2 e =? b') (evRot e i j * evOff e)%Qc).
Proof.
  intros He Hi Hj H0 Hb. unfold elemOf. destruct sym eqn:S.
  - rewrite (qsum_one _ _ (i, j) pdec).
    + cbn [fst snd]. rewrite !toMat_eqb by (try assumption; discriminate). rewrite !Z.eqb_refl, !andb_true_r. rewrite (same_state e He). rewrite ite_and, (Z.eqb_sym b').
      destruct (b =? evBte1 e) eqn:E1; [|reflexivity]. cbn [ite]. destruct (evBte2 e =? b') eqn:E2; [|reflexivity]. cbn [ite]. replace (evBte1 e =? evBte2 e) with false by lia. reflexivity.
    + unfold three. apply NoDup_list_prod; repeat constructor; cbn; lia.
    + apply in_prod; unfold three; cbn; lia.
    + intros [i' j'] Hin Hne. cbn [fst snd]. apply in_prod_iff in Hin as [I1 I2]. unfold three in I1, I2. assert (0 <= i' < 3 /\ 0 <= j' < 3) as [? ?] by (cbn in I1, I2; lia).
      rewrite !toMat_eqb by (try assumption; discriminate). destruct (i =? i') eqn:E1; [|rewrite andb_false_r; reflexivity]. destruct (j =? j') eqn:E2; [|rewrite !andb_false_r; reflexivity].
      exfalso. apply Hne. f_equal; lia.
  - destruct (H0 eq_refl) as [-> ->]. cbn [toMat]. rewrite ite_and, (Z.eqb_sym b'). destruct (b =? evBte1 e); [|reflexivity]. destruct (evBte2 e =? b'); [|reflexivity]. cbn [ite].
    unfold allEvents in He. apply in_flat_map in He as (q & _ & He). rewrite (Hrot eq_refl _ _ e 0 0 He) by lia. cbn [Z.eqb]. ring.
Qed.
Lemma mem_element p b i b' j : In p (processes L) -> 0 <= b < N -> 0 <= b' < N -> 0 <= i < 3 -> 0 <= j < 3 -> (sym = false -> i = 0 /\ j = 0) ->
  imPart A p (toMat sym b i) (toMat sym b' j) = ite (indicesAreLocal L p (toMat sym b i) (toMat sym b' j)) (elementSpec excl bnd all b i b' j).
Proof.
  intros Hp Hb Hb' Hi Hj H0.
  pose proof (mem_diag b) as HD. unfold buildInMemory in HD. cbn [imDiag] in HD.
  unfold buildInMemory. cbn [imPart]. unfold finishMatrix. destruct (indicesAreLocal L p _ _) eqn:O; [|reflexivity]. cbn [negb ite].
  rewrite !ofMat_toMat by (try assumption; intro Z0; apply H0 in Z0; tauto). unfold elementSpec.
  replace ((b =? b') && (0 <=? b) && (b <? N)) with (b =? b') by lia. destruct (b =? b') eqn:E.
  - destruct (i =? j); [|reflexivity]. exact HD.
  - destruct (isIn excl b && isIn excl b') eqn:X.
    + symmetry. apply coupling_excluded. left. apply isIn_In. destruct (isIn excl b); [reflexivity|discriminate].
    + rewrite matrix_elem. rewrite rank_sum; [|exact Hp|].
      * rewrite coupling_sum. apply qsum_ext. intros e He. rewrite O. cbn [ite]. apply elemOf_eq; try assumption. lia.
      * intros q1 q2 e Hq He Hn. rewrite O. cbn [ite]. rewrite elemOf_eq; try assumption; try lia.
        -- destruct (b =? evBte1 e) eqn:E1; [|reflexivity]. destruct (evBte2 e =? b') eqn:E2; [|reflexivity]. exfalso. apply Hn. apply (owned_pair p q1 q2 e i j); try assumption.
           replace (evBte1 e) with b by lia. replace (evBte2 e) with b' by lia. exact O.
        -- unfold allEvents. apply in_flat_map. exists (q1, q2). split; assumption.
Qed.

(** products *)
Lemma elementStep_sum skip M (x : Z -> Z -> Qc) chunk i b : 0 <= i < 3 -> fold_left (elementStep sym skip M x) chunk (fun _ _ => 0%Qc) i b =
  qsum (map (fun t => ite (b =? fst (ofMat sym (fst t))) (ite (negb (skip (fst (ofMat sym (fst t))) (fst (ofMat sym (snd t)))))
    (if sym then ite (i =? snd (ofMat sym (fst t))) (M (fst t) (snd t) * x (snd (ofMat sym (snd t))) (fst (ofMat sym (snd t)))) else M (fst t) (snd t) * x i (fst (ofMat sym (snd t))))))%Qc chunk).
Proof.
  intro Hi. rewrite (fold_add_gen _ (fun s => s i b) (fun t => ite (b =? fst (ofMat sym (fst t))) (ite (negb (skip (fst (ofMat sym (fst t))) (fst (ofMat sym (snd t)))))
    (if sym then ite (i =? snd (ofMat sym (fst t))) (M (fst t) (snd t) * x (snd (ofMat sym (snd t))) (fst (ofMat sym (snd t)))) else M (fst t) (snd t) * x i (fst (ofMat sym (snd t)))))%Qc)).
  - ring.
  - intros s t _. unfold elementStep. destruct (ofMat sym (fst t)) as [b1 i1]. destruct (ofMat sym (snd t)) as [b2 j2]. cbn [fst snd].
    destruct (skip b1 b2); cbn [negb ite]; [rewrite ite_zero; ring|]. destruct sym.
    + rewrite add2_eq, ite_and. destruct (i =? i1), (b =? b1); reflexivity.
    + unfold three. cbn [fold_left]. rewrite !add2_eq, !ite_and. assert (C : i = 0 \/ i = 1 \/ i = 2) by lia.
      destruct C as [->|[->| ->]]; cbn [Z.eqb Pos.eqb ite]; ring.
Qed.
Lemma split_sum (h : Z -> Z -> Qc) n : 0 <= n -> qsum (map (fun m => h (m / 3) (m mod 3)) (zrange 0 (3 * n))) = qsum (map (fun b => h b 0%Z + h b 1%Z + h b 2%Z)%Qc (zrange 0 n)).
Proof.
  intro H. rewrite <- (Z2Nat.id n H). induction (Z.to_nat n) as [|k IH]; [reflexivity|].
  rewrite Nat2Z.inj_succ. replace (3 * Z.succ (Z.of_nat k)) with (3 * Z.of_nat k + 3) by lia. replace (Z.succ (Z.of_nat k)) with (Z.of_nat k + 1) by lia.
  rewrite <- (zrange_app 0 (3 * Z.of_nat k) 3), <- (zrange_app 0 (Z.of_nat k) 1) by lia. rewrite !map_app, !qsum_app, IH. f_equal.
  assert (E : forall a, zrange a 3 = [a; a + 1; a + 2]). { intro a. rewrite !zrange_cons by lia. repeat (apply f_equal2; [lia|]). apply zrange_nil. lia. }
  assert (E1 : forall a, zrange a 1 = [a]). { intro a. rewrite !zrange_cons by lia. repeat (apply f_equal2; [lia|]). apply zrange_nil. lia. }
  rewrite E, E1, !Z.add_0_l. cbn [map]. unfold qsum; cbn [fold_right].
  replace (3 * Z.of_nat k / 3) with (Z.of_nat k) by (rewrite Z.mul_comm, Z.div_mul; lia). replace ((3 * Z.of_nat k) mod 3) with 0 by (rewrite Z.mul_comm, Z.mod_mul; lia).
  replace ((3 * Z.of_nat k + 1) / 3) with (Z.of_nat k) by (rewrite Z.mul_comm, Z.div_add_l by lia; change (1 / 3) with 0; lia). replace ((3 * Z.of_nat k + 1) mod 3) with 1 by (rewrite Z.add_comm, Z.mul_comm, Z_mod_plus_full; reflexivity).
  replace ((3 * Z.of_nat k + 2) / 3) with (Z.of_nat k) by (rewrite Z.mul_comm, Z.div_add_l by lia; change (2 / 3) with 0; lia). replace ((3 * Z.of_nat k + 2) mod 3) with 2 by (rewrite Z.add_comm, Z.mul_comm, Z_mod_plus_full; reflexivity).
  ring.
Qed.
Lemma qsum_list_prod {A B} (f : A * B -> Qc) (l : list A) (l' : list B) : qsum (map f (list_prod l l')) = qsum (map (fun a => qsum (map (fun b => f (a, b)) l')) l).
Proof. induction l as [|a l IH]; [reflexivity|]. cbn [list_prod map]. rewrite map_app, qsum_app, map_map, IH. reflexivity. Qed.
Lemma element_unrotated b i b' j : sym = false -> 0 <= i < 3 -> 0 <= j < 3 -> elementSpec excl bnd all b i b' j = if i =? j then elementSpec excl bnd all b 0 b' 0 else 0%Qc.
Proof.
  intros S Hi Hj. unfold elementSpec. destruct (b =? b'); [reflexivity|]. rewrite !coupling_sum.
  destruct (i =? j) eqn:E.
  - apply qsum_ext. intros e He. unfold allEvents in He. apply in_flat_map in He as (q & _ & He). rewrite !(Hrot S _ _ e _ _ He) by lia. rewrite E. reflexivity.
  - rewrite (qsum_ext _ (fun _ : event => 0%Qc)), qsum_zero; [reflexivity|]. intros e He. unfold allEvents in He. apply in_flat_map in He as (q & _ & He). rewrite !(Hrot S _ _ e _ _ He) by lia. rewrite E.
    destruct (b =? evBte1 e), (evBte2 e =? b'); cbn [ite]; ring.
Qed.
(** a matrix in memory, whose parts hold the elements [M] *)
Variables (B : inMemory) (M : Z -> Z -> Z -> Z -> Qc).
Hypothesis HB : forall p b i b' j, In p (processes L) -> 0 <= b < N -> 0 <= b' < N -> 0 <= i < 3 -> 0 <= j < 3 -> (sym = false -> i = 0 /\ j = 0) ->
  indicesAreLocal L p (toMat sym b i) (toMat sym b' j) = true -> imPart B p (toMat sym b i) (toMat sym b' j) = M b i b' j.
Hypothesis HM : forall b i b' j, sym = false -> 0 <= i < 3 -> 0 <= j < 3 -> M b i b' j = if i =? j then M b 0 b' 0 else 0%Qc.
Lemma memProduct_sum skip (x : Z -> Z -> Qc) i b : 0 <= i < 3 -> 0 <= b < N ->
  memProduct sym skip B (processes L) chunks x i b =
  qsum (map (fun b' => ite (negb (skip b b')) (M b i b' 0%Z * x 0%Z b' + M b i b' 1%Z * x 1%Z b' + M b i b' 2%Z * x 2%Z b'))%Qc (zrange 0 N)).
Proof.
  intros Hi Hb. unfold memProduct.
  set (h := fun r c : Z => ite (b =? fst (ofMat sym r)) (ite (negb (skip (fst (ofMat sym r)) (fst (ofMat sym c))))
    (if sym then ite (i =? snd (ofMat sym r)) (M b i (fst (ofMat sym c)) (snd (ofMat sym c)) * x (snd (ofMat sym c)) (fst (ofMat sym c))) else M b 0%Z (fst (ofMat sym c)) 0%Z * x i (fst (ofMat sym c))))%Qc).
  rewrite (qsum_ext _ (fun p => qsum (map (fun t => h (fst t) (snd t)) (getAllLocalStates L p)))).
  2:{ intros p Hp. rewrite (qsum_ext _ (fun chunk => qsum (map (fun t => ite (b =? fst (ofMat sym (fst t))) (ite (negb (skip (fst (ofMat sym (fst t))) (fst (ofMat sym (snd t)))))
    (if sym then ite (i =? snd (ofMat sym (fst t))) (imPart B p (fst t) (snd t) * x (snd (ofMat sym (snd t))) (fst (ofMat sym (snd t)))) else imPart B p (fst t) (snd t) * x i (fst (ofMat sym (snd t))))))%Qc chunk))) by (intros; apply elementStep_sum; exact Hi).
    rewrite qsum_concat, (qsum_perm _ _ (Permutation_map _ (Hch p))). apply qsum_ext. intros [r c] Ht. pose proof (isProcess_in L p Hp) as Hp'. apply local_iff in Ht as [[R C] O]; [|exact Hp'].
    rewrite Hr in R. rewrite Hc in C. cbn [fst snd]. unfold h. destruct (ofMat_range sym N r R) as (R1 & R2 & R3). destruct (ofMat_range sym N c C) as (C1 & C2 & C3).
    destruct (b =? fst (ofMat sym r)) eqn:E; [|reflexivity]. cbn [ite]. f_equal.
    pose proof (HB p (fst (ofMat sym r)) (snd (ofMat sym r)) (fst (ofMat sym c)) (snd (ofMat sym c)) Hp R1 C1 R2 C2) as K. rewrite !toMat_ofMat in K. rewrite K by first [exact O | intro S; split; [apply R3|apply C3]; exact S].
    destruct sym.
    - destruct (i =? _) eqn:E2; [|reflexivity]. cbn [ite]. do 2 f_equal; lia.
    - rewrite R3, C3 by reflexivity. do 2 f_equal; lia. }
  rewrite <- (qsum_flat_map (fun t => h (fst t) (snd t))). rewrite (qsum_perm _ _ (Permutation_map _ (states_partition L HL))). rewrite qsum_list_prod, Hr, Hc. cbn [fst snd].
  rewrite (qsum_one _ _ (toMat sym b (if sym then i else 0)) Z.eq_dec).
  - unfold h. rewrite !ofMat_toMat by (destruct sym; (lia || discriminate || reflexivity)). cbn [fst snd]. rewrite !Z.eqb_refl. cbn [ite].
    destruct sym eqn:S.
    + cbn [matSize]. rewrite !Z.eqb_refl. cbn [ite ofMat fst snd].
      rewrite (split_sum (fun b' j => ite (negb (skip b b')) (M b i b' j * x j b')%Qc)) by (destruct HG; lia).
      apply qsum_ext. intros b' _. destruct (skip b b'); cbn [negb ite]; ring.
    + cbn [matSize ofMat fst snd]. apply qsum_ext. intros b' _. destruct (skip b b'); cbn [negb ite]; [reflexivity|]. rewrite (HM b i b' 0), (HM b i b' 1), (HM b i b' 2) by (lia || reflexivity).
      assert (Ci : i = 0 \/ i = 1 \/ i = 2) by lia. destruct Ci as [->|[->| ->]]; cbn [Z.eqb Pos.eqb]; ring.
  - apply NoDup_zrange.
  - apply in_zrange. pose proof (toMat_range sym N b (if sym then i else 0)). destruct sym; lia.
  - intros r Hr' Hne. rewrite (qsum_ext _ (fun _ : Z => 0%Qc)), qsum_zero; [reflexivity|]. intros c _. unfold h. destruct (b =? fst (ofMat sym r)) eqn:E; [|reflexivity]. cbn [ite].
    destruct sym eqn:S.
    + destruct (i =? snd (ofMat true r)) eqn:E2; cbn [ite]; [|apply ite_zero]. exfalso. apply Hne. rewrite <- (toMat_ofMat true r). f_equal; lia.
    + exfalso. apply Hne. rewrite <- (toMat_ofMat false r). cbn [toMat]. lia.
Qed.
End Memory.
End Operator.
