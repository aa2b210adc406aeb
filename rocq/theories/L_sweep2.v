(** Lemmas on the chemical potential search and on the table of calculations. *)
From Coq Require Import Reals Permutation.
From Verif Require Import Base BaseLemmas M_utilities L_utilities M_particle S_particle L_particle M_delta L_delta M_sweep S_sweep L_sweep.
From Coq Require Import Lra.
Open Scope R_scope.

Lemma rminl_in l : l <> [] -> In (rminl l) l.
Proof. destruct l as [|x r]; [contradiction|]. intros _. cbn [rminl]. destruct (fold_min r x) as (_ & _ & [->|H]); [left; reflexivity|right; exact H]. Qed.
Lemma in_allStates ranks e : In e (allStates ranks) <-> exists threads, In threads ranks /\ In e (concat threads).
Proof.
  unfold allStates. split.
  - intro H. apply in_concat in H as (c & Hc & He). apply in_concat in Hc as (t & Ht & Hc). exists t. split; [exact Ht|]. apply in_concat. exists c. auto.
  - intros (t & Ht & He). apply in_concat in He as (c & Hc & He). apply in_concat. exists c. split; [|exact He]. apply in_concat. exists t. auto.
Qed.
Lemma limits_ok ranks e : In e (allStates ranks) -> rminl (map lowerLimit ranks) <= e - 1 /\ e + 1 <= rmaxl (map upperLimit ranks).
Proof.
  intro H. apply in_allStates in H as (t & Ht & He). split.
  - apply Rle_trans with (lowerLimit t); [apply rminl_le, in_map, Ht|]. unfold lowerLimit. destruct (concat t) as [|x r] eqn:C; [destruct He|]. rewrite <- C in *. pose proof (rminl_le _ _ He). lra.
  - apply Rle_trans with (upperLimit t); [|apply rmaxl_ge, in_map, Ht]. unfold upperLimit. destruct (concat t) as [|x r] eqn:C; [destruct He|]. rewrite <- C in *. pose proof (rmaxl_ge _ _ He). lra.
Qed.
Lemma limits_bound ranks B : 0 <= B -> (forall e, In e (allStates ranks) -> Rabs e <= B) ->
  - B - 1 <= rminl (map lowerLimit ranks) /\ rmaxl (map upperLimit ranks) <= B + 1.
Proof.
  intros HB H. assert (K : forall e, In e (allStates ranks) -> - B <= e <= B). { intros e He. specialize (H e He). unfold Rabs in H. destruct (Rcase_abs e); lra. }
  destruct ranks as [|r0 rs]; [cbn; lra|]. split.
  - assert (N : map lowerLimit (r0 :: rs) <> []) by discriminate. apply rminl_in in N. apply in_map_iff in N as (t & <- & Ht). unfold lowerLimit.
    destruct (concat t) as [|x r] eqn:C; [lra|]. rewrite <- C. assert (N : concat t <> []) by (rewrite C; discriminate). apply rminl_in in N.
    specialize (K (rminl (concat t))). assert (In (rminl (concat t)) (allStates (r0 :: rs))) by (apply in_allStates; exists t; auto). specialize (K H0). lra.
  - assert (N : map upperLimit (r0 :: rs) <> []) by discriminate. apply rmaxl_in in N. apply in_map_iff in N as (t & <- & Ht). unfold upperLimit.
    destruct (concat t) as [|x r] eqn:C; [lra|]. rewrite <- C. assert (N : concat t <> []) by (rewrite C; discriminate). apply rmaxl_in in N.
    specialize (K (rmaxl (concat t))). assert (In (rmaxl (concat t)) (allStates (r0 :: rs))) by (apply in_allStates; exists t; auto). specialize (K H0). lra.
Qed.

Definition fOf ranks np n T : R -> R := fun mu => fPop ranks np n mu T.
Lemma fOf_mono ranks np n T : 0 < np -> forall x y, x <= y -> fOf ranks np n T y <= fOf ranks np n T x.
Proof. intros Hp x y H. unfold fOf. rewrite !fPop_count. pose proof (count_mono (allStates ranks) np T x y Hp H). lra. Qed.
Lemma fOf_crossing ranks np n T d c : crossing (fOf ranks np n T) d c -> crossing (fun mu => n - electronCount (allStates ranks) np T mu) d c.
Proof.
  unfold crossing, fOf. rewrite fPop_count. intros [H|(a & b & H)]; [left; exact H|right; exists a, b]. rewrite !fPop_count in H. exact H.
Qed.
Lemma signs f x y : (forall x y, x <= y -> f y <= f x) -> x <= y -> rsgn (f x) <> rsgn (f y) -> x < y /\ 0 <= f x /\ f y <= 0 /\ rsgn (f y) <> rsgn (f x).
Proof.
  intros M H N. pose proof (M x y H) as Le. destruct (Req_dec x y) as [->|D]; [contradiction|]. split; [lra|].
  destruct (rsgn_cases (f x)) as [(P & Q)|[(P & Q)|(P & Q)]]; destruct (rsgn_cases (f y)) as [(P' & Q')|[(P' & Q')|(P' & Q')]]; try (rewrite Q, Q' in N; contradiction); try lra;
  (split; [lra|split; [lra|congruence]]).
Qed.
Lemma limits_le ranks : rminl (map lowerLimit ranks) <= rmaxl (map upperLimit ranks).
Proof.
  destruct ranks as [|r rs]; [cbn; lra|]. apply Rle_trans with (lowerLimit r); [apply rminl_le; left; reflexivity|].
  apply Rle_trans with (upperLimit r); [|apply rmaxl_ge; left; reflexivity]. unfold lowerLimit, upperLimit. destruct (concat r) as [|x l]; [lra|].
  pose proof (rminl_le (x :: l) x (or_introl eq_refl)). pose proof (rmaxl_ge (x :: l) x (or_introl eq_refl)). lra.
Qed.

Lemma findChemPot_spec ranks np nb el v c s fermi d T mus : 0 < np -> ~ (d = 0 /\ T = 0) ->
  findChemPot ranks np nb el v c s fermi d T = Ok mus ->
  0 <= electronsDoped el v c s d <= nb /\
  exists mu, mus = map (fun _ => mu) ranks /\ crossing (fun mu => electronsDoped el v c s d - electronCount (allStates ranks) np T mu) (/ 200000000) mu.
Proof.
  intros Hp Hc E. unfold findChemPot in E. set (n := electronsDoped el v c s d) in *.
  destruct (rltb nb n) eqn:N1; [discriminate|]. apply rltb_ge in N1. destruct (rltb n 0) eqn:N2; [discriminate|]. apply rltb_ge in N2.
  assert (Z : (reqb d 0 && reqb T 0)%bool = false). { destruct (reqb d 0) eqn:D; [|reflexivity]. destruct (reqb T 0) eqn:DT; [|reflexivity]. apply reqb_eq in D. apply reqb_eq in DT. tauto. }
  rewrite Z in E. cbn [andb] in E. cbv zeta in E. split; [lra|]. fold (fOf ranks np n T) in E.
  destruct (Z.eqb_spec (rsgn (fPop ranks np n (rminl (map lowerLimit ranks)) T)) (rsgn (fPop ranks np n (rmaxl (map upperLimit ranks)) T))) as [S|S]; [discriminate|].
  fold (fOf ranks np n T) in E. change (fPop ranks np n (rminl (map lowerLimit ranks)) T) with (fOf ranks np n T (rminl (map lowerLimit ranks))) in *.
  change (fPop ranks np n (rmaxl (map upperLimit ranks)) T) with (fOf ranks np n T (rmaxl (map upperLimit ranks))) in *.
  destruct (signs _ _ _ (fOf_mono ranks np n T Hp) (limits_le ranks) S) as (L & A & B & S').
  set (aX := rminl (map lowerLimit ranks)) in *. set (bX := rmaxl (map upperLimit ranks)) in *.
  change (fun mu => fPop ranks np n mu T) with (fOf ranks np n T) in E.
  destruct (bisect (fOf ranks np n T) (fOf ranks np n T aX) maxIter aX bX) as [mu| |] eqn:Bi; try discriminate. cbn [bind] in E. injection E as <-.
  exists mu. split; [reflexivity|]. apply fOf_crossing.
  apply (bisect_spec (fOf ranks np n T) (fOf ranks np n T aX) A (fOf_mono ranks np n T Hp) maxIter aX bX mu); [|exact Bi]. repeat split; [exact L|exact S'|exact B].
Qed.
Lemma crossing_close l np n T d mu : 0 < np -> 0 < T -> 0 < d -> crossing (fun mu => n - electronCount l np T mu) d mu ->
  Rabs (electronCount l np T mu - n) <= INR (length l) / np * (d / (4 * T)).
Proof.
  intros Hp HT Hd [H|(a & b & Ha & Hb & Wb & Wa & Fa & Fb)].
  - assert (H' : electronCount l np T mu - n = 0) by lra. rewrite H', Rabs_R0. apply Rmult_le_pos; [apply div_nonneg; [apply pos_INR|lra]|apply div_nonneg; lra].
  - pose proof (count_lipschitz l np T a mu Hp HT ltac:(lra)) as La. pose proof (count_lipschitz l np T mu b Hp HT ltac:(lra)) as Lb.
    assert (K : forall x, x < d -> INR (length l) / np * (x / (4 * T)) <= INR (length l) / np * (d / (4 * T))).
    { intros x Hx. apply Rmult_le_compat_l; [apply div_nonneg; [apply pos_INR|lra]|]. apply div_le; lra. }
    pose proof (K _ Wa). pose proof (K _ Wb). apply Rabs_le. lra.
Qed.
Lemma rsum_lt {A} (g h : A -> R) l x : In x l -> g x < h x -> (forall y, In y l -> g y <= h y) -> rsum (map g l) < rsum (map h l).
Proof.
  intros Hx H. induction l as [|y l IH]; [destruct Hx|]. intro Le. cbn [map]. change (rsum (g y :: map g l)) with (g y + rsum (map g l)).
  change (rsum (h y :: map h l)) with (h y + rsum (map h l)). pose proof (Le y (or_introl eq_refl)).
  destruct Hx as [->|Hx].
  - pose proof (rsum_le g h l (fun z Hz => Le z (or_intror Hz))). lra.
  - specialize (IH Hx (fun z Hz => Le z (or_intror Hz))). lra.
Qed.
Lemma count_strict l np T x y e : 0 < np -> In e l -> x < e < y -> electronCount l np T x < electronCount l np T y.
Proof.
  intros Hp He H. unfold electronCount, Rdiv. apply Rmult_lt_compat_r; [apply Rinv_0_lt_compat, Hp|]. apply (rsum_lt _ _ l e He); [|intros z _; apply occ_mono; lra].
  unfold occupation. destruct (Rle_dec T 0); [destruct (Rle_dec e x); destruct (Rle_dec e y); lra|]. apply fermi_decr, div_lt; lra.
Qed.
Lemma findChemPot_err ranks np nb el v c s fermi d T : 0 < np -> allStates ranks <> [] ->
  (forall e, In e (allStates ranks) -> Rabs e <= 100000000000000000000) ->
  let n := electronsDoped el v c s d in
  0 <= n <= nb -> electronCount (allStates ranks) np T (rminl (allStates ranks) - 1) <= n <= electronCount (allStates ranks) np T (rmaxl (allStates ranks) + 1) ->
  exists mus, findChemPot ranks np nb el v c s fermi d T = Ok mus.
Proof.
  intros Hp Hne Hb n Hn Hr. unfold findChemPot. fold n. rewrite (proj2 (rltb_ge nb n)), (proj2 (rltb_ge n 0)) by lra.
  destruct (reqb d 0 && reqb T 0 && reqb n 0)%bool; [eexists; reflexivity|]. destruct (reqb d 0 && reqb T 0 && reqb n nb)%bool; [eexists; reflexivity|]. cbv zeta.
  change (fPop ranks np n (rminl (map lowerLimit ranks)) T) with (fOf ranks np n T (rminl (map lowerLimit ranks))).
  change (fPop ranks np n (rmaxl (map upperLimit ranks)) T) with (fOf ranks np n T (rmaxl (map upperLimit ranks))).
  change (fun mu => fPop ranks np n mu T) with (fOf ranks np n T).
  pose proof (limits_bound ranks 100000000000000000000 ltac:(lra) Hb) as (LB & UB').
  destruct (limits_ok ranks _ (rminl_in _ Hne)) as (L1 & L2). destruct (limits_ok ranks _ (rmaxl_in _ Hne)) as (U1 & U2).
  set (aX := rminl (map lowerLimit ranks)) in *. set (bX := rmaxl (map upperLimit ranks)) in *.
  assert (A : 0 <= fOf ranks np n T aX). { unfold fOf. rewrite fPop_count. pose proof (count_mono (allStates ranks) np T _ _ Hp L1). lra. }
  assert (B : fOf ranks np n T bX <= 0). { unfold fOf. rewrite fPop_count. pose proof (count_mono (allStates ranks) np T _ _ Hp U2). lra. }
  assert (D : fOf ranks np n T bX < fOf ranks np n T aX).
  { unfold fOf. rewrite !fPop_count. pose proof (count_strict (allStates ranks) np T aX bX _ Hp (rminl_in _ Hne) ltac:(lra)). lra. }
  destruct (Z.eqb_spec (rsgn (fOf ranks np n T aX)) (rsgn (fOf ranks np n T bX))) as [S|S].
  { exfalso. destruct (rsgn_cases (fOf ranks np n T aX)) as [(P & Q)|[(P & Q)|(P & Q)]]; destruct (rsgn_cases (fOf ranks np n T bX)) as [(P' & Q')|[(P' & Q')|(P' & Q')]]; try lra; rewrite Q, Q' in S; discriminate. }
  destruct (bisect_ok (fOf ranks np n T) (fOf ranks np n T aX) 98 aX bX) as (mu & E); [lra| |].
  - apply Rmult_lt_reg_r with (2 ^ 98); [apply pow_lt; lra|]. unfold Rdiv. rewrite Rmult_assoc, Rinv_l by (apply pow_nonzero; lra).
    assert (P : 2 ^ 98 = 316912650057057350374175801344). { rewrite (pow_IZR 2 98). reflexivity. }
    rewrite P. lra.
  - unfold maxIter. rewrite E. eexists. reflexivity.
Qed.
Lemma occ_below l np mu : (forall e, In e l -> mu < e) -> electronCount l np 0 mu = 0.
Proof.
  intro H. unfold electronCount. replace (rsum (map (occupation 0 mu) l)) with 0; [unfold Rdiv; lra|]. induction l as [|x l IH]; [reflexivity|].
  cbn [map]. change (rsum (?a :: ?b)) with (a + rsum b). rewrite <- IH by (intros e He; apply H; right; exact He).
  unfold occupation. destruct (Rle_dec 0 0); [|lra]. pose proof (H x (or_introl eq_refl)). destruct (Rle_dec x mu); lra.
Qed.
Lemma occ_above l np mu : (forall e, In e l -> e <= mu) -> electronCount l np 0 mu = INR (length l) / np.
Proof.
  intro H. unfold electronCount. f_equal. induction l as [|x l IH]; [reflexivity|].
  cbn [map length]. rewrite S_INR. change (rsum (?a :: ?b)) with (a + rsum b). rewrite IH by (intros e He; apply H; right; exact He).
  unfold occupation. destruct (Rle_dec 0 0); [|lra]. pose proof (H x (or_introl eq_refl)). destruct (Rle_dec x mu); lra.
Qed.

(** * the table *)
Lemma pairs_prod temps xs : pairs temps xs = map (fun pq => (fst (fst pq), fst (snd pq), snd (fst pq), snd (snd pq)))
  (list_prod (combine (zrange 0 (zlen temps)) temps) (combine (zrange 0 (zlen xs)) xs)).
Proof.
  unfold pairs. generalize (combine (zrange 0 (zlen temps)) temps) as a. generalize (combine (zrange 0 (zlen xs)) xs) as b. intros b a.
  induction a as [|p a IH]; [reflexivity|]. cbn [flat_map list_prod]. rewrite map_app, map_map, IH. reflexivity.
Qed.
Lemma length_indexed (l : list R) : length (combine (zrange 0 (zlen l)) l) = length l.
Proof. rewrite combine_length. unfold zrange, zlen. rewrite map_length, seq_length, Nat2Z.id. lia. Qed.
Lemma nth_indexed (l : list R) i x : nth_error l i = Some x -> nth_error (combine (zrange 0 (zlen l)) l) i = Some (Z.of_nat i, x).
Proof.
  intro H. assert (L : (i < length l)%nat) by (apply nth_error_Some; congruence). apply nth_error_combine; [|exact H].
  rewrite nth_error_zrange by (unfold zlen; lia). f_equal.
Qed.
Lemma nth_pairs temps xs i j t x : nth_error temps i = Some t -> nth_error xs j = Some x ->
  nth_error (pairs temps xs) (i * length xs + j) = Some (Z.of_nat i, Z.of_nat j, t, x).
Proof.
  intros Hi Hj. rewrite pairs_prod. assert (Li : (i < length temps)%nat) by (apply nth_error_Some; congruence). apply nth_indexed in Hi. pose proof Hj as Hj'. apply nth_indexed in Hj.
  assert (Lj : (j < length xs)%nat) by (apply nth_error_Some; congruence).
  rewrite <- (length_indexed xs) at 1. rewrite (map_nth_error _ _ _ (d := ((Z.of_nat i, t), (Z.of_nat j, x)))); [reflexivity|]. rewrite nth_error_list_prod by (rewrite length_indexed; assumption).
  rewrite Hi, Hj. reflexivity.
Qed.
Lemma length_pairs temps xs : length (pairs temps xs) = (length temps * length xs)%nat.
Proof. rewrite pairs_prod, map_length, prod_length, !length_indexed. reflexivity. Qed.
Lemma zupd_mid {A} (done : list A) x rest v : zupd (done ++ x :: rest) (zlen done) v = done ++ v :: rest.
Proof.
  unfold zupd, zlen. destruct (Z.ltb_spec (Z.of_nat (length done)) 0); [lia|]. rewrite Nat2Z.id. induction done as [|y d IH]; [reflexivity|].
  cbn [length app upd_nat]. f_equal. apply IH. lia.
Qed.
Lemma fill_seq nT nX value ps : forall done rest, length rest = length ps ->
  (forall i it ix t x, nth_error ps i = Some (it, ix, t, x) -> compress2Indices it ix nT nX = Ok (zlen done + Z.of_nat i)%Z) ->
  foldM (fillRow nT nX value) ps (done ++ rest) = do rows <- mapM (fun p => value (snd (fst p)) (snd p)) ps ; Ok (done ++ rows).
Proof.
  induction ps as [|[[[it ix] t] x] ps IH]; intros done rest HL HC.
  - destruct rest; [|discriminate]. reflexivity.
  - destruct rest as [|r rest]; [discriminate|]. cbn [foldM mapM fst snd]. unfold fillRow at 1.
    destruct (value t x) as [v| |]; cbn [bind]; try reflexivity.
    rewrite (HC 0%nat it ix t x eq_refl). cbn [bind]. rewrite Z.add_0_r.
    assert (In1 : ((0 <=? zlen done)%Z && (zlen done <? zlen (done ++ r :: rest))%Z)%bool = true).
    { unfold zlen. rewrite app_length. cbn [length]. lia. }
    rewrite In1, zupd_mid. cbn [bind]. change (done ++ v :: rest) with (done ++ [v] ++ rest). rewrite app_assoc. rewrite IH.
    + destruct (mapM _ ps); cbn [bind]; try reflexivity. rewrite <- app_assoc. reflexivity.
    + cbn in HL. lia.
    + intros i it' ix' t' x' Hi. rewrite (HC (S i) it' ix' t' x' Hi). f_equal. unfold zlen. rewrite app_length. cbn [length]. lia.
Qed.
Lemma pairs_inv temps xs k it ix t x : nth_error (pairs temps xs) k = Some (it, ix, t, x) ->
  exists i j, k = (i * length xs + j)%nat /\ (j < length xs)%nat /\ it = Z.of_nat i /\ ix = Z.of_nat j /\ nth_error temps i = Some t /\ nth_error xs j = Some x.
Proof.
  intro H. assert (L : (k < length temps * length xs)%nat) by (rewrite <- length_pairs; apply nth_error_Some; congruence).
  assert (X : (0 < length xs)%nat) by nia. exists (k / length xs)%nat, (k mod length xs)%nat.
  pose proof (Nat.div_mod k (length xs) ltac:(lia)) as D. pose proof (Nat.mod_upper_bound k (length xs) ltac:(lia)) as M.
  assert (Q : (k / length xs < length temps)%nat) by (apply Nat.div_lt_upper_bound; lia).
  destruct (nth_error temps (k / length xs)) as [t'|] eqn:Et; [|apply nth_error_None in Et; lia].
  destruct (nth_error xs (k mod length xs)) as [x'|] eqn:Ex; [|apply nth_error_None in Ex; lia].
  pose proof (nth_pairs temps xs _ _ _ _ Et Ex) as P. replace (k / length xs * length xs + k mod length xs)%nat with k in P by lia.
  rewrite H in P. injection P as -> -> -> ->. repeat split; try assumption; lia.
Qed.
Lemma zeros_length n : (0 <= n)%Z -> length (zeros n) = Z.to_nat n.
Proof. intro H. unfold zeros, zrange. rewrite !map_length, seq_length. reflexivity. Qed.
Lemma fill_table temps xs value : (zlen temps * zlen xs <= INT_MAX)%Z ->
  foldM (fillRow (zlen temps) (zlen xs) value) (pairs temps xs) (zeros (zlen temps * zlen xs)) = mapM (fun p => value (snd (fst p)) (snd p)) (pairs temps xs).
Proof.
  intro HM. assert (P : (0 <= zlen temps * zlen xs)%Z) by (unfold zlen; lia).
  change (zeros (zlen temps * zlen xs)) with ([] ++ zeros (zlen temps * zlen xs)). rewrite fill_seq.
  - destruct (mapM _ _); reflexivity.
  - rewrite zeros_length by exact P. rewrite length_pairs. unfold zlen. lia.
  - intros k it ix t x H. apply pairs_inv in H as (i & j & -> & Hj & -> & -> & Hi & _).
    assert (Li : (i < length temps)%nat) by (apply nth_error_Some; congruence).
    destruct (compress2_ok (Z.of_nat i) (Z.of_nat j) (zlen temps) (zlen xs)) as [-> _]; [unfold zlen; lia|unfold zlen; lia|exact HM|]. f_equal. unfold zlen. cbn. lia.
Qed.
Lemma mapM_nth {A B} (f : A -> res B) l : forall r i x, mapM f l = Ok r -> nth_error l i = Some x -> exists y, nth_error r i = Some y /\ f x = Ok y.
Proof.
  induction l as [|a l IH]; intros r i x H Hi; [destruct i; discriminate|]. cbn [mapM] in H. destruct (f a) as [y| |] eqn:E; try discriminate. cbn [bind] in H.
  destruct (mapM f l) as [ys| |] eqn:M; try discriminate. cbn [bind] in H. injection H as <-. destruct i as [|i]; [injection Hi as <-; exists y; auto|]. cbn in Hi |- *. apply (IH ys i x eq_refl Hi).
Qed.
Lemma mapM_len {A B} (f : A -> res B) l : forall r, mapM f l = Ok r -> length r = length l.
Proof.
  induction l as [|a l IH]; intros r H; [injection H as <-; reflexivity|]. cbn [mapM] in H. destruct (f a); try discriminate. cbn [bind] in H.
  destruct (mapM f l) as [ys| |] eqn:M; try discriminate. injection H as <-. cbn. f_equal. apply IH. reflexivity.
Qed.
