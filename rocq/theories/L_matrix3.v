(** Proofs about the storage of the full band structure and the distributed dot product. *)
From Coq Require Import QArith Qcanon Permutation.
From Verif Require Import Base BaseLemmas M_utilities M_mpi M_reduce M_points M_irreducible S_points M_matrix S_matrix L_utilities L_mpi L_fill L_reduce L_irreducible L_matrix L_matrix2.
Open Scope Z_scope.

Lemma increasing_ext l : forall l', increasing l -> increasing l' -> (forall x, In x l <-> In x l') -> l = l'.
Proof.
  induction l as [|a l IH]; intros [|b l'] H H' E.
  - reflexivity.
  - exfalso. apply (E b). left; reflexivity.
  - exfalso. apply (E a). left; reflexivity.
  - apply increasing_cons in H as [H1 H2]. apply increasing_cons in H' as [H1' H2'].
    assert (a = b).
    { destruct (proj1 (E a) (or_introl eq_refl)) as [->|I]; [reflexivity|].
      destruct (proj2 (E b) (or_introl eq_refl)) as [->|J]; [reflexivity|]. specialize (H1 b J). specialize (H1' a I). lia. }
    subst b. f_equal. apply IH; try assumption. intro x. split; intro I.
    + destruct (proj1 (E x) (or_intror I)) as [->|J]; [|exact J]. specialize (H1 _ I). lia.
    + destruct (proj2 (E x) (or_intror I)) as [->|J]; [|exact J]. specialize (H1' _ I). lia.
Qed.
Lemma increasing_zrange a n : increasing (zrange a n).
Proof.
  destruct (Z_lt_le_dec n 0) as [N|N]; [rewrite zrange_nil by lia; exact I|].
  revert a. pattern n. apply natlike_ind; [|clear n N|exact N].
  - intro a. rewrite zrange_nil by lia. exact I.
  - intros n Hn IH a. rewrite zrange_cons by lia. apply increasing_cons. split.
    + intros y I. apply in_zrange in I. lia.
    + replace (Z.succ n - 1) with n by lia. apply IH.
Qed.
Lemma insert_fold (l : list (Z * Z)) : forall st, increasing st ->
  increasing (fold_left (fun st t => insertSet (snd t) st) l st) /\
  forall x, In x (fold_left (fun st t => insertSet (snd t) st) l st) <-> In x st \/ In x (map snd l).
Proof.
  induction l as [|[a b] l IH]; intros st H; [split; [exact H|intro x; cbn; tauto]|].
  cbn [fold_left map snd]. destruct (IH (insertSet b st) (insertSet_increasing _ _ H)) as [I1 I2]. split; [exact I1|].
  intro x. rewrite I2, insertSet_In. cbn. intuition (subst; auto).
Qed.

Section Band.
Variables (size rows n : Z) (L : layout).
Hypothesis Hsize : 0 < size.
Hypothesis Hrows : 0 < rows.
Hypothesis Hn : 0 < n.
Hypothesis HB : bandLayout size rows n = Ok L.

Lemma band_facts : size <= n /\ L = {| lRows := rows; lCols := n; bsRows := rows; bsCols := blockSize n size; npRows := 1; npCols := size |}.
Proof.
  unfold bandLayout in HB. destruct (n <? size) eqn:E; [discriminate|]. rewrite Z.min_l in HB by lia.
  split; [lia|]. unfold mkLayout, initBlacs in HB. rewrite Z.mul_1_l, Z.ltb_irrefl in HB. cbn [Z.eqb negb andb] in HB.
  destruct (size =? 0) eqn:Z0; [lia|]. cbn [negb andb bind fst snd Z.eqb orb] in HB. rewrite Z0 in HB. cbn [orb] in HB.
  injection HB as <-. f_equal. unfold blockSize. rewrite Z.quot_1_r, Z.rem_1_r. reflexivity.
Qed.
Lemma band_valid : validLayout L.
Proof.
  destruct band_facts as [Hle ->]. unfold validLayout. cbn [lRows lCols bsRows bsCols npRows npCols]. destruct (blockSize_pos n size Hn Hsize). lia.
Qed.
Lemma band_rows : lRows L = rows /\ lCols L = n /\ npRows L = 1 /\ npCols L = size.
Proof. destruct band_facts as [_ ->]. cbn. repeat split; lia. Qed.
Lemma band_localRows p : isProcess L p -> numLocalRows L p = rows.
Proof.
  destruct band_facts as [Hle ->]. intros [Hp _]. cbn in Hp. unfold numLocalRows. cbn. replace (fst p) with 0 by lia.
  rewrite numroc_eq by lia. rewrite (Z.div_same rows), (Z.mod_same rows) by lia. change (1 / 1) with 1. change (1 mod 1) with 0. cbn [Z.ltb Z.eqb Z.compare]. lia.
Qed.
(** each process owns one contiguous block of points *)
Definition cutB (r : Z) : Z := Z.min n (r * blockSize n size).
Lemma cutB_mono r : 0 <= r -> cutB r <= cutB (r + 1).
Proof. intro. unfold cutB. destruct (blockSize_pos n size Hn Hsize); nia. Qed.
Lemma cutB_end : cutB size = n.
Proof.
  unfold cutB. destruct (blockSize_pos n size Hn Hsize) as [A B]. pose proof (Z.div_mod (n + size - 1) size ltac:(lia)).
  pose proof (Z.mod_pos_bound (n + size - 1) size Hsize). rewrite <- B in *. nia.
Qed.
Lemma band_own c : 0 <= c < n -> forall q, 0 <= q < size -> (own (blockSize n size) size c = q <-> cutB q <= c < cutB (q + 1)).
Proof.
  intros Hc q Hq. unfold own, cutB. destruct (blockSize_pos n size Hn Hsize) as [A B].
  pose proof (Z.div_mod (n + size - 1) size ltac:(lia)) as D. pose proof (Z.mod_pos_bound (n + size - 1) size Hsize). rewrite <- B in D.
  set (b := blockSize n size) in *. pose proof (Z.div_mod c b ltac:(lia)) as D2. pose proof (Z.mod_pos_bound c b A).
  assert (0 <= c / b) by (apply Z.div_pos; lia). assert (c / b < size) by (apply Z.div_lt_upper_bound; nia).
  rewrite Z.mod_small by lia. split; intro E.
  - subst q. nia.
  - assert (q * b <= c < (q + 1) * b) by lia. symmetry. apply (Z.div_unique c b q (c - q * b)); [left; lia|ring].
Qed.
Lemma band_local p r c : isProcess L p -> inMatrix L r c -> (indicesAreLocal L p r c = true <-> cutB (snd p) <= c < cutB (snd p + 1)).
Proof.
  intros Hp Hin. pose proof band_valid as HL. unfold indicesAreLocal. rewrite (global2Local_eq L HL p Hp) by exact Hin.
  destruct band_facts as [Hle EL]. pose proof Hp as [Hp1 Hp2]. pose proof Hin as [Hr Hc]. pose proof (nr_nonneg L HL p Hp). rewrite EL in *. cbn [bsRows bsCols npRows npCols lRows lCols] in *.
  rewrite <- (band_own c Hc (snd p) Hp2).
  assert (O : own rows 1 r = 0) by (unfold own; apply Z.mod_1_r). rewrite O. replace (fst p) with 0 by lia. rewrite Z.eqb_refl. cbn [andb].
  destruct (snd p =? own _ _ _) eqn:E.
  - split; intro; [lia|]. assert (0 <= loc rows 1 r) by (apply loc_nonneg; lia). assert (0 <= loc (blockSize n size) size c) by (destruct (blockSize_pos n size Hn Hsize); apply loc_nonneg; lia).
    destruct (_ =? -1) eqn:F; [nia|reflexivity].
  - split; intro; [discriminate|lia].
Qed.

Lemma band_wavevectors p : isProcess L p -> getWavevectorIndices L p = zrange (cutB (snd p)) (cutB (snd p + 1) - cutB (snd p)).
Proof.
  intro Hp. pose proof band_valid as HL. unfold getWavevectorIndices.
  destruct (insert_fold (getAllLocalStates L p) [] I) as [I1 I2].
  apply increasing_ext; [exact I1|apply increasing_zrange|]. intro x. rewrite I2, in_map_iff, in_zrange.
  destruct band_rows as (R1 & R2 & _ & _). pose proof Hp as [Hp1 Hp2]. pose proof (cutB_mono (snd p) ltac:(lia)). split.
  - intros [[]|([r c] & E & J)]. cbn in E. subst c. apply (states_In L HL p Hp) in J as [J1 J2].
    assert (K : indicesAreLocal L p r x = true) by (unfold indicesAreLocal; destruct (_ =? -1) eqn:F; [lia|reflexivity]).
    apply (band_local p r x Hp J1) in K. lia.
  - intro Hx. right. exists (0, x). split; [reflexivity|]. assert (Hin : inMatrix L 0 x).
    { unfold cutB in Hx. destruct (blockSize_pos n size Hn Hsize). split; [lia|]. rewrite R2. nia. }
    apply (states_In L HL p Hp). split; [exact Hin|].
    assert (K : indicesAreLocal L p 0 x = true) by (apply (band_local p 0 x Hp Hin); lia).
    unfold indicesAreLocal in K. destruct (_ =? -1) eqn:F; [discriminate|lia].
Qed.
Lemma band_join : concat (map (fun r => getWavevectorIndices L (0, r)) (zrange 0 size)) = zrange 0 n.
Proof.
  destruct band_rows as (R1 & R2 & R3 & R4).
  rewrite (map_ext_in _ (fun r => zrange (cutB r) (cutB (r + 1) - cutB r))).
  2:{ intros r I. apply in_zrange in I. apply (band_wavevectors (0, r)). split; cbn; lia. }
  destruct (concat_ranges cutB (Z.to_nat size)) as [E _].
  { intros i Hi. apply cutB_mono. lia. }
  rewrite Z2Nat.id in E by lia. rewrite E. rewrite cutB_end. replace (cutB 0) with 0 by (unfold cutB; lia). f_equal; lia.
Qed.

(** ** storage *)
Context {T : Type}.
Variable zero : T.
Variable p : Z * Z.
Hypothesis Hp : isProcess L p.

Lemma band_local0 ik r : 0 <= ik < n -> 0 <= r < rows -> indicesAreLocal L p r ik = indicesAreLocal L p 0 ik.
Proof.
  intros Hk Hr. destruct band_rows as (R1 & R2 & _ & _).
  assert (I1 : inMatrix L r ik) by (split; lia). assert (I2 : inMatrix L 0 ik) by (split; lia).
  pose proof (band_local p r ik Hp I1). pose proof (band_local p 0 ik Hp I2).
  destruct (indicesAreLocal L p r ik); destruct (indicesAreLocal L p 0 ik); try reflexivity; intuition discriminate.
Qed.

Lemma setColumn_ok (buf : list T) ik vals : zlen buf = numLocalElements L p -> 0 <= ik < n -> indicesAreLocal L p 0 ik = true -> zlen vals = rows ->
  exists buf', setColumn L p buf ik vals = Ok buf' /\ zlen buf' = numLocalElements L p /\
  (forall r, 0 <= r < rows -> option_map Ok (zget vals r) = Some (pget zero L p buf' r ik)) /\
  (forall r ik', 0 <= r < rows -> 0 <= ik' < n -> ik' <> ik -> indicesAreLocal L p 0 ik' = true -> pget zero L p buf' r ik' = pget zero L p buf r ik').
Proof.
  intros Hb Hk Hloc Hv. pose proof band_valid as HL. destruct band_rows as (R1 & R2 & _ & _).
  unfold setColumn. rewrite Hloc. cbn [negb]. rewrite band_localRows by exact Hp.
  assert (G : forall m, 0 <= m -> m <= rows -> exists buf', foldM (fun b ib => match zget vals ib with Some v => pset L p b ib ik v | None => UB end) (zrange 0 m) buf = Ok buf' /\
     zlen buf' = numLocalElements L p /\
     (forall r, 0 <= r < m -> option_map Ok (zget vals r) = Some (pget zero L p buf' r ik)) /\
     (forall r ik', 0 <= r < rows -> 0 <= ik' < n -> ik' <> ik -> indicesAreLocal L p 0 ik' = true -> pget zero L p buf' r ik' = pget zero L p buf r ik')).
  { intros m Hm. pattern m. apply natlike_ind; [| |exact Hm].
    - intros _. exists buf. split; [reflexivity|]. split; [exact Hb|]. split; [intros; lia|reflexivity].
    - clear m Hm. intros m Hm IH Hle. destruct (IH ltac:(lia)) as (b1 & E1 & L1 & G1 & G1').
      replace (Z.succ m) with (m + 1) by lia. rewrite zrange_S by lia. rewrite foldM_app', E1. cbn [bind foldM].
      rewrite Z.add_0_l. destruct (zget_inrange vals m ltac:(lia)) as (v & Ev). rewrite Ev.
      destruct (pset_ok zero L HL p Hp b1 m ik v L1) as (b2 & E2 & L2 & G2). { split; lia. }
      rewrite E2. cbn [bind]. exists b2. split; [reflexivity|]. split; [exact L2|]. split.
      + intros r Hr. rewrite G2; [| split; lia | rewrite band_local0 by lia; exact Hloc].
        rewrite Z.eqb_refl, Bool.andb_true_r. destruct (m =? r) eqn:F.
        * replace r with m by lia. rewrite Ev. reflexivity.
        * apply G1. lia.
      + intros r ik' Hr Hk' Hne Hl'. rewrite G2; [| split; lia | rewrite band_local0 by lia; exact Hl'].
        replace (ik =? ik') with false by lia. rewrite Bool.andb_false_r. apply G1'; assumption. }
  apply G; lia.
Qed.
Lemma setColumn_nonlocal (buf : list T) ik vals : indicesAreLocal L p 0 ik = false -> setColumn L p buf ik vals = Err.
Proof. intro H. unfold setColumn. rewrite H. reflexivity. Qed.

Lemma getEnergies_set (buf : list T) ik vals buf' : zlen buf = numLocalElements L p -> 0 <= ik < n -> indicesAreLocal L p 0 ik = true -> zlen vals = rows ->
  setColumn L p buf ik vals = Ok buf' ->
  getEnergies zero L p rows buf' ik = Ok vals /\
  forall ik', 0 <= ik' < n -> ik' <> ik -> indicesAreLocal L p 0 ik' = true -> getEnergies zero L p rows buf' ik' = getEnergies zero L p rows buf ik'.
Proof.
  intros Hb Hk Hloc Hv E. destruct (setColumn_ok buf ik vals Hb Hk Hloc Hv) as (b & E' & Lb & G1 & G2). rewrite E in E'. injection E' as <-.
  unfold getEnergies. rewrite Hloc. cbn [negb]. split.
  - destruct vals as [|v0 vs]; [cbn in Hv; lia|]. rewrite (mapM_ok _ (fun ib => match zget (v0 :: vs) ib with Some v => v | None => v0 end)).
    + f_equal. apply zget_ext; [rewrite zlen_map, zlen_zrange; lia|]. rewrite zlen_map, zlen_zrange by lia. intros i Hi. rewrite zget_map, zget_zrange by lia. cbn [option_map].
      rewrite Z.add_0_l. destruct (zget_inrange (v0 :: vs) i ltac:(lia)) as (x & ->). reflexivity.
    + intros ib I. apply in_zrange in I. specialize (G1 ib ltac:(lia)). destruct (zget (v0 :: vs) ib); [cbn in G1; congruence|discriminate].
  - intros ik' Hk' Hne Hl'. rewrite Hl'. cbn [negb]. assert (X : forall l, (forall x, In x l -> 0 <= x < rows) -> mapM (fun ib => pget zero L p buf' ib ik') l = mapM (fun ib => pget zero L p buf ib ik') l).
    { induction l as [|x l IH]; intro H; [reflexivity|]. cbn. rewrite G2; [|apply H; left; reflexivity|assumption|assumption|assumption]. rewrite IH; [reflexivity|]. intros; apply H; right; assumption. }
    apply X. intros x I. apply in_zrange in I. lia.
Qed.
End Band.
