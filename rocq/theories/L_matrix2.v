(** Proofs about matrix contents: histories of writes, eye, symmetrize, prod, dot. *)
From Coq Require Import QArith Qcanon Permutation.
From Verif Require Import Base BaseLemmas M_utilities M_mpi M_reduce M_matrix S_matrix L_utilities L_mpi L_fill L_reduce L_matrix.
Open Scope Z_scope.

(** ** local rows and columns *)
Lemma indxl2g_one_proc k nb : 0 < nb -> indxl2g k nb 0 1 = glob nb 1 0 k.
Proof.
  intro H. unfold indxl2g, glob. replace (Z.rem (1 + 0) 1) with 0 by reflexivity. pose proof (Z.quot_rem' (k - 1) nb). pose proof (Z.div_mod k nb ltac:(lia)). lia.
Qed.
Lemma indxl2g_one_block k nb p P : 1 < nb -> 0 <= p < P -> 0 <= k < nb -> indxl2g k nb p P = glob nb P p k.
Proof.
  intros Hn Hp Hk. unfold indxl2g, glob. rewrite (Z.rem_mod_nonneg (P + p)) by lia.
  replace ((P + p) mod P) with p by (rewrite <- (Z.mul_1_l P) at 1; rewrite Z.add_comm, Z.mod_add, Z.mod_small; lia).
  rewrite (Z.div_small k nb), (Z.mod_small k nb) by lia.
  destruct (Z.eq_dec k 0) as [->|].
  - change (0 - 1) with (- (1)). rewrite Z.quot_opp_l, Z.rem_opp_l, Z.quot_small, Z.rem_small by lia. lia.
  - rewrite Z.quot_small, Z.rem_small by lia. lia.
Qed.

Lemma rows_owned L p r : validLayout L -> isProcess L p -> 0 < numLocalCols L p ->
  ((exists c, inMatrix L r c /\ indicesAreLocal L p r c = true) <->
   exists k, 0 <= k < numLocalRows L p /\ r = glob (bsRows L) (npRows L) (fst p) k).
Proof.
  intros HL Hp Hc. pose proof HL as (?&?&?&?&?&?). pose proof Hp as [Hp1 Hp2]. split.
  - intros (c & Hin & E). unfold indicesAreLocal in E. pose proof Hin as [Hr Hcc].
    rewrite (global2Local_eq L HL p Hp) in E by exact Hin.
    destruct ((fst p =? _) && (snd p =? _)) eqn:E1; [|discriminate].
    exists (loc (bsRows L) (npRows L) r). assert (G : glob (bsRows L) (npRows L) (fst p) (loc (bsRows L) (npRows L) r) = r) by (apply glob_loc; lia).
    split; [|symmetry; exact G]. split; [apply loc_nonneg; lia|]. apply numroc_iff; try lia. apply loc_nonneg; lia.
  - intros (k & Hk & ->). exists (glob (bsCols L) (npCols L) (snd p) 0).
    assert (Hin : inMatrix L (glob (bsRows L) (npRows L) (fst p) k) (glob (bsCols L) (npCols L) (snd p) 0)).
    { split; (split; [apply glob_nonneg; lia|apply numroc_iff; try lia; try assumption; apply Hk]). }
    split; [exact Hin|]. unfold indicesAreLocal. rewrite (global2Local_eq L HL p Hp) by exact Hin.
    rewrite !own_glob by lia. rewrite !Z.eqb_refl. cbn [andb]. rewrite !loc_glob by lia. destruct (_ =? -1) eqn:E; [lia|reflexivity].
Qed.
Lemma cols_owned L p c : validLayout L -> isProcess L p -> 0 < numLocalRows L p ->
  ((exists r, inMatrix L r c /\ indicesAreLocal L p r c = true) <->
   exists k, 0 <= k < numLocalCols L p /\ c = glob (bsCols L) (npCols L) (snd p) k).
Proof.
  intros HL Hp Hr. pose proof HL as (?&?&?&?&?&?). pose proof Hp as [Hp1 Hp2]. split.
  - intros (r & Hin & E). unfold indicesAreLocal in E. pose proof Hin as [Hrr Hcc].
    rewrite (global2Local_eq L HL p Hp) in E by exact Hin.
    destruct ((fst p =? _) && (snd p =? _)) eqn:E1; [|discriminate].
    exists (loc (bsCols L) (npCols L) c). assert (G : glob (bsCols L) (npCols L) (snd p) (loc (bsCols L) (npCols L) c) = c) by (apply glob_loc; lia).
    split; [|symmetry; exact G]. split; [apply loc_nonneg; lia|]. apply numroc_iff; try lia. apply loc_nonneg; lia.
  - intros (k & Hk & ->). exists (glob (bsRows L) (npRows L) (fst p) 0).
    assert (Hin : inMatrix L (glob (bsRows L) (npRows L) (fst p) 0) (glob (bsCols L) (npCols L) (snd p) k)).
    { split; (split; [apply glob_nonneg; lia|apply numroc_iff; try lia; try assumption; apply Hk]). }
    split; [exact Hin|]. unfold indicesAreLocal. rewrite (global2Local_eq L HL p Hp) by exact Hin.
    rewrite !own_glob by lia. rewrite !Z.eqb_refl. cbn [andb]. rewrite !loc_glob by lia. destruct (_ =? -1) eqn:E; [nia|reflexivity].
Qed.

Lemma local_rows_ok L p : validLayout L -> isProcess L p -> 0 < numLocalCols L p ->
  npRows L = 1 \/ (1 < bsRows L /\ lRows L <= bsRows L * npRows L) ->
  forall r, In r (getAllLocalRows L p) <-> exists c, inMatrix L r c /\ indicesAreLocal L p r c = true.
Proof.
  intros HL Hp Hc Hcase r. rewrite (rows_owned L p r HL Hp Hc). unfold getAllLocalRows. rewrite in_map_iff.
  pose proof HL as (?&?&?&?&?&?). pose proof Hp as [Hp1 Hp2].
  assert (G : forall k, 0 <= k < numLocalRows L p -> indxl2g k (bsRows L) (fst p) (npRows L) = glob (bsRows L) (npRows L) (fst p) k).
  { intros k Hk. destruct Hcase as [E|[A B]].
    - replace (fst p) with 0 by lia. rewrite E. apply indxl2g_one_proc. lia.
    - apply indxl2g_one_block; try lia. split; [lia|]. assert (g : glob (bsRows L) (npRows L) (fst p) k < lRows L) by (apply numroc_iff; try lia; apply Hk).
      unfold glob in g. pose proof (Z.div_mod k (bsRows L) ltac:(lia)). pose proof (Z.mod_pos_bound k (bsRows L) ltac:(lia)).
      assert (k / bsRows L < 1); [|nia]. assert (0 <= k / bsRows L) by (apply Z.div_pos; lia). nia. }
  split.
  - intros (k & E & I). apply in_zrange in I. exists k. split; [lia|]. rewrite <- E. apply G. lia.
  - intros (k & Hk & E). exists k. split; [rewrite G by lia; congruence|apply in_zrange; lia].
Qed.
Lemma local_cols_ok L p : validLayout L -> isProcess L p -> 0 < numLocalRows L p ->
  npCols L = 1 \/ (1 < bsCols L /\ lCols L <= bsCols L * npCols L) ->
  forall c, In c (getAllLocalCols L p) <-> exists r, inMatrix L r c /\ indicesAreLocal L p r c = true.
Proof.
  intros HL Hp Hc Hcase r. rewrite (cols_owned L p r HL Hp Hc). unfold getAllLocalCols. rewrite in_map_iff.
  pose proof HL as (?&?&?&?&?&?). pose proof Hp as [Hp1 Hp2].
  assert (G : forall k, 0 <= k < numLocalCols L p -> indxl2g k (bsCols L) (snd p) (npCols L) = glob (bsCols L) (npCols L) (snd p) k).
  { intros k Hk. destruct Hcase as [E|[A B]].
    - replace (snd p) with 0 by lia. rewrite E. apply indxl2g_one_proc. lia.
    - apply indxl2g_one_block; try lia. split; [lia|]. assert (g : glob (bsCols L) (npCols L) (snd p) k < lCols L) by (apply numroc_iff; try lia; apply Hk).
      unfold glob in g. pose proof (Z.div_mod k (bsCols L) ltac:(lia)). pose proof (Z.mod_pos_bound k (bsCols L) ltac:(lia)).
      assert (k / bsCols L < 1); [|nia]. assert (0 <= k / bsCols L) by (apply Z.div_pos; lia). nia. }
  split.
  - intros (k & E & I). apply in_zrange in I. exists k. split; [lia|]. rewrite <- E. apply G. lia.
  - intros (k & Hk & E). exists k. split; [rewrite G by lia; congruence|apply in_zrange; lia].
Qed.

(** default layout: as many blocks as processes *)
Lemma default_layout size n m L : 0 < size -> 0 < n -> 0 < m -> mkLayout size n m 0 0 0 0 = Ok L ->
  validLayout L /\ npRows L = npCols L /\ lRows L = n /\ lCols L = m /\ npRows L * npCols L = size /\
  lRows L <= bsRows L * npRows L /\ lCols L <= bsCols L * npCols L /\
  (npRows L < n -> 1 < bsRows L) /\ (npCols L < m -> 1 < bsCols L).
Proof.
  intros Hs Hn Hm E. destruct (mkLayout_valid size n m 0 0 0 0 L Hs Hn Hm ltac:(lia) ltac:(lia) ltac:(lia) ltac:(lia) E) as (V & E1 & E2 & _).
  split; [exact V|]. unfold mkLayout in E. destruct (initBlacs size 0 0) as [g| |] eqn:G; cbn [bind] in E; try discriminate.
  destruct (initBlacs_ok size 0 0 g Hs ltac:(lia) ltac:(lia) ltac:(lia) ltac:(lia) G) as (P1 & P2 & _ & _ & _ & P3).
  destruct (P3 eq_refl eq_refl) as [P4 P5]. cbn [Z.eqb] in E. destruct (_ || _) in E; [discriminate|]. injection E as <-. cbn in *.
  destruct (blockSize_pos n (fst g) Hn P1) as [B1 B2]. destruct (blockSize_pos m (snd g) Hm P2) as [C1 C2].
  pose proof (Z.div_mod (n + fst g - 1) (fst g) ltac:(lia)). pose proof (Z.mod_pos_bound (n + fst g - 1) (fst g) P1).
  pose proof (Z.div_mod (m + snd g - 1) (snd g) ltac:(lia)). pose proof (Z.mod_pos_bound (m + snd g - 1) (snd g) P2).
  rewrite <- B2 in *. rewrite <- C2 in *. set (b1 := blockSize n (fst g)) in *. set (b2 := blockSize m (snd g)) in *. clearbody b1 b2.
  repeat split; try lia; try nia.
Qed.

(** ** histories of writes, distributed matrix *)
Section PHist.
Context {T : Type}.
Variable zero : T.
Variable L : layout.
Hypothesis HL : validLayout L.
Variable p : Z * Z.
Hypothesis Hp : isProcess L p.

Lemma pset_ok (buf : list T) r c v : zlen buf = numLocalElements L p -> inMatrix L r c ->
  exists buf', pset L p buf r c v = Ok buf' /\ zlen buf' = numLocalElements L p /\
  forall r' c', inMatrix L r' c' -> indicesAreLocal L p r' c' = true ->
    pget zero L p buf' r' c' = if (r =? r') && (c =? c') then Ok v else pget zero L p buf r' c'.
Proof.
  intros Hb Hin. unfold pset. destruct (global2Local L p r c =? -1) eqn:E.
  - exists buf. split; [reflexivity|]. split; [exact Hb|]. intros r' c' Hin' Hloc.
    destruct ((r =? r') && (c =? c')) eqn:E2; [|reflexivity]. replace r' with r in * by lia. replace c' with c in * by lia.
    unfold indicesAreLocal in Hloc. rewrite E in Hloc. discriminate.
  - destruct (local_slot L HL p Hp r c _ Hin eq_refl ltac:(lia)) as [R _].
    exists (zupd buf (global2Local L p r c) v). rewrite put_ok by lia. split; [reflexivity|].
    split; [rewrite zlen_zupd; exact Hb|]. intros r' c' Hin' Hloc. unfold indicesAreLocal in Hloc. unfold pget.
    destruct (global2Local L p r' c' =? -1) eqn:E2; [discriminate|].
    destruct ((r =? r') && (c =? c')) eqn:E3.
    + replace r' with r in * by lia. replace c' with c in * by lia. rewrite zget_zupd_eq by lia. reflexivity.
    + rewrite zget_zupd_ne; [reflexivity|]. intro C.
      destruct (local_slot L HL p Hp r c _ Hin eq_refl ltac:(lia)) as [_ S1].
      destruct (local_slot L HL p Hp r' c' _ Hin' eq_refl ltac:(lia)) as [_ S2].
      rewrite C in S1. rewrite S1 in S2. injection S2 as -> ->. lia.
Qed.


Lemma psets_ok (h : list (Z * Z * T)) : forall buf, zlen buf = numLocalElements L p ->
  Forall (fun w => inMatrix L (fst (fst w)) (snd (fst w))) h ->
  exists buf', psets L p h buf = Ok buf' /\ zlen buf' = numLocalElements L p /\
  forall r c d, inMatrix L r c -> indicesAreLocal L p r c = true -> pget zero L p buf r c = Ok d ->
    pget zero L p buf' r c = Ok (lastWrite h r c d).
Proof.
  induction h as [|[[r0 c0] v] h IH]; intros buf Hb Hh.
  - exists buf. split; [reflexivity|]. split; [exact Hb|]. intros; assumption.
  - destruct (pset_ok buf r0 c0 v Hb (Forall_inv Hh)) as (b1 & E1 & L1 & G1).
    destruct (IH b1 L1 (Forall_inv_tail Hh)) as (b2 & E2 & L2 & G2).
    exists b2. unfold psets in *. cbn [foldM]. rewrite E1. cbn [bind]. split; [exact E2|]. split; [exact L2|].
    intros r c d Hin Hloc Hd. cbn [lastWrite]. apply G2; try assumption. rewrite G1 by assumption.
    destruct ((r0 =? r) && (c0 =? c)); [reflexivity|exact Hd].
Qed.
Lemma pget_total (buf : list T) r c : zlen buf = numLocalElements L p -> inMatrix L r c -> exists d, pget zero L p buf r c = Ok d.
Proof.
  intros Hb Hin. unfold pget. destruct (_ =? -1) eqn:E; [eexists; reflexivity|].
  destruct (local_slot L HL p Hp r c _ Hin eq_refl ltac:(lia)) as [R _].
  destruct (zget_inrange buf (global2Local L p r c) ltac:(lia)) as (x & ->). eexists; reflexivity.
Qed.

Lemma lastWrite_diag (one : T) n : 0 <= n -> forall r c d, lastWrite (map (fun i => (i, i, one)) (zrange 0 n)) r c d =
  if (r =? c) && (0 <=? r) && (r <? n) then one else d.
Proof.
  intros Hn r c. pattern n. apply natlike_ind; [| |exact Hn].
  - intro d. cbn. destruct (r =? c); cbn [andb]; [|reflexivity]. destruct (0 <=? r) eqn:E; cbn [andb]; [|reflexivity]. destruct (r <? 0) eqn:E2; [lia|reflexivity].
  - clear n Hn. intros n Hn IH d. replace (Z.succ n) with (n + 1) by lia. rewrite zrange_S, map_app by lia. cbn [map].
    assert (A : forall (h h' : list (Z * Z * T)) d, lastWrite (h ++ h') r c d = lastWrite h' r c (lastWrite h r c d)).
    { clear. induction h as [|[[i j] v] h IH]; intros; [reflexivity|]. cbn. apply IH. }
    rewrite A, IH. cbn [lastWrite]. rewrite Z.add_0_l.
    destruct ((n =? r) && (n =? c)) eqn:E1; destruct (r =? c) eqn:E2; destruct (0 <=? r) eqn:E3; destruct (r <? n) eqn:E4; destruct (r <? n + 1) eqn:E5; cbn [andb]; try reflexivity; lia.
Qed.

Lemma peye_ok (one : T) buf : lRows L = lCols L -> zlen buf = numLocalElements L p ->
  exists buf', peye zero one L p buf = Ok buf' /\ zlen buf' = numLocalElements L p /\
  forall r c, inMatrix L r c -> indicesAreLocal L p r c = true ->
    pget zero L p buf' r c = Ok (if r =? c then one else zero).
Proof.
  intros Sq Hb. unfold peye. rewrite Sq, Z.eqb_refl. cbn [negb].
  set (b0 := map (fun _ => zero) buf). assert (H0 : zlen b0 = numLocalElements L p) by (unfold b0; rewrite zlen_map; exact Hb).
  pose proof HL as (?&?&?&?&?&?).
  destruct (psets_ok (map (fun i => (i, i, one)) (zrange 0 (lCols L))) b0 H0) as (b1 & E1 & L1 & G1).
  { apply Forall_forall. intros w I. apply in_map_iff in I as (i & <- & I). apply in_zrange in I. cbn. split; lia. }
  exists b1. split. { rewrite <- E1. unfold psets. clear. generalize (zrange 0 (lCols L)) b0. induction l as [|i l IH]; intro b; [reflexivity|].
    cbn [map foldM]. destruct (pset L p b i i one); cbn [bind]; [apply IH|reflexivity|reflexivity]. }
  split; [exact L1|]. intros r c Hin Hloc. rewrite (G1 r c zero Hin Hloc).
  - rewrite lastWrite_diag by lia. destruct Hin. destruct (r =? c) eqn:E; cbn [andb]; [|reflexivity].
    destruct (0 <=? r) eqn:E2; destruct (r <? lCols L) eqn:E3; cbn [andb]; try reflexivity; lia.
  - unfold pget. destruct (_ =? -1) eqn:E; [reflexivity|].
    destruct (local_slot L HL p Hp r c _ Hin eq_refl ltac:(lia)) as [R _].
    unfold b0. rewrite zget_map. destruct (zget_inrange buf (global2Local L p r c) ltac:(lia)) as (x & ->). reflexivity.
Qed.
End PHist.

(** ** serial matrix *)
Section S.
Context {T : Type}.
Lemma slot_range_s (A : smat T) r c : 0 <= r < sRows A -> 0 <= c < sCols A -> 0 <= sGlobal2Local A r c < sRows A * sCols A.
Proof. intros. unfold sGlobal2Local. nia. Qed.
Lemma slot_inj_s (A : smat T) r c r' c' : 0 <= r < sRows A -> 0 <= r' < sRows A ->
  sGlobal2Local A r c = sGlobal2Local A r' c' -> r = r' /\ c = c'.
Proof. unfold sGlobal2Local. intros. assert (c = c') by nia. subst. split; lia. Qed.
Lemma inb (A : smat T) r c : outOfBounds A r c = false <-> 0 <= r < sRows A /\ 0 <= c < sCols A.
Proof. unfold outOfBounds. lia. Qed.

Lemma sget_total (A : smat T) r c : wellFormed A -> 0 <= r < sRows A -> 0 <= c < sCols A -> exists v, sget A r c = Ok v.
Proof.
  intros (W1 & W2 & W3) Hr Hc. unfold sget. rewrite (proj2 (inb A r c)) by lia.
  pose proof (slot_range_s A r c Hr Hc). destruct (zget_inrange (sBuf A) (sGlobal2Local A r c) ltac:(lia)) as (x & ->). eexists; reflexivity.
Qed.
Lemma sget_err (A : smat T) r c : ~ (0 <= r < sRows A /\ 0 <= c < sCols A) -> sget A r c = Err /\ forall v, sset A r c v = Err.
Proof.
  intro H. assert (E : outOfBounds A r c = true) by (destruct (outOfBounds A r c) eqn:E; [reflexivity|apply inb in E; contradiction]).
  unfold sget, sset. rewrite E. split; [reflexivity|intro; reflexivity].
Qed.
Lemma sset_ok (A : smat T) r c v : wellFormed A -> 0 <= r < sRows A -> 0 <= c < sCols A ->
  exists A', sset A r c v = Ok A' /\ wellFormed A' /\ sRows A' = sRows A /\ sCols A' = sCols A /\
  forall r' c', 0 <= r' < sRows A -> 0 <= c' < sCols A -> sget A' r' c' = if (r =? r') && (c =? c') then Ok v else sget A r' c'.
Proof.
  intros (W1 & W2 & W3) Hr Hc. unfold sset. rewrite (proj2 (inb A r c)) by lia.
  pose proof (slot_range_s A r c Hr Hc). rewrite put_ok by lia. cbn [bind].
  eexists. split; [reflexivity|]. unfold wellFormed. cbn. rewrite zlen_zupd. split; [lia|]. split; [reflexivity|]. split; [reflexivity|].
  intros r' c' Hr' Hc'. unfold sget. cbn [outOfBounds sRows sCols sBuf sGlobal2Local].
  change (outOfBounds {| sRows := sRows A; sCols := sCols A; sBuf := zupd (sBuf A) (sGlobal2Local A r c) v |} r' c') with (outOfBounds A r' c').
  change (sGlobal2Local {| sRows := sRows A; sCols := sCols A; sBuf := zupd (sBuf A) (sGlobal2Local A r c) v |} r' c') with (sGlobal2Local A r' c').
  rewrite (proj2 (inb A r' c')) by lia. destruct ((r =? r') && (c =? c')) eqn:E.
  - replace r' with r by lia. replace c' with c by lia. rewrite zget_zupd_eq by lia. reflexivity.
  - rewrite zget_zupd_ne; [reflexivity|]. intro C. apply slot_inj_s in C; lia.
Qed.
Lemma ssets_ok (h : list (Z * Z * T)) : forall A, wellFormed A -> Forall (fun w => 0 <= fst (fst w) < sRows A /\ 0 <= snd (fst w) < sCols A) h ->
  exists A', ssets h A = Ok A' /\ wellFormed A' /\ sRows A' = sRows A /\ sCols A' = sCols A /\
  forall r c d, sget A r c = Ok d -> sget A' r c = Ok (lastWrite h r c d).
Proof.
  induction h as [|[[r0 c0] v] h IH]; intros A W Hh.
  - exists A. split; [reflexivity|]. repeat split; try apply W; try reflexivity. intros; assumption.
  - destruct (Forall_inv Hh) as [H1 H2]. cbn in H1, H2.
    destruct (sset_ok A r0 c0 v W H1 H2) as (A1 & E1 & W1 & R1 & C1 & G1).
    destruct (IH A1 W1) as (A2 & E2 & W2 & R2 & C2 & G2). { rewrite R1, C1. exact (Forall_inv_tail Hh). }
    exists A2. unfold ssets in *. cbn [foldM]. rewrite E1. cbn [bind]. split; [exact E2|]. split; [exact W2|]. split; [congruence|]. split; [congruence|].
    intros r c d Hd. cbn [lastWrite]. apply G2.
    destruct (outOfBounds A r c) eqn:O. { unfold sget in Hd. rewrite O in Hd. discriminate. } apply inb in O.
    rewrite G1 by lia. destruct ((r0 =? r) && (c0 =? c)); [reflexivity|exact Hd].
Qed.
Lemma smat0_ok (zero : T) r c : 0 <= r -> 0 <= c -> hasElements (smat0 zero r c) r c (fun _ _ => zero).
Proof.
  intros Hr Hc. assert (W : wellFormed (smat0 zero r c)). { unfold wellFormed. cbn. rewrite zlen_repeat by nia. lia. }
  split; [exact W|]. split; [reflexivity|]. split; [reflexivity|]. intros i j Hi Hj. unfold sget.
  rewrite (proj2 (inb _ i j)) by (cbn; lia). cbn [smat0 sBuf]. rewrite zget_repeat; [reflexivity|].
  exact (slot_range_s (smat0 zero r c) i j Hi Hj).
Qed.
Lemma slocal_inverse (A : smat T) : 0 < sRows A -> 0 <= sCols A ->
  (forall r c, 0 <= r < sRows A -> 0 <= c < sCols A -> 0 <= sGlobal2Local A r c < sRows A * sCols A /\ sLocal2Global A (sGlobal2Local A r c) = Ok (r, c)) /\
  (forall k, 0 <= k < sRows A * sCols A -> exists r c, sLocal2Global A k = Ok (r, c) /\ 0 <= r < sRows A /\ 0 <= c < sCols A /\ sGlobal2Local A r c = k).
Proof.
  intros Hr0 Hc0. unfold sLocal2Global. destruct (sRows A =? 0) eqn:E; [lia|]. split.
  - intros r c Hr Hc. split; [apply slot_range_s; lia|]. unfold sGlobal2Local. rewrite Z.quot_div_nonneg by nia.
    replace ((sRows A * c + r) / sRows A) with c. 2:{ rewrite Z.add_comm, Z.mul_comm, Z.div_add by lia. rewrite Z.div_small; lia. }
    f_equal. f_equal. ring.
  - intros k Hk. rewrite Z.quot_div_nonneg by lia. pose proof (Z.div_mod k (sRows A) ltac:(lia)). pose proof (Z.mod_pos_bound k (sRows A) ltac:(lia)).
    eexists _, _. split; [reflexivity|]. split; [lia|]. split; [split; [apply Z.div_pos; lia|apply Z.div_lt_upper_bound; lia]|]. unfold sGlobal2Local. ring.
Qed.
Lemma slocal_states (A : smat T) : 0 < sRows A -> 0 <= sCols A ->
  exists l, sGetAllLocalStates A = Ok l /\ NoDup l /\ forall r c, In (r, c) l <-> 0 <= r < sRows A /\ 0 <= c < sCols A.
Proof.
  intros Hr Hc. destruct (slocal_inverse A Hr Hc) as [I1 I2]. unfold sGetAllLocalStates.
  set (g := fun k => (k - Z.quot k (sRows A) * sRows A, Z.quot k (sRows A))).
  assert (E : forall k, sLocal2Global A k = Ok (g k)) by (intro k; unfold sLocal2Global, g; destruct (sRows A =? 0) eqn:E; [lia|reflexivity]).
  exists (map g (zrange 0 (sRows A * sCols A))). split; [apply mapM_ok; intros; apply E|]. split.
  - assert (G : forall l, (forall k, In k l -> 0 <= k < sRows A * sCols A) -> NoDup l -> NoDup (map g l)).
    { induction l as [|k l IH]; intros Hin Hn; [constructor|]. apply NoDup_cons_iff in Hn as [Hn1 Hn2]. cbn. constructor.
      - intro C. apply in_map_iff in C as (k' & E' & Hk').
        destruct (I2 k (Hin k (or_introl eq_refl))) as (r & c & Q & _ & _ & S1). destruct (I2 k' (Hin k' (or_intror Hk'))) as (r' & c' & Q' & _ & _ & S2).
        rewrite E in Q, Q'. rewrite E' in Q'. rewrite Q in Q'. injection Q' as -> ->. assert (k = k') by congruence. rewrite H in Hn1. exact (Hn1 Hk').
      - apply IH; auto. intros; apply Hin; right; auto. }
    apply G; [|apply NoDup_zrange]. intros k Hk. apply in_zrange in Hk. lia.
  - intros r c. rewrite in_map_iff. split.
    + intros (k & Q & Hk). apply in_zrange in Hk. destruct (I2 k ltac:(lia)) as (r' & c' & Q' & A1 & A2 & _).
      rewrite E, Q in Q'. injection Q' as -> ->. lia.
    + intros [A1 A2]. destruct (I1 r c A1 A2) as [B1 B2]. exists (sGlobal2Local A r c). rewrite E in B2. split; [congruence|apply in_zrange; lia].
Qed.
Lemma seye_lastWrite (one : T) A : wellFormed A -> sRows A = sCols A ->
  exists A', seye one A = Ok A' /\ wellFormed A' /\ sRows A' = sRows A /\ sCols A' = sCols A /\
  forall r c d, sget A r c = Ok d -> sget A' r c = Ok (if r =? c then one else d).
Proof.
  intros W Sq. unfold seye. rewrite Sq, Z.eqb_refl. cbn [negb]. pose proof W as (W1 & W2 & W3).
  destruct (ssets_ok (map (fun i => (i, i, one)) (zrange 0 (sCols A))) A W) as (A' & E1 & W' & R & C & G).
  { apply Forall_forall. intros w I. apply in_map_iff in I as (i & <- & I). apply in_zrange in I. cbn. lia. }
  exists A'. split. { rewrite <- E1. unfold ssets. clear. generalize (zrange 0 (sCols A)) as l. intro l. revert A. induction l as [|i l IH]; intro b; [reflexivity|].
    cbn [map foldM]. destruct (sset b i i one); cbn [bind]; [apply IH|reflexivity|reflexivity]. }
  split; [exact W'|]. split; [congruence|]. split; [congruence|]. intros r c d Hd. rewrite (G r c d Hd).
  destruct (outOfBounds A r c) eqn:O. { unfold sget in Hd. rewrite O in Hd. discriminate. } apply inb in O.
  rewrite lastWrite_diag by lia. destruct (r =? c); cbn [andb]; [|reflexivity].
  destruct (0 <=? r) eqn:E2; destruct (r <? sCols A) eqn:E3; cbn [andb]; try reflexivity; lia.
Qed.
End S.

(** ** symmetrize *)
Definition symF (F : Z -> Z -> Qc) (r c : Z) : Qc := ((F r c + F c r) / Q2Qc 2)%Qc.
Definition pairIn (l : list (Z * Z)) (r c : Z) : bool := existsb (fun q => (fst q =? Z.min r c) && (snd q =? Z.max r c)) l.

Lemma symmetrize_fold n l : NoDup l -> Forall (fun q => 0 <= fst q /\ fst q <= snd q /\ snd q < n) l ->
  forall A F, hasElements A n n F ->
  exists A', foldM symmetrizeStep l A = Ok A' /\ hasElements A' n n (fun r c => if pairIn l r c then symF F r c else F r c).
Proof.
  induction l as [|[i j] l IH]; intros ND HF A F HA.
  - exists A. split; [reflexivity|]. exact HA.
  - destruct (Forall_inv HF) as (P1 & P2 & P3). cbn [fst snd] in *. inversion ND as [|q l' NI ND']; subst.
    destruct HA as (W & R & C & G).
    cbn [foldM]. unfold symmetrizeStep at 1. rewrite (G j i), (G i j) by lia. cbn [bind].
    set (t := ((F j i + F i j) / Q2Qc 2)%Qc).
    destruct (sset_ok A i j t W ltac:(lia) ltac:(lia)) as (A1 & E1 & W1 & R1 & C1 & G1). rewrite E1. cbn [bind].
    destruct (sset_ok A1 j i t W1 ltac:(lia) ltac:(lia)) as (A2 & E2 & W2 & R2 & C2 & G2). rewrite E2. cbn [bind].
    set (F1 := fun r c => if ((j =? r) && (i =? c)) || ((i =? r) && (j =? c)) then t else F r c).
    assert (H2 : hasElements A2 n n F1).
    { split; [exact W2|]. split; [lia|]. split; [lia|]. intros r c Hr Hc. rewrite G2, G1 by lia. unfold F1.
      destruct ((j =? r) && (i =? c)); [reflexivity|]. destruct ((i =? r) && (j =? c)); [reflexivity|]. apply G; lia. }
    destruct (IH ND' (Forall_inv_tail HF) A2 F1 H2) as (A3 & E3 & W3 & R3 & C3 & G3).
    exists A3. split; [exact E3|]. split; [exact W3|]. split; [exact R3|]. split; [exact C3|].
    intros r c Hr Hc. rewrite (G3 r c Hr Hc). f_equal. cbn [pairIn existsb fst snd]. fold (pairIn l r c).
    assert (S : forall r c, ((j =? r) && (i =? c)) || ((i =? r) && (j =? c)) = (i =? Z.min r c) && (j =? Z.max r c)).
    { clear - P2. intros r c. destruct (Z.le_gt_cases r c); [rewrite Z.min_l, Z.max_r by lia|rewrite Z.min_r, Z.max_l by lia]; lia. }
    assert (NP : pairIn l r c = true -> (i =? Z.min r c) && (j =? Z.max r c) = false).
    { intro X. destruct ((i =? Z.min r c) && (j =? Z.max r c)) eqn:Y; [|reflexivity]. exfalso. apply NI.
      apply existsb_exists in X as ([a b] & Iab & Eab). cbn in Eab. replace i with a by lia. replace j with b by lia. exact Iab. }
    destruct (pairIn l r c) eqn:X.
    + rewrite (NP eq_refl). cbn [orb]. unfold symF, F1. rewrite !S. rewrite (NP eq_refl).
      rewrite (Z.min_comm c r), (Z.max_comm c r). rewrite (NP eq_refl). reflexivity.
    + rewrite Bool.orb_false_r. unfold F1. rewrite S. destruct ((i =? Z.min r c) && (j =? Z.max r c)) eqn:Y; [|reflexivity].
      unfold symF, t. destruct (Z.le_gt_cases r c).
      * replace i with r by lia. replace j with c by lia. f_equal. ring.
      * replace i with c by lia. replace j with r by lia. reflexivity.
Qed.
Lemma symmetrizeOrder_In n i j : In (i, j) (symmetrizeOrder n n) <-> 0 <= i /\ i <= j /\ j < n.
Proof.
  unfold symmetrizeOrder. rewrite in_flat_map. split.
  - intros (i' & I & J). apply in_zrange in I. apply in_map_iff in J as (j' & E & J). injection E as -> ->. apply in_zrange in J. lia.
  - intros H. exists i. split; [apply in_zrange; lia|]. apply in_map_iff. exists j. split; [reflexivity|apply in_zrange; lia].
Qed.
Lemma symmetrizeOrder_NoDup n : NoDup (symmetrizeOrder n n).
Proof.
  unfold symmetrizeOrder. apply NoDup_flat_map; [apply NoDup_zrange| |].
  - intros i _. generalize (NoDup_zrange i (n - i)). induction (zrange i (n - i)) as [|j l IH]; intro H; [constructor|]. inversion H; subst.
    cbn. constructor; [|apply IH; assumption]. intro C. apply in_map_iff in C as (x & E & I). injection E as ->. contradiction.
  - intros i i' [a b] _ _ H H'. apply in_map_iff in H as (x & E & _). apply in_map_iff in H' as (x' & E' & _). congruence.
Qed.
Lemma symmetrize_ok A n F : hasElements A n n F ->
  exists A', ssymmetrize A = Ok A' /\ hasElements A' n n (symF F).
Proof.
  intro HA. pose proof HA as (W & R & C & G). unfold ssymmetrize. rewrite R, C, Z.eqb_refl. cbn [negb].
  destruct (symmetrize_fold n (symmetrizeOrder n n) (symmetrizeOrder_NoDup n)) with (A := A) (F := F) as (A' & E & W' & R' & C' & G').
  - apply Forall_forall. intros [i j] I. apply symmetrizeOrder_In in I. exact I.
  - exact HA.
  - exists A'. split; [exact E|]. split; [exact W'|]. split; [exact R'|]. split; [exact C'|]. intros i j Hi Hj. rewrite (G' i j Hi Hj).
    replace (pairIn (symmetrizeOrder n n) i j) with true; [reflexivity|]. symmetry. apply existsb_exists.
    exists (Z.min i j, Z.max i j). split; [apply symmetrizeOrder_In; lia|]. cbn. lia.
Qed.

(** ** sums over Qc *)
Lemma qsum_app l l' : qsum (l ++ l') = (qsum l + qsum l')%Qc.
Proof. unfold qsum. induction l as [|a l IH]; cbn; [ring|]. rewrite IH. ring. Qed.
Lemma sumTo_ext n f g : (forall i, 0 <= i < n -> f i = g i) -> sumTo n f = sumTo n g.
Proof.
  intro H. unfold sumTo. f_equal. apply map_ext_in. intros i I. apply in_zrange in I. apply H. lia.
Qed.
Lemma qsum_map_add {A} (f g : A -> Qc) l : qsum (map (fun x => (f x + g x)%Qc) l) = (qsum (map f l) + qsum (map g l))%Qc.
Proof. unfold qsum. induction l as [|a l IH]; cbn; [ring|]. rewrite IH. ring. Qed.
Lemma qsum_map_scale {A} (k : Qc) (f : A -> Qc) l : qsum (map (fun x => (k * f x)%Qc) l) = (k * qsum (map f l))%Qc.
Proof. unfold qsum. induction l as [|a l IH]; cbn; [ring|]. rewrite IH. ring. Qed.
Lemma qsum_zero {A} (l : list A) : qsum (map (fun _ => 0%Qc) l) = 0%Qc.
Proof. unfold qsum. induction l as [|a l IH]; cbn; [reflexivity|]. rewrite IH. ring. Qed.
Lemma qsum_swap {A B} (f : A -> B -> Qc) la lb :
  qsum (map (fun a => qsum (map (fun b => f a b) lb)) la) = qsum (map (fun b => qsum (map (fun a => f a b) la)) lb).
Proof.
  induction la as [|a la IH]; cbn.
  - symmetry. apply qsum_zero.
  - fold (qsum (map (fun a => qsum (map (fun b => f a b) lb)) la)). rewrite IH. unfold qsum at 1. cbn. rewrite <- qsum_map_add. reflexivity.
Qed.
Lemma qsum_perm l l' : Permutation l l' -> qsum l = qsum l'.
Proof. intro H. unfold qsum. induction H; cbn; try congruence; ring. Qed.

Lemma two_eq : Q2Qc 2 = (1 + 1)%Qc.
Proof. apply Qc_is_canon. reflexivity. Qed.
(** quadratic form *)
Lemma quad_sym n F (x : Z -> Qc) :
  sumTo n (fun i => sumTo n (fun j => x i * symF F i j * x j))%Qc = sumTo n (fun i => sumTo n (fun j => x i * F i j * x j))%Qc.
Proof.
  assert (E : forall i j, (x i * symF F i j * x j = (/ Q2Qc 2) * (x i * F i j * x j) + (/ Q2Qc 2) * (x i * F j i * x j))%Qc).
  { intros. unfold symF. field. discriminate. }
  assert (Sum : forall G, sumTo n (fun i => sumTo n (fun j => G i j)) = qsum (map (fun i => qsum (map (fun j => G i j) (zrange 0 n))) (zrange 0 n))) by reflexivity.
  rewrite !Sum.
  rewrite (map_ext _ (fun i => (/ Q2Qc 2 * qsum (map (fun j => x i * F i j * x j) (zrange 0 n)) + / Q2Qc 2 * qsum (map (fun j => x i * F j i * x j) (zrange 0 n)))%Qc)).
  2:{ intro i. rewrite (map_ext _ _ (fun j => E i j)). rewrite qsum_map_add, !qsum_map_scale. reflexivity. }
  rewrite qsum_map_add, !qsum_map_scale.
  rewrite (qsum_swap (fun i j => (x i * F j i * x j)%Qc)).
  rewrite (map_ext (fun b => qsum (map (fun a => (x a * F b a * x b)%Qc) (zrange 0 n))) (fun i => qsum (map (fun j => (x i * F i j * x j)%Qc) (zrange 0 n)))).
  2:{ intro b. f_equal. apply map_ext. intro a. ring. }
  set (Q := qsum _). rewrite two_eq. field. discriminate.
Qed.

(** ** products *)
Lemma gemm_fold n m (val : Z -> Z -> res Qc) (G : Z -> Z -> Qc) : 0 <= n -> 0 <= m ->
  (forall i j, 0 <= i < n -> 0 <= j < m -> val i j = Ok (G i j)) ->
  exists b, foldM (fun c q => let '(j, i) := q in do v <- val i j ; put c (i + n * j) v) (list_prod (zrange 0 m) (zrange 0 n)) (repeat 0%Qc (Z.to_nat (n * m))) = Ok b /\
  zlen b = n * m /\ forall i j, 0 <= i < n -> 0 <= j < m -> zget b (i + n * j) = Some (G i j).
Proof.
  intros Hn Hm Hv.
  set (w := map (fun q : Z * Z => let '(j, i) := q in (i + n * j, G i j)) (list_prod (zrange 0 m) (zrange 0 n))).
  destruct (scatter_spec 0%Qc Qcplus Qcplus_0_l Qcplus_0_r (n * m) w) as (b & E & Lb & Gb & _).
  - nia.
  - unfold w. rewrite map_map. assert (H : forall l, (forall q, In q l -> 0 <= fst q < m /\ 0 <= snd q < n) -> NoDup l -> NoDup (map (fun x : Z * Z => fst (let '(j, i) := x in (i + n * j, G i j))) l)).
    { induction l as [|[j i] l IH]; intros Hin ND; [constructor|]. inversion ND; subst. cbn. constructor.
      - intro C. apply in_map_iff in C as ([j' i'] & Eq & I'). cbn in Eq.
        destruct (Hin (j, i) (or_introl eq_refl)). destruct (Hin (j', i') (or_intror I')). cbn in *. assert (j = j') by nia. subst j'. assert (i = i') by lia. subst i'. contradiction.
      - apply IH; [|assumption]. intros; apply Hin; right; assumption. }
    apply H; [|apply NoDup_list_prod; apply NoDup_zrange]. intros [j i] I. apply in_prod_iff in I as [I1 I2]. apply in_zrange in I1. apply in_zrange in I2. cbn. lia.
  - unfold w. apply Forall_forall. intros [s v] I. apply in_map_iff in I as ([j i] & Eq & I). apply in_prod_iff in I as [I1 I2]. apply in_zrange in I1. apply in_zrange in I2.
    injection Eq as <- <-. cbn. nia.
  - exists b. split; [|split; [exact Lb|]].
    + rewrite <- E. unfold scatter, w.
      assert (Hall : forall q, In q (list_prod (zrange 0 m) (zrange 0 n)) -> 0 <= fst q < m /\ 0 <= snd q < n).
      { intros [j i] I. apply in_prod_iff in I as [I1 I2]. apply in_zrange in I1. apply in_zrange in I2. cbn. lia. }
      revert Hall. generalize (list_prod (zrange 0 m) (zrange 0 n)) (repeat 0%Qc (Z.to_nat (n * m))).
      induction l as [|[j i] l IH]; intros c Hall; [reflexivity|]. cbn [map foldM fst snd].
      destruct (Hall (j, i) (or_introl eq_refl)) as [A1 A2]. cbn in A1, A2. rewrite (Hv i j A2 A1). cbn [bind].
      destruct (put c (i + n * j) (G i j)); cbn [bind]; try reflexivity. apply IH. intros; apply Hall; right; assumption.
    + intros i j Hi Hj. apply Gb. unfold w. apply in_map_iff. exists (j, i). split; [reflexivity|]. apply in_prod_iff. split; apply in_zrange; lia.
Qed.

Lemma hasElements_buf (A : smat Qc) r c F i j : hasElements A r c F -> 0 <= i < r -> 0 <= j < c -> zget (sBuf A) (i + r * j) = Some (F i j).
Proof.
  intros (W & R & C & G) Hi Hj. specialize (G i j Hi Hj). unfold sget in G. rewrite (proj2 (inb A i j)) in G by lia.
  unfold sGlobal2Local in G. rewrite R in G. replace (i + r * j) with (r * j + i) by ring.
  destruct (zget (sBuf A) (r * j + i)); [congruence|discriminate].
Qed.

Lemma gemmElement_ok (ta tb : bool) K (A : smat Qc) lda FA ra ca (B : smat Qc) ldb FB rb cb i j :
  hasElements A ra ca FA -> hasElements B rb cb FB -> lda = ra -> ldb = rb ->
  (if ta then 0 <= i < ca /\ K <= ra else 0 <= i < ra /\ K <= ca) ->
  (if tb then 0 <= j < rb /\ K <= cb else 0 <= j < cb /\ K <= rb) ->
  gemmElement ta tb K (sBuf A) lda (sBuf B) ldb i j = Ok (sumTo K (fun l => opF ta FA i l * opF tb FB l j))%Qc.
Proof.
  intros HA HB -> -> Hi Hj. unfold gemmElement.
  rewrite (mapM_ok _ (fun l => (opF ta FA i l * opF tb FB l j)%Qc)); [reflexivity|].
  intros l I. apply in_zrange in I.
  replace (zget (sBuf A) (if ta then l + ra * i else i + ra * l)) with (Some (opF ta FA i l)).
  2:{ destruct ta; cbn [opF]; symmetry; apply (hasElements_buf A ra ca FA); try assumption; lia. }
  replace (zget (sBuf B) (if tb then j + rb * l else l + rb * j)) with (Some (opF tb FB l j)).
  2:{ destruct tb; cbn [opF]; symmetry; apply (hasElements_buf B rb cb FB); try assumption; lia. }
  reflexivity.
Qed.

Lemma sprod_ok A B ta tb n k m FA FB : 0 < n -> 0 < k -> 0 < m ->
  hasElements A n k FA -> hasElements B k m FB -> (ta = true -> n = k) -> (tb = true -> m = k) ->
  exists C, sprod A B ta tb = Ok C /\ hasElements C n m (fun i j => sumTo k (fun l => opF ta FA i l * opF tb FB l j)%Qc).
Proof.
  intros Hn Hk Hm HA HB Ha Hb. unfold sprod. destruct HA as (WA & RA & CA & GA). destruct HB as (WB & RB & CB & GB).
  rewrite RA, RB, CA, CB, Z.eqb_refl. cbn [negb].
  unfold dgemm. destruct ((n <? Z.max 1 (if ta then k else n)) || (k <? Z.max 1 (if tb then m else k)) || (n <? Z.max 1 n)) eqn:E.
  { exfalso. destruct ta; destruct tb; try (specialize (Ha eq_refl)); try (specialize (Hb eq_refl)); lia. }
  destruct (gemm_fold n m (gemmElement ta tb k (sBuf A) n (sBuf B) k) (fun i j => sumTo k (fun l => opF ta FA i l * opF tb FB l j)%Qc)) as (b & Eb & Lb & Gb); try lia.
  { intros i j Hi Hj. apply (gemmElement_ok ta tb k A n FA n k B k FB k m); try (exact (conj WA (conj RA (conj CA GA)))); try (exact (conj WB (conj RB (conj CB GB)))); try reflexivity.
    - destruct ta; [specialize (Ha eq_refl)|]; lia.
    - destruct tb; [specialize (Hb eq_refl)|]; lia. }
  cbn [smat0 sBuf]. rewrite Eb. cbn [bind]. eexists. split; [reflexivity|].
  split; [unfold wellFormed; cbn; lia|]. split; [reflexivity|]. split; [reflexivity|]. intros i j Hi Hj. unfold sget.
  rewrite (proj2 (inb _ i j)) by (cbn; lia). unfold sGlobal2Local. cbn [sBuf sRows]. replace (n * j + i) with (i + n * j) by ring. rewrite (Gb i j Hi Hj). reflexivity.
Qed.
