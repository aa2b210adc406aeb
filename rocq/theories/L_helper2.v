(** Lemmas on the cache of third states and on batches. *)
From Coq Require Import QArith Qround Permutation.
From Verif Require Import Base BaseLemmas M_utilities L_utilities M_mpi S_mpi L_mpi M_points M_helper S_helper L_helper.
From Coq Require Import Lqa.
Open Scope Z_scope.

Lemma cache_ok {K D} (diag : K -> D) add sub outer inner a n iq2 : 0 < n -> exists c, prepare diag add sub outer inner (zrange a n) iq2 = Ok c /\
  forall iq1 plus, a <= iq1 < a + n -> get c plus iq1 = Ok (diag ((if plus then add else sub) (outer iq1) (inner iq2))).
Proof.
  intro Hn. unfold prepare. rewrite zrange_cons by lia. rewrite <- zrange_cons by lia. eexists. split; [reflexivity|]. intros iq1 plus H. unfold get. cbn [offset stored]. rewrite zget_map, zget_zrange by lia. cbn [option_map]. replace (a + (iq1 - a)) with iq1 by lia. destruct plus; reflexivity.
Qed.
Lemma cacheEl_ok {K D} (diag : K -> D) sub inner k1 a n : 0 < n -> exists c, prepareEl diag sub inner k1 (zrange a n) = Ok c /\
  forall ik2, a <= ik2 < a + n -> getEl c ik2 = Ok (diag (sub (inner ik2) k1)).
Proof.
  intro Hn. unfold prepareEl. rewrite zrange_cons by lia. rewrite <- zrange_cons by lia. eexists. split; [reflexivity|]. intros ik2 H. unfold getEl. cbn [offsetEl storedEl]. rewrite zget_map, zget_zrange by lia. cbn [option_map]. replace (a + (ik2 - a)) with ik2 by lia. reflexivity.
Qed.

(** * Batches *)
Lemma batchOf_slice {A} (l : list A) a b : 0 <= a <= b -> b <= zlen l -> batchOf l (a, b) = Ok (firstn (Z.to_nat (b - a)) (skipn (Z.to_nat a) l)).
Proof.
  intros H Hb. unfold batchOf. cbn [fst snd]. remember (Z.to_nat (b - a)) as k eqn:Ek. assert (E : b - a = Z.of_nat k) by lia. rewrite E. clear Ek.
  assert (G : forall k a, 0 <= a -> a + Z.of_nat k <= zlen l -> forall c, mapM (fun i => match zget l (a + i) with Some x => Ok x | None => UB end) (zrange c (Z.of_nat k)) = mapM (fun i => match zget l (a + c + i) with Some x => Ok x | None => UB end) (zrange 0 (Z.of_nat k))).
  { clear. induction k as [|k IH]; intros a Ha Hk c; [reflexivity|]. rewrite (zrange_cons c), (zrange_cons 0) by lia. cbn [mapM]. rewrite Z.add_0_r. destruct (zget l (a + c)); cbn [bind]; [|reflexivity]. replace (Z.of_nat (S k) - 1) with (Z.of_nat k) by lia. rewrite (IH a Ha ltac:(lia) (c + 1)). symmetry.
    assert (X : mapM (fun i => match zget l (a + c + i) with Some x => Ok x | None => UB end) (zrange (0 + 1) (Z.of_nat k)) = mapM (fun i => match zget l (a + (c + 1) + i) with Some x => Ok x | None => UB end) (zrange 0 (Z.of_nat k))).
    { assert (Y : forall (f g : Z -> res A) n, (forall i, f (1 + i) = g i) -> forall d, mapM f (zrange (1 + d) (Z.of_nat n)) = mapM g (zrange d (Z.of_nat n))). { intros f g n Hfg. induction n as [|n IHn]; intro d; [reflexivity|]. rewrite (zrange_cons (1 + d)), (zrange_cons d) by lia. cbn [mapM]. rewrite Hfg. replace (Z.of_nat (S n) - 1) with (Z.of_nat n) by lia. replace (1 + d + 1) with (1 + (d + 1)) by lia. rewrite IHn. reflexivity. }
      change (0 + 1) with (1 + 0). apply Y. intro i. replace (a + c + (1 + i)) with (a + (c + 1) + i) by lia. reflexivity. }
    rewrite X. reflexivity. }
  assert (Hk : a + Z.of_nat k <= zlen l) by lia. destruct H as (Ha & _). clear Hb E. revert a Ha Hk. induction k as [|k IH]; intros a Ha Hk; [reflexivity|].
  rewrite zrange_cons by lia. cbn [mapM]. rewrite Z.add_0_r. destruct (zget_inrange l a ltac:(lia)) as (x & Ex). rewrite Ex. cbn [bind]. replace (Z.of_nat (S k) - 1) with (Z.of_nat k) by lia. rewrite (G k a Ha ltac:(lia) (0 + 1)). rewrite (IH (a + (0 + 1)) ltac:(lia) ltac:(lia)). cbn [bind].
  unfold zget in Ex. replace (a <? 0) with false in Ex by lia. replace (Z.to_nat (a + (0 + 1))) with (S (Z.to_nat a)) by lia. f_equal. clear - Ex. revert l Ex. induction (Z.to_nat a) as [|j IH]; intros [|y l] Ex; cbn [nth_error] in Ex; try discriminate; [injection Ex as ->; reflexivity|]. change (skipn (S (S j)) (y :: l)) with (skipn (S j) l). change (skipn (S j) (y :: l)) with (skipn j l). apply IH. exact Ex.
Qed.
Definition slice {A} (l : list A) (b : Z * Z) : list A := firstn (Z.to_nat (snd b - fst b)) (skipn (Z.to_nat (fst b)) l).
Lemma slice_len {A} (l : list A) a b : 0 <= a <= b -> b <= zlen l -> zlen (slice l (a, b)) = b - a.
Proof. intros H Hb. unfold slice, zlen in *. cbn [fst snd]. rewrite firstn_length, skipn_length. lia. Qed.
Lemma slices_concat {A} (l : list A) (cut : Z -> Z) (k : nat) : (forall i, 0 <= i < Z.of_nat k -> cut i <= cut (i + 1)) -> 0 <= cut 0 -> cut (Z.of_nat k) <= zlen l ->
  concat (map (fun i => slice l (cut i, cut (i + 1))) (zrange 0 (Z.of_nat k))) = slice l (cut 0, cut (Z.of_nat k)) /\ cut 0 <= cut (Z.of_nat k).
Proof.
  intros Hm H0. induction k as [|k IH]; intro Hk.
  - split; [|cbn [Z.of_nat]; lia]. unfold slice. cbn [Z.of_nat fst snd]. rewrite Z.sub_diag. reflexivity.
  - assert (Mk : cut (Z.of_nat k) <= cut (Z.of_nat (S k))). { replace (Z.of_nat (S k)) with (Z.of_nat k + 1) by lia. apply Hm. lia. }
    destruct IH as (IH & Le); [intros i Hi; apply Hm; lia|lia|]. split; [|lia]. replace (Z.of_nat (S k)) with (Z.of_nat k + 1) in * by lia. rewrite zrange_S by lia. rewrite map_app, concat_app, IH. cbn [map concat]. rewrite app_nil_r, Z.add_0_l.
    unfold slice. cbn [fst snd]. replace (Z.to_nat (cut (Z.of_nat k))) with (Nat.add (Z.to_nat (cut (Z.of_nat k) - cut 0)) (Z.to_nat (cut 0))) by lia. rewrite <- (skipn_skipn (Z.to_nat (cut (Z.of_nat k) - cut 0)) (Z.to_nat (cut 0)) l).
    replace (Z.to_nat (cut (Z.of_nat k + 1) - cut 0)) with (Nat.add (Z.to_nat (cut (Z.of_nat k) - cut 0)) (Z.to_nat (cut (Z.of_nat k + 1) - cut (Z.of_nat k)))) by lia. 
    generalize (skipn (Z.to_nat (cut 0)) l) as r, (Z.to_nat (cut (Z.of_nat k) - cut 0)) as p, (Z.to_nat (cut (Z.of_nat k + 1) - cut (Z.of_nat k))) as q. clear. intros r p q. revert r. induction p as [|p IHp]; intros [|x r]; cbn [firstn skipn Nat.add app]; try reflexivity; [destruct q; reflexivity|]. rewrite IHp. reflexivity.
Qed.
Lemma slice_all {A} (l : list A) : slice l (0, zlen l) = l.
Proof. unfold slice, zlen. cbn [fst snd]. rewrite Z.sub_0_r, Nat2Z.id. apply firstn_all. Qed.

Definition cutAt (nq n i : Z) : Z := nq * i / n.
Lemma cut_mono nq n i : 0 <= nq -> 0 < n -> 0 <= i -> 0 <= cutAt nq n i <= cutAt nq n (i + 1).
Proof. intros. unfold cutAt. split; [apply Z.div_pos; nia|apply Z.div_le_mono; nia]. Qed.
Lemma cut_last nq n : 0 < n -> cutAt nq n n = nq.
Proof. intro. unfold cutAt. apply Z.div_mul. lia. Qed.
Lemma bounds_ok nq n : 0 <= nq -> 0 < n -> nq * n <= INT_MAX -> batchBounds nq n = Ok (map (fun i => (cutAt nq n i, cutAt nq n (i + 1))) (zrange 0 n)).
Proof.
  intros Hq Hn Hm. unfold batchBounds. apply mapM_ok. intros i Hi. apply in_zrange in Hi. unfold INT_MAX in Hm. rewrite !ck_ok by (unfold INT_MIN, INT_MAX; nia). cbn [bind]. unfold cutAt. rewrite !Z.quot_div_nonneg by nia. reflexivity.
Qed.
Lemma cut_le nq n i : 0 <= nq -> 0 < n -> i <= n -> cutAt nq n i <= nq.
Proof. intros. rewrite <- (cut_last nq n) at 2 by assumption. unfold cutAt. apply Z.div_le_mono; nia. Qed.
Lemma cut_step nq n i : 0 <= nq -> 0 < n -> 0 <= i -> nq / n <= cutAt nq n (i + 1) - cutAt nq n i <= (nq + n - 1) / n.
Proof.
  intros Hq Hn Hi. unfold cutAt. pose proof (Z.div_mod nq n ltac:(lia)). pose proof (Z.mod_pos_bound nq n Hn). pose proof (Z.div_mod (nq * i) n ltac:(lia)). pose proof (Z.mod_pos_bound (nq * i) n Hn). pose proof (Z.div_mod (nq * (i + 1)) n ltac:(lia)). pose proof (Z.mod_pos_bound (nq * (i + 1)) n Hn). pose proof (Z.div_mod (nq + n - 1) n ltac:(lia)). pose proof (Z.mod_pos_bound (nq + n - 1) n Hn). nia.
Qed.
Lemma batches_ok {A} (l : list A) n : 0 < n -> zlen l * n <= INT_MAX -> exists bs, allBatches l n = Ok bs /\ concat bs = l /\ zlen bs = n /\
  forall b, In b bs -> zlen l / n <= zlen b <= (zlen l + n - 1) / n.
Proof.
  intros Hn Hm. pose proof (zlen_nonneg l) as Hl. unfold allBatches. rewrite bounds_ok by assumption. cbn [bind]. set (cut := cutAt (zlen l) n).
  assert (B : forall i, 0 <= i < n -> 0 <= cut i <= cut (i + 1) /\ cut (i + 1) <= zlen l). { intros i Hi. split; [apply cut_mono; lia|apply cut_le; lia]. }
  exists (map (fun i => slice l (cut i, cut (i + 1))) (zrange 0 n)). split; [|split; [|split]].
  - rewrite <- (map_map (fun i => (cut i, cut (i + 1))) (slice l)). apply mapM_ok. intros b Hb. apply in_map_iff in Hb as (i & <- & Hi). apply in_zrange in Hi. destruct (B i ltac:(lia)). apply batchOf_slice; assumption.
  - pose proof (slices_concat l cut (Z.to_nat n)) as S. rewrite Z2Nat.id in S by lia. destruct S as (S & _); [intros i Hi; apply B; lia|apply (B 0); lia|unfold cut; rewrite cut_last by lia; lia|]. rewrite S. unfold cut. rewrite cut_last by lia. unfold cutAt. rewrite Z.mul_0_r, Z.div_0_l by lia. apply slice_all.
  - rewrite zlen_map. apply zlen_zrange. lia.
  - intros b Hb. apply in_map_iff in Hb as (i & <- & Hi). apply in_zrange in Hi. destruct (B i ltac:(lia)) as (B1 & B2). rewrite slice_len by lia. apply cut_step; lia.
Qed.
(** * splitToBatches *)
Lemma upd_app {A} (done : list A) x rest v : zupd (done ++ x :: rest) (zlen done) v = done ++ v :: rest.
Proof. unfold zupd, zlen. replace (Z.of_nat (length done) <? 0) with false by lia. rewrite Nat2Z.id. induction done as [|y d IH]; [reflexivity|]. cbn [app length upd_nat]. rewrite IH. reflexivity. Qed.
Lemma splitLoop_ok {A} (l : list A) bs nB : 0 < bs -> (forall i, 0 <= i -> (i < nB <-> i * bs < zlen l)) -> forall (k : nat) fuel i done, 0 <= i -> nB - i = Z.of_nat k -> zlen done = i -> (k < fuel)%nat ->
  splitLoop fuel l bs (i * bs) (Z.min ((i + 1) * bs) (zlen l)) i (done ++ repeat [] k) = Ok (done ++ map (fun j => slice l (Z.min (j * bs) (zlen l), Z.min ((j + 1) * bs) (zlen l))) (zrange i (Z.of_nat k))).
Proof.
  intros Hb HN. induction k as [|k IH]; intros fuel i done Hi Hk Ld Hf.
  - destruct fuel as [|fuel]; [lia|]. cbn [splitLoop]. assert (N : ~ i * bs < zlen l) by (rewrite <- HN by lia; lia). replace (i * bs <? _) with false by lia. reflexivity.
  - destruct fuel as [|fuel]; [lia|]. cbn [splitLoop]. assert (N : i * bs < zlen l) by (apply HN; lia). replace (i * bs <? _) with true by lia. pose proof (zlen_nonneg l). rewrite batchOf_slice by lia. cbn [bind].
    replace ((0 <=? i) && (i <? zlen (done ++ repeat [] (S k)))) with true by (rewrite zlen_app; unfold zlen at 2; rewrite repeat_length; lia). cbn [repeat].
    assert (U : zupd (done ++ [] :: repeat [] k) i (firstn (Z.to_nat (Z.min ((i + 1) * bs) (zlen l) - i * bs)) (skipn (Z.to_nat (i * bs)) l)) = (done ++ [slice l (Z.min (i * bs) (zlen l), Z.min ((i + 1) * bs) (zlen l))]) ++ repeat [] k).
    { rewrite <- Ld at 1. rewrite upd_app. rewrite <- app_assoc. cbn [app]. unfold slice. cbn [fst snd]. rewrite (Z.min_l (i * bs)) by lia. reflexivity. }
    rewrite U. replace (i * bs + bs) with ((i + 1) * bs) by ring. replace (Z.min (Z.min ((i + 1) * bs) (zlen l) + bs) (zlen l)) with (Z.min ((i + 1 + 1) * bs) (zlen l)) by lia.
    rewrite IH; [|lia|lia|rewrite zlen_app; unfold zlen at 2; cbn [length]; lia|lia]. rewrite <- app_assoc. cbn [app]. rewrite (zrange_cons i) by lia. replace (Z.of_nat (S k) - 1) with (Z.of_nat k) by lia. reflexivity.
Qed.
Lemma split_ok {A} (l : list A) batchSize : l <> [] -> 1 <= batchSize -> exists bs, splitToBatches l batchSize = Ok bs /\ concat bs = l /\
  forall b, In b bs -> 1 <= zlen b <= batchSize.
Proof.
  intros Hne Hb. assert (Hl : 1 <= zlen l) by (destruct l; [congruence|rewrite zlen_cons; pose proof (zlen_nonneg l); lia]). unfold splitToBatches. set (bs := Z.min batchSize (zlen l)). assert (Hbs : 0 < bs) by lia. replace (bs =? 0) with false by lia.
  set (nB := if Z.rem (zlen l) bs =? 0 then Z.quot (zlen l) bs else Z.quot (zlen l) bs + 1).
  assert (HN : forall i, 0 <= i -> (i < nB <-> i * bs < zlen l)).
  { intros i Hi. unfold nB. rewrite Z.rem_mod_nonneg, Z.quot_div_nonneg by lia. pose proof (Z.div_mod (zlen l) bs ltac:(lia)). pose proof (Z.mod_pos_bound (zlen l) bs Hbs). destruct (zlen l mod bs =? 0) eqn:E; nia. }
  assert (HnB : 0 < nB) by (apply HN; lia). assert (HnB' : nB <= zlen l). { assert (nB - 1 < nB) by lia. apply HN in H; [|lia]. nia. }
  assert (Hlast : zlen l <= nB * bs). { destruct (Z_le_gt_dec (zlen l) (nB * bs)) as [G|G]; [exact G|]. assert (F : nB * bs < zlen l) by lia. apply HN in F; lia. }
  pose proof (splitLoop_ok l bs nB Hbs HN (Z.to_nat nB) (S (S (length l))) 0 [] ltac:(lia) ltac:(lia) eq_refl) as S. cbn [app] in S. rewrite Z.mul_0_l, Z.add_0_l, Z.mul_1_l in S. rewrite (Z.min_l bs (zlen l)) in S by lia. rewrite S by (unfold zlen in *; lia). rewrite Z2Nat.id by lia.
  eexists. split; [reflexivity|]. split.
  - pose proof (slices_concat l (fun j => Z.min (j * bs) (zlen l)) (Z.to_nat nB)) as C. cbv beta in C. rewrite Z2Nat.id in C by lia. destruct C as (C & _); [intros i Hi; nia|lia|lia|]. rewrite C. rewrite Z.mul_0_l, (Z.min_l 0), (Z.min_r (nB * bs)) by lia. apply slice_all.
  - intros b Hb'. apply in_map_iff in Hb' as (j & <- & Hj). apply in_zrange in Hj. assert (J : j * bs < zlen l) by (apply HN; lia). rewrite slice_len by nia. rewrite (Z.min_l (j * bs)) by lia. assert (bs <= batchSize) by lia. nia.
Qed.
Lemma split_nil {A} n : 0 <= n -> splitToBatches (@nil A) n = UB.
Proof. intro H. unfold splitToBatches. change (zlen (@nil A)) with 0. replace (Z.min n 0 =? 0) with true by lia. reflexivity. Qed.

(** * stepping *)
Lemma step_ok niks size : 0 < size -> forall (k : nat) start, 0 <= start -> Z.max 0 (niks - start) <= Z.of_nat k -> exists bs, stepLoop (S k) niks size start = Ok bs /\
  concat (map (fun b => zrange (fst b) (snd b - fst b)) bs) = zrange start (niks - start) /\ forall b, In b bs -> 1 <= snd b - fst b <= size.
Proof.
  intro Hs. induction k as [|k IH]; intros start H0 H.
  - exists []. cbn [stepLoop]. replace (start <? niks) with false by lia. split; [reflexivity|]. split; [rewrite zrange_nil by lia; reflexivity|intros b []].
  - cbn [stepLoop] in *. destruct (start <? niks) eqn:E.
    + destruct (IH (start + size) ltac:(lia) ltac:(lia)) as (bs & E1 & C & S). cbn [stepLoop] in E1. rewrite E1. cbn [bind]. eexists. split; [reflexivity|]. split.
      * cbn [map concat fst snd]. rewrite C. destruct (Z_le_gt_dec (start + size) niks) as [G|G].
        { rewrite (Z.min_r niks) by lia. replace (start + size - start) with size by lia. rewrite zrange_app by lia. f_equal. lia. }
        { rewrite (Z.min_l niks) by lia. rewrite (zrange_nil (start + size)) by lia. apply app_nil_r. }
      * intros b [<-|Hb]; [cbn [fst snd]; lia|apply S; exact Hb].
    + exists []. split; [reflexivity|]. split; [rewrite zrange_nil by lia; reflexivity|intros b []].
Qed.

(** * Memory *)
Lemma estimate_ok nq per avail : 0 < nq -> (0 < per)%Q -> (0 < avail)%Q -> (per <= avail)%Q ->
  exists n, estimateNumBatches nq per avail = Ok n /\ 1 <= n <= nq /\ (inject_Z nq * per <= inject_Z n * avail)%Q.
Proof.
  intros Hq Hp Ha Hpa. assert (Q0 : (0 < inject_Z nq)%Q) by (change 0%Q with (inject_Z 0); rewrite <- Zlt_Qlt; exact Hq).
  unfold estimateNumBatches. replace (nq =? 0) with false by lia.
  assert (E : (inject_Z nq * per / inject_Z nq == per)%Q) by (field; lra).
  assert (F : Qltb avail (inject_Z nq * per / inject_Z nq) = false). { unfold Qltb. apply negb_false_iff, Qle_bool_iff. rewrite E. exact Hpa. }
  rewrite F. eexists. split; [reflexivity|]. set (x := (inject_Z nq * per / avail)%Q).
  assert (X : (x <= inject_Z nq)%Q). { unfold x. apply Qle_shift_div_r; [exact Ha|]. apply Qmult_le_l; assumption. }
  assert (X0 : (0 < x)%Q). { unfold x. apply Qlt_shift_div_l; [exact Ha|]. rewrite Qmult_0_l. apply (Qmult_lt_l 0 per (inject_Z nq)) in Hp; [|exact Q0]. rewrite Qmult_0_r in Hp. exact Hp. }
  split; [split|].
  - assert (C : (0 < inject_Z (Qceiling x))%Q) by (eapply Qlt_le_trans; [exact X0|apply Qle_ceiling]). change 0%Q with (inject_Z 0) in C. rewrite <- Zlt_Qlt in C. lia.
  - rewrite <- (Qceiling_Z nq). apply Qceiling_resp_le. exact X.
  - assert (C : (x <= inject_Z (Qceiling x))%Q) by apply Qle_ceiling. apply (Qmult_le_compat_r _ _ avail) in C; [|apply Qlt_le_weak; exact Ha]. unfold x at 1 in C. assert (Y : (inject_Z nq * per / avail * avail == inject_Z nq * per)%Q) by (field; lra). rewrite Y in C. exact C.
Qed.
Lemma batchSize_ok per avail : (0 < per)%Q -> (0 < avail)%Q -> (avail / per <= inject_Z INT_MAX)%Q ->
  (estimateBatchSize per avail = Err /\ (avail * (95 # 100) < per)%Q) \/ exists n, estimateBatchSize per avail = Ok n /\ 1 <= n /\ (inject_Z n * per <= avail)%Q.
Proof.
  intros Hp Ha Hi. unfold estimateBatchSize. set (x := (avail / per * (95 # 100))%Q). assert (D : (0 < avail / per)%Q) by (apply Qlt_shift_div_l; [exact Hp|rewrite Qmult_0_l; exact Ha]).
  assert (Xa : (x * per == avail * (95 # 100))%Q) by (unfold x; field; lra). assert (X0 : (0 <= x)%Q) by (unfold x; nra). assert (Xi : (x <= inject_Z INT_MAX)%Q) by (unfold x; nra).
  pose proof (Qfloor_le x) as Fl. pose proof (Qlt_floor x) as Fu. assert (F0 : 0 <= Qfloor x). { rewrite <- (Qfloor_Z 0). apply Qfloor_resp_le. exact X0. } assert (F1 : Qfloor x <= INT_MAX). { rewrite <- (Qfloor_Z INT_MAX). apply Qfloor_resp_le. exact Xi. }
  rewrite ck_ok by (unfold INT_MIN; lia). cbn [bind]. destruct (Qfloor x <? 1) eqn:E.
  - left. split; [reflexivity|]. assert (Z0 : Qfloor x = 0) by lia. rewrite Z0 in Fu. change (inject_Z (0 + 1)) with 1%Q in Fu. assert (x * per < 1 * per)%Q by (apply Qmult_lt_r; assumption). lra.
  - right. exists (Qfloor x). split; [reflexivity|]. split; [lia|]. apply (Qmult_le_compat_r _ _ per) in Fl; [|apply Qlt_le_weak; exact Hp]. lra.
Qed.
Lemma batches_memory {A} (l : list A) per avail : l <> [] -> (0 < per)%Q -> (0 < avail)%Q -> (per <= avail)%Q -> zlen l * zlen l <= INT_MAX ->
  exists n bs, estimateNumBatches (zlen l) per avail = Ok n /\ 1 <= n <= zlen l /\ allBatches l n = Ok bs /\ concat bs = l /\
  forall b, In b bs -> (inject_Z (zlen b) * per < avail + per)%Q.
Proof.
  intros Hne Hp Ha Hpa Hi. assert (Hl : 1 <= zlen l) by (destruct l; [congruence|rewrite zlen_cons; pose proof (zlen_nonneg l); lia]).
  destruct (estimate_ok (zlen l) per avail ltac:(lia) Hp Ha Hpa) as (n & En & Hn & Hm). destruct (batches_ok l n ltac:(lia) ltac:(nia)) as (bs & Eb & Cb & _ & Sb).
  exists n, bs. split; [exact En|]. split; [exact Hn|]. split; [exact Eb|]. split; [exact Cb|]. intros b Hb. specialize (Sb b Hb).
  assert (X : (zlen b - 1) * n < zlen l). { pose proof (Z.div_mod (zlen l + n - 1) n ltac:(lia)). pose proof (Z.mod_pos_bound (zlen l + n - 1) n ltac:(lia)). nia. }
  assert (Y : (inject_Z (zlen b) * inject_Z n < inject_Z (zlen l) + inject_Z n)%Q). { rewrite <- inject_Z_mult, <- inject_Z_plus, <- Zlt_Qlt. lia. }
  assert (N0 : (0 < inject_Z n)%Q) by (change 0%Q with (inject_Z 0); rewrite <- Zlt_Qlt; lia).
  apply (Qmult_lt_r _ _ (inject_Z n)); [exact N0|]. apply (Qmult_lt_r _ _ per) in Y; [|exact Hp]. lra.
Qed.
