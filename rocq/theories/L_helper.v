(** Lemmas on the helpers of the third states and on batches. *)
From Coq Require Import QArith Qround Permutation.
From Verif Require Import Base BaseLemmas M_utilities L_utilities M_mpi S_mpi L_mpi M_points S_points L_points L_search M_irreducible L_irreducible L_scattering M_helper S_helper.
From Coq Require Import Lqa.
Open Scope Z_scope.

(** * Gathering lists by sums *)
Definition zeros (n : Z) : list Z := repeat 0 (Z.to_nat n).
Lemma zeros_app a b : 0 <= a -> 0 <= b -> zeros (a + b) = zeros a ++ zeros b.
Proof. intros. unfold zeros. rewrite Z2Nat.inj_add by lia. apply repeat_app. Qed.
Lemma zlen_zeros n : 0 <= n -> zlen (zeros n) = n.
Proof. intro. unfold zlen, zeros. rewrite repeat_length. lia. Qed.
Lemma addBuf_app a b c d : length a = length c -> addBuf (a ++ b) (c ++ d) = addBuf a c ++ addBuf b d.
Proof. intro H. unfold addBuf. revert c H. induction a as [|x a IH]; intros [|y c] H; cbn in *; try discriminate; [reflexivity|]. injection H as H. f_equal. apply IH. exact H. Qed.
Lemma addBuf_zl l n : n = length l -> addBuf (repeat 0 n) l = l.
Proof. intros ->. unfold addBuf. induction l as [|x l IH]; [reflexivity|]. cbn [length repeat combine map]. rewrite IH. reflexivity. Qed.
Lemma addBuf_zr l n : n = length l -> addBuf l (repeat 0 n) = l.
Proof. intros ->. unfold addBuf. induction l as [|x l IH]; [reflexivity|]. cbn [length repeat combine map fst snd]. rewrite IH. f_equal. lia. Qed.
Definition place (total d : Z) (s : list Z) : list Z := zeros d ++ s ++ zeros (total - d - zlen s).
Fixpoint placeAll (total d : Z) (sets : list (list Z)) : list (list Z) :=
  match sets with [] => [] | s :: r => place total d s :: placeAll total (d + zlen s) r end.
Lemma zlen_concat_nonneg {A} (l : list (list A)) : 0 <= zlen (concat l).
Proof. apply zlen_nonneg. Qed.
Lemma len_zeros n : length (zeros n) = Z.to_nat n.
Proof. apply repeat_length. Qed.
Lemma sum_placeAll total sets : forall d, 0 <= d -> d + zlen (concat sets) <= total -> sumBufs (Z.to_nat total) (placeAll total d sets) = place total d (concat sets).
Proof.
  induction sets as [|s r IH]; intros d Hd H.
  - cbn [placeAll sumBufs fold_right concat]. unfold place, zlen. cbn [length app]. rewrite <- zeros_app by (unfold zlen in H; cbn [concat length] in H; lia). unfold zeros. f_equal. cbn [length]. lia.
  - cbn [placeAll concat]. cbn [sumBufs fold_right]. fold (sumBufs (Z.to_nat total) (placeAll total (d + zlen s) r)). cbn [concat] in H. rewrite zlen_app in H. pose proof (zlen_nonneg s). pose proof (zlen_nonneg (concat r)).
    rewrite IH by lia. unfold place. rewrite zeros_app by lia. rewrite <- app_assoc. rewrite addBuf_app by (rewrite !len_zeros; reflexivity). unfold zeros at 1. rewrite addBuf_zl by (rewrite len_zeros; reflexivity). f_equal.
    rewrite addBuf_app by (rewrite len_zeros; unfold zlen; lia). rewrite zlen_app, <- app_assoc. unfold zeros at 1. rewrite addBuf_zr by (unfold zlen; lia). f_equal. unfold zeros at 1. rewrite addBuf_zl; [f_equal; f_equal; lia|]. rewrite app_length, len_zeros. unfold zlen in *. lia.
Qed.
Lemma place_len total d s : 0 <= d -> d + zlen s <= total -> length (place total d s) = Z.to_nat total.
Proof. intros. unfold place. rewrite !app_length, !len_zeros. unfold zlen in *. lia. Qed.
Lemma placeAll_len total sets : forall d, 0 <= d -> d + zlen (concat sets) <= total -> Forall (fun b => length b = Z.to_nat total) (placeAll total d sets) /\ length (placeAll total d sets) = length sets.
Proof.
  induction sets as [|s r IH]; intros d Hd H; [split; [constructor|reflexivity]|]. cbn [placeAll]. cbn [concat] in H. rewrite zlen_app in H. pose proof (zlen_nonneg s). pose proof (zlen_nonneg (concat r)). destruct (IH (d + zlen s)) as (A & B); [lia|lia|].
  split; [constructor; [apply place_len; lia|exact A]|cbn [length]; rewrite B; reflexivity].
Qed.
Lemma reduce_placeAll sets : sets <> [] -> let total := zlen (concat sets) in allReduceSum (placeAll total 0 sets) = repeat (concat sets) (length sets).
Proof.
  intros Hne total. pose proof (zlen_nonneg (concat sets)) as Hp. destruct (placeAll_len total sets 0) as (A & B); [lia|unfold total; lia|].
  assert (E : place total 0 (concat sets) = concat sets). { unfold place, zeros. replace (Z.to_nat (total - 0 - zlen (concat sets))) with 0%nat by (unfold total; lia). cbn [repeat app Z.to_nat]. apply app_nil_r. }
  unfold allReduceSum. destruct (zlen (placeAll total 0 sets) =? 1) eqn:Z1.
  - destruct sets as [|s [|s' r]]; [congruence| |unfold zlen in Z1; rewrite B in Z1; cbn [length] in Z1; lia]. cbn [placeAll length repeat]. f_equal. cbn [concat] in *. rewrite app_nil_r in E |- *. exact E.
  - rewrite <- B. clear B Z1. revert A. generalize (sum_placeAll total sets 0 ltac:(lia) ltac:(unfold total; lia)). rewrite E. generalize (placeAll total 0 sets) as bufs. intros bufs Hs A. rewrite <- Hs.
    assert (G : forall bs : list (list Z), Forall (fun b : list Z => length b = Z.to_nat total) bs -> map (fun b => sumBufs (length b) bufs) bs = repeat (sumBufs (Z.to_nat total) bufs) (length bs)). { induction bs as [|b bs IH]; intro F; [reflexivity|]. inversion F; subst. cbn [map length repeat]. rewrite IH by assumption. congruence. } apply G. exact A.
Qed.

Lemma upd_zeros r n c : 0 <= r < n -> zupd (zeros n) r c = place n r [c].
Proof.
  intro H. unfold zupd. replace (r <? 0) with false by lia. unfold place, zlen, zeros. cbn [length]. 
  replace (Z.to_nat n) with (Z.to_nat r + S (Z.to_nat (n - r - Z.of_nat 1)))%nat by lia. generalize (Z.to_nat (n - r - Z.of_nat 1)) as k, (Z.to_nat r) as j. clear. intros k j.
  induction j as [|j IH]; [reflexivity|]. cbn [Nat.add repeat upd_nat app]. rewrite IH. reflexivity.
Qed.
Lemma write_place s : forall k d total pre, 0 <= d -> 0 <= k -> length pre = Z.to_nat (d + k) -> d + k + zlen s <= total ->
  fold_left (fun b ix => zupd b (fst ix + d) (snd ix)) (combine (zrange k (zlen s)) s) (pre ++ zeros (total - d - k)) = pre ++ s ++ zeros (total - d - k - zlen s).
Proof.
  induction s as [|x s IH]; intros k d total pre Hd Hk Lp H.
  - unfold zlen. cbn [length]. rewrite zrange_nil by lia. cbn [combine fold_left app]. do 2 f_equal. lia.
  - rewrite zlen_cons in *. pose proof (zlen_nonneg s). rewrite zrange_cons by lia. replace (1 + zlen s - 1) with (zlen s) by lia. cbn [combine fold_left fst snd].
    replace (zupd (pre ++ zeros (total - d - k)) (k + d) x) with ((pre ++ [x]) ++ zeros (total - d - (k + 1))).
    + rewrite IH; [|lia|lia|rewrite app_length, Lp; cbn [length]; lia|lia]. rewrite <- app_assoc. cbn [app]. do 3 f_equal. f_equal. lia.
    + unfold zupd. replace (k + d <? 0) with false by lia. replace (Z.to_nat (k + d)) with (length pre + 0)%nat by lia. unfold zeros. replace (Z.to_nat (total - d - k)) with (S (Z.to_nat (total - d - (k + 1)))) by lia.
      clear. induction pre as [|y pre IHp]; [reflexivity|]. cbn [app length Nat.add upd_nat]. rewrite <- IHp. reflexivity.
Qed.
Lemma counts_placeAll n sets : forall k, 0 <= k -> k + zlen sets <= n ->
  map (fun rs : Z * list Z => zupd (repeat 0 (Z.to_nat n)) (fst rs) (zlen (snd rs))) (combine (zrange k (zlen sets)) sets) = placeAll n k (map (fun s => [zlen s]) sets).
Proof.
  induction sets as [|s r IH]; intros k Hk H; [reflexivity|]. rewrite zlen_cons in *. pose proof (zlen_nonneg r). rewrite zrange_cons by lia. replace (1 + zlen r - 1) with (zlen r) by lia. cbn [combine map placeAll fst snd]. f_equal; [apply (upd_zeros k n (zlen s)); lia|]. rewrite IH by lia. reflexivity.
Qed.
Lemma concat_singles {A} (l : list A) : concat (map (fun x => [x]) l) = l.
Proof. induction l as [|x l IH]; [reflexivity|]. cbn. rewrite IH. reflexivity. Qed.
Lemma zsum_lens (sets : list (list Z)) : zsum (map zlen sets) = zlen (concat sets).
Proof. induction sets as [|s r IH]; [reflexivity|]. cbn [map zsum fold_right concat]. fold (zsum (map zlen r)). rewrite IH, zlen_app. reflexivity. Qed.
Lemma fold_add l : forall a, fold_left (fun acc c => acc + c) l a = a + zsum l.
Proof. induction l as [|x l IH]; intro a; cbn [fold_left zsum fold_right]; [lia|]. rewrite IH. unfold zsum. lia. Qed.
Lemma bufs_placeAll all sets : forall pre, all = pre ++ sets -> let total := zlen (concat all) in let cnt := map zlen all in
  map (fun x : Z * (list Z * list Z) => let '(r, (set, cnt)) := x in
    fold_left (fun b ix => zupd b (fst ix + fold_left (fun acc c => acc + c) (firstn (Z.to_nat r) cnt) 0) (snd ix)) (combine (zrange 0 (zlen set)) set) (repeat 0 (Z.to_nat (zsum cnt))))
    (combine (zrange (zlen pre) (zlen sets)) (combine sets (repeat cnt (length sets)))) = placeAll total (zlen (concat pre)) sets.
Proof.
  induction sets as [|s r IH]; intros pre Ea total cnt; [reflexivity|]. rewrite zlen_cons. pose proof (zlen_nonneg r). rewrite zrange_cons by (pose proof (zlen_nonneg r); lia). replace (1 + zlen r - 1) with (zlen r) by lia. cbn [length repeat combine map placeAll]. f_equal.
  - unfold cnt at 1 2. rewrite zsum_lens. fold total. rewrite fold_add, Z.add_0_l. 
    assert (Ef : zsum (firstn (Z.to_nat (zlen pre)) (map zlen all)) = zlen (concat pre)). { rewrite Ea, map_app. unfold zlen at 1. rewrite Nat2Z.id. rewrite firstn_app, map_length, Nat.sub_diag. cbn [firstn]. rewrite app_nil_r, <- (map_length zlen pre), firstn_all. apply zsum_lens. }
    rewrite Ef. assert (Ht : total = zlen (concat pre) + zlen s + zlen (concat r)). { unfold total. rewrite Ea, concat_app. cbn [concat]. rewrite !zlen_app. lia. }
    pose proof (zlen_nonneg (concat pre)). pose proof (zlen_nonneg s). pose proof (zlen_nonneg (concat r)).
    pose proof (write_place s 0 (zlen (concat pre)) total (zeros (zlen (concat pre)))) as W. rewrite !Z.sub_0_r, !Z.add_0_r in W. rewrite <- zeros_app in W by lia. replace (zlen (concat pre) + (total - zlen (concat pre))) with total in W by lia. unfold zeros at 1 in W. unfold place. apply W; [lia|lia|apply len_zeros|lia].
  - specialize (IH (pre ++ [s])). assert (E1 : zlen (concat (pre ++ [s])) = zlen (concat pre) + zlen s) by (rewrite concat_app, zlen_app; cbn [concat]; rewrite app_nil_r; reflexivity).
    assert (E2 : zlen (pre ++ [s]) = zlen pre + 1) by (rewrite zlen_app; reflexivity). rewrite E1, E2 in IH. apply IH. rewrite <- app_assoc. exact Ea.
Qed.
Lemma gatherSets_concat sets : sets <> [] -> gatherSets sets = repeat (concat sets) (length sets).
Proof.
  intro Hne. unfold gatherSets. cbv zeta. pose proof (zlen_nonneg sets).
  rewrite (counts_placeAll (zlen sets) sets 0) by lia.
  assert (Es : zlen sets = zlen (concat (map (fun s : list Z => [zlen s]) sets))). { replace (map (fun s : list Z => [zlen s]) sets) with (map (fun x : Z => [x]) (map zlen sets)) by (rewrite map_map; reflexivity). rewrite concat_singles, zlen_map. reflexivity. }
  rewrite Es at 2. rewrite reduce_placeAll by (destruct sets; [congruence|discriminate]).
  replace (map (fun s : list Z => [zlen s]) sets) with (map (fun x : Z => [x]) (map zlen sets)) by (rewrite map_map; reflexivity). rewrite concat_singles, !map_length.
  pose proof (bufs_placeAll sets sets [] eq_refl) as B. cbv zeta in B. change (zlen (@nil (list Z))) with 0 in B. change (zlen (concat (@nil (list Z)))) with 0 in B. rewrite B. apply reduce_placeAll. exact Hne.
Qed.

(** * Third points *)
Lemma setOf_In l y : In y (setOf l) <-> In y l.
Proof. apply keysOf_In. Qed.
Lemma setOf_increasing l : increasing (setOf l).
Proof. exact (proj1 (keysOf_gen l [] I)). Qed.
Lemma gamma_small m : resolved m -> gammaMesh m -> smallOffset m.
Proof.
  intros ((A & B & C) & A' & B' & C') (G0 & G1 & G2).
  assert (X : forall o k, 0 < k -> k <= 1000 -> (o == 0)%Q -> (0 <= o /\ o + eps8 < 1 / inject_Z k)%Q).
  { intros o k Hk Hk' Ho. split; [rewrite Ho; apply Qle_refl|]. rewrite Ho. apply Qlt_shift_div_l; [change 0%Q with (inject_Z 0); rewrite <- Zlt_Qlt; exact Hk|].
    apply (Qle_lt_trans _ ((0 + eps8) * inject_Z 1000)); [|reflexivity]. apply Qmult_le_l; [reflexivity|]. rewrite <- Zle_Qle. exact Hk'. }
  unfold smallOffset. destruct (X (c0 (off m)) (m0 m) A A' G0), (X (c1 (off m)) (m1 m) B B' G1), (X (c2 (off m)) (m2 m) C C' G2). repeat split; assumption.
Qed.
Lemma add_index m a b : posMesh m -> gammaMesh m -> 0 <= a < nodes m -> 0 <= b < nodes m ->
  exists ik, getIndex (fullMesh m) (vadd (meshCoordinates m a) (meshCoordinates m b)) = Ok ik /\ 0 <= ik < nodes m /\ sameWavevector (meshCoordinates m ik) (vadd (meshCoordinates m a) (meshCoordinates m b)).
Proof.
  intros P G Ha Hb. destruct (meshIndex_decode m a P Ha) as (i & j & k & Hi & Hj & Hk & Ea). destruct (meshIndex_decode m b P Hb) as (i' & j' & k' & Hi' & Hj' & Hk' & Eb).
  apply (getIndex_same_node m _ (i + i') (j + j') (k + k') P). rewrite Ea, Eb, !meshCoordinates_node by assumption. eapply same_veq; [apply gamma_vadd; assumption|apply sameWavevector_refl].
Qed.
Lemma sub_index m a b : posMesh m -> gammaMesh m -> 0 <= a < nodes m -> 0 <= b < nodes m ->
  exists ik, getIndex (fullMesh m) (vsub (meshCoordinates m a) (meshCoordinates m b)) = Ok ik /\ 0 <= ik < nodes m /\ sameWavevector (meshCoordinates m ik) (vsub (meshCoordinates m a) (meshCoordinates m b)).
Proof.
  intros P G Ha Hb. destruct (meshIndex_decode m a P Ha) as (i & j & k & Hi & Hj & Hk & Ea). destruct (meshIndex_decode m b P Hb) as (i' & j' & k' & Hi' & Hj' & Hk' & Eb).
  apply (getIndex_same_node m _ (i - i') (j - j') (k - k') P). rewrite Ea, Eb, !meshCoordinates_node by assumption. eapply same_veq; [apply gamma_vsub; assumption|apply sameWavevector_refl].
Qed.
Section Third.
Variables (m : mesh) (F : list Z) (inner : points).
Hypothesis (R : resolved m) (G : gammaMesh m) (HI : increasing F) (HR : Forall (fun ik => 0 <= ik < nodes m) F).
Hypothesis (Einner : setActiveLayer (fullMesh m) F = Ok inner).
Let P : posMesh m := proj1 R.
Lemma inner_facts : numPoints inner = zlen F /\ pmesh inner = m /\ forall i ik, zget F i = Some ik -> getPointCoordinates inner i = Ok (meshCoordinates m ik).
Proof.
  destruct (activeLayer_lookup m F R (gamma_small m R G) HI HR) as (p & E & N & L & _). rewrite Einner in E. injection E as <-. split; [exact N|]. split; [|intros i ik H; apply (L i ik (meshCoordinates m ik) H), sameWavevector_refl].
  unfold setActiveLayer in Einner. cbn [numPoints fullMesh pmesh] in Einner. destruct (zlen F =? nodes m); [injection Einner as <-; reflexivity|]. destruct (foldM _ F _) as [st| |]; cbn [bind] in Einner; try discriminate. destruct (_ >? _); [discriminate|]. injection Einner as <-. reflexivity.
Qed.
Definition tp (i j : Z) : list Z := match thirdPoints inner (fullMesh m) i j with Ok l => l | _ => [] end.
Lemma tp_ok i j : 0 <= i < zlen F -> 0 <= j < zlen F -> thirdPoints inner (fullMesh m) i j = Ok (tp i j) /\
  forall x, In x (tp i j) <-> 0 <= x < nodes m /\ exists a b, zget F i = Some a /\ zget F j = Some b /\ thirdOf m a b (meshCoordinates m x).
Proof.
  intros Hi Hj. destruct inner_facts as (_ & _ & L). destruct (zget_inrange F i Hi) as (a & Ea). destruct (zget_inrange F j Hj) as (b & Eb).
  pose proof (proj1 (Forall_forall _ _) HR a (proj2 (zget_Some _ _ _ Ea))) as Ra. pose proof (proj1 (Forall_forall _ _) HR b (proj2 (zget_Some _ _ _ Eb))) as Rb. cbv beta in Ra, Rb.
  destruct (add_index m a b P G Ra Rb) as (k & E1 & R1 & S1). destruct (sub_index m a b P G Ra Rb) as (k' & E2 & R2 & S2).
  assert (E : thirdPoints inner (fullMesh m) i j = Ok [k; k']) by (unfold thirdPoints; rewrite (L i a Ea), (L j b Eb); cbn [bind]; rewrite E1; cbn [bind]; rewrite E2; reflexivity).
  unfold tp. rewrite E. split; [reflexivity|]. intro x. cbn [In]. split.
  - intros [<-|[<-|[]]]; (split; [assumption|]); exists a, b; (split; [exact Ea|]); (split; [exact Eb|]); [left; exact S1|right; exact S2].
  - intros (Rx & a' & b' & Ea' & Eb' & S). rewrite Ea in Ea'. rewrite Eb in Eb'. injection Ea' as <-. injection Eb' as <-. destruct S as [S|S].
    + left. apply (mesh_distinct m); [exact P|exact R1|exact Rx|]. eapply sameWavevector_trans; [exact S1|apply sameWavevector_sym; exact S].
    + right; left. apply (mesh_distinct m); [exact P|exact R2|exact Rx|]. eapply sameWavevector_trans; [exact S2|apply sameWavevector_sym; exact S].
Qed.
Lemma thread_ok mine : (forall j, In j mine -> 0 <= j < zlen F) -> threadIndexes inner (fullMesh m) mine = Ok (setOf (concat (map (fun j => concat (map (fun i => tp i j) (zrange 0 (zlen F)))) mine))).
Proof.
  intro H. unfold threadIndexes. destruct inner_facts as (-> & _ & _). rewrite (mapM_ok _ (fun j => concat (map (fun i => tp i j) (zrange 0 (zlen F))))); [reflexivity|].
  intros j Hj. rewrite (mapM_ok _ (fun i => tp i j)); [reflexivity|]. intros i Hi. apply in_zrange in Hi. apply tp_ok; [lia|apply H; exact Hj].
Qed.
Lemma rank_ok threads : (forall j, In j (concat threads) -> 0 <= j < zlen F) -> exists s, rankIndexes inner (fullMesh m) threads = Ok s /\
  forall x, In x s <-> exists i j, In j (concat threads) /\ 0 <= i < zlen F /\ In x (tp i j).
Proof.
  intro H. unfold rankIndexes. rewrite (mapM_ok _ (fun mine => setOf (concat (map (fun j => concat (map (fun i => tp i j) (zrange 0 (zlen F)))) mine)))).
  - cbn [bind]. eexists. split; [reflexivity|]. intro x. rewrite setOf_In, in_concat. split.
    + intros (l & Hl & Hx). apply in_map_iff in Hl as (mine & <- & Hm). apply setOf_In, in_concat in Hx as (l2 & Hl2 & Hx). apply in_map_iff in Hl2 as (j & <- & Hj). apply in_concat in Hx as (l3 & Hl3 & Hx). apply in_map_iff in Hl3 as (i & <- & Hi). apply in_zrange in Hi.
      exists i, j. split; [apply in_concat; exists mine; split; assumption|]. split; [lia|exact Hx].
    + intros (i & j & Hj & Hi & Hx). apply in_concat in Hj as (mine & Hm & Hj). eexists. split; [apply in_map; exact Hm|]. apply setOf_In, in_concat. eexists. split; [apply in_map; exact Hj|]. apply in_concat. eexists. split; [apply in_map; apply in_zrange; instantiate (1 := i); lia|exact Hx].
  - intros mine Hm. apply thread_ok. intros j Hj. apply H. apply in_concat. exists mine. split; assumption.
Qed.
Lemma third_points size sched : fits (zlen F) size -> (forall r l, Permutation (concat (sched r l)) l) ->
  exists filt p, thirdStatePoints inner size sched = Ok (repeat (filt, p) (Z.to_nat size)) /\ increasing filt /\
    (forall x, In x filt <-> 0 <= x < nodes m /\ exists a b, In a F /\ In b F /\ thirdOf m a b (meshCoordinates m x)) /\
    (forall a b c, In a F -> In b F -> thirdOf m a b c -> exists i v, getIndex p c = Ok i /\ 0 <= i < numPoints p /\ getPointCoordinates p i = Ok v /\ sameWavevector c v).
Proof.
  intros Fit Sch. destruct inner_facts as (N & Pm & _). unfold thirdStatePoints. rewrite Pm, N. fold (nodes m). change (Points m (nodes m) false false []) with (fullMesh m).
  destruct (divideWorkIter_partition (zlen F) size Fit) as (shares & Es & Ec).
  assert (Sh : forall r mine, 0 <= r < size -> divideWorkIter (zlen F) r size = Ok mine -> In mine shares).
  { intros r mine Hr Em. clear - Es Hr Em. assert (Hr' : In r (zrange 0 size)) by (apply in_zrange; lia). revert shares Es Hr'. induction (zrange 0 size) as [|r' l IH]; intros shares Es Hr'; [destruct Hr'|]. cbn [mapM] in Es.
    destruct (divideWorkIter (zlen F) r' size) as [s| |] eqn:E'; cbn [bind] in Es; try discriminate. destruct (mapM _ l) as [ss| |]; cbn [bind] in Es; try discriminate. injection Es as <-. destruct Hr' as [->|Hr']; [left; congruence|right; apply IH; [reflexivity|exact Hr']]. }
  assert (Ex : exists sets, mapM (fun r => do mine <- divideWorkIter (zlen F) r size ; rankIndexes inner (fullMesh m) (sched r mine)) (zrange 0 size) = Ok sets /\ length sets = Z.to_nat size /\
    forall x, In x (concat sets) <-> exists i j, In j (concat shares) /\ 0 <= i < zlen F /\ In x (tp i j)).
  { assert (Rg : forall j, In j (concat shares) -> 0 <= j < zlen F) by (intros j Hj; rewrite Ec in Hj; apply in_zrange in Hj; lia). rewrite <- (zrange_length 0 size). clear - Es Sch Rg R G HI HR Einner P. revert shares Es Rg. induction (zrange 0 size) as [|r l IH]; intros shares Es Rg.
    - cbn [mapM] in *. injection Es as <-. exists []. split; [reflexivity|]. split; [reflexivity|]. intro x. cbn [concat In]. split; [tauto|]. intros (i & j & [] & _).
    - cbn [mapM] in *. destruct (divideWorkIter (zlen F) r size) as [s| |]; cbn [bind] in *; try discriminate. destruct (mapM (fun r => divideWorkIter (zlen F) r size) l) as [ss| |]; cbn [bind] in *; try discriminate. injection Es as <-.
      destruct (IH ss eq_refl) as (sets & E & L & Hx); [intros j Hj; apply Rg; cbn [concat]; apply in_or_app; right; exact Hj|].
      assert (Hs : forall j, In j (concat (sched r s)) <-> In j s) by (intro j; split; apply Permutation_in; [|apply Permutation_sym]; apply Sch).
      destruct (rank_ok (sched r s)) as (s0 & E0 & H0); [intros j Hj; apply Rg; cbn [concat]; apply in_or_app; left; apply Hs; exact Hj|].
      rewrite E0. cbn [bind]. rewrite E. cbn [bind]. exists (s0 :: sets). split; [reflexivity|]. split; [cbn [length]; congruence|]. intro x. cbn [concat]. rewrite in_app_iff, H0, Hx. split.
      + intros [(i & j & Hj & Hi & Hxx)|(i & j & Hj & Hi & Hxx)]; exists i, j; (split; [apply in_or_app; first [left; apply Hs; exact Hj|right; exact Hj]|]); split; assumption.
      + intros (i & j & Hj & Hi & Hxx). apply in_app_or in Hj as [Hj|Hj]; [left|right]; exists i, j; (split; [first [apply Hs; exact Hj|exact Hj]|]); split; assumption. }
  destruct Ex as (sets & E & L & Hx). rewrite E. cbn [bind]. destruct Fit as (F0 & F1 & F2). rewrite gatherSets_concat by (intros ->; cbn [length] in L; lia). rewrite L.
  set (filt := setOf (concat sets)).
  assert (Hf : forall x, In x filt <-> 0 <= x < nodes m /\ exists a b, In a F /\ In b F /\ thirdOf m a b (meshCoordinates m x)).
  { intro x. unfold filt. rewrite setOf_In, Hx. split.
    - intros (i & j & Hj & Hi & Hxx). rewrite Ec in Hj. apply in_zrange in Hj. apply tp_ok in Hxx as (Rx & a & b & Ea & Eb & T); [|lia|lia]. split; [exact Rx|]. exists a, b. split; [exact (proj2 (zget_Some _ _ _ Ea))|]. split; [exact (proj2 (zget_Some _ _ _ Eb))|exact T].
    - intros (Rx & a & b & Ha & Hb & T). apply In_nth_error in Ha as (i & Ei). apply In_nth_error in Hb as (j & Ej).
      assert (Li : (i < length F)%nat) by (apply nth_error_Some; congruence). assert (Lj : (j < length F)%nat) by (apply nth_error_Some; congruence).
      exists (Z.of_nat i), (Z.of_nat j). unfold zlen in *. split; [rewrite Ec; apply in_zrange; lia|]. split; [lia|]. apply tp_ok; [unfold zlen; lia|unfold zlen; lia|]. split; [exact Rx|]. exists a, b.
      unfold zget. replace (Z.of_nat i <? 0) with false by lia. replace (Z.of_nat j <? 0) with false by lia. rewrite !Nat2Z.id. split; [exact Ei|]. split; [exact Ej|exact T]. }
  assert (Inc : increasing filt) by apply setOf_increasing.
  destruct (activeLayer_lookup m filt R (gamma_small m R G) Inc) as (p & Ep & Np & Lp & _). { apply Forall_forall. intros x Hxx. apply Hf in Hxx as (Rx & _). exact Rx. }
  exists filt, p. split.
  - rewrite (mapM_ok _ (fun _ => (filt, p))).
    + assert (MR : forall n (x : list Z), map (fun _ => (filt, p)) (repeat x n) = repeat (filt, p) n) by (induction n as [|n IHn]; intro x; [reflexivity|cbn [repeat map]; rewrite IHn; reflexivity]). rewrite MR. reflexivity.
    + intros g Hg. apply repeat_spec in Hg. subst g. fold filt. rewrite Ep. reflexivity.
  - split; [exact Inc|]. split; [exact Hf|]. intros a b c Ha Hb T. pose proof (proj1 (Forall_forall _ _) HR a Ha) as Ra. pose proof (proj1 (Forall_forall _ _) HR b Hb) as Rb. cbv beta in Ra, Rb.
    assert (K : exists x, 0 <= x < nodes m /\ thirdOf m a b (meshCoordinates m x) /\ sameWavevector c (meshCoordinates m x)).
    { destruct T as [T|T]; [destruct (add_index m a b P G Ra Rb) as (x & _ & Rx & Sx)|destruct (sub_index m a b P G Ra Rb) as (x & _ & Rx & Sx)]; exists x; (split; [exact Rx|]); (split; [first [left; exact Sx|right; exact Sx]|]); eapply sameWavevector_trans; try exact T; apply sameWavevector_sym; exact Sx. }
    destruct K as (x & Rx & Tx & Sx). assert (Ix : In x filt) by (apply Hf; split; [exact Rx|]; exists a, b; split; [exact Ha|]; split; [exact Hb|exact Tx]).
    apply In_nth_error in Ix as (i & Ei). assert (Li : (i < length filt)%nat) by (apply nth_error_Some; congruence). assert (Zi : zget filt (Z.of_nat i) = Some x) by (unfold zget; replace (Z.of_nat i <? 0) with false by lia; rewrite Nat2Z.id; exact Ei).
    destruct (Lp _ _ c Zi Sx) as (L1 & L2). exists (Z.of_nat i), (meshCoordinates m x). split; [exact L1|]. split; [rewrite Np; unfold zlen; lia|]. split; [exact L2|exact Sx].
Qed.
End Third.
