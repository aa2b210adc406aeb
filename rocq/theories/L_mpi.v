(** Lemmas for src/mpi. *)
From Verif Require Import Base BaseLemmas M_utilities M_mpi S_mpi L_utilities.
Ltac Zify.zify_post_hook ::= Z.div_mod_to_equations.

Definition cut (n size r : Z) : Z := n * r / size.

Lemma cut_mono n size r : 0 <= n -> 0 < size -> cut n size r <= cut n size (r + 1).
Proof. intros. unfold cut. apply Z.div_le_mono; nia. Qed.

Lemma cut_mono_le n size r r' : 0 <= n -> 0 < size -> r <= r' -> cut n size r <= cut n size r'.
Proof. intros. unfold cut. apply Z.div_le_mono; nia. Qed.

Lemma cut_0 n size : cut n size 0 = 0.
Proof. unfold cut. rewrite Z.mul_0_r. apply Zdiv_0_l. Qed.

Lemma cut_size n size : 0 < size -> cut n size size = n.
Proof. intros. unfold cut. apply Z.div_mul. lia. Qed.

Lemma u64_cut n size r : fits n size -> 0 <= r <= size -> u64 (n * r) / size = cut n size r.
Proof. intros (A & B & C) Hr. unfold cut. rewrite u64_small; [reflexivity|]. nia. Qed.

Lemma divideWork_cut n r size : fits n size -> 0 <= r < size ->
  divideWork n r size = (cut n size r, cut n size (r + 1)).
Proof. intros F Hr. unfold divideWork. rewrite !u64_cut by (assumption || lia). reflexivity. Qed.

Lemma divideWorkIter_cut n r size : fits n size -> 0 <= r < size ->
  divideWorkIter n r size = Ok (zrange (cut n size r) (cut n size (r + 1) - cut n size r)).
Proof.
  intros F Hr. unfold divideWorkIter. rewrite !u64_cut by (assumption || lia).
  destruct F as (A & B & C).
  assert (M := cut_mono n size r A B).
  destruct (_ <? _) eqn:E; [lia|reflexivity].
Qed.

Lemma mapM_ok {A B} (f : A -> res B) (g : A -> B) l :
  (forall x, In x l -> f x = Ok (g x)) -> mapM f l = Ok (map g l).
Proof.
  induction l as [|x l IH]; intros H; [reflexivity|].
  cbn [mapM map]. rewrite H by (left; reflexivity). cbn [bind].
  rewrite IH by (intros; apply H; right; assumption). reflexivity.
Qed.

Lemma divideWorkIter_partition n size : fits n size ->
  exists shares, mapM (fun r => divideWorkIter n r size) (zrange 0 size) = Ok shares /\
                 concat shares = zrange 0 n.
Proof.
  intros F. exists (map (fun r => zrange (cut n size r) (cut n size (r + 1) - cut n size r)) (zrange 0 size)).
  split.
  - apply mapM_ok. intros r Hr. apply in_zrange in Hr. apply divideWorkIter_cut; [assumption|lia].
  - destruct F as (A & B & C).
    destruct (concat_ranges (cut n size) (Z.to_nat size)) as [E _].
    { intros. apply cut_mono; lia. }
    rewrite Z2Nat.id in E by lia. rewrite E, cut_0, cut_size by lia. f_equal. lia.
Qed.

(** share sizes are floor or ceiling of n/size *)
Lemma share_size n size r : 0 <= n -> 0 < size ->
  n / size <= cut n size (r + 1) - cut n size r <= n / size + 1.
Proof.
  intros. unfold cut. replace (n * (r + 1)) with (n * r + n) by ring.
  set (a := n * r).
  assert (E1 := Z.div_mod a size ltac:(lia)). assert (M1 := Z.mod_pos_bound a size ltac:(lia)).
  assert (E2 := Z.div_mod (a + n) size ltac:(lia)). assert (M2 := Z.mod_pos_bound (a + n) size ltac:(lia)).
  assert (E3 := Z.div_mod n size ltac:(lia)). assert (M3 := Z.mod_pos_bound n size ltac:(lia)).
  split; nia.
Qed.

Lemma divideWorkIter_balanced n size r r' l l' : fits n size -> 0 <= r < size -> 0 <= r' < size ->
  divideWorkIter n r size = Ok l -> divideWorkIter n r' size = Ok l' -> Z.abs (zlen l - zlen l') <= 1.
Proof.
  intros F Hr Hr'. rewrite !divideWorkIter_cut by assumption.
  intros [= <-] [= <-]. destruct F as (A & B & C).
  assert (S1 := share_size n size r A B). assert (S2 := share_size n size r' A B).
  assert (P : 0 <= n / size) by (apply Z.div_pos; lia).
  rewrite !zlen_zrange by lia. lia.
Qed.

Lemma combine_map {A B C} (f : A -> B) (g : A -> C) l :
  combine (map f l) (map g l) = map (fun x => (f x, g x)) l.
Proof. induction l as [|x l IH]; [reflexivity|]. cbn. now rewrite IH. Qed.

Lemma map_ext_in' {A B} (f g : A -> B) l : (forall x, In x l -> f x = g x) -> map f l = map g l.
Proof. apply map_ext_in. Qed.

Lemma workDivHelper_cut n size : fits n size -> n <= INT_MAX ->
  workDivHelper n size =
    (map (fun r => cut n size (r + 1) - cut n size r) (zrange 0 size), map (cut n size) (zrange 0 size)).
Proof.
  intros F HM. assert (F' := F). destruct F' as (A & B & C). unfold workDivHelper.
  assert (R : forall r, 0 <= r <= size -> 0 <= cut n size r <= n).
  { intros r Hr. split.
    - rewrite <- (cut_0 n size). apply cut_mono_le; lia.
    - rewrite <- (cut_size n size) at 2 by lia. apply cut_mono_le; lia. }
  rewrite (map_ext_in' (fun i => to_int32 (u64 (n * i) / size)) (cut n size)).
  2:{ intros r Hr. apply in_zrange in Hr. rewrite u64_cut by (assumption || lia).
      apply to_int32_small. unfold INT_MIN. specialize (R r). lia. }
  rewrite (map_ext_in' (fun i => to_int32 (u64 (n * (i + 1)) / size)) (fun r => cut n size (r + 1))).
  2:{ intros r Hr. apply in_zrange in Hr. rewrite u64_cut by (assumption || lia).
      apply to_int32_small. unfold INT_MIN. specialize (R (r + 1)). lia. }
  f_equal. rewrite combine_map, map_map. reflexivity.
Qed.

Lemma workDivHelper_matches n size : fits n size -> n <= INT_MAX ->
  exists shares, mapM (fun r => divideWorkIter n r size) (zrange 0 size) = Ok shares /\
    fst (workDivHelper n size) = map zlen shares /\
    (forall r share, zget shares r = Some share ->
        exists h c, zget (snd (workDivHelper n size)) r = Some h /\
                    zget (fst (workDivHelper n size)) r = Some c /\ share = zrange h c) /\
    snd (workDivHelper n size) = map (fun r => fst (divideWork n r size)) (zrange 0 size).
Proof.
  intros F HM. assert (F' := F). destruct F' as (A & B & C).
  rewrite workDivHelper_cut by assumption.
  exists (map (fun r => zrange (cut n size r) (cut n size (r + 1) - cut n size r)) (zrange 0 size)).
  split; [|split; [|split]].
  - apply mapM_ok. intros r Hr. apply in_zrange in Hr. apply divideWorkIter_cut; [assumption|lia].
  - cbn [fst]. rewrite map_map. apply map_ext_in. intros r Hr.
    rewrite zlen_zrange; [reflexivity|]. assert (M := cut_mono n size r A B). lia.
  - cbn [fst snd]. intros r share Hs.
    assert (Hr := proj1 (zget_Some _ _ _ Hs)).
    rewrite zlen_map, zlen_zrange in Hr by lia.
    rewrite zget_map, zget_zrange in Hs by lia. cbn [option_map] in Hs. injection Hs as <-.
    rewrite !zget_map, zget_zrange by lia. cbn [option_map].
    do 2 eexists; split; [reflexivity|]. split; reflexivity.
  - cbn [snd]. apply map_ext_in. intros r Hr. apply in_zrange in Hr.
    rewrite divideWork_cut by (assumption || lia). reflexivity.
Qed.

(** * gathering *)
Lemma writeAt_ok {A} (out : list A) d data : 0 <= d -> d + zlen data <= zlen out ->
  writeAt out d data = Ok (firstn (Z.to_nat d) out ++ data ++ skipn (Z.to_nat d + length data) out).
Proof.
  intros. unfold writeAt.
  destruct (0 <=? d) eqn:E1; [|lia]. destruct (_ <=? zlen out) eqn:E2; [|lia]. reflexivity.
Qed.

Lemma firstn_skipn_comm' {A} (l : list A) n m : firstn n (firstn (n + m) l) = firstn n l.
Proof. rewrite firstn_firstn. f_equal. lia. Qed.

Lemma mpiGatherv_spec {A} (k : nat) : forall (s : Z) (c : Z -> Z) (g : Z -> list A) (out : list A),
  0 <= c s ->
  (forall r, s <= r < s + Z.of_nat k -> zlen (g r) = c (r + 1) - c r) ->
  c (s + Z.of_nat k) <= zlen out ->
  mpiGatherv (map g (zrange s (Z.of_nat k))) (map (fun r => c (r + 1) - c r) (zrange s (Z.of_nat k)))
             (map c (zrange s (Z.of_nat k))) out
  = Ok (firstn (Z.to_nat (c s)) out ++ concat (map g (zrange s (Z.of_nat k)))
        ++ skipn (Z.to_nat (c (s + Z.of_nat k))) out).
Proof.
  induction k as [|k IH]; intros s c g out H0 Hg Hout.
  - cbn [Z.of_nat]. rewrite zrange_nil by lia. cbn. rewrite Z.add_0_r, firstn_skipn. reflexivity.
  - rewrite zrange_cons by lia.
    replace (Z.of_nat (S k) - 1) with (Z.of_nat k) by lia.
    cbn [map mpiGatherv concat].
    assert (Hs := Hg s ltac:(lia)). assert (Hgl := zlen_nonneg (g s)).
    destruct (zlen (g s) =? c (s + 1) - c s) eqn:E; [|lia].
    assert (Hmono : c (s + 1) <= c (s + Z.of_nat (S k))).
    { assert (G : forall j : nat, (j <= k)%nat -> c (s + 1) <= c (s + 1 + Z.of_nat j)).
      { induction j as [|j IHj]; intros Hj; [cbn [Z.of_nat]; rewrite Z.add_0_r; lia|].
        specialize (IHj ltac:(lia)).
        assert (L := Hg (s + 1 + Z.of_nat j) ltac:(lia)).
        assert (L2 := zlen_nonneg (g (s + 1 + Z.of_nat j))).
        replace (s + 1 + Z.of_nat (S j)) with (s + 1 + Z.of_nat j + 1) by lia. lia. }
      specialize (G k ltac:(lia)). replace (s + Z.of_nat (S k)) with (s + 1 + Z.of_nat k) by lia. exact G. }
    rewrite writeAt_ok by lia. cbn [bind].
    set (out' := firstn (Z.to_nat (c s)) out ++ g s ++ skipn (Z.to_nat (c s) + length (g s)) out).
    assert (Lf : length (firstn (Z.to_nat (c s)) out) = Z.to_nat (c s)).
    { rewrite firstn_length. unfold zlen in *. lia. }
    assert (Lout : zlen out' = zlen out).
    { unfold out', zlen. rewrite !app_length, Lf, skipn_length. unfold zlen in *. lia. }
    rewrite IH.
    + f_equal.
      assert (E1 : firstn (Z.to_nat (c (s + 1))) out' = firstn (Z.to_nat (c s)) out ++ g s).
      { unfold out'. rewrite app_assoc. rewrite firstn_app.
        assert (Lx : length (firstn (Z.to_nat (c s)) out ++ g s) = Z.to_nat (c (s + 1))).
        { rewrite app_length, Lf. unfold zlen in *. lia. }
        rewrite Lx, Nat.sub_diag. cbn [firstn]. rewrite app_nil_r.
        rewrite <- Lx. apply firstn_all. }
      assert (E2 : skipn (Z.to_nat (c (s + 1 + Z.of_nat k))) out' = skipn (Z.to_nat (c (s + Z.of_nat (S k)))) out).
      { replace (s + 1 + Z.of_nat k) with (s + Z.of_nat (S k)) by lia.
        unfold out'. rewrite app_assoc, skipn_app.
        assert (Lx : length (firstn (Z.to_nat (c s)) out ++ g s) = Z.to_nat (c (s + 1))).
        { rewrite app_length, Lf. unfold zlen in *. lia. }
        rewrite skipn_all2 by lia. cbn [app]. rewrite Lx.
        replace (Z.to_nat (c s) + length (g s))%nat with (Z.to_nat (c (s + 1))) by (unfold zlen in *; lia).
        rewrite skipn_skipn. f_equal. lia. }
      rewrite E1, E2. now rewrite <- !app_assoc.
    + lia.
    + intros r Hr. apply Hg. lia.
    + rewrite Lout. replace (s + 1 + Z.of_nat k) with (s + Z.of_nat (S k)) by lia. exact Hout.
Qed.

Lemma map_concat {A B} (f : A -> B) (l : list (list A)) : map f (concat l) = concat (map (map f) l).
Proof. induction l as [|x l IH]; [reflexivity|]. cbn. now rewrite map_app, IH. Qed.

Lemma allGatherv_serial {A} (f : Z -> A) n size (shares : list (list Z)) (out : list A) :
  fits n size -> n <= INT_MAX -> zlen out = n ->
  mapM (fun r => divideWorkIter n r size) (zrange 0 size) = Ok shares ->
  allGatherv (map (map f) shares) out = Ok (map f (zrange 0 n)) /\
  gatherv (map (map f) shares) out = Ok (map f (zrange 0 n)).
Proof.
  intros F HM Hout HS. assert (F' := F). destruct F' as (A0 & B & C).
  assert (ES : shares = map (fun r => zrange (cut n size r) (cut n size (r + 1) - cut n size r)) (zrange 0 size)).
  { rewrite mapM_ok with (g := fun r => zrange (cut n size r) (cut n size (r + 1) - cut n size r)) in HS.
    - now injection HS as <-.
    - intros r Hr. apply in_zrange in Hr. apply divideWorkIter_cut; [assumption|lia]. }
  assert (G : mpiGatherv (map (map f) shares) (fst (workDivHelper n size)) (snd (workDivHelper n size)) out
              = Ok (map f (zrange 0 n))).
  { rewrite workDivHelper_cut by assumption. cbn [fst snd]. subst shares. rewrite map_map.
    assert (Q := mpiGatherv_spec (Z.to_nat size) 0 (cut n size)
      (fun r => map f (zrange (cut n size r) (cut n size (r + 1) - cut n size r))) out).
    rewrite !Z2Nat.id in Q by lia. rewrite Q.
    - f_equal. rewrite cut_0. cbn [Z.to_nat firstn app].
      rewrite Z.add_0_l, cut_size by lia. 
      rewrite skipn_all2 by (unfold zlen in Hout; lia). rewrite app_nil_r.
      destruct (concat_ranges (cut n size) (Z.to_nat size)) as [E _].
      { intros. apply cut_mono; lia. }
      rewrite Z2Nat.id in E by lia. rewrite cut_0, cut_size in E by lia. rewrite Z.sub_0_r in E.
      rewrite <- E, map_concat, map_map. reflexivity.
    - rewrite cut_0. lia.
    - intros r Hr. rewrite zlen_map, zlen_zrange; [reflexivity|].
      assert (M := cut_mono n size r A0 B). lia.
    - rewrite Z.add_0_l, cut_size by lia. lia. }
  assert (LS : zlen (map (map f) shares) = size).
  { subst shares. rewrite !zlen_map, zlen_zrange; lia. }
  unfold allGatherv, gatherv. rewrite LS, Hout.
  rewrite to_int32_small by (unfold INT_MIN; lia).
  rewrite u64_small by (unfold INT_MAX in *; lia).
  split; exact G.
Qed.

(** * allReduceSum *)
Lemma addBuf_nth (a b : list Z) : length a = length b -> forall i x y,
  nth_error a i = Some x -> nth_error b i = Some y -> nth_error (addBuf a b) i = Some (x + y).
Proof.
  intros HL i x y Ha Hb. unfold addBuf. rewrite nth_error_map.
  rewrite (nth_error_combine _ _ _ _ _ Ha Hb). reflexivity.
Qed.

Lemma addBuf_length (a b : list Z) : length (addBuf a b) = Nat.min (length a) (length b).
Proof. unfold addBuf. now rewrite map_length, combine_length. Qed.

Lemma sumBufs_length n l : Forall (fun b => length b = n) l -> length (sumBufs n l) = n.
Proof.
  induction 1 as [|b l H _ IH]; cbn; [apply repeat_length|].
  rewrite addBuf_length. unfold sumBufs in IH. lia.
Qed.

(** value at position i of a buffer, 0 outside *)
Definition at0 (b : list Z) (i : nat) : Z := nth i b 0.

Lemma sumBufs_nth n l i : Forall (fun b => length b = n) l -> (i < n)%nat ->
  nth_error (sumBufs n l) i = Some (zsum (map (fun b => at0 b i) l)).
Proof.
  intros H Hi. induction H as [|b l Hb HF IH].
  - cbn. rewrite nth_error_nth' with (d := 0) by (rewrite repeat_length; lia).
    now rewrite nth_repeat.
  - cbn [sumBufs fold_right map zsum]. fold (sumBufs n l).
    apply addBuf_nth.
    + rewrite sumBufs_length; assumption.
    + unfold at0. apply nth_error_nth'. lia.
    + exact IH.
Qed.

Lemma allReduceSum_inplace (bufs : list (list Z)) n :
  bufs <> [] -> Forall (fun b => length b = n) bufs ->
  Forall (fun out => length out = n /\
     forall i, (i < n)%nat -> nth_error out i = Some (zsum (map (fun b => nth i b 0) bufs)))
    (allReduceSum bufs) /\ length (allReduceSum bufs) = length bufs.
Proof.
  intros Hne HF. unfold allReduceSum. destruct (zlen bufs =? 1) eqn:E.
  - destruct bufs as [|b [|b' bufs]]; [congruence| |unfold zlen in E; cbn [length] in E; lia].
    split; [|reflexivity]. inversion HF; subst. constructor; [|constructor].
    split; [reflexivity|]. intros i Hi. cbn. rewrite Z.add_0_r. apply nth_error_nth'. lia.
  - split; [|now rewrite map_length].
    apply Forall_map. rewrite Forall_forall in HF |- *. intros b Hb.
    rewrite (HF b Hb). split.
    + apply sumBufs_length. now apply Forall_forall.
    + intros i Hi. apply sumBufs_nth; [now apply Forall_forall|assumption].
Qed.

Lemma allReduceSum2_multi (ins outs : list (list Z)) n :
  (2 <= length ins)%nat -> Forall (fun b => length b = n) ins -> Forall (fun b => length b = n) outs ->
  Forall (fun out => forall i, (i < n)%nat -> nth_error out i = Some (zsum (map (fun b => nth i b 0) ins)))
    (allReduceSum2 ins outs).
Proof.
  intros H2 HI HO. unfold allReduceSum2.
  destruct (zlen ins =? 1) eqn:E; [unfold zlen in E; lia|].
  apply Forall_map. rewrite Forall_forall in HO |- *. intros b Hb.
  rewrite (HO b Hb). intros i Hi. apply sumBufs_nth; assumption.
Qed.

(** * pools *)
Lemma filter_all {A} (f : A -> bool) l : (forall x, In x l -> f x = true) -> filter f l = l.
Proof.
  induction l as [|x l IH]; intros H; [reflexivity|]. cbn. rewrite H by (left; reflexivity).
  f_equal. apply IH. intros; apply H; now right.
Qed.
Lemma filter_none {A} (f : A -> bool) l : (forall x, In x l -> f x = false) -> filter f l = [].
Proof.
  induction l as [|x l IH]; intros H; [reflexivity|]. cbn. rewrite H by (left; reflexivity).
  apply IH. intros; apply H; now right.
Qed.

Lemma pool_members k ps p : 0 < ps -> 0 <= p < k ->
  commSplitMembers (k * ps) (fun r => Z.quot r ps) p = zrange (p * ps) ps.
Proof.
  intros Hps Hp. unfold commSplitMembers.
  replace (k * ps) with (p * ps + (ps + (k - p - 1) * ps)) by ring.
  assert (0 <= p * ps) by nia. assert (0 <= (k - p - 1) * ps) by nia.
  rewrite <- zrange_app by lia. rewrite <- (zrange_app _ ps) by lia.
  rewrite !filter_app.
  rewrite (filter_none _ (zrange 0 (p * ps))).
  2:{ intros x Hx. apply in_zrange in Hx. rewrite Z.quot_div_nonneg by lia.
      assert (x / ps < p) by (apply Z.div_lt_upper_bound; lia). lia. }
  rewrite (filter_all _ (zrange (0 + p * ps) ps)).
  2:{ intros x Hx. apply in_zrange in Hx. rewrite Z.quot_div_nonneg by lia.
      assert (x / ps = p) by (symmetry; apply (Z.div_unique _ _ _ (x - p * ps)); lia). lia. }
  rewrite filter_none.
  2:{ intros x Hx. apply in_zrange in Hx. rewrite Z.quot_div_nonneg by lia.
      assert (p + 1 <= x / ps) by (apply Z.div_le_lower_bound; lia). lia. }
  rewrite app_nil_r. reflexivity.
Qed.

Lemma color_members k ps c : 0 < ps -> 0 <= c < ps ->
  commSplitMembers (Z.of_nat k * ps) (fun r => modZ r ps) c = map (fun i => c + i * ps) (zrange 0 (Z.of_nat k)).
Proof.
  intros Hps Hc. unfold commSplitMembers. induction k as [|k IH].
  - cbn [Z.of_nat]. rewrite Z.mul_0_l. reflexivity.
  - replace (Z.of_nat (S k) * ps) with (Z.of_nat k * ps + ps) by lia.
    replace (Z.of_nat (S k)) with (Z.of_nat k + 1) by lia.
    rewrite <- zrange_app by nia. rewrite filter_app, IH.
    rewrite zrange_S by lia. rewrite map_app. f_equal. cbn [map].
    set (a := 0 + Z.of_nat k * ps).
    assert (Eps : zrange a ps = zrange a c ++ zrange (a + c) 1 ++ zrange (a + c + 1) (ps - c - 1)).
    { rewrite !zrange_app by lia. f_equal. lia. }
    rewrite Eps. unfold a. clear a Eps.
    rewrite !filter_app.
    rewrite filter_none.
    2:{ intros x Hx. apply in_zrange in Hx. rewrite modZ_pos by lia.
        assert (x mod ps = x - Z.of_nat k * ps).
        { symmetry. apply (Z.mod_unique _ _ (Z.of_nat k)); [left; lia|lia]. } lia. }
    rewrite filter_all.
    2:{ intros x Hx. apply in_zrange in Hx. rewrite modZ_pos by lia.
        assert (x mod ps = x - Z.of_nat k * ps).
        { symmetry. apply (Z.mod_unique _ _ (Z.of_nat k)); [left; lia|lia]. } lia. }
    rewrite filter_none.
    2:{ intros x Hx. apply in_zrange in Hx. rewrite modZ_pos by lia.
        assert (x mod ps = x - Z.of_nat k * ps).
        { symmetry. apply (Z.mod_unique _ _ (Z.of_nat k)); [left; lia|lia]. } lia. }
    rewrite app_nil_r. unfold zrange. change (Z.to_nat 1) with 1%nat. cbn [seq map app]. f_equal. lia.
Qed.

Lemma posOf_spec l x i : NoDup l -> zget l i = Some x -> posOf x l = i.
Proof.
  intros HN. revert i. induction HN as [|y l Hy HN IH]; intros i Hi.
  - apply zget_Some in Hi. unfold zlen in Hi. cbn in Hi. lia.
  - cbn [posOf]. destruct (Z.eq_dec i 0) as [->|Hi0].
    + cbn in Hi. injection Hi as ->. now rewrite Z.eqb_refl.
    + assert (R := proj1 (zget_Some _ _ _ Hi)).
      rewrite zget_consS in Hi by lia.
      destruct (x =? y) eqn:E.
      * apply Z.eqb_eq in E. subst. apply zget_Some in Hi. tauto.
      * rewrite (IH (i - 1)) by assumption. lia.
Qed.

Lemma makePools_err size ps rank : 0 < size <= 1073741824 -> 0 <= ps <= 1073741824 ->
  (ps = 0 \/ size mod ps <> 0) -> makePools size ps rank = Err.
Proof.
  intros Hs Hp H. unfold makePools. destruct (ps =? 0) eqn:E; [reflexivity|].
  rewrite cmod_ok by lia. cbn [bind].
  destruct (size mod ps =? 0) eqn:E2; [|reflexivity].
  destruct H; lia.
Qed.

Lemma makePools_ok k ps rank : 0 < k -> 0 < ps <= 1073741824 -> 0 <= rank < k * ps ->
  makePools (k * ps) ps rank =
    Ok {| poolId := rank / ps; poolRank := rank mod ps; poolSize := ps;
          interColor := rank mod ps; interRank := rank / ps; interSize := k |}.
Proof.
  intros Hk Hps Hr. unfold makePools. destruct (ps =? 0) eqn:E; [lia|].
  rewrite cmod_ok by lia. rewrite Z.mod_mul by lia. cbn [bind negb Z.eqb].
  assert (Hp : 0 <= rank / ps < k).
  { split; [apply Z.div_pos; lia|]. apply Z.div_lt_upper_bound; lia. }
  assert (D := Z.div_mod rank ps ltac:(lia)). assert (M := Z.mod_pos_bound rank ps ltac:(lia)).
  rewrite (Z.quot_div_nonneg rank) by lia.
  rewrite pool_members by lia. rewrite zlen_zrange by lia.
  rewrite Z.eqb_refl. cbn [negb]. rewrite cmod_ok by lia. cbn [bind].
  assert (EC := color_members (Z.to_nat k) ps (rank mod ps) ltac:(lia) ltac:(lia)).
  rewrite Z2Nat.id in EC by lia. rewrite EC.
  f_equal. f_equal.
  - apply posOf_spec; [apply NoDup_zrange|]. rewrite zget_zrange by lia. f_equal. lia.
  - apply posOf_spec.
    + apply FinFun.Injective_map_NoDup; [|apply NoDup_zrange]. intros i j Hij. nia.
    + rewrite zget_map, zget_zrange by lia. cbn. f_equal. lia.
  - rewrite zlen_map, zlen_zrange by lia. reflexivity.
Qed.

(** * datatypeHelper *)
Lemma datatypeHelper_ok count : 0 <= count <= INT_MAX * INT_MAX ->
  exists blocks remain disp, datatypeHelper count = Ok (blocks, remain, disp) /\
    0 <= remain < INT_MAX /\ disp = blocks * INT_MAX /\ blocks * INT_MAX + remain = count.
Proof.
  intros H. unfold datatypeHelper, INT_MAX in *.
  rewrite Z.quot_div_nonneg, Z.rem_mod_nonneg by lia.
  assert (D := Z.div_mod count 2147483647 ltac:(lia)).
  assert (M := Z.mod_pos_bound count 2147483647 ltac:(lia)).
  assert (Q : 0 <= count / 2147483647 <= 2147483647).
  { split; [apply Z.div_pos; lia|]. apply Z.div_le_upper_bound; lia. }
  rewrite !ck_ok by (unfold INT_MIN, INT_MAX; lia). cbn [bind].
  do 3 eexists. split; [reflexivity|]. lia.
Qed.

(** * bigAllGatherV *)
Fixpoint prefixSums (a : Z) (l : list Z) : list Z :=
  match l with [] => [] | x :: r => a :: prefixSums (a + x) r end.

Lemma mpiGatherv_prefix {A} (sends : list (list A)) : forall a out,
  0 <= a -> a + zsum (map zlen sends) <= zlen out ->
  mpiGatherv sends (map zlen sends) (prefixSums a (map zlen sends)) out =
  Ok (firstn (Z.to_nat a) out ++ concat sends ++ skipn (Z.to_nat (a + zsum (map zlen sends))) out).
Proof.
  induction sends as [|s sends IH]; intros a out Ha Hout.
  - cbn. rewrite Z.add_0_r, firstn_skipn. reflexivity.
  - cbn [map prefixSums mpiGatherv concat] in *. rewrite Z.eqb_refl.
    change (zsum (zlen s :: map zlen sends)) with (zlen s + zsum (map zlen sends)) in *.
    assert (Hz : 0 <= zsum (map zlen sends)).
    { clear. induction sends as [|x l IH]; cbn; [lia|]. assert (H := zlen_nonneg x). unfold zsum in IH. lia. }
    assert (Hs := zlen_nonneg s).
    rewrite writeAt_ok by lia. cbn [bind].
    assert (Lf : length (firstn (Z.to_nat a) out) = Z.to_nat a).
    { rewrite firstn_length. unfold zlen in *. lia. }
    rewrite IH; [|lia|].
    + f_equal.
      assert (Lx : length (firstn (Z.to_nat a) out ++ s) = Z.to_nat (a + zlen s)).
      { rewrite app_length, Lf. unfold zlen. lia. }
      set (tl_ := skipn (Z.to_nat a + length s) out).
      assert (F1 : firstn (Z.to_nat (a + zlen s)) (firstn (Z.to_nat a) out ++ s ++ tl_)
                   = firstn (Z.to_nat a) out ++ s).
      { rewrite app_assoc, firstn_app, Lx, Nat.sub_diag. cbn [firstn]. rewrite app_nil_r.
        rewrite <- Lx. apply firstn_all. }
      assert (F2 : skipn (Z.to_nat (a + zlen s + zsum (map zlen sends))) (firstn (Z.to_nat a) out ++ s ++ tl_)
                   = skipn (Z.to_nat (a + (zlen s + zsum (map zlen sends)))) out).
      { rewrite app_assoc, skipn_app, Lx. rewrite skipn_all2 by lia. cbn [app]. unfold tl_.
        rewrite skipn_skipn. f_equal. unfold zlen in *. lia. }
      rewrite F1, F2. now rewrite <- !app_assoc.
    + unfold zlen. rewrite !app_length, Lf, skipn_length. unfold zlen in *. lia.
Qed.

Lemma last_prefixSums l : l <> [] -> forall a, last (prefixSums a l) 0 + last l 0 = a + zsum l.
Proof.
  induction l as [|x l IH]; intros Hne a; [congruence|].
  destruct l as [|y l].
  - cbn. lia.
  - change (last (x :: y :: l) 0) with (last (y :: l) 0).
    change (last (prefixSums a (x :: y :: l)) 0) with (last (prefixSums (a + x) (y :: l)) 0).
    rewrite IH by discriminate. cbn. unfold zsum. lia.
Qed.

Lemma zget_le_zsum l i x : Forall (fun c => 0 <= c) l -> zget l i = Some x -> x <= zsum l.
Proof.
  intros HF Hx. apply zget_Some in Hx. destruct Hx as [_ Hx].
  revert Hx. induction HF as [|y l Hy HF IH]; intros []; cbn; subst.
  - assert (0 <= zsum l) by (clear -HF; induction HF; cbn; unfold zsum in *; lia). unfold zsum in *. lia.
  - specialize (IH H). unfold zsum in *. lia.
Qed.

Lemma zsum_nonneg l : Forall (fun c => 0 <= c) l -> 0 <= zsum l.
Proof. induction 1; cbn; [lia|]. unfold zsum in *. lia. Qed.

Lemma mapM_take {A} : forall (dataIn : list (list A)) (cnts : list Z),
  Forall2 (fun d c => 0 <= c <= zlen d) dataIn cnts ->
  mapM (fun p => let '(d, c) := p in
          if (0 <=? c) && (c <=? zlen d) then Ok (firstn (Z.to_nat c) d) else UB) (combine dataIn cnts)
  = Ok (map (fun p => firstn (Z.to_nat (snd p)) (fst p)) (combine dataIn cnts)) /\
  map zlen (map (fun p => firstn (Z.to_nat (snd p)) (fst p)) (combine dataIn cnts)) = cnts.
Proof.
  induction 1 as [|d c dataIn cnts H HF IH]; [split; reflexivity|].
  destruct IH as [IH1 IH2]. cbn [combine mapM map fst snd].
  destruct (0 <=? c) eqn:E1; [|lia]. destruct (c <=? zlen d) eqn:E2; [|lia]. cbn [andb bind].
  rewrite IH1. cbn [bind]. split; [reflexivity|]. rewrite IH2. f_equal.
  unfold zlen in *. rewrite firstn_length. lia.
Qed.

Lemma bigAllGatherV_ok {A} (members : list Z) (dataIn : list (list A)) workDivs (out : list A) :
  members <> [] -> zlen members = zlen workDivs ->
  Forall2 (fun d c => 0 <= c <= zlen d) dataIn workDivs ->
  zlen out = zsum workDivs ->
  (zsum workDivs < INT_MAX \/ members = zrange 0 (zlen members)) ->
  bigAllGatherV members dataIn workDivs (prefixSums 0 workDivs) out =
  Ok (concat (map (fun p => firstn (Z.to_nat (snd p)) (fst p)) (combine dataIn workDivs))).
Proof.
  intros Hne HL HF Hout Hcase.
  assert (Hnn : Forall (fun c => 0 <= c) workDivs).
  { clear -HF. induction HF; constructor; [lia|assumption]. }
  unfold bigAllGatherV. destruct (zlen members =? 1) eqn:E1.
  - destruct workDivs as [|w [|]]; unfold zlen in HL, E1; cbn [length] in HL; try lia.
    inversion HF as [|d c dI cs Hd HF' E3 E4]; subst. inversion HF'; subst.
    destruct (w <=? zlen d) eqn:E2; [|lia].
    cbn in Hout. cbn [combine map concat fst snd].
    rewrite writeAt_ok; [|lia|unfold zlen in *; rewrite firstn_length; lia].
    cbn [Z.to_nat firstn app]. f_equal. f_equal.
    apply skipn_all2. rewrite firstn_length. unfold zlen in *. lia.
  - assert (Hwd : workDivs <> []) by (destruct workDivs; [destruct members; [congruence|unfold zlen in HL; cbn in HL; lia]|discriminate]).
    rewrite last_prefixSums by assumption. rewrite Z.add_0_l.
    assert (Ecnt : mapM (fun r => match zget members r with
        | Some w => (if zsum workDivs <? INT_MAX then bigAllGatherV_smallSendCount workDivs
                     else bigAllGatherV_sendCount workDivs) w r
        | None => UB end) (zrange 0 (zlen members)) = Ok workDivs).
    { rewrite mapM_ok with (g := fun r => match zget workDivs r with Some c => c | None => 0 end).
      - f_equal. apply zget_ext.
        + rewrite zlen_map, zlen_zrange by apply zlen_nonneg. exact HL.
        + intros i Hi. rewrite zlen_map, zlen_zrange in Hi by apply zlen_nonneg.
          rewrite zget_map, zget_zrange by lia. cbn [option_map]. rewrite Z.add_0_l.
          destruct (zget_inrange workDivs i) as [c Hc]; [lia|]. now rewrite Hc.
      - intros r Hr. apply in_zrange in Hr.
        destruct (zget_inrange members r) as [w Hw]; [lia|]. rewrite Hw.
        destruct (zget_inrange workDivs r) as [c Hc]; [lia|].
        assert (0 <= c).
        { apply zget_Some in Hc. rewrite Forall_forall in Hnn. apply Hnn. tauto. }
        assert (Hcs := zget_le_zsum _ _ _ Hnn Hc).
        destruct (zsum workDivs <? INT_MAX) eqn:Es.
        + unfold bigAllGatherV_smallSendCount. rewrite Hc. rewrite to_int32_small; [reflexivity|].
          unfold INT_MIN. lia.
        + unfold bigAllGatherV_sendCount. destruct Hcase as [Hc1|Hc2]; [lia|].
          rewrite Hc2 in Hw. rewrite zget_zrange in Hw by lia. injection Hw as <-.
          cbn [Z.add]. rewrite Hc. reflexivity. }
    rewrite Ecnt. cbn [bind].
    destruct (mapM_take dataIn workDivs HF) as [T1 T2]. rewrite T1. cbn [bind].
    set (sends := map _ (combine dataIn workDivs)) in *.
    rewrite <- T2 at 1. rewrite <- T2. rewrite mpiGatherv_prefix.
    + rewrite T2, Z.add_0_l. cbn [Z.to_nat firstn app]. f_equal.
      rewrite skipn_all2 by (unfold zlen in *; lia). apply app_nil_r.
    + lia.
    + rewrite T2. lia.
Qed.

Lemma divideWork_agrees n size r : fits n size -> 0 <= r < size ->
  exists a b, divideWork n r size = (a, b) /\ a <= b /\ divideWorkIter n r size = Ok (zrange a (b - a)).
Proof.
  intros F Hr. rewrite divideWork_cut, divideWorkIter_cut by assumption.
  do 2 eexists. split; [reflexivity|]. split; [|reflexivity].
  destruct F as (A & B & C). apply cut_mono; assumption.
Qed.

Lemma makePools_tile k ps rank : 0 < k -> 0 < ps <= 1073741824 -> 0 <= rank < k * ps ->
  exists p, makePools (k * ps) ps rank = Ok p /\
    poolSize p = ps /\ interSize p = k /\
    0 <= poolId p < k /\ 0 <= poolRank p < ps /\ rank = poolId p * ps + poolRank p /\
    interColor p = poolRank p /\ interRank p = poolId p.
Proof.
  intros Hk Hps Hr. rewrite makePools_ok by assumption. eexists. split; [reflexivity|].
  cbn [poolId poolRank poolSize interColor interRank interSize].
  assert (0 <= rank / ps < k).
  { split; [apply Z.div_pos; lia|]. apply Z.div_lt_upper_bound; lia. }
  assert (D := Z.div_mod rank ps ltac:(lia)). assert (M := Z.mod_pos_bound rank ps ltac:(lia)).
  repeat split; lia.
Qed.

Lemma makePools_injective k ps r r' p p' : 0 < k -> 0 < ps <= 1073741824 ->
  0 <= r < k * ps -> 0 <= r' < k * ps ->
  makePools (k * ps) ps r = Ok p -> makePools (k * ps) ps r' = Ok p' ->
  poolId p = poolId p' -> poolRank p = poolRank p' -> r = r'.
Proof.
  intros Hk Hps Hr Hr' Hp Hp' E1 E2.
  destruct (makePools_tile k ps r Hk Hps Hr) as (q & Hq & A & B & C & D & E & F).
  destruct (makePools_tile k ps r' Hk Hps Hr') as (q' & Hq' & A' & B' & C' & D' & E' & F').
  rewrite Hp in Hq. rewrite Hp' in Hq'. injection Hq as <-. injection Hq' as <-.
  rewrite E, E', E1, E2. reflexivity.
Qed.

Lemma prefixSums_offsets l : forall a, prefixSums a l = map (fun i => a + zsum (firstn i l)) (seq 0 (length l)).
Proof.
  induction l as [|x l IH]; intros a; [reflexivity|].
  cbn [prefixSums length seq map firstn]. f_equal; [cbn; lia|].
  rewrite IH, <- seq_shift, map_map. apply map_ext. intros i. cbn [firstn]. cbn. unfold zsum. lia.
Qed.

Lemma offsets_prefixSums l : offsets l = prefixSums 0 l.
Proof. unfold offsets. rewrite prefixSums_offsets. apply map_ext. intros; lia. Qed.

Lemma bigAllGatherV_offsets_ok {A} (members : list Z) (dataIn : list (list A)) workDivs (out : list A) :
  members <> [] -> zlen members = zlen workDivs ->
  Forall2 (fun d c => 0 <= c <= zlen d) dataIn workDivs ->
  zlen out = zsum workDivs ->
  (zsum workDivs < INT_MAX \/ members = zrange 0 (zlen members)) ->
  bigAllGatherV members dataIn workDivs (offsets workDivs) out =
  Ok (concat (map (fun p => firstn (Z.to_nat (snd p)) (fst p)) (combine dataIn workDivs))).
Proof. rewrite offsets_prefixSums. apply bigAllGatherV_ok. Qed.

Lemma bigAllGatherV_pool_UB : exists members workDivs,
  Forall (fun c => 0 <= c) workDivs /\ zlen members = zlen workDivs /\
  (exists ps p, 0 <= p /\ members = zrange (p * ps) ps) /\
  forall (A : Type) (dataIn : list (list A)) out,
    bigAllGatherV members dataIn workDivs (offsets workDivs) out = UB.
Proof.
  exists [2; 3], [2000000000; 2000000000]. split; [repeat constructor; lia|].
  split; [reflexivity|]. split; [exists 2, 1; split; [lia|reflexivity]|].
  intros A dataIn out. reflexivity.
Qed.

Lemma allReduceSum2_single : exists ins outs,
  length ins = 1%nat /\ length outs = 1%nat /\ allReduceSum2 ins outs <> [sumOfBuffers ins].
Proof. exists [[5]], [[0]]. split; [reflexivity|]. split; [reflexivity|]. vm_compute. discriminate. Qed.
