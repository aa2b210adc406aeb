(** The pattern "every rank writes its own share into a zero vector, then the vectors are summed". *)
From Verif Require Import Base BaseLemmas M_utilities M_mpi S_mpi L_utilities L_mpi.
Open Scope Z_scope.

Lemma zget_nth (l : list Z) i x d : zget l i = Some x -> nth (Z.to_nat i) l d = x.
Proof.
  unfold zget. destruct (i <? 0) eqn:E; [discriminate|]. intro H. apply nth_error_nth with (d := d) in H. assumption.
Qed.
Lemma zget_repeat {A} (x : A) n i : 0 <= i < n -> zget (repeat x (Z.to_nat n)) i = Some x.
Proof.
  intro H. unfold zget. destruct (Z.ltb_spec i 0); [lia|].
  rewrite nth_error_nth' with (d := x) by (rewrite repeat_length; lia). f_equal.
  apply nth_repeat.
Qed.
Lemma zlen_repeat {A} (x : A) n : 0 <= n -> zlen (repeat x (Z.to_nat n)) = n.
Proof. intro. unfold zlen. rewrite repeat_length. lia. Qed.

Lemma foldM_fill (step : list Z -> Z -> res (list Z)) (f : Z -> Z) a n0 (k : nat) : 0 <= a -> a + Z.of_nat k <= n0 ->
  (forall acc ik, 0 <= ik < n0 -> step acc ik = Ok (zupd acc ik (f ik))) ->
  forall acc, zlen acc = n0 -> exists out, foldM step (zrange a (Z.of_nat k)) acc = Ok out /\ zlen out = n0 /\
    forall i, 0 <= i < n0 -> zget out i = if (a <=? i) && (i <? a + Z.of_nat k) then Some (f i) else zget acc i.
Proof.
  intros Ha Hk Hs. induction k as [|k IH]; intros acc Hl.
  - exists acc. split; [reflexivity|]. split; [assumption|]. intros i Hi.
    destruct (Z.leb_spec a i); [|reflexivity]. destruct (Z.ltb_spec i (a + Z.of_nat 0)); [lia|reflexivity].
  - destruct (IH ltac:(lia) acc Hl) as (out & E & Hlo & Ho).
    replace (Z.of_nat (S k)) with (Z.of_nat k + 1) by lia. rewrite zrange_S by lia.
    assert (FA : forall (l1 l2 : list Z) s, foldM step (l1 ++ l2) s = bind (foldM step l1 s) (foldM step l2)).
    { clear. induction l1; intros l2 s; [reflexivity|]. cbn. destruct (step s a); [apply IHl1|reflexivity|reflexivity]. }
    rewrite FA, E. cbn [bind foldM]. rewrite Hs by lia. cbn [bind].
    eexists. split; [reflexivity|]. split; [rewrite zlen_zupd; assumption|]. intros i Hi.
    destruct (Z.eq_dec i (a + Z.of_nat k)) as [->|N].
    + rewrite zget_zupd_eq by lia. destruct (Z.leb_spec a (a + Z.of_nat k)); [|lia].
      destruct (Z.ltb_spec (a + Z.of_nat k) (a + (Z.of_nat k + 1))); [reflexivity|lia].
    + rewrite zget_zupd_ne by congruence. rewrite Ho by assumption.
      destruct (Z.leb_spec a i); [|reflexivity]. cbn [andb].
      destruct (Z.ltb_spec i (a + Z.of_nat k)), (Z.ltb_spec i (a + (Z.of_nat k + 1))); try reflexivity; lia.
Qed.

Lemma sum_own_share n size i v (k : nat) : 0 <= n -> 0 < size -> Z.of_nat k <= size -> 0 <= i ->
  zsum (map (fun r => if (cut n size r <=? i) && (i <? cut n size (r + 1)) then v else 0) (zrange 0 (Z.of_nat k)))
  = if i <? cut n size (Z.of_nat k) then v else 0.
Proof.
  intros Hn Hs. induction k as [|k IH]; intros Hk Hi.
  - cbn [Z.of_nat]. rewrite cut_0. destruct (Z.ltb_spec i 0); [lia|reflexivity].
  - replace (Z.of_nat (S k)) with (Z.of_nat k + 1) by lia. rewrite zrange_S, map_app, zsum_app, IH by lia.
    unfold zsum at 1; cbn [map fold_right]. fold zsum. rewrite Z.add_0_l. pose proof (cut_mono n size (Z.of_nat k) Hn Hs).
    destruct (Z.ltb_spec i (cut n size (Z.of_nat k))), (Z.leb_spec (cut n size (Z.of_nat k)) i),
      (Z.ltb_spec i (cut n size (Z.of_nat k + 1))); cbn [andb]; lia.
Qed.

Lemma fill_allReduce n size step (f : Z -> Z) : fits n size ->
  (forall acc ik, 0 <= ik < n -> step acc ik = Ok (zupd acc ik (f ik))) ->
  exists locals outs, mapM (fun r => do mine <- divideWorkIter n r size ; foldM step mine (repeat 0 (Z.to_nat n))) (zrange 0 size)
      = Ok locals /\ outs = allReduceSum locals /\ zlen outs = size /\ Forall (fun o => o = map f (zrange 0 n)) outs.
Proof.
  intros F Hs. pose proof F as (Hn & Hz & _).
  assert (G : forall r, 0 <= r < size -> exists out,
     (do mine <- divideWorkIter n r size ; foldM step mine (repeat 0 (Z.to_nat n))) = Ok out /\ zlen out = n /\
     forall i, 0 <= i < n -> zget out i = Some (if (cut n size r <=? i) && (i <? cut n size (r + 1)) then f i else 0)).
  { intros r Hr. rewrite divideWorkIter_cut by assumption. cbn [bind].
    pose proof (cut_mono n size r Hn Hz). pose proof (cut_mono_le n size 0 r Hn Hz ltac:(lia)).
    pose proof (cut_mono_le n size (r + 1) size Hn Hz ltac:(lia)). rewrite cut_0 in *. rewrite cut_size in * by assumption.
    destruct (foldM_fill step f (cut n size r) n (Z.to_nat (cut n size (r + 1) - cut n size r)) ltac:(lia) ltac:(lia) Hs
      (repeat 0 (Z.to_nat n)) ltac:(apply zlen_repeat; assumption)) as (out & E & Hl & Ho).
    rewrite Z2Nat.id in * by lia. exists out. split; [assumption|]. split; [assumption|]. intros i Hi. rewrite Ho by assumption.
    replace (cut n size r + (cut n size (r + 1) - cut n size r)) with (cut n size (r + 1)) by lia.
    destruct ((cut n size r <=? i) && (i <? cut n size (r + 1)))%bool; [reflexivity|]. apply zget_repeat; assumption. }
  set (g := fun r => match (do mine <- divideWorkIter n r size ; foldM step mine (repeat 0 (Z.to_nat n))) with Ok o => o | _ => [] end).
  exists (map g (zrange 0 size)), (allReduceSum (map g (zrange 0 size))).
  split.
  { apply mapM_ok. intros r I. apply in_zrange in I. unfold g. destruct (G r ltac:(lia)) as (out & E & _). rewrite E. reflexivity. }
  split; [reflexivity|].
  destruct (allReduceSum_inplace (map g (zrange 0 size)) (Z.to_nat n)) as [H1 H2].
  { replace size with (1 + (size - 1)) by lia. rewrite <- zrange_app by lia. discriminate. }
  { apply Forall_forall. intros b I. apply in_map_iff in I. destruct I as (r & <- & I). apply in_zrange in I.
    unfold g. destruct (G r ltac:(lia)) as (out & E & Hl & _). rewrite E. unfold zlen in Hl. lia. }
  split.
  - unfold zlen. rewrite H2, map_length. pose proof (zlen_zrange 0 size ltac:(lia)) as X. exact X.
  - eapply Forall_impl; [|exact H1]. cbn beta. intros o (Hl & Ho). apply nth_error_ext. intro i.
    destruct (le_lt_dec (Z.to_nat n) i) as [C|C].
    + rewrite (proj2 (nth_error_None _ _)) by lia. symmetry. apply nth_error_None. rewrite map_length.
      pose proof (zlen_zrange 0 n ltac:(lia)) as X. unfold zlen in X. lia.
    + rewrite Ho by assumption. assert (Hi : 0 <= Z.of_nat i < n) by lia.
      assert (E : nth_error (map f (zrange 0 n)) i = Some (f (Z.of_nat i))).
      { pose proof (zget_map f (zrange 0 n) (Z.of_nat i)) as X. rewrite zget_zrange in X by assumption.
        unfold zget in X. destruct (Z.ltb_spec (Z.of_nat i) 0); [lia|]. rewrite Nat2Z.id in X. rewrite X. cbn. reflexivity. }
      rewrite E. f_equal.
      rewrite map_map. rewrite <- (Z2Nat.id size) by lia.
      rewrite map_ext_in with (g := fun r => if (cut n size r <=? Z.of_nat i) && (Z.of_nat i <? cut n size (r + 1)) then f (Z.of_nat i) else 0).
      * rewrite sum_own_share by lia. rewrite Z2Nat.id by lia. rewrite cut_size by assumption.
        destruct (Z.ltb_spec (Z.of_nat i) n); [reflexivity|lia].
      * intros r I. apply in_zrange in I. unfold g. destruct (G r ltac:(lia)) as (out & Eo & _ & Hz').
        rewrite Eo. specialize (Hz' (Z.of_nat i) Hi). apply zget_nth with (d := 0) in Hz'. rewrite Nat2Z.id in Hz'. assumption.
Qed.
