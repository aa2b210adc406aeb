From Coq Require Import QArith Permutation.
From Verif Require Import Base BaseLemmas M_utilities M_mpi M_reduce M_points M_irreducible M_bands S_mpi S_points S_irreducible S_bands
  L_utilities L_mpi L_fill L_reduce L_irreducible L_irreducible2.
Open Scope Z_scope.

(** * cumulative offsets *)
Definition pre (f : Z -> Z) (nb : list Z) (ik : Z) : Z := zsum (map f (firstn (Z.to_nat ik) nb)).

Lemma cumulative_app f acc l1 l2 : cumulative f acc (l1 ++ l2) = cumulative f acc l1 ++ cumulative f (acc + zsum (map f l1)) l2.
Proof.
  revert acc. induction l1 as [|x l1 IH]; intro acc; cbn [app cumulative map].
  - cbn. f_equal. lia.
  - rewrite IH. do 2 f_equal. unfold zsum; cbn [fold_right]. fold zsum. f_equal. lia.
Qed.
Lemma cumulative_len f acc l : zlen (cumulative f acc l) = zlen l.
Proof. revert acc. induction l; intro acc; [reflexivity|]. cbn [cumulative]. rewrite !zlen_cons, IHl. reflexivity. Qed.

Lemma zget_split {A} (l : list A) i x : zget l i = Some x ->
  l = firstn (Z.to_nat i) l ++ x :: skipn (S (Z.to_nat i)) l /\ zlen (firstn (Z.to_nat i) l) = i.
Proof.
  intro H. apply zget_Some in H as R. unfold zget in H. destruct (Z.ltb_spec i 0); [discriminate|].
  apply nth_error_split in H. destruct H as (l1 & l2 & -> & El). split.
  - rewrite <- El. rewrite firstn_app, firstn_all, Nat.sub_diag. cbn [firstn]. rewrite app_nil_r.
    f_equal. f_equal. rewrite skipn_app. rewrite skipn_all2 by lia. replace (S (length l1) - length l1)%nat with 1%nat by lia. reflexivity.
  - unfold zlen. rewrite firstn_length. unfold zlen in R. lia.
Qed.

Lemma cumulative_get f acc nb ik n : zget nb ik = Some n -> zget (cumulative f acc nb) ik = Some (acc + pre f nb ik).
Proof.
  intro H. destruct (zget_split nb ik n H) as [E L]. rewrite E at 1. rewrite cumulative_app.
  rewrite zget_app2 by (rewrite cumulative_len; lia). rewrite cumulative_len, L, Z.sub_diag. reflexivity.
Qed.

Lemma zsum_nonneg l : Forall (fun x => 0 <= x) l -> 0 <= zsum l.
Proof. induction 1; cbn; [lia|]. unfold zsum in *. cbn. lia. Qed.
Lemma zsum_cons x l : zsum (x :: l) = x + zsum l.
Proof. reflexivity. Qed.

Section C.
Variable f : Z -> Z.
Variable nb : list Z.
Hypothesis Hf : Forall (fun n => 0 <= f n) nb.

Lemma pre_0 : pre f nb 0 = 0. Proof. reflexivity. Qed.
Lemma pre_S ik n : zget nb ik = Some n -> pre f nb (ik + 1) = pre f nb ik + f n.
Proof.
  intro H. apply zget_Some in H as R. destruct (zget_split nb ik n H) as [E L]. unfold pre.
  replace (Z.to_nat (ik + 1)) with (S (Z.to_nat ik)) by lia.
  rewrite E at 1. rewrite firstn_app. rewrite firstn_all2 by (unfold zlen in L; lia).
  replace (S (Z.to_nat ik) - length (firstn (Z.to_nat ik) nb))%nat with 1%nat by (unfold zlen in L; lia).
  cbn [firstn]. rewrite map_app, zsum_app. cbn. lia.
Qed.
Lemma pre_total : pre f nb (zlen nb) = total f nb.
Proof. unfold pre, total. rewrite firstn_all2; [reflexivity|]. unfold zlen. lia. Qed.
Lemma pre_mono i : forall j, 0 <= i <= j -> j <= zlen nb -> pre f nb i <= pre f nb j.
Proof.
  intros j Hij Hj. assert (K : forall k : nat, i + Z.of_nat k <= zlen nb -> pre f nb i <= pre f nb (i + Z.of_nat k)).
  { induction k as [|k IH]; intro Hk; [rewrite Z.add_0_r; lia|].
    destruct (zget_inrange nb (i + Z.of_nat k) ltac:(lia)) as (n & E).
    replace (i + Z.of_nat (S k)) with (i + Z.of_nat k + 1) by lia. rewrite (pre_S _ _ E).
    destruct (zget_Some _ _ _ E) as [_ I]. rewrite Forall_forall in Hf. specialize (Hf n I). specialize (IH ltac:(lia)). lia. }
  specialize (K (Z.to_nat (j - i))). rewrite Z2Nat.id in K by lia. replace (i + (j - i)) with j in K by lia. apply K. lia.
Qed.
Lemma slot_range ik n x : zget nb ik = Some n -> 0 <= x < f n -> 0 <= pre f nb ik + x < total f nb.
Proof.
  intros E Hx. destruct (zget_Some _ _ _ E) as [R _]. pose proof (pre_mono 0 ik ltac:(lia) ltac:(lia)) as M0. rewrite pre_0 in M0.
  pose proof (pre_mono (ik + 1) (zlen nb) ltac:(lia) ltac:(lia)) as M1. rewrite pre_total, (pre_S _ _ E) in M1. lia.
Qed.
Lemma slot_inj ik n x ik' n' x' : zget nb ik = Some n -> 0 <= x < f n -> zget nb ik' = Some n' -> 0 <= x' < f n' ->
  pre f nb ik + x = pre f nb ik' + x' -> ik = ik' /\ x = x'.
Proof.
  intros E Hx E' Hx' Eq. destruct (zget_Some _ _ _ E) as [R _]. destruct (zget_Some _ _ _ E') as [R' _].
  destruct (Z.lt_trichotomy ik ik') as [L|[->|L]].
  - pose proof (pre_mono (ik + 1) ik' ltac:(lia) ltac:(lia)) as M. rewrite (pre_S _ _ E) in M. lia.
  - split; [reflexivity|lia].
  - pose proof (pre_mono (ik' + 1) ik ltac:(lia) ltac:(lia)) as M. rewrite (pre_S _ _ E') in M. lia.
Qed.

(** the slot ranges of the points, one after the other, are 0..total-1 *)
Lemma ranges_join : concat (map (fun ik => zrange (pre f nb ik) (match zget nb ik with Some n => f n | None => 0 end)) (zrange 0 (zlen nb)))
  = zrange 0 (total f nb).
Proof.
  assert (K : forall k : nat, Z.of_nat k <= zlen nb ->
    concat (map (fun ik => zrange (pre f nb ik) (match zget nb ik with Some n => f n | None => 0 end)) (zrange 0 (Z.of_nat k)))
    = zrange 0 (pre f nb (Z.of_nat k))).
  { induction k as [|k IH]; intro Hk; [reflexivity|].
    replace (Z.of_nat (S k)) with (Z.of_nat k + 1) by lia. rewrite zrange_S by lia. rewrite map_app, concat_app, IH by lia.
    cbn [map concat]. rewrite app_nil_r. destruct (zget_inrange nb (Z.of_nat k) ltac:(lia)) as (n & E).
    rewrite Z.add_0_l. rewrite E, (pre_S _ _ E).
    pose proof (pre_mono 0 (Z.of_nat k) ltac:(lia) ltac:(lia)) as M. rewrite pre_0 in M.
    destruct (zget_Some _ _ _ E) as [_ I]. rewrite Forall_forall in Hf. specialize (Hf n I).
    rewrite <- zrange_app by lia. reflexivity. }
  specialize (K (length nb)). fold (zlen nb) in K. rewrite pre_total in K. apply K. unfold zlen; lia.
Qed.
End C.

(** * (wavevector, band) <-> state *)
Lemma aux_app l n : auxBloch2Comb (l ++ [n]) = auxBloch2Comb l ++ map (fun ib => (zlen l, ib)) (zrange 0 n).
Proof.
  unfold auxBloch2Comb. rewrite zlen_app. change (zlen [n]) with 1. rewrite zrange_S by (apply zlen_nonneg).
  rewrite flat_map_app. f_equal.
  - rewrite !flat_map_concat_map. f_equal. apply map_ext_in. intros ik I. apply in_zrange in I. rewrite zget_app1 by lia. reflexivity.
  - cbn [flat_map]. rewrite app_nil_r, Z.add_0_l. rewrite zget_app2, Z.sub_diag by lia. reflexivity.
Qed.

Lemma aux_len nb : Forall (fun n => 0 <= n) nb -> zlen (auxBloch2Comb nb) = zsum nb.
Proof.
  induction nb as [|n nb IH] using rev_ind; intro H; [reflexivity|]. apply Forall_app in H. destruct H as [H1 H2].
  rewrite aux_app, zlen_app, zlen_map, IH by assumption. rewrite zlen_zrange by (exact (Forall_inv H2)).
  rewrite zsum_app, zsum_cons. cbn. lia.
Qed.

Lemma aux_get nb ik ib n : Forall (fun n => 0 <= n) nb -> zget nb ik = Some n -> 0 <= ib < n ->
  zget (auxBloch2Comb nb) (pre (fun n => n) nb ik + ib) = Some (ik, ib).
Proof.
  induction nb as [|m nb IH] using rev_ind; intros H E Hib.
  - destruct (zget_Some _ _ _ E) as [R _]. cbn in R. lia.
  - apply Forall_app in H as [H1 H2]. destruct (zget_Some _ _ _ E) as [R _]. rewrite zlen_app in R. change (zlen [m]) with 1 in R.
    rewrite aux_app. destruct (Z.eq_dec ik (zlen nb)) as [->|Ne].
    + rewrite zget_app2, Z.sub_diag in E by lia. injection E as ->.
      unfold pre. rewrite firstn_app, firstn_all2 by (unfold zlen; lia).
      replace (Z.to_nat (zlen nb) - length nb)%nat with 0%nat by (unfold zlen; lia). cbn [firstn]. rewrite app_nil_r, map_id.
      rewrite zget_app2 by (rewrite aux_len by assumption; lia). rewrite aux_len by assumption.
      rewrite zget_map. replace (zsum nb + ib - zsum nb) with ib by lia. rewrite zget_zrange by lia. reflexivity.
    + rewrite zget_app1 in E by lia.
      assert (Ep : pre (fun n => n) (nb ++ [m]) ik = pre (fun n => n) nb ik).
      { unfold pre. rewrite firstn_app. replace (Z.to_nat ik - length nb)%nat with 0%nat by (unfold zlen in *; lia).
        cbn [firstn]. rewrite app_nil_r. reflexivity. }
      rewrite Ep. rewrite zget_app1; [apply IH; assumption|]. rewrite aux_len by assumption.
      pose proof (slot_range (fun n => n) nb H1 ik n ib E Hib) as S. unfold total in S. rewrite map_id in S. lia.
Qed.

Lemma aux_inv nb is ik ib : Forall (fun n => 0 <= n) nb -> zget (auxBloch2Comb nb) is = Some (ik, ib) ->
  isState nb ik ib /\ pre (fun n => n) nb ik + ib = is.
Proof.
  induction nb as [|m nb IH] using rev_ind; intros H E; [destruct (zget_Some _ _ _ E) as [R _]; cbn in R; lia|].
  apply Forall_app in H as [H1 H2]. pose proof (Forall_inv H2) as Hm. cbn beta in Hm.
  rewrite aux_app in E. destruct (Z_lt_ge_dec is (zlen (auxBloch2Comb nb))) as [L|G].
  - rewrite zget_app1 in E by lia. destruct (IH H1 E) as [(n & En & Hib) Ep]. destruct (zget_Some _ _ _ En) as [R _]. split.
    + exists n. rewrite zget_app1 by lia. split; assumption.
    + rewrite <- Ep. f_equal. unfold pre. rewrite firstn_app. replace (Z.to_nat ik - length nb)%nat with 0%nat by (unfold zlen in *; lia).
      cbn [firstn]. rewrite app_nil_r. reflexivity.
  - rewrite zget_app2 in E by lia. rewrite zget_map in E.
    destruct (zget (zrange 0 m) (is - zlen (auxBloch2Comb nb))) as [x|] eqn:Ex; [|discriminate].
    cbn in E. injection E as <- <-. pose proof (zget_Some _ _ _ Ex) as [Rx _]. rewrite zlen_zrange in Rx by assumption.
    rewrite zget_zrange in Ex by lia. injection Ex as <-. split.
    + exists m. rewrite zget_app2, Z.sub_diag by lia. split; [reflexivity|lia].
    + unfold pre. rewrite firstn_app, firstn_all2 by (unfold zlen; lia).
      replace (Z.to_nat (zlen nb) - length nb)%nat with 0%nat by (unfold zlen; lia). cbn [firstn]. rewrite app_nil_r, map_id.
      rewrite aux_len by assumption. lia.
Qed.

Lemma bloch2Comb_get nb ik ib n : zget nb ik = Some n -> bloch2Comb nb ik ib = Ok (pre (fun n => n) nb ik + ib).
Proof. intro E. unfold bloch2Comb, cumulativeKbOffset. rewrite (cumulative_get _ _ _ _ _ E). reflexivity. Qed.

Lemma state_numbering nb : Forall (fun n => 0 <= n) nb ->
  (forall ik ib, isState nb ik ib -> exists is, bloch2Comb nb ik ib = Ok is /\ 0 <= is < numStates nb /\ comb2Bloch nb is = Ok (ik, ib)) /\
  (forall is, 0 <= is < numStates nb -> exists ik ib, comb2Bloch nb is = Ok (ik, ib) /\ isState nb ik ib /\ bloch2Comb nb ik ib = Ok is).
Proof.
  intro H. split.
  - intros ik ib (n & E & Hib). exists (pre (fun n => n) nb ik + ib). split; [apply (bloch2Comb_get _ _ _ _ E)|]. split.
    + pose proof (slot_range (fun n => n) nb H ik n ib E Hib) as S. unfold total in S. rewrite map_id in S. exact S.
    + unfold comb2Bloch. rewrite (aux_get nb ik ib n H E Hib). reflexivity.
  - intros is Hs. unfold numStates in Hs. rewrite <- (aux_len nb H) in Hs. destruct (zget_inrange _ _ Hs) as ((ik & ib) & E).
    exists ik, ib. unfold comb2Bloch. rewrite E. split; [reflexivity|]. destruct (aux_inv nb is ik ib H E) as [S Ep].
    split; [assumption|]. destruct S as (n & En & _). rewrite (bloch2Comb_get _ _ _ _ En). f_equal. assumption.
Qed.

Lemma nonneg_map f (nb : list Z) : Forall (fun n => 0 <= n) nb -> (forall n, 0 <= n -> 0 <= f n) -> Forall (fun n => 0 <= f n) nb.
Proof. intros H K. eapply Forall_impl; [|exact H]. cbn beta. intros. apply K. assumption. Qed.

Lemma velocity_slots nb : Forall (fun n => 0 <= n) nb ->
  (forall ik ib1 ib2 i, isState nb ik ib1 -> isState nb ik ib2 -> 0 <= i < 3 ->
     exists s, velBloch2Comb nb ik ib1 ib2 i = Ok s /\ 0 <= s < numVelStates nb) /\
  (forall ik ib1 ib2 i ik' ib1' ib2' i' s, isState nb ik ib1 -> isState nb ik ib2 -> 0 <= i < 3 ->
     isState nb ik' ib1' -> isState nb ik' ib2' -> 0 <= i' < 3 ->
     velBloch2Comb nb ik ib1 ib2 i = Ok s -> velBloch2Comb nb ik' ib1' ib2' i' = Ok s ->
     ik = ik' /\ ib1 = ib1' /\ ib2 = ib2' /\ i = i').
Proof.
  intro H. pose proof (nonneg_map (fun n => 3 * n * n) nb H ltac:(intros; nia)) as H3.
  assert (K : forall ik ib1 ib2 i n, zget nb ik = Some n -> velBloch2Comb nb ik ib1 ib2 i = Ok (pre (fun n => 3 * n * n) nb ik + (ib1 * n * 3 + ib2 * 3 + i))).
  { intros ik ib1 ib2 i n E. unfold velBloch2Comb, cumulativeKbbOffset. rewrite (cumulative_get _ _ _ _ _ E), E. f_equal. lia. }
  assert (B : forall n ib1 ib2 i, 0 <= ib1 < n -> 0 <= ib2 < n -> 0 <= i < 3 -> 0 <= ib1 * n * 3 + ib2 * 3 + i < 3 * n * n).
  { intros. nia. }
  split.
  - intros ik ib1 ib2 i (n & E & H1) (n2 & E2 & H2) Hi. rewrite E in E2. injection E2 as <-.
    eexists. split; [apply (K _ _ _ _ _ E)|]. apply (slot_range _ nb H3 ik n); [assumption|]. apply B; assumption.
  - intros ik ib1 ib2 i ik' ib1' ib2' i' s (n & E & H1) (n2 & E2 & H2) Hi (n' & E' & H1') (n2' & E2' & H2') Hi' S S'.
    rewrite E in E2. injection E2 as <-. rewrite E' in E2'. injection E2' as <-.
    rewrite (K _ _ _ _ _ E) in S. rewrite (K _ _ _ _ _ E') in S'. injection S as S. injection S' as S'.
    destruct (slot_inj (fun n => 3 * n * n) nb H3 ik n _ ik' n' _ E (B _ _ _ _ H1 H2 Hi) E' (B _ _ _ _ H1' H2' Hi') (eq_trans S (eq_sym S'))) as [-> Ex].
    rewrite E in E'. injection E' as <-. split; [reflexivity|].
    assert (i = i') as -> by lia. assert (ib1 * n + ib2 = ib1' * n + ib2') as Ey by lia.
    assert (ib1 = ib1') as -> by nia. split; [reflexivity|]. split; [lia|reflexivity].
Qed.

Lemma eigenvector_slots nfb nb : 0 <= nfb -> Forall (fun n => 0 <= n) nb ->
  (forall ik ib1 ib2, 0 <= ib1 < nfb -> isState nb ik ib2 ->
     exists s, eigBloch2Comb nfb nb ik ib1 ib2 = Ok s /\ 0 <= s < numEigStates nfb nb) /\
  (forall ik ib1 ib2 ik' ib1' ib2' s, 0 <= ib1 < nfb -> isState nb ik ib2 -> 0 <= ib1' < nfb -> isState nb ik' ib2' ->
     eigBloch2Comb nfb nb ik ib1 ib2 = Ok s -> eigBloch2Comb nfb nb ik' ib1' ib2' = Ok s -> ik = ik' /\ ib1 = ib1' /\ ib2 = ib2').
Proof.
  intros Hn H. pose proof (nonneg_map (fun n => n * nfb) nb H ltac:(intros; nia)) as H3.
  assert (P : forall ik, pre (fun n => n) nb ik * nfb = pre (fun n => n * nfb) nb ik).
  { intro ik. unfold pre. induction (firstn (Z.to_nat ik) nb) as [|x l IH]; [reflexivity|]. cbn [map]. rewrite !zsum_cons. lia. }
  assert (K : forall ik ib1 ib2 n, zget nb ik = Some n -> eigBloch2Comb nfb nb ik ib1 ib2 = Ok (pre (fun n => n * nfb) nb ik + (ib1 * n + ib2))).
  { intros ik ib1 ib2 n E. unfold eigBloch2Comb, cumulativeKbOffset. rewrite (cumulative_get _ _ _ _ _ E), E. f_equal. rewrite Z.add_0_l, P. lia. }
  assert (B : forall n ib1 ib2, 0 <= ib1 < nfb -> 0 <= ib2 < n -> 0 <= ib1 * n + ib2 < n * nfb).
  { intros. nia. }
  split.
  - intros ik ib1 ib2 H1 (n & E & H2). eexists. split; [apply (K _ _ _ _ E)|].
    apply (slot_range _ nb H3 ik n); [assumption|]. apply B; assumption.
  - intros ik ib1 ib2 ik' ib1' ib2' s H1 (n & E & H2) H1' (n' & E' & H2') S S'.
    rewrite (K _ _ _ _ E) in S. rewrite (K _ _ _ _ E') in S'. injection S as S. injection S' as S'.
    destruct (slot_inj (fun n => n * nfb) nb H3 ik n _ ik' n' _ E (B _ _ _ H1 H2) E' (B _ _ _ H1' H2') (eq_trans S (eq_sym S'))) as [-> Ex].
    rewrite E in E'. injection E' as <-. split; [reflexivity|].
    assert (ib1 = ib1') as -> by nia. split; [reflexivity|lia].
Qed.
