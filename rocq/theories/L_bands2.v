From Coq Require Import QArith Permutation.
From Verif Require Import Base BaseLemmas M_utilities M_mpi M_reduce M_points M_irreducible M_bands S_mpi S_points S_irreducible S_bands
  L_utilities L_mpi L_fill L_reduce L_irreducible L_irreducible2 L_bands.
Open Scope Z_scope.

Lemma parallelSlice_join {A} (v : list A) size : fits (zlen v) size ->
  concat (map (fun r => parallelSlice v r size) (zrange 0 size)) = v.
Proof.
  intro F. pose proof F as (Hn & Hs & _).
  rewrite map_ext_in with (g := fun r => firstn (Z.to_nat (cut (zlen v) size (r + 1) - cut (zlen v) size r))
     (skipn (Z.to_nat (cut (zlen v) size r)) v)).
  - pose proof (concat_slices v size (Z.to_nat size) F ltac:(lia)) as H. rewrite Z2Nat.id in H by lia. rewrite H.
    rewrite cut_size by assumption. unfold zlen. rewrite Nat2Z.id. apply firstn_all.
  - intros r I. apply in_zrange in I. unfold parallelSlice. rewrite divideWork_cut by (try assumption; lia). reflexivity.
Qed.

(** * numbering of irreducible states *)
Section B.
Variables nb irr red2irr : list Z.
Hypothesis Hnb : Forall (fun n => 0 <= n) nb.
Hypothesis Hm : indexMaps irr red2irr (zlen nb).

Notation nbOf := (bandsAt nb).
Definition nbIrr : list Z := map nbOf irr.

Lemma zlen_nbIrr : zlen nbIrr = zlen irr. Proof. apply zlen_map. Qed.
Lemma nbIrr_get i k : zget irr i = Some k -> zget nbIrr i = Some (nbOf k).
Proof. intro E. unfold nbIrr. rewrite zget_map, E. reflexivity. Qed.
Lemma irr_get_range i k : zget irr i = Some k -> 0 <= k < zlen nb /\ zget red2irr k = Some i.
Proof.
  intro E. destruct (zget_Some _ _ _ E) as [R _]. destruct Hm as (_ & H1 & _). destruct (H1 i R) as (k' & E' & Hk & Er).
  rewrite E in E'. injection E' as <-. split; assumption.
Qed.
Lemma nbOf_get k : 0 <= k < zlen nb -> zget nb k = Some (nbOf k) /\ 0 <= nbOf k.
Proof.
  intro H. unfold bandsAt. destruct (zget_inrange nb k H) as (n & E). rewrite E. split; [reflexivity|].
  destruct (zget_Some _ _ _ E) as [_ I]. rewrite Forall_forall in Hnb. apply Hnb, I.
Qed.
Lemma nbIrr_nonneg : Forall (fun n => 0 <= n) nbIrr.
Proof.
  unfold nbIrr. apply Forall_forall. intros x I. apply in_map_iff in I. destruct I as (k & <- & I).
  unfold bandsAt. destruct (zget nb k) eqn:E; [|lia]. destruct (zget_Some _ _ _ E) as [_ I']. rewrite Forall_forall in Hnb. apply Hnb, I'.
Qed.
Lemma asIrr_get k i : zget red2irr k = Some i -> asIrreducibleIndex irr red2irr k = Ok i.
Proof. intro E. unfold asIrreducibleIndex. destruct Hm as (H0 & _). destruct (Z.ltb_spec 0 (zlen irr)); [|lia]. rewrite E. reflexivity. Qed.
Lemma asRed_get k i : zget irr i = Some k -> asReducibleIndex irr i = Ok k.
Proof. intro E. unfold asReducibleIndex. destruct Hm as (H0 & _). destruct (Z.ltb_spec 0 (zlen irr)); [|lia]. rewrite E. reflexivity. Qed.

Lemma zupd_app2 {A} (l1 l2 : list A) (x y : A) : zupd (l1 ++ x :: l2) (zlen l1) y = l1 ++ y :: l2.
Proof.
  unfold zupd, zlen. destruct (Z.ltb_spec (Z.of_nat (length l1)) 0); [lia|]. rewrite Nat2Z.id.
  induction l1; cbn; [reflexivity|]. f_equal. apply IHl1. lia.
Qed.

Lemma bteLoop l r : irr = l ++ r -> 
  foldM (bteStep nb irr red2irr) l (repeat 0 (length irr), [], 0) =
  Ok (cumulativeKbOffset (map nbOf l) ++ repeat 0 (length r), auxBloch2Comb (map nbOf l), last l 0).
Proof.
  revert r. induction l as [|k l IH] using rev_ind; intros r E.
  - cbn in *. subst r. reflexivity.
  - rewrite <- app_assoc in E. cbn [app] in E. rewrite foldM_app', (IH (k :: r) E). cbn [bind foldM].
    unfold bteStep at 1.
    assert (Ek : zget irr (zlen l) = Some k) by (rewrite E, zget_app2, Z.sub_diag by lia; reflexivity).
    destruct (irr_get_range _ _ Ek) as [Rk Er]. rewrite (asIrr_get _ _ Er). cbn [bind].
    destruct (nbOf_get k Rk) as [Enk _].
    assert (Elen : zlen (cumulativeKbOffset (map nbOf l)) = zlen l) by (unfold cumulativeKbOffset; rewrite cumulative_len, zlen_map; reflexivity).
    assert (Eo : (if 0 <? zlen l then match zget (cumulativeKbOffset (map nbOf l) ++ repeat 0 (length (k :: r))) (zlen l - 1), zget nb (last l 0) with
                  | Some o, Some n => put (cumulativeKbOffset (map nbOf l) ++ repeat 0 (length (k :: r))) (zlen l) (o + n) | _, _ => UB end
                else Ok (cumulativeKbOffset (map nbOf l) ++ repeat 0 (length (k :: r))))
               = Ok (cumulativeKbOffset (map nbOf (l ++ [k])) ++ repeat 0 (length r))).
    { destruct l as [|k0 l0] using rev_ind.
      - reflexivity.
      - clear IHl0. rewrite last_last. unfold zlen at 1. rewrite app_length. cbn [length]. destruct (Z.ltb_spec 0 (Z.of_nat (length l0 + 1))); [|lia].
        assert (Ek0 : zget irr (zlen l0) = Some k0).
        { rewrite E, <- app_assoc, zget_app2, Z.sub_diag by lia. reflexivity. }
        destruct (irr_get_range _ _ Ek0) as [Rk0 _]. destruct (nbOf_get k0 Rk0) as [En0 _].
        assert (El : zlen (l0 ++ [k0]) = zlen l0 + 1) by (rewrite zlen_app; reflexivity).
        rewrite zget_app1 by lia. rewrite El. replace (zlen l0 + 1 - 1) with (zlen l0) by lia.
        unfold cumulativeKbOffset at 1. rewrite map_app, cumulative_app. rewrite zget_app2 by (rewrite cumulative_len, zlen_map; lia).
        rewrite cumulative_len, zlen_map, Z.sub_diag. cbn [map cumulative]. rewrite zget_cons0, En0.
        rewrite <- El, <- Elen. cbn [length repeat]. rewrite (map_app nbOf l0 [k0]). cbn [map].
        set (c := cumulativeKbOffset (map nbOf l0 ++ [nbOf k0])).
        rewrite put_ok by (rewrite zlen_app, zlen_cons; pose proof (zlen_nonneg (repeat 0 (length r))); pose proof (zlen_nonneg c); lia).
        f_equal. rewrite zupd_app2. unfold c.
        rewrite (map_app nbOf (l0 ++ [k0]) [k]), (map_app nbOf l0 [k0]). unfold cumulativeKbOffset at 2. rewrite cumulative_app. rewrite <- app_assoc.
        unfold cumulativeKbOffset. f_equal. cbn [map cumulative app]. f_equal. rewrite !map_id, zsum_app. cbn. lia. }
    rewrite Eo. cbn [bind]. rewrite Enk. rewrite last_last. do 3 f_equal. rewrite map_app. cbn [map]. rewrite aux_app, zlen_map. reflexivity.
Qed.

Lemma buildSymmetries_spec : buildSymmetries nb irr red2irr = Ok (cumulativeKbOffset nbIrr, auxBloch2Comb nbIrr).
Proof.
  unfold buildSymmetries. rewrite (bteLoop irr []) by (rewrite app_nil_r; reflexivity). cbn [bind fst snd length repeat].
  rewrite app_nil_r. reflexivity.
Qed.

Lemma bte_state i k ib is : zget irr i = Some k -> bloch2Comb nb k ib = Ok is -> 0 <= ib < nbOf k ->
  comb2Bloch nb is = Ok (k, ib) /\
  exists iBte, bloch2Comb nbIrr i ib = Ok iBte /\ 0 <= iBte < numStates nbIrr /\
    stateToBte nb irr red2irr (cumulativeKbOffset nbIrr) is = Ok iBte /\
    bteToState nb irr (auxBloch2Comb nbIrr) iBte = Ok is.
Proof.
  intros Ei Es Hib. destruct (irr_get_range _ _ Ei) as [Rk Er]. destruct (nbOf_get k Rk) as [Enk _].
  destruct (state_numbering nb Hnb) as [N1 _]. destruct (N1 k ib) as (is' & Es' & Rs & Ec); [exists (nbOf k); split; assumption|].
  rewrite Es in Es'. injection Es' as <-. split; [exact Ec|].
  destruct (state_numbering nbIrr nbIrr_nonneg) as [M1 _]. destruct (M1 i ib) as (iBte & Eb & Rb & Ecb).
  { exists (nbOf k). split; [apply nbIrr_get; assumption|assumption]. }
  exists iBte. split; [assumption|]. split; [assumption|]. split.
  - unfold stateToBte. rewrite Ec. cbn [bind fst snd]. rewrite (asIrr_get _ _ Er). cbn [bind].
    unfold bloch2Comb in Eb. exact Eb.
  - unfold bteToState. unfold comb2Bloch in Ecb. destruct (zget (auxBloch2Comb nbIrr) iBte) as [[? ?]|]; [|discriminate].
    injection Ecb as -> ->. rewrite (asRed_get _ _ Ei). cbn [bind]. exact Es.
Qed.

Lemma bte_numbering : exists offs aux numIrrStates, buildSymmetries nb irr red2irr = Ok (offs, aux) /\
  numIrrStates = zsum (map nbOf irr) /\
  (forall iBte, 0 <= iBte < numIrrStates -> exists is ik ib, bteToState nb irr aux iBte = Ok is /\
     comb2Bloch nb is = Ok (ik, ib) /\ isState nb ik ib /\ In ik irr /\ stateToBte nb irr red2irr offs is = Ok iBte) /\
  (forall is ik ib, 0 <= is < numStates nb -> comb2Bloch nb is = Ok (ik, ib) -> In ik irr -> exists iBte, 0 <= iBte < numIrrStates /\
     stateToBte nb irr red2irr offs is = Ok iBte /\ bteToState nb irr aux iBte = Ok is) /\
  (forall is ik ib e is', 0 <= is < numStates nb -> comb2Bloch nb is = Ok (ik, ib) -> representative irr red2irr ik e -> isState nb e ib ->
     bloch2Comb nb e ib = Ok is' -> stateToBte nb irr red2irr offs is = stateToBte nb irr red2irr offs is' /\
     exists iBte, stateToBte nb irr red2irr offs is = Ok iBte /\ 0 <= iBte < numIrrStates).
Proof.
  exists (cumulativeKbOffset nbIrr), (auxBloch2Comb nbIrr), (numStates nbIrr). split; [exact buildSymmetries_spec|]. split; [reflexivity|].
  split; [|split].
  - intros iBte H. destruct (state_numbering nbIrr nbIrr_nonneg) as [_ M2]. destruct (M2 iBte H) as (i & ib & Ec & (n & En & Hib) & Eb).
    destruct (zget_Some _ _ _ En) as [Ri _]. rewrite zlen_nbIrr in Ri. destruct (zget_inrange irr i Ri) as (k & Ek).
    rewrite (nbIrr_get _ _ Ek) in En. injection En as <-. destruct (irr_get_range _ _ Ek) as [Rk Er]. destruct (nbOf_get k Rk) as [Enk _].
    assert (Ss : isState nb k ib) by (exists (nbOf k); split; assumption).
    destruct (state_numbering nb Hnb) as [N1 _]. destruct (N1 k ib Ss) as (is & Es & _ & _).
    destruct (bte_state i k ib is Ek Es Hib) as (Ecs & iBte' & Eb' & _ & S1 & S2). rewrite Eb in Eb'. injection Eb' as <-.
    exists is, k, ib. split; [assumption|]. split; [assumption|]. split; [assumption|]. split; [apply (zget_Some _ _ _ Ek)|assumption].
  - intros is k ib Hs Ec Ik. apply In_nth_error in Ik. destruct Ik as (i & Ei).
    assert (Ek : zget irr (Z.of_nat i) = Some k) by (unfold zget; destruct (Z.ltb_spec (Z.of_nat i) 0); [lia|]; rewrite Nat2Z.id; exact Ei).
    destruct (state_numbering nb Hnb) as [_ N2]. destruct (N2 is Hs) as (k' & ib' & Ec' & (n & En & Hib) & Es).
    rewrite Ec in Ec'. injection Ec' as <- <-.
    assert (nbOf k = n) by (unfold bandsAt; rewrite En; reflexivity). subst n.
    destruct (bte_state _ k ib is Ek Es Hib) as (_ & iBte & _ & Rb & S1 & S2).
    exists iBte. split; [assumption|]. split; assumption.
  - intros is k ib e is' Hs Ec (i & Er & Ee) (n & En & Hib) Es'.
    assert (nbOf e = n) by (unfold bandsAt; rewrite En; reflexivity). subst n.
    destruct (bte_state i e ib is' Ee Es' Hib) as (Ec' & iBte & Eb & Rb & S1 & S2).
    assert (stateToBte nb irr red2irr (cumulativeKbOffset nbIrr) is = Ok iBte).
    { unfold stateToBte. rewrite Ec. cbn [bind fst snd]. rewrite (asIrr_get _ _ Er). cbn [bind]. unfold bloch2Comb in Eb. exact Eb. }
    split; [congruence|]. exists iBte. split; assumption.
Qed.

(** iterator over irreducible states *)
Lemma zrange_shift a b n : map (fun x => b + x) (zrange a n) = zrange (b + a) n.
Proof. unfold zrange. rewrite map_map. apply map_ext. intro. lia. Qed.

Definition stateOf (k ib : Z) : Z := pre (fun n => n) nb k + ib.
Lemma irrStateIterator_eq : irrStateIterator nb irr = Ok (concat (map (fun k => map (stateOf k) (zrange 0 (nbOf k))) irr)).
Proof.
  unfold irrStateIterator.
  rewrite (mapM_ok _ (fun k => map (stateOf k) (zrange 0 (nbOf k)))); [reflexivity|].
  intros k I. apply In_nth_error in I. destruct I as (i & Ei).
  assert (Ek : zget irr (Z.of_nat i) = Some k) by (unfold zget; destruct (Z.ltb_spec (Z.of_nat i) 0); [lia|]; rewrite Nat2Z.id; exact Ei).
  destruct (irr_get_range _ _ Ek) as [Rk _]. destruct (nbOf_get k Rk) as [Enk _]. rewrite Enk.
  apply mapM_ok. intros ib _. apply (bloch2Comb_get _ _ _ _ Enk).
Qed.

Lemma irr_state_iterator : exists offs aux, buildSymmetries nb irr red2irr = Ok (offs, aux) /\
  exists iter, irrStateIterator nb irr = Ok iter /\
  mapM (stateToBte nb irr red2irr offs) iter = Ok (zrange 0 (zsum (map nbOf irr))) /\
  (forall is, In is iter <-> exists ik ib, isState nb ik ib /\ In ik irr /\ bloch2Comb nb ik ib = Ok is) /\
  forall size, fits (zlen iter) size -> concat (map (fun r => parallelSlice iter r size) (zrange 0 size)) = iter.
Proof.
  exists (cumulativeKbOffset nbIrr), (auxBloch2Comb nbIrr). split; [exact buildSymmetries_spec|].
  eexists. split; [exact irrStateIterator_eq|].
  assert (InE : forall k, In k irr -> exists i, zget irr i = Some k).
  { intros k I. apply In_nth_error in I. destruct I as (i & Ei). exists (Z.of_nat i).
    unfold zget; destruct (Z.ltb_spec (Z.of_nat i) 0); [lia|]; rewrite Nat2Z.id; exact Ei. }
  split; [|split].
  - assert (K : forall l r, irr = l ++ r -> mapM (stateToBte nb irr red2irr (cumulativeKbOffset nbIrr))
        (concat (map (fun k => map (stateOf k) (zrange 0 (nbOf k))) l)) = Ok (zrange 0 (zsum (map nbOf l)))).
    { assert (MA : forall {A B} (f : A -> res B) l1 l2 r1 r2, mapM f l1 = Ok r1 -> mapM f l2 = Ok r2 -> mapM f (l1 ++ l2) = Ok (r1 ++ r2)).
      { clear. induction l1 as [|x l1 IH]; intros l2 r1 r2 E1 E2; cbn in *; [injection E1 as <-; exact E2|].
        destruct (f x); try discriminate. cbn [bind] in *. destruct (mapM f l1) eqn:EE; try discriminate. cbn [bind] in *. injection E1 as <-.
        rewrite (IH l2 _ r2 eq_refl E2). reflexivity. }
      induction l as [|k l IH] using rev_ind; intros r E; [reflexivity|].
      rewrite <- app_assoc in E. cbn [app] in E.
      assert (Ek : zget irr (zlen l) = Some k) by (rewrite E, zget_app2, Z.sub_diag by lia; reflexivity).
      destruct (irr_get_range _ _ Ek) as [Rk Er]. destruct (nbOf_get k Rk) as [Enk Hn].
      rewrite map_app, concat_app. cbn [map concat]. rewrite app_nil_r, map_app, zsum_app. cbn [map]. rewrite zsum_cons. change (zsum []) with 0. rewrite Z.add_0_r.
      rewrite <- zrange_app; [|apply zsum_nonneg|assumption].
      2:{ apply Forall_forall. intros x I. apply in_map_iff in I. destruct I as (k' & <- & I').
          destruct (InE k') as (i & Ei); [rewrite E; apply in_or_app; left; assumption|].
          destruct (irr_get_range _ _ Ei) as [Rk' _]. apply (nbOf_get k' Rk'). }
      apply MA; [apply (IH _ E)|]. rewrite Z.add_0_l.
      replace (zrange (zsum (map nbOf l)) (nbOf k)) with (map (fun x => zsum (map nbOf l) + x) (zrange 0 (nbOf k))) by (rewrite zrange_shift, Z.add_0_r; reflexivity).
      assert (MM : forall (h : Z -> Z) f (g : Z -> Z) l, (forall x, In x l -> f (h x) = Ok (g x)) -> mapM f (map h l) = Ok (map g l)).
      { clear. intros h f g l. induction l as [|x l IH]; intro H; [reflexivity|]. cbn [map mapM].
        rewrite (H x (or_introl eq_refl)). cbn [bind]. rewrite IH by (intros; apply H; right; assumption). reflexivity. }
      apply MM. intros ib Iib. apply in_zrange in Iib.
      destruct (bte_state (zlen l) k ib (stateOf k ib) Ek (bloch2Comb_get _ _ _ _ Enk) ltac:(lia)) as (_ & iBte & Eb & _ & S1 & _).
      rewrite S1. rewrite (bloch2Comb_get _ _ _ _ (nbIrr_get _ _ Ek)) in Eb. injection Eb as <-. f_equal. f_equal.
      unfold pre, nbIrr. rewrite E. rewrite map_id, map_app, firstn_app.
      rewrite firstn_all2 by (rewrite map_length; unfold zlen; lia).
      replace (Z.to_nat (zlen l) - length (map nbOf l))%nat with 0%nat by (rewrite map_length; unfold zlen; lia).
      cbn [firstn]. rewrite app_nil_r. reflexivity. }
    apply (K irr []). rewrite app_nil_r. reflexivity.
  - intro is. rewrite in_concat. split.
    + intros (l & Il & Is). apply in_map_iff in Il. destruct Il as (k & <- & Ik). apply in_map_iff in Is. destruct Is as (ib & <- & Iib).
      apply in_zrange in Iib. destruct (InE k Ik) as (i & Ei). destruct (irr_get_range _ _ Ei) as [Rk _]. destruct (nbOf_get k Rk) as [Enk _].
      exists k, ib. split; [exists (nbOf k); split; [assumption|lia]|]. split; [assumption|]. apply (bloch2Comb_get _ _ _ _ Enk).
    + intros (k & ib & (n & En & Hib) & Ik & Es). rewrite (bloch2Comb_get _ _ _ _ En) in Es. injection Es as <-.
      assert (nbOf k = n) by (unfold bandsAt; rewrite En; reflexivity). subst n.
      eexists. split; [apply in_map_iff; exists k; split; [reflexivity|assumption]|]. apply in_map_iff. exists ib. split; [reflexivity|]. apply in_zrange. lia.
  - intros size F. apply parallelSlice_join. assumption.
Qed.
End B.
