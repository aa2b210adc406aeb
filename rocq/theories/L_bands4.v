From Coq Require Import QArith Permutation.
From Verif Require Import Base BaseLemmas M_utilities M_mpi M_reduce M_points M_irreducible M_bands S_mpi S_points S_irreducible S_bands
  L_utilities L_mpi L_fill L_reduce L_irreducible L_irreducible2 L_bands L_bands2 L_bands3.
Open Scope Z_scope.

Section F.
Context {V : Type}.
Variable zero : V.
Variable add : V -> V -> V.
Hypothesis add_0_l : forall v, add zero v = v.
Hypothesis add_0_r : forall v, add v zero = v.
Variables nb lo : list Z.
Hypothesis Hnb : Forall (fun n => 0 <= n) nb.
Hypothesis Hlo : zlen lo = zlen nb.
Variable iks : list (list Z).
Hypothesis Hne : iks <> [].
Hypothesis HP : Permutation (concat iks) (zrange 0 (zlen nb)).

Definition nOf (ik : Z) := match zget nb ik with Some n => n | None => 0 end.
Definition lOf (ik : Z) := match zget lo ik with Some n => n | None => 0 end.
Lemma get_both ik : 0 <= ik < zlen nb -> zget nb ik = Some (nOf ik) /\ zget lo ik = Some (lOf ik) /\ 0 <= nOf ik.
Proof.
  intro H. unfold nOf, lOf. destruct (zget_inrange nb ik H) as (n & En). destruct (zget_inrange lo ik ltac:(lia)) as (l & El).
  rewrite En, El. split; [reflexivity|]. split; [reflexivity|]. destruct (zget_Some _ _ _ En) as [_ I]. rewrite Forall_forall in Hnb. apply Hnb, I.
Qed.
Lemma join_slots f (g : Z -> list Z) : (forall n, 0 <= n -> 0 <= f n) ->
  (forall ik, 0 <= ik < zlen nb -> g ik = zrange (pre f nb ik) (f (nOf ik))) ->
  concat (map g (zrange 0 (zlen nb))) = zrange 0 (total f nb).
Proof.
  intros Hf Hg. rewrite <- (ranges_join f nb (nonneg_map f nb Hnb Hf)). f_equal. apply map_ext_in. intros ik I. apply in_zrange in I.
  rewrite Hg by lia. destruct (get_both ik ltac:(lia)) as (En & _). rewrite En. reflexivity.
Qed.

Lemma fill_energies (en : Z -> list V) :
  (forall ik n l, zget nb ik = Some n -> zget lo ik = Some l -> 0 <= l /\ l + n <= zlen (en ik)) ->
  exists outs, fillPoints add zero (numStates nb) (energyWrites nb lo en) iks = Ok outs /\ zlen outs = zlen iks /\
    Forall (fun o => zlen o = numStates nb /\ forall ik ib l is, isState nb ik ib -> zget lo ik = Some l -> bloch2Comb nb ik ib = Ok is ->
      zget o is = zget (en ik) (l + ib)) outs.
Proof.
  intro Hen. set (d := fun l : list V => hd zero l).
  set (W := fun ik => map (fun ib => (pre (fun n => n) nb ik + ib, match zget (en ik) (lOf ik + ib) with Some e => e | None => zero end)) (zrange 0 (nOf ik))).
  destruct (fillPoints_spec zero add add_0_l add_0_r (zlen nb) (numStates nb) (energyWrites nb lo en) W iks) as (outs & E & L & FA).
  - apply zsum_nonneg. assumption.
  - assumption.
  - assumption.
  - intros ik Hik. destruct (get_both ik Hik) as (En & El & Hn). unfold energyWrites. rewrite En, El. unfold W. apply mapM_ok.
    intros ib Iib. apply in_zrange in Iib. rewrite (bloch2Comb_get _ _ _ _ En). cbn [bind].
    destruct (Hen ik _ _ En El) as [H1 H2]. destruct (zget_inrange (en ik) (lOf ik + ib) ltac:(lia)) as (e & Ee). rewrite Ee. reflexivity.
  - rewrite (join_slots (fun n => n)).
    + unfold total, numStates. rewrite map_id. reflexivity.
    + auto.
    + intros ik Hik. unfold W. rewrite map_map. cbn [fst]. rewrite zrange_shift, Z.add_0_r. reflexivity.
  - exists outs. split; [assumption|]. split; [assumption|]. eapply Forall_impl; [|exact FA]. cbn beta. intros o [Ho Hv]. split; [assumption|].
    intros ik ib l is (n & En & Hib) El Es. rewrite (bloch2Comb_get _ _ _ _ En) in Es. injection Es as <-.
    destruct (zget_Some _ _ _ En) as [Rk _]. destruct (get_both ik Rk) as (En' & El' & _). rewrite En in En'. rewrite El in El'.
    injection En' as E1. injection El' as E2. destruct (Hen ik _ _ En El) as [H1 H2].
    destruct (zget_inrange (en ik) (l + ib) ltac:(lia)) as (e & Ee). rewrite Ee. apply (Hv ik); [assumption|].
    unfold W. apply in_map_iff. exists ib. rewrite <- E1, <- E2, Ee. split; [reflexivity|]. apply in_zrange. lia.
Qed.

Lemma map_triple {A B C D} (g : A * B * C -> D) la lb lc :
  map g (list_prod (list_prod la lb) lc) = concat (map (fun p => map (fun c => g (p, c)) lc) (list_prod la lb)).
Proof. rewrite <- (map_list_prod (fun p c => g (p, c))). apply map_ext. intros [p c]. reflexivity. Qed.

Lemma fill_velocities (vel : Z -> Z -> Z -> Z -> V) :
  exists outs, fillPoints add zero (numVelStates nb) (velocityWrites nb lo vel) iks = Ok outs /\ zlen outs = zlen iks /\
    Forall (fun o => zlen o = numVelStates nb /\ forall ik ib1 ib2 i l s, isState nb ik ib1 -> isState nb ik ib2 -> 0 <= i < 3 ->
      zget lo ik = Some l -> velBloch2Comb nb ik ib1 ib2 i = Ok s -> zget o s = Some (vel ik (l + ib1) (l + ib2) i)) outs.
Proof.
  set (f := fun n => 3 * n * n).
  assert (Hf : forall n, 0 <= n -> 0 <= f n) by (intros; unfold f; nia).
  set (sl := fun ik (t : Z * Z * Z) => let '(b1, b2, i) := t in pre f nb ik + b1 * nOf ik * 3 + b2 * 3 + i).
  set (W := fun ik => map (fun t => (sl ik t, let '(b1, b2, i) := t in vel ik (lOf ik + b1) (lOf ik + b2) i))
                        (list_prod (list_prod (zrange 0 (nOf ik)) (zrange 0 (nOf ik))) (zrange 0 3))).
  assert (K : forall ik ib1 ib2 i n, zget nb ik = Some n -> velBloch2Comb nb ik ib1 ib2 i = Ok (pre f nb ik + ib1 * n * 3 + ib2 * 3 + i)).
  { intros ik ib1 ib2 i n E. unfold velBloch2Comb, cumulativeKbbOffset. rewrite (cumulative_get _ _ _ _ _ E), E. reflexivity. }
  destruct (fillPoints_spec zero add add_0_l add_0_r (zlen nb) (numVelStates nb) (velocityWrites nb lo vel) W iks) as (outs & E & L & FA).
  - apply zsum_nonneg. apply Forall_map. apply (nonneg_map f nb Hnb Hf).
  - assumption.
  - assumption.
  - intros ik Hik. destruct (get_both ik Hik) as (En & El & Hn). unfold velocityWrites. rewrite En, El. unfold W. apply mapM_ok.
    intros [[b1 b2] i] It. rewrite (K _ _ _ _ _ En). reflexivity.
  - rewrite (join_slots f); [reflexivity|exact Hf|].
    intros ik Hik. destruct (get_both ik Hik) as (En & El & Hn). unfold W. rewrite map_map. cbn [fst]. rewrite map_triple.
    transitivity (concat (map (fun q => zrange (pre f nb ik + q * 3) 3) (map (fun p => fst p * nOf ik + snd p) (list_prod (zrange 0 (nOf ik)) (zrange 0 (nOf ik)))))).
    { rewrite map_map. f_equal. apply map_ext. intros [b1 b2]. cbn [fst snd]. unfold sl.
      rewrite <- (Z.add_0_r (pre f nb ik + (b1 * nOf ik + b2) * 3)), <- zrange_shift. apply map_ext. intro. lia. }
    rewrite (map_list_prod (fun a b => a * nOf ik + b)).
    replace (concat (map (fun a => map (fun b => a * nOf ik + b) (zrange 0 (nOf ik))) (zrange 0 (nOf ik)))) with (zrange 0 (nOf ik * nOf ik)).
    2:{ rewrite <- rowmajor_range by assumption. f_equal. apply map_ext. intro a. rewrite zrange_shift. f_equal. lia. }
    rewrite rowmajor_range by nia. f_equal. unfold f. lia.
  - exists outs. split; [assumption|]. split; [assumption|]. eapply Forall_impl; [|exact FA]. cbn beta. intros o [Ho Hv]. split; [assumption|].
    intros ik b1 b2 i l s (n & En & H1) (n2 & En2 & H2) Hi El Es. rewrite En in En2. injection En2 as <-.
    rewrite (K _ _ _ _ _ En) in Es. injection Es as <-.
    destruct (zget_Some _ _ _ En) as [Rk _]. destruct (get_both ik Rk) as (En' & El' & _). rewrite En in En'. rewrite El in El'.
    injection En' as E1. injection El' as E2. apply (Hv ik); [assumption|]. unfold W. apply in_map_iff. exists (b1, b2, i). unfold sl. rewrite <- E1, <- E2.
    split; [reflexivity|]. apply in_prod; [apply in_prod|]; apply in_zrange; lia.
Qed.

Lemma fill_eigenvectors nfb (eig : Z -> Z -> Z -> V) : 0 <= nfb ->
  exists outs, fillPoints add zero (numEigStates nfb nb) (eigenvectorWrites nfb nb lo eig) iks = Ok outs /\ zlen outs = zlen iks /\
    Forall (fun o => zlen o = numEigStates nfb nb /\ forall ik ib1 ib2 l s, 0 <= ib1 < nfb -> isState nb ik ib2 ->
      zget lo ik = Some l -> eigBloch2Comb nfb nb ik ib1 ib2 = Ok s -> zget o s = Some (eig ik ib1 (l + ib2))) outs.
Proof.
  intro Hb. set (f := fun n => n * nfb).
  assert (Hf : forall n, 0 <= n -> 0 <= f n) by (intros; unfold f; nia).
  assert (P : forall ik, pre (fun n => n) nb ik * nfb = pre f nb ik).
  { intro ik. unfold pre. induction (firstn (Z.to_nat ik) nb) as [|x l IH]; [reflexivity|]. cbn [map]. rewrite !zsum_cons. unfold f at 1. lia. }
  set (W := fun ik => map (fun p => (pre f nb ik + fst p * nOf ik + snd p, eig ik (fst p) (lOf ik + snd p)))
                        (list_prod (zrange 0 nfb) (zrange 0 (nOf ik)))).
  assert (K : forall ik ib1 ib2 n, zget nb ik = Some n -> eigBloch2Comb nfb nb ik ib1 ib2 = Ok (pre f nb ik + ib1 * n + ib2)).
  { intros ik ib1 ib2 n E. unfold eigBloch2Comb, cumulativeKbOffset. rewrite (cumulative_get _ _ _ _ _ E), E, Z.add_0_l, P. reflexivity. }
  destruct (fillPoints_spec zero add add_0_l add_0_r (zlen nb) (numEigStates nfb nb) (eigenvectorWrites nfb nb lo eig) W iks) as (outs & E & L & FA).
  - apply zsum_nonneg. apply Forall_map. apply (nonneg_map f nb Hnb Hf).
  - assumption.
  - assumption.
  - intros ik Hik. destruct (get_both ik Hik) as (En & El & Hn). unfold eigenvectorWrites. rewrite En, El. unfold W. apply mapM_ok.
    intros [b1 b2] It. rewrite (K _ _ _ _ En). reflexivity.
  - rewrite (join_slots f); [reflexivity|exact Hf|].
    intros ik Hik. destruct (get_both ik Hik) as (En & El & Hn). unfold W. rewrite map_map. cbn [fst].
    rewrite (map_list_prod (fun a b => pre f nb ik + a * nOf ik + b)).
    transitivity (zrange (pre f nb ik) (nfb * nOf ik)); [|f_equal; unfold f; lia].
    rewrite <- rowmajor_range by assumption. f_equal. apply map_ext. intro a. rewrite zrange_shift. f_equal. lia.
  - exists outs. split; [assumption|]. split; [assumption|]. eapply Forall_impl; [|exact FA]. cbn beta. intros o [Ho Hv]. split; [assumption|].
    intros ik b1 b2 l s H1 (n & En & H2) El Es.
    rewrite (K _ _ _ _ En) in Es. injection Es as <-.
    destruct (zget_Some _ _ _ En) as [Rk _]. destruct (get_both ik Rk) as (En' & El' & _). rewrite En in En'. rewrite El in El'.
    injection En' as E1. injection El' as E2. apply (Hv ik); [assumption|]. unfold W. apply in_map_iff. exists (b1, b2). cbn [fst snd]. rewrite <- E1, <- E2.
    split; [reflexivity|]. apply in_prod; apply in_zrange; lia.
Qed.
End F.

(** * full band structure numbering *)
Lemma full_index nb nk : 0 < nb ->
  (forall ik ib, 0 <= ik < nk -> 0 <= ib < nb -> 0 <= fullGetIndex nb ik ib < nk * nb /\ fullFromIndex nb (fullGetIndex nb ik ib) = Ok (ik, ib)) /\
  (forall is, 0 <= is < nk * nb -> exists ik ib, fullFromIndex nb is = Ok (ik, ib) /\ 0 <= ik < nk /\ 0 <= ib < nb /\ fullGetIndex nb ik ib = is).
Proof.
  intro H. unfold fullGetIndex, fullFromIndex. destruct (Z.eqb_spec nb 0); [lia|]. split.
  - intros ik ib Hk Hb. split; [nia|]. rewrite Z.quot_div_nonneg by nia.
    replace ((ik * nb + ib) / nb) with ik by (rewrite Z.add_comm, Z.div_add by lia; rewrite Z.div_small by lia; lia).
    do 2 f_equal. lia.
  - intros is Hs. exists (Z.quot is nb), (is - Z.quot is nb * nb). split; [reflexivity|].
    rewrite Z.quot_div_nonneg by lia. pose proof (Z.div_mod is nb ltac:(lia)). pose proof (Z.mod_pos_bound is nb ltac:(lia)).
    assert (0 <= is / nb) by (apply Z.div_pos; lia). assert (is / nb < nk) by (apply Z.div_lt_upper_bound; lia).
    split; [lia|]. split; [lia|]. lia.
Qed.

Lemma full_bte numBands irr red2irr nk : 0 < numBands -> indexMaps irr red2irr nk ->
  (forall iBte, 0 <= iBte < zlen irr * numBands -> exists is, fullBteToState numBands irr iBte = Ok is /\ 0 <= is < nk * numBands /\
     fullStateToBte numBands irr red2irr is = Ok iBte) /\
  (forall is ik ib, 0 <= is < nk * numBands -> fullFromIndex numBands is = Ok (ik, ib) -> In ik irr -> exists iBte,
     fullStateToBte numBands irr red2irr is = Ok iBte /\ 0 <= iBte < zlen irr * numBands /\ fullBteToState numBands irr iBte = Ok is) /\
  (forall is ik ib e, 0 <= is < nk * numBands -> fullFromIndex numBands is = Ok (ik, ib) -> representative irr red2irr ik e ->
     fullStateToBte numBands irr red2irr is = fullStateToBte numBands irr red2irr (fullGetIndex numBands e ib)).
Proof.
  intros Hb (M0 & M1 & M2).
  assert (AI : forall k i, zget red2irr k = Some i -> asIrreducibleIndex irr red2irr k = Ok i).
  { intros k i E. unfold asIrreducibleIndex. destruct (Z.ltb_spec 0 (zlen irr)); [|lia]. rewrite E. reflexivity. }
  assert (AR : forall k i, zget irr i = Some k -> asReducibleIndex irr i = Ok k).
  { intros k i E. unfold asReducibleIndex. destruct (Z.ltb_spec 0 (zlen irr)); [|lia]. rewrite E. reflexivity. }
  destruct (full_index numBands nk Hb) as [N1 N2]. destruct (full_index numBands (zlen irr) Hb) as [B1 B2].
  split; [|split].
  - intros iBte H. destruct (B2 iBte H) as (i & ib & Ef & Hi & Hib & Eg). destruct (M1 i Hi) as (k & Ek & Hk & Er).
    exists (fullGetIndex numBands k ib). unfold fullBteToState. rewrite Ef. cbn [bind fst snd]. rewrite (AR _ _ Ek). cbn [bind].
    destruct (N1 k ib Hk Hib) as [R F]. split; [reflexivity|]. split; [exact R|]. unfold fullStateToBte. rewrite F. cbn [bind fst snd].
    rewrite (AI _ _ Er). cbn [bind]. rewrite Eg. reflexivity.
  - intros is k ib H Ef Ik. apply In_nth_error in Ik. destruct Ik as (p & Ep).
    assert (Ek : zget irr (Z.of_nat p) = Some k) by (unfold zget; destruct (Z.ltb_spec (Z.of_nat p) 0); [lia|]; rewrite Nat2Z.id; exact Ep).
    destruct (zget_Some _ _ _ Ek) as [Rp _]. destruct (M1 _ Rp) as (k' & Ek' & Hk & Er). rewrite Ek in Ek'. injection Ek' as <-.
    destruct (N2 is H) as (k2 & ib2 & Ef2 & Hk2 & Hib & Eg). rewrite Ef in Ef2. injection Ef2 as <- <-.
    exists (fullGetIndex numBands (Z.of_nat p) ib). unfold fullStateToBte. rewrite Ef. cbn [bind fst snd]. rewrite (AI _ _ Er). cbn [bind].
    destruct (B1 (Z.of_nat p) ib Rp Hib) as [R F]. split; [reflexivity|]. split; [exact R|]. unfold fullBteToState. rewrite F. cbn [bind fst snd].
    rewrite (AR _ _ Ek). cbn [bind]. rewrite Eg. reflexivity.
  - intros is k ib e H Ef (i & Er & Ee). destruct (zget_Some _ _ _ Ee) as [Ri _]. destruct (M1 i Ri) as (e' & Ee' & He & Ere).
    rewrite Ee in Ee'. injection Ee' as <-. destruct (N2 is H) as (k2 & ib2 & Ef2 & Hk2 & Hib & Eg). rewrite Ef in Ef2. injection Ef2 as <- <-.
    destruct (N1 e ib He Hib) as [_ Fe]. unfold fullStateToBte. rewrite Ef, Fe. cbn [bind fst snd]. rewrite (AI _ _ Er), (AI _ _ Ere). reflexivity.
Qed.

(** the tables of setIrreduciblePoints qualify *)
Lemma maps_qualify {S} (rot : S -> Z -> res Z) syms n : 0 < n -> acts rot syms n ->
  (exists E, zget syms 0 = Some E /\ forall j, 0 <= j < n -> rot E j = Ok j) ->
  exists equiv stars ri, setIrreduciblePoints rot syms n [] = Ok (equiv, stars, ri) /\
  forall size, fits n size -> exists outs, redToIrr equiv size = Ok outs /\ zlen outs = size /\
    Forall (fun red2irr => indexMaps (irrList equiv) red2irr n /\
      forall ik e, representative (irrList equiv) red2irr ik e -> 0 <= ik < n -> isRepresentative rot syms n ik e) outs.
Proof.
  intros Hn A Hid. destruct (maps_spec rot syms n ltac:(lia) A Hid) as (equiv & stars & ri & E & K).
  exists equiv, stars, ri. split; [exact E|]. intros size F. destruct (K size F) as (outs & E1 & E2 & E3).
  exists outs. split; [exact E1|]. split; [exact E2|].
  assert (Pos : 0 < zlen (irrList equiv)).
  { destruct (Z_lt_ge_dec 0 (zlen (irrList equiv))) as [L|G]; [assumption|exfalso].
    pose proof F as (_ & Fs & _). destruct outs as [|o outs]; [cbn in E2; lia|].
    pose proof (Forall_inv E3) as [_ K2]. destruct (K2 0 ltac:(lia)) as (i & e & _ & Hi & _). lia. }
  eapply Forall_impl; [|exact E3]. cbn beta. intros o [K1 K2].
  unfold asReducibleIndex, asIrreducibleIndex in *. destruct (Z.ltb_spec 0 (zlen (irrList equiv))); [|lia].
  assert (Kx : forall ik, 0 <= ik < n -> exists i e, zget o ik = Some i /\ 0 <= i < zlen (irrList equiv) /\ zget (irrList equiv) i = Some e /\ isRepresentative rot syms n ik e).
  { intros ik Hik. destruct (K2 ik Hik) as (i & e & Ei & Hi & Ee & R).
    destruct (zget o ik) eqn:Eo; [|discriminate]. injection Ei as ->. destruct (zget (irrList equiv) i) eqn:Eq; [|discriminate]. injection Ee as ->.
    exists i, e. split; [reflexivity|]. split; [assumption|]. split; assumption. }
  split.
  - split; [assumption|]. split.
    + intros i Hi. destruct (K1 i Hi) as (ik & Er & Ei). destruct (zget (irrList equiv) i) eqn:Eq; [|discriminate]. injection Er as ->.
      destruct (zget o ik) eqn:Eo; [|discriminate]. injection Ei as ->. exists ik. split; [reflexivity|]. split; [|exact Eo].
      destruct (setIrr_spec rot syms n A Hid ltac:(lia) []) as (eq2 & st2 & ri2 & EE & Hl & _). rewrite E in EE. injection EE as <- <- <-.
      destruct (zget_Some _ _ _ Eq) as [_ I]. apply irrList_In in I. destruct (zget_Some _ _ _ I) as [R _]. lia.
    + intros ik Hik. destruct (Kx ik Hik) as (i & e & Ei & Hi & _). exists i. split; assumption.
  - intros ik e (i & Ei & Ee) Hik. destruct (Kx ik Hik) as (i' & e' & Ei' & _ & Ee' & R). rewrite Ei in Ei'. injection Ei' as <-.
    rewrite Ee in Ee'. injection Ee' as <-. assumption.
Qed.
