From Coq Require Import Permutation.
From Verif Require Import Base BaseLemmas M_utilities M_mpi M_reduce S_mpi L_utilities L_mpi L_fill.
Open Scope Z_scope.

Lemma foldM_app' {A S} (f : S -> A -> res S) l1 l2 s : foldM f (l1 ++ l2) s = bind (foldM f l1 s) (foldM f l2).
Proof. revert s. induction l1; intro s; [reflexivity|]. cbn. destruct (f s a); [apply IHl1|reflexivity|reflexivity]. Qed.

Lemma NoDup_app_inv {A} (l1 l2 : list A) : NoDup (l1 ++ l2) -> NoDup l1 /\ NoDup l2 /\ forall x, In x l1 -> ~ In x l2.
Proof.
  induction l1 as [|a l1 IH]; cbn; intro H; [split; [constructor|split; [assumption|intros x []]]|].
  inversion H; subst. destruct (IH H3) as (I1 & I2 & I3). split; [|split].
  - constructor; [|assumption]. intro. apply H2, in_or_app; left; assumption.
  - assumption.
  - intros x [->|Ix]; [intro; apply H2, in_or_app; right; assumption|apply I3; assumption].
Qed.

Lemma put_ok {V} (buf : list V) i v : 0 <= i < zlen buf -> put buf i v = Ok (zupd buf i v).
Proof. intro H. unfold put. destruct (Z.leb_spec 0 i); [|lia]. destruct (Z.ltb_spec i (zlen buf)); [reflexivity|lia]. Qed.

Section R.
Context {V : Type}.
Variable zero : V.
Variable add : V -> V -> V.
Hypothesis add_0_l : forall v, add zero v = v.
Hypothesis add_0_r : forall v, add v zero = v.

Lemma scatter_spec n (w : list (Z * V)) : 0 <= n -> NoDup (map fst w) -> Forall (fun p => 0 <= fst p < n) w ->
  exists buf, scatter zero n w = Ok buf /\ zlen buf = n /\
    (forall i v, In (i, v) w -> zget buf i = Some v) /\
    (forall i, 0 <= i < n -> ~ In i (map fst w) -> zget buf i = Some zero).
Proof.
  intros Hn. induction w as [|[i v] w IH] using rev_ind; intros ND HF.
  - exists (repeat zero (Z.to_nat n)). split; [reflexivity|]. split; [apply zlen_repeat; assumption|].
    split; [intros i v []|]. intros i Hi _. apply zget_repeat; assumption.
  - rewrite map_app in ND. cbn in ND. apply Forall_app in HF. destruct HF as [HF1 HF2]. inversion HF2; subst. cbn in *.
    assert (ND1 : NoDup (map fst w)) by (apply NoDup_app_inv in ND; apply ND).
    assert (NI : ~ In i (map fst w)).
    { rewrite <- (app_nil_r (map fst w)). apply NoDup_remove_2. assumption. }
    destruct (IH ND1 HF1) as (buf & E & Hl & H1' & H2').
    exists (zupd buf i v). unfold scatter in *. rewrite foldM_app', E. cbn [bind foldM fst snd]. rewrite put_ok by lia.
    split; [reflexivity|]. split; [rewrite zlen_zupd; assumption|]. split.
    + intros j u I. apply in_app_or in I. destruct I as [I|[I|[]]].
      * assert (j <> i) by (intros ->; apply NI; apply in_map_iff; exists (i, u); split; [reflexivity|assumption]).
        rewrite zget_zupd_ne by congruence. apply H1'; assumption.
      * injection I as <- <-. apply zget_zupd_eq. lia.
    + intros j Hj NJ. rewrite map_app in NJ. cbn in NJ.
      assert (j <> i) by (intros ->; apply NJ, in_or_app; right; left; reflexivity).
      rewrite zget_zupd_ne by congruence. apply H2'; [assumption|]. intro. apply NJ, in_or_app; left; assumption.
Qed.

Lemma addBufG_zget (a b : list V) i x y : zget a i = Some x -> zget b i = Some y ->
  zget (addBufG add a b) i = Some (add x y).
Proof.
  intros Ha Hb. unfold addBufG. rewrite zget_map. unfold zget in *. destruct (i <? 0); [discriminate|].
  rewrite (nth_error_combine _ _ _ _ _ Ha Hb). reflexivity.
Qed.
Lemma addBufG_len (a b : list V) : zlen a = zlen b -> zlen (addBufG add a b) = zlen b.
Proof. unfold addBufG, zlen. rewrite map_length, combine_length. lia. Qed.

Lemma fold_addBufG_len n (bufs : list (list V)) : 0 <= n -> Forall (fun b => zlen b = n) bufs ->
  zlen (fold_right (addBufG add) (repeat zero (Z.to_nat n)) bufs) = n.
Proof.
  intros Hn. induction 1; cbn [fold_right]; [apply zlen_repeat; assumption|]. rewrite addBufG_len; lia.
Qed.

(** sum of buffers of which at most one is not zero at i *)
Lemma fold_addBufG_zeros n (bufs : list (list V)) i : 0 <= i < n -> Forall (fun b => zget b i = Some zero) bufs ->
  zget (fold_right (addBufG add) (repeat zero (Z.to_nat n)) bufs) i = Some zero.
Proof.
  intros Hi. induction 1; cbn [fold_right]; [apply zget_repeat; assumption|].
  rewrite (addBufG_zget _ _ _ zero zero) by assumption. rewrite add_0_l. reflexivity.
Qed.
Lemma fold_addBufG_one n l1 b l2 i v : 0 <= i < n -> Forall (fun b => zget b i = Some zero) l1 ->
  zget b i = Some v -> Forall (fun b => zget b i = Some zero) l2 ->
  zget (fold_right (addBufG add) (repeat zero (Z.to_nat n)) (l1 ++ b :: l2)) i = Some v.
Proof.
  intros Hi H1 Hb H2. induction H1 as [|x l1 Hx H1 IH]; cbn [app fold_right].
  - rewrite (addBufG_zget _ _ _ v zero); [rewrite add_0_r; reflexivity|assumption|]. apply fold_addBufG_zeros; assumption.
  - rewrite (addBufG_zget _ _ _ zero v); [rewrite add_0_l; reflexivity|assumption|]. exact IH.
Qed.

(** every rank writes its own slots, all slots are written once: after the reduction every rank holds
    the complete vector *)
Lemma scatter_reduce n (ws : list (list (Z * V))) (f : Z -> V) : 0 <= n -> ws <> [] ->
  NoDup (map fst (concat ws)) -> (forall i v, In (i, v) (concat ws) -> 0 <= i < n /\ v = f i) ->
  (forall i, 0 <= i < n -> In i (map fst (concat ws))) ->
  exists bufs, mapM (scatter zero n) ws = Ok bufs /\ zlen (allReduceG add zero bufs) = zlen ws /\
    Forall (fun o => o = map f (zrange 0 n)) (allReduceG add zero bufs).
Proof.
  intros Hn Hne ND Hw Hc.
  assert (Hex : forall w, In w ws -> exists buf, scatter zero n w = Ok buf /\ zlen buf = n /\
    (forall i v, In (i, v) w -> zget buf i = Some v) /\ (forall i, 0 <= i < n -> ~ In i (map fst w) -> zget buf i = Some zero)).
  { intros w I. apply scatter_spec; [assumption| |].
    - clear - ND I. revert w I. induction ws as [|a ws IH]; intros w I; [destruct I|]. cbn [concat] in ND. rewrite map_app in ND.
      apply NoDup_app_inv in ND. destruct ND as (N1 & N2 & _). destruct I as [->|I]; [assumption|apply IH; assumption].
    - apply Forall_forall. intros [i v] Ip. apply (Hw i v). apply in_concat. exists w. split; assumption. }
  set (g := fun w => match scatter zero n w with Ok b => b | _ => [] end).
  assert (EM : mapM (scatter zero n) ws = Ok (map g ws)).
  { apply mapM_ok. intros w I. destruct (Hex w I) as (b & E & _). unfold g. rewrite E. reflexivity. }
  exists (map g ws). split; [exact EM|].
  assert (Hlen : Forall (fun b => zlen b = n) (map g ws)).
  { apply Forall_forall. intros b I. apply in_map_iff in I. destruct I as (w & <- & I). destruct (Hex w I) as (b & E & Hl & _).
    unfold g. rewrite E. assumption. }
  assert (Hval : forall i, 0 <= i < n -> zget (fold_right (addBufG add) (repeat zero (Z.to_nat n)) (map g ws)) i = Some (f i)).
  { intros i Hi. specialize (Hc i Hi). apply in_map_iff in Hc. destruct Hc as ([i' v] & Ei & Ic). cbn in Ei. subst i'.
    apply in_concat in Ic. destruct Ic as (w & Iw & Iv). destruct (in_split w ws Iw) as (w1 & w2 & Ew).
    destruct (Hw i v) as [_ ->]; [apply in_concat; exists w; split; assumption|].
    rewrite Ew, map_app. cbn [map].
    assert (Hz : forall w', In w' w1 \/ In w' w2 -> zget (g w') i = Some zero).
    { intros w' Iw'. assert (In w' ws) by (rewrite Ew; apply in_or_app; destruct Iw'; [left; assumption|right; right; assumption]).
      destruct (Hex w' H) as (b & E & _ & _ & Z0). unfold g. rewrite E. apply Z0; [assumption|]. intro II.
      rewrite Ew in ND. rewrite concat_app, map_app in ND. cbn [concat] in ND. rewrite map_app in ND.
      assert (Iiw : In i (map fst w)) by (apply in_map_iff; exists (i, f i); split; [reflexivity|assumption]).
      apply NoDup_app_inv in ND. destruct ND as (N1 & N2 & N3). apply NoDup_app_inv in N2. destruct N2 as (_ & _ & N4).
      assert (Mem : forall l : list (list (Z * V)), In w' l -> In i (map fst (concat l))).
      { intros l Il. apply in_map_iff in II. destruct II as (p & Ep & Ip). apply in_map_iff. exists p. split; [assumption|].
        apply in_concat. exists w'. split; assumption. }
      destruct Iw' as [I1|I2].
      - apply (N3 i); [apply Mem; assumption|apply in_or_app; left; assumption].
      - apply (N4 i Iiw). apply Mem; assumption. }
    apply fold_addBufG_one; [assumption| | |].
    - apply Forall_forall. intros b I. apply in_map_iff in I. destruct I as (w' & <- & I). apply Hz. left; assumption.
    - destruct (Hex w Iw) as (b & E & _ & V0 & _). unfold g. rewrite E. apply V0. assumption.
    - apply Forall_forall. intros b I. apply in_map_iff in I. destruct I as (w' & <- & I). apply Hz. right; assumption. }
  assert (Hfull : forall o : list V, zlen o = n -> (forall i, 0 <= i < n -> zget o i = Some (f i)) -> o = map f (zrange 0 n)).
  { intros o Ho Hv. apply zget_ext; [unfold zlen at 2; rewrite map_length; fold (zlen (zrange 0 n)); rewrite zlen_zrange; lia|].
    intros i Hi. rewrite Hv by lia. rewrite zget_map, zget_zrange by lia. reflexivity. }
  unfold allReduceG. destruct (Z.eqb_spec (zlen (map g ws)) 1) as [E1|N1].
  - split; [unfold zlen; rewrite map_length; reflexivity|].
    destruct ws as [|w [|w2 ws']]; [contradiction| |unfold zlen in E1; cbn in E1; lia].
    cbn [map] in *. apply Forall_cons; [|apply Forall_nil]. pose proof (Forall_inv Hlen) as Hlw. cbn beta in Hlw. apply Hfull; [assumption|].
    intros i Hi. specialize (Hval i Hi). cbn [fold_right] in Hval.
    destruct (zget_inrange (g w) i ltac:(lia)) as (x & Ex).
    rewrite (addBufG_zget _ _ _ x zero) in Hval; [rewrite add_0_r in Hval; congruence|assumption|apply zget_repeat; assumption].
  - split; [unfold zlen; rewrite !map_length; reflexivity|].
    apply Forall_forall. intros o I. apply in_map_iff in I. destruct I as (b & <- & I).
    rewrite Forall_forall in Hlen. specialize (Hlen b I).
    replace (length b) with (Z.to_nat n) by (unfold zlen in Hlen; lia).
    apply Hfull; [|exact Hval]. apply fold_addBufG_len; [assumption|].
    apply Forall_forall. intros b' I'. apply in_map_iff in I'. destruct I' as (w' & <- & I').
    destruct (Hex w' I') as (b2 & E & Hl & _). unfold g. rewrite E. assumption.
Qed.
End R.
