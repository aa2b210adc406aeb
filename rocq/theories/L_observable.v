(** Lemmas about observables. *)
From Coq Require Import Reals Lra.
From Verif Require Import Base BaseLemmas M_delta L_delta M_observable S_observable.
Open Scope Z_scope.

Lemma in_indices r d : forall idx, In idx (indices r d) <-> isIndex r d idx.
Proof.
  induction r as [|r IH]; intro idx; cbn [indices].
  - unfold isIndex. split.
    + intros [<- |[]]. split; [reflexivity|]. intros i [].
    + intros [H _]. destruct idx; [now left|discriminate].
  - rewrite in_flat_map. split.
    + intros (i & Hi & H). apply in_map_iff in H as (l & <- & Hl). apply in_zrange in Hi. apply IH in Hl as [L B]. split; [cbn; now rewrite L|].
      intros j [<- |Hj]; [lia|]. now apply B.
    + intros [L B]. destruct idx as [|i l]; [discriminate|]. exists i. split; [apply in_zrange; pose proof (B i (or_introl eq_refl)); lia|].
      apply in_map. apply IH. split; [now injection L|]. intros j Hj. apply B. now right.
Qed.
Lemma indices_nodup r d : NoDup (indices r d).
Proof.
  induction r as [|r IH]; cbn [indices]; [repeat constructor; intros []|].
  pose proof (NoDup_zrange 0 d) as N. induction (zrange 0 d) as [|i l IL]; cbn [flat_map]; [constructor|]. apply NoDup_cons_iff in N as [NI N].
  specialize (IL N). assert (Q : NoDup (map (cons i) (indices r d))) by (apply FinFun.Injective_map_NoDup; [intros a b E; now injection E|exact IH]).
  revert Q. generalize (indices r d) at 1 2. intro l0. induction l0 as [|a m IM]; intro Q; cbn [map app]; [exact IL|].
  cbn [map] in Q. apply NoDup_cons_iff in Q as [QI Q]. constructor; [|now apply IM]. rewrite in_app_iff. intros [H|H]; [now apply QI|].
  apply in_flat_map in H as (j & Hj & H). apply in_map_iff in H as (b & E & _). injection E as -> _. now apply NI.
Qed.
Lemma inTensor_ok t c idx : 0 <= c < tCalcs t -> isIndex (tRank t) (tDim t) idx -> inTensor t c idx = true.
Proof.
  intros Hc [L B]. unfold inTensor. rewrite (proj2 (Nat.eqb_eq _ _) L). replace (0 <=? c) with true by lia. replace (c <? tCalcs t) with true by lia. cbn [andb].
  apply forallb_forall. intros i Hi. specialize (B i Hi). lia.
Qed.
Lemma tget_ok t c idx : 0 <= c < tCalcs t -> isIndex (tRank t) (tDim t) idx -> tget t c idx = Ok (tVal t c idx).
Proof. intros H1 H2. unfold tget. now rewrite inTensor_ok. Qed.
Lemma mapM_tget t c l : 0 <= c < tCalcs t -> (forall idx, In idx l -> isIndex (tRank t) (tDim t) idx) -> mapM (tget t c) l = Ok (map (tVal t c) l).
Proof.
  intros Hc H. induction l as [|x l IH]; [reflexivity|]. cbn [mapM map]. rewrite tget_ok; [|exact Hc|apply H; now left]. cbn [bind]. rewrite IH; [reflexivity|].
  intros idx Hi. apply H. now right.
Qed.
Lemma mapM_all_ok {A B} (f : A -> res B) (g : A -> B) l : (forall x, In x l -> f x = Ok (g x)) -> mapM f l = Ok (map g l).
Proof. induction l as [|x l IH]; intro H; [reflexivity|]. cbn [mapM map]. rewrite (H x (or_introl eq_refl)). cbn [bind]. rewrite IH; [reflexivity|]. intros y Hy. apply H. now right. Qed.

Lemma getNorm_ok a : wellFormed a ->
  getNorm a = Ok (map (fun c => normOf (oClass a) (oDim a) (map (value a c) (indices (whichType (oClass a)) (oDim a)))) (zrange 0 (oCalcs a))).
Proof.
  intros (N & D & TC & TD & TR). unfold getNorm. apply mapM_all_ok. intros c Hc. apply in_zrange in Hc. rewrite mapM_tget; [reflexivity|lia|].
  intros idx Hi. rewrite TR, TD. now apply in_indices.
Qed.

Lemma sameIdx_true a b : sameIdx a b = true <-> a = b.
Proof. unfold sameIdx. destruct (list_eq_dec Z.eq_dec a b); split; congruence. Qed.

Lemma minus_fold ta tb L : forall t, (forall p, In p L -> inTensor ta (fst p) (snd p) = true /\ inTensor tb (fst p) (snd p) = true /\ inTensor t (fst p) (snd p) = true) ->
  exists t', foldM (fun t p => do x <- tget ta (fst p) (snd p) ; do y <- tget tb (fst p) (snd p) ; tset t (fst p) (snd p) (x - y)%R) L t = Ok t' /\
    tCalcs t' = tCalcs t /\ tDim t' = tDim t /\ tRank t' = tRank t /\
    forall c idx, (In (c, idx) L -> tVal t' c idx = (tVal ta c idx - tVal tb c idx)%R) /\ (~ In (c, idx) L -> tVal t' c idx = tVal t c idx).
Proof.
  induction L as [|[c0 i0] L IH]; intros t H.
  - exists t. cbn. repeat split; try reflexivity. intros [].
  - cbn [foldM]. destruct (H (c0, i0) (or_introl eq_refl)) as (HA & HB & HT). cbn [fst snd] in HA, HB, HT. unfold tget at 1. cbn [fst snd]. rewrite HA. cbn [bind].
    unfold tget at 1. rewrite HB. cbn [bind]. unfold tset at 1. rewrite HT. cbn [bind].
    edestruct (IH {| tCalcs := tCalcs t; tDim := tDim t; tRank := tRank t; tVal := fun c' i' => if (c0 =? c') && sameIdx i0 i' then (tVal ta c0 i0 - tVal tb c0 i0)%R else tVal t c' i' |})
      as (t' & E & EC & ED & ER & V).
    { intros p Hp. destruct (H p (or_intror Hp)) as (A & B & C). repeat split; assumption. }
    exists t'. split; [exact E|]. split; [exact EC|]. split; [exact ED|]. split; [exact ER|]. intros c idx. destruct (V c idx) as [V1 V2]. cbn [tVal] in V2.
    assert (DC : In (c, idx) L \/ ~ In (c, idx) L).
    { destruct (in_dec (fun x y : Z * list Z => ltac:(decide equality; [apply (list_eq_dec Z.eq_dec)|apply Z.eq_dec])) (c, idx) L); tauto. }
    split.
    + intros [HE|HI]; [|now apply V1]. destruct DC as [HI|HI]; [now apply V1|]. rewrite (V2 HI). injection HE as -> ->. rewrite Z.eqb_refl, (proj2 (sameIdx_true idx idx) eq_refl). reflexivity.
    + intro HN. cbn in HN. assert (HI : ~ In (c, idx) L) by tauto. rewrite (V2 HI). destruct ((c0 =? c) && sameIdx i0 idx) eqn:Q; [|reflexivity].
      apply andb_true_iff in Q as [Q1 Q2]. apply Z.eqb_eq in Q1. apply sameIdx_true in Q2. subst. exfalso. tauto.
Qed.

Lemma rsum_zero l : (forall x, In x l -> (0 <= x)%R) -> rsum l = 0%R -> forall x, In x l -> x = 0%R.
Proof.
  induction l as [|y l IH]; intros H E x []; cbn in E; pose proof (H y (or_introl eq_refl)); pose proof (rsum_nonneg l (fun z Hz => H z (or_intror Hz))) as R; unfold rsum in *; [subst; lra|].
  apply IH; [intros z Hz; apply H; now right|lra|assumption].
Qed.
Lemma rsum_le_member l x : (forall y, In y l -> (0 <= y)%R) -> In x l -> (x <= rsum l)%R.
Proof.
  induction l as [|y l IH]; intros H []; cbn; pose proof (H y (or_introl eq_refl)); pose proof (rsum_nonneg l (fun z Hz => H z (or_intror Hz))) as R; unfold rsum in *; [subst; lra|].
  pose proof (IH (fun z Hz => H z (or_intror Hz)) H0). lra.
Qed.
Lemma squares_nonneg r d (v : list Z -> R) : forall y, In y (map (fun idx => v idx * v idx)%R (indices r d)) -> (0 <= y)%R.
Proof. intros y Hy. apply in_map_iff in Hy as (i & <- & _). nra. Qed.
Lemma frobenius_member r d v idx : isIndex r d idx -> (Rabs (v idx) <= frobenius r d v)%R.
Proof.
  intro H. unfold frobenius. rewrite <- sqrt_Rsqr_abs. apply sqrt_le_1_alt. unfold Rsqr. apply rsum_le_member; [apply squares_nonneg|].
  apply (in_map (fun idx => v idx * v idx)%R). now apply in_indices.
Qed.
Lemma frobenius_zero r d v : frobenius r d v = 0%R <-> forall idx, isIndex r d idx -> v idx = 0%R.
Proof.
  split.
  - intros H idx Hi. pose proof (frobenius_member r d v idx Hi) as M. rewrite H in M. pose proof (Rabs_pos (v idx)). destruct (Req_dec (v idx) 0) as [E|E]; [exact E|]. apply Rabs_pos_lt in E. lra.
  - intro H. unfold frobenius. replace (rsum _) with 0%R; [apply sqrt_0|]. symmetry. assert (G : forall l, (forall idx, In idx l -> v idx = 0%R) -> rsum (map (fun idx => v idx * v idx)%R l) = 0%R).
    { induction l as [|x l IH]; intro G; [reflexivity|]. cbn. rewrite (G x (or_introl eq_refl)). unfold rsum in IH. rewrite IH; [ring|]. intros i Hi. apply G. now right. }
    apply G. intros idx Hi. apply H. now apply in_indices.
Qed.
Lemma frobenius_nonneg r d v : (0 <= frobenius r d v)%R. Proof. apply sqrt_pos. Qed.
Lemma normOf_frobenius k d v : 0 < d -> normOf k d (map v (indices (whichType k) d)) = (frobenius (whichType k) d v / IZR (d ^ Z.of_nat (whichType k)))%R.
Proof.
  intro D. unfold normOf, frobenius. rewrite map_map. destruct k; cbn [whichType]; try reflexivity; cbn [indices map rsum fold_right Z.of_nat Z.pow]; rewrite Rplus_0_r; fold (Rsqr (v [])); rewrite sqrt_Rsqr_abs; field.
Qed.
Lemma scale_pos d r : 0 < d -> (0 < IZR (d ^ Z.of_nat r))%R.
Proof. intro D. apply IZR_lt. apply Z.pow_pos_nonneg; lia. Qed.
