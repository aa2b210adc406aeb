(** Lemmas for C158: every block of memory has one owner. *)
From Verif Require Import Base BaseLemmas M_container S_container.
Open Scope Z_scope.

Section Container.
Context {T : Type}.
Variables (zero : T) (mine : Z -> Z -> Z -> Z -> bool).
Implicit Types s : state T.
Definition ptr (o : object) (k : bool) : option Z := if k then oP o else oM o.
Definition owns s (x : Z) (k : bool) (a : Z) : Prop := exists o, objs s x = Some o /\ ptr o k = Some a.
Definition Minv s : Prop :=
  (forall x k a, owns s x k a -> heap s a <> None) /\
  (forall x k a x' k', owns s x k a -> owns s x' k' a -> x = x' /\ k = k') /\
  (forall a, heap s a <> None -> exists x k, owns s x k a) /\
  (forall a, heap s a <> None -> a < fresh s).
Definition holds (b : block T) (v : matrix T) : Prop := bRows b = mRows v /\ bCols b = mCols v /\ forall r c, bVal b r c = mVal v r c.
Definition rep s (x : Z) (v : matrix T) : Prop :=
  exists o a b, objs s x = Some o /\ oDist o = mDist v /\ ptr o (mDist v) = Some a /\ heap s a = Some b /\ holds b v.
Definition Inv s (V : values T) : Prop := Minv s /\ forall x, match V x with Some v => rep s x v | None => objs s x = None end.

Definition oldPtr s (x : Z) (k : bool) : option Z := match objs s x with Some o => ptr o k | None => None end.
Lemma owns_old s x k a : owns s x k a <-> oldPtr s x k = Some a.
Proof. unfold owns, oldPtr. split; [intros (o & -> & E); exact E|]. destruct (objs s x) as [o|]; [|discriminate]. intro E. now exists o. Qed.

Section Replace.
Variables (s s' : state T) (x : Z) (k : bool) (b : block T).
Hypothesis H : Minv s.
Hypothesis Ho : forall y, y <> x -> objs s' y = objs s y.
Hypothesis Hk : oldPtr s' x k = Some (fresh s).
Hypothesis Hn : oldPtr s' x (negb k) = oldPtr s x (negb k).
Hypothesis Hb : heap s' (fresh s) = Some b.
Hypothesis Hh : forall a, a <> fresh s -> (oldPtr s x k = Some a -> heap s' a = None) /\ (oldPtr s x k <> Some a -> heap s' a = heap s a).
Hypothesis Hf : fresh s' = fresh s + 1.
Lemma owns_replace y j a : owns s' y j a <-> (y <> x /\ owns s y j a) \/ (y = x /\ j = k /\ a = fresh s) \/ (y = x /\ j = negb k /\ owns s x j a).
Proof.
  rewrite !owns_old. destruct (Z.eq_dec y x) as [->|N].
  - destruct (Bool.bool_dec j k) as [->|NJ].
    + rewrite Hk. split; [intro E; injection E as <-; right; left; tauto|]. intros [[A _]|[(_ & _ & ->)|(_ & E & _)]]; [congruence|reflexivity|destruct k; discriminate].
    + assert (E : j = negb k) by (destruct j, k; congruence || reflexivity). subst j. rewrite Hn. split; [intro E; right; right; tauto|]. intros [[A _]|[(_ & E & _)|(_ & _ & E)]]; [congruence|destruct k; discriminate|exact E].
  - assert (E : oldPtr s' y j = oldPtr s y j) by (unfold oldPtr; now rewrite Ho). rewrite E. split; [intro; left; tauto|]. intros [[_ A]|[(A & _)|(A & _)]]; [exact A|congruence|congruence].
Qed.
Lemma owns_old_live y j a : (y <> x \/ j = negb k) -> owns s y j a -> a <> fresh s /\ oldPtr s x k <> Some a /\ heap s' a = heap s a.
Proof.
  intros N O. destruct H as (H1 & H2 & H3 & H4). assert (F := H4 a (H1 _ _ _ O)). assert (NF : a <> fresh s) by lia.
  assert (NO : oldPtr s x k <> Some a). { intro E. apply owns_old in E. destruct (H2 _ _ _ _ _ O E) as [E1 E2]. destruct N as [N|N]; [congruence|]. subst j. destruct k; discriminate. }
  split; [exact NF|]. split; [exact NO|]. now apply (Hh a NF).
Qed.
Lemma Minv_replace : Minv s'.
Proof.
  pose proof H as (H1 & H2 & H3 & H4). split; [|split; [|split]].
  - intros y j a O. apply owns_replace in O as [[N O]|[(-> & -> & ->)|(-> & -> & O)]].
    + destruct (owns_old_live y j a (or_introl N) O) as (_ & _ & ->). eauto.
    + rewrite Hb. discriminate.
    + destruct (owns_old_live x (negb k) a (or_intror eq_refl) O) as (_ & _ & ->). eauto.
  - intros y j a y' j' O O'. apply owns_replace in O. apply owns_replace in O'.
    assert (L : forall y j, (y <> x /\ owns s y j a) \/ (y = x /\ j = negb k /\ owns s x j a) -> a <> fresh s).
    { intros y0 j0 [[N Q]|(-> & -> & Q)]; [apply (owns_old_live y0 j0 a (or_introl N) Q)|apply (owns_old_live x (negb k) a (or_intror eq_refl) Q)]. }
    destruct O as [[N O]|[(-> & -> & E)|(-> & -> & O)]], O' as [[N' O']|[(-> & -> & E')|(-> & -> & O')]]; try (split; congruence).
    + exact (H2 _ _ _ _ _ O O').
    + exfalso. apply (L y j); [left; tauto|exact E'].
    + exact (H2 _ _ _ _ _ O O').
    + exfalso. apply (L y' j'); [left; tauto|exact E].
    + exfalso. apply (L x (negb k)); [right; tauto|exact E].
    + exact (H2 _ _ _ _ _ O O').
    + exfalso. apply (L x (negb k)); [right; tauto|exact E'].
  - intros a A. destruct (Z.eq_dec a (fresh s)) as [->|N].
    + exists x, k. apply owns_replace. tauto.
    + destruct (Hh a N) as [B C]. assert (NO : oldPtr s x k <> Some a) by (intro E; apply A, B, E). rewrite (C NO) in A.
      destruct (H3 a A) as (y & j & O). exists y, j. apply owns_replace. destruct (Z.eq_dec y x) as [->|NX]; [|tauto].
      destruct (Bool.bool_dec j k) as [->|NJ]; [exfalso; apply NO, owns_old, O|]. right. right. split; [reflexivity|]. split; [destruct j, k; congruence || reflexivity|exact O].
  - intros a A. rewrite Hf. destruct (Z.eq_dec a (fresh s)) as [->|N]; [lia|].
    destruct (Hh a N) as [B C]. assert (NO : oldPtr s x k <> Some a) by (intro E; apply A, B, E). rewrite (C NO) in A. specialize (H4 a A). lia.
Qed.
Lemma rep_replace y v : y <> x -> rep s y v -> rep s' y v.
Proof.
  intros N (o & a & c & E1 & E2 & E3 & E4 & E5). exists o, a, c. rewrite Ho by exact N. repeat (split; [assumption|]). split; [|exact E5].
  destruct (owns_old_live y (mDist v) a (or_introl N)) as (_ & _ & ->); [now exists o|exact E4].
Qed.
End Replace.

Lemma put_same {A} (f : Z -> A) i x : put f i x i = x. Proof. unfold put. now rewrite Z.eqb_refl. Qed.
Lemma put_other {A} (f : Z -> A) i x j : j <> i -> put f i x j = f j. Proof. intro N. unfold put. apply Z.eqb_neq in N. now rewrite N. Qed.

(** a new object *)
Lemma create s V V' x b v (d : bool) : Inv s V -> V x = None -> becomes V V' x (Some v) -> mDist v = d -> holds b v ->
  Inv (withObj (snd (alloc s b)) x (Some (if d then {| oDist := true; oP := Some (fst (alloc s b)); oM := None |} else {| oDist := false; oP := None; oM := Some (fst (alloc s b)) |}))) V'.
Proof.
  intros [M R] VX [B1 B2] D Hv. set (s' := withObj _ _ _). assert (OX := R x). rewrite VX in OX.
  assert (Ho : forall y, y <> x -> objs s' y = objs s y) by (intros y N; cbn; now rewrite put_other).
  assert (Hk : oldPtr s' x d = Some (fresh s)) by (unfold oldPtr; cbn; rewrite put_same; now destruct d).
  assert (Hn : oldPtr s' x (negb d) = oldPtr s x (negb d)) by (unfold oldPtr; cbn; rewrite put_same, OX; now destruct d).
  assert (Hb : heap s' (fresh s) = Some b) by (cbn; now rewrite put_same).
  assert (Hh : forall a, a <> fresh s -> (oldPtr s x d = Some a -> heap s' a = None) /\ (oldPtr s x d <> Some a -> heap s' a = heap s a)).
  { intros a N. unfold oldPtr. rewrite OX. split; [discriminate|]. intros _. cbn. now rewrite put_other. }
  split; [exact (Minv_replace s s' x d b M Ho Hk Hn Hb Hh eq_refl)|]. intros y. destruct (Z.eq_dec y x) as [->|N].
  - rewrite B1. exists (if d then {| oDist := true; oP := Some (fresh s); oM := None |} else {| oDist := false; oP := None; oM := Some (fresh s) |}), (fresh s), b.
    cbn. rewrite !put_same, D. destruct d; repeat split; apply Hv.
  - rewrite B2 by exact N. specialize (R y). destruct (V y) as [w|]; [eapply rep_replace; eassumption|]. now rewrite Ho.
Qed.
Lemma free_old s p : Minv s -> (forall a, p = Some a -> heap s a <> None) -> exists s1, free s p = Ok s1 /\ objs s1 = objs s /\ fresh s1 = fresh s /\ (forall a, p = Some a -> heap s1 a = None) /\ forall a, p <> Some a -> heap s1 a = heap s a.
Proof.
  intros M L. destruct p as [a|]; cbn [free].
  - specialize (L a eq_refl). destruct (heap s a) as [b|] eqn:E; [|contradiction]. eexists. split; [reflexivity|]. split; [reflexivity|]. split; [reflexivity|]. cbn. split.
    + intros a' E'. injection E' as <-. apply put_same.
    + intros a' N. apply put_other. congruence.
  - exists s. split; [reflexivity|]. split; [reflexivity|]. split; [reflexivity|]. split; [discriminate|reflexivity].
Qed.
Lemma assign_ok s V V' x y v w : Inv s V -> V x = Some v -> V y = Some w -> becomes V V' x (Some w) -> exists s', assign s x y = Ok s' /\ Inv s' V'.
Proof.
  intros [M R] VX VY [B1 B2]. assert (RX := R x). rewrite VX in RX. assert (RY := R y). rewrite VY in RY. destruct RX as (o & ax & bx & OX & _). destruct RY as (that & ay & b & OY & DY & PY & HY & HB).
  unfold assign, variable. rewrite OX, OY. cbn [bind]. destruct (Z.eqb_spec x y) as [E|N].
  - subst y. rewrite VX in VY. injection VY as ->. exists s. split; [reflexivity|]. split; [exact M|]. intros z. destruct (Z.eq_dec z x) as [->|NZ]; [rewrite B1|rewrite B2 by exact NZ]; [specialize (R x); now rewrite VX in R|exact (R z)].
  - set (d := oDist that) in *. rewrite <- DY in PY. destruct (free_old s (ptr o d) M) as (s1 & F & F1 & F2 & F3 & F4).
    { intros a E. apply (proj1 M x d). now exists o. }
    change (if d then oP o else oM o) with (ptr o d). rewrite F. cbn [bind].
    assert (U : inUse that = Some ay) by (unfold inUse; fold d; exact PY). rewrite U. cbn [deref].
    assert (NP : ptr o d <> Some ay). { intro E. apply N. destruct M as (_ & M2 & _). apply (M2 x d ay y d); [now exists o|now exists that]. }
    rewrite (F4 ay NP), HY. cbn [bind alloc]. eexists. split; [reflexivity|].
    set (s' := withObj _ _ _).
    assert (Ho : forall z, z <> x -> objs s' z = objs s z) by (intros z NZ; cbn; rewrite put_other by exact NZ; now rewrite F1).
    assert (OLD : forall k, oldPtr s x k = ptr o k) by (intro k; unfold oldPtr; now rewrite OX).
    assert (Hk : oldPtr s' x d = Some (fresh s)) by (unfold oldPtr; cbn; rewrite put_same, F2; now destruct d).
    assert (Hn : oldPtr s' x (negb d) = oldPtr s x (negb d)) by (rewrite OLD; unfold oldPtr; cbn; rewrite put_same; now destruct d).
    assert (Hb : heap s' (fresh s) = Some b) by (cbn; now rewrite F2, put_same).
    assert (Hh : forall a, a <> fresh s -> (oldPtr s x d = Some a -> heap s' a = None) /\ (oldPtr s x d <> Some a -> heap s' a = heap s a)).
    { intros a NA. rewrite OLD. cbn. rewrite F2, put_other by exact NA. split; [apply F3|apply F4]. }
    assert (Hf : fresh s' = fresh s + 1) by (cbn; now rewrite F2).
    split; [exact (Minv_replace s s' x d b M Ho Hk Hn Hb Hh Hf)|]. intros z. destruct (Z.eq_dec z x) as [->|NZ].
    + rewrite B1. exists (if d then {| oDist := true; oP := Some (fresh s1); oM := oM o |} else {| oDist := false; oP := oP o; oM := Some (fresh s1) |}), (fresh s1), b.
      cbn. rewrite !put_same. rewrite <- DY. destruct d; repeat split; apply HB.
    + rewrite B2 by exact NZ. specialize (R z). destruct (V z) as [u|]; [eapply rep_replace; eassumption|]. now rewrite Ho.
Qed.
Lemma destroy_ok s V V' x v : Inv s V -> V x = Some v -> becomes V V' x None -> exists s', destroy s x = Ok s' /\ Inv s' V'.
Proof.
  intros [M R] VX [B1 B2]. pose proof M as (M1 & M2 & M3 & M4). assert (RX := R x). rewrite VX in RX. destruct RX as (o & ax & bx & OX & _).
  assert (OW : forall k a, ptr o k = Some a -> owns s x k a) by (intros k a E; now exists o).
  unfold destroy, variable. rewrite OX. cbn [bind]. destruct (free_old s (oP o) M) as (s1 & F & F1 & F2 & F3 & F4); [intros a E; apply (M1 x true), OW, E|]. rewrite F. cbn [bind].
  assert (NE : forall a, oM o = Some a -> oP o <> Some a) by (intros a E E'; destruct (M2 x false a x true (OW false a E) (OW true a E')) as [_ X]; discriminate).
  destruct (oM o) as [am|] eqn:EM.
  - cbn [free]. rewrite (F4 am (NE am eq_refl)). destruct (heap s am) as [bm|] eqn:HM; [|exfalso; apply (M1 x false am); [apply OW; exact EM|exact HM]]. cbn [bind]. eexists. split; [reflexivity|].
    set (s' := withObj _ _ _).
    assert (Ho : forall z, z <> x -> objs s' z = objs s z) by (intros z NZ; cbn; rewrite put_other by exact NZ; now rewrite F1).
    assert (Hx : objs s' x = None) by (cbn; apply put_same).
    assert (OS : forall z k a, owns s' z k a <-> z <> x /\ owns s z k a).
    { intros z k a. unfold owns. destruct (Z.eq_dec z x) as [->|NZ]; [rewrite Hx; split; [intros (q & E & _); discriminate|tauto]|rewrite Ho by exact NZ; tauto]. }
    assert (HH : forall z k a, z <> x -> owns s z k a -> heap s' a = heap s a).
    { intros z k a NZ O. cbn. rewrite put_other. - apply F4. intro E. apply NZ. now destruct (M2 z k a x true O (OW true a E)). - intros ->. apply NZ. now destruct (M2 z k am x false O (OW false am EM)). }
    assert (HD : forall a, heap s' a <> None -> heap s a <> None /\ oP o <> Some a /\ a <> am).
    { intros a A. destruct (Z.eq_dec a am) as [->|NA]; [cbn in A; rewrite put_same in A; contradiction|]. cbn in A. rewrite put_other in A by exact NA.
      assert (NP : oP o <> Some a) by (intro E; apply A, F3, E). rewrite (F4 a NP) in A. tauto. }
    split; [split; [|split; [|split]]|].
    + intros z k a O. apply OS in O as [NZ O]. rewrite (HH z k a NZ O). eauto.
    + intros z k a z' k' O O'. apply OS in O as [_ O]. apply OS in O' as [_ O']. eauto.
    + intros a A. destruct (HD a A) as (A1 & A2 & A3). destruct (M3 a A1) as (z & k & O). exists z, k. apply OS. split; [|exact O]. intros ->. destruct O as (o' & E1 & E2). rewrite OX in E1. injection E1 as <-. destruct k; cbn [ptr] in E2; congruence.
    + intros a A. cbn. rewrite F2. apply M4, HD, A.
    + intros z. destruct (Z.eq_dec z x) as [->|NZ]; [now rewrite B1|]. rewrite B2 by exact NZ. specialize (R z). destruct (V z) as [u|]; [|now rewrite Ho].
      destruct R as (oz & az & bz & E1 & E2 & E3 & E4 & E5). exists oz, az, bz. rewrite Ho by exact NZ. repeat (split; [assumption|]). split; [|exact E5]. rewrite (HH z (mDist u) az NZ); [exact E4|now exists oz].
  - cbn [free bind]. eexists. split; [reflexivity|]. set (s' := withObj _ _ _).
    assert (Ho : forall z, z <> x -> objs s' z = objs s z) by (intros z NZ; cbn; rewrite put_other by exact NZ; now rewrite F1).
    assert (Hx : objs s' x = None) by (cbn; apply put_same).
    assert (OS : forall z k a, owns s' z k a <-> z <> x /\ owns s z k a).
    { intros z k a. unfold owns. destruct (Z.eq_dec z x) as [->|NZ]; [rewrite Hx; split; [intros (q & E & _); discriminate|tauto]|rewrite Ho by exact NZ; tauto]. }
    assert (HH : forall z k a, z <> x -> owns s z k a -> heap s' a = heap s a).
    { intros z k a NZ O. cbn. apply F4. intro E. apply NZ. now destruct (M2 z k a x true O (OW true a E)). }
    assert (HD : forall a, heap s' a <> None -> heap s a <> None /\ oP o <> Some a).
    { intros a A. cbn in A. assert (NP : oP o <> Some a) by (intro E; apply A, F3, E). rewrite (F4 a NP) in A. tauto. }
    split; [split; [|split; [|split]]|].
    + intros z k a O. apply OS in O as [NZ O]. rewrite (HH z k a NZ O). eauto.
    + intros z k a z' k' O O'. apply OS in O as [_ O]. apply OS in O' as [_ O']. eauto.
    + intros a A. destruct (HD a A) as (A1 & A2). destruct (M3 a A1) as (z & k & O). exists z, k. apply OS. split; [|exact O]. intros ->. destruct O as (o' & E1 & E2). rewrite OX in E1. injection E1 as <-. destruct k; cbn [ptr] in E2; congruence.
    + intros a A. cbn. rewrite F2. apply M4, HD, A.
    + intros z. destruct (Z.eq_dec z x) as [->|NZ]; [now rewrite B1|]. rewrite B2 by exact NZ. specialize (R z). destruct (V z) as [u|]; [|now rewrite Ho].
      destruct R as (oz & az & bz & E1 & E2 & E3 & E4 & E5). exists oz, az, bz. rewrite Ho by exact NZ. repeat (split; [assumption|]). split; [|exact E5]. rewrite (HH z (mDist u) az NZ); [exact E4|now exists oz].
Qed.
Lemma outside_spec b v r c : holds b v -> outside b r c = negb ((0 <=? r) && (r <? mRows v) && (0 <=? c) && (c <? mCols v)).
Proof. intros (E1 & E2 & _). unfold outside. rewrite E1, E2. lia. Qed.
Lemma set_ok s V V' x r c a v : Inv s V -> V x = Some v -> writable mine v r c ->
  becomes V V' x (Some {| mDist := mDist v; mRows := mRows v; mCols := mCols v; mVal := fun i j => if (i =? r) && (j =? c) then a else mVal v i j |}) ->
  exists s', setElement mine s x r c a = Ok s' /\ Inv s' V'.
Proof.
  intros [M R] VX W [B1 B2]. assert (RX := R x). rewrite VX in RX. destruct RX as (o & ax & b & OX & DX & PX & HX & HB). pose proof HB as (S1 & S2 & S3).
  unfold setElement, variable. rewrite OX. cbn [bind]. assert (U : inUse o = Some ax) by (unfold inUse; rewrite DX; exact PX). rewrite U. cbn [deref]. rewrite HX. cbn [bind]. rewrite DX.
  set (b' := {| bRows := bRows b |}).
  assert (G : store s (Some ax) b' = Ok (withHeap s (put (heap s) ax (Some b')))) by (cbn [store]; now rewrite HX).
  exists (withHeap s (put (heap s) ax (Some b'))). split.
  { rewrite G. unfold writable in W. destruct (mDist v); [rewrite S1, S2, W; reflexivity|]. rewrite (outside_spec b v r c HB). replace (negb _) with false by lia. reflexivity. }
  pose proof M as (M1 & M2 & M3 & M4). assert (DOM : forall q, put (heap s) ax (Some b') q <> None <-> heap s q <> None).
  { intro q. destruct (Z.eq_dec q ax) as [->|N]; [rewrite put_same, HX; split; discriminate|now rewrite put_other]. }
  split; [split; [|split; [|split]]|].
  - intros y k q O. cbn. apply DOM. exact (M1 y k q O).
  - exact M2.
  - intros q Q. cbn in Q. apply DOM in Q. exact (M3 q Q).
  - intros q Q. cbn in Q. apply DOM in Q. exact (M4 q Q).
  - intros y. destruct (Z.eq_dec y x) as [->|N].
    + rewrite B1. exists o, ax, b'. cbn. rewrite put_same. repeat split; try assumption. intros i j. cbn. now rewrite S3.
    + rewrite B2 by exact N. specialize (R y). destruct (V y) as [u|]; [|exact R]. destruct R as (oz & az & bz & E1 & E2 & E3 & E4 & E5). exists oz, az, bz. repeat (split; [assumption|]). split; [|exact E5].
      cbn. rewrite put_other; [exact E4|]. intros ->. apply N. destruct (M2 y (mDist u) ax x (mDist v)) as [E _]; [now exists oz|now exists o|exact E].
Qed.
Lemma exec_ok s V V' o : Inv s V -> means zero mine V V' o -> exists s', exec zero mine s o = Ok s' /\ Inv s' V'.
Proof.
  intros I M. destruct M as [x r c d VX Hr Hc HS B|x VX B|x y v w VX VY B|x r c a v VX W B|x r c a v VX D E ->|x v VX B]; cbn [exec].
  - unfold construct, newBlock. assert (P : 0 <= r * c) by (apply Z.mul_nonneg_nonneg; assumption).
    assert (Q : (do n <- (if d then Ok 0 else ck (r * c)); (if n <? 0 then Err else Ok {| bRows := r; bCols := c; bVal := fun _ _ => zero |})) = Ok {| bRows := r; bCols := c; bVal := fun _ _ => zero |}).
    { destruct d; [reflexivity|]. specialize (HS eq_refl). unfold ck. replace ((INT_MIN <=? r * c) && (r * c <=? INT_MAX)) with true by (unfold INT_MIN, INT_MAX; lia). cbn [bind]. replace (r * c <? 0) with false by lia. reflexivity. }
    rewrite Q. cbn [bind]. eexists. split; [reflexivity|]. eapply (create s V V' x _ _ d I VX B); [reflexivity|repeat split].
  - unfold constructDefault. eexists. split; [reflexivity|]. eapply (create s V V' x _ _ false I VX B); [reflexivity|repeat split].
  - eapply assign_ok; eassumption.
  - eapply set_ok; eassumption.
  - destruct I as [I R]. assert (RX := R x). rewrite VX in RX. destruct RX as (o & ax & b & OX & DX & PX & HX & S1 & S2 & S3). exists s. split; [|split; [exact I|exact R]].
    unfold setElement, variable. rewrite OX. cbn [bind]. unfold inUse. rewrite DX, D in *. cbn [ptr] in PX. rewrite PX. cbn [deref]. rewrite HX. cbn [bind]. rewrite S1, S2, E. reflexivity.
  - eapply destroy_ok; eassumption.
Qed.
Lemma run_ok ops : forall s V V', Inv s V -> meansAll zero mine V ops V' -> exists s', run zero mine s ops = Ok s' /\ Inv s' V'.
Proof.
  induction ops as [|o ops IH]; intros s V V' I M; inversion M; subst; [exists s; split; [reflexivity|exact I]|].
  destruct (exec_ok s V _ o I H2) as (s1 & E & I1). destruct (IH s1 _ V' I1 H4) as (s2 & E2 & I2). exists s2. split; [|exact I2]. unfold run in *. cbn [foldM]. rewrite E. exact E2.
Qed.
Lemma start_inv : Inv start nothing.
Proof.
  split; [|intro x; reflexivity]. split; [|split; [|split]].
  - intros x k a (o & E & _). discriminate.
  - intros x k a x' k' (o & E & _). discriminate.
  - intros a A. contradiction.
  - intros a A. contradiction.
Qed.
Lemma rep_shows s x v : rep s x v -> shows zero mine s x v.
Proof.
  intros (o & a & b & OX & DX & PX & HX & S1 & S2 & S3). assert (U : inUse o = Some a) by (unfold inUse; rewrite DX; exact PX).
  unfold shows, rowsOf, colsOf, element, variable. rewrite OX. cbn [bind]. rewrite U. cbn [deref]. rewrite HX. cbn [bind]. rewrite S1, S2. split; [reflexivity|]. split; [reflexivity|]. intros r c. rewrite DX, S3.
  destruct (mDist v); [reflexivity|]. rewrite (outside_spec b v r c) by (repeat split; assumption). now destruct (_ && _).
Qed.
Lemma meansAll_app ops1 ops2 : forall V V1 V2, meansAll zero mine V ops1 V1 -> meansAll zero mine V1 ops2 V2 -> meansAll zero mine V (ops1 ++ ops2) V2.
Proof. induction ops1 as [|o ops IH]; intros V V1 V2 A B; inversion A; subst; [exact B|]. cbn [app]. econstructor; [eassumption|]. eapply IH; eassumption. Qed.
End Container.
