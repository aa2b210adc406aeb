(** Lemmas for src/utilities. *)
From Coq Require Import QArith Qabs Ascii Lqa.
From Verif Require Import Base BaseLemmas M_utilities S_utilities.
Open Scope Z_scope.
Ltac Zify.zify_post_hook ::= Z.div_mod_to_equations.

(** * mod *)
Lemma modZ_pos a b : 0 < b -> modZ a b = a mod b.
Proof.
  intros Hb. unfold modZ.
  assert (H := Z.rem_bound_abs a b ltac:(lia)).
  rewrite (Z.rem_mod_nonneg (Z.rem a b + b) b) by lia.
  assert (E : a = b * (Z.quot a b) + Z.rem a b) by apply Z.quot_rem'.
  replace (Z.rem a b + b) with (a + (1 - Z.quot a b) * b) by lia.
  apply Z.mod_add. lia.
Qed.

Lemma modZ_range a b : 0 < b -> 0 <= modZ a b < b.
Proof. intros. rewrite modZ_pos by lia. apply Z.mod_pos_bound. lia. Qed.

Lemma cmod_ok a b : 0 < b <= 1073741824 -> cmod a b = Ok (a mod b).
Proof.
  intros Hb. unfold cmod. destruct (b =? 0) eqn:E; [lia|].
  assert (H := Z.rem_bound_abs a b ltac:(lia)).
  rewrite ck_ok by (unfold INT_MIN, INT_MAX; lia). cbn [bind].
  f_equal. apply modZ_pos. lia.
Qed.

(** * compress / decompress *)
Definition c3 (i1 i2 i3 s2 s3 : Z) : Z := (i1 * s2 + i2) * s3 + i3.

Lemma c3_range i1 i2 i3 s1 s2 s3 :
  0 <= i1 < s1 -> 0 <= i2 < s2 -> 0 <= i3 < s3 -> 0 <= c3 i1 i2 i3 s2 s3 < s1 * s2 * s3.
Proof.
  unfold c3. intros.
  assert (0 <= i1 * s2 + i2 < s1 * s2) by nia.
  nia.
Qed.

Lemma compress3_ok i1 i2 i3 s1 s2 s3 :
  0 <= i1 < s1 -> 0 <= i2 < s2 -> 0 <= i3 < s3 -> s1 * s2 * s3 <= INT_MAX ->
  compress3Indices i1 i2 i3 s1 s2 s3 = Ok (c3 i1 i2 i3 s2 s3).
Proof.
  intros H1 H2 H3 HM.
  assert (R := c3_range i1 i2 i3 s1 s2 s3 H1 H2 H3).
  unfold c3 in *. unfold compress3Indices. unfold INT_MAX in *.
  assert (0 <= i1 * s2) by nia.
  assert (i1 * s2 <= i1 * s2 * s3) by nia.
  assert (0 <= i2 * s3) by nia.
  assert (E : (i1 * s2 + i2) * s3 = i1 * s2 * s3 + i2 * s3) by ring.
  rewrite ck_ok by (unfold INT_MIN, INT_MAX; lia). cbn [bind].
  rewrite ck_ok by (unfold INT_MIN, INT_MAX; lia). cbn [bind].
  rewrite ck_ok by (unfold INT_MIN, INT_MAX; lia). cbn [bind].
  rewrite ck_ok by (unfold INT_MIN, INT_MAX; lia). cbn [bind].
  rewrite ck_ok by (unfold INT_MIN, INT_MAX; lia).
  f_equal. lia.
Qed.

Lemma decompress3_ok k s1 s2 s3 :
  0 < s1 -> 0 < s2 -> 0 < s3 -> s1 * s2 * s3 <= INT_MAX -> 0 <= k < s1 * s2 * s3 ->
  decompress3Indices k s1 s2 s3 =
    Ok (k / (s2 * s3), (k mod (s2 * s3)) / s3, k mod s3).
Proof.
  intros H1 H2 H3 HM Hk. unfold decompress3Indices, INT_MAX in *.
  assert (Hs : 0 < s2 * s3 <= 2147483647) by nia.
  rewrite (ck_ok (s2 * s3)) by (unfold INT_MIN, INT_MAX; lia). cbn [bind].
  destruct (s2 * s3 =? 0) eqn:E; [lia|].
  rewrite Z.quot_div_nonneg by lia.
  set (q := k / (s2 * s3)) in *.
  assert (Hq : 0 <= q /\ q * (s2 * s3) <= k < q * (s2 * s3) + s2 * s3).
  { unfold q. split; [apply Z.div_pos; lia|].
    assert (D := Z.div_mod k (s2 * s3) ltac:(lia)).
    assert (M := Z.mod_pos_bound k (s2 * s3) ltac:(lia)). lia. }
  assert (Hqs : 0 <= q * s2 <= q * (s2 * s3)) by nia.
  assert (Hq1 : q <= q * (s2 * s3)) by nia.
  rewrite (ck_ok q) by (unfold INT_MIN, INT_MAX; lia). cbn [bind].
  rewrite (ck_ok (q * s2)) by (unfold INT_MIN, INT_MAX; lia). cbn [bind].
  rewrite (ck_ok (q * s2 * s3)) by (unfold INT_MIN, INT_MAX; nia). cbn [bind].
  assert (Er : k - q * s2 * s3 = k mod (s2 * s3)).
  { rewrite Z.mod_eq by lia. fold q. ring. }
  rewrite Er. set (r := k mod (s2 * s3)) in *.
  assert (Hr : 0 <= r < s2 * s3) by (apply Z.mod_pos_bound; lia).
  rewrite (ck_ok r) by (unfold INT_MIN, INT_MAX; lia). cbn [bind].
  destruct (s3 =? 0) eqn:E3; [lia|].
  rewrite Z.quot_div_nonneg by lia.
  set (q2 := r / s3).
  assert (Hq2 : 0 <= q2 /\ q2 * s3 <= r < q2 * s3 + s3).
  { unfold q2. split; [apply Z.div_pos; lia|].
    assert (D := Z.div_mod r s3 ltac:(lia)).
    assert (M := Z.mod_pos_bound r s3 ltac:(lia)). lia. }
  assert (q2 <= q2 * s3) by nia.
  rewrite (ck_ok q2) by (unfold INT_MIN, INT_MAX; lia). cbn [bind].
  rewrite (ck_ok (q2 * s3)) by (unfold INT_MIN, INT_MAX; lia). cbn [bind].
  rewrite (ck_ok (r - q2 * s3)) by (unfold INT_MIN, INT_MAX; lia). cbn [bind].
  assert (E4 : r - q2 * s3 = k mod s3); [|now rewrite E4].
  transitivity (r mod s3).
  - rewrite Z.mod_eq by lia. fold q2. ring.
  - unfold r. rewrite (Z.mul_comm s2 s3).
    rewrite Z.rem_mul_r by lia. rewrite Z.mul_comm, Z.mod_add by lia. apply Z.mod_mod. lia.
Qed.

Lemma c3_div i1 i2 i3 s2 s3 : 0 <= i2 < s2 -> 0 <= i3 < s3 ->
  c3 i1 i2 i3 s2 s3 / (s2 * s3) = i1 /\ (c3 i1 i2 i3 s2 s3 mod (s2 * s3)) / s3 = i2
  /\ c3 i1 i2 i3 s2 s3 mod s3 = i3.
Proof.
  intros H2 H3. unfold c3.
  assert (E : (i1 * s2 + i2) * s3 + i3 = (i2 * s3 + i3) + i1 * (s2 * s3)) by ring.
  assert (B : 0 <= i2 * s3 + i3 < s2 * s3) by nia.
  split; [|split].
  - rewrite E, Z.div_add, Z.div_small by lia. lia.
  - rewrite E, Z.mod_add, Z.mod_small by lia.
    rewrite Z.add_comm, Z.div_add, Z.div_small by lia. lia.
  - rewrite Z.add_comm, Z.mod_add, Z.mod_small by lia. lia.
Qed.

Lemma compress3_roundtrip s1 s2 s3 i1 i2 i3 :
  0 <= i1 < s1 -> 0 <= i2 < s2 -> 0 <= i3 < s3 -> s1 * s2 * s3 <= INT_MAX ->
  exists k, compress3Indices i1 i2 i3 s1 s2 s3 = Ok k /\ 0 <= k < s1 * s2 * s3 /\
            decompress3Indices k s1 s2 s3 = Ok (i1, i2, i3).
Proof.
  intros H1 H2 H3 HM. exists (c3 i1 i2 i3 s2 s3).
  assert (R := c3_range i1 i2 i3 s1 s2 s3 H1 H2 H3).
  split; [now apply compress3_ok|]. split; [exact R|].
  rewrite decompress3_ok by lia.
  destruct (c3_div i1 i2 i3 s2 s3 H2 H3) as (-> & -> & ->). reflexivity.
Qed.

Lemma decompress3_roundtrip s1 s2 s3 k :
  0 < s1 -> 0 < s2 -> 0 < s3 -> s1 * s2 * s3 <= INT_MAX -> 0 <= k < s1 * s2 * s3 ->
  exists i1 i2 i3, decompress3Indices k s1 s2 s3 = Ok (i1, i2, i3) /\
    0 <= i1 < s1 /\ 0 <= i2 < s2 /\ 0 <= i3 < s3 /\
    compress3Indices i1 i2 i3 s1 s2 s3 = Ok k.
Proof.
  intros H1 H2 H3 HM Hk.
  assert (Hs : 0 < s2 * s3) by nia.
  exists (k / (s2 * s3)), ((k mod (s2 * s3)) / s3), (k mod s3).
  assert (M := Z.mod_pos_bound k (s2 * s3) Hs).
  assert (B1 : 0 <= k / (s2 * s3) < s1).
  { split; [apply Z.div_pos; lia|]. apply Z.div_lt_upper_bound; [lia|]. lia. }
  assert (B2 : 0 <= (k mod (s2 * s3)) / s3 < s2).
  { split; [apply Z.div_pos; lia|]. apply Z.div_lt_upper_bound; [lia|]. lia. }
  assert (B3 := Z.mod_pos_bound k s3 H3).
  split; [apply decompress3_ok; lia|]. split; [lia|]. split; [lia|]. split; [lia|].
  rewrite compress3_ok by lia. f_equal. unfold c3.
  assert (D := Z.div_mod k (s2 * s3) ltac:(lia)).
  assert (D2 := Z.div_mod (k mod (s2 * s3)) s3 ltac:(lia)).
  assert (E : (k mod (s2 * s3)) mod s3 = k mod s3).
  { rewrite (Z.mul_comm s2 s3), Z.rem_mul_r by lia.
    rewrite Z.mul_comm, Z.mod_add by lia. apply Z.mod_mod. lia. }
  rewrite E in D2. nia.
Qed.

Lemma compress2_ok i1 i2 s1 s2 : 0 <= i1 < s1 -> 0 <= i2 < s2 -> s1 * s2 <= INT_MAX ->
  compress2Indices i1 i2 s1 s2 = Ok (i1 * s2 + i2) /\ 0 <= i1 * s2 + i2 < s1 * s2.
Proof.
  intros H1 H2 HM. unfold compress2Indices, INT_MAX in *.
  assert (0 <= i1 * s2 + i2 < s1 * s2) by nia.
  assert (0 <= i1 * s2) by nia.
  split; [|lia].
  rewrite ck_ok by (unfold INT_MIN, INT_MAX; lia). cbn [bind].
  now rewrite ck_ok by (unfold INT_MIN, INT_MAX; lia).
Qed.

Lemma decompress2_ok k s1 s2 : 0 < s2 -> 0 <= k <= INT_MAX ->
  decompress2Indices k s1 s2 = Ok (k / s2, k mod s2).
Proof.
  intros H2 Hk. unfold decompress2Indices, INT_MAX in *.
  destruct (s2 =? 0) eqn:E; [lia|].
  rewrite Z.quot_div_nonneg by lia.
  assert (D := Z.div_mod k s2 ltac:(lia)).
  assert (M := Z.mod_pos_bound k s2 ltac:(lia)).
  assert (P : 0 <= k / s2) by (apply Z.div_pos; lia).
  assert (0 <= k / s2 * s2 <= k) by nia.
  assert (k / s2 <= k / s2 * s2) by nia.
  rewrite (ck_ok (k / s2)) by (unfold INT_MIN, INT_MAX; lia). cbn [bind].
  rewrite (ck_ok (k / s2 * s2)) by (unfold INT_MIN, INT_MAX; lia). cbn [bind].
  assert (E4 : k - k / s2 * s2 = k mod s2) by lia. rewrite E4.
  rewrite (ck_ok (k mod s2)) by (unfold INT_MIN, INT_MAX; lia). reflexivity.
Qed.

Lemma compress2_roundtrip s1 s2 i1 i2 :
  0 <= i1 < s1 -> 0 <= i2 < s2 -> s1 * s2 <= INT_MAX ->
  exists k, compress2Indices i1 i2 s1 s2 = Ok k /\ 0 <= k < s1 * s2 /\
            decompress2Indices k s1 s2 = Ok (i1, i2).
Proof.
  intros H1 H2 HM. destruct (compress2_ok i1 i2 s1 s2 H1 H2 HM) as [E R].
  exists (i1 * s2 + i2). split; [exact E|]. split; [exact R|].
  rewrite decompress2_ok by lia.
  rewrite Z.add_comm, Z.div_add, Z.mod_add, Z.div_small, Z.mod_small by lia. reflexivity.
Qed.

Lemma decompress2_roundtrip s1 s2 k :
  0 < s1 -> 0 < s2 -> s1 * s2 <= INT_MAX -> 0 <= k < s1 * s2 ->
  exists i1 i2, decompress2Indices k s1 s2 = Ok (i1, i2) /\ 0 <= i1 < s1 /\ 0 <= i2 < s2 /\
    compress2Indices i1 i2 s1 s2 = Ok k.
Proof.
  intros H1 H2 HM Hk. exists (k / s2), (k mod s2).
  assert (D := Z.div_mod k s2 ltac:(lia)).
  assert (M := Z.mod_pos_bound k s2 ltac:(lia)).
  assert (P : 0 <= k / s2 < s1).
  { split; [apply Z.div_pos; lia|]. apply Z.div_lt_upper_bound; lia. }
  split; [apply decompress2_ok; lia|]. split; [lia|]. split; [lia|].
  destruct (compress2_ok (k / s2) (k mod s2) s1 s2) as [E _]; try lia.
  rewrite E. f_equal. lia.
Qed.

(** row-major order *)
Lemma nth_error_list_prod {A B} (l : list A) (l' : list B) (i j : nat) :
  (i < length l)%nat -> (j < length l')%nat ->
  nth_error (list_prod l l') (i * length l' + j) =
  match nth_error l i, nth_error l' j with Some a, Some b => Some (a, b) | _, _ => None end.
Proof.
  revert i. induction l as [|x l IH]; intros i Hi Hj; cbn [length] in *; [lia|].
  cbn [list_prod]. destruct i as [|i].
  - rewrite nth_error_app1 by (rewrite map_length; lia).
    cbn [Nat.mul Nat.add nth_error]. rewrite nth_error_map.
    destruct (nth_error l' j); reflexivity.
  - rewrite nth_error_app2 by (rewrite map_length; lia).
    rewrite map_length.
    replace (S i * length l' + j - length l')%nat with (i * length l' + j)%nat by lia.
    cbn [nth_error]. apply IH; lia.
Qed.

Lemma zget_rowMajor2 s1 s2 i1 i2 : 0 <= i1 < s1 -> 0 <= i2 < s2 ->
  zget (rowMajor2 s1 s2) (i1 * s2 + i2) = Some (i1, i2).
Proof.
  intros H1 H2. unfold zget, rowMajor2. destruct (_ <? 0) eqn:E; [nia|].
  replace (Z.to_nat (i1 * s2 + i2)) with
    (Z.to_nat i1 * length (zrange 0 s2) + Z.to_nat i2)%nat by (rewrite zrange_length; nia).
  rewrite nth_error_list_prod by (rewrite zrange_length; lia).
  rewrite !nth_error_zrange by lia. repeat f_equal; lia.
Qed.

Lemma zget_rowMajor3 s1 s2 s3 i1 i2 i3 : 0 <= i1 < s1 -> 0 <= i2 < s2 -> 0 <= i3 < s3 ->
  zget (rowMajor3 s1 s2 s3) (c3 i1 i2 i3 s2 s3) = Some (i1, i2, i3).
Proof.
  intros H1 H2 H3. unfold zget, rowMajor3, c3.
  assert (0 <= i1 * s2 + i2 < s1 * s2) by nia.
  destruct (_ <? 0) eqn:E; [nia|].
  replace (Z.to_nat ((i1 * s2 + i2) * s3 + i3)) with
    (Z.to_nat (i1 * s2 + i2) * length (zrange 0 s3) + Z.to_nat i3)%nat by (rewrite zrange_length; nia).
  rewrite nth_error_list_prod.
  2:{ rewrite prod_length, !zrange_length. nia. }
  2:{ rewrite zrange_length; lia. }
  assert (G := zget_rowMajor2 s1 s2 i1 i2 H1 H2). unfold zget, rowMajor2 in G.
  destruct (_ <? 0) eqn:E2 in G; [lia|]. rewrite G.
  rewrite nth_error_zrange by lia. repeat f_equal; lia.
Qed.

Lemma compress3_rowmajor s1 s2 s3 i1 i2 i3 :
  0 <= i1 < s1 -> 0 <= i2 < s2 -> 0 <= i3 < s3 -> s1 * s2 * s3 <= INT_MAX ->
  exists k, compress3Indices i1 i2 i3 s1 s2 s3 = Ok k /\ zget (rowMajor3 s1 s2 s3) k = Some (i1, i2, i3).
Proof.
  intros. exists (c3 i1 i2 i3 s2 s3). split; [now apply compress3_ok|now apply zget_rowMajor3].
Qed.

Lemma compress2_rowmajor s1 s2 i1 i2 :
  0 <= i1 < s1 -> 0 <= i2 < s2 -> s1 * s2 <= INT_MAX ->
  exists k, compress2Indices i1 i2 s1 s2 = Ok k /\ zget (rowMajor2 s1 s2) k = Some (i1, i2).
Proof.
  intros. exists (i1 * s2 + i2). split; [now apply compress2_ok|now apply zget_rowMajor2].
Qed.

(** * splitVector *)
Lemma splitVector_ok {A} (c : nat) : (1 <= c)%nat -> forall fuel (l : list A), (length l <= fuel)%nat ->
  exists ch, splitVector_loop fuel l c = Some ch /\ concat ch = l /\
    Forall (fun x => (1 <= length x <= c)%nat) ch /\
    (forall i x, nth_error ch i = Some x -> (S i < length ch)%nat -> length x = c).
Proof.
  intros Hc. induction fuel as [|fuel IH]; intros l Hl.
  - destruct l; [|cbn in Hl; lia]. exists []. cbn. repeat split; auto. intros [|i] x H; discriminate.
  - destruct l as [|a l].
    + exists []. cbn. repeat split; auto. intros [|i] x H; discriminate.
    + cbn [splitVector_loop].
      set (num := Nat.min (length (a :: l)) c).
      assert (Hnum : (1 <= num <= c)%nat /\ (num <= length (a :: l))%nat) by (unfold num; cbn [length]; lia).
      destruct (IH (skipn num (a :: l))) as (ch & E & Hcat & Hall & Hfull).
      { rewrite skipn_length. cbn [length] in *. lia. }
      rewrite E. eexists; split; [reflexivity|]. split; [|split].
      * cbn [concat]. rewrite Hcat. apply firstn_skipn.
      * constructor; [rewrite firstn_length; lia|exact Hall].
      * intros [|i] x Hx Hi.
        -- cbn [nth_error] in Hx. injection Hx as <-. rewrite firstn_length.
           assert (skipn num (a :: l) <> []).
           { intros Hn. destruct ch as [|y ch]; [cbn in Hi; lia|].
             rewrite Hn in Hcat. inversion Hall; subst. cbn in Hcat.
             destruct y; [cbn in *; lia|discriminate]. }
           assert (Hs := skipn_length num (a :: l)).
           destruct (skipn num (a :: l)) eqn:Esk; [congruence|].
           unfold num in *. cbn [length] in *. lia.
        -- cbn in Hx, Hi. eapply Hfull; eauto. lia.
Qed.

Lemma splitVector_zero_diverges {A} (a : A) l fuel : splitVector_loop fuel (a :: l) 0 = None.
Proof.
  induction fuel as [|fuel IH]; [reflexivity|].
  cbn [splitVector_loop]. replace (Nat.min (length (a :: l)) 0) with O by lia.
  cbn [skipn]. now rewrite IH.
Qed.

(** * findMaxRelativeDifference *)
Lemma fmrd_fold_min (l : list (option Q)) (m0 : Q) :
  let m := fold_left fmrd_step l m0 in
  (m <= m0)%Q /\ (forall v, In (Some v) l -> (m <= v)%Q) /\
  (m = m0 \/ In (Some m) l).
Proof.
  revert m0. induction l as [|d l IH]; intros m0; cbn [fold_left].
  - split; [apply Qle_refl|]. split; [intros v []|now left].
  - destruct (IH (fmrd_step m0 d)) as (A & B & C).
    assert (S : (fmrd_step m0 d <= m0)%Q /\ (forall v, d = Some v -> (fmrd_step m0 d <= v)%Q) /\
                (fmrd_step m0 d = m0 \/ d = Some (fmrd_step m0 d))).
    { destruct d as [v|]; cbn [fmrd_step].
      - destruct (Qle_bool m0 v) eqn:E; cbn [negb].
        + split; [apply Qle_refl|]. split; [|now left].
          intros w [= <-]. now apply Qle_bool_iff.
        + assert (v < m0)%Q.
          { apply Qnot_le_lt. intros H. apply Qle_bool_iff in H. congruence. }
          split; [now apply Qlt_le_weak|]. split; [|now right].
          intros w [= <-]. apply Qle_refl.
      - split; [apply Qle_refl|]. split; [discriminate|now left]. }
    destruct S as (S1 & S2 & S3).
    split; [eapply Qle_trans; eauto|]. split.
    + intros v [Hv|Hv]; [|now apply B]. eapply Qle_trans; [exact A|]. now apply S2.
    + destruct C as [C|C]; [|now right; right].
      rewrite C. destruct S3 as [S3|S3]; [now left|right; left; exact S3].
Qed.

Lemma nth_error_combine {A B} (l : list A) (l' : list B) i a b :
  nth_error l i = Some a -> nth_error l' i = Some b -> nth_error (combine l l') i = Some (a, b).
Proof.
  revert l' i. induction l as [|x l IH]; intros [|y l'] [|i] H H'; cbn in *; try discriminate.
  - congruence.
  - eauto.
Qed.

Lemma nth_error_combine_inv {A B} (l : list A) (l' : list B) i a b :
  nth_error (combine l l') i = Some (a, b) -> nth_error l i = Some a /\ nth_error l' i = Some b.
Proof.
  revert l' i. induction l as [|x l IH]; intros [|y l'] [|i] H; cbn in *; try discriminate.
  - inversion H; auto.
  - eauto.
Qed.

Lemma fmrd_is_min x xRef m :
  Forall (fun b => ~ (b == 0)%Q) xRef ->
  findMaxRelativeDifference x xRef = Ok m -> isMinRelChange x xRef m.
Proof.
  intros Hnz. unfold findMaxRelativeDifference.
  destruct (Nat.eqb (length x) (length xRef)) eqn:El; cbn [negb]; [|discriminate].
  set (ds := map _ _). destruct (Qeq_bool _ _) eqn:E0; [discriminate|].
  intros [= Hm]. destruct (fmrd_fold_min ds big1e20) as (A & B & C). rewrite Hm in A, B, C.
  assert (D : forall i a b, nth_error x i = Some a -> nth_error xRef i = Some b ->
               In (Some (Qabs ((a - b) / b))) ds).
  { intros i a b Ha Hb. unfold ds.
    assert (Hab := nth_error_combine _ _ _ _ _ Ha Hb). apply nth_error_In in Hab.
    apply in_map_iff. exists (a, b). split; [|exact Hab]. unfold relDiff. cbn [fst snd].
    destruct (Qeq_bool b 0) eqn:Eb; [|reflexivity].
    apply Qeq_bool_iff in Eb. apply nth_error_In in Hb.
    rewrite Forall_forall in Hnz. exfalso; eapply Hnz; eauto. }
  split.
  - destruct C as [C|C].
    + subst m. rewrite C in E0. assert (Qeq_bool big1e20 big1e20 = true) by reflexivity. congruence.
    + unfold ds in C. apply in_map_iff in C. destruct C as ([a b] & C1 & C2).
      apply In_nth_error in C2. destruct C2 as [i Hi]. apply nth_error_combine_inv in Hi.
      exists i, a, b. split; [tauto|]. split; [tauto|].
      unfold relDiff in C1. cbn [fst snd] in C1. destruct (Qeq_bool b 0); [discriminate|].
      injection C1 as <-. reflexivity.
  - intros i a b Ha Hb. apply B. eauto.
Qed.

Lemma fmrd_not_max :
  exists x xRef m, Forall (fun b => ~ (b == 0)%Q) xRef /\ findMaxRelativeDifference x xRef = Ok m /\
                   ~ isMaxRelChange x xRef m.
Proof.
  exists [1; 3]%Q, [1; 1]%Q. eexists. split; [|split; [vm_compute; reflexivity|]].
  - repeat constructor; discriminate.
  - intros [_ H]. specialize (H 1%nat 3%Q 1%Q eq_refl eq_refl). vm_compute in H. now apply H.
Qed.

(** * tokenize *)
Lemma isTokSep_spec c : isTokSep c = true <-> separator c.
Proof.
  unfold separator. split.
  - destruct c as [[] [] [] [] [] [] [] []]; vm_compute; intros H; try discriminate H; tauto.
  - intros H. cbn in H. decompose [or] H; subst; try reflexivity; contradiction.
Qed.

Lemma isTokSep_false c : isTokSep c = false <-> ~ separator c.
Proof. rewrite <- isTokSep_spec. destruct (isTokSep c); split; congruence. Qed.

Lemma tokPieces_word w : Forall (fun c => ~ separator c) w -> forall cur s,
  tokPieces cur (w ++ s) = tokPieces (rev w ++ cur) s.
Proof.
  induction w as [|c w IH]; intros H cur s; [reflexivity|].
  inversion H; subst. cbn [app tokPieces].
  apply isTokSep_false in H2. rewrite H2, IH by assumption.
  cbn [rev]. now rewrite <- app_assoc.
Qed.

Lemma tokenize_seps seps s : Forall separator seps -> tokenize (seps ++ s) = tokenize s.
Proof.
  induction 1 as [|c seps H _ IH]; [reflexivity|].
  unfold tokenize in *. cbn [app tokPieces]. apply isTokSep_spec in H. rewrite H.
  cbn [rev filter nonempty]. exact IH.
Qed.

Lemma nonempty_rev {A} (l : list A) : nonempty (rev l) = nonempty l.
Proof.
  destruct l as [|x l]; [reflexivity|]. cbn [rev].
  destruct (rev l); reflexivity.
Qed.

Lemma tokenize_word w c s : w <> [] -> Forall (fun c => ~ separator c) w -> separator c ->
  tokenize (w ++ c :: s) = w :: tokenize (c :: s).
Proof.
  intros Hn Hw Hc. unfold tokenize. rewrite tokPieces_word by assumption.
  cbn [tokPieces]. apply isTokSep_spec in Hc. rewrite Hc. cbn [filter rev nonempty].
  rewrite app_nil_r, rev_involutive. destruct w; [congruence|reflexivity].
Qed.

Lemma tokenize_last w : w <> [] -> Forall (fun c => ~ separator c) w -> tokenize w = [w].
Proof.
  intros Hn Hw. unfold tokenize. rewrite <- (app_nil_r w) at 1. rewrite tokPieces_word by assumption.
  cbn [tokPieces filter]. rewrite app_nil_r, rev_involutive. destruct w; [congruence|reflexivity].
Qed.

Lemma Tokens_tokenize s toks : Tokens s toks -> tokenize s = toks.
Proof.
  induction 1 as [seps H | seps w H Hn Hw | seps w c rest toks H Hn Hw Hc HT IH].
  - rewrite <- (app_nil_r seps). rewrite tokenize_seps by assumption. reflexivity.
  - rewrite tokenize_seps by assumption. now apply tokenize_last.
  - rewrite tokenize_seps by assumption. rewrite tokenize_word by assumption. now rewrite IH.
Qed.

Lemma separator_dec c : {separator c} + {~ separator c}.
Proof. destruct (isTokSep c) eqn:E; [left; now apply isTokSep_spec|right; now apply isTokSep_false]. Qed.

Lemma take_run (P : ascii -> Prop) (Pd : forall c, {P c} + {~ P c}) s :
  exists a b, s = a ++ b /\ Forall P a /\ (b = [] \/ exists c b', b = c :: b' /\ ~ P c).
Proof.
  induction s as [|c s IH].
  - exists [], []. auto.
  - destruct (Pd c) as [H|H].
    + destruct IH as (a & b & E & Ha & Hb). exists (c :: a), b. subst. auto.
    + exists [], (c :: s). split; [reflexivity|]. split; [constructor|]. right; eauto.
Qed.

Lemma Tokens_exists s : exists toks, Tokens s toks.
Proof.
  remember (length s) as n. assert (H : (length s <= n)%nat) by lia. clear Heqn.
  revert s H. induction n as [|n IH]; intros s H.
  - destruct s; [|cbn in H; lia]. exists []. apply (TokEnd []). constructor.
  - destruct (take_run separator separator_dec s) as (a & b & E & Ha & Hb).
    destruct Hb as [->|(c & b' & -> & Hc)].
    + exists []. rewrite app_nil_r in E. subst. now constructor.
    + assert (nd : forall c, {~ separator c} + {~ ~ separator c}).
      { intros x. destruct (separator_dec x); [right; tauto|now left]. }
      destruct (take_run (fun c => ~ separator c) nd (c :: b')) as (w & r & E2 & Hw & Hr).
      assert (w <> []).
      { intros ->. cbn in E2. subst r. destruct Hr as [Hr|(x & y & Hr & Hx)]; [discriminate|].
        injection Hr as <- <-. tauto. }
      destruct Hr as [->|(x & r' & -> & Hx)].
      * exists [w]. subst s. rewrite E2, app_nil_r. now constructor.
      * destruct (IH (x :: r')) as (toks & HT).
        { assert (L : length s = (length a + (length w + length (x :: r')))%nat)
            by (rewrite E, E2, !app_length; reflexivity).
          destruct w; [congruence|]. cbn [length] in *. lia. }
        exists (w :: toks). subst s. rewrite E2. constructor; auto.
        destruct (separator_dec x); [assumption|tauto].
Qed.

Lemma tokenize_spec s toks : tokenize s = toks <-> Tokens s toks.
Proof.
  split; [|apply Tokens_tokenize].
  intros <-. destruct (Tokens_exists s) as (t & Ht). now rewrite (Tokens_tokenize _ _ Ht).
Qed.

Lemma cmod_remainder a b : 0 < b <= 1073741824 ->
  exists m, cmod a b = Ok m /\ 0 <= m < b /\ exists q, a = q * b + m.
Proof.
  intros Hb. exists (a mod b). split; [now apply cmod_ok|].
  split; [apply Z.mod_pos_bound; lia|]. exists (a / b).
  assert (D := Z.div_mod a b ltac:(lia)). lia.
Qed.
Lemma cmod_periodic a b n : 0 < b <= 1073741824 -> cmod (a + n * b) b = cmod a b.
Proof. intros Hb. rewrite !cmod_ok by lia. f_equal. apply Z.mod_add. lia. Qed.
Lemma cmod_overflows : exists a b, 0 < b <= INT_MAX /\ 0 <= a <= INT_MAX /\ cmod a b = UB.
Proof. exists (INT_MAX - 1), INT_MAX. vm_compute. repeat split; discriminate. Qed.
