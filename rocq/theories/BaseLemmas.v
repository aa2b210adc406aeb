(** Lemmas about Base.v. *)
From Coq Require Import FinFun.
From Verif Require Import Base.

Ltac Zify.zify_post_hook ::= Z.div_mod_to_equations.

Lemma bind_Ok {A B} (a : A) (f : A -> res B) : bind (Ok a) f = f a.
Proof. reflexivity. Qed.

Lemma ck_ok z : INT_MIN <= z <= INT_MAX -> ck z = Ok z.
Proof.
  intros H. unfold ck.
  destruct (INT_MIN <=? z) eqn:E1; destruct (z <=? INT_MAX) eqn:E2; simpl; try reflexivity; lia.
Qed.

Lemma ck_inv z w : ck z = Ok w -> w = z /\ INT_MIN <= z <= INT_MAX.
Proof.
  unfold ck. destruct (INT_MIN <=? z) eqn:E1; destruct (z <=? INT_MAX) eqn:E2; simpl;
  intros H; inversion H; subst; lia.
Qed.

Lemma u64_small z : 0 <= z < 18446744073709551616 -> u64 z = z.
Proof. intros; unfold u64; apply Z.mod_small; lia. Qed.

Lemma to_int32_small z : INT_MIN <= z <= INT_MAX -> to_int32 z = z.
Proof.
  unfold INT_MIN, INT_MAX, to_int32; intros.
  rewrite Z.mod_small; lia.
Qed.

Lemma zlen_nonneg {A} (l : list A) : 0 <= zlen l.
Proof. unfold zlen; lia. Qed.

Lemma zlen_cons {A} (x : A) l : zlen (x :: l) = 1 + zlen l.
Proof. unfold zlen; cbn [length]; lia. Qed.

Lemma zlen_app {A} (l l' : list A) : zlen (l ++ l') = zlen l + zlen l'.
Proof. unfold zlen; rewrite app_length; lia. Qed.

Lemma zlen_map {A B} (f : A -> B) l : zlen (map f l) = zlen l.
Proof. unfold zlen; now rewrite map_length. Qed.

Lemma zrange_length a n : length (zrange a n) = Z.to_nat n.
Proof. unfold zrange; now rewrite map_length, seq_length. Qed.

Lemma zlen_zrange a n : 0 <= n -> zlen (zrange a n) = n.
Proof. intros; unfold zlen; rewrite zrange_length; lia. Qed.

Lemma zrange_nil a n : n <= 0 -> zrange a n = [].
Proof. intros; unfold zrange; replace (Z.to_nat n) with O by lia; reflexivity. Qed.

Lemma zrange_app a n m : 0 <= n -> 0 <= m -> zrange a n ++ zrange (a + n) m = zrange a (n + m).
Proof.
  intros Hn Hm; unfold zrange.
  replace (Z.to_nat (n + m)) with (Z.to_nat n + Z.to_nat m)%nat by lia.
  rewrite seq_app, map_app. f_equal.
  rewrite Nat.add_0_l.
  replace (Z.to_nat n) with (0 + Z.to_nat n)%nat at 2 by lia.
  remember (Z.to_nat m) as k.
  assert (G : forall s, map (fun i => a + n + Z.of_nat i) (seq s k)
          = map (fun i => a + Z.of_nat i) (seq (s + Z.to_nat n) k)).
  { clear Heqk. induction k as [|k IH]; intros s; [reflexivity|].
    cbn [seq map]. f_equal; [lia|]. rewrite IH. reflexivity. }
  apply (G O).
Qed.

Lemma zrange_S a n : 0 <= n -> zrange a (n + 1) = zrange a n ++ [a + n].
Proof.
  intros. rewrite <- zrange_app by lia. f_equal.
  unfold zrange. change (Z.to_nat 1) with 1%nat. cbn [seq map]. f_equal. lia.
Qed.

Lemma zrange_cons a n : 0 < n -> zrange a n = a :: zrange (a + 1) (n - 1).
Proof.
  intros. replace n with (1 + (n - 1)) at 1 by lia. rewrite <- zrange_app by lia.
  unfold zrange at 1. change (Z.to_nat 1) with 1%nat. cbn [seq map app].
  f_equal. lia.
Qed.

Lemma in_zrange a n x : In x (zrange a n) <-> a <= x < a + n.
Proof.
  unfold zrange. rewrite in_map_iff. split.
  - intros (i & Hi & H). apply in_seq in H. lia.
  - intros H. exists (Z.to_nat (x - a)). rewrite in_seq. lia.
Qed.

Lemma NoDup_zrange a n : NoDup (zrange a n).
Proof.
  unfold zrange. apply FinFun.Injective_map_NoDup; [|apply seq_NoDup].
  intros i j. lia.
Qed.

Lemma nth_error_zrange a n i : (i < Z.to_nat n)%nat ->
  nth_error (zrange a n) i = Some (a + Z.of_nat i).
Proof.
  intros H. unfold zrange. rewrite nth_error_map.
  rewrite (nth_error_nth' _ O) by (rewrite seq_length; lia).
  rewrite seq_nth by lia. reflexivity.
Qed.

Lemma zget_zrange a n i : 0 <= i < n -> zget (zrange a n) i = Some (a + i).
Proof.
  intros H. unfold zget. destruct (i <? 0) eqn:E; [lia|].
  rewrite nth_error_zrange by lia. f_equal; lia.
Qed.

Lemma zget_inrange {A} (l : list A) i : 0 <= i < zlen l -> exists x, zget l i = Some x.
Proof.
  intros H. unfold zget, zlen in *. destruct (i <? 0) eqn:E; [lia|].
  destruct (nth_error l (Z.to_nat i)) eqn:E2; [eauto|].
  apply nth_error_None in E2. lia.
Qed.

Lemma zget_Some {A} (l : list A) i x : zget l i = Some x -> 0 <= i < zlen l /\ In x l.
Proof.
  unfold zget, zlen. destruct (i <? 0) eqn:E; [discriminate|].
  intros H. split; [|eapply nth_error_In; eauto].
  assert (Z.to_nat i < length l)%nat by (apply nth_error_Some; congruence). lia.
Qed.

Lemma zget_None {A} (l : list A) i : ~ (0 <= i < zlen l) -> zget l i = None.
Proof.
  intros H. destruct (zget l i) eqn:E; [|reflexivity].
  apply zget_Some in E. tauto.
Qed.

Lemma zget_map {A B} (f : A -> B) l i : zget (map f l) i = option_map f (zget l i).
Proof. unfold zget. destruct (i <? 0); [reflexivity|]. apply nth_error_map. Qed.

Lemma zget_app1 {A} (l l' : list A) i : i < zlen l -> zget (l ++ l') i = zget l i.
Proof.
  intros H. unfold zget, zlen in *. destruct (i <? 0) eqn:E; [reflexivity|].
  apply nth_error_app1. lia.
Qed.

Lemma zget_app2 {A} (l l' : list A) i : zlen l <= i -> zget (l ++ l') i = zget l' (i - zlen l).
Proof.
  intros H. unfold zget, zlen in *.
  destruct (i <? 0) eqn:E; [lia|].
  destruct (i - Z.of_nat (length l) <? 0) eqn:E2; [lia|].
  rewrite nth_error_app2 by lia. f_equal. lia.
Qed.

Lemma zget_cons0 {A} (x : A) l : zget (x :: l) 0 = Some x.
Proof. reflexivity. Qed.

Lemma zget_consS {A} (x : A) l i : 0 < i -> zget (x :: l) i = zget l (i - 1).
Proof.
  intros. change (x :: l) with ([x] ++ l). rewrite zget_app2; [|unfold zlen; cbn; lia].
  f_equal.
Qed.

Lemma nth_error_ext {A} (l l' : list A) : (forall n, nth_error l n = nth_error l' n) -> l = l'.
Proof.
  revert l'. induction l as [|x l IH]; intros [|y l'] H; auto.
  - specialize (H O); discriminate.
  - specialize (H O); discriminate.
  - f_equal; [specialize (H O); now inversion H|].
    apply IH. intros n. apply (H (S n)).
Qed.

Lemma zget_ext {A} (l l' : list A) :
  zlen l = zlen l' -> (forall i, 0 <= i < zlen l -> zget l i = zget l' i) -> l = l'.
Proof.
  intros HL H. apply nth_error_ext. intros n.
  destruct (Nat.lt_ge_cases n (length l)) as [Hn|Hn].
  - specialize (H (Z.of_nat n)). unfold zget, zlen in *.
    destruct (Z.of_nat n <? 0) eqn:E; [lia|].
    rewrite Nat2Z.id in H. apply H. lia.
  - assert (length l' <= n)%nat by (unfold zlen in *; lia).
    rewrite (proj2 (nth_error_None l n)), (proj2 (nth_error_None l' n)); auto.
Qed.

(** Concatenating consecutive ranges cut at increasing points. *)
Lemma concat_ranges (cut : Z -> Z) (k : nat) :
  (forall i, 0 <= i < Z.of_nat k -> cut i <= cut (i + 1)) ->
  concat (map (fun r => zrange (cut r) (cut (r + 1) - cut r)) (zrange 0 (Z.of_nat k)))
  = zrange (cut 0) (cut (Z.of_nat k) - cut 0)
  /\ cut 0 <= cut (Z.of_nat k).
Proof.
  induction k as [|k IH]; intros H.
  - split; [|cbn; lia]. cbn. rewrite Z.sub_diag. reflexivity.
  - destruct IH as [IH1 IH2]; [intros; apply H; lia|].
    assert (Hk : cut (Z.of_nat k) <= cut (Z.of_nat k + 1)) by (apply H; lia).
    replace (Z.of_nat (S k)) with (Z.of_nat k + 1) by lia.
    split; [|lia].
    rewrite zrange_S by lia. rewrite map_app, concat_app, IH1. cbn.
    rewrite app_nil_r.
    replace (cut (Z.of_nat k)) with (cut 0 + (cut (Z.of_nat k) - cut 0)) at 2 by lia.
    rewrite zrange_app by lia. f_equal. lia.
Qed.

Lemma zsum_app l l' : zsum (l ++ l') = zsum l + zsum l'.
Proof. induction l as [|x l IH]; cbn; [reflexivity|]. unfold zsum in *. lia. Qed.

Lemma upd_nat_length {A} (l : list A) i v : length (upd_nat l i v) = length l.
Proof. revert i; induction l as [|x l IH]; intros [|i]; cbn; auto. Qed.

Lemma zlen_zupd {A} (l : list A) i v : zlen (zupd l i v) = zlen l.
Proof. unfold zupd, zlen. destruct (i <? 0); [reflexivity|]. now rewrite upd_nat_length. Qed.

Lemma nth_error_upd_eq {A} (l : list A) i v : (i < length l)%nat -> nth_error (upd_nat l i v) i = Some v.
Proof. revert i; induction l as [|x l IH]; intros [|i] H; cbn in *; try lia; auto. apply IH. lia. Qed.

Lemma nth_error_upd_ne {A} (l : list A) i j v : i <> j -> nth_error (upd_nat l i v) j = nth_error l j.
Proof.
  revert i j; induction l as [|x l IH]; intros [|i] [|j] H; cbn; auto; try congruence.
Qed.

Lemma zget_zupd_eq {A} (l : list A) i v : 0 <= i < zlen l -> zget (zupd l i v) i = Some v.
Proof.
  intros H. unfold zget, zupd, zlen in *. destruct (i <? 0) eqn:E; [lia|].
  apply nth_error_upd_eq. lia.
Qed.

Lemma zget_zupd_ne {A} (l : list A) i j v : i <> j -> zget (zupd l i v) j = zget l j.
Proof.
  intros H. unfold zget, zupd. destruct (j <? 0) eqn:E; [reflexivity|].
  destruct (i <? 0) eqn:E2; [reflexivity|].
  apply nth_error_upd_ne. lia.
Qed.

Lemma skipn_skipn {A} (x y : nat) (l : list A) : skipn x (skipn y l) = skipn (x + y) l.
Proof.
  revert l. induction y as [|y IH]; intros l.
  - now rewrite Nat.add_0_r.
  - destruct l as [|a l]; [now rewrite !skipn_nil|].
    rewrite Nat.add_succ_r. cbn [skipn]. apply IH.
Qed.
