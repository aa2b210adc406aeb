(** Lemmas for C142 *)
From Coq Require Import Ascii String Sorted.
From Verif Require Import Base BaseLemmas M_context L_context M_io S_io.
From Coq Require Import Lia.
Open Scope Z_scope.

Lemma option_iff args o v : getCmdOption args o = Some v <-> valueOf args o v.
Proof.
  unfold valueOf. induction args as [|a r IH]; cbn [getCmdOption].
  - split; [discriminate|]. intros (b & c & E & _). destruct b; discriminate.
  - destruct (streq a o) eqn:S.
    + apply streq_eq in S. subst a. split.
      * destruct r as [|w r]; [discriminate|]. cbn. intro E. injection E as ->. exists [], r. split; [reflexivity|intros []].
      * intros (b & c & E & N). destruct b as [|x b]; [injection E as ->; reflexivity|]. injection E as E1 _. exfalso. apply N. left. symmetry. exact E1.
    + apply streq_neq in S. rewrite IH. split.
      * intros (b & c & E & N). exists (a :: b), c. split; [rewrite E; reflexivity|]. intros [X|X]; [congruence|contradiction].
      * intros (b & c & E & N). destruct b as [|x b]; [injection E as E1 _; congruence|]. injection E as E1 E2. exists b, c. split; [exact E2|]. intro X. apply N. right. exact X.
Qed.
Lemma digits_ok : forall fuel n, 0 < n -> n <= Z.of_nat fuel -> 1 <= digitsFrom fuel n /\ 10 ^ (digitsFrom fuel n - 1) <= n < 10 ^ digitsFrom fuel n.
Proof.
  induction fuel as [|k IH]; intros n H F; [lia|]. cbn [digitsFrom]. destruct (Z.ltb_spec n 10) as [L|L].
  - cbn. lia.
  - pose proof (Z.div_mod n 10 ltac:(lia)) as D. pose proof (Z.mod_pos_bound n 10 ltac:(lia)). destruct (IH (n / 10)) as (A & B & C); [lia|lia|]. split; [lia|].
    replace (1 + digitsFrom k (n / 10) - 1) with (Z.succ (digitsFrom k (n / 10) - 1)) by lia. rewrite Z.pow_succ_r by lia. replace (1 + digitsFrom k (n / 10)) with (Z.succ (digitsFrom k (n / 10))) by lia. rewrite Z.pow_succ_r by lia. lia.
Qed.

(** printed steps, counted from 1 *)
Definition printed (n : Z) (s : Z) : bool := (s =? 1) || (s =? 3) || (s =? n) || (Z.rem s (if n <? 10 then 1 else Z.quot n 10) =? 0).
Lemma updates_lines n d : forall k c, -1 <= c -> updates k {| numSteps := n; reportEvery := if n <? 10 then 1 else Z.quot n 10; stepDigits := d; currentStep := c |} =
  map (fun s => (100 * s / n, s)) (filter (printed n) (zrange (c + 2) (Z.of_nat k))).
Proof.
  induction k as [|k IH]; intros c C; [reflexivity|]. rewrite zrange_cons by lia. replace (Z.of_nat (S k) - 1) with (Z.of_nat k) by lia. cbn [updates update numSteps reportEvery stepDigits currentStep filter].
  unfold printed at 1. set (re := if n <? 10 then 1 else Z.quot n 10). unfold update. cbn [numSteps reportEvery stepDigits currentStep]. fold re.
  assert (E1 : (c + 1 =? 0) = (c + 2 =? 1)) by (apply eq_true_iff_eq; rewrite !Z.eqb_eq; lia).
  assert (E2 : (c + 1 =? 2) = (c + 2 =? 3)) by (apply eq_true_iff_eq; rewrite !Z.eqb_eq; lia).
  assert (E3 : (c + 1 =? n - 1) = (c + 2 =? n)) by (apply eq_true_iff_eq; rewrite !Z.eqb_eq; lia).
  replace (c + 1 + 1) with (c + 2) by lia. rewrite E1, E2, E3.
  specialize (IH (c + 1) ltac:(lia)). fold re in IH. replace (c + 1 + 2) with (c + 2 + 1) in IH by lia.
  destruct ((c + 2 =? 1) || (c + 2 =? 3) || (c + 2 =? n) || (Z.rem (c + 2) re =? 0)) eqn:P.
  - assert (O : (c + 1 <=? 2) || (Z.rem (c + 2) re =? 0) || (c + 2 =? n) = true).
    { apply orb_true_iff in P. destruct P as [P|P]; [|rewrite P, orb_true_r; reflexivity]. apply orb_true_iff in P. destruct P as [P|P]; [|rewrite P, orb_true_r; reflexivity].
      apply orb_true_iff in P. destruct P as [P|P]; apply Z.eqb_eq in P; rewrite (proj2 (Z.leb_le (c + 1) 2)) by lia; reflexivity. }
    rewrite O. cbn [map]. unfold percentage. replace (c + 1 + 1) with (c + 2) by lia. rewrite IH. reflexivity.
  - destruct ((c + 1 <=? 2) || (Z.rem (c + 2) re =? 0) || (c + 2 =? n)); exact IH.
Qed.
Lemma report_lines n : 0 < n -> report n = Ok (map (fun s => (100 * s / n, s)) (filter (printed n) (zrange 1 n))).
Proof.
  intro H. unfold report, newLoop, digits. rewrite (proj2 (Z.leb_gt _ _)) by lia. cbn [bind]. rewrite updates_lines by lia. rewrite Z2Nat.id by lia. reflexivity.
Qed.
Lemma sorted_lines n : 0 < n -> forall l, StronglySorted Z.lt l -> StronglySorted later (map (fun s => (100 * s / n, s)) l).
Proof.
  intros H l S. induction S as [|x l S IH F]; cbn [map]; constructor; [exact IH|]. rewrite Forall_forall in *. intros y Hy. apply in_map_iff in Hy. destruct Hy as (z & <- & Hz). specialize (F z Hz). unfold later. cbn [fst snd].
  split; [exact F|]. apply Z.div_le_mono; lia.
Qed.
Lemma sorted_zrange : forall k a, StronglySorted Z.lt (zrange a (Z.of_nat k)).
Proof. induction k as [|k IH]; intro a; [constructor|]. rewrite zrange_cons by lia. replace (Z.of_nat (S k) - 1) with (Z.of_nat k) by lia. constructor; [apply IH|]. apply Forall_forall. intros y Hy. apply in_zrange in Hy. lia. Qed.
Lemma sorted_filter {A} (R : A -> A -> Prop) f l : StronglySorted R l -> StronglySorted R (filter f l).
Proof. intro S. induction S as [|x l S IH F]; cbn; [constructor|]. destruct (f x); [|exact IH]. constructor; [exact IH|]. rewrite Forall_forall in *. intros y Hy. apply filter_In in Hy. apply F, Hy. Qed.
Lemma zrange_snoc n : 0 < n -> zrange 1 n = zrange 1 (n - 1) ++ [n].
Proof.
  intro H. unfold zrange. replace (Z.to_nat n) with (S (Z.to_nat (n - 1))) by lia. rewrite seq_S, map_app. cbn [map Nat.add]. f_equal. f_equal. lia.
Qed.
Lemma report_good n : 0 < n -> exists l, report n = Ok l /\ goodReport n l.
Proof.
  intro H. eexists. split; [apply report_lines, H|]. split; [|split].
  - apply sorted_lines; [exact H|]. apply sorted_filter. rewrite <- (Z2Nat.id n) by lia. apply sorted_zrange.
  - apply Forall_forall. intros p Hp. apply in_map_iff in Hp. destruct Hp as (s & <- & Hs). apply filter_In in Hs. destruct Hs as [Hs _]. apply in_zrange in Hs. cbn [fst snd]. split; [|lia]. split; [apply Z.div_pos; lia|apply Z.div_le_upper_bound; lia].
  - rewrite zrange_snoc, filter_app by exact H. cbn [filter]. unfold printed at 2. rewrite Z.eqb_refl, orb_true_r. cbn [orb]. rewrite map_app. cbn [map]. rewrite last_last. f_equal. rewrite Z.div_mul by lia. reflexivity.
Qed.

(** at most 22 lines *)
Lemma filter_or {A} f g (l : list A) : (length (filter (fun x => f x || g x) l) <= length (filter f l) + length (filter g l))%nat.
Proof. induction l as [|x l IH]; cbn; [lia|]. destruct (f x), (g x); cbn; lia. Qed.
Lemma filter_eq (a : Z) l : NoDup l -> (length (filter (fun x => (x =? a)%Z) l) <= 1)%nat.
Proof.
  intro N. induction N as [|x l Hx N IH]; cbn; [lia|]. destruct (Z.eqb_spec x a) as [->|D]; [|exact IH]. cbn. replace (filter _ l) with (@nil Z); [cbn; lia|].
  symmetry. clear -Hx. induction l as [|y l IH]; [reflexivity|]. cbn. destruct (Z.eqb_spec y a) as [->|]; [exfalso; apply Hx; left; reflexivity|]. apply IH. intro. apply Hx. right. assumption.
Qed.
Lemma multiples r : 0 < r -> forall k, Z.of_nat (length (filter (fun s => Z.rem s r =? 0) (zrange 1 (Z.of_nat k)))) <= Z.of_nat k / r.
Proof.
  intro R. induction k as [|k IH]; [cbn; lia|]. rewrite zrange_snoc by lia. replace (Z.of_nat (S k) - 1) with (Z.of_nat k) by lia. rewrite filter_app, app_length, Nat2Z.inj_add. cbn [filter].
  rewrite Z.rem_mod_nonneg by lia. destruct (Z.eqb_spec (Z.of_nat (S k) mod r) 0) as [M|M]; cbn [length].
  - assert (Z.of_nat k / r + 1 <= Z.of_nat (S k) / r); [|lia]. pose proof (Z.div_mod (Z.of_nat (S k)) r ltac:(lia)) as D. rewrite M, Z.add_0_r in D. set (q := Z.of_nat (S k) / r) in *.
    assert (Z.of_nat k / r < q); [|lia]. apply Z.div_lt_upper_bound; [exact R|lia].
  - pose proof (Z.div_le_mono (Z.of_nat k) (Z.of_nat (S k)) r R ltac:(lia)). lia.
Qed.
Lemma nodup_zrange k : forall a, NoDup (zrange a (Z.of_nat k)).
Proof. induction k as [|k IH]; intro a; [constructor|]. rewrite zrange_cons by lia. replace (Z.of_nat (S k) - 1) with (Z.of_nat k) by lia. constructor; [|apply IH]. intro H. apply in_zrange in H. lia. Qed.
Lemma report_short n l : 0 < n -> report n = Ok l -> (length l <= 22)%nat.
Proof.
  intros H E. rewrite report_lines in E by exact H. injection E as <-. rewrite map_length. unfold printed.
  set (re := if n <? 10 then 1 else Z.quot n 10). set (Rg := zrange 1 n). assert (N : NoDup Rg) by (unfold Rg; rewrite <- (Z2Nat.id n) by lia; apply nodup_zrange).
  pose proof (filter_or (fun s => (s =? 1) || (s =? 3) || (s =? n)) (fun s => Z.rem s re =? 0) Rg) as A. pose proof (filter_or (fun s => (s =? 1) || (s =? 3)) (fun s => s =? n) Rg) as B. pose proof (filter_or (fun s => s =? 1) (fun s => s =? 3) Rg) as C.
  pose proof (filter_eq 1 Rg N). pose proof (filter_eq 3 Rg N). pose proof (filter_eq n Rg N).
  assert (M : (length (filter (fun s => (Z.rem s re =? 0)%Z) Rg) <= 19)%nat); [|lia].
  assert (R : 0 < re) by (unfold re; destruct (Z.ltb_spec n 10); [lia|]; rewrite Z.quot_div_nonneg by lia; apply Z.div_str_pos; lia).
  pose proof (multiples re R (Z.to_nat n)) as Mu. rewrite Z2Nat.id in Mu by lia. fold Rg in Mu. assert (n / re <= 19); [|lia]. clear -R H. unfold re in *. destruct (Z.ltb_spec n 10) as [L|L]; [rewrite Z.div_1_r; lia|].
  rewrite Z.quot_div_nonneg in * by lia. assert (n / (n / 10) < 20); [|lia]. apply Z.div_lt_upper_bound; [exact R|]. pose proof (Z.div_mod n 10 ltac:(lia)). pose proof (Z.mod_pos_bound n 10 ltac:(lia)). lia.
Qed.
