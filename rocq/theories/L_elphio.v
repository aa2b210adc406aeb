From Coq Require Import Permutation.
From Verif Require Import Base BaseLemmas M_mpi S_mpi L_mpi M_elphio S_elphio.
From Coq Require Import Lia.
Open Scope Z_scope.

Lemma div_step W i y : 0 <= i < W -> (i + W * y) / W = y.
Proof. intro H. rewrite (Z.mul_comm W y), Z.div_add by lia. rewrite Z.div_small by lia. lia. Qed.
Lemma mod_step W i y : 0 <= i < W -> (i + W * y) mod W = i.
Proof. intro H. rewrite (Z.mul_comm W y), Z_mod_plus_full. apply Z.mod_small. lia. Qed.
Definition flat (d : dims) (i j nu p e : Z) : Z := i + dW d * (j + dW d * (nu + dM d * (p + dP d * e))).
Lemma data_flat {A} d (g : tensor5 A) i j nu p e : inRange d i j nu p -> data d g (flat d i j nu p e) = g i j nu p e.
Proof. intros (Hi & Hj & Hn & Hp). unfold data, flat. now rewrite !div_step, !mod_step by assumption. Qed.
Lemma slice_flat {A} d (g : tensor5 A) i j nu p e : inRange d i j nu p -> sliceData d g e (i + dW d * (j + dW d * (nu + dM d * p))) = g i j nu p e.
Proof. intros (Hi & Hj & Hn & Hp). unfold sliceData. now rewrite !div_step, !mod_step by assumption. Qed.
Definition flat0 d i j nu p := i + dW d * (j + dW d * (nu + dM d * p)).
Lemma flat_split d i j nu p e : flat d i j nu p e = flat0 d i j nu p + e * perVec d.
Proof. unfold flat, flat0, perVec. ring. Qed.
Lemma flat0_bounds d i j nu p : inRange d i j nu p -> 0 <= flat0 d i j nu p < perVec d.
Proof.
  intros (Hi & Hj & Hn & Hp). unfold flat0, perVec.
  assert (A1 : 0 <= nu + dM d * p < dM d * dP d) by nia.
  assert (A2 : 0 <= j + dW d * (nu + dM d * p) < dW d * (dM d * dP d)) by nia.
  assert (A3 : 0 <= i + dW d * (j + dW d * (nu + dM d * p)) < dW d * (dW d * (dM d * dP d))) by nia. lia.
Qed.
Lemma flat_shift d i j nu p e c : flat d i j nu p e - c * perVec d = flat d i j nu p (e - c).
Proof. rewrite !flat_split. ring. Qed.
Lemma perVec_pos d : positive d -> 0 < perVec d.
Proof. intros (H1 & H2 & H3 & _). unfold perVec. nia. Qed.
(** a position belongs to the block of its lattice vector *)
Lemma flat_region d i j nu p e a b : inRange d i j nu p -> (a * perVec d <= flat d i j nu p e < b * perVec d <-> a <= e < b).
Proof. intro H. apply flat0_bounds in H. rewrite flat_split. split; intro K; nia. Qed.

(** * bunches *)
Lemma bunches_from_sum mx sp : forall n cur, 0 <= cur -> fold_right Z.add 0 (bunchesFrom mx sp cur n) = cur + Z.of_nat n /\ Forall (fun b => 0 <= b) (bunchesFrom mx sp cur n).
Proof.
  induction n as [|n IH]; intros cur Hc; [cbn; split; [lia|now repeat constructor]|].
  cbn [bunchesFrom]. destruct (mx <? (cur + 1 + 1) * sp).
  - destruct (IH 0 ltac:(lia)) as [S F]. cbn [fold_right]. rewrite S. split; [lia|]. constructor; [lia|exact F].
  - destruct (IH (cur + 1) ltac:(lia)) as [S F]. rewrite S. split; [lia|exact F].
Qed.
Lemma bunches_sum mx sp n : 0 <= n -> fold_right Z.add 0 (bunches mx sp n) = n /\ Forall (fun b => 0 <= b) (bunches mx sp n).
Proof. intro H. unfold bunches. destruct (bunches_from_sum mx sp (Z.to_nat n) 0 ltac:(lia)) as [S F]. rewrite S. split; [lia|exact F]. Qed.
Lemma bunches_one_from mx sp : forall n cur, 0 <= cur -> 0 < sp -> (cur + Z.of_nat n) * sp <= mx ->
  bunchesFrom mx sp cur n = [cur + Z.of_nat n] \/ bunchesFrom mx sp cur n = [cur + Z.of_nat n; 0].
Proof.
  induction n as [|n IH]; intros cur Hc Hs Hm; [left; cbn; f_equal; lia|].
  cbn [bunchesFrom]. destruct (mx <? (cur + 1 + 1) * sp) eqn:E.
  - apply Z.ltb_lt in E. destruct n; [right; cbn; f_equal; lia|]. exfalso. nia.
  - replace (cur + Z.of_nat (S n)) with (cur + 1 + Z.of_nat n) by lia. apply IH; lia.
Qed.
Lemma bunches_one mx sp n : 0 <= n -> 0 < sp -> n * sp <= mx -> bunches mx sp n = [n] \/ bunches mx sp n = [n; 0].
Proof. intros H1 H2 H3. unfold bunches. destruct (bunches_one_from mx sp (Z.to_nat n) 0) as [E | E]; try lia; rewrite E; rewrite Z2Nat.id by lia; auto. Qed.

(** * format 1 *)
Lemma writeBunches_whole {A} sp start len (buf : Z -> A) : 0 <= sp -> 0 <= start -> len <= 2147483647 -> forall bs net ds, 0 <= net -> Forall (fun b => 0 <= b) bs ->
  start + net + fold_right Z.add 0 bs * sp <= len ->
  exists ds', writeBunches false sp start net len buf bs ds = Ok ds' /\ forall x, ds' x = if (start + net <=? x) && (x <? start + net + fold_right Z.add 0 bs * sp) then Some (buf x) else ds x.
Proof.
  intros Hs Hst Hlen. induction bs as [|b bs IH]; intros net ds Hn HF Hl.
  - exists ds. split; [reflexivity|]. intro x. cbn [fold_right]. destruct (Z.leb_spec (start + net) x), (Z.ltb_spec x (start + net + 0 * sp)); cbn; try reflexivity. lia.
  - inversion HF as [|? ? Hb HF']; subst. cbn [fold_right] in *. cbn [writeBunches].
    assert (Hsum : 0 <= fold_right Z.add 0 bs) by (clear -HF'; induction HF'; cbn; lia).
    assert (Hbs : 0 <= b * sp) by nia. assert (Hss : 0 <= fold_right Z.add 0 bs * sp) by nia.
    rewrite Z.mul_add_distr_r in Hl.
    replace (2147483647 <? start + net) with false by (symmetry; apply Z.ltb_ge; lia). replace (len <? start + net + b * sp) with false by (symmetry; apply Z.ltb_ge; lia).
    destruct (IH (net + b * sp) (selectWrite (start + net) (b * sp) (fun y => buf (start + net + y)) ds)) as (ds' & E & H); try assumption; try lia.
    exists ds'. split; [exact E|]. intro x. rewrite H. unfold selectWrite. rewrite Z.mul_add_distr_r.
    destruct (Z.leb_spec (start + (net + b * sp)) x), (Z.ltb_spec x (start + (net + b * sp) + fold_right Z.add 0 bs * sp)), (Z.leb_spec (start + net) x),
      (Z.ltb_spec x (start + net + b * sp)), (Z.ltb_spec x (start + net + (b * sp + fold_right Z.add 0 bs * sp))); cbn; try reflexivity; try lia.
    f_equal. f_equal. lia.
Qed.
Lemma writeBunches_one {A} sp start len (buf : Z -> A) n bs ds : 0 <= sp -> 0 <= n -> 0 <= len -> n * sp <= len -> bs = [n] \/ bs = [n; 0] ->
  exists ds', writeBunches true sp start 0 len buf bs ds = Ok ds' /\ forall x, ds' x = if (start <=? x) && (x <? start + n * sp) then Some (buf (x - start)) else ds x.
Proof.
  intros Hs Hn Hl0 Hl [-> | ->]; cbn [writeBunches]; change (2147483647 <? 0) with false; cbn [negb]; cbv iota; replace (len <? 0 + n * sp) with false by (symmetry; apply Z.ltb_ge; lia).
  - eexists. split; [reflexivity|]. intro x. unfold selectWrite. now rewrite Z.add_0_r.
  - replace (len <? 0 + 0 * sp) with false by (symmetry; apply Z.ltb_ge; lia). eexists. split; [reflexivity|]. intro x. unfold selectWrite. repeat rewrite Z.add_0_r. repeat rewrite Z.add_0_l.
    replace ((start + n * sp <=? x) && (x <? start + n * sp)) with false; [reflexivity|]. symmetry. apply Bool.andb_false_iff. rewrite Z.leb_gt, Z.ltb_ge. lia.
Qed.
Lemma last_zrange a n : 0 < n -> last (zrange a n) a = a + n - 1.
Proof. intro H. replace n with ((n - 1) + 1) at 1 by lia. rewrite zrange_S by lia. rewrite last_last. lia. Qed.
Lemma cut_lt n size r : 0 < size -> size <= n -> cut n size r < cut n size (r + 1).
Proof. intros H1 H2. unfold cut. assert (n * r / size + 1 <= n * (r + 1) / size); [|lia]. rewrite <- (Z.div_add (n * r) 1 size) by lia. apply Z.div_le_mono; lia. Qed.
Lemma cut_ge0 n size r : 0 <= n -> 0 < size -> 0 <= r -> 0 <= cut n size r.
Proof. intros. unfold cut. apply Z.div_pos; nia. Qed.
Lemma cut_le n size r : 0 <= n -> 0 < size -> r <= size -> cut n size r <= n.
Proof. intros. rewrite <- (cut_size n size) at 2 by assumption. now apply cut_mono_le. Qed.
Lemma cut_find n size e : fits n size -> 0 <= e < n -> exists r, 0 <= r < size /\ cut n size r <= e < cut n size (r + 1).
Proof.
  intros F He. destruct (divideWorkIter_partition n size F) as (shares & Es & Ec).
  assert (Hs : shares = map (fun r => zrange (cut n size r) (cut n size (r + 1) - cut n size r)) (zrange 0 size)).
  { rewrite (mapM_ok _ (fun r => zrange (cut n size r) (cut n size (r + 1) - cut n size r))) in Es. now injection Es as <-.
    intros r Hr. apply in_zrange in Hr. apply divideWorkIter_cut; [assumption|lia]. }
  assert (K : In e (concat shares)). { rewrite (proj1 Ec) || rewrite Ec. apply in_zrange. lia. }
  rewrite Hs in K. apply in_concat in K. destruct K as (l & Hl & Hin). apply in_map_iff in Hl. destruct Hl as (r & <- & Hr). apply in_zrange in Hr, Hin. exists r. split; lia.
Qed.
Lemma zget_zrange_inv a n k e : zget (zrange a n) k = Some e -> 0 <= k < n /\ e = a + k.
Proof.
  intro H. destruct (Z_lt_le_dec n 0) as [Hn|Hn].
  { exfalso. replace (zrange a n) with (@nil Z) in H. rewrite zget_None in H by (unfold zlen; cbn; lia). discriminate. unfold zrange. replace (Z.to_nat n) with O by lia. reflexivity. }
  destruct (Z_lt_le_dec k 0) as [Hk|Hk]; [exfalso; rewrite zget_None in H by lia; discriminate|].
  destruct (Z_lt_le_dec k n) as [Hk'|Hk'].
  - rewrite zget_zrange in H by lia. injection H as <-. lia.
  - exfalso. rewrite zget_None in H by (rewrite zlen_zrange by lia; lia). discriminate.
Qed.

(** what a process writes *)
Section One.
Context {A : Type}.
Variables (mx : Z) (d : dims) (size : Z) (g : tensor5 A) (parts : Z -> Z * tensor5 A).
Hypothesis Hpos : positive d.
Hypothesis Hfit : fits (dE d) size.
Hypothesis Hmany : size <= dE d.
Hypothesis Hmx : mx <= 2147483647.
Hypothesis Hparts : (whole d size g parts /\ perVec d * dE d <= 2147483647) \/
  (spread d size g parts /\ forall r, 0 <= r < size -> (cut (dE d) size (r + 1) - cut (dE d) size r) * perVec d <= mx).
Lemma share r : 0 <= r < size -> exists tl, divideWorkIter (dE d) r size = Ok (cut (dE d) size r :: tl) /\ cut (dE d) size r :: tl = zrange (cut (dE d) size r) (cut (dE d) size (r + 1) - cut (dE d) size r).
Proof.
  intro Hr. rewrite divideWorkIter_cut by assumption. pose proof (cut_lt (dE d) size r ltac:(destruct Hfit; lia) Hmany). rewrite (zrange_cons _ (cut (dE d) size (r + 1) - _)) by lia. eexists. split; reflexivity.
Qed.
Lemma writeRank_ok r ds : 0 <= r < size -> exists ds', writeRank mx d size r (fst (parts r)) (snd (parts r)) ds = Ok ds' /\
  forall i j nu p e, inRange d i j nu p -> ds' (flat d i j nu p e) = if (cut (dE d) size r <=? e) && (e <? cut (dE d) size (r + 1)) then Some (g i j nu p e) else ds (flat d i j nu p e).
Proof.
  intro Hr. destruct (share r Hr) as (tl & Ed & Ez). unfold writeRank. rewrite Ed. cbn [bind].
  set (c := cut (dE d) size r) in *. set (c' := cut (dE d) size (r + 1)) in *.
  assert (Hcc : c < c') by (apply cut_lt; destruct Hfit; lia). assert (H0 : 0 <= c) by (apply cut_ge0; destruct Hfit; lia). assert (HE : c' <= dE d) by (apply cut_le; destruct Hfit; lia).
  rewrite Ez, last_zrange by lia. replace (c + (c' - c) - 1 + 1 - c) with (c' - c) by lia.
  pose proof (perVec_pos d Hpos) as Hsp.
  assert (Reg : forall i j nu p e, inRange d i j nu p -> ((c * perVec d <=? flat d i j nu p e) && (flat d i j nu p e <? c * perVec d + (c' - c) * perVec d)) = ((c <=? e) && (e <? c'))).
  { intros i j nu p e HR. pose proof (flat_region d i j nu p e c c' HR) as K. replace (c * perVec d + (c' - c) * perVec d) with (c' * perVec d) by ring.
    destruct (Z.leb_spec (c * perVec d) (flat d i j nu p e)), (Z.ltb_spec (flat d i j nu p e) (c' * perVec d)), (Z.leb_spec c e), (Z.ltb_spec e c'); cbn; try reflexivity; lia. }
  destruct (bunches_sum mx (perVec d) (c' - c) ltac:(lia)) as [Hsum HF].
  destruct Hparts as [[Hw Hint] | [Hs Hone]].
  - destruct (Hw r Hr) as [Hloc Hg]. rewrite Hloc, Z.eqb_refl. cbn [negb].
    destruct (writeBunches_whole (perVec d) (c * perVec d) (perVec d * dE d) (data d (snd (parts r))) ltac:(lia) ltac:(nia) Hint (bunches mx (perVec d) (c' - c)) 0 ds ltac:(lia) HF) as (ds' & E & H).
    { rewrite Hsum. nia. }
    exists ds'. split; [exact E|]. intros i j nu p e HR. rewrite H, Hsum, Z.add_0_r, Reg by assumption.
    destruct (Z.leb_spec c e), (Z.ltb_spec e c'); cbn; try reflexivity. rewrite data_flat by assumption. rewrite Hg by (assumption || lia). reflexivity.
  - destruct (Hs r Hr) as (mine & Em & Hloc & Hg). rewrite Ed in Em. injection Em as <-. rewrite Ez, zlen_zrange in Hloc by lia.
    assert (Hloc' : fst (parts r) = c' - c) by lia. clear Hloc. rewrite Hloc'.
    assert (Hval : forall i j nu p e, inRange d i j nu p -> c <= e < c' -> snd (parts r) i j nu p (e - c) = g i j nu p e).
    { intros i j nu p e HR He. apply Hg; [assumption|]. rewrite Ez, zget_zrange by lia. f_equal. lia. }
    destruct (Z.eqb_spec (c' - c) (dE d)) as [Hall|Hne]; cbn [negb].
    + assert (c = 0) by lia. assert (c' = dE d) by lia.
      assert (Hle : perVec d * (c' - c) <= 2147483647) by (assert (Ho : (c' - c) * perVec d <= mx) by exact (Hone r Hr); lia).
      destruct (writeBunches_whole (perVec d) (c * perVec d) (perVec d * (c' - c)) (data d (snd (parts r))) ltac:(lia) ltac:(nia) Hle (bunches mx (perVec d) (c' - c)) 0 ds ltac:(lia) HF) as (ds' & E & H').
      { rewrite Hsum. nia. }
      exists ds'. split; [exact E|]. intros i j nu p e HR. rewrite H', Hsum, Z.add_0_r, Reg by assumption.
      destruct (Z.leb_spec c e), (Z.ltb_spec e c'); cbn; try reflexivity. rewrite data_flat by assumption. f_equal. rewrite <- Hval by (assumption || lia). f_equal. lia.
    + destruct (writeBunches_one (perVec d) (c * perVec d) (perVec d * (c' - c)) (data d (snd (parts r))) (c' - c) (bunches mx (perVec d) (c' - c)) ds ltac:(lia) ltac:(lia) ltac:(nia) ltac:(lia)
        (bunches_one mx (perVec d) (c' - c) ltac:(lia) Hsp (Hone r Hr))) as (ds' & E & H').
      exists ds'. split; [exact E|]. intros i j nu p e HR. rewrite H', Reg by assumption.
      destruct (Z.leb_spec c e), (Z.ltb_spec e c'); cbn; try reflexivity. rewrite flat_shift, data_flat by assumption. f_equal. apply Hval; (assumption || lia).
Qed.
End One.
