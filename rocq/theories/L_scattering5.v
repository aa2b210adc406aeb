(** symmetrizeCoupling. *)
From Coq Require Import QArith Qcanon Permutation.
From Verif Require Import Base BaseLemmas M_matrix S_matrix L_matrix2 M_scattering S_scattering L_scattering L_scattering2 L_scattering4.
Open Scope Z_scope.

Lemma runLen_spec e es : 0 <= runLen e es <= zlen es /\ (forall i x, 0 <= i < runLen e es -> zget es i = Some x -> nearDeg e x = true) /\
  (forall x, zget es (runLen e es) = Some x -> nearDeg e x = false).
Proof.
  induction es as [|y es (IH1 & IH2 & IH3)]; cbn [runLen]; [repeat split; try (cbn; lia); intros; try lia; discriminate|].
  rewrite zlen_cons. destruct (nearDeg e y) eqn:N.
  - split; [lia|]. split.
    + intros i x Hi Hx. destruct (Z.eq_dec i 0) as [->|Hne]; [injection Hx as <-; exact N|]. apply (IH2 (i - 1)); [lia|]. rewrite <- Hx. unfold zget. destruct (i - 1 <? 0) eqn:A, (i <? 0) eqn:B; try lia.
      replace (Z.to_nat i) with (S (Z.to_nat (i - 1))) by lia. reflexivity.
    + intros x Hx. apply IH3. rewrite <- Hx. unfold zget. destruct (runLen e es <? 0) eqn:A, (1 + runLen e es <? 0) eqn:B; try lia. replace (Z.to_nat (1 + runLen e es)) with (S (Z.to_nat (runLen e es))) by lia. reflexivity.
  - split; [pose proof (zlen_nonneg es); lia|]. split; [intros; lia|]. intros x Hx. injection Hx as <-. exact N.
Qed.
Lemma runLen_pos e es : 0 < runLen e (e :: es).
Proof. cbn [runLen]. rewrite nearDeg_refl. pose proof (proj1 (runLen_spec e es)). lia. Qed.
Lemma zget_skipn {A} (l : list A) n i : 0 <= i -> zget (skipn n l) i = zget l (i + Z.of_nat n).
Proof.
  intro H. unfold zget. destruct (i <? 0) eqn:E; [lia|]. destruct (i + Z.of_nat n <? 0) eqn:E2; [lia|]. replace (Z.to_nat (i + Z.of_nat n)) with (n + Z.to_nat i)%nat by lia.
  clear. revert n. induction l as [|a l IH]; intros [|n]; cbn [skipn plus]; try reflexivity; [destruct (Z.to_nat i), (n + Z.to_nat i)%nat; reflexivity|]. apply IH.
Qed.
(** runs tile the bands; every run starts at its energy *)
Fixpoint tiled (a : Z) (rs : list (Z * Z)) (n : Z) : Prop :=
  match rs with [] => a = n | (s, d) :: r => s = a /\ 0 < d /\ tiled (a + d) r n end.
Definition goodRun (es : list Qc) (run : Z * Z) : Prop :=
  let '(s, d) := run in exists e, zget es s = Some e /\ (forall b x, s <= b < s + d -> zget es b = Some x -> nearDeg e x = true) /\
    (forall x, zget es (s + d) = Some x -> nearDeg e x = false).
Lemma runs_spec es : forall fuel a, 0 <= a <= zlen es -> (Z.to_nat (zlen es - a) <= fuel)%nat ->
  tiled a (runs fuel a (skipn (Z.to_nat a) es)) (zlen es) /\ Forall (goodRun es) (runs fuel a (skipn (Z.to_nat a) es)).
Proof.
  induction fuel as [|fuel IH]; intros a Ha Hf.
  - assert (a = zlen es) by lia. cbn [runs tiled]. split; [assumption|constructor].
  - cbn [runs]. destruct (skipn (Z.to_nat a) es) as [|e r] eqn:E.
    + assert (length (skipn (Z.to_nat a) es) = 0%nat) by (rewrite E; reflexivity). rewrite skipn_length in H. unfold zlen in *. cbn [tiled]. split; [lia|constructor].
    + pose proof (runLen_pos e r) as P. destruct (runLen_spec e (e :: r)) as (R1 & R2 & R3). set (d := runLen e (e :: r)) in *.
      assert (G : forall i, 0 <= i -> zget (e :: r) i = zget es (a + i)) by (intros i Hi; rewrite <- E, zget_skipn by lia; f_equal; lia).
      assert (Ld : a + d <= zlen es).
      { assert (zlen (e :: r) = zlen es - a) by (rewrite <- E; unfold zlen; rewrite skipn_length; unfold zlen in Ha; lia). lia. }
      cbv zeta. assert (Sk : skipn (Z.to_nat d) (e :: r) = skipn (Z.to_nat (a + d)) es).
      { rewrite <- E. clear - Ha P. replace (Z.to_nat (a + d)) with (Z.to_nat a + Z.to_nat d)%nat by lia. generalize (Z.to_nat a) as m. generalize (Z.to_nat d) as k. clear.
        intros k m. revert es. induction m as [|m IH]; intro es; [reflexivity|]. destruct es as [|x es]; cbn [skipn plus]; [destruct k; reflexivity|apply IH]. }
      rewrite Sk. destruct (IH (a + d) ltac:(lia) ltac:(lia)) as [T F]. split; [cbn [tiled]; auto|]. constructor; [|exact F].
      exists e. split; [rewrite <- (Z.add_0_r a), <- G by lia; reflexivity|]. split.
      * intros b x Hb Hx. apply (R2 (b - a)); [lia|]. rewrite G by lia. rewrite <- Hx. f_equal. lia.
      * intros x Hx. apply R3. rewrite G by lia. exact Hx.
Qed.
Definition inRun (b : Z) (run : Z * Z) : Prop := fst run <= b < fst run + snd run.
Lemma tiled_bounds a rs n : tiled a rs n -> a <= n /\ forall run, In run rs -> a <= fst run /\ fst run + snd run <= n /\ 0 < snd run.
Proof.
  revert a. induction rs as [|[s d] rs IH]; intros a H; cbn [tiled] in H; [split; [lia|intros ? []]|]. destruct H as (-> & Hd & T). destruct (IH _ T) as [B1 B2]. split; [lia|].
  intros run [<-|Hr]; cbn [fst snd]; [lia|]. specialize (B2 run Hr). lia.
Qed.
Lemma tiled_find a rs n b : tiled a rs n -> a <= b < n -> exists run, In run rs /\ inRun b run.
Proof.
  revert a. induction rs as [|[s d] rs IH]; intros a H Hb; cbn [tiled] in H; [lia|]. destruct H as (-> & Hd & T). destruct (Z_lt_dec b (a + d)) as [H1|H1].
  - exists (a, d). split; [left; reflexivity|unfold inRun; cbn; lia].
  - destruct (IH _ T ltac:(lia)) as (run & Hr & Hi). exists run. split; [right; exact Hr|exact Hi].
Qed.
Lemma averageRun_out f run b : ~ inRun b run -> averageRun f run b = f b.
Proof. destruct run as [s d]. unfold inRun, averageRun. cbn [fst snd]. intro H. destruct ((s <=? b) && (b <? s + d)) eqn:E; [exfalso; apply H; lia|reflexivity]. Qed.
Lemma averageRuns a rs n : tiled a rs n -> forall f run b, In run rs -> inRun b run ->
  fold_left averageRun rs f b = (qsum (map f (zrange (fst run) (snd run))) / Q2Qc (inject_Z (snd run)))%Qc.
Proof.
  revert a. induction rs as [|[s d] rs IH]; intros a T f run b Hr Hb; [destruct Hr|]. cbn [tiled] in T. destruct T as (-> & Hd & T). cbn [fold_left].
  destruct (tiled_bounds _ _ _ T) as [B1 B2].
  destruct Hr as [<-|Hr].
  - unfold inRun in Hb. cbn [fst snd] in *.
    assert (K : forall l f, (forall run, In run l -> a + d <= fst run) -> fold_left averageRun l f b = f b).
    { induction l as [|r l IHl]; intros g Hl; [reflexivity|]. cbn [fold_left]. rewrite IHl by (intros; apply Hl; right; assumption). apply averageRun_out. unfold inRun. specialize (Hl r (or_introl eq_refl)). lia. }
    rewrite K by (intros run Hr; apply B2 in Hr; lia). unfold averageRun. replace ((a <=? b) && (b <? a + d)) with true by lia.
    transitivity (qsum (map (fun b0 => / Q2Qc (inject_Z d) * f b0)%Qc (zrange a d))).
    + replace (zrange a d) with (map (fun i => a + i) (zrange 0 d)).
      * rewrite map_map. apply qsum_ext. intros i _. unfold Qcdiv. ring.
      * apply nth_error_ext. intro k. destruct (Z_lt_dec (Z.of_nat k) d) as [Hk|Hk].
        -- rewrite (map_nth_error _ _ _ (nth_error_zrange 0 d k ltac:(lia))). rewrite nth_error_zrange by lia. try (f_equal; lia).
        -- transitivity (@None Z); [|symmetry]; apply nth_error_None; [rewrite map_length|]; rewrite zrange_length; lia.
    + rewrite qsum_map_scale. unfold Qcdiv. ring.
  - rewrite (IH _ T (averageRun f (a, d)) run b Hr Hb). do 2 f_equal. apply map_ext_in. intros c Hc. apply in_zrange in Hc. apply averageRun_out. unfold inRun. cbn [fst snd]. destruct (B2 run Hr). lia.
Qed.
Lemma near_run es run b b' x y : ascending es -> separated es -> goodRun es run -> inRun b run -> zget es b = Some x -> zget es b' = Some y -> fst run <= b' -> nearDeg x y = true -> inRun b' run.
Proof.
  intros As Sp Hg Hb Hx Hy Hle Hn. destruct run as [s d]. unfold inRun in *. cbn [fst snd] in *. destruct Hg as (e & He & H1 & H2).
  assert (Ie : In e es) by (apply zget_nth, nth_error_In in He; exact He). assert (Ix : In x es) by (apply zget_nth, nth_error_In in Hx; exact Hx). assert (Iy : In y es) by (apply zget_nth, nth_error_In in Hy; exact Hy).
  assert (N1 : nearDeg e y = true) by (apply (Sp e x y); try assumption; apply (H1 b); assumption).
  split; [exact Hle|]. destruct (Z_lt_dec b' (s + d)) as [?|Hge]; [lia|]. exfalso.
  destruct (zget es (s + d)) as [z|] eqn:Hz.
  - specialize (H2 z eq_refl). assert (L1 : (e <= z)%Qc) by (apply (As s (s + d)); (assumption || lia)). assert (L2 : (z <= y)%Qc) by (apply (As (s + d) b'); (assumption || lia)).
    unfold nearDeg, qltb in *. destruct (Qclt_le_dec (e - z) _) as [A|A], (Qclt_le_dec (z - e) _) as [B|B]; cbn in H2; try discriminate;
      destruct (Qclt_le_dec (e - y) _) as [C|C], (Qclt_le_dec (y - e) _) as [D|D]; cbn in N1; try discriminate.
    + apply (Qclt_not_le _ _ D). apply Qcle_trans with (1 := B). unfold Qcminus. apply Qcplus_le_compat; [exact L2|apply Qcle_refl].
    + apply (Qclt_not_le (e - z)%Qc 0%Qc); [|exfalso].
      * exfalso. apply (Qclt_not_le _ _ (Qcle_lt_trans _ _ _ (Qcle_refl 0) (eq_refl : (0 < Q2Qc (1 # 1000000))%Qc))). apply Qcle_trans with (1 := A). rewrite <- (Qcplus_opp_r z). unfold Qcminus. apply Qcplus_le_compat; [exact L1|apply Qcle_refl].
      * apply (Qclt_not_le _ _ (Qcle_lt_trans _ _ _ (Qcle_refl 0) (eq_refl : (0 < Q2Qc (1 # 1000000))%Qc))). apply Qcle_trans with (1 := A). rewrite <- (Qcplus_opp_r z). unfold Qcminus. apply Qcplus_le_compat; [exact L1|apply Qcle_refl].
    + apply (Qclt_not_le _ _ D). apply Qcle_trans with (1 := B). unfold Qcminus. apply Qcplus_le_compat; [exact L2|apply Qcle_refl].
  - destruct (zget_Some _ _ _ Hy) as [Ry _]. destruct (zget_Some _ _ _ He) as [Rs _]. destruct (zget_Some _ _ _ Hx) as [Rx _].
    unfold zget in Hz. destruct (s + d <? 0) eqn:E0; [lia|]. apply nth_error_None in Hz. unfold zlen in *. lia.
Qed.
Lemma axis_spec es f b : ascending es -> separated es -> 0 <= b < zlen es ->
  averageAxis es f b = (qsum (map f (degenerate es b)) / Q2Qc (inject_Z (zlen (degenerate es b))))%Qc /\ 0 < zlen (degenerate es b).
Proof.
  intros As Sp Hb. unfold averageAxis.
  destruct (runs_spec es (length es) 0) as [T F]; [unfold zlen in *; lia|unfold zlen; lia|]. cbn [skipn Z.to_nat] in T, F. rewrite Forall_forall in F.
  destruct (tiled_find _ _ _ b T Hb) as (run & Hr & Hi). destruct (tiled_bounds _ _ _ T) as [_ B]. destruct (B run Hr) as (B1 & B2 & B3).
  assert (E : degenerate es b = zrange (fst run) (snd run)).
  { assert (Sub : forall b', 0 <= b' < zlen es -> (match zget es b, zget es b' with Some x, Some y => nearDeg x y | _, _ => false end = true <-> inRun b' run)).
    { intros b' Hb'. destruct (zget es b) as [x|] eqn:Hx; [|unfold zget in Hx; destruct (b <? 0) eqn:E0; [lia|]; apply nth_error_None in Hx; unfold zlen in Hb; lia].
      destruct (zget es b') as [y|] eqn:Hy; [|unfold zget in Hy; destruct (b' <? 0) eqn:E0; [lia|]; apply nth_error_None in Hy; unfold zlen in Hb'; lia].
      split; intro H.
      - destruct (Z_le_dec (fst run) b') as [Hle|Hgt]; [exact (near_run es run b b' x y As Sp (F run Hr) Hi Hx Hy Hle H)|]. exfalso.
        destruct (tiled_find _ _ _ b' T Hb') as (run' & Hr' & Hi'). assert (inRun b run').
        { apply (near_run es run' b' b y x As Sp (F run' Hr') Hi' Hy Hx); [unfold inRun in *; lia|]. rewrite nearDeg_sym. exact H. }
        assert (K : forall rs a n r1 r2, tiled a rs n -> In r1 rs -> In r2 rs -> inRun b r1 -> inRun b r2 -> r1 = r2).
        { clear. induction rs as [|[s d] rs IH]; intros a n r1 r2 T H1 H2 I1 I2; [destruct H1|]. cbn [tiled] in T. destruct T as (-> & Hd & T). destruct (tiled_bounds _ _ _ T) as [_ B]. unfold inRun in *.
          destruct H1 as [<-|H1], H2 as [<-|H2]; try reflexivity; cbn [fst snd] in *.
          - apply B in H2. lia. - apply B in H1. lia. - apply (IH _ _ r1 r2 T H1 H2 I1 I2). }
        rewrite (K _ _ _ _ _ T Hr Hr' Hi H0) in Hgt. unfold inRun in Hi'. lia.
      - destruct run as [s d]. destruct (F _ Hr) as (e & He & H1 & _). unfold inRun in *. cbn [fst snd] in *.
        assert (In_ : forall i z, zget es i = Some z -> In z es) by (intros i z Hz; apply zget_nth, nth_error_In in Hz; exact Hz).
        apply (Sp x e y); eauto. rewrite nearDeg_sym. eauto. }
    unfold degenerate.
    assert (Z0 : zrange 0 (zlen es) = zrange 0 (fst run) ++ zrange (fst run) (snd run) ++ zrange (fst run + snd run) (zlen es - (fst run + snd run))).
    { replace (zlen es) with (fst run + (snd run + (zlen es - (fst run + snd run)))) at 1 by lia. rewrite <- zrange_app by lia. rewrite <- zrange_app by lia. rewrite Z.add_0_l. reflexivity. }
    rewrite Z0, !filter_app.
    assert (N1 : forall l, (forall c, In c l -> 0 <= c < zlen es /\ ~ inRun c run) -> filter (fun b' => match zget es b with Some x => match zget es b' with Some y => nearDeg x y | None => false end | None => false end) l = []).
    { induction l as [|c l IHl]; intro Hl; [reflexivity|]. cbn [filter]. destruct (Hl c (or_introl eq_refl)) as [C1 C2]. specialize (Sub c C1). destruct (match zget es b with Some x => _ | None => false end) eqn:Q; [exfalso; apply C2, Sub; reflexivity|]. apply IHl. intros; apply Hl; right; assumption. }
    rewrite (N1 (zrange 0 (fst run))) by (intros c Hc; apply in_zrange in Hc; unfold inRun; lia). rewrite (N1 (zrange (fst run + snd run) _)) by (intros c Hc; apply in_zrange in Hc; unfold inRun; lia).
    rewrite app_nil_r. cbn [app]. clear N1 Z0.
    assert (N2 : forall l, (forall c, In c l -> 0 <= c < zlen es /\ inRun c run) -> filter (fun b' => match zget es b with Some x => match zget es b' with Some y => nearDeg x y | None => false end | None => false end) l = l).
    { induction l as [|c l IHl]; intro Hl; [reflexivity|]. cbn [filter]. destruct (Hl c (or_introl eq_refl)) as [C1 C2]. rewrite (proj2 (Sub c C1) C2). f_equal. apply IHl. intros; apply Hl; right; assumption. }
    apply N2. intros c Hc. apply in_zrange in Hc. unfold inRun. lia. }
  rewrite E. split; [|unfold zlen; rewrite zrange_length; lia]. rewrite (averageRuns _ _ _ T f run b Hr Hi). do 3 f_equal. unfold zlen. rewrite zrange_length. lia.
Qed.
Lemma degenerate_In es b b' : In b' (degenerate es b) -> 0 <= b' < zlen es /\ exists x y, zget es b = Some x /\ zget es b' = Some y /\ nearDeg x y = true.
Proof.
  unfold degenerate. rewrite filter_In. intros [H1 H2]. apply in_zrange in H1. split; [lia|]. destruct (zget es b) as [x|]; [|discriminate]. destruct (zget es b') as [y|]; [|discriminate]. exists x, y. auto.
Qed.
Lemma degenerate_eq es b b' : separated es -> In b' (degenerate es b) -> degenerate es b' = degenerate es b.
Proof.
  intros Sp H. apply degenerate_In in H as (_ & x & y & Hx & Hy & N). unfold degenerate. apply filter_ext_in. intros c _. rewrite Hx, Hy. destruct (zget es c) as [z|] eqn:Hz; [|reflexivity].
  assert (In_ : forall i z, zget es i = Some z -> In z es) by (intros i z' Hz'; apply zget_nth, nth_error_In in Hz'; exact Hz').
  rewrite (nearDeg_sym y z), (nearDeg_sym x z). apply (near_filter es y x Sp); eauto. rewrite nearDeg_sym. exact N.
Qed.
Lemma qsum_div {A} (f : A -> Qc) k l : qsum (map (fun a => f a / k)%Qc l) = (qsum (map f l) / k)%Qc.
Proof. rewrite (qsum_ext _ (fun a => / k * f a)%Qc) by (intros; unfold Qcdiv; ring). rewrite qsum_map_scale. unfold Qcdiv. ring. Qed.
Section Block.
Variables (e1 e2 e3 : list Qc) (A1 : ascending e1) (A2 : ascending e2) (A3 : ascending e3) (S1 : separated e1) (S2 : separated e2) (S3 : separated e3).
Notation dg1 := (degenerate e1). Notation dg2 := (degenerate e2). Notation dg3 := (degenerate e3).
Notation qz n := (Q2Qc (inject_Z n)).
Lemma symmetrize_block c b1 b2 b3 : 0 <= b1 < zlen e1 -> 0 <= b2 < zlen e2 -> 0 <= b3 < zlen e3 ->
  symmetrizeCoupling e1 e2 e3 c b1 b2 b3 = (blockSum e1 e2 e3 c b1 b2 b3 / qz (blockCount e1 e2 e3 b1 b2 b3))%Qc.
Proof.
  intros H1 H2 H3. unfold symmetrizeCoupling. cbv zeta.
  destruct (axis_spec e3 (fun b => averageAxis e2 (fun b0 => averageAxis e1 (fun b4 => c b4 b0 b) b1) b2) b3 A3 S3 H3) as [E3 P3].
  destruct (axis_spec e2 (fun _ => 0%Qc) b2 A2 S2 H2) as [_ P2]. destruct (axis_spec e1 (fun _ => 0%Qc) b1 A1 S1 H1) as [_ P1].
  rewrite E3. rewrite (qsum_ext _ (fun b3' => qsum (map (fun b2' => qsum (map (fun b1' => c b1' b2' b3') (dg1 b1)) / qz (zlen (dg1 b1)))%Qc (dg2 b2)) / qz (zlen (dg2 b2)))%Qc).
  2:{ intros b3' _. rewrite (proj1 (axis_spec e2 _ b2 A2 S2 H2)). f_equal. apply qsum_ext. intros b2' _. apply (proj1 (axis_spec e1 _ b1 A1 S1 H1)). }
  rewrite qsum_div. rewrite (qsum_ext _ (fun b3' => qsum (map (fun b2' => qsum (map (fun b1' => c b1' b2' b3') (dg1 b1))) (dg2 b2)) / qz (zlen (dg1 b1)))%Qc) by (intros; apply qsum_div).
  rewrite qsum_div. unfold blockSum, blockCount.
  assert (Sw : qsum (map (fun b3' => qsum (map (fun b2' => qsum (map (fun b1' => c b1' b2' b3') (dg1 b1))) (dg2 b2))) (dg3 b3)) =
    qsum (map (fun b1' => qsum (map (fun b2' => qsum (map (fun b3' => c b1' b2' b3') (dg3 b3))) (dg2 b2))) (dg1 b1))).
  { rewrite (qsum_ext _ (fun b3' => qsum (map (fun b1' => qsum (map (fun b2' => c b1' b2' b3') (dg2 b2))) (dg1 b1)))) by (intros; apply (qsum_swap (fun b2' b1' => c b1' b2' a))).
    rewrite (qsum_swap (fun b3' b1' => qsum (map (fun b2' => c b1' b2' b3') (dg2 b2)))). apply qsum_ext. intros b1' _. apply (qsum_swap (fun b3' b2' => c b1' b2' b3')). }
  rewrite Sw.
  assert (M : forall a b, qz (a * b) = (qz a * qz b)%Qc).
  { intros a b. change (qz a * qz b)%Qc with (Q2Qc (Qred (inject_Z a) * Qred (inject_Z b))%Q). apply Q2Qc_eq_iff. rewrite !Qred_correct, inject_Z_mult. reflexivity. }
  rewrite !M. pose proof (inject_pos _ P1). pose proof (inject_pos _ P2). pose proof (inject_pos _ P3). field. auto.
Qed.
Lemma blockSum_eq c b1 b2 b3 b1' b2' b3' : In b1' (dg1 b1) -> In b2' (dg2 b2) -> In b3' (dg3 b3) ->
  blockSum e1 e2 e3 c b1' b2' b3' = blockSum e1 e2 e3 c b1 b2 b3 /\ blockCount e1 e2 e3 b1' b2' b3' = blockCount e1 e2 e3 b1 b2 b3.
Proof. intros H1 H2 H3. unfold blockSum, blockCount. rewrite (degenerate_eq e1 b1 b1'), (degenerate_eq e2 b2 b2'), (degenerate_eq e3 b3 b3') by assumption. split; reflexivity. Qed.
Lemma symmetrize_equal c b1 b2 b3 b1' b2' b3' : 0 <= b1 < zlen e1 -> 0 <= b2 < zlen e2 -> 0 <= b3 < zlen e3 -> In b1' (dg1 b1) -> In b2' (dg2 b2) -> In b3' (dg3 b3) ->
  symmetrizeCoupling e1 e2 e3 c b1' b2' b3' = symmetrizeCoupling e1 e2 e3 c b1 b2 b3.
Proof.
  intros. rewrite !symmetrize_block by (assumption || (eapply degenerate_In; eassumption)). destruct (blockSum_eq c b1 b2 b3 b1' b2' b3') as [-> ->]; auto.
Qed.
Lemma symmetrize_sum c b1 b2 b3 : 0 <= b1 < zlen e1 -> 0 <= b2 < zlen e2 -> 0 <= b3 < zlen e3 ->
  blockSum e1 e2 e3 (symmetrizeCoupling e1 e2 e3 c) b1 b2 b3 = blockSum e1 e2 e3 c b1 b2 b3.
Proof.
  intros H1 H2 H3. unfold blockSum at 1.
  rewrite (qsum_ext _ (fun b1' => qsum (map (fun b2' => qsum (map (fun b3' => symmetrizeCoupling e1 e2 e3 c b1 b2 b3) (dg3 b3))) (dg2 b2)))).
  2:{ intros b1' Hb1. apply qsum_ext. intros b2' Hb2. apply qsum_ext. intros b3' Hb3. apply symmetrize_equal; assumption. }
  rewrite !qsum_const. rewrite symmetrize_block by assumption. unfold blockCount.
  destruct (axis_spec e1 (fun _ => 0%Qc) b1 A1 S1 H1) as [_ P1]. destruct (axis_spec e2 (fun _ => 0%Qc) b2 A2 S2 H2) as [_ P2]. destruct (axis_spec e3 (fun _ => 0%Qc) b3 A3 S3 H3) as [_ P3].
  assert (M : forall a b, qz (a * b) = (qz a * qz b)%Qc).
  { intros a b. change (qz a * qz b)%Qc with (Q2Qc (Qred (inject_Z a) * Qred (inject_Z b))%Q). apply Q2Qc_eq_iff. rewrite !Qred_correct, inject_Z_mult. reflexivity. }
  rewrite !M. pose proof (inject_pos _ P1). pose proof (inject_pos _ P2). pose proof (inject_pos _ P3). field. auto.
Qed.
Lemma symmetrize_twice c b1 b2 b3 : 0 <= b1 < zlen e1 -> 0 <= b2 < zlen e2 -> 0 <= b3 < zlen e3 ->
  symmetrizeCoupling e1 e2 e3 (symmetrizeCoupling e1 e2 e3 c) b1 b2 b3 = symmetrizeCoupling e1 e2 e3 c b1 b2 b3.
Proof. intros. rewrite symmetrize_block by assumption. rewrite symmetrize_sum by assumption. symmetry. apply symmetrize_block; assumption. Qed.
End Block.
