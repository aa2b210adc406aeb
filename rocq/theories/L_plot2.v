(** Lemmas for C140: several bunches *)
From Coq Require Import Permutation.
From Verif Require Import Base BaseLemmas M_mpi S_mpi L_mpi M_elphio L_elphio M_plot S_plot L_plot.
From Coq Require Import Lia.
Open Scope Z_scope.

Lemma first_bunch mx sp : 0 <= sp -> forall m cur, 0 <= cur -> mx < (cur + Z.of_nat m) * sp -> (cur + 1) * sp <= mx ->
  exists k m', bunchesFrom mx sp cur m = k :: bunchesFrom mx sp 0 m' /\ cur < k /\ k + Z.of_nat m' = cur + Z.of_nat m /\ (0 < m')%nat.
Proof.
  intro Hsp. induction m as [|m IH]; intros cur C B Hrow.
  - exfalso. replace (cur + Z.of_nat 0) with cur in B by lia. nia.
  - cbn [bunchesFrom]. destruct (Z.ltb_spec mx ((cur + 1 + 1) * sp)) as [L|L].
    + exists (cur + 1), m. split; [reflexivity|]. split; [lia|]. split; [lia|]. destruct m; [exfalso|lia]. replace (cur + Z.of_nat 1) with (cur + 1) in B by lia. lia.
    + destruct (IH (cur + 1)) as (k & m' & E & K1 & K2 & K3); [lia|replace (cur + 1 + Z.of_nat m) with (cur + Z.of_nat (S m)) by lia; exact B|exact L|]. exists k, m'. split; [exact E|]. split; [lia|]. split; [lia|exact K3].
Qed.
Lemma next_bunch mx sp : forall m cur, 0 <= cur -> 0 < cur + Z.of_nat m -> exists b rest, bunchesFrom mx sp cur m = b :: rest /\ 0 < b.
Proof.
  induction m as [|m IH]; intros cur C B; cbn [bunchesFrom].
  - exists cur, []. split; [reflexivity|lia].
  - destruct (mx <? (cur + 1 + 1) * sp); [exists (cur + 1); eexists; split; [reflexivity|lia]|]. apply IH; lia.
Qed.
Lemma sum_le l : Forall (fun b => 0 <= b) l -> forall b, In b l -> b <= fold_right Z.add 0 l.
Proof.
  intro H. induction H as [|x l Hx Hl IH]; intros b Hb; [destruct Hb|]. destruct Hb as [->|B]; cbn [fold_right].
  - assert (0 <= fold_right Z.add 0 l) by (clear -Hl; induction Hl; cbn; lia). lia.
  - specialize (IH b B). lia.
Qed.
Lemma write_later {A} sp start len (buf : Z -> A) : 0 <= sp -> forall bs net ds, (forall b, In b bs -> 0 <= b /\ b * sp <= len) ->
  exists ds', writeBunches true sp start net len buf bs ds = Ok ds' /\ forall x, x < start + net -> ds' x = ds x.
Proof.
  intro Hs. induction bs as [|b bs IH]; intros net ds H; [exists ds; split; reflexivity|]. cbn [writeBunches]. change (2147483647 <? 0) with false. cbv iota. destruct (H b ltac:(left; reflexivity)) as [B0 B1].
  rewrite (proj2 (Z.ltb_ge _ _)) by lia. destruct (IH (net + b * sp) (selectWrite (start + net) (b * sp) (fun y => buf (0 + y)) ds) ltac:(intros; apply H; right; assumption)) as (ds' & E & K).
  exists ds'. split; [exact E|]. intros x Hx. rewrite K by nia. unfold selectWrite. rewrite (proj2 (Z.leb_gt _ _)) by lia. reflexivity.
Qed.
Section Two.
Context {P A : Type}.
Variables (zero : A) (g : P -> P -> Z -> Z -> Z -> A) (r1 r2 r3 : Z * Z) (pairs : list (P * P)) (mx : Z).
Hypothesis O1 : fst r1 <= snd r1. Hypothesis O2 : fst r2 <= snd r2. Hypothesis O3 : fst r3 <= snd r3.
Hypothesis Fit : fits (zlen pairs) 1.
Hypothesis Wide : zlen pairs * bandProd r1 r2 r3 < 4294967296.
Hypothesis Row : bandProd r1 r2 r3 <= mx.
Hypothesis Big : mx < zlen pairs * bandProd r1 r2 r3.
Lemma second_bunch : exists ds k, plotParallel zero mx g r1 r2 r3 pairs 1 [0] = Ok ds /\ 0 < k < zlen pairs /\
  forall k0 q0 b1 b2 b3, zget pairs 0 = Some (k0, q0) -> within r1 b1 -> within r2 b2 -> within r3 b3 -> ds (place r1 r2 r3 k b1 b2 b3) = Some (g k0 q0 b1 b2 b3).
Proof.
  pose proof (prod_pos r1 r2 r3 O1 O2 O3) as Sp. assert (N0 : 0 < zlen pairs) by (destruct (Z_lt_le_dec 0 (zlen pairs)); [assumption|nia]).
  unfold plotParallel. rewrite (proj2 (Z.leb_gt _ _)) by lia. cbn [foldM]. unfold plotRank. rewrite divideWorkIter_cut by (exact Fit || lia). cbn [bind]. rewrite cut_0.
  replace (cut (zlen pairs) 1 (0 + 1)) with (zlen pairs) by (unfold cut; rewrite Z.div_1_r; lia). rewrite Z.sub_0_r.
  destruct (valuesOf_ok zero g r1 r2 r3 O1 O2 O3 pairs 0 (zlen pairs) ltac:(lia) ltac:(lia) ltac:(lia)) as (vals & E & L & V). rewrite E. cbn [bind].
  assert (Z0 : zrange 0 (zlen pairs) = 0 :: zrange (0 + 1) (zlen pairs - 1)) by (rewrite zrange_cons by lia; reflexivity).
  assert (La : last (zrange 0 (zlen pairs)) 0 = zlen pairs - 1) by (rewrite last_zrange by lia; lia). rewrite Z0 in La |- *. rewrite La. replace (zlen pairs - 1 + 1 - 0) with (zlen pairs) by lia.
  destruct (bunches_sum mx (bandProd r1 r2 r3) (zlen pairs) ltac:(lia)) as [Sum Pos]. pose proof (sum_le _ Pos) as SL. rewrite Sum in SL. rewrite Forall_forall in Pos.
  unfold bunches in *. destruct (first_bunch mx (bandProd r1 r2 r3) ltac:(lia) (Z.to_nat (zlen pairs)) 0 ltac:(lia) ltac:(rewrite Z2Nat.id by lia; lia) ltac:(lia)) as (k & m' & Eb & K1 & K2 & K3).
  destruct (next_bunch mx (bandProd r1 r2 r3) m' 0 ltac:(lia) ltac:(lia)) as (b & rest & Eb2 & B0). rewrite Eb2 in Eb. rewrite Eb in *. rewrite Z2Nat.id in K2 by lia. clear E Z0 La Sum Eb Eb2.
  set (sp := bandProd r1 r2 r3) in *. cbn [writeBunches]. change (2147483647 <? 0) with false. cbv iota.
  assert (Kk : forall y, In y (k :: b :: rest) -> y * sp <= zlen vals) by (intros y Hy; rewrite L; specialize (SL y Hy); specialize (Pos y Hy); nia).
  rewrite (proj2 (Z.ltb_ge (zlen vals) (0 + k * sp))) by (specialize (Kk k ltac:(left; reflexivity)); lia). rewrite (proj2 (Z.ltb_ge (zlen vals) (0 + b * sp))) by (specialize (Kk b ltac:(right; left; reflexivity)); lia).
  destruct (write_later sp (0 * sp) (zlen vals) (at_ zero vals) ltac:(lia) rest (0 + k * sp + b * sp)
    (selectWrite (0 * sp + (0 + k * sp)) (b * sp) (fun y => at_ zero vals (0 + y)) (selectWrite (0 * sp + 0) (k * sp) (fun y => at_ zero vals (0 + y)) (fun _ => None)))
    ltac:(intros y Hy; split; [apply Pos; right; right; exact Hy|apply Kk; right; right; exact Hy])) as (ds & Ew & Hds).
  rewrite Ew. cbn [bind]. exists ds, k. split; [reflexivity|]. split; [lia|]. intros k0 q0 b1 b2 b3 Hp W1 W2 W3.
  pose proof (place_inner r1 r2 r3 b1 b2 b3 W1 W2 W3) as PI. pose proof (place_split r1 r2 r3 k b1 b2 b3) as PS. pose proof (place_split r1 r2 r3 0 b1 b2 b3) as P0. fold sp in PI, PS, P0.
  set (off := ((b1 - fst r1) * (snd r2 - fst r2 + 1) + (b2 - fst r2)) * (snd r3 - fst r3 + 1) + (b3 - fst r3)) in *.
  rewrite Hds by (rewrite PS; nia). unfold selectWrite at 1. rewrite (proj2 (Z.leb_le _ _)), (proj2 (Z.ltb_lt _ _)) by (rewrite PS; nia). cbn [andb]. f_equal.
  rewrite <- (V 0 k0 q0 b1 b2 b3) by (assumption || lia). f_equal. replace (0 - 0) with 0 by lia. rewrite PS, P0. ring.
Qed.
End Two.
