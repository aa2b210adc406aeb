(** Proofs about the degenerate groups of bands. *)
From Coq Require Import Reals QArith Permutation.
From Verif Require Import Base BaseLemmas M_complex L_complex M_electron S_electron L_electron L_electron2.
From Coq Require Import Lia Lra.
Open Scope Z_scope.

(** * the groups *)
Lemma far_false thr en a b : farApart thr en a b = false <-> (Qabs.Qabs (en a - en b) <= thr)%Q.
Proof. unfold farApart. rewrite negb_false_iff. apply Qle_bool_iff. Qed.
Lemma blockSize_spec thr en nb ib : forall fuel ib2, nb - ib2 <= Z.of_nat fuel -> ib2 <= nb ->
  let c := blockSize fuel thr en nb ib ib2 in
  0 <= c /\ ib2 + c <= nb /\ (forall j, ib2 <= j < ib2 + c -> (Qabs.Qabs (en ib - en j) <= thr)%Q) /\ (ib2 + c < nb -> ~ (Qabs.Qabs (en ib - en (ib2 + c)%Z) <= thr)%Q).
Proof.
  induction fuel as [|f IH]; intros ib2 h h2; cbn [blockSize].
  - cbn zeta. repeat split; try lia.
  - destruct (ib2 <? nb) eqn:E; [|cbn zeta; repeat split; lia]. destruct (farApart thr en ib ib2) eqn:F.
    + cbn zeta. split; [lia|]. split; [lia|]. split; [lia|]. intros _ G. rewrite Z.add_0_r in G. apply far_false in G. congruence.
    + destruct (IH (ib2 + 1) ltac:(lia) ltac:(lia)) as (A & B & C & D). cbv zeta. set (c := blockSize f thr en nb ib (ib2 + 1)) in *.
      split; [lia|]. split; [lia|]. split.
      * intros j hj. destruct (Z.eq_dec j ib2) as [->|hn]; [apply far_false; exact F|apply C; lia].
      * intros hl. replace (ib2 + (1 + c)) with (ib2 + 1 + c) by lia. apply D. lia.
Qed.
Lemma size_group thr en nb ib : 0 <= ib < nb -> Group thr en nb ib (sizeSubspace thr en nb ib).
Proof.
  intro h. unfold sizeSubspace. destruct (blockSize_spec thr en nb ib (Z.to_nat nb) (ib + 1) ltac:(lia) ltac:(lia)) as (A & B & C & D).
  set (c := blockSize _ thr en nb ib (ib + 1)) in *. unfold Group. split; [lia|]. split; [lia|]. split; [lia|]. split.
  - intros j hj. apply C. lia.
  - intro hl. replace (ib + (1 + c)) with (ib + 1 + c) by lia. apply D. lia.
Qed.
Lemma blocksFrom_spec thr en nb : forall fuel ib, nb - ib <= Z.of_nat fuel -> 0 <= ib <= nb ->
  let L := blocksFrom fuel thr en nb ib in
  concat (map (fun b => zrange (fst b) (snd b)) L) = zrange ib (nb - ib) /\
  (forall b, In b L -> ib <= fst b /\ Group thr en nb (fst b) (snd b)).
Proof.
  induction fuel as [|f IH]; intros ib h h2; cbn [blocksFrom].
  - cbn zeta. split; [rewrite zrange_nil by lia; reflexivity|intros b []].
  - destruct (ib <? nb) eqn:E; [|cbn zeta; split; [rewrite zrange_nil by lia; reflexivity|intros b []]].
    pose proof (size_group thr en nb ib ltac:(lia)) as G. set (s := sizeSubspace thr en nb ib) in *. cbn zeta.
    destruct G as (g1 & g2 & g3 & g4 & g5). destruct (IH (ib + s) ltac:(lia) ltac:(lia)) as (A & B). split.
    + cbn [map concat fst snd]. rewrite A, zrange_app by lia. f_equal. lia.
    + intros b [<-|hb]; [cbn [fst snd]; split; [lia|repeat split; assumption]|]. destruct (B b hb). split; [lia|assumption].
Qed.
Lemma blocks_cover thr en nb : 0 <= nb -> concat (map (fun b => zrange (fst b) (snd b)) (blocks thr en nb)) = zrange 0 nb.
Proof. intro h. pose proof (blocksFrom_spec thr en nb (Z.to_nat nb) 0 ltac:(lia) ltac:(lia)) as (A & _). cbn zeta in A. rewrite Z.sub_0_r in A. exact A. Qed.
Lemma blocks_group thr en nb b : 0 <= nb -> In b (blocks thr en nb) -> Group thr en nb (fst b) (snd b).
Proof. intros h hb. apply (blocksFrom_spec thr en nb (Z.to_nat nb) 0 ltac:(lia) ltac:(lia)), hb. Qed.

(** two blocks with a common band are the same *)
Lemma inBlock_iff ib s i : inBlock ib s i = true <-> ib <= i < ib + s.
Proof. unfold inBlock. lia. Qed.
Lemma blocksFrom_disjoint thr en nb : forall fuel ib, nb - ib <= Z.of_nat fuel -> 0 <= ib <= nb ->
  forall b b' i, In b (blocksFrom fuel thr en nb ib) -> In b' (blocksFrom fuel thr en nb ib) -> fst b <= i < fst b + snd b -> fst b' <= i < fst b' + snd b' -> b = b'.
Proof.
  induction fuel as [|f IH]; intros ib h h2 b b' i; cbn [blocksFrom]; [easy|].
  destruct (ib <? nb) eqn:E; [|easy]. pose proof (size_group thr en nb ib ltac:(lia)) as (g1 & g2 & g3 & _). set (s := sizeSubspace thr en nb ib) in *. cbv zeta.
  pose proof (blocksFrom_spec thr en nb f (ib + s) ltac:(lia) ltac:(lia)) as (_ & B).
  intros [<-|hb] [<-|hb']; cbn [fst snd]; intros h3 h4; [reflexivity|apply B in hb'; lia|apply B in hb; lia|]. eapply (IH (ib + s)); try eassumption; lia.
Qed.
Lemma blocks_disjoint thr en nb b b' i : 0 <= nb -> In b (blocks thr en nb) -> In b' (blocks thr en nb) -> fst b <= i < fst b + snd b -> fst b' <= i < fst b' + snd b' -> b = b'.
Proof. intro h. apply blocksFrom_disjoint; lia. Qed.
Lemma blocksFrom_NoDup thr en nb : forall fuel ib, nb - ib <= Z.of_nat fuel -> 0 <= ib <= nb -> NoDup (map fst (blocksFrom fuel thr en nb ib)).
Proof.
  induction fuel as [|f IH]; intros ib h h2; cbn [blocksFrom]; [constructor|].
  destruct (ib <? nb) eqn:E; [|constructor]. pose proof (size_group thr en nb ib ltac:(lia)) as (g1 & g2 & g3 & _). set (s := sizeSubspace thr en nb ib) in *. cbv zeta. cbn [map fst].
  constructor; [|apply IH; lia]. intro hi. apply in_map_iff in hi as (b & e & hb). apply (blocksFrom_spec thr en nb f (ib + s) ltac:(lia) ltac:(lia)) in hb. lia.
Qed.
Lemma blocks_has thr en nb i : 0 <= i < nb -> exists b, In b (blocks thr en nb) /\ fst b <= i < fst b + snd b.
Proof.
  intro h. pose proof (blocks_cover thr en nb ltac:(lia)) as C. assert (I : In i (zrange 0 nb)) by (apply in_zrange; lia). rewrite <- C in I.
  apply in_concat in I as (l & hl & hi). apply in_map_iff in hl as (b & <- & hb). apply in_zrange in hi. exists b. split; [exact hb|lia].
Qed.

(** * degCount *)
Lemma degCounts_get thr en nb ib : 0 <= ib < nb -> zlen (degCounts thr en nb) = nb /\
  exists c, zget (degCounts thr en nb) ib = Some c /\
    (forall s, 2 <= s -> (c = s <-> In (ib, s) (blocks thr en nb))).
Proof.
  intro h.
  assert (M : forall fuel i0, nb - i0 <= Z.of_nat fuel -> 0 <= i0 <= nb ->
    let D := flat_map (fun b => if snd b =? 1 then [0] else snd b :: repeat 0 (Z.to_nat (snd b - 1))) (blocksFrom fuel thr en nb i0) in
    zlen D = nb - i0 /\ forall j, i0 <= j < nb -> exists c, zget D (j - i0) = Some c /\ forall s, 2 <= s -> (c = s <-> In (j, s) (blocksFrom fuel thr en nb i0))).
  { induction fuel as [|f IH]; intros i0 h1 h2; cbn [blocksFrom].
    - cbn. split; [lia|]. intros j hj. lia.
    - destruct (i0 <? nb) eqn:E; [|cbn; split; [lia|intros; lia]].
      pose proof (size_group thr en nb i0 ltac:(lia)) as (g1 & g2 & g3 & _). set (s := sizeSubspace thr en nb i0) in *. cbv zeta. cbn [flat_map snd].
      destruct (IH (i0 + s) ltac:(lia) ltac:(lia)) as (A & B). cbv zeta in A, B.
      pose proof (fun b => proj2 (blocksFrom_spec thr en nb f (i0 + s) ltac:(lia) ltac:(lia)) b) as BS.
      set (D := flat_map _ (blocksFrom f thr en nb (i0 + s))) in *. set (L := blocksFrom f thr en nb (i0 + s)) in *.
      set (hd := if s =? 1 then [0] else s :: repeat 0 (Z.to_nat (s - 1))).
      assert (Lh : zlen hd = s). { unfold hd. destruct (s =? 1) eqn:F; [change (zlen [0]) with 1; lia|]. rewrite zlen_cons. unfold zlen. rewrite repeat_length. lia. }
      split; [rewrite zlen_app; lia|]. intros j hj. destruct (Z_lt_ge_dec j (i0 + s)) as [G|G].
      + destruct (zget_inrange hd (j - i0) ltac:(lia)) as (c & hc). exists c. rewrite zget_app1 by lia. split; [exact hc|]. intros t ht.
        assert (NL : ~ In (j, t) L) by (intro X; apply BS in X; cbn [fst snd] in X; lia).
        unfold hd in hc. destruct (s =? 1) eqn:F.
        * replace (j - i0) with 0 in hc by lia. rewrite zget_cons0 in hc. injection hc as <-. split; [lia|]. intros [X|X]; [injection X; lia|easy].
        * destruct (Z.eq_dec j i0) as [->|hn].
          { replace (i0 - i0) with 0 in hc by lia. rewrite zget_cons0 in hc. injection hc as <-. split; [intros <-; now left|]. intros [X|X]; [injection X; lia|easy]. }
          { rewrite zget_consS in hc by lia. apply zget_Some in hc as (_ & hc). apply repeat_spec in hc. subst c. split; [lia|]. intros [X|X]; [injection X; lia|easy]. }
      + destruct (B j ltac:(lia)) as (c & hc & hs). exists c. rewrite zget_app2 by lia. split; [rewrite <- hc; f_equal; lia|].
        intros t ht. rewrite (hs t ht). split; [now right|]. intros [X|X]; [injection X; lia|exact X]. }
  destruct (M (Z.to_nat nb) 0 ltac:(lia) ltac:(lia)) as (A & B). cbv zeta in A, B. split; [unfold degCounts, blocks; lia|]. destruct (B ib h) as (c & h1 & h2). rewrite Z.sub_0_r in h1. exists c. split; assumption.
Qed.
Lemma degCounts_len thr en nb : 0 <= nb -> zlen (degCounts thr en nb) = nb.
Proof. intro h. destruct (Z.eq_dec nb 0) as [->|hn]; [reflexivity|]. apply (degCounts_get thr en nb 0). lia. Qed.

(** * scan *)
Lemma scan_len u l : zlen (exclusiveScan u l) = zlen l.
Proof. revert u. induction l as [|x l IH]; intro u; cbn [exclusiveScan]; [reflexivity|]. rewrite !zlen_cons, IH. reflexivity. Qed.
Lemma scan_get l : forall u i x, zget l i = Some x -> zget (exclusiveScan u l) i = Some (u + zsum (firstn (Z.to_nat i) l)).
Proof.
  induction l as [|y l IH]; intros u i x h; [apply zget_Some in h; cbn in h; lia|]. cbn [exclusiveScan]. pose proof (zget_Some _ _ _ h) as (hb & _).
  destruct (Z.eq_dec i 0) as [->|hn]; [rewrite zget_cons0; f_equal; cbn; lia|]. rewrite zget_consS in h by lia. rewrite zget_consS by lia.
  rewrite (IH _ _ _ h). replace (Z.to_nat i) with (S (Z.to_nat (i - 1))) by lia. cbn [firstn zsum fold_right]. f_equal. unfold zsum. cbn [fold_right]. lia.
Qed.
