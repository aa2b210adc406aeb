From Coq Require Import Permutation.
From Verif Require Import Base BaseLemmas M_mpi S_mpi L_mpi M_elphio S_elphio L_elphio.
From Coq Require Import Lia.
Open Scope Z_scope.

(** * format 1: the whole file *)
Lemma writeV1_ok {A} mx d size order (g : tensor5 A) parts : positive d -> fits (dE d) size -> size <= dE d -> mx <= 2147483647 ->
  ((whole d size g parts /\ perVec d * dE d <= 2147483647) \/ (spread d size g parts /\ forall r, 0 <= r < size -> (cut (dE d) size (r + 1) - cut (dE d) size r) * perVec d <= mx)) ->
  Permutation order (zrange 0 size) ->
  exists ds, writeV1 mx d size order parts = Ok ds /\ forall i j nu p e, inRange d i j nu p -> 0 <= e < dE d -> ds (flat d i j nu p e) = Some (g i j nu p e).
Proof.
  intros Hpos Hfit Hmany Hmx Hparts HP.
  assert (G : forall l ds0, (forall r, In r l -> 0 <= r < size) -> exists ds, foldM (fun ds r => writeRank mx d size r (fst (parts r)) (snd (parts r)) ds) l ds0 = Ok ds /\
    forall i j nu p e, inRange d i j nu p -> ds (flat d i j nu p e) = if existsb (fun r => (cut (dE d) size r <=? e) && (e <? cut (dE d) size (r + 1))) l then Some (g i j nu p e) else ds0 (flat d i j nu p e)).
  { induction l as [|r l IH]; intros ds0 Hl; [exists ds0; split; [reflexivity|intros; reflexivity]|].
    destruct (writeRank_ok mx d size g parts Hpos Hfit Hmany Hmx Hparts r ds0 (Hl r (or_introl eq_refl))) as (ds1 & E1 & H1).
    destruct (IH ds1 (fun r' h => Hl r' (or_intror h))) as (ds & E & H). exists ds. split; [cbn [foldM]; rewrite E1; exact E|].
    intros i j nu p e HR. rewrite H by assumption. cbn [existsb]. rewrite H1 by assumption.
    destruct (existsb _ l), ((cut (dE d) size r <=? e) && (e <? cut (dE d) size (r + 1))); reflexivity. }
  destruct (G order (fun _ => None)) as (ds & E & H). { intros r Hr. apply (Permutation_in _ HP), in_zrange in Hr. lia. }
  exists ds. split; [exact E|]. intros i j nu p e HR He. rewrite H by assumption.
  destruct (cut_find (dE d) size e Hfit He) as (r & Hr & Hc).
  replace (existsb _ order) with true; [reflexivity|]. symmetry. apply existsb_exists. exists r. split; [apply (Permutation_in _ (Permutation_sym HP)), in_zrange; lia|].
  apply andb_true_intro. split; [apply Z.leb_le|apply Z.ltb_lt]; lia.
Qed.
(** reading *)
Lemma readBunches_ok {A} (zero : A) total ds sp offset len : 0 <= sp -> forall bs at_ buf, Forall (fun b => 0 <= b) bs ->
  offset + at_ + fold_right Z.add 0 bs * sp <= total -> at_ + fold_right Z.add 0 bs * sp <= len ->
  exists buf', readBunches zero total ds sp offset at_ len bs buf = Ok buf' /\
  forall y, buf' y = if (at_ <=? y) && (y <? at_ + fold_right Z.add 0 bs * sp) then match ds (offset + y) with Some a => a | None => zero end else buf y.
Proof.
  intro Hs. induction bs as [|b bs IH]; intros at_ buf HF Ht Hl.
  - exists buf. split; [reflexivity|]. intro y. cbn [fold_right]. destruct (Z.leb_spec at_ y), (Z.ltb_spec y (at_ + 0 * sp)); cbn; try reflexivity. lia.
  - inversion HF as [|? ? Hb HF']; subst. cbn [fold_right] in *. cbn [readBunches].
    assert (Hsum : 0 <= fold_right Z.add 0 bs) by (clear -HF'; induction HF'; cbn; lia).
    assert (Hbs : 0 <= b * sp) by nia. assert (Hss : 0 <= fold_right Z.add 0 bs * sp) by nia. rewrite Z.mul_add_distr_r in *.
    replace (total <? offset + at_ + b * sp) with false by (symmetry; apply Z.ltb_ge; lia). replace (len <? at_ + b * sp) with false by (symmetry; apply Z.ltb_ge; lia).
    match goal with |- context [readBunches zero total ds sp offset (at_ + b * sp) len bs ?bf] => destruct (IH (at_ + b * sp) bf) as (buf' & E & H); try assumption; try lia end.
    exists buf'. split; [exact E|]. intro y. rewrite H.
    destruct (Z.leb_spec (at_ + b * sp) y), (Z.ltb_spec y (at_ + b * sp + fold_right Z.add 0 bs * sp)), (Z.leb_spec at_ y), (Z.ltb_spec y (at_ + b * sp)),
      (Z.ltb_spec y (at_ + (b * sp + fold_right Z.add 0 bs * sp))); cbn; try reflexivity; lia.
Qed.
Section Read.
Context {A : Type}.
Variables (zero : A) (mx : Z) (d : dims) (size : Z) (g : tensor5 A) (ds : dataset A).
Hypothesis Hpos : positive d.
Hypothesis Hfit : fits (dE d) size.
Hypothesis Hmany : size <= dE d.
Hypothesis Hds : forall i j nu p e, inRange d i j nu p -> 0 <= e < dE d -> ds (flat d i j nu p e) = Some (g i j nu p e).
Lemma readRank_ok r : 0 <= r < size -> exists buf, readRank zero mx d size r ds = Ok (cut (dE d) size r * perVec d, (cut (dE d) size (r + 1) - cut (dE d) size r) * perVec d, buf) /\
  forall i j nu p e, inRange d i j nu p -> cut (dE d) size r <= e < cut (dE d) size (r + 1) -> buf (flat d i j nu p e - cut (dE d) size r * perVec d) = g i j nu p e.
Proof.
  intro Hr. destruct (share d size Hfit Hmany r Hr) as (tl & Ed & Ez). unfold readRank. rewrite Ed. cbn [bind].
  set (c := cut (dE d) size r) in *. set (c' := cut (dE d) size (r + 1)) in *.
  assert (Hcc : c < c') by (apply cut_lt; destruct Hfit; lia). assert (H0 : 0 <= c) by (apply cut_ge0; destruct Hfit; lia). assert (HE : c' <= dE d) by (apply cut_le; destruct Hfit; lia).
  rewrite Ez, last_zrange by lia. replace (c + (c' - c) - 1 + 1 - c) with (c' - c) by lia. replace ((c + (c' - c) - 1 + 1) * perVec d - 1 - c * perVec d + 1) with ((c' - c) * perVec d) by ring.
  pose proof (perVec_pos d Hpos) as Hsp. destruct (bunches_sum mx (perVec d) (c' - c) ltac:(lia)) as [Hsum HF].
  destruct (readBunches_ok zero (perVec d * dE d) ds (perVec d) (c * perVec d) ((c' - c) * perVec d) ltac:(lia) (bunches mx (perVec d) (c' - c)) 0 (fun _ => zero) HF) as (buf & E & H).
  { rewrite Hsum. nia. } { rewrite Hsum. lia. }
  exists buf. rewrite E. cbn [bind]. split; [reflexivity|]. intros i j nu p e HR He. rewrite H, Hsum. pose proof (flat0_bounds d i j nu p HR) as HB. rewrite flat_split.
  replace ((0 <=? _) && (_ <? _)) with true.
  2:{ symmetry. apply andb_true_intro. split; [apply Z.leb_le|apply Z.ltb_lt]; nia. }
  replace (c * perVec d + (flat0 d i j nu p + e * perVec d - c * perVec d)) with (flat0 d i j nu p + e * perVec d) by ring. rewrite <- flat_split, Hds by (assumption || lia). reflexivity.
Qed.
Lemma gatherAll_spec (parts : list (Z * Z * (Z -> A))) x v : (forall s n b, In (s, n, b) parts -> s <= x < s + n -> b (x - s) = v) -> (exists s n b, In (s, n, b) parts /\ s <= x < s + n) -> gatherAll zero parts x = v.
Proof.
  induction parts as [|[[s n] b] parts IH]; intros H1 H2; [destruct H2 as (? & ? & ? & [] & _)|]. cbn [gatherAll].
  destruct ((s <=? x) && (x <? s + n)) eqn:E.
  - apply andb_prop in E. destruct E as [E1 E2]. apply Z.leb_le in E1. apply Z.ltb_lt in E2. apply (H1 s n b (or_introl eq_refl)). lia.
  - apply IH; [intros s' n' b' Hin; apply H1; now right|]. destruct H2 as (s' & n' & b' & [Heq | Hin] & Hx); [|now exists s', n', b'].
    injection Heq as -> -> ->. exfalso. apply Bool.andb_false_iff in E. rewrite Z.leb_gt, Z.ltb_ge in E. lia.
Qed.
Lemma readV1_ok : exists h, readV1 zero mx d size ds = Ok h /\ sameCoupling d h g.
Proof.
  assert (M : exists parts, mapM (fun r => readRank zero mx d size r ds) (zrange 0 size) = Ok parts /\
    (forall s n b, In (s, n, b) parts -> exists r, 0 <= r < size /\ s = cut (dE d) size r * perVec d /\ n = (cut (dE d) size (r + 1) - cut (dE d) size r) * perVec d /\
      forall i j nu p e, inRange d i j nu p -> cut (dE d) size r <= e < cut (dE d) size (r + 1) -> b (flat d i j nu p e - cut (dE d) size r * perVec d) = g i j nu p e) /\
    (forall r, In r (zrange 0 size) -> exists b, In (cut (dE d) size r * perVec d, (cut (dE d) size (r + 1) - cut (dE d) size r) * perVec d, b) parts)).
  { assert (Hl : forall r, In r (zrange 0 size) -> 0 <= r < size) by (intros r Hr; apply in_zrange in Hr; lia). revert Hl. generalize (zrange 0 size). intros l Hl.
    induction l as [|r l IH]; [exists []; repeat split; [intros ? ? ? []|intros ? []]|].
    destruct (readRank_ok r (Hl r (or_introl eq_refl))) as (b & E & Hb). destruct (IH (fun r' h => Hl r' (or_intror h))) as (parts & Ep & H1 & H2).
    eexists. cbn [mapM]. rewrite E. cbn [bind]. rewrite Ep. cbn [bind]. split; [reflexivity|]. split.
    - intros s n b' [Heq | Hin]; [|now apply H1]. injection Heq as <- <- <-. exists r. repeat split; try (apply Hl; now left). exact Hb.
    - intros r' [<- | Hin]; [exists b; now left|]. destruct (H2 r' Hin) as (b' & Hb'). exists b'. now right. }
  destruct M as (parts & Ep & H1 & H2). unfold readV1. rewrite Ep. cbn [bind]. eexists. split; [reflexivity|].
  intros i j nu p e HR He. unfold tensorMap. fold (flat d i j nu p e). apply gatherAll_spec.
  - intros s n b Hin Hx. destruct (H1 s n b Hin) as (r & Hr & -> & -> & Hb). apply Hb; [assumption|]. apply (flat_region d i j nu p e _ _ HR). lia.
  - destruct (cut_find (dE d) size e Hfit He) as (r & Hr & Hc). destruct (H2 r) as (b & Hb); [apply in_zrange; lia|].
    eexists _, _, b. split; [exact Hb|]. apply (flat_region d i j nu p e _ _ HR) in Hc. lia.
Qed.
Lemma readV1pool_ok r : 0 <= r < size -> exists mine h, readV1pool zero mx d size r ds = Ok (mine, h) /\ divideWorkIter (dE d) r size = Ok mine /\
  forall i j nu p k e, inRange d i j nu p -> zget mine k = Some e -> h i j nu p k = g i j nu p e.
Proof.
  intro Hr. destruct (share d size Hfit Hmany r Hr) as (tl & Ed & Ez). unfold readV1pool. rewrite Ed. cbn [bind].
  set (c := cut (dE d) size r) in *. set (c' := cut (dE d) size (r + 1)) in *.
  assert (Hcc : c < c') by (apply cut_lt; destruct Hfit; lia). assert (H0 : 0 <= c) by (apply cut_ge0; destruct Hfit; lia). assert (HE : c' <= dE d) by (apply cut_le; destruct Hfit; lia).
  rewrite Ez, last_zrange, zlen_zrange by lia. replace (c + (c' - c) - 1 + 1 - c) with (c' - c) by lia.
  pose proof (perVec_pos d Hpos) as Hsp. destruct (bunches_sum mx (perVec d) (c' - c) ltac:(lia)) as [Hsum HF].
  destruct (readBunches_ok zero (perVec d * dE d) ds (perVec d) (c * perVec d) (perVec d * (c' - c)) ltac:(lia) (bunches mx (perVec d) (c' - c)) 0 (fun _ => zero) HF) as (buf & E & H).
  { rewrite Hsum. nia. } { rewrite Hsum. lia. }
  rewrite E. cbn [bind]. eexists _, _. split; [reflexivity|]. split; [reflexivity|]. intros i j nu p k e HR Hk. apply zget_zrange_inv in Hk. destruct Hk as [Hk ->].
  unfold tensorMap. fold (flat d i j nu p k). rewrite H, Hsum. pose proof (flat0_bounds d i j nu p HR) as HB. rewrite flat_split.
  replace ((0 <=? _) && (_ <? _)) with true.
  2:{ symmetry. apply andb_true_intro. split; [apply Z.leb_le|apply Z.ltb_lt]; nia. }
  replace (c * perVec d + (flat0 d i j nu p + k * perVec d)) with (flat d i j nu p (c + k)) by (rewrite flat_split; ring). rewrite Hds by (assumption || lia). reflexivity.
Qed.
End Read.
(** more processes than lattice vectors *)
Lemma writeBunches_noErr {A} dist sp start len (buf : Z -> A) : forall bs net ds, writeBunches dist sp start net len buf bs ds <> Err.
Proof. induction bs as [|b bs IH]; intros net ds; cbn [writeBunches]; [discriminate|]. destruct (_ <? _); [discriminate|]. destruct (_ <? _); [discriminate|]. apply IH. Qed.
Lemma writeRank_noErr {A} mx d size r l (g : tensor5 A) ds : writeRank mx d size r l g ds <> Err.
Proof. unfold writeRank, divideWorkIter. destruct (_ <? _); [discriminate|]. cbn [bind]. destruct (zrange _ _); [discriminate|]. apply writeBunches_noErr. Qed.
Lemma empty_share n size : fits n size -> n < size -> exists r, 0 <= r < size /\ divideWorkIter n r size = Ok [].
Proof.
  intros F H. exists 0. pose proof F as (F1 & F2 & F3). split; [lia|]. rewrite divideWorkIter_cut by (assumption || lia). rewrite cut_0. unfold cut. rewrite Z.mul_1_r, Z.div_small by lia. reflexivity.
Qed.
Lemma writeV1_few {A} mx d size order (parts : Z -> Z * tensor5 A) : fits (dE d) size -> dE d < size -> Permutation order (zrange 0 size) -> writeV1 mx d size order parts = UB.
Proof.
  intros F H HP. destruct (empty_share _ _ F H) as (r & Hr & E).
  assert (K : In r order) by (apply (Permutation_in _ (Permutation_sym HP)), in_zrange; lia). unfold writeV1. generalize (fun _ : Z => @None A) as ds0.
  clear HP. induction order as [|x order IH]; [contradiction|]. intro ds0. cbn [foldM]. destruct K as [-> | K].
  - unfold writeRank. rewrite E. reflexivity.
  - destruct (writeRank mx d size x (fst (parts x)) (snd (parts x)) ds0) eqn:Ex; cbn [bind]; [now apply IH|now apply writeRank_noErr in Ex|reflexivity].
Qed.

(** * format 2 *)
Section Two.
Context {A : Type}.
Variables (d : dims) (size : Z) (g : tensor5 A) (parts : Z -> Z * tensor5 A).
Hypothesis Hpos : positive d.
Hypothesis Hfit : fits (dE d) size.
Hypothesis Hparts : whole d size g parts \/ spread d size g parts.
Definition goodSlice (e : Z) (v : Z -> A) : Prop := forall i j nu p, inRange d i j nu p -> v (i + dW d * (j + dW d * (nu + dM d * p))) = g i j nu p e.
Lemma put_ok r e f : 0 <= r < size -> cut (dE d) size r <= e < cut (dE d) size (r + 1) -> exists v, apply2 d size parts f (Put r e) = Ok {| slices := fun e' => if e' =? e then Some v else slices f e'; header := header f |} /\ goodSlice e v.
Proof.
  intros Hr He. cbn [apply2]. rewrite divideWorkIter_cut by assumption. cbn [bind]. eexists. split; [reflexivity|].
  intros i j nu p HR. rewrite slice_flat by assumption.
  assert (H0 : 0 <= cut (dE d) size r) by (apply cut_ge0; destruct Hfit; lia). assert (HE : cut (dE d) size (r + 1) <= dE d) by (apply cut_le; destruct Hfit; lia).
  rewrite (zrange_cons _ (cut (dE d) size (r + 1) - cut (dE d) size r)) by lia. cbn [hd].
  destruct Hparts as [Hw | Hs].
  - destruct (Hw r Hr) as [-> Hg]. rewrite Z.eqb_refl. apply Hg; [assumption|lia].
  - destruct (Hs r Hr) as (mine & Em & Hloc & Hg). rewrite divideWorkIter_cut in Em by assumption. injection Em as <-. rewrite zlen_zrange in Hloc by lia.
    destruct (Z.eqb_spec (fst (parts r)) (dE d)) as [Ha|Ha]; apply Hg; try assumption; rewrite zget_zrange by lia; f_equal; lia.
Qed.
Lemma fold_puts : forall s f, (forall ev, In ev s -> (exists r e, ev = Put r e /\ 0 <= r < size /\ cut (dE d) size r <= e < cut (dE d) size (r + 1)) \/ exists r, ev = Header r) ->
  exists f', foldM (apply2 d size parts) s f = Ok f' /\
  (header f' = true <-> header f = true \/ exists r, In (Header r) s) /\
  forall e, (exists v, slices f' e = Some v /\ goodSlice e v) \/ (slices f' e = slices f e /\ forall r, ~ In (Put r e) s).
Proof.
  induction s as [|ev s IH]; intros f H.
  - exists f. split; [reflexivity|]. split; [split; [now left|intros [h | [r []]]; exact h]|]. intro e. right. split; [reflexivity|intros r []].
  - cbn [foldM]. destruct (H ev (or_introl eq_refl)) as [(r & e & -> & Hr & He) | (r & ->)].
    + destruct (put_ok r e f Hr He) as (v & -> & Hv). cbn [bind]. match goal with |- context [foldM _ s ?f1] => destruct (IH f1 (fun ev h => H ev (or_intror h))) as (f' & E & Hh & Hs) end.
      exists f'. split; [exact E|]. split.
      * rewrite Hh. cbn [header]. split; [intros [h | [r' h]]; [now left|right; exists r'; now right]|intros [h | [r' [h | h]]]; [now left|discriminate|right; now exists r']].
      * intro e'. destruct (Hs e') as [K | [K1 K2]]; [now left|]. cbn [slices] in K1. destruct (Z.eqb_spec e' e) as [Heq|Hne].
        -- left. exists v. rewrite Heq in *. split; assumption.
        -- right. split; [exact K1|]. intros r' [h | h]; [congruence|now apply (K2 r')].
    + cbn [apply2 bind]. match goal with |- context [foldM _ s ?f1] => destruct (IH f1 (fun ev h => H ev (or_intror h))) as (f' & E & Hh & Hs) end.
      exists f'. split; [exact E|]. split.
      * rewrite Hh. cbn [header]. split; [intros _; right; exists r; now left|intros _; now left].
      * intro e'. destruct (Hs e') as [K | [K1 K2]]; [now left|]. right. split; [exact K1|]. intros r' [h | h]; [congruence|now apply (K2 r')].
Qed.
Lemma program_eq r : 0 <= r < size -> program d size r = Ok (Open r :: map (Put r) (zrange (cut (dE d) size r) (cut (dE d) size (r + 1) - cut (dE d) size r)) ++ (if r =? 0 then [Header 0] else [])).
Proof. intro Hr. unfold program. rewrite divideWorkIter_cut by assumption. reflexivity. Qed.
Lemma opens_only s1 f : (forall ev, In ev s1 -> exists r, ev = Open r) -> header f = false -> (forall e, slices f e = None) ->
  exists f', foldM (apply2 d size parts) s1 f = Ok f' /\ header f' = false /\ forall e, slices f' e = None.
Proof.
  revert f. induction s1 as [|ev s1 IH]; intros f H Hh Hs; [exists f; split; [reflexivity|split; assumption]|]. destruct (H ev (or_introl eq_refl)) as (r & ->). cbn [foldM apply2 bind].
  apply IH; [intros; apply H; now right|reflexivity|reflexivity].
Qed.
Lemma foldM_app {X Y} (f : Y -> X -> res Y) l m y : foldM f (l ++ m) y = do z <- foldM f l y ; foldM f m z.
Proof. revert y. induction l as [|a l IH]; intro y; [reflexivity|]. cbn [app foldM]. destruct (f y a); cbn [bind]; [apply IH|reflexivity|reflexivity]. Qed.
Lemma writeV2_ok s : schedule_of d size s -> openFirst s -> exists f, writeV2 d size parts s = Ok f /\ complete d g f.
Proof.
  intros [Hrk Hpr] (s1 & s2 & -> & Ho & Hno).
  destruct (opens_only s1 {| slices := fun _ => None; header := false |} Ho eq_refl (fun _ => eq_refl)) as (f1 & E1 & Hh1 & Hs1).
  assert (Hev : forall ev, In ev s2 -> (exists r e, ev = Put r e /\ 0 <= r < size /\ cut (dE d) size r <= e < cut (dE d) size (r + 1)) \/ exists r, ev = Header r).
  { intros ev Hin. assert (Hin' : In ev (s1 ++ s2)) by (apply in_or_app; now right). pose proof (Hrk ev Hin') as Hr. destruct (Hpr _ Hr) as (pr & Ep & Ef). rewrite program_eq in Ep by assumption. injection Ep as <-.
    assert (Hp : In ev (filter (fun ev0 => rankOf ev0 =? rankOf ev) (s1 ++ s2))) by (apply filter_In; split; [assumption|apply Z.eqb_refl]).
    rewrite Ef in Hp. destruct Hp as [Heq | Hp]; [exfalso; apply (Hno _ (rankOf ev) Hin); symmetry; exact Heq|]. apply in_app_or in Hp. destruct Hp as [Hp | Hp].
    - apply in_map_iff in Hp. destruct Hp as (e & Heq & He). apply in_zrange in He. left. exists (rankOf ev), e. split; [symmetry; exact Heq|]. split; [assumption|lia].
    - destruct (rankOf ev =? 0); [|contradiction]. destruct Hp as [Heq | []]. right. exists 0. symmetry. exact Heq. }
  destruct (fold_puts s2 f1 Hev) as (f & E & Hh & Hs). exists f. split; [unfold writeV2; rewrite foldM_app, E1; exact E|].
  assert (Hmem : forall r ev, 0 <= r < size -> In ev (Open r :: map (Put r) (zrange (cut (dE d) size r) (cut (dE d) size (r + 1) - cut (dE d) size r)) ++ (if r =? 0 then [Header 0] else [])) -> (forall r', ev <> Open r') -> In ev s2).
  { intros r ev Hr Hin Hne. destruct (Hpr r Hr) as (pr & Ep & Ef). rewrite program_eq in Ep by assumption. injection Ep as <-. rewrite <- Ef in Hin. apply filter_In in Hin. destruct Hin as [Hin _].
    apply in_app_or in Hin. destruct Hin as [Hin | Hin]; [|assumption]. destruct (Ho _ Hin) as (r' & ->). now destruct (Hne r'). }
  split.
  - apply Hh. right. exists 0. pose proof Hfit as (_ & Hs0 & _). apply (Hmem 0); [lia| |discriminate]. right. apply in_or_app. right. now left.
  - intros e He. destruct (Hs e) as [(v & Hv & Hg) | [_ Hn]]; [exists v; split; [exact Hv|exact Hg]|]. exfalso.
    destruct (cut_find (dE d) size e Hfit He) as (r & Hr & Hc). apply (Hn r). apply (Hmem r); [assumption| |discriminate]. right. apply in_or_app. left. apply in_map, in_zrange. lia.
Qed.
(** one process after the other *)
Definition prog (r : Z) : list event := Open r :: map (Put r) (zrange (cut (dE d) size r) (cut (dE d) size (r + 1) - cut (dE d) size r)) ++ (if r =? 0 then [Header 0] else []).
Definition oneByOne : list event := flat_map prog (zrange 0 size).
Lemma oneByOne_schedule : schedule_of d size oneByOne.
Proof.
  split.
  - intros ev Hin. unfold oneByOne in Hin. apply in_flat_map in Hin. destruct Hin as (r & Hr & Hin). apply in_zrange in Hr. destruct Hin as [<- | Hin]; [cbn; lia|].
    apply in_app_or in Hin. destruct Hin as [Hin | Hin]; [apply in_map_iff in Hin; destruct Hin as (e & <- & _); cbn; lia|]. destruct (r =? 0); [|contradiction]. destruct Hin as [<- | []]. cbn. lia.
  - intros r Hr. eexists. split; [now apply program_eq|]. unfold oneByOne.
    assert (N : NoDup (zrange 0 size)) by apply NoDup_zrange. assert (I : In r (zrange 0 size)) by (apply in_zrange; lia). revert N I. generalize (zrange 0 size). intros l N I.
    change (filter (fun ev => rankOf ev =? r) (flat_map prog l) = prog r).
    assert (F1 : forall r', filter (fun ev => rankOf ev =? r) (prog r') = if r' =? r then prog r' else []).
    { intro r'. unfold prog. cbn [filter rankOf]. destruct (Z.eqb_spec r' r) as [->|Hne].
      - f_equal. rewrite filter_app. f_equal.
        + generalize (zrange (cut (dE d) size r) (cut (dE d) size (r + 1) - cut (dE d) size r)). intro zs. induction zs as [|z zs IHz]; [reflexivity|]. cbn [map filter rankOf]. rewrite Z.eqb_refl. now f_equal.
        + destruct (Z.eqb_spec r 0) as [->|]; reflexivity.
      - rewrite filter_app. replace (filter _ (map (Put r') _)) with (@nil event).
        + destruct (Z.eqb_spec r' 0) as [->|]; [|reflexivity]. cbn [app filter rankOf]. destruct (Z.eqb_spec 0 r); [lia|reflexivity].
        + symmetry. generalize (zrange (cut (dE d) size r') (cut (dE d) size (r' + 1) - cut (dE d) size r')). intro zs. induction zs as [|z zs IHz]; [reflexivity|]. cbn [map filter rankOf].
          destruct (Z.eqb_spec r' r); [contradiction|exact IHz]. }
    assert (G : forall l, filter (fun ev => rankOf ev =? r) (flat_map prog l) = flat_map (fun r' => if r' =? r then prog r' else []) l).
    { clear -F1. induction l as [|a l IH]; [reflexivity|]. cbn [flat_map]. now rewrite filter_app, F1, IH. }
    rewrite G. clear G F1.
    assert (Z0 : forall l, ~ In r l -> flat_map (fun r' => if r' =? r then prog r' else []) l = []).
    { clear. induction l as [|a l IH]; intro H; [reflexivity|]. cbn [flat_map]. destruct (Z.eqb_spec a r) as [->|]; [exfalso; apply H; now left|]. apply IH. intro. apply H. now right. }
    induction l as [|a l IH]; [contradiction|]. inversion N as [|? ? Na Nl]; subst. cbn [flat_map]. destruct (Z.eqb_spec a r) as [->|Hne].
    + rewrite Z0 by assumption. apply app_nil_r.
    + destruct I as [-> | I]; [contradiction|]. now apply IH.
Qed.
Lemma oneByOne_lost : 1 < size -> exists f, writeV2 d size parts oneByOne = Ok f /\ header f = false /\ forall e, 0 <= e < cut (dE d) size (size - 1) -> slices f e = None.
Proof.
  intro Hs. unfold writeV2, oneByOne. replace (zrange 0 size) with (zrange 0 (size - 1) ++ [size - 1]).
  2:{ replace size with ((size - 1) + 1) at 3 by lia. rewrite zrange_S by lia. f_equal. }
  rewrite flat_map_app, foldM_app. cbn [flat_map]. rewrite app_nil_r. unfold prog at 2.
  assert (G : forall s f, (forall ev, In ev s -> 0 <= rankOf ev < size) -> exists f', foldM (apply2 d size parts) s f = Ok f').
  { induction s as [|ev s IH]; intros f H; [now exists f|]. cbn [foldM].
    assert (K : exists f1, apply2 d size parts f ev = Ok f1). { destruct ev as [r|r e|r]; cbn [apply2]; try (eexists; reflexivity). rewrite divideWorkIter_cut by (assumption || apply (H (Put r e)); now left). cbn [bind]. eexists; reflexivity. }
    destruct K as (f1 & ->). cbn [bind]. apply IH. intros; apply H; now right. }
  match goal with |- context [foldM _ (flat_map ?pg ?l) ?f0] => destruct (G (flat_map pg l) f0) as (f1 & ->) end.
  { intros ev Hin. apply oneByOne_schedule. unfold oneByOne. apply in_flat_map in Hin. destruct Hin as (r & Hr & Hin). apply in_flat_map. exists r. split; [apply in_zrange in Hr; apply in_zrange; lia|exact Hin]. }
  cbn [bind]. replace (size - 1 =? 0) with false by (symmetry; apply Z.eqb_neq; lia). rewrite app_nil_r. cbn [foldM apply2 bind].
  match goal with |- context [foldM _ ?s ?f0] => destruct (fold_puts s f0) as (f & E & Hh & Hsl) end.
  { intros ev Hin. apply in_map_iff in Hin. destruct Hin as (e & <- & He). apply in_zrange in He. left. exists (size - 1), e. repeat split; lia. }
  exists f. split; [exact E|]. split.
  - apply Bool.not_true_iff_false. intro Hf. apply Hh in Hf. cbn [header] in Hf. destruct Hf as [Hf | (r & Hf)]; [discriminate|]. apply in_map_iff in Hf. destruct Hf as (? & Hf & _). discriminate.
  - intros e He. destruct (slices f e) as [v|] eqn:Ef; [|reflexivity]. exfalso.
    assert (X : forall s0 f0 f2, foldM (apply2 d size parts) (map (Put (size - 1)) s0) f0 = Ok f2 -> ~ In e s0 -> slices f2 e = slices f0 e).
    { clear. induction s0 as [|a s0 IH]; intros f0 f2 H Hn; [injection H as <-; reflexivity|]. cbn [map foldM apply2] in H. destruct (divideWorkIter (dE d) (size - 1) size); cbn [bind] in H; try discriminate.
      apply IH in H; [|intro; apply Hn; now right]. rewrite H. cbn [slices]. destruct (Z.eqb_spec e a) as [->|]; [exfalso; apply Hn; now left|reflexivity]. }
    rewrite (X _ _ _ E) in Ef; [discriminate|]. intro K. apply in_zrange in K. lia.
Qed.
End Two.
(** reading *)
Section Read2.
Context {A : Type}.
Variables (zero : A) (d : dims) (g : tensor5 A) (f : file2 A).
Hypothesis Hc : complete d g f.
Lemma readSlices_ok shift mine : (forall e, In e mine -> 0 <= e < dE d) -> exists t, readSlices zero d f shift mine = Ok t /\
  forall i j nu p k, inRange d i j nu p -> t i j nu p k = if existsb (fun e => k =? e - shift) mine then g i j nu p (k + shift) else zero.
Proof.
  intro H. unfold readSlices. destruct Hc as [Hh Hs]. rewrite Hh.
  assert (G : forall l t0, (forall e, In e l -> 0 <= e < dE d) -> exists t, foldM (fun t e => do s <- getSlice d f e ; Ok (fun i j nu p e' => if e' =? e - shift then s i j nu p else t i j nu p e')) l t0 = Ok t /\
    forall i j nu p k, inRange d i j nu p -> t i j nu p k = if existsb (fun e => k =? e - shift) l then g i j nu p (k + shift) else t0 i j nu p k).
  { induction l as [|e l IH]; intros t0 Hl; [exists t0; split; [reflexivity|intros; reflexivity]|].
    destruct (Hs e (Hl e (or_introl eq_refl))) as (v & Ev & Hv). cbn [foldM]. unfold getSlice at 1. rewrite Ev. cbn [bind].
    match goal with |- context [foldM _ l ?t1] => destruct (IH t1 (fun e h => Hl e (or_intror h))) as (t & E & Ht) end. exists t. split; [exact E|].
    intros i j nu p k HR. rewrite Ht by assumption. cbn [existsb]. destruct (existsb _ l); [now rewrite Bool.orb_true_r|]. rewrite Bool.orb_false_r. destruct (Z.eqb_spec k (e - shift)) as [->|]; [|reflexivity].
    rewrite Hv by assumption. f_equal. lia. }
  destruct (G mine (fun _ _ _ _ _ => zero) H) as (t & E & Ht). exists t. split; [exact E|exact Ht].
Qed.
Variable size : Z.
Hypothesis Hfit : fits (dE d) size.
Lemma share_in r e : 0 <= r < size -> In e (zrange (cut (dE d) size r) (cut (dE d) size (r + 1) - cut (dE d) size r)) -> 0 <= e < dE d.
Proof.
  intros Hr He. apply in_zrange in He. assert (H0 : 0 <= cut (dE d) size r) by (apply cut_ge0; destruct Hfit; lia). assert (HE : cut (dE d) size (r + 1) <= dE d) by (apply cut_le; destruct Hfit; lia). lia.
Qed.
Lemma readV2_ok : exists t, readV2 zero d size f = Ok t /\ forall i j nu p e, inRange d i j nu p -> 0 <= e < dE d -> t i j nu p e = if e <? dE d / size then g i j nu p e else zero.
Proof.
  pose proof Hfit as (HE & Hs & _). unfold readV2.
  assert (G : forall l, (forall r, In r l -> 0 <= r < size) -> exists ts, mapM (fun r => do mine <- divideWorkIter (dE d) r size ; readSlices zero d f 0 mine) l = Ok ts).
  { induction l as [|r l IH]; intro H; [now exists []|]. cbn [mapM]. rewrite divideWorkIter_cut by (assumption || apply H; now left). cbn [bind].
    destruct (readSlices_ok 0 (zrange (cut (dE d) size r) (cut (dE d) size (r + 1) - cut (dE d) size r))) as (t & -> & _); [intros e He; apply (share_in r); [apply H; now left|exact He]|].
    destruct (IH (fun r' h => H r' (or_intror h))) as (ts & ->). cbn [bind]. eexists; reflexivity. }
  rewrite (zrange_cons 0 size) by lia. cbn [mapM]. rewrite (divideWorkIter_cut (dE d) 0 size) by (assumption || lia). cbn [bind].
  destruct (readSlices_ok 0 (zrange (cut (dE d) size 0) (cut (dE d) size (0 + 1) - cut (dE d) size 0))) as (t & -> & Ht); [intros e He; apply (share_in 0); [lia|exact He]|]. cbn [bind].
  destruct (G (zrange (0 + 1) (size - 1))) as (ts & ->). { intros r Hr. apply in_zrange in Hr. lia. }
  cbn [bind]. exists t. split; [reflexivity|]. intros i j nu p e HR He. rewrite Ht, Z.add_0_r by assumption. rewrite cut_0. unfold cut. rewrite Z.mul_1_r, Z.sub_0_r.
  destruct (Z.ltb_spec e (dE d / size)).
  - replace (existsb _ _) with true; [reflexivity|]. symmetry. apply existsb_exists. exists e. split; [apply in_zrange; lia|]. apply Z.eqb_eq. lia.
  - replace (existsb _ _) with false; [reflexivity|]. symmetry. apply Bool.not_true_iff_false. intro K. apply existsb_exists in K. destruct K as (e' & He' & Heq). apply in_zrange in He'. apply Z.eqb_eq in Heq. lia.
Qed.
Lemma readV2pool_ok r : 0 <= r < size -> exists mine t, readV2pool zero d size r f = Ok (mine, t) /\ divideWorkIter (dE d) r size = Ok mine /\
  forall i j nu p k e, inRange d i j nu p -> zget mine k = Some e -> t i j nu p k = g i j nu p e.
Proof.
  intro Hr. unfold readV2pool. rewrite divideWorkIter_cut by assumption. cbn [bind]. set (c := cut (dE d) size r). set (m := cut (dE d) size (r + 1) - c).
  assert (Hin : forall e, In e (zrange c m) -> 0 <= e < dE d) by (intros e He; now apply (share_in r)).
  destruct (zrange c m) as [|first tl] eqn:Ez.
  - eexists _, _. split; [reflexivity|]. split; [reflexivity|]. intros. rewrite zget_None in * by (unfold zlen; cbn; lia). discriminate.
  - assert (first = c /\ 0 < m) as [-> Hm].
    { destruct (Z_lt_le_dec 0 m) as [Hm|Hm]; [rewrite zrange_cons in Ez by assumption; injection Ez as <- _; split; [reflexivity|assumption]|].
      exfalso. assert (K : In first (zrange c m)) by (rewrite Ez; now left). apply in_zrange in K. lia. }
    destruct (readSlices_ok c (c :: tl) Hin) as (t & -> & Ht). cbn [bind]. eexists _, _. split; [reflexivity|]. split; [reflexivity|].
    intros i j nu p k e HR Hk. rewrite Ht by assumption. rewrite <- Ez in *. apply zget_zrange_inv in Hk. destruct Hk as [Hk ->].
    replace (existsb _ _) with true; [f_equal; lia|]. symmetry. apply existsb_exists. exists (c + k). split; [apply in_zrange; lia|]. apply Z.eqb_eq. lia.
Qed.
End Read2.
