(** Lemmas for C140 *)
From Coq Require Import Permutation.
From Verif Require Import Base BaseLemmas M_mpi S_mpi L_mpi M_elphio L_elphio M_plot S_plot.
From Coq Require Import Lia.
Open Scope Z_scope.

Lemma zlen_app' {B} (a b : list B) : zlen (a ++ b) = zlen a + zlen b.
Proof. unfold zlen. rewrite app_length. lia. Qed.
Lemma zlen_flat {A B} (f : A -> list B) m l : (forall x, In x l -> zlen (f x) = m) -> zlen (flat_map f l) = zlen l * m.
Proof.
  intro H. induction l as [|x l IH]; [reflexivity|]. cbn [flat_map]. rewrite zlen_app', IH by (intros; apply H; right; assumption). rewrite (H x) by (left; reflexivity). rewrite zlen_cons. lia.
Qed.
Lemma zget_flat {A B} (f : A -> list B) m l i j x : (forall x, In x l -> zlen (f x) = m) -> 0 <= j < m -> zget l i = Some x -> zget (flat_map f l) (i * m + j) = zget (f x) j.
Proof.
  revert i. induction l as [|y l IH]; intros i H Hj E; [apply zget_Some in E; destruct E as [_ []]|]. cbn [flat_map]. pose proof (H y ltac:(left; reflexivity)) as Hy.
  pose proof (zget_Some _ _ _ E) as [R _]. destruct (Z.eq_dec i 0) as [->|N].
  - replace (zget (y :: l) 0) with (Some y) in E by reflexivity. injection E as ->. rewrite zget_app1 by lia. f_equal; lia.
  - rewrite zget_app2 by nia. rewrite zget_consS in E by lia. rewrite Hy. replace (i * m + j - m) with ((i - 1) * m + j) by lia. apply IH; [intros; apply H; right; assumption|exact Hj|exact E].
Qed.
Lemma concat_map_flat {A B} (f : A -> list B) l : concat (map f l) = flat_map f l.
Proof. symmetry. apply flat_map_concat_map. Qed.

(** * Ranges *)
Lemma clamp_kept n lo hi : 0 <= lo -> lo <= hi -> 0 < hi -> hi < n -> clampRange n (lo, hi) = (lo, hi).
Proof. intros. unfold clampRange. cbn [fst snd]. rewrite (proj2 (Z.leb_gt hi 0)), (proj2 (Z.leb_gt n hi)), (proj2 (Z.ltb_ge lo 0)) by lia. reflexivity. Qed.
Lemma clamp_bounds n b : 0 < n -> 0 <= fst (clampRange n b) /\ 0 <= snd (clampRange n b) < n.
Proof.
  intro N. unfold clampRange. cbn [fst snd]. split.
  - destruct (Z.ltb_spec (fst b) 0); lia.
  - destruct (Z.leb_spec (snd b) 0), (Z.leb_spec n (snd b)); cbn [orb]; lia.
Qed.
Lemma ranges_ok nEl nPh b1 b2 b3 r1 r2 r3 : 0 < nEl -> 0 < nPh -> ranges nEl nPh b1 b2 b3 = Ok (r1, r2, r3) ->
  0 <= fst r1 <= snd r1 /\ snd r1 < nEl /\ 0 <= fst r2 <= snd r2 /\ snd r2 < nEl /\ 0 <= fst r3 <= snd r3 /\ snd r3 < nPh.
Proof.
  intros N1 N3. unfold ranges. destruct ((snd (clampRange nPh b3) <? fst (clampRange nPh b3)) || (snd (clampRange nEl b1) <? fst (clampRange nEl b1)) || (snd (clampRange nEl b2) <? fst (clampRange nEl b2))) eqn:E; [discriminate|].
  intro H. injection H as <- <- <-. apply orb_false_iff in E as [E E2]. apply orb_false_iff in E as [E3 E1]. apply Z.ltb_ge in E1, E2, E3.
  pose proof (clamp_bounds nEl b1 N1). pose proof (clamp_bounds nEl b2 N1). pose proof (clamp_bounds nPh b3 N3). lia.
Qed.

(** * Pairs *)
Lemma pairs_q {P} (q : P) pts : pairsOf (QFixed q) pts = map (fun k => (k, q)) pts.
Proof. unfold pairsOf. induction pts as [|x l IH]; [reflexivity|]. cbn [flat_map map app]. rewrite IH. reflexivity. Qed.
Lemma pairs_k {P} (k : P) pts : pairsOf (KFixed k) pts = map (fun q => (k, q)) pts.
Proof. unfold pairsOf. induction pts as [|x l IH]; [reflexivity|]. cbn [flat_map map app]. rewrite IH. reflexivity. Qed.
Lemma zlen_map' {A B} (f : A -> B) l : zlen (map f l) = zlen l.
Proof. unfold zlen. rewrite map_length. reflexivity. Qed.
Lemma pairs_all {P} (pts : list P) i j k q : zget pts i = Some k -> zget pts j = Some q -> zget (pairsOf AllToAll pts) (i * zlen pts + j) = Some (k, q).
Proof.
  intros Hk Hq. unfold pairsOf. pose proof (zget_Some _ _ _ Hq) as [R _]. rewrite (zget_flat _ (zlen pts) pts i j k); [|intros; apply zlen_map'|lia|exact Hk]. rewrite zget_map. rewrite Hq. reflexivity.
Qed.
Lemma pairs_all_len {P} (pts : list P) : zlen (pairsOf AllToAll pts) = zlen pts * zlen pts.
Proof. unfold pairsOf. apply zlen_flat. intros. apply zlen_map'. Qed.

(** * Values *)
Lemma radix2 x y a b : 0 <= x < a -> 0 <= y < b -> 0 <= x * b + y < a * b.
Proof. intros. nia. Qed.
Lemma radix3 x y z a b c : 0 <= x < a -> 0 <= y < b -> 0 <= z < c -> 0 <= (x * b + y) * c + z < a * b * c.
Proof. intros. apply radix2; [apply radix2; assumption|assumption]. Qed.
Section Values.
Context {P A : Type}.
Variables (zero : A) (g : P -> P -> Z -> Z -> Z -> A) (r1 r2 r3 : Z * Z).
Hypothesis O1 : fst r1 <= snd r1. Hypothesis O2 : fst r2 <= snd r2. Hypothesis O3 : fst r3 <= snd r3.
Let n1 := snd r1 - fst r1 + 1. Let n2 := snd r2 - fst r2 + 1. Let n3 := snd r3 - fst r3 + 1.
Lemma span_len r : fst r <= snd r -> zlen (span r) = snd r - fst r + 1.
Proof. intro H. unfold span. apply zlen_zrange. lia. Qed.
Lemma span_get r b : fst r <= snd r -> within r b -> zget (span r) (b - fst r) = Some b.
Proof. intros H W. unfold span, within in *. rewrite zget_zrange by lia. f_equal. lia. Qed.
Lemma len_inner (p : P * P) i j : zlen (map (fun k => g (fst p) (snd p) i j k) (span r3)) = n3.
Proof. rewrite zlen_map'. apply span_len, O3. Qed.
Lemma len_mid (p : P * P) i : zlen (flat_map (fun j => map (fun k => g (fst p) (snd p) i j k) (span r3)) (span r2)) = n2 * n3.
Proof. rewrite (zlen_flat _ n3) by (intros; apply len_inner). rewrite span_len by exact O2. reflexivity. Qed.
Lemma len_values p : zlen (bandValues g r1 r2 r3 p) = bandProd r1 r2 r3.
Proof. unfold bandValues. rewrite (zlen_flat _ (n2 * n3)) by (intros; apply len_mid). rewrite span_len by exact O1. unfold bandProd, n2, n3. ring. Qed.
Lemma values_get k q b1 b2 b3 : within r1 b1 -> within r2 b2 -> within r3 b3 ->
  zget (bandValues g r1 r2 r3 (k, q)) (((b1 - fst r1) * n2 + (b2 - fst r2)) * n3 + (b3 - fst r3)) = Some (g k q b1 b2 b3).
Proof.
  intros W1 W2 W3. unfold bandValues. unfold within in *.
  replace (((b1 - fst r1) * n2 + (b2 - fst r2)) * n3 + (b3 - fst r3)) with ((b1 - fst r1) * (n2 * n3) + ((b2 - fst r2) * n3 + (b3 - fst r3))) by ring.
  rewrite (zget_flat _ (n2 * n3) _ _ _ b1); [|intros; apply len_mid|unfold n2, n3; nia|apply span_get; [exact O1|exact W1]].
  rewrite (zget_flat _ n3 _ _ _ b2); [|intros; apply len_inner|unfold n3; lia|apply span_get; [exact O2|exact W2]].
  rewrite zget_map, span_get by (exact O3 || exact W3). reflexivity.
Qed.
Lemma prod_pos : 0 < bandProd r1 r2 r3.
Proof. unfold bandProd. clear n1 n2 n3. repeat apply Z.mul_pos_pos; lia. Qed.
Lemma place_split n b1 b2 b3 : place r1 r2 r3 n b1 b2 b3 = n * bandProd r1 r2 r3 + (((b1 - fst r1) * n2 + (b2 - fst r2)) * n3 + (b3 - fst r3)).
Proof. unfold place, bandProd, n2, n3. ring. Qed.
Lemma place_inner b1 b2 b3 : within r1 b1 -> within r2 b2 -> within r3 b3 -> 0 <= ((b1 - fst r1) * n2 + (b2 - fst r2)) * n3 + (b3 - fst r3) < bandProd r1 r2 r3.
Proof.
  intros W1 W2 W3. unfold within in *. unfold bandProd, n2, n3. set (x := b1 - fst r1). set (y := b2 - fst r2). set (z := b3 - fst r3).
  assert (0 <= x < snd r1 - fst r1 + 1) by (unfold x; lia). assert (0 <= y < snd r2 - fst r2 + 1) by (unfold y; lia). assert (0 <= z < snd r3 - fst r3 + 1) by (unfold z; lia). clearbody x y z. clear n1 n2 n3 W1 W2 W3. apply radix3; assumption.
Qed.
Variable pairs : list (P * P).
Lemma valuesOf_ok a n : 0 <= a -> 0 <= n -> a + n <= zlen pairs -> exists vals, valuesOf g r1 r2 r3 pairs (zrange a n) = Ok vals /\ zlen vals = n * bandProd r1 r2 r3 /\
  forall i k q b1 b2 b3, a <= i < a + n -> zget pairs i = Some (k, q) -> within r1 b1 -> within r2 b2 -> within r3 b3 -> at_ zero vals (place r1 r2 r3 (i - a) b1 b2 b3) = g k q b1 b2 b3.
Proof.
  intros Ha Hn Hl. set (f := fun i => match zget pairs i with Some p => bandValues g r1 r2 r3 p | None => [] end).
  assert (M : mapM (fun i => match zget pairs i with Some p => Ok (bandValues g r1 r2 r3 p) | None => UB end) (zrange a n) = Ok (map f (zrange a n))).
  { apply mapM_ok. intros i Hi. apply in_zrange in Hi. unfold f. destruct (zget_inrange pairs i ltac:(lia)) as (p & ->). reflexivity. }
  exists (concat (map f (zrange a n))). unfold valuesOf. rewrite M. split; [reflexivity|]. rewrite concat_map_flat.
  assert (L : forall x, In x (zrange a n) -> zlen (f x) = bandProd r1 r2 r3).
  { intros x Hx. apply in_zrange in Hx. unfold f. destruct (zget_inrange pairs x ltac:(lia)) as (p & ->). apply len_values. }
  split; [rewrite (zlen_flat f (bandProd r1 r2 r3)) by exact L; rewrite zlen_zrange by lia; reflexivity|].
  intros i k q b1 b2 b3 Hi E W1 W2 W3. unfold at_. rewrite place_split. rewrite (zget_flat f (bandProd r1 r2 r3) _ _ _ i L); [|apply place_inner; assumption|rewrite zget_zrange by lia; f_equal; lia].
  unfold f. rewrite E. rewrite values_get by assumption. reflexivity.
Qed.
Variables (mx size : Z).
Hypothesis Hfit : fits (zlen pairs) size. Hypothesis Hmany : size <= zlen pairs.
Hypothesis Hone : forall r, 0 <= r < size -> (cut (zlen pairs) size (r + 1) - cut (zlen pairs) size r) * bandProd r1 r2 r3 <= mx.
Lemma plotRank_ok r ds : 0 <= r < size -> exists ds', plotRank zero mx g r1 r2 r3 pairs size r ds = Ok ds' /\
  forall i k q b1 b2 b3, zget pairs i = Some (k, q) -> within r1 b1 -> within r2 b2 -> within r3 b3 ->
    ds' (place r1 r2 r3 i b1 b2 b3) = if (cut (zlen pairs) size r <=? i) && (i <? cut (zlen pairs) size (r + 1)) then Some (g k q b1 b2 b3) else ds (place r1 r2 r3 i b1 b2 b3).
Proof.
  intro Hr. unfold plotRank. rewrite divideWorkIter_cut by assumption. cbn [bind]. set (c := cut (zlen pairs) size r). set (c' := cut (zlen pairs) size (r + 1)).
  assert (S0 : 0 < size) by (destruct Hfit; lia).
  assert (Hcc : c < c') by (apply cut_lt; lia). assert (H0 : 0 <= c) by (apply cut_ge0; destruct Hfit; lia). assert (HE : c' <= zlen pairs) by (apply cut_le; destruct Hfit; lia).
  destruct (valuesOf_ok c (c' - c) H0 ltac:(lia) ltac:(lia)) as (vals & E & L & V). rewrite E. cbn [bind]. pose proof prod_pos as Hsp.
  assert (Z0 : zrange c (c' - c) = c :: zrange (c + 1) (c' - c - 1)) by (rewrite zrange_cons by lia; reflexivity).
  assert (La : last (zrange c (c' - c)) c = c' - 1) by (rewrite last_zrange by lia; lia). rewrite Z0 in La |- *. rewrite La. replace (c' - 1 + 1 - c) with (c' - c) by lia.
  destruct (writeBunches_one (bandProd r1 r2 r3) (c * bandProd r1 r2 r3) (zlen vals) (at_ zero vals) (c' - c) (bunches mx (bandProd r1 r2 r3) (c' - c)) ds ltac:(lia) ltac:(lia) ltac:(nia) ltac:(lia)
    (bunches_one mx (bandProd r1 r2 r3) (c' - c) ltac:(lia) Hsp (Hone r Hr))) as (ds' & Ew & H').
  exists ds'. split; [exact Ew|]. intros i k q b1 b2 b3 Hi W1 W2 W3. rewrite H'. pose proof (place_inner b1 b2 b3 W1 W2 W3) as PI. pose proof (place_split i b1 b2 b3) as PS. set (off := ((b1 - fst r1) * n2 + (b2 - fst r2)) * n3 + (b3 - fst r3)) in *.
  pose proof (zget_Some _ _ _ Hi) as [Ri _].
  destruct (Z.leb_spec c i) as [C1|C1].
  - destruct (Z.ltb_spec i c') as [C2|C2]; cbn [andb].
    + rewrite (proj2 (Z.leb_le _ _)) by (rewrite PS; nia). rewrite (proj2 (Z.ltb_lt _ _)) by (rewrite PS; nia). cbn [andb]. f_equal.
      rewrite <- (V i k q b1 b2 b3) by (assumption || lia). f_equal. rewrite !place_split. fold off. ring.
    + rewrite (proj2 (Z.ltb_ge _ _)) by (rewrite PS; nia). rewrite andb_false_r. reflexivity.
  - cbn [andb]. rewrite (proj2 (Z.leb_gt _ _)) by (rewrite PS; nia). reflexivity.
Qed.
Lemma plot_fold order ds0 : (forall r, In r order -> 0 <= r < size) -> exists ds, foldM (fun ds r => plotRank zero mx g r1 r2 r3 pairs size r ds) order ds0 = Ok ds /\
  forall i k q b1 b2 b3, zget pairs i = Some (k, q) -> within r1 b1 -> within r2 b2 -> within r3 b3 ->
    (ds0 (place r1 r2 r3 i b1 b2 b3) = Some (g k q b1 b2 b3) \/ exists r, In r order /\ cut (zlen pairs) size r <= i < cut (zlen pairs) size (r + 1)) -> ds (place r1 r2 r3 i b1 b2 b3) = Some (g k q b1 b2 b3).
Proof.
  revert ds0. induction order as [|r order IH]; intros ds0 H.
  - exists ds0. split; [reflexivity|]. intros i k q b1 b2 b3 _ _ _ _ [E|(r & [] & _)]. exact E.
  - destruct (plotRank_ok r ds0 (H r ltac:(left; reflexivity))) as (ds1 & E1 & H1). destruct (IH ds1 ltac:(intros; apply H; right; assumption)) as (ds & E & H2). exists ds.
    cbn [foldM]. rewrite E1. cbn [bind]. split; [exact E|]. intros i k q b1 b2 b3 Hi W1 W2 W3 C. apply (H2 i k q b1 b2 b3 Hi W1 W2 W3).
    destruct C as [C|(r' & [<-|R'] & C)].
    + left. rewrite (H1 i k q b1 b2 b3 Hi W1 W2 W3). destruct ((cut (zlen pairs) size r <=? i) && (i <? cut (zlen pairs) size (r + 1))); [reflexivity|exact C].
    + left. rewrite (H1 i k q b1 b2 b3 Hi W1 W2 W3). rewrite (proj2 (Z.leb_le _ _)), (proj2 (Z.ltb_lt _ _)) by lia. reflexivity.
    + right. exists r'. split; assumption.
Qed.
Lemma plot_ok order : zlen pairs * bandProd r1 r2 r3 < 4294967296 -> Permutation order (zrange 0 size) -> exists ds, plotParallel zero mx g r1 r2 r3 pairs size order = Ok ds /\ fileComplete g r1 r2 r3 pairs ds.
Proof.
  intros B HP. unfold plotParallel. rewrite (proj2 (Z.leb_gt _ _)) by lia.
  destruct (plot_fold order (fun _ => None)) as (ds & E & H). { intros r Hr. apply (Permutation_in _ HP) in Hr. apply in_zrange in Hr. lia. }
  exists ds. split; [exact E|]. intros i k q b1 b2 b3 Hi W1 W2 W3. apply (H i k q b1 b2 b3 Hi W1 W2 W3). right.
  pose proof (zget_Some _ _ _ Hi) as [Ri _]. destruct (cut_find (zlen pairs) size i Hfit Ri) as (r & Hr & C). exists r. split; [|exact C]. apply (Permutation_in _ (Permutation_sym HP)). apply in_zrange. lia.
Qed.
End Values.
(** * Collective calls *)
Lemma calls_equal n size r mine mx : fits n size -> 0 <= r < size -> divideWorkIter n r size = Ok mine ->
  (forall r' l, 0 <= r' < size -> divideWorkIter n r' size = Ok l -> zlen l <= mx) -> (exists r' l, 0 <= r' < size /\ divideWorkIter n r' size = Ok l /\ zlen l = mx) -> cacheCalls (zlen mine) mx = mx.
Proof.
  intros F Hr E M (r' & l & Hr' & E' & L). pose proof (divideWorkIter_balanced n size r r' mine l F Hr Hr' E E') as B. pose proof (M r mine Hr E) as B'. unfold cacheCalls. destruct (Z.ltb_spec (zlen mine) mx); lia.
Qed.
(** * More processes than pairs *)
Lemma writeBunches_noErr {A} sp start len (buf : Z -> A) bs : forall net ds, writeBunches true sp start net len buf bs ds <> Err.
Proof. induction bs as [|b bs IH]; intros net ds; cbn [writeBunches]; [discriminate|]. destruct (2147483647 <? 0); [discriminate|]. destruct (len <? 0 + b * sp); [discriminate|]. apply IH. Qed.
Lemma valuesOf_noErr {P A} (g : P -> P -> Z -> Z -> Z -> A) r1 r2 r3 pairs l : valuesOf g r1 r2 r3 pairs l <> Err.
Proof.
  unfold valuesOf. assert (N : mapM (fun i => match zget pairs i with Some p => Ok (bandValues g r1 r2 r3 p) | None => UB end) l <> Err).
  { induction l as [|i l IH]; cbn [mapM]; [discriminate|]. destruct (zget pairs i); [|discriminate]. cbn [bind]. destruct (mapM _ l); cbn [bind]; congruence. }
  destruct (mapM _ l); cbn [bind]; congruence.
Qed.
Lemma plotRank_noErr {P A} (zero : A) mx (g : P -> P -> Z -> Z -> Z -> A) r1 r2 r3 pairs size r ds : plotRank zero mx g r1 r2 r3 pairs size r ds <> Err.
Proof.
  unfold plotRank. destruct (divideWorkIter (zlen pairs) r size) as [mine| |] eqn:E; cbn [bind]; [|unfold divideWorkIter in E; destruct (_ <? _) in E; discriminate|discriminate].
  pose proof (valuesOf_noErr g r1 r2 r3 pairs mine) as N. destruct (valuesOf g r1 r2 r3 pairs mine) as [v| |]; cbn [bind]; [|congruence|discriminate]. destruct mine; [discriminate|]. apply writeBunches_noErr.
Qed.
Lemma plot_few {P A} (zero : A) mx (g : P -> P -> Z -> Z -> Z -> A) r1 r2 r3 pairs size order : fits (zlen pairs) size -> zlen pairs < size -> Permutation order (zrange 0 size) ->
  zlen pairs * bandProd r1 r2 r3 < 4294967296 -> plotParallel zero mx g r1 r2 r3 pairs size order = UB.
Proof.
  intros F L HP B. unfold plotParallel. rewrite (proj2 (Z.leb_gt _ _)) by lia.
  assert (U : forall ds, plotRank zero mx g r1 r2 r3 pairs size 0 ds = UB).
  { intro ds. unfold plotRank. destruct F as (F1 & F2 & F3). rewrite divideWorkIter_cut by (repeat split; lia || assumption). rewrite cut_0. unfold cut. rewrite Z.mul_1_r, Z.div_small by lia. reflexivity. }
  assert (I : In 0 order) by (apply (Permutation_in _ (Permutation_sym HP)); apply in_zrange; destruct F; lia).
  assert (R : forall r, In r order -> 0 <= r < size) by (intros r Hr; apply (Permutation_in _ HP) in Hr; apply in_zrange in Hr; lia).
  generalize (fun _ : Z => @None A). clear HP. induction order as [|r order IH]; intro ds; [destruct I|]. cbn [foldM].
  pose proof (plotRank_noErr zero mx g r1 r2 r3 pairs size r ds) as N. destruct (plotRank zero mx g r1 r2 r3 pairs size r ds) as [ds'| |] eqn:E; [| congruence|reflexivity]. destruct (Z.eq_dec r 0) as [->|D].
  - rewrite U in E. discriminate.
  - cbn [bind]. apply IH; [destruct I as [I|I]; [congruence|exact I]|intros; apply R; right; assumption].
Qed.
(** * HDF5 without MPI *)
Section Serial.
Context {P A : Type}.
Variables (zero : A) (g : P -> P -> Z -> Z -> Z -> A) (r1 r2 r3 : Z * Z) (pairs : list (P * P)).
Hypothesis O1 : fst r1 <= snd r1. Hypothesis O2 : fst r2 <= snd r2. Hypothesis O3 : fst r3 <= snd r3.
Hypothesis Small : zlen pairs * bandProd r1 r2 r3 <= plotMaxSize.
Let n := zlen pairs * bandProd r1 r2 r3.
Lemma n_nonneg : 0 <= n.
Proof. unfold n. pose proof (prod_pos r1 r2 r3 O1 O2 O3). assert (0 <= zlen pairs) by (unfold zlen; lia). nia. Qed.
Lemma zlen_zeros : zlen (repeat zero (Z.to_nat n)) = n.
Proof. pose proof n_nonneg. unfold zlen. rewrite repeat_length. lia. Qed.
Lemma serial_one : fits (zlen pairs) 1 -> plotSerial zero g r1 r2 r3 pairs 1 = Ok (repeat zero (Z.to_nat n)).
Proof.
  intro F. unfold plotSerial. rewrite (proj2 (Z.ltb_ge _ _)) by exact Small. fold n. change (zrange 0 1) with [0]. cbn [map mapM]. change (0 =? 0) with true. cbv iota.
  rewrite divideWorkIter_cut by (exact F || lia). cbn [bind]. rewrite cut_0. replace (cut (zlen pairs) 1 (0 + 1)) with (zlen pairs) by (unfold cut; rewrite Z.div_1_r; lia). rewrite Z.sub_0_r.
  destruct (valuesOf_ok zero g r1 r2 r3 O1 O2 O3 pairs 0 (zlen pairs) ltac:(lia) ltac:(unfold zlen; lia) ltac:(lia)) as (vals & E & L & _). rewrite E. cbn [bind]. fold n in L.
  pose proof n_nonneg as N. assert (Nm : n <= 125000000) by exact Small.
  unfold allGatherv. change (zlen [repeat zero (Z.to_nat n)]) with 1. rewrite workDivHelper_cut by (try (split; [lia|split; [lia|]]); rewrite ?L; unfold INT_MAX; lia).
  cbn [fst snd]. change (zrange 0 1) with [0]. cbn [map mpiGatherv]. rewrite cut_0. replace (cut (zlen vals) 1 (0 + 1)) with (zlen vals) by (unfold cut; rewrite Z.div_1_r; lia).
  rewrite zlen_zeros, L, Z.sub_0_r, Z.eqb_refl. unfold writeAt. rewrite zlen_zeros, L. rewrite (proj2 (Z.leb_le 0 0)), (proj2 (Z.leb_le (0 + n) n)) by lia. reflexivity.
Qed.
Lemma serial_many size : fits (zlen pairs) size -> 2 <= size -> 0 < zlen pairs -> n * size < 18446744073709551616 -> plotSerial zero g r1 r2 r3 pairs size = UB.
Proof.
  intros F S2 Np Big. unfold plotSerial. rewrite (proj2 (Z.ltb_ge _ _)) by exact Small. fold n.
  pose proof (zrange_cons 0 size ltac:(lia)) as Zr. rewrite Zr. cbn [map mapM]. change (0 =? 0) with true. cbv iota.
  rewrite divideWorkIter_cut by (exact F || lia). cbn [bind]. rewrite cut_0, Z.sub_0_r. set (c := cut (zlen pairs) size (0 + 1)).
  assert (C0 : 0 <= c) by (apply cut_ge0; destruct F; lia). assert (C1 : c <= zlen pairs) by (apply cut_le; destruct F; lia).
  destruct (valuesOf_ok zero g r1 r2 r3 O1 O2 O3 pairs 0 c ltac:(lia) C0 ltac:(lia)) as (vals & E & L & _). rewrite E. cbn [bind].
  pose proof (prod_pos r1 r2 r3 O1 O2 O3) as Pp. pose proof n_nonneg as N. assert (Nm : n <= 125000000) by exact Small. assert (Npos : 0 < n) by (unfold n; nia).
  assert (Lv : 0 <= zlen vals <= n) by (rewrite L; unfold n; nia).
  assert (Ls : zlen (repeat zero (Z.to_nat n) :: map (fun r => if r =? 0 then repeat zero (Z.to_nat n) else []) (zrange (0 + 1) (size - 1))) = size).
  { rewrite zlen_cons. unfold zlen at 1. rewrite map_length. fold (zlen (zrange (0 + 1) (size - 1))). rewrite zlen_zrange by lia. lia. }
  assert (G : allGatherv (repeat zero (Z.to_nat n) :: map (fun r => if r =? 0 then repeat zero (Z.to_nat n) else []) (zrange (0 + 1) (size - 1))) vals = UB).
  { unfold allGatherv. rewrite Ls. rewrite workDivHelper_cut; [|split; [lia|split; [lia|nia]]|unfold INT_MAX; lia]. cbn [fst snd]. rewrite Zr. cbn [map mpiGatherv]. rewrite cut_0, zlen_zeros.
    replace (n =? cut (zlen vals) size (0 + 1) - 0) with false; [reflexivity|]. symmetry. apply Z.eqb_neq. unfold cut. assert (zlen vals * (0 + 1) / size < n); [|lia]. apply Z.div_lt_upper_bound; nia. }
  rewrite G. reflexivity.
Qed.
End Serial.
