(** Reading back the triplets of a ShengBTE file. *)
From Coq Require Import Reals QArith Qreals Permutation.
From Verif Require Import Base BaseLemmas M_utilities M_complex M_electron S_electron M_phonon S_phonon M_interaction S_interaction L_interaction3.
From Coq Require Import Lia.
Open Scope Z_scope.

Section Store.
Variables (nA n : Z) (ts0 : list triplet).
Notation l2 := (positions (map tp2 ts0)).
Notation l3 := (positions (map tp3 ts0)).
Hypothesis HA : 0 < nA.
Hypothesis N2 : zlen l2 = n.
Hypothesis N3 : zlen l3 = n.
Hypothesis S2 : Separated (map tp2 ts0).
Hypothesis S3 : Separated (map tp3 ts0).
Hypothesis At : AtomsInside nA ts0.
Definition inRange (i1 i2 i3 r3 r2 : Z) : Prop := 0 <= i1 < 3 * nA /\ 0 <= i2 < 3 * nA /\ 0 <= i3 < 3 * nA /\ 0 <= r3 < n /\ 0 <= r2 < n.
Definition expected (ts : list triplet) (i1 i2 i3 r3 r2 : Z) : R :=
  match zget l2 r2, zget l3 r3 with
  | Some p2, Some p3 => match lastAt ts p2 p3 (i1 / 3) (i2 / 3) (i3 / 3) with Some t => tv t (i1 mod 3) (i2 mod 3) (i3 mod 3) | None => 0%R end
  | _, _ => 0%R
  end.
Lemma store_one t m : In t ts0 -> exists m', storeTriplet nA n n l2 l3 m t = Ok m' /\
  forall i1 i2 i3 r3 r2 p2 p3, inRange i1 i2 i3 r3 r2 -> zget l2 r2 = Some p2 -> zget l3 r3 = Some p3 ->
  m' (offset5 (3 * nA) n i1 i2 i3 r3 r2) =
  if q3eqb (tp2 t) p2 && q3eqb (tp3 t) p3 && (ta1 t =? i1 / 3) && (ta2 t =? i2 / 3) && (ta3 t =? i3 / 3) then tv t (i1 mod 3) (i2 mod 3) (i3 mod 3) else m (offset5 (3 * nA) n i1 i2 i3 r3 r2).
Proof.
  intro Ht. destruct (index_ok (map tp2 ts0) (tp2 t) S2 (in_map tp2 _ _ Ht)) as (k2 & x2 & E2 & G2 & _ & U2).
  destruct (index_ok (map tp3 ts0) (tp3 t) S3 (in_map tp3 _ _ Ht)) as (k3 & x3 & E3 & G3 & _ & U3).
  destruct (At t Ht) as (A1 & A2 & A3). apply zget_range in G2, G3. rewrite N2 in G2. rewrite N3 in G3.
  unfold storeTriplet. rewrite E2, E3. cbn [bind].
  set (off := fun c : Z * Z * Z => offset5 (3 * nA) n (3 * ta1 t + fst (fst c)) (3 * ta2 t + snd (fst c)) (3 * ta3 t + snd c) k3 k2).
  set (val := fun c : Z * Z * Z => tv t (fst (fst c)) (snd (fst c)) (snd c)).
  assert (R : forall c, In c components -> inRange (3 * ta1 t + fst (fst c)) (3 * ta2 t + snd (fst c)) (3 * ta3 t + snd c) k3 k2) by (intros c Hc; apply in_components in Hc; unfold inRange; lia).
  destruct (writes_ok (size5 (3 * nA) n n) off val components) with (m := m) as (m' & E & V).
  { intros c Hc. destruct (R c Hc) as (Q1 & Q2 & Q3 & Q4 & Q5). apply offset_range; assumption. }
  exists m'. split; [exact E|]. intros i1 i2 i3 r3 r2 p2 p3 (I1 & I2 & I3 & I4 & I5) P2 P3. rewrite V. unfold memAfter.
  rewrite <- (U2 r2 p2 P2), <- (U3 r3 p3 P3).
  assert (M : forall c, In c components -> off c = offset5 (3 * nA) n i1 i2 i3 r3 r2 -> c = (i1 mod 3, i2 mod 3, i3 mod 3) /\ k2 = r2 /\ k3 = r3 /\ ta1 t = i1 / 3 /\ ta2 t = i2 / 3 /\ ta3 t = i3 / 3).
  { intros c Hc Eo. destruct (R c Hc) as (Q1 & Q2 & Q3 & Q4 & Q5). apply in_components in Hc. destruct c as [[c1 c2] c3]. cbn [fst snd] in *.
    unfold off in Eo. cbn [fst snd] in Eo. apply offset_inj in Eo as (X1 & X2 & X3 & X4 & X5); try assumption.
    assert (D : forall a c i, 0 <= c < 3 -> 3 * a + c = i -> c = i mod 3 /\ a = i / 3). { intros a c i Hc' He. subst i. split; [apply (Z.mod_unique _ _ a); lia|apply (Z.div_unique _ _ _ c); lia]. }
    destruct (D _ _ _ (proj1 Hc) X1) as [-> ->]. destruct (D _ _ _ (proj1 (proj2 Hc)) X2) as [-> ->]. destruct (D _ _ _ (proj2 (proj2 Hc)) X3) as [-> ->]. repeat split; auto. }
  destruct (find _ (rev components)) as [c|] eqn:F.
  - apply find_some in F as [F1 F2]. apply in_rev in F1. destruct (M c F1 ltac:(lia)) as (-> & -> & -> & -> & -> & ->). rewrite !Z.eqb_refl. reflexivity.
  - destruct ((k2 =? r2) && (k3 =? r3) && (ta1 t =? i1 / 3) && (ta2 t =? i2 / 3) && (ta3 t =? i3 / 3)) eqn:B; [|reflexivity]. exfalso.
    assert (W := find_none _ _ F (i1 mod 3, i2 mod 3, i3 mod 3)). cbv beta in W.
    rewrite <- in_rev in W. assert (Hc : In (i1 mod 3, i2 mod 3, i3 mod 3) components) by (apply in_components; cbn [fst snd]; repeat split; try (apply Z.mod_pos_bound; lia)).
    specialize (W Hc). unfold off in W. cbn [fst snd] in W. assert (k2 = r2 /\ k3 = r3 /\ ta1 t = i1 / 3 /\ ta2 t = i2 / 3 /\ ta3 t = i3 / 3) as (K1 & K2 & K3 & K4 & K5) by lia.
    rewrite K1, K2, K3, K4, K5 in W. rewrite <- !Z.div_mod in W by lia. rewrite Z.eqb_refl in W. discriminate.
Qed.
Lemma store_all ts : incl ts ts0 -> exists m, foldM (storeTriplet nA n n l2 l3) ts (fun _ => 0%R) = Ok m /\
  forall i1 i2 i3 r3 r2, inRange i1 i2 i3 r3 r2 -> m (offset5 (3 * nA) n i1 i2 i3 r3 r2) = expected ts i1 i2 i3 r3 r2.
Proof.
  induction ts as [|t ts IH] using rev_ind; intro I.
  - exists (fun _ => 0%R). split; [reflexivity|]. intros. unfold expected. destruct (zget l2 r2); [|reflexivity]. destruct (zget l3 r3); reflexivity.
  - destruct IH as (m & E & V); [intros x Hx; apply I; apply in_or_app; left; exact Hx|]. destruct (store_one t m) as (m' & E' & V'); [apply I, in_or_app; right; left; reflexivity|].
    exists m'. split; [rewrite foldM_app, E; cbn [bind foldM]; rewrite E'; reflexivity|]. intros i1 i2 i3 r3 r2 Hr. unfold expected.
    destruct (zget_inrange l2 r2) as (p2 & P2); [unfold inRange in Hr; lia|]. destruct (zget_inrange l3 r3) as (p3 & P3); [unfold inRange in Hr; lia|]. rewrite P2, P3.
    rewrite (V' _ _ _ _ _ p2 p3 Hr P2 P3). rewrite (V _ _ _ _ _ Hr). unfold lastAt. rewrite rev_unit. cbn [find].
    destruct (q3eqb (tp2 t) p2 && q3eqb (tp3 t) p3 && (ta1 t =? i1 / 3) && (ta2 t =? i2 / 3) && (ta3 t =? i3 / 3)); [reflexivity|]. unfold expected. rewrite P2, P3. reflexivity.
Qed.
Lemma reads_ok : readsInside nA n n = true.
Proof.
  unfold readsInside. apply Bool.andb_true_iff. split; apply forallb_forall.
  - intros [[[[i1 i2] i3] a] b] H. rewrite !in_prod_iff, !in_zrange in H. apply Z.ltb_lt. apply offset_range; lia.
  - intros [[i j] k] H. rewrite !in_prod_iff, !in_zrange in H. apply Z.ltb_lt.
    assert (K1 : nA * k <= nA * (nA - 1)) by (apply Z.mul_le_mono_nonneg_l; lia). assert (K2 : n * (j + nA * k) <= n * (nA * nA - 1)) by (apply Z.mul_le_mono_nonneg_l; lia). lia.
Qed.
End Store.

Lemma reads_unequal nA n2 n3 : 0 < nA -> 0 < n2 -> 0 < n3 -> n2 <> n3 -> readsInside nA n2 n3 = false.
Proof.
  intros HA H2 H3 D. unfold readsInside. destruct (Z.lt_ge_cases n2 n3) as [L|L].
  - apply Bool.andb_false_iff. right. apply Bool.not_true_iff_false. intro H. rewrite forallb_forall in H.
    specialize (H (n3 - 1, nA - 1, nA - 1)). rewrite !in_prod_iff, !in_zrange in H. specialize (H ltac:(lia)). apply Z.ltb_lt in H. nia.
  - apply Bool.andb_false_iff. left. apply Bool.not_true_iff_false. intro H. rewrite forallb_forall in H.
    specialize (H (3 * nA - 1, 3 * nA - 1, 3 * nA - 1, n3 - 1, n2 - 1)). rewrite !in_prod_iff, !in_zrange in H. specialize (H ltac:(lia)). apply Z.ltb_lt in H. unfold offset5, size5 in H.
    set (b := 3 * nA) in *. assert (B : 0 < b) by (unfold b; lia). clearbody b.
    assert (K : n2 * n3 <= n3 - 1 + n2 * (n2 - 1)) by nia.
    assert (b * (n2 * n3) <= b * (n3 - 1 + n2 * (n2 - 1))) by (apply Z.mul_le_mono_nonneg_l; lia).
    assert (b * (b * (n2 * n3)) <= b * (b - 1 + b * (n3 - 1 + n2 * (n2 - 1)))) by (apply Z.mul_le_mono_nonneg_l; lia).
    assert (b * (b * (b * (n2 * n3))) <= b * (b - 1 + b * (b - 1 + b * (n3 - 1 + n2 * (n2 - 1))))) by (apply Z.mul_le_mono_nonneg_l; lia). lia.
Qed.
Lemma writes_noerr {A} size (off : A -> Z) (val : A -> R) l : forall m, foldM (fun m w => writeAt size m (off w) (val w)) l m <> Err.
Proof. induction l as [|a l IH]; intro m; [discriminate|]. cbn [foldM]. unfold writeAt at 1. destruct (_ && _); cbn [bind]; [apply IH|discriminate]. Qed.
Lemma store_noerr nA n2 n3 ts0 ts : incl ts ts0 -> forall m, foldM (storeTriplet nA n2 n3 (positions (map tp2 ts0)) (positions (map tp3 ts0))) ts m <> Err.
Proof.
  induction ts as [|t ts IH]; intros I m; [discriminate|]. cbn [foldM]. unfold storeTriplet at 1.
  destruct (index_exists (map tp2 ts0) (tp2 t)) as (k2 & ->); [apply in_map, I; left; reflexivity|]. destruct (index_exists (map tp3 ts0) (tp3 t)) as (k3 & ->); [apply in_map, I; left; reflexivity|]. cbn [bind].
  destruct (foldM _ components m) as [m'| |] eqn:E; cbn [bind]; [apply IH; intros x Hx; apply I; right; exact Hx| |discriminate].
  exfalso. exact (writes_noerr _ (fun c : Z * Z * Z => offset5 (3 * nA) n2 (3 * ta1 t + fst (fst c)) (3 * ta2 t + snd (fst c)) (3 * ta3 t + snd c) k3 k2) (fun c => tv t (fst (fst c)) (snd (fst c)) (snd c)) components m E).
Qed.
Lemma positions_pos ps : ps <> [] -> 0 < zlen (positions ps).
Proof.
  intro H. destruct ps as [|p ps]; [congruence|]. destruct (positions_distinct (p :: ps)) as (_ & D & _). destruct (D p (or_introl eq_refl)) as (y & Hy & _). destruct (positions (p :: ps)); [destruct Hy|]. rewrite zlen_cons. assert (0 <= zlen l) by apply zlen_nonneg. lia.
Qed.
Lemma sheng_unequal nA ts : 0 < nA -> ts <> [] -> zlen (positions (map tp2 ts)) <> zlen (positions (map tp3 ts)) -> parseSheng nA ts = UB.
Proof.
  intros HA Hn D. unfold parseSheng. cbv zeta. assert (P2 : 0 < zlen (positions (map tp2 ts))) by (apply positions_pos; intro E; apply map_eq_nil in E; contradiction).
  assert (P3 : 0 < zlen (positions (map tp3 ts))) by (apply positions_pos; intro E; apply map_eq_nil in E; contradiction).
  destruct (foldM _ ts _) as [m| |] eqn:E; cbn [bind]; [|exfalso; exact (store_noerr nA _ _ ts ts (incl_refl _) _ E)|reflexivity].
  rewrite reads_unequal by assumption. reflexivity.
Qed.
Lemma sheng_ok nA ts : 0 < nA -> zlen (positions (map tp2 ts)) = zlen (positions (map tp3 ts)) -> Separated (map tp2 ts) -> Separated (map tp3 ts) -> AtomsInside nA ts ->
  exists T, parseSheng nA ts = Ok T /\ cAt T = nA /\ nr2 T = zlen (positions (map tp2 ts)) /\ nr3 T = zlen (positions (map tp3 ts)) /\
  (forall r p, zget (positions (map tp2 ts)) r = Some p -> pos2 T r = q3vec p) /\ (forall r p, zget (positions (map tp3 ts)) r = Some p -> pos3 T r = q3vec p) /\
  (forall r a b, wt2 T r a b = 1%R) /\ (forall r a b, wt3 T r a b = 1%R) /\
  forall i1 i2 i3 r3 r2 p2 p3, 0 <= i1 < 3 * nA -> 0 <= i2 < 3 * nA -> 0 <= i3 < 3 * nA ->
    zget (positions (map tp2 ts)) r2 = Some p2 -> zget (positions (map tp3 ts)) r3 = Some p3 ->
    d3 T i1 i2 i3 r3 r2 = match lastAt ts p2 p3 (i1 / 3) (i2 / 3) (i3 / 3) with Some t => tv t (i1 mod 3) (i2 mod 3) (i3 mod 3) | None => 0%R end.
Proof.
  intros HA E S2 S3 At. destruct (store_all nA (zlen (positions (map tp2 ts))) ts eq_refl (eq_sym E) S2 S3 At ts (incl_refl _)) as (m & F & V).
  unfold parseSheng. cbv zeta. rewrite <- E. rewrite F. cbn [bind]. rewrite reads_ok by exact HA. unfold construct3. cbn [cAt nr2 nr3]. rewrite Z.ltb_irrefl, Bool.andb_false_r.
  eexists. split; [reflexivity|]. cbn [cAt nr2 nr3 pos2 pos3 wt2 wt3 d3]. do 3 (split; [reflexivity|]).
  split; [intros r p Hp; unfold posOf; rewrite Hp; reflexivity|]. split; [intros r p Hp; unfold posOf; rewrite Hp; reflexivity|]. split; [reflexivity|]. split; [reflexivity|].
  intros i1 i2 i3 r3 r2 p2 p3 I1 I2 I3 P2 P3. rewrite V; [unfold expected; rewrite P2, P3; reflexivity|].
  apply zget_range in P2, P3. rewrite <- E in P3. unfold inRange. auto.
Qed.
