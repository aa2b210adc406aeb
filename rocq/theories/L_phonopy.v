From Coq Require Import QArith Reals Permutation.
From Verif Require Import Base BaseLemmas L_mpi L_matrix M_phonopy S_phonopy.
From Coq Require Import Lia Lra.
Open Scope Z_scope.

Definition close (r p : q3) : bool := negb (Qle_bool (1 # 1000000) (norm2 (sub3 r p))).
Lemma close_iff r p : close r p = true <-> (norm2 (sub3 r p) < 1 # 1000000)%Q.
Proof. unfold close. rewrite Bool.negb_true_iff. split; intro H. - apply Qnot_le_lt. intro K. apply Qle_bool_iff in K. congruence. - destruct (Qle_bool _ _) eqn:E; [|reflexivity]. apply Qle_bool_iff in E. exfalso. exact (Qlt_not_le _ _ H E). Qed.
Lemma findR_ok g r : forall (n : nat) k m, k <= m < k + Z.of_nat n -> close r (g m) = true -> (forall j, k <= j < m -> close r (g j) = false) -> findR k (map g (zrange k (Z.of_nat n))) r = Ok m.
Proof.
  induction n as [|n IH]; intros k m Hm HC HN; [lia|]. rewrite zrange_cons by lia. cbn [map findR]. fold (close r (g k)). destruct (Z.eq_dec k m) as [->|N].
  - now rewrite HC.
  - rewrite HN by lia. replace (Z.of_nat (S n) - 1) with (Z.of_nat n) by lia. apply IH; [lia|assumption|]. intros j Hj. apply HN. lia.
Qed.

Lemma gap_norm u a b c p p0 : gap2 u (a, b, c) p p0 = norm2 (sub3 (lin u a b c) (sub3 p p0)).
Proof. now destruct u as [[[[a1 a2] a3] [[b1 b2] b3]] [[c1 c2] c3]], p as [[x y] z], p0 as [[x0 y0] z0]. Qed.
Section Cells.
Variables (u : q3 * q3 * q3) (g : Z * Z * Z) (sup : list q3) (idx : cell -> Z).
Hypothesis HL : located u g sup idx.
Definition shiftOf (i : Z) : q3 := match zget sup i, zget sup 0 with Some a, Some b => sub3 a b | _, _ => (0, 0, 0)%Q end.
Lemma cells_ok : cellPositions2 (volume g) sup = Ok (map shiftOf (zrange 0 (volume g))).
Proof using HL.
  unfold cellPositions2. apply mapM_ok. intros i Hi. apply in_zrange in Hi. destruct HL as [HB HP]. destruct (proj1 (HB i) ltac:(lia)) as (r & Hr & E). destruct (HP r Hr) as (p & p0 & E1 & E0 & _). unfold shiftOf. rewrite E in E1. now rewrite E1, E0.
Qed.
Lemma find_ok a b c : inGrid g (a, b, c) -> findRIndex (map shiftOf (zrange 0 (volume g))) (lin u a b c) = Ok (idx (a, b, c)).
Proof using HL.
  intro Hr. destruct HL as [HB HP]. pose proof (proj2 (HB (idx (a, b, c))) (ex_intro _ _ (conj Hr eq_refl))) as HI. unfold findRIndex. replace (volume g) with (Z.of_nat (Z.to_nat (volume g))) by lia. apply findR_ok; [lia| |].
  - apply close_iff. destruct (HP _ Hr) as (p & p0 & E1 & E0 & HS). unfold shiftOf. rewrite E1, E0, <- gap_norm. now apply (HS (a, b, c) Hr).
  - intros j Hj. destruct (close _ _) eqn:E; [|reflexivity]. apply close_iff in E. destruct (proj1 (HB j) ltac:(lia)) as (s & Hs & Ej). destruct (HP s Hs) as (p & p0 & E1 & E0 & HS). unfold shiftOf in E. rewrite <- Ej, E1, E0, <- gap_norm in E. apply (HS (a, b, c) Hr) in E. subst s. lia.
Qed.
Lemma idx_range r : inGrid g r -> 0 <= idx r < volume g.
Proof using HL. intro Hr. destruct HL as [HB _]. apply HB. now exists r. Qed.
End Cells.

Lemma origin_norm u p : (norm2 (sub3 (lin u 0 0 0) (sub3 p p)) == 0)%Q.
Proof. destruct u as [[[[a1 a2] a3] [[b1 b2] b3]] [[c1 c2] c3]], p as [[x y] z]. unfold lin, sub3, norm2. change (inject_Z 0) with 0%Q. ring. Qed.
Lemma NoDup_3 : NoDup three. Proof. unfold three. repeat constructor; cbn; intuition lia. Qed.
Lemma three_in i : In i three <-> 0 <= i < 3.
Proof. unfold three. cbn. lia. Qed.
Section Array.
Variables (u : q3 * q3 * q3) (g : Z * Z * Z) (sup : list q3) (idx : cell -> Z) (nAtoms : Z) (cellMap : list Z) (f : ifc) (conv : R).
Hypothesis HL : located u g sup idx.
Hypothesis HM : mapped nAtoms (volume g) cellMap.
Definition mapOf (a : Z) : Z := match zget cellMap a with Some m => m | None => 0 end.
Lemma map_get a : 0 <= a < nAtoms -> zget cellMap a = Some (mapOf a).
Proof using HM. intro H. destruct HM as [E _]. unfold mapOf. destruct (zget_inrange cellMap a) as [m Em]; [lia|]. now rewrite Em. Qed.
Lemma map_range a : 0 <= a < nAtoms -> 0 <= mapOf a /\ mapOf a + volume g <= nAtoms * volume g.
Proof using HM.
  intro H. apply HM. pose proof (map_get a H) as E. unfold zget in E. destruct (a <? 0); [discriminate|]. apply nth_error_In in E. exact E.
Qed.
Definition keys : list (Z * (Z * Z) * (Z * Z) * (Z * Z)) := let '(n1, n2, n3) := g in list_prod (list_prod (list_prod (zrange 0 n3) (list_prod (zrange 0 n2) (zrange 0 n1))) (list_prod (zrange 0 nAtoms) (zrange 0 nAtoms))) (list_prod three three).
Definition keyOf (t : Z * (Z * Z) * (Z * Z) * (Z * Z)) : fcKey := let '((r3, (r2, r1)), (a, b), (i, j)) := t in (i, j, r1, r2, r3, a, b).
Lemma keys_nodup : NoDup (map keyOf keys).
Proof using.
  clear HL HM. apply FinFun.Injective_map_NoDup.
  - intros [[[r3 [r2 r1]] [a b]] [i j]] [[[r3' [r2' r1']] [a' b']] [i' j']] E. cbn in E. injection E as -> -> -> -> -> -> ->. reflexivity.
  - unfold keys. destruct g as [[n1 n2] n3]. repeat apply NoDup_list_prod; try apply NoDup_zrange; apply NoDup_3.
Qed.
Lemma keys_in i j r1 r2 r3 a b : In (i, j, r1, r2, r3, a, b) (map keyOf keys) <-> 0 <= i < 3 /\ 0 <= j < 3 /\ inGrid g (r1, r2, r3) /\ 0 <= a < nAtoms /\ 0 <= b < nAtoms.
Proof using.
  clear HL HM u sup idx cellMap f conv. rewrite in_map_iff. unfold keys, inGrid. destruct g as [[n1 n2] n3]. split.
  - intros ([[[r3' [r2' r1']] [a' b']] [i' j']] & E & Hin). cbn in E. injection E as -> -> -> -> -> -> ->. rewrite !in_prod_iff, !in_zrange, !three_in in Hin. lia.
  - intro H. exists ((r3, (r2, r1)), (a, b), (i, j)). split; [reflexivity|]. rewrite !in_prod_iff, !in_zrange, !three_in. lia.
Qed.
Lemma concat_map_prod {A B C} (h : A -> B -> C) (l : list A) (m : list B) : List.concat (map (fun a => map (h a) m) l) = map (fun t => h (fst t) (snd t)) (list_prod l m).
Proof using. induction l as [|a l IH]; [reflexivity|]. cbn [map List.concat list_prod]. rewrite map_app, map_map, IH. reflexivity. Qed.
Lemma array_ok (h : Z -> Z -> cell -> Z -> Z -> R) :
  (forall i j r a b, 0 <= i < 3 -> 0 <= j < 3 -> inGrid g r -> 0 <= a < nAtoms -> 0 <= b < nAtoms ->
    readIfc f (if negb (nFirst f =? nSecond f) then b else mapOf a + idx r) (if negb (nFirst f =? nSecond f) then mapOf a + idx r else mapOf b) i j = Ok (h i j r a b)) ->
  exists l, forceConstants g nAtoms u sup cellMap f conv = Ok l /\ arrayIs l g nAtoms (fun i j r a b => (h i j r a b * conv)%R).
Proof using HL HM.
  intro HR. pose proof map_get as MG. set (val := fun k : fcKey => let '(i, j, r1, r2, r3, a, b) := k in (h i j (r1, r2, r3) a b * conv)%R).
  exists (map (fun t => (keyOf t, val (keyOf t))) keys). split.
  - unfold forceConstants. destruct g as [[n1 n2] n3] eqn:EG. change (n1 * n2 * n3) with (volume (n1, n2, n3)). rewrite (cells_ok u _ sup idx HL). cbn [bind]. rewrite (proj1 HM), Z.eqb_refl. cbn [negb].
    rewrite (mapM_ok _ (fun r => List.concat (map (fun p => map (fun c => (keyOf (r, p, c), val (keyOf (r, p, c)))) (list_prod three three)) (list_prod (zrange 0 nAtoms) (zrange 0 nAtoms))))).
    + cbn [bind]. f_equal. unfold keys. rewrite (map_ext _ (fun r => map (fun t => (keyOf (r, fst t, snd t), val (keyOf (r, fst t, snd t)))) (list_prod (list_prod (zrange 0 nAtoms) (zrange 0 nAtoms)) (list_prod three three)))) by (intro r; apply (concat_map_prod (fun p c => (keyOf (r, p, c), val (keyOf (r, p, c)))))).
      rewrite (concat_map_prod (fun r t => (keyOf (r, fst t, snd t), val (keyOf (r, fst t, snd t))))). 
      assert (PA : forall {A B C D} (F : A * B * C -> D) (la : list A) (lb : list B) (lc : list C), map (fun t => F (fst t, fst (snd t), snd (snd t))) (list_prod la (list_prod lb lc)) = map F (list_prod (list_prod la lb) lc)).
      { clear. intros A B C D F la lb lc. induction la as [|x la IH]; [reflexivity|]. cbn [list_prod]. rewrite map_app, IH. clear IH.
        assert (AP : forall (m m' : list (A * B)), list_prod (m ++ m') lc = list_prod m lc ++ list_prod m' lc) by (induction m as [|y m IHm]; intro m'; [reflexivity|]; cbn [app list_prod]; now rewrite IHm, app_assoc).
        rewrite AP, map_app. f_equal. induction lb as [|y lb IHb]; [reflexivity|]. cbn [list_prod map]. rewrite !map_app, <- IHb, !map_map. reflexivity. }
      rewrite ?EG. exact (f_equal (@Ok _) (PA _ _ _ _ (fun t => (keyOf t, val (keyOf t))) _ _ _)).
    + intros [r3 [r2 r1]] Hr. rewrite !in_prod_iff, !in_zrange in Hr. assert (IG : inGrid (n1, n2, n3) (r1, r2, r3)) by (cbn; lia). rewrite (find_ok u _ sup idx HL r1 r2 r3 IG). cbn [bind].
      rewrite (mapM_ok _ (fun p => map (fun c => (keyOf ((r3, (r2, r1)), p, c), val (keyOf ((r3, (r2, r1)), p, c)))) (list_prod three three))); [reflexivity|].
      intros [a b] Hab. rewrite in_prod_iff, !in_zrange in Hab. rewrite !MG by lia. apply mapM_ok. intros [i j] Hij. rewrite in_prod_iff, !three_in in Hij.
      rewrite (HR i j (r1, r2, r3) a b) by (try assumption; lia). reflexivity.
  - split; [rewrite map_map; exact keys_nodup|]. intros i j r1 r2 r3 a b v. rewrite in_map_iff. split.
    + intros (t & E & Ht). injection E as EK EV. assert (Hin : In (i, j, r1, r2, r3, a, b) (map keyOf keys)) by (apply in_map_iff; exists t; split; assumption). apply keys_in in Hin. rewrite EK in EV. cbn in EV. repeat split; try tauto. now symmetry.
    + intros (Hi & Hj & Hr & Ha & Hb & ->). assert (Hin : In (i, j, r1, r2, r3, a, b) (map keyOf keys)) by (apply keys_in; tauto). apply in_map_iff in Hin. destruct Hin as (t & EK & Ht). exists t. split; [now rewrite EK|exact Ht].
Qed.
Lemma grid_origin r : inGrid g r -> inGrid g (0, 0, 0).
Proof using. clear HL HM u sup idx cellMap f conv nAtoms. unfold inGrid. destruct g as [[n1 n2] n3], r as [[a b] c]. lia. Qed.
Lemma origin_idx r : inGrid g r -> idx (0, 0, 0) = 0.
Proof using HL.
  clear HM nAtoms cellMap f conv. intro Hr. apply grid_origin in Hr. destruct HL as [HB HP]. pose proof (idx_range u g sup idx HL _ Hr) as HI. destruct (proj1 (HB 0) ltac:(lia)) as (s & Hs & E). destruct (HP s Hs) as (p & p0 & E1 & E0 & HS). rewrite E, E0 in E1. injection E1 as <-.
  assert (K : (norm2 (sub3 (lin u 0 0 0) (sub3 p0 p0)) < 1 # 1000000)%Q) by (rewrite origin_norm; reflexivity).
  rewrite <- gap_norm in K. apply (HS (0, 0, 0) Hr) in K. subst s. exact E.
Qed.
Theorem full_ok Phi : fullLayout nAtoms g cellMap idx f Phi -> exists l, forceConstants g nAtoms u sup cellMap f conv = Ok l /\ arrayIs l g nAtoms (fun i j r a b => (Phi a r b origin i j * conv)%R).
Proof using HL HM.
  intros (H1 & H2 & HV). apply (array_ok (fun i j r a b => Phi a r b (0, 0, 0) i j)). intros i j r a b Hi Hj Hr Ha Hb. rewrite H1, H2, Z.eqb_refl. cbn [negb]. unfold readIfc. rewrite H1, H2.
  pose proof (idx_range u g sup idx HL r Hr) as HI. pose proof (map_range a Ha) as Ra. pose proof (map_range b Hb) as Rb. replace ((0 <=? mapOf a + idx r) && (mapOf a + idx r <? nAtoms * volume g) && (0 <=? mapOf b) && (mapOf b <? nAtoms * volume g)) with true by lia.
  f_equal. rewrite <- (HV a b (mapOf a) (mapOf b) r (0, 0, 0) i j (map_get a Ha) (map_get b Hb) Hr (grid_origin r Hr)). rewrite (origin_idx r Hr), Z.add_0_r. reflexivity.
Qed.
Theorem compact_ok Phi : compactLayout nAtoms g cellMap idx f Phi -> exists l, forceConstants g nAtoms u sup cellMap f conv = Ok l /\ arrayIs l g nAtoms (fun i j r a b => (Phi b origin a r i j * conv)%R).
Proof using HL HM.
  intros (H1 & H2 & HG & HV). apply (array_ok (fun i j r a b => Phi b (0, 0, 0) a r i j)). intros i j r a b Hi Hj Hr Ha Hb. rewrite H1, H2. replace (nAtoms =? nAtoms * volume g) with false by nia. cbn [negb]. unfold readIfc. rewrite H1, H2.
  pose proof (idx_range u g sup idx HL r Hr) as HI. pose proof (map_range a Ha) as Ra. replace ((0 <=? b) && (b <? nAtoms) && (0 <=? mapOf a + idx r) && (mapOf a + idx r <? nAtoms * volume g)) with true by lia.
  f_equal. now apply HV; [|apply map_get|].
Qed.
End Array.

(** * BORN file *)
Lemma born_fold nAtoms : forall f eps k w, (forall cs, flat_map numbersOf f = cs -> k + zlen cs <= nAtoms) -> 0 <= k -> (forall c, In c (flat_map numbersOf f) -> 9 <= zlen c) ->
  exists w', foldM (bornStep nAtoms) f (Some eps, k, w) = Ok (Some eps, k + zlen (flat_map numbersOf f), w ++ w') /\
    forall a i j v, In ((a, i, j), v) w' <-> 0 <= i < 3 /\ 0 <= j < 3 /\ exists c, zget (flat_map numbersOf f) (a - k) = Some c /\ zget c (i * 3 + j) = Some v.
Proof.
  induction f as [|l f IH]; intros eps k w HN Hk H9.
  - exists []. split; [cbn; unfold zlen; cbn; now rewrite Z.add_0_r, app_nil_r|]. intros a i j v. cbn [flat_map]. split; [contradiction|]. intros (_ & _ & c & E & _). unfold zget in E. destruct (a - k <? 0); [discriminate|]. now rewrite nth_error_nil in E || destruct (Z.to_nat (a - k)); discriminate.
  - destruct l as [| |x].
    + cbn [foldM bornStep bind flat_map numbersOf app]. now apply IH.
    + cbn [foldM bornStep bind flat_map numbersOf app]. now apply IH.
    + cbn [flat_map numbersOf app] in *. specialize (HN _ eq_refl). rewrite zlen_cons in HN. assert (0 <= zlen (flat_map numbersOf f)) by (unfold zlen; lia). specialize (H9 x (or_introl eq_refl)) as L9.
      set (one := map (fun c : Z * Z => ((k, fst c, snd c), match zget x (fst c * 3 + snd c) with Some v => v | None => 0%R end)) (list_prod three three)).
      assert (EC : chargeLine nAtoms k x = Ok one).
      { unfold chargeLine. replace ((0 <=? k) && (k <? nAtoms)) with true by lia. cbn [negb]. apply mapM_ok. intros [i j] Hij. rewrite in_prod_iff, !three_in in Hij. cbn [fst snd]. destruct (zget_inrange x (i * 3 + j)) as [v Ev]; [lia|]. now rewrite Ev. }
      cbn [foldM bornStep]. rewrite EC. cbn [bind]. destruct (IH eps (k + 1) (w ++ one)) as (w' & EF & HW); [intros cs <-; lia|lia|intros c Hc; apply H9; now right|]. exists (one ++ w'). rewrite EF. split; [rewrite zlen_cons, <- app_assoc; do 2 f_equal; f_equal; lia|].
      intros a i j v. rewrite in_app_iff, HW. unfold one. rewrite in_map_iff. split.
      * intros [([i' j'] & E & Hij)|(Hi & Hj & c & E & Ev)].
        -- cbn [fst snd] in E. injection E as -> -> -> <-. rewrite in_prod_iff, !three_in in Hij. repeat split; try lia. exists x. replace (a - a) with 0 by lia. split; [reflexivity|]. destruct (zget_inrange x (i * 3 + j)) as [y Ey]; [lia|]. now rewrite Ey.
        -- repeat split; try lia. exists c. split; [|exact Ev]. assert (0 <= a - (k + 1)) by (unfold zget in E; destruct (a - (k + 1) <? 0) eqn:L; [discriminate|lia]). replace (a - k) with (1 + (a - (k + 1))) by lia. unfold zget in *. replace (1 + (a - (k + 1)) <? 0) with false by lia. destruct (a - (k + 1) <? 0); [discriminate|]. replace (Z.to_nat (1 + (a - (k + 1)))) with (S (Z.to_nat (a - (k + 1)))) by lia. exact E.
      * intros (Hi & Hj & c & E & Ev). destruct (Z.eq_dec a k) as [->|N].
        -- left. exists (i, j). replace (k - k) with 0 in E by lia. cbn in E. injection E as <-. cbn [fst snd]. rewrite Ev. split; [reflexivity|]. rewrite in_prod_iff, !three_in. lia.
        -- right. repeat split; try lia. exists c. split; [|exact Ev]. assert (0 <= a - k) by (unfold zget in E; destruct (a - k <? 0) eqn:L; [discriminate|lia]). unfold zget in *. destruct (a - k <? 0); [discriminate|]. replace (a - (k + 1) <? 0) with false by lia. replace (Z.to_nat (a - k)) with (S (Z.to_nat (a - (k + 1)))) in E by lia. exact E.
Qed.
Theorem born_ok head nAtoms nSpecies f eps cs : data f = eps :: cs -> zlen cs <= nAtoms -> zlen cs <= nSpecies -> (forall c, In c cs -> 9 <= zlen c) -> exists w, readBorn head nAtoms nSpecies f = Ok (Some eps, zlen cs, w) /\ chargesAre w cs.
Proof.
  intros HD HA HS H9. unfold readBorn, data in *. set (t := tl f) in *. clearbody t. revert HD. induction t as [|l t IH]; intro HD; [discriminate|]. destruct l as [| |x].
  - cbn [foldM bornStep bind]. now apply IH.
  - cbn [foldM bornStep bind]. now apply IH.
  - cbn [flat_map numbersOf app] in HD. injection HD as -> HD. clear IH. cbn [foldM bornStep bind]. destruct (born_fold nAtoms t eps 0 []) as (w & EF & HW); [intros c <-; rewrite HD; lia|lia|rewrite HD; exact H9|]. rewrite EF, HD. cbn [bind app]. exists w.
    replace (head && (nSpecies <? 0 + zlen cs)) with false by (destruct head; cbn; lia). split; [reflexivity|]. intros a i j v. rewrite HW, HD, Z.sub_0_r. reflexivity.
Qed.
Lemma born_bound nAtoms : forall f s s', foldM (bornStep nAtoms) f s = Ok s' -> snd (fst s) <= snd (fst s') /\ forall a i j v, In ((a, i, j), v) (snd s') -> In ((a, i, j), v) (snd s) \/ snd (fst s) <= a < snd (fst s').
Proof.
  induction f as [|l f IH]; intros [[eps k] w] s' E; cbn [foldM] in E.
  - injection E as <-. cbn. split; [lia|]. intros; now left.
  - destruct (bornStep nAtoms (eps, k, w) l) as [[[e1 k1] w1]| |] eqn:ES; try discriminate. cbn [bind] in E. destruct (IH _ _ E) as [HK HI]. cbn [fst snd] in *.
    destruct l as [| |x]; cbn [bornStep] in ES; [injection ES as <- <- <-; split; assumption..|]. destruct eps as [e|]; [|injection ES as <- <- <-; split; assumption].
    unfold chargeLine in ES. destruct (negb _) eqn:EB; [discriminate|]. destruct (mapM _ _) as [c| |] eqn:EM; try discriminate. cbn [bind] in ES. injection ES as <- <- <-. split; [lia|]. intros a i j v Hin. destruct (HI a i j v Hin) as [Hw|Hr]; [|right; lia]. apply in_app_iff in Hw. destruct Hw as [Hw|Hc]; [now left|]. right.
    assert (a = k); [|subst; lia]. clear - EM Hc. revert c EM Hc. generalize (list_prod three three). induction l as [|[p q] l IHl]; intros c EM Hc; cbn [mapM] in EM; [injection EM as <-; contradiction|]. destruct (zget x (p * 3 + q)); [|discriminate]. cbn [bind] in EM. destruct (mapM _ l) as [c'| |]; try discriminate. cbn [bind] in EM. injection EM as <-. destruct Hc as [Hc|Hc]; [injection Hc as <- _ _ _; reflexivity|now apply (IHl c')].
Qed.
