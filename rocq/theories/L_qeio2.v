(** Lemmas about the Wannier90 files *)
From Coq Require Import Reals Ascii Permutation.
From Verif Require Import Base BaseLemmas M_particle M_context L_context M_complex L_matrix M_qe M_qeio S_qeio L_qeio.
From Coq Require Import Lia Lra.
Open Scope Z_scope.

Lemma readDegs_ok nv (d : Z -> Z) n : forall j, 0 <= j -> j + Z.of_nat n <= nv -> (forall i, 0 <= i < nv -> int (d i)) ->
  readDegs nv (map (fun i => WI (d i)) (zrange j (Z.of_nat n))) j = Ok (map (fun i => (i, d i)) (zrange j (Z.of_nat n))).
Proof.
  induction n as [|n IH]; intros j Hj Hn Hd; [reflexivity|]. rewrite zrange_cons by lia. replace (Z.of_nat (S n) - 1) with (Z.of_nat n) by lia. cbn [map readDegs]. rewrite stoi_int by (apply Hd; lia). cbn [bind].
  replace (j <? nv) with true by lia. rewrite IH by (try lia; exact Hd). reflexivity.
Qed.
Lemma numLines_eq nv : 0 <= nv -> Z.quot nv 15 + (if Z.rem nv 15 =? 0 then 0 else 1) = (nv + 14) / 15.
Proof.
  intro H. rewrite Z.quot_div_nonneg, Z.rem_mod_nonneg by lia. pose proof (Z.div_mod nv 15 ltac:(lia)). pose proof (Z.mod_pos_bound nv 15 ltac:(lia)).
  destruct (Z.eqb_spec (nv mod 15) 0); [apply Z.div_unique with 14|apply Z.div_unique with (nv mod 15 - 1)]; lia.
Qed.
Section Tb.
Variable d : tbData.
Hypothesis HS : tbSized d.
Lemma degs_loop n : forall a rest, 0 <= a -> (a + Z.of_nat n = (bN d + 14) / 15) -> exists x,
  loop (degLine (bN d)) (zrange a (Z.of_nat n)) (flat_map (fun i => [map (fun j => WI (bDeg d j)) (zrange (15 * i) (Z.min 15 (bN d - 15 * i)))]) (zrange a (Z.of_nat n)) ++ rest, Z.min (15 * a) (bN d)) =
  Ok (map (fun j => (j, bDeg d j)) (zrange (Z.min (15 * a) (bN d)) (bN d - Z.min (15 * a) (bN d))), (rest, x)).
Proof.
  destruct HS as (_ & HN & HD). pose proof (Z.div_mod (bN d + 14) 15 ltac:(lia)) as DM. pose proof (Z.mod_pos_bound (bN d + 14) 15 ltac:(lia)) as MB.
  induction n as [|n IH]; intros a rest Ha Hn.
  - replace (bN d - Z.min (15 * a) (bN d)) with 0 by lia. eexists. reflexivity.
  - rewrite zrange_cons by lia. replace (Z.of_nat (S n) - 1) with (Z.of_nat n) by lia. cbn [flat_map app loop]. unfold degLine at 1. cbn [fst snd getline].
    assert (HL : 15 * a <= bN d) by lia. set (m := Z.min 15 (bN d - 15 * a)). replace (Z.min (15 * a) (bN d)) with (15 * a) by lia.
    replace (zrange (15 * a) m) with (zrange (15 * a) (Z.of_nat (Z.to_nat m))) by (f_equal; lia). rewrite readDegs_ok by (try lia; exact HD). cbn [bind].
    assert (EZ : zlen (map (fun j => WI (bDeg d j)) (zrange (15 * a) (Z.of_nat (Z.to_nat m)))) = m) by (unfold zlen; rewrite map_length; fold (zlen (zrange (15 * a) (Z.of_nat (Z.to_nat m)))); rewrite zlen_zrange; lia). rewrite EZ.
    destruct (IH (a + 1) rest ltac:(lia) ltac:(lia)) as [x Hx]. replace (15 * a + m) with (Z.min (15 * (a + 1)) (bN d)) by lia. unfold line in Hx |- *. rewrite Hx. cbn [bind]. exists x. rewrite <- map_app. do 3 f_equal.
    replace (Z.min (15 * (a + 1)) (bN d)) with (15 * a + m) by lia. replace (bN d - 15 * a) with (m + (bN d - (15 * a + m))) by lia. rewrite <- zrange_app by lia. f_equal. f_equal. lia.
Qed.
Lemma degs_ok rest : exists x, loop (degLine (bN d)) (zrange 0 ((bN d + 14) / 15)) (degLines d ++ rest, 0) = Ok (map (fun j => (j, bDeg d j)) (zrange 0 (bN d)), (rest, x)).
Proof.
  pose proof HS as (_ & HN & _). pose proof (Z.div_pos (bN d + 14) 15 ltac:(lia) ltac:(lia)). destruct (degs_loop (Z.to_nat ((bN d + 14) / 15)) 0 rest ltac:(lia) ltac:(lia)) as [x E]. exists x. rewrite Z2Nat.id in E by lia.
  replace (Z.min (15 * 0) (bN d)) with 0 in E by lia. rewrite Z.sub_0_r in E. exact E.
Qed.
Let pairs := list_prod (zrange 0 (bW d)) (zrange 0 (bW d)).
Definition hWrites (ry : R) (iR : Z) : list ((Z * Z * Z) * cplx) := map (fun p => ((iR, fst p, snd p), over ry (bH d iR (snd p) (fst p)))) pairs.
Lemma hamBlock_ok ry iR rest : hamBlock ry (bW d) iR (hLines d iR ++ rest, tt) = Ok (inl (iR, (IZR (bVec d iR 0), IZR (bVec d iR 1), IZR (bVec d iR 2))) :: map inr (hWrites ry iR), (rest, tt)).
Proof.
  unfold hamBlock, hLines. cbn [fst app getline snd]. unfold vecLine. cbn [realAt at_ zget Z.ltb Z.compare nth_error Z.to_nat bind stod].
  change (realAt [WI (bVec d iR 0); WI (bVec d iR 1); WI (bVec d iR 2)] 0) with (Ok (IZR (bVec d iR 0))). change (realAt [WI (bVec d iR 0); WI (bVec d iR 1); WI (bVec d iR 2)] 1) with (Ok (IZR (bVec d iR 1))). change (realAt [WI (bVec d iR 0); WI (bVec d iR 1); WI (bVec d iR 2)] 2) with (Ok (IZR (bVec d iR 2))). cbn [bind].
  unfold hWrites. rewrite <- flat_map_single. fold pairs. rewrite (loop_unit (hamElement ry iR) _ (fun p => [((iR, fst p, snd p), over ry (bH d iR (snd p) (fst p)))])); [reflexivity|].
  intros [m n] r _. reflexivity.
Qed.
Definition rWrites (bohr : R) (iR : Z) : list ((Z * Z * Z * Z) * cplx) := flat_map (fun p => map (fun i => ((i, iR, fst p, snd p), over bohr (bR d i iR (snd p) (fst p)))) three) pairs.
Lemma posBlock_ok bohr iR rest : posBlock bohr (bW d) iR (rLines d iR ++ rest, tt) = Ok (rWrites bohr iR, (rest, tt)).
Proof.
  unfold posBlock, rLines. cbn [fst app getline snd]. unfold rWrites. fold pairs. apply loop_unit. intros [m n] r _. reflexivity.
Qed.
Lemma lefts_cons (X Y I : Type) (a : I -> X) (b : I -> list Y) l : lefts (flat_map (fun i => inl (a i) :: map inr (b i)) l) = map a l.
Proof.
  assert (Z1 : forall m : list Y, lefts (map (@inr X Y) m) = []) by (induction m as [|y m IH]; [reflexivity|exact IH]).
  induction l as [|i l IH]; [reflexivity|]. unfold lefts in *. cbn [flat_map]. rewrite flat_map_app. cbn [flat_map]. rewrite Z1. cbn [app map]. now rewrite IH.
Qed.
Lemma rights_cons (X Y I : Type) (a : I -> X) (b : I -> list Y) l : rights (flat_map (fun i => inl (a i) :: map inr (b i)) l) = flat_map b l.
Proof.
  assert (Z1 : forall m : list Y, rights (map (@inr X Y) m) = m) by (induction m as [|y m IH]; [reflexivity|cbn; now f_equal]).
  induction l as [|i l IH]; [reflexivity|]. unfold rights in *. cbn [flat_map]. rewrite flat_map_app. cbn [flat_map]. rewrite Z1. cbn [app]. now rewrite IH.
Qed.
Theorem tb_ok ry bohr rest : exists t, parseWannier ry bohr (writeTb d ++ rest) = Ok t /\ tbRead d ry bohr t.
Proof.
  pose proof HS as (HW & HN & HD). unfold parseWannier, writeTb. cbn [app getline snd]. rewrite <- !app_assoc.
  rewrite (loop_unit (fun i => readRow (fun j => (j, i))) (fun i => [rowOf (bCell d i)]) (fun i => map (fun j => ((j, i), bCell d i j)) three)) by (intros; reflexivity). cbn [bind fst app getline].
  rewrite (intAt_get _ 0 (bW d)); [|reflexivity|exact HW]. cbn [bind]. rewrite (intAt_get _ 0 (bN d)); [|reflexivity|unfold int, INT_MIN; lia]. cbn [bind].
  rewrite numLines_eq by lia. rewrite <- !app_assoc. destruct (degs_ok (flat_map (hLines d) (zrange 0 (bN d)) ++ flat_map (rLines d) (zrange 0 (bN d)) ++ rest)) as [x ->]. cbn [bind fst].
  rewrite (loop_unit (hamBlock ry (bW d)) (hLines d) (fun iR => inl (iR, (IZR (bVec d iR 0), IZR (bVec d iR 1), IZR (bVec d iR 2))) :: map inr (hWrites ry iR))) by (intros; apply hamBlock_ok). cbn [bind].
  rewrite (loop_unit (posBlock bohr (bW d)) (rLines d) (rWrites bohr)) by (intros; apply posBlock_ok). cbn [bind]. eexists. split; [reflexivity|].
  unfold tbRead. cbn [tCell tNum tVecs tDeg tH tR]. rewrite lefts_cons, rights_cons.
  assert (EC : flat_map (fun i => map (fun j => ((j, i), bCell d i j)) three) three = map (fun p => ((snd p, fst p), bCell d (fst p) (snd p))) (list_prod three three)) by reflexivity. rewrite EC, map_map. cbn [fst snd].
  split; [|split; [reflexivity|split; [reflexivity|split; [reflexivity|split]]]].
  - apply (definesOn_map (list_prod three three) (fun p => (snd p, fst p)) (fun p => (bCell d (fst p) (snd p) / bohr)%R)); [|..].
    + apply FinFun.Injective_map_NoDup; [intros [a b] [a' b'] E; injection E as -> ->; reflexivity|apply NoDup_list_prod; apply NoDup_three].
    + intros [i j]. cbn [fst snd]. rewrite !dir_three. split; [intros [Hi Hj]; exists (j, i); rewrite in_prod_iff; tauto|]. intros ([a b] & Hin & E). injection E as -> ->. rewrite in_prod_iff in Hin. tauto.
    + intros [a b] _. reflexivity.
  - assert (EH : flat_map (hWrites ry) (zrange 0 (bN d)) = map (fun q => ((fst q, fst (snd q), snd (snd q)), over ry (bH d (fst q) (snd (snd q)) (fst (snd q))))) (list_prod (zrange 0 (bN d)) pairs)).
    { unfold hWrites. rewrite <- (flat_prod (fun iR p => ((iR, fst p, snd p), over ry (bH d iR (snd p) (fst p))))). apply flat_map_ext. intro iR. now rewrite flat_map_single. }
    rewrite EH. apply (definesOn_map (list_prod (zrange 0 (bN d)) pairs) (fun q => (fst q, fst (snd q), snd (snd q))) (fun q => over ry (bH d (fst q) (snd (snd q)) (fst (snd q))))); [|..].
    + apply FinFun.Injective_map_NoDup; [intros [a [b c]] [a' [b' c']] E; injection E as -> -> ->; reflexivity|]. repeat apply NoDup_list_prod; apply NoDup_zrange.
    + intros [[iR m] n]. split.
      * intro H. exists (iR, (m, n)). split; [|reflexivity]. unfold pairs. rewrite !in_prod_iff, !in_zrange. lia.
      * intros ([a [b c]] & Hin & E). injection E as -> -> ->. unfold pairs in Hin. rewrite !in_prod_iff, !in_zrange in Hin. lia.
    + intros [iR [m n]] _. reflexivity.
  - assert (EH : flat_map (rWrites bohr) (zrange 0 (bN d)) = map (fun q => ((snd q, fst (fst q), fst (snd (fst q)), snd (snd (fst q))), over bohr (bR d (snd q) (fst (fst q)) (snd (snd (fst q))) (fst (snd (fst q)))))) (list_prod (list_prod (zrange 0 (bN d)) pairs) three)).
    { unfold rWrites. rewrite (flat_prod_list (fun iR p => map (fun i => ((i, iR, fst p, snd p), over bohr (bR d i iR (snd p) (fst p)))) three)).
      rewrite <- (flat_prod (fun q i => ((i, fst q, fst (snd q), snd (snd q)), over bohr (bR d i (fst q) (snd (snd q)) (fst (snd q)))))). apply flat_map_ext. intro q. now rewrite flat_map_single. }
    rewrite EH. apply (definesOn_map (list_prod (list_prod (zrange 0 (bN d)) pairs) three) (fun q => (snd q, fst (fst q), fst (snd (fst q)), snd (snd (fst q)))) (fun q => over bohr (bR d (snd q) (fst (fst q)) (snd (snd (fst q))) (fst (snd (fst q)))))); [|..].
    + apply FinFun.Injective_map_NoDup; [intros [[a [b c]] i] [[a' [b' c']] i'] E; injection E as -> -> -> ->; reflexivity|]. repeat apply NoDup_list_prod; try apply NoDup_zrange. apply NoDup_three.
    + intros [[[i iR] m] n]. rewrite dir_three. split.
      * intro H. exists (iR, (m, n), i). split; [|reflexivity]. unfold pairs. rewrite !in_prod_iff, !in_zrange. repeat split; try tauto; lia.
      * intros ([[a [b c]] j] & Hin & E). injection E as -> -> -> ->. unfold pairs in Hin. rewrite !in_prod_iff, !in_zrange in Hin. repeat split; try tauto; lia.
    + intros [[iR [m n]] i] _. reflexivity.
Qed.
End Tb.

(** * shifts *)
Lemma z3eqb_eq a b : z3eqb a b = true <-> a = b.
Proof. destruct a as [[x y] z], b as [[u v] w]. unfold z3eqb. rewrite !Bool.andb_true_iff, !Z.eqb_eq. split; [intros [[-> ->] ->]; reflexivity|intro E; injection E as -> -> ->; tauto]. Qed.
Lemma shift_loop k l : forall j rest, 0 <= j -> j + zlen l <= 8 -> (forall t, In t l -> int3 t) ->
  loop (shiftLine k) (zrange j (zlen l)) (map (fun t => let '(u, v, w) := t in [WI u; WI v; WI w]) l ++ rest, tt) = Ok (map (fun it => Shift (fst it) k (snd it)) (combine (zrange j (zlen l)) l), (rest, tt)).
Proof.
  induction l as [|t l IH]; intros j rest Hj Hl Hi; [reflexivity|]. rewrite zlen_cons in *. assert (0 <= zlen l) by (unfold zlen; lia). rewrite zrange_cons by lia. replace (1 + zlen l - 1) with (zlen l) by lia. cbn [map app loop combine]. destruct t as [[u v] w].
  destruct (Hi (u, v, w) (or_introl eq_refl)) as (Iu & Iv & Iw). unfold shiftLine at 1. cbn [fst getline]. rewrite (intAt_get _ 0 u); [|reflexivity|exact Iu]. cbn [bind]. rewrite (intAt_get _ 1 v); [|reflexivity|exact Iv]. cbn [bind]. rewrite (intAt_get _ 2 w); [|reflexivity|exact Iw]. cbn [bind].
  replace (j <? 8) with true by lia. cbn [bind]. specialize (IH (j + 1) rest ltac:(lia) ltac:(lia) (fun t Ht => Hi t (or_intror Ht))). unfold line in *. rewrite IH. reflexivity.
Qed.
Lemma wsEntries_more nw nv : forall n n' f old iR, (length f <= n)%nat -> (length f <= n')%nat -> wsEntries n nw nv f old iR = wsEntries n' nw nv f old iR.
Proof.
  induction n as [|n IH]; intros n' f old iR H H'.
  - destruct f; [|cbn in H; lia]. destruct n'; reflexivity.
  - destruct f as [|l f1]; [destruct n'; reflexivity|]. destruct n' as [|n']; [cbn in H'; lia|]. cbn [wsEntries length] in *. destruct (intAt l 0) as [x| |]; cbn [bind]; try reflexivity. destruct (intAt l 1) as [y| |]; cbn [bind]; try reflexivity. destruct (intAt l 2) as [z| |]; cbn [bind]; try reflexivity.
    destruct (intAt l 3) as [a| |]; cbn [bind]; try reflexivity. destruct (intAt l 4) as [b| |]; cbn [bind]; try reflexivity. destruct (getline f1) as [ld f2] eqn:EG. assert (L2 : (length f2 <= length f1)%nat) by (destruct f1; cbn in EG; injection EG as <- <-; cbn; lia).
    destruct ld as [|w0 ld0]; cbn [bind]; [reflexivity|]. destruct (stoi w0) as [dg| |]; cbn [bind]; try reflexivity. destruct (inside _ _ _); [|reflexivity].
    assert (LL : forall ks k g ws s, loop (shiftLine k) ks (g, tt) = Ok (ws, s) -> (length (fst s) <= length g)%nat).
    { induction ks as [|i ks IHk]; intros k g ws s E; cbn [loop] in E; [injection E as <- <-; cbn; lia|]. unfold shiftLine at 1 in E. cbn [fst] in E. destruct (getline g) as [lg g'] eqn:Eg. assert (L3 : (length g' <= length g)%nat) by (destruct g; cbn in Eg; injection Eg as <- <-; cbn; lia).
      destruct (intAt lg 0); cbn [bind] in E; try discriminate. destruct (intAt lg 1); cbn [bind] in E; try discriminate. destruct (intAt lg 2); cbn [bind] in E; try discriminate. destruct (i <? 8); cbn [bind] in E; try discriminate.
      destruct (loop (shiftLine k) ks (g', tt)) as [[ws' s']| |] eqn:EL; cbn [bind] in E; try discriminate. injection E as <- <-. specialize (IHk _ _ _ _ EL). lia. }
    match goal with |- bind ?e _ = bind ?e _ => destruct e as [[ws s3]| |] eqn:EL end; cbn [bind]; try reflexivity. apply LL in EL. rewrite (IH n' (fst s3)) by lia. reflexivity.
Qed.
Section Ws.
Variables (nw nv : Z) (ps : list (Z * Z)) (sh : Z -> Z -> Z -> list (Z * Z * Z)).
Definition entriesOf v i := flat_map (fun p => wsEntry v (fst p) (snd p) (sh i (fst p) (snd p))) .
Definition full f old iR := wsEntries (length f) nw nv f old iR.
Lemma entry_ok v a b i old iR rest : int3 v -> 0 <= a < nw -> 0 <= b < nw -> nw < INT_MAX -> 0 <= i < nv -> i = (if z3eqb v old then iR else iR + 1) -> zlen (sh i a b) <= 8 -> (forall t, In t (sh i a b) -> int3 t) ->
  full (wsEntry v a b (sh i a b) ++ rest) old iR = (do r <- full rest v i ; Ok (Deg (a, b, i) (zlen (sh i a b)) :: map (fun it => Shift (fst it) (a, b, i) (snd it)) (combine (zrange 0 (zlen (sh i a b))) (sh i a b)) ++ r)).
Proof.
  intros Hv Ha Hb Hw Hi Ei Hl Ht. unfold full. destruct v as [[x y] z]. destruct Hv as (Ix & Iy & Iz). unfold wsEntry. cbn [app length]. match goal with |- wsEntries (S ?n) _ _ _ _ _ = _ => remember n as N eqn:EN end. cbn [wsEntries].
  rewrite (intAt_get _ 0 x); [|reflexivity|exact Ix]. cbn [bind]. rewrite (intAt_get _ 1 y); [|reflexivity|exact Iy]. cbn [bind]. rewrite (intAt_get _ 2 z); [|reflexivity|exact Iz]. cbn [bind].
  rewrite (intAt_get _ 3 (a + 1)); [|reflexivity|unfold int, INT_MIN; lia]. cbn [bind]. rewrite (intAt_get _ 4 (b + 1)); [|reflexivity|unfold int, INT_MIN; lia]. cbn [bind getline]. 
  assert (0 <= zlen (sh i a b)) by (unfold zlen; lia). rewrite stoi_int by (unfold int, INT_MIN, INT_MAX; lia). cbn [bind]. rewrite <- Ei. replace (a + 1 - 1) with a by lia. replace (b + 1 - 1) with b by lia.
  replace (inside nw nv (a, b, i)) with true by (symmetry; unfold inside; lia). rewrite shift_loop by (try lia; exact Ht). cbn [bind fst]. rewrite (wsEntries_more nw nv N (length rest)) by (subst N; cbn [length]; rewrite ?app_length; lia). reflexivity.
Qed.
Lemma block_ok v i rest : int3 v -> nw < INT_MAX -> 0 <= i < nv -> (forall a b, zlen (sh i a b) <= 8 /\ forall t, In t (sh i a b) -> int3 t) -> forall qs, (forall p, In p qs -> 0 <= fst p < nw /\ 0 <= snd p < nw) ->
  full (flat_map (fun p => wsEntry v (fst p) (snd p) (sh i (fst p) (snd p))) qs ++ rest) v i = (do r <- full rest v i ; Ok (wsWrites i qs sh ++ r)).
Proof.
  intros Hv Hw Hi Hs. induction qs as [|p qs IH]; intro Hq.
  - cbn [flat_map app wsWrites]. destruct (full rest v i); reflexivity.
  - cbn [flat_map]. rewrite <- app_assoc. destruct (Hq p (or_introl eq_refl)) as [Ha Hb]. destruct (Hs (fst p) (snd p)) as [Hl Ht]. rewrite entry_ok; try assumption.
    + rewrite IH by (intros; apply Hq; now right). destruct (full rest v i); cbn [bind]; try reflexivity. unfold wsWrites. cbn [flat_map app]. now rewrite <- app_assoc.
    + now rewrite (proj2 (z3eqb_eq v v) eq_refl).
Qed.
Theorem ws_ok vs : wsSized nw nv vs ps sh -> changing (0, 0, 0) vs -> parseWsVec nw nv (wsLines vs 0 ps sh) = Ok (flat_map (fun iR => wsWrites iR ps sh) (zrange 0 (zlen vs))).
Proof.
  intros (HV & HW & HP & HB & HI & HS) HC. unfold parseWsVec. fold (full (wsLines vs 0 ps sh) (0, 0, 0) (-1)).
  assert (K : forall us i old, changing old us -> 0 <= i -> i + zlen us <= nv -> (forall v, In v us -> int3 v) -> full (wsLines us i ps sh) old (i - 1) = Ok (flat_map (fun iR => wsWrites iR ps sh) (zrange i (zlen us)))).
  { induction us as [|v us IH]; intros i old Hc Hi Hn Hu; [reflexivity|]. rewrite zlen_cons in *. assert (0 <= zlen us) by (unfold zlen; lia). cbn [wsLines]. destruct Hc as [Hne Hc]. rewrite zrange_cons by lia. replace (1 + zlen us - 1) with (zlen us) by lia. cbn [flat_map].
    destruct ps as [|p qs] eqn:EP; [contradiction|]. cbn [flat_map]. rewrite <- app_assoc. destruct (HB p (or_introl eq_refl)) as [Ha Hb]. destruct (HS i (fst p) (snd p)) as [Hl Ht].
    rewrite entry_ok; try assumption; try lia; [|now apply Hu; left|].
    2:{ destruct (z3eqb v old) eqn:E; [apply z3eqb_eq in E; contradiction|lia]. }
    rewrite block_ok; try assumption; try lia; [|now apply Hu; left|apply HS|intros; apply HB; now right].
    specialize (IH (i + 1) v Hc ltac:(lia) ltac:(lia) (fun w Hw => Hu w (or_intror Hw))). replace (i + 1 - 1) with i in IH by lia. rewrite IH. cbn [bind]. unfold wsWrites at 3. cbn [flat_map app]. rewrite <- app_assoc. reflexivity. }
  now apply (K vs 0 (0, 0, 0)).
Qed.
End Ws.
