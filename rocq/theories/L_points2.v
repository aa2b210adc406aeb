(** Lists of points: linear scan, active-layer checks, folding, Wigner-Seitz, findMesh, paths. *)
From Coq Require Import QArith Qabs Qround Lqa.
From Verif Require Import Base BaseLemmas M_utilities L_utilities M_points S_points L_points L_search.
Open Scope Z_scope.

(** * C12 *)
#[global] Instance fold1_comp : Proper (Qeq ==> Qeq) fold1.
Proof.
  intros a b E. unfold fold1. assert (F : Qfloor (a + eps8) = Qfloor (b + eps8)) by (apply Qfloor_comp; rewrite E; reflexivity).
  rewrite F, E. reflexivity.
Qed.
Lemma fold1_int x n : (x == inject_Z n)%Q -> (fold1 x == 0)%Q.
Proof.
  intro E. rewrite E. unfold fold1.
  assert (F : Qfloor (inject_Z n + eps8) = n).
  { apply Qfloor_unique; [|rewrite inject_Z_plus; change (inject_Z 1) with 1%Q]; unfold eps8; lra. }
  rewrite F. ring.
Qed.

Lemma linearScan_spec l x : forall i best,
  linearScan l i x best = best /\ Forall (fun k => Qltb (sqNorm (vmap fold1 (vsub k x))) eps5 = false) l \/
  exists j k, linearScan l i x best = i + j /\ zget l j = Some k /\
    Qltb (sqNorm (vmap fold1 (vsub k x))) eps5 = true.
Proof.
  induction l as [|k l IH]; intros i best; [left; split; [reflexivity|constructor]|].
  cbn [linearScan].
  destruct (IH (i + 1) (if Qltb (sqNorm (vmap fold1 (vsub k x))) eps5 then i else best)) as [[E F]|(j & k' & E & G & H)].
  - destruct (Qltb (sqNorm (vmap fold1 (vsub k x))) eps5) eqn:T1.
    + right. exists 0, k. split; [lia|]. split; [reflexivity|assumption].
    + left. split; [assumption|constructor; assumption].
  - right. destruct (zget_Some _ _ _ G) as (Hj & _). exists (j + 1), k'.
    split; [lia|]. split; [|assumption]. rewrite zget_consS by lia. replace (j + 1 - 1) with j by lia. assumption.
Qed.

Lemma farApart_fold l : farApart l -> forall i j a b c, zget l i = Some a -> zget l j = Some b -> i <> j ->
  sameWavevector c a -> (eps5 <= sqNorm (vmap fold1 (vsub b c)))%Q.
Proof.
  intros H i j a b c Ea Eb N S.
  set (w := vsub b (vmap fold1 (vsub b c))).
  assert (W : sameWavevector w a).
  { eapply sameWavevector_trans; [|exact S].
    exists (Qfloor (c0 b - c0 c + eps8)), (Qfloor (c1 b - c1 c + eps8)), (Qfloor (c2 b - c2 c + eps8)).
    subst w. unfold veq, vsub, vmap, fold1; cbn [c0 c1 c2]. repeat split; ring. }
  eapply Qle_trans; [apply (H i j a b w Ea Eb N W)|].
  apply Qle_lteq. right. subst w. unfold sqDist, sqNorm, vsub, vmap; cbn [c0 c1 c2]. ring.
Qed.

Lemma path_lookup m l i a c : pathSorted l = false -> farApart l ->
  zget l i = Some a -> sameWavevector c a ->
  getIndex (pathObject m l) c = Ok i.
Proof.
  intros Hs Hf Ha Hc. unfold getIndex, isPointStored, pathObject.
  cbn [explicitlyStored isPointsListSorted negb numPoints pointsList]. rewrite Hs.
  unfold zlen at 1. rewrite Nat2Z.id, firstn_all. cbn [bind].
  destruct (zget_Some _ _ _ Ha) as (Hi & HI).
  assert (Ta : Qltb (sqNorm (vmap fold1 (vsub a c))) eps5 = true).
  { apply Qltb_true. destruct (sameWavevector_sym _ _ Hc) as (n0 & n1 & n2 & (E0 & E1 & E2)). cbn [c0 c1 c2] in *.
    unfold sqNorm, vmap; cbn [c0 c1 c2].
    rewrite (fold1_int _ _ E0), (fold1_int _ _ E1), (fold1_int _ _ E2). reflexivity. }
  destruct (linearScan_spec l c 0 (-1)) as [[E F]|(j & k & E & G & H)].
  - rewrite Forall_forall in F. rewrite (F a HI) in Ta. discriminate.
  - rewrite E, Z.add_0_l. destruct (zget_Some _ _ _ G) as (Hj & _).
    destruct (Z.eqb_spec j (-1)); [lia|]. destruct (Z.eq_dec j i) as [->|N]; [reflexivity|].
    exfalso. pose proof (farApart_fold l Hf i j a k c Ha G ltac:(lia) Hc).
    destruct (Qltb_spec (sqNorm (vmap fold1 (vsub k c))) eps5); [lra|discriminate].
Qed.

(** * C54 *)
Lemma foldToBz_same v : sameWavevector (foldToBz v) v.
Proof.
  exists (- Qfloor (c0 v + eps8)), (- Qfloor (c1 v + eps8)), (- Qfloor (c2 v + eps8)).
  unfold veq, foldToBz, vmap, vsub, fold1; cbn [c0 c1 c2]. rewrite !inject_Z_opp. repeat split; ring.
Qed.
Lemma fold1_range x : (- eps8 <= fold1 x /\ fold1 x < 1 - eps8)%Q.
Proof.
  unfold fold1. pose proof (Qfloor_le (x + eps8)). pose proof (Qlt_floor (x + eps8)) as B.
  rewrite inject_Z_plus in B. change (inject_Z 1) with 1%Q in B. lra.
Qed.
Lemma fold1_idem x : fold1 (fold1 x) = (fold1 x - 0)%Q.
Proof.
  unfold fold1 at 1. destruct (fold1_range x) as [A B].
  assert (F : Qfloor (fold1 x + eps8) = 0).
  { apply Qfloor_unique; change (inject_Z 0) with 0%Q; change (inject_Z (0 + 1)) with 1%Q; lra. }
  rewrite F. reflexivity.
Qed.
Lemma foldToBz_idem v : veq (foldToBz (foldToBz v)) (foldToBz v).
Proof.
  unfold veq, foldToBz, vmap; cbn [c0 c1 c2]. rewrite !fold1_idem. repeat split; ring.
Qed.
Lemma foldToBz_unique a b : sameWavevector a b -> veq (foldToBz a) (foldToBz b).
Proof.
  assert (X : forall x y n, (x - y == inject_Z n)%Q -> (fold1 x == fold1 y)%Q).
  { intros x y n E. assert (E' : (x == y + inject_Z n)%Q) by (rewrite <- E; ring).
    rewrite E'. unfold fold1.
    assert (F : Qfloor (y + inject_Z n + eps8) = Qfloor (y + eps8) + n).
    { rewrite <- Qfloor_Z_add. apply Qfloor_comp. ring. }
    rewrite F, inject_Z_plus. ring. }
  intros (n0 & n1 & n2 & (E0 & E1 & E2)). unfold veq, foldToBz, vmap, vsub in *; cbn [c0 c1 c2] in *.
  repeat split; eapply X; eassumption.
Qed.

Lemma bzToWs_same B v : sameWavevector (bzToWs B v) v.
Proof.
  unfold bzToWs. set (st := fold_left _ _ _). destruct (snd st) as [[i j] k].
  eapply sameWavevector_trans; [|apply foldToBz_same].
  exists i, j, k. unfold veq, vadd, vsub, gVec; cbn [c0 c1 c2]. repeat split; ring.
Qed.


Lemma wsStep_min B p (l : list (Z * Z * Z)) : forall st : Q * (Z * Z * Z),
  (fst st == sqNorm (toCart B p) /\ snd st = (0, 0, 0)%Z \/ fst st = shiftedNorm B p (snd st))%Q ->
  let st' := fold_left (wsStep B (toCart B p)) l st in
  (fst st' == sqNorm (toCart B p) /\ snd st' = (0, 0, 0)%Z \/ fst st' = shiftedNorm B p (snd st'))%Q /\
  (fst st' <= fst st)%Q /\ Forall (fun g => fst st' <= shiftedNorm B p g)%Q l.
Proof.
  induction l as [|g l IH]; intros st Hst; cbn [fold_left].
  - split; [assumption|]. split; [lra|constructor].
  - set (st1 := wsStep B (toCart B p) st g).
    assert (H1 : (fst st1 == sqNorm (toCart B p) /\ snd st1 = (0, 0, 0)%Z \/ fst st1 = shiftedNorm B p (snd st1))%Q
       /\ (fst st1 <= fst st)%Q /\ (fst st1 <= shiftedNorm B p g)%Q).
    { subst st1. unfold wsStep. fold (shiftedNorm B p g).
      destruct (Qltb_spec (shiftedNorm B p g) (fst st)); cbn [fst snd].
      - split; [right; reflexivity|]. split; lra.
      - split; [assumption|]. split; lra. }
    destruct H1 as (A & C & D). destruct (IH st1 A) as (E & F & G). split; [assumption|]. split; [lra|].
    constructor; [lra|assumption].
Qed.

Lemma bzToWs_min B v : exists g, veq (bzToWs B v) (vadd (foldToBz v) (gVec g)) /\
  forall t, In t gTriples ->
    (g = (0, 0, 0)%Z /\ sqNorm (toCart B (foldToBz v)) <= shiftedNorm B (foldToBz v) t \/
     shiftedNorm B (foldToBz v) g <= shiftedNorm B (foldToBz v) t)%Q.
Proof.
  unfold bzToWs. set (l := tl gColumns).
  destruct (wsStep_min B (foldToBz v) l (sqNorm (toCart B (foldToBz v)), (0, 0, 0))) as (A & _ & C).
  { left. split; reflexivity. }
  set (st' := fold_left _ _ _) in *. exists (snd st'). split; [apply veq_refl|].
  intros t Ht. rewrite Forall_forall in C.
  assert (It : In t l). { subst l. unfold gColumns. cbn [tl]. apply in_or_app. left; assumption. }
  specialize (C t It). destruct A as [[A1 A2]|A]; [left; split; [assumption|lra]|right; rewrite <- A; exact C].
Qed.

Lemma gTriples_spec i j k : In (i, j, k) gTriples <->
  (-2 <= i <= 2 /\ -2 <= j <= 2 /\ -2 <= k <= 2 /\ (i <= 0 \/ j <= 0 \/ k <= 0)).
Proof.
  unfold gTriples. rewrite filter_In, in_flat_map. split.
  - intros ((i' & Hi & H) & F). rewrite in_flat_map in H. destruct H as (j' & Hj & H).
    rewrite in_map_iff in H. destruct H as (k' & E & Hk). injection E as <- <- <-.
    rewrite in_zrange in Hi, Hj, Hk. apply orb_true_iff in F. rewrite orb_true_iff, !Z.leb_le in F. lia.
  - intros (Hi & Hj & Hk & H). split.
    + exists i. split; [apply in_zrange; lia|]. rewrite in_flat_map. exists j. split; [apply in_zrange; lia|].
      rewrite in_map_iff. exists k. split; [reflexivity|apply in_zrange; lia].
    + apply orb_true_iff. rewrite orb_true_iff, !Z.leb_le. lia.
Qed.

Lemma bzToWs_not_min : exists B v w, sameWavevector w v /\
  (1 + sqNorm (toCart B w) < sqNorm (toCart B (bzToWs B v)))%Q.
Proof.
  exists (Cell (V3 1 0 0) (V3 10 1 0) (V3 0 0 1)), (V3 0 (1#2) 0), (V3 (-5) (1#2) 0).
  split.
  - exists (-5), 0, 0. unfold veq, vsub; cbn. repeat split; reflexivity.
  - vm_compute. reflexivity.
Qed.

(** * C13 *)
Lemma foldM_err {A S} (f : S -> A -> res S) l : forall s,
  (forall s a, f s a = Err \/ exists s', f s a = Ok s') ->
  (exists a, In a l /\ forall s, f s a = Err) -> foldM f l s = Err.
Proof.
  induction l as [|x l IH]; intros s Hf (a & I & Ha); [destruct I|].
  cbn [foldM]. destruct (Hf s x) as [->|(s' & E)]; [reflexivity|]. rewrite E. cbn [bind].
  apply IH; [assumption|]. destruct I as [->|I]; [rewrite Ha in E; discriminate|]. exists a; split; assumption.
Qed.

Lemma setActiveLayer_negative p F ik : zlen F <> numPoints p -> In ik F -> ik < 0 ->
  setActiveLayer p F = Err.
Proof.
  intros HN HI Hk. unfold setActiveLayer. destruct (Z.eqb_spec (zlen F) (numPoints p)); [contradiction|].
  rewrite foldM_err; [reflexivity| |].
  - intros s a. unfold activeStep. destruct (_ <? 0); [left; reflexivity|right; eexists; reflexivity].
  - exists ik. split; [assumption|]. intro s. unfold activeStep.
    assert (X : (if ik >? 0 then 0 else ik) <? 0 = true).
    { rewrite Z.gtb_ltb. destruct (Z.ltb_spec 0 ik); [lia|]. apply Z.ltb_lt. assumption. }
    rewrite X. reflexivity.
Qed.

(** * C59 findMesh *)
Fixpoint Qsorted (l : list Q) : Prop :=
  match l with
  | a :: r => Forall (fun b => a < b)%Q r /\ Qsorted r
  | [] => True
  end.
Definition QIn (v : Q) (l : list Q) : Prop := exists w, In w l /\ (w == v)%Q.

Lemma setInsert_spec v l : Qsorted l -> Qsorted (setInsert v l) /\
  forall w, QIn w (setInsert v l) <-> (w == v)%Q \/ QIn w l.
Proof.
  induction l as [|x l IH]; intro H; cbn [setInsert].
  - split; [split; constructor|]. intro w. unfold QIn. split.
    + intros (u & [<-|[]] & E). left. symmetry; assumption.
    + intros [E|(u & [] & _)]. exists v. split; [left; reflexivity|symmetry; assumption].
  - destruct H as [H1 H2]. destruct (Qltb_spec v x) as [L|L].
    + split.
      * split; [|split; assumption]. constructor; [assumption|].
        eapply Forall_impl; [|exact H1]. cbn. intros; lra.
      * intro w. split.
        -- intros (u & [<-|I] & E); [left; symmetry; assumption|right; exists u; split; assumption].
        -- intros [E|(u & I & E)]; [exists v; split; [left; reflexivity|symmetry; assumption]|].
           exists u. split; [right; assumption|assumption].
    + destruct (Qeq_bool v x) eqn:EQ.
      * apply Qeq_bool_iff in EQ. split; [split; assumption|]. intro w. split; [right; assumption|].
        intros [E|I]; [|assumption]. exists x. split; [left; reflexivity|]. rewrite E. symmetry; assumption.
      * apply Qeq_bool_neq in EQ. destruct (IH H2) as [S1 S2]. split.
        -- split; [|assumption]. apply Forall_forall. intros u Hu.
           destruct (proj1 (S2 u)) as [E|(u' & I & E)]; [exists u; split; [assumption|reflexivity]|lra|].
           rewrite Forall_forall in H1. specialize (H1 u' I). lra.
        -- intro w. split.
           ++ intros (u & [<-|I] & E).
              ** right. exists x. split; [left; reflexivity|assumption].
              ** destruct (proj1 (S2 w)) as [E'|(u' & I' & E')]; [exists u; split; assumption|left; assumption|].
                 right. exists u'. split; [right; assumption|assumption].
           ++ intros [E|(u & [<-|I] & E)].
              ** destruct (proj2 (S2 w)) as (u' & I' & E'); [left; assumption|]. exists u'. split; [right; assumption|assumption].
              ** exists x. split; [left; reflexivity|assumption].
              ** destruct (proj2 (S2 w)) as (u' & I' & E'); [right; exists u; split; assumption|].
                 exists u'. split; [right; assumption|assumption].
Qed.

Lemma setInsert_fold values : forall acc, Qsorted acc ->
  let s := fold_left (fun acc v => setInsert (fold01 v) acc) values acc in
  Qsorted s /\ forall w, QIn w s <-> (exists v, In v values /\ (w == fold01 v)%Q) \/ QIn w acc.
Proof.
  induction values as [|v values IH]; intros acc Ha; cbn [fold_left].
  - split; [assumption|]. intro w. split; [right; assumption|]. intros [(v & [] & _)|H]; assumption.
  - destruct (setInsert_spec (fold01 v) acc Ha) as [S1 S2]. destruct (IH _ S1) as [T1 T2].
    split; [assumption|]. intro w. rewrite T2, S2. split.
    + intros [(u & I & E)|[E|I]]; [left; exists u; split; [right; assumption|assumption]| |right; assumption].
      left. exists v. split; [left; reflexivity|assumption].
    + intros [(u & [<-|I] & E)|I]; [right; left; assumption| |right; right; assumption].
      left. exists u. split; assumption.
Qed.

Lemma fold01_node v m i n o : 0 < m -> 0 <= i < m -> (0 <= o)%Q -> (o < 1 / inject_Z m)%Q ->
  (v - (inject_Z i / inject_Z m + o) == inject_Z n)%Q -> (fold01 v == inject_Z i / inject_Z m + o)%Q.
Proof.
  intros Hm Hi Ho1 Ho2 E.
  assert (P : (0 < inject_Z m)%Q) by (apply injZ_pos; assumption).
  unfold fold01. set (x := (inject_Z i / inject_Z m + o)%Q) in *.
  assert (V0 : (0 <= x)%Q).
  { subst x. assert (0 <= inject_Z i / inject_Z m)%Q; [|lra].
    apply Qle_shift_div_l; [assumption|]. rewrite Qmult_0_l. change 0%Q with (inject_Z 0). rewrite <- Zle_Qle. lia. }
  assert (V1 : (x < 1)%Q).
  { subst x. assert (inject_Z i / inject_Z m <= 1 - 1 / inject_Z m)%Q; [|lra].
    setoid_replace (1 - 1 / inject_Z m)%Q with (inject_Z (m - 1) / inject_Z m)%Q.
    - apply Qmult_le_compat_r; [rewrite <- Zle_Qle; lia|]. apply Qinv_le_0_compat. lra.
    - unfold Z.sub. rewrite inject_Z_plus, inject_Z_opp. change (inject_Z 1) with 1%Q. field. lra. }
  assert (F : Qfloor v = n).
  { apply Qfloor_unique; [|rewrite inject_Z_plus; change (inject_Z 1) with 1%Q]; lra. }
  rewrite F, <- E. ring.
Qed.

Lemma cround_p1 m x : (x == inject_Z m + (1 # 10))%Q -> cround x = m.
Proof. intro E. apply cround_unique. apply Qabs_case; intros; lra. Qed.

Lemma findMesh1_spec values m o : 0 < m < 1000000 -> (0 <= o)%Q -> (o < 1 / inject_Z m)%Q ->
  (forall v, In v values -> exists i n, 0 <= i < m /\ (v - (inject_Z i / inject_Z m + o) == inject_Z n)%Q) ->
  (forall i, 0 <= i < m -> exists v n, In v values /\ (v - (inject_Z i / inject_Z m + o) == inject_Z n)%Q) ->
  exists o', findMesh1 values = Ok (m, o') /\ (o' == o)%Q.
Proof.
  intros Hm Ho1 Ho2 H1 H2.
  assert (P : (0 < inject_Z m)%Q) by (apply injZ_pos; lia).
  destruct (setInsert_fold values [] I) as [Srt Mem].
  unfold findMesh1. set (s := fold_left _ values []) in *.
  assert (Ms : forall w, QIn w s <-> exists i, 0 <= i < m /\ (w == inject_Z i / inject_Z m + o)%Q).
  { intro w. rewrite Mem. split.
    - intros [(v & I & E)|(u & [] & _)]. destruct (H1 v I) as (i & n & Hi & En).
      exists i. split; [assumption|]. rewrite E. apply (fold01_node v m i n o); try assumption; lia.
    - intros (i & Hi & E). left. destruct (H2 i Hi) as (v & n & I & En). exists v. split; [assumption|].
      rewrite E. symmetry. apply (fold01_node v m i n o); try assumption; lia. }
  assert (step : forall i, (inject_Z i / inject_Z m == inject_Z i * (1 / inject_Z m))%Q) by (intro; field; lra).
  assert (inv : (1 # 1000000 < 1 / inject_Z m)%Q).
  { apply Qlt_shift_div_l; [assumption|].
    assert (inject_Z m < inject_Z 1000000)%Q by (rewrite <- Zlt_Qlt; lia).
    change (inject_Z 1000000) with 1000000%Q in *. lra. }
  assert (im : (inject_Z m * (1 / inject_Z m) == 1)%Q) by (field; lra).
  set (h := (1 / inject_Z m)%Q) in *.
  destruct (proj2 (Ms o)) as (o' & Io & Eo); [exists 0; split; [lia|]; rewrite step; change (inject_Z 0) with 0%Q; ring|].
  destruct s as [|b r]; [destruct Io|]. destruct Srt as [Hb Hr].
  (* the smallest element is o *)
  assert (Eb : (b == o)%Q).
  { destruct (proj1 (Ms b)) as (i & Hi & E); [exists b; split; [left; reflexivity|reflexivity]|].
    rewrite step in E. assert (0 <= inject_Z i)%Q by (change 0%Q with (inject_Z 0); rewrite <- Zle_Qle; lia).
    assert (0 <= inject_Z i * h)%Q by (apply Qmult_le_0_compat; lra).
    destruct Io as [->|Io]; [assumption|]. rewrite Forall_forall in Hb. specialize (Hb o' Io). lra. }
  (* members of r are o + i h, i >= 1 *)
  assert (Mr : forall w, In w r -> exists i, 1 <= i < m /\ (w == inject_Z i * h + o)%Q).
  { intros w Iw. destruct (proj1 (Ms w)) as (i & Hi & E); [exists w; split; [right; assumption|reflexivity]|].
    rewrite step in E. exists i. split; [|assumption].
    rewrite Forall_forall in Hb. specialize (Hb w Iw).
    assert (i <> 0); [|lia]. intros ->. change (inject_Z 0) with 0%Q in E. lra. }
  destruct (Z.eq_dec m 1) as [E1|N1].
  - assert (Er : r = []).
    { destruct r as [|w r]; [reflexivity|]. destruct (Mr w) as (i & Hi & _); [left; reflexivity|lia]. }
    rewrite Er. cbn [forallb]. exists b. split; [rewrite E1; reflexivity|assumption].
  - (* o + h is in r *)
    destruct (proj2 (Ms (h + o)%Q)) as (w & Iw & Ew).
    { exists 1. split; [lia|]. rewrite step. change (inject_Z 1) with 1%Q. ring. }
    assert (Iwr : In w r). { destruct Iw as [<-|Iw]; [lra|assumption]. }
    assert (two : (2 * h <= 1)%Q).
    { assert (inject_Z 2 <= inject_Z m)%Q by (rewrite <- Zle_Qle; lia). change (inject_Z 2) with 2%Q in *.
      assert (2 * h <= inject_Z m * h)%Q; [|lra]. apply Qmult_le_compat_r; lra. }
    assert (Fa : forallb (fun v => negb (Qltb eps6 (v - b) && Qltb eps6 (1 - v + b))) r = false).
    { destruct (forallb _ r) eqn:Fr; [|reflexivity]. rewrite forallb_forall in Fr. specialize (Fr w Iwr).
      cbn beta in Fr. rewrite !Qltb_true in Fr by (unfold eps6; lra). discriminate. }
    rewrite Fa.
    (* find *)
    destruct r as [|w0 r']; [destruct Iwr|]. destruct Hr as [Hw0 Hr'].
    assert (Ew0 : (w0 == h + o)%Q).
    { destruct (Mr w0) as (i & Hi & E); [left; reflexivity|].
      assert (inject_Z 1 <= inject_Z i)%Q by (rewrite <- Zle_Qle; lia). change (inject_Z 1) with 1%Q in *.
      assert (1 * h <= inject_Z i * h)%Q by (apply Qmult_le_compat_r; lra).
      destruct Iwr as [->|Iwr]; [assumption|]. rewrite Forall_forall in Hw0. specialize (Hw0 w Iwr). lra. }
    cbn [find]. rewrite Qltb_false by (unfold eps6; lra). rewrite Qltb_true by (unfold eps6; lra).
    exists b. split; [|assumption]. f_equal. f_equal.
    assert (D : (w0 - b == h)%Q) by lra.
    apply cround_p1. rewrite D. subst h. field. lra.
Qed.

Lemma findMesh_spec m pts : posMesh m -> m0 m < 1000000 -> m1 m < 1000000 -> m2 m < 1000000 ->
  smallOffset m -> listsMesh m pts ->
  exists o, findMesh pts = Ok (Mesh (m0 m) (m1 m) (m2 m) o) /\ veq o (off m).
Proof.
  intros (A & B & C) L0 L1 L2 (O0 & O0' & O1 & O1' & O2 & O2') (HL & H1 & H2).
  assert (E8 : (0 < eps8)%Q) by reflexivity.
  destruct (findMesh1_spec (map M_points.c0 pts) (m0 m) (c0 (off m))) as (x & Ex & Vx); [lia|lra|lra| | |].
  { intros v I. apply in_map_iff in I. destruct I as (p & <- & I).
    destruct (H1 p I) as (i & j & k & Hi & Hj & Hk & (n0 & n1 & n2 & (E0 & E1 & E2))). exists i, n0. split; assumption. }
  { intros i Hi. destruct (H2 i 0 0 Hi ltac:(lia) ltac:(lia)) as (p & I & (n0 & n1 & n2 & (E0 & E1 & E2))).
    exists (c0 p), n0. split; [apply in_map; assumption|assumption]. }
  destruct (findMesh1_spec (map M_points.c1 pts) (m1 m) (c1 (off m))) as (y & Ey & Vy); [lia|lra|lra| | |].
  { intros v I. apply in_map_iff in I. destruct I as (p & <- & I).
    destruct (H1 p I) as (i & j & k & Hi & Hj & Hk & (n0 & n1 & n2 & (E0 & E1 & E2))). exists j, n1. split; assumption. }
  { intros i Hi. destruct (H2 0 i 0 ltac:(lia) Hi ltac:(lia)) as (p & I & (n0 & n1 & n2 & (E0 & E1 & E2))).
    exists (c1 p), n1. split; [apply in_map; assumption|assumption]. }
  destruct (findMesh1_spec (map M_points.c2 pts) (m2 m) (c2 (off m))) as (z & Ez & Vz); [lia|lra|lra| | |].
  { intros v I. apply in_map_iff in I. destruct I as (p & <- & I).
    destruct (H1 p I) as (i & j & k & Hi & Hj & Hk & (n0 & n1 & n2 & (E0 & E1 & E2))). exists k, n2. split; assumption. }
  { intros i Hi. destruct (H2 0 0 i ltac:(lia) ltac:(lia) Hi) as (p & I & (n0 & n1 & n2 & (E0 & E1 & E2))).
    exists (c2 p), n2. split; [apply in_map; assumption|assumption]. }
  unfold findMesh. rewrite Ex, Ey, Ez. cbn [bind fst snd]. unfold nodes in HL. rewrite HL, Z.eqb_refl. cbn [negb].
  eexists. split; [reflexivity|]. repeat split; assumption.
Qed.

(** * C60 paths *)
Definition someV (o : option v3) : Prop := exists v, o = Some v.

Lemma sqrt_ge1 x : (1 <= x)%Q -> 1 <= Z.sqrt (Qfloor x).
Proof.
  intro H. assert (1 <= Qfloor x).
  { change 1 with (Qfloor 1). apply Qfloor_resp_le. assumption. }
  change 1 with (Z.sqrt 1) at 1. apply Z.sqrt_le_mono. assumption.
Qed.

Lemma pathNk_pos p0 p1 delta : (0 < delta)%Q -> (delta * delta <= sqNorm (vsub p1 p0))%Q -> 1 <= pathNk p0 p1 delta.
Proof.
  intros Hd H. unfold pathNk. apply sqrt_ge1. apply Qle_shift_div_l; [nra|]. lra.
Qed.

Lemma segmentPoint_0 p0 p1 nk : 1 <= nk -> exists v, segmentPoint p0 p1 nk 0 = Some v /\ veq v p0.
Proof.
  intros H. unfold segmentPoint. destruct (Z.eqb_spec nk 0); [lia|].
  eexists. split; [reflexivity|]. unfold veq; cbn [c0 c1 c2]. change (inject_Z 0) with 0%Q. repeat split; ring.
Qed.
Lemma segmentPoint_n p0 p1 nk : 1 <= nk -> exists v, segmentPoint p0 p1 nk nk = Some v /\ veq v p1.
Proof.
  intros H. unfold segmentPoint. destruct (Z.eqb_spec nk 0); [lia|].
  eexists. split; [reflexivity|]. unfold veq; cbn [c0 c1 c2].
  assert (~ inject_Z nk == 0)%Q by (apply injZ_neq; lia). repeat split; field; assumption.
Qed.

Definition present (l : list (option v3)) (p : v3) : Prop := exists v, In (Some v) l /\ veq v p.
Definition presentTol (l : list (option v3)) (p : v3) : Prop :=
  exists v, In (Some v) l /\ (sqDist v p <= eps8 * eps8)%Q.

Lemma sqDist_veq a b c : veq b c -> (sqDist a b == sqDist a c)%Q.
Proof.
  intros (E0 & E1 & E2). unfold sqDist, sqNorm, vsub; cbn [c0 c1 c2]. rewrite E0, E1, E2. reflexivity.
Qed.
Lemma sqDist_sym a b : (sqDist a b == sqDist b a)%Q.
Proof. unfold sqDist, sqNorm, vsub; cbn [c0 c1 c2]. ring. Qed.

Lemma pathSegment_spec delta acc p0 p1 : (0 < delta)%Q -> (delta * delta <= sqNorm (vsub p1 p0))%Q ->
  acc <> [] -> Forall someV acc ->
  let acc' := pathSegment delta acc (p0, p1) in
  Forall someV acc' /\ (exists t, acc' = acc ++ t) /\ acc' <> [] /\ presentTol acc' p0 /\ present acc' p1 /\
  exists v, last acc' None = Some v /\ veq v p1.
Proof.
  intros Hd Hn Ha Hs. pose proof (pathNk_pos p0 p1 delta Hd Hn) as Hk.
  unfold pathSegment. set (nk := pathNk p0 p1 delta) in *.
  assert (Lst : exists a, last acc None = Some a /\ In (Some a) acc).
  { destruct (exists_last Ha) as (l' & x & E). subst acc. rewrite last_last.
    apply Forall_app in Hs. destruct Hs as [_ Hs]. apply Forall_inv in Hs. destruct Hs as (v & ->).
    exists v. split; [reflexivity|]. apply in_or_app. right; left; reflexivity. }
  destruct Lst as (a & La & Ia). rewrite La.
  rewrite zrange_cons by lia. cbn [map]. replace (nk + 1 - 1) with nk by lia.
  assert (EZ : zrange (0 + 1) nk = zrange (0 + 1) (nk - 1) ++ [nk]).
  { replace (zrange (0 + 1) nk) with (zrange (0 + 1) ((nk - 1) + 1)) by (f_equal; lia).
    rewrite (zrange_S (0 + 1) (nk - 1)) by lia. repeat f_equal. lia. }
  rewrite EZ, map_app. cbn [map].
  destruct (segmentPoint_0 p0 p1 nk Hk) as (v0 & -> & V0).
  destruct (segmentPoint_n p0 p1 nk Hk) as (v1 & -> & V1).
  set (mid := map (segmentPoint p0 p1 nk) (zrange (0 + 1) (nk - 1))).
  assert (Smid : Forall someV mid).
  { subst mid. apply Forall_map, Forall_forall. intros j _. unfold segmentPoint.
    destruct (Z.eqb_spec nk 0); [lia|]. eexists; reflexivity. }
  assert (Sv : forall v : v3, Forall someV [Some v]) by (intro; constructor; [eexists; reflexivity|constructor]).
  destruct (farEnough (Some v0) (Some a)) eqn:EF.
  - split; [repeat (apply Forall_app; split); auto|]. split; [rewrite <- app_assoc; eexists; reflexivity|].
    split; [intro X; destruct acc; discriminate|].
    split. { exists v0. split; [apply in_or_app; left; apply in_or_app; right; left; reflexivity|].
      rewrite (sqDist_veq v0 p0 v0) by (apply veq_sym; assumption).
      unfold sqDist, sqNorm, vsub; cbn [c0 c1 c2]. unfold eps8. nra. }
    split. { exists v1. split; [|assumption]. apply in_or_app; right; apply in_or_app; right; left; reflexivity. }
    exists v1. split; [|assumption]. rewrite app_assoc. apply last_last.
  - split; [repeat (apply Forall_app; split); auto|]. split; [eexists; reflexivity|].
    split; [intro X; destruct acc; discriminate|].
    split. { exists a. split; [apply in_or_app; left; assumption|].
      rewrite (sqDist_veq a p0 v0) by (apply veq_sym; assumption). rewrite sqDist_sym.
      unfold farEnough in EF. unfold sqDist.
      destruct (Qltb_spec (eps8 * eps8) (sqNorm (vsub v0 a))); [discriminate|lra]. }
    split. { exists v1. split; [|assumption]. apply in_or_app; right; apply in_or_app; right; left; reflexivity. }
    exists v1. split; [|assumption]. rewrite app_assoc. apply last_last.
Qed.

Lemma present_app l t p : present l p -> present (l ++ t) p.
Proof. intros (v & I & V). exists v. split; [apply in_or_app; left; assumption|assumption]. Qed.
Lemma presentTol_app l t p : presentTol l p -> presentTol (l ++ t) p.
Proof. intros (v & I & V). exists v. split; [apply in_or_app; left; assumption|assumption]. Qed.

Lemma pathFold_spec delta segs : (0 < delta)%Q ->
  Forall (fun s => delta * delta <= sqNorm (vsub (snd s) (fst s)))%Q segs ->
  forall acc, acc <> [] -> Forall someV acc ->
  let r := fold_left (pathSegment delta) segs acc in
  Forall someV r /\ (exists t, r = acc ++ t) /\
  Forall (fun s => presentTol r (fst s) /\ present r (snd s)) segs.
Proof.
  intros Hd. induction segs as [|[p0 p1] segs IH]; intros HS acc Ha Hs; cbn [fold_left].
  - split; [assumption|]. split; [exists []; rewrite app_nil_r; reflexivity|constructor].
  - inversion HS as [|? ? H1 H2]; subst. cbn [fst snd] in H1.
    destruct (pathSegment_spec delta acc p0 p1 Hd H1 Ha Hs) as (A & (t & E) & B & C & D & _).
    destruct (IH H2 _ B A) as (X & (t' & E') & Y).
    split; [assumption|]. split; [exists (t ++ t'); rewrite E', E, app_assoc; reflexivity|].
    constructor; [|assumption]. cbn [fst snd]. rewrite E'. split; [apply presentTol_app|apply present_app]; assumption.
Qed.

Lemma pathPoints_spec delta segs : (0 < delta)%Q -> segs <> [] ->
  Forall (fun s => delta * delta <= sqNorm (vsub (snd s) (fst s)))%Q segs ->
  exists vs, pathPoints segs delta = map Some vs /\
    Forall (fun s => (exists v, In v vs /\ (sqDist v (fst s) <= eps8 * eps8)%Q) /\
                     (exists v, In v vs /\ veq v (snd s))) segs.
Proof.
  intros Hd Hn HS. destruct segs as [|[p0 p1] segs]; [congruence|]. cbn [pathPoints].
  destruct (pathFold_spec delta ((p0, p1) :: segs) Hd HS [Some p0]) as (A & _ & C);
    [discriminate|constructor; [eexists; reflexivity|constructor]|].
  set (r := fold_left _ _ _) in *. 
  assert (E : exists vs, r = map Some vs).
  { clear C. induction A as [|o l (v & ->) A (vs & ->)]; [exists []; reflexivity|exists (v :: vs); reflexivity]. }
  destruct E as (vs & E). exists vs. split; [assumption|].
  eapply Forall_impl; [|exact C]. intros s ((v & I & D) & (w & J & W)). rewrite E in I, J.
  apply in_map_iff in I. destruct I as (v' & X & I). injection X as ->.
  apply in_map_iff in J. destruct J as (w' & X & J). injection X as ->.
  split; [exists v|exists w]; split; assumption.
Qed.
