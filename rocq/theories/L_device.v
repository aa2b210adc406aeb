(** Lemmas for P_device. *)
From Verif Require Import Base BaseLemmas M_device S_device.

Definition couplings (l : list (Z * object)) : list Z := flat_map (fun p => couplingId (snd p)) l.
Definition usages (l : list (Z * object)) : Z := zsum (map (fun p => usage (snd p)) l).

Lemma Ok_eq {A} (x y : A) : Ok x = Ok y -> x = y.
Proof. intros H. apply (f_equal (fun r => match r with Ok z => z | _ => x end)) in H. exact H. Qed.

Definition nn (v : view) : Prop := 0 <= vElems v /\ 0 <= vBytes v.
Definition wf (o : object) : Prop :=
  match oKind o with
  | KWannier => exists h a b c e, oViews o = [h; a; b; c; e] /\ Forall nn (oViews o) /\ vBytes h = 16 /\ vBytes a = 8 /\ vBytes b = 8 /\ vBytes c = 8 /\ vBytes e = 8
  | KElPh => exists a b c e f g, oViews o = [a; b; c; e; f; g] /\ Forall nn (oViews o) /\ vBytes a <= 16 /\ vBytes b <= 16 /\
      vBytes c = 8 /\ vBytes e = 8 /\ vBytes f = 8 /\ vBytes g = 8 /\ (vId b < 0 -> usage o = 0)
  | _ => Forall nn (oViews o) /\ zsum (map viewBytes (oViews o)) <= usage o /\ 0 <= usage o
  end.

Lemma zsum_app l1 l2 : zsum (l1 ++ l2) = zsum l1 + zsum l2.
Proof. unfold zsum. induction l1 as [|x l IH]; cbn [app fold_right]; lia. Qed.

Lemma usages_app a b : usages (a ++ b) = usages a + usages b.
Proof. unfold usages. rewrite map_app. apply zsum_app. Qed.
Lemma usages_cons i o l : usages ((i, o) :: l) = usage o + usages l.
Proof. reflexivity. Qed.
Lemma usages_one i o : usages [(i, o)] = usage o.
Proof. unfold usages, zsum; cbn [map fold_right snd]. lia. Qed.
Lemma couplings_app a b : couplings (a ++ b) = couplings a ++ couplings b.
Proof. unfold couplings. apply flat_map_app. Qed.
Lemma couplings_cons i o l : couplings ((i, o) :: l) = couplingId o ++ couplings l.
Proof. reflexivity. Qed.

Lemma wf_nn o : wf o -> Forall nn (oViews o).
Proof.
  unfold wf. destruct (oKind o); intros H.
  - tauto.
  - destruct H as (h & a & b & c & e & _ & H & _). exact H.
  - tauto.
  - destruct H as (a & b & c & e & f & g & _ & H & _). exact H.
Qed.

Lemma wf_usage o : wf o -> zsum (map viewBytes (oViews o)) <= usage o /\ 0 <= usage o.
Proof.
  unfold wf. destruct (oKind o) eqn:K; intros H.
  - tauto.
  - destruct H as (h & a & b & c & e & E & F & B0 & B1 & B2 & B3 & B4).
    unfold usage, usageWannier, elems. rewrite K, E in *. cbn [nth map zsum fold_right]. unfold zsum; cbn [fold_right].
    unfold viewBytes. rewrite B0, B1, B2, B3, B4.
    repeat (match goal with F : Forall _ (_ :: _) |- _ => apply Forall_cons_iff in F; destruct F as [[? ?] F] end). lia.
  - tauto.
  - destruct H as (a & b & c & e & f & g & E & F & B0 & B1 & B2 & B3 & B4 & B5 & _).
    unfold usage, usageElPh, elems. rewrite K, E in *. cbn [nth map]. unfold zsum; cbn [fold_right].
    unfold viewBytes. rewrite B2, B3, B4, B5.
    repeat (match goal with F : Forall _ (_ :: _) |- _ => apply Forall_cons_iff in F; destruct F as [[? ?] F] end).
    assert (vElems a * vBytes a <= vElems a * 16) by (apply Z.mul_le_mono_nonneg_l; lia).
    assert (vElems b * vBytes b <= vElems b * 16) by (apply Z.mul_le_mono_nonneg_l; lia). lia.
Qed.

Lemma lookup_split i l o : lookup i l = Some o -> exists l1 l2, l = l1 ++ (i, o) :: l2 /\ remove i l = l1 ++ l2 /\
  (forall o', replace i o' l = l1 ++ (i, o') :: l2) /\ ~ In i (map fst l1).
Proof.
  induction l as [|[j p] r IH]; cbn [lookup remove replace]; [discriminate|].
  destruct (i =? j) eqn:E; intros H.
  - injection H as ->. exists [], r. apply Z.eqb_eq in E. subst j. repeat split; try reflexivity. intros [].
  - destruct (IH H) as (l1 & l2 & -> & R & P & N). exists ((j, p) :: l1), l2. rewrite R. repeat split.
    + intros o'. rewrite P. reflexivity.
    + cbn. intros [C | C]; [lia|exact (N C)].
Qed.

Lemma lookup_app_fresh i l o : ~ In i (map fst l) -> lookup i (l ++ [(i, o)]) = Some o.
Proof.
  induction l as [|[j p] r IH]; cbn [app lookup map fst].
  - intros _. rewrite Z.eqb_refl. reflexivity.
  - intros N. destruct (i =? j) eqn:E; [apply Z.eqb_eq in E; subst; exfalso; apply N; left; reflexivity|].
    apply IH. intros C. apply N. right. exact C.
Qed.
Lemma lookup_app_some i l m o : lookup i l = Some o -> lookup i (l ++ m) = Some o.
Proof. induction l as [|[j p] r IH]; cbn [app lookup]; [discriminate|]. destruct (i =? j); [trivial|exact IH]. Qed.

Lemma mkViews_spec n l : map vElems (mkViews n l) = map fst l /\ map vBytes (mkViews n l) = map snd l /\
  (forall v, In v (mkViews n l) -> n <= vId v < n + zlen l).
Proof.
  revert n. induction l as [|[e b] r IH]; intros n; cbn [mkViews map fst snd vElems vBytes].
  - repeat split; intros; destruct H.
  - destruct (IH (n + 1)) as (A & B & C). rewrite A, B. repeat split; rewrite ?zlen_cons; unfold zlen in *; destruct H as [<- | H]; cbn [vId]; try lia;
      specialize (C _ H); cbn [length] in *; lia.
Qed.

Lemma shape_wf s n : 0 <= n -> shapeOk s = true -> wf {| oKind := shapeKind s; oViews := mkViews n (shapeViews s) |}.
Proof.
  intros N H. destruct s as [na nr ng dl | nw nv | na nr2 nr3 | ne np rEl rPh]; unfold wf; cbn [shapeKind oKind shapeOk] in *.
  - apply andb_prop in H as [H H3]. apply andb_prop in H as [H1 H2].
    assert (A1 : 0 <= 3 * na * (3 * na) * nr) by (apply Z.mul_nonneg_nonneg; [apply Z.mul_nonneg_nonneg|]; lia).
    unfold usage, usagePhonon, elems. cbn [oKind oViews shapeViews mkViews nth map vElems]. unfold zsum; cbn [fold_right].
    unfold viewBytes; cbn [vElems vBytes].
    split; [|split].
    + repeat constructor; cbn [vElems vBytes]; try lia; destruct dl; try lia.
    + destruct dl; lia.
    + destruct dl; lia.
  - apply andb_prop in H as [H1 H2].
    assert (A1 : 0 <= nw * nw * nv) by (apply Z.mul_nonneg_nonneg; [apply Z.mul_nonneg_nonneg|]; lia).
    cbn [oViews shapeViews mkViews]. do 5 eexists. split; [reflexivity|].
    split; [repeat constructor; cbn [vElems vBytes]; lia|]. repeat split; reflexivity.
  - apply andb_prop in H as [H H3]. apply andb_prop in H as [H1 H2].
    assert (B1 : 1 <= 3 * na * (3 * na) * (3 * na)) by nia.
    set (m := 3 * na * (3 * na) * (3 * na)) in *.
    assert (B2 : 27 <= m) by (unfold m; nia).
    assert (A0 : 27 * nr3 <= m * nr3) by (apply Z.mul_le_mono_nonneg_r; lia).
    assert (A1 : m * nr3 <= m * nr3 * nr2) by nia.
    assert (A2 : 0 <= nr2 * na * na) by (apply Z.mul_nonneg_nonneg; [apply Z.mul_nonneg_nonneg|]; lia).
    unfold usage, usageThree, elems. cbn [oKind oViews shapeViews mkViews nth map vElems]. fold m. unfold zsum; cbn [fold_right].
    unfold viewBytes; cbn [vElems vBytes].
    split; [|split].
    + repeat constructor; cbn [vElems vBytes]; lia.
    + lia.
    + lia.
  - apply andb_prop in H as [H H4]. apply andb_prop in H as [H H3]. apply andb_prop in H as [H1 H2].
    assert (A1 : 0 <= rEl * rPh * np * ne * ne) by (repeat apply Z.mul_nonneg_nonneg; lia).
    cbn [oViews shapeViews mkViews]. do 6 eexists. split; [reflexivity|].
    split; [repeat constructor; cbn [vElems vBytes]; lia|]. repeat split; cbn [vBytes vId]; try lia.
Qed.

Lemma NoDup_app2' (a b : list Z) : NoDup a -> NoDup b -> (forall x, In x a -> ~ In x b) -> NoDup (a ++ b).
Proof.
  induction a as [|x a IH]; intros A B H; [exact B|]. inversion A; subst. cbn [app]. constructor.
  - intros C. apply in_app_or in C as [C | C]; [contradiction|]. exact (H x (or_introl eq_refl) C).
  - apply IH; auto. intros y Hy. apply H. right. exact Hy.
Qed.

Record Inv (d : device) : Prop := {
  inv_next : 0 <= next d;
  inv_keys : forall i o, In (i, o) (objs d) -> i < next d /\ wf o /\ (forall v, In v (oViews o) -> vId v < next d);
  inv_nd : NoDup (couplings (objs d)) }.

Lemma coupling_in o c : wf o -> In c (couplingId o) -> exists v, In v (oViews o) /\ vId v = c /\ 0 <= c.
Proof.
  unfold wf, couplingId. destruct (oKind o); try (intros _ []).
  intros (a & b & x & e & f & g & E & _) H. rewrite E in *. cbn [nth] in H.
  destruct (0 <=? vId b) eqn:P; [|destruct H]. destruct H as [<- | []]. exists b. split; [right; left; reflexivity|]. split; [reflexivity|lia].
Qed.

Lemma couplings_lt l n : (forall i o, In (i, o) l -> wf o /\ (forall v, In v (oViews o) -> vId v < n)) -> forall c, In c (couplings l) -> c < n.
Proof.
  intros H c C. unfold couplings in C. apply in_flat_map in C as ([i o] & I & C). cbn [snd] in C. destruct (H _ _ I) as [W V].
  destruct (coupling_in _ _ W C) as (v & Iv & <- & _). apply V. exact Iv.
Qed.

Lemma filter_one (l : list Z) c : NoDup l -> In c l -> zlen (filter (fun j => j =? c) l) = 1.
Proof.
  induction l as [|x l IH]; intros N I; [destruct I|]. inversion N as [|? ? N1 N2]; subst. cbn [filter].
  destruct (x =? c) eqn:E.
  - apply Z.eqb_eq in E. subst x. rewrite zlen_cons.
    replace (filter (fun j => j =? c) l) with (@nil Z); [reflexivity|].
    symmetry. clear -N1. induction l as [|y l IH]; [reflexivity|]. cbn [filter]. destruct (y =? c) eqn:E.
    + apply Z.eqb_eq in E. subst. exfalso. apply N1. left. reflexivity.
    + apply IH. intros C. apply N1. right. exact C.
  - destruct I as [<- | I]; [rewrite Z.eqb_refl in E; discriminate|]. apply IH; assumption.
Qed.
Lemma filter_none (l : list Z) c : ~ In c l -> filter (fun j => j =? c) l = [].
Proof.
  induction l as [|x l IH]; intros I; [reflexivity|]. cbn [filter]. destruct (x =? c) eqn:E.
  - apply Z.eqb_eq in E. subst. exfalso. apply I. left. reflexivity.
  - apply IH. intros C. apply I. right. exact C.
Qed.

Lemma couplingId_one o : couplingId o = [] \/ exists c, couplingId o = [c].
Proof. unfold couplingId. destruct (oKind o); auto. destruct (_ <=? _); eauto. Qed.
Lemma couplingId_kind o : oKind o <> KElPh -> couplingId o = [].
Proof. unfold couplingId. destruct (oKind o); intros H; try reflexivity. destruct (H eq_refl). Qed.

(** a new object at the end *)
Lemma inv_new d o n : Inv d -> wf o -> next d < n -> (forall v, In v (oViews o) -> vId v < n) ->
  (forall c, In c (couplingId o) -> next d <= c) -> Inv (newObject d o n).
Proof.
  intros [I1 I2 I3] W L V C. split; cbn [newObject setObjs next objs].
  - lia.
  - intros i p H. apply in_app_or in H as [H | [H | []]].
    + destruct (I2 _ _ H) as (A & B & D). split; [lia|]. split; [exact B|]. intros v Iv. specialize (D _ Iv). lia.
    + injection H as <- <-. split; [exact L|]. split; assumption.
  - rewrite couplings_app, couplings_cons, app_nil_r. destruct (couplingId_one o) as [-> | [c E]]; [rewrite app_nil_r; exact I3|].
    rewrite E. apply NoDup_app2'; [exact I3| |].
    + constructor; [intros []|constructor].
    + intros x Hx [<- | []]. assert (c < next d) by (apply (couplings_lt (objs d)); [intros i p H; destruct (I2 _ _ H) as (_ & A & B); split; assumption|exact Hx]).
      specialize (C c). rewrite E in C. specialize (C (or_introl eq_refl)). lia.
Qed.

(** an object replaced by another one *)
Lemma inv_replace d i o o' n u : Inv d -> lookup i (objs d) = Some o -> wf o' -> next d <= n -> (forall v, In v (oViews o') -> vId v < n) ->
  (couplingId o' = couplingId o \/ forall c, In c (couplingId o') -> next d <= c) ->
  Inv {| used := u; total := total d; next := n; objs := replace i o' (objs d) |} /\
  usages (replace i o' (objs d)) = usages (objs d) - usage o + usage o'.
Proof.
  intros [I1 I2 I3] L W N V C. destruct (lookup_split _ _ _ L) as (l1 & l2 & E & _ & R & _). specialize (R o'). rewrite R. split.
  - split; cbn [next objs].
    + lia.
    + intros j p H. assert (O : (In (j, p) (objs d)) \/ (j, p) = (i, o')).
      { rewrite E. apply in_app_or in H as [H | [H | H]]; [left; apply in_or_app; left; exact H|right; symmetry; exact H|left; apply in_or_app; right; right; exact H]. }
      destruct O as [O | O].
      * destruct (I2 _ _ O) as (A & B & D). split; [lia|]. split; [exact B|]. intros v Iv. specialize (D _ Iv). lia.
      * injection O as -> ->. split; [|split; assumption]. assert (i < next d); [|lia].
        apply (I2 i o). rewrite E. apply in_or_app. right. left. reflexivity.
    + rewrite couplings_app, couplings_cons. rewrite E, couplings_app, couplings_cons in I3.
      destruct C as [-> | C]; [exact I3|].
      assert (Lt : forall c, In c (couplings l1 ++ couplings l2) -> c < next d).
      { intros c Hc. apply (couplings_lt (objs d)); [intros j p H; destruct (I2 _ _ H) as (_ & A & B); split; assumption|].
        rewrite E, couplings_app, couplings_cons. apply in_app_or in Hc as [Hc | Hc]; apply in_or_app; [left; exact Hc|right; apply in_or_app; right; exact Hc]. }
      assert (N3 : NoDup (couplings l1 ++ couplings l2)).
      { destruct (couplingId_one o) as [Z0 | [c Z0]]; rewrite Z0 in I3; [exact I3|]. exact (NoDup_remove_1 _ _ _ I3). }
      destruct (couplingId_one o') as [-> | [c Z0]]; [exact N3|]. rewrite Z0 in *. cbn [app].
      apply (NoDup_Add (a := c) (l := couplings l1 ++ couplings l2)); [apply Add_app|]. split; [exact N3|].
      intros X. specialize (Lt _ X). specialize (C c (or_introl eq_refl)). lia.
  - rewrite E, !usages_app, !usages_cons. lia.
Qed.

(** an object removed *)
Lemma inv_remove d i o u : Inv d -> lookup i (objs d) = Some o ->
  Inv {| used := u; total := total d; next := next d; objs := remove i (objs d) |} /\
  usages (remove i (objs d)) = usages (objs d) - usage o.
Proof.
  intros [I1 I2 I3] L. destruct (lookup_split _ _ _ L) as (l1 & l2 & E & R & _ & _). rewrite R. split.
  - split; cbn [next objs]; [exact I1| |].
    + intros j p H. apply I2. rewrite E. apply in_app_or in H as [H | H]; apply in_or_app; [left|right; right]; exact H.
    + rewrite E, couplings_app, couplings_cons in I3. rewrite couplings_app.
      destruct (couplingId_one o) as [Z0 | [c Z0]]; rewrite Z0 in I3; [exact I3|]. exact (NoDup_remove_1 _ _ _ I3).
  - rewrite E, !usages_app, !usages_cons. lia.
Qed.

Lemma lookup_in i l o : lookup i l = Some o -> In (i, o) l.
Proof. intros H. destruct (lookup_split _ _ _ H) as (l1 & l2 & -> & _). apply in_or_app. right. left. reflexivity. Qed.

Lemma use_one d i o : Inv d -> lookup i (objs d) = Some o -> couplingId o <> [] -> useCount d o = 1.
Proof.
  intros [I1 I2 I3] L C. unfold useCount. destruct (couplingId_one o) as [Z0 | [c Z0]]; [destruct (C Z0)|]. rewrite Z0.
  apply filter_one; [exact I3|]. unfold couplings. apply in_flat_map. exists (i, o). split; [apply lookup_in; exact L|].
  cbn [snd]. rewrite Z0. left. reflexivity.
Qed.

Lemma construct_inv d s d' : Inv d -> construct d s = Ok d' -> Inv d' /\ used d' = used d + usages (objs d') - usages (objs d) /\
  exists o, objs d' = objs d ++ [(next d, o)] /\ oKind o = shapeKind s /\ wf o /\ next d < next d' /\ used d' = used d + usage o /\ total d' = total d /\
    (forall v, In v (oViews o) -> next d < vId v < next d').
Proof.
  intros I H. unfold construct in H. destruct (shapeOk s) eqn:S; [|discriminate]. injection H as <-.
  set (o := {| oKind := shapeKind s; oViews := mkViews (next d + 1) (shapeViews s) |}).
  assert (I1 := inv_next _ I).
  assert (W : wf o) by (apply shape_wf; [lia|exact S]).
  destruct (mkViews_spec (next d + 1) (shapeViews s)) as (_ & _ & M).
  assert (Z0 : 0 <= zlen (shapeViews s)) by (unfold zlen; lia).
  assert (B : Inv (newObject d o (next d + 1 + zlen (shapeViews s)))).
  { apply inv_new; [exact I|exact W|lia| |].
    - intros v Hv. specialize (M v Hv). lia.
    - intros c Hc. destruct (coupling_in _ _ W Hc) as (v & Hv & <- & _). specialize (M v Hv). lia. }
  split; [|split].
  - destruct B as [B1 B2 B3]. split; assumption.
  - cbn [addUsage newObject setObjs used objs]. rewrite usages_app, usages_one. fold o. lia.
  - exists o. cbn [addUsage newObject setObjs used objs next total]. repeat split; try assumption; try lia; intros v0; specialize (M _ H); lia.
Qed.

Lemma step_inv d o d' : Inv d -> noSharing d o = true -> step d o = Ok d' ->
  Inv d' /\ used d - usages (objs d) <= used d' - usages (objs d') /\
  (noAssignment d o = true -> used d - usages (objs d) = used d' - usages (objs d')).
Proof.
  intros I NS H. destruct o as [s | | i | i j | i | i | i n | i s]; cbn [step] in H.
  - destruct (construct_inv _ _ _ I H) as (A & B & _). split; [exact A|]. lia.
  - injection H as <-. split; [|cbn [newObject setObjs used objs]; rewrite usages_app, usages_one; unfold usage; cbn [oKind dummyElPh]; unfold usageElPh, usageThree, elems; cbn [oViews dummyElPh repeat nth vElems noView]; lia].
    apply inv_new; try exact I; try lia.
    + unfold wf. cbn [dummyElPh oKind oViews repeat]. do 6 eexists. split; [reflexivity|]. split; [repeat constructor; cbn; lia|].
      repeat split; cbn; lia.
    + intros v Hv. cbn in Hv. assert (I1 := inv_next _ I). repeat (destruct Hv as [<- | Hv]; [cbn; lia|]). destruct Hv.
    + intros c [].
  - unfold copyConstruct in H. cbn [noSharing] in NS. destruct (lookup i (objs d)) as [o|] eqn:L; [|discriminate].
    destruct (inv_keys _ I _ _ (lookup_in _ _ _ L)) as (K1 & W & V).
    assert (P : oKind o <> KElPh -> Inv (newObject d o (next d + 1))).
    { intros K. apply inv_new; [exact I|exact W|lia| |].
      - intros v Hv. specialize (V _ Hv). lia.
      - rewrite (couplingId_kind _ K). intros c []. }
    destruct (oKind o) eqn:K; injection H as <-.
    + assert (Q : Inv (newObject d o (next d + 1))) by (apply P; discriminate). split; [destruct Q; split; assumption|].
      cbn [addUsage newObject setObjs used objs]. rewrite usages_app, usages_one. lia.
    + assert (Q : Inv (newObject d o (next d + 1))) by (apply P; discriminate). split; [destruct Q; split; assumption|].
      cbn [addUsage newObject setObjs used objs]. rewrite usages_app, usages_one. lia.
    + split; [|cbn [newObject setObjs used objs]; rewrite usages_app, usages_one; unfold usage; cbn [oKind dummyElPh]; unfold usageElPh, usageThree, elems; cbn [oViews dummyElPh repeat nth vElems noView]; lia].
      apply inv_new; try exact I; try lia.
      * unfold wf. cbn [oKind oViews repeat]. split; [repeat constructor; cbn; lia|]. cbn. lia.
      * intros v Hv. cbn in Hv. assert (I1 := inv_next _ I). repeat (destruct Hv as [<- | Hv]; [cbn; lia|]). destruct Hv.
      * intros c [].
    + discriminate.
  - unfold assign in H. cbn [noSharing] in NS. destruct (i =? j); [injection H as <-; split; [exact I|lia]|].
    destruct (lookup i (objs d)) as [a|] eqn:L; [|discriminate]. destruct (lookup j (objs d)) as [b|] eqn:Lj; [|discriminate].
    destruct (inv_keys _ I _ _ (lookup_in _ _ _ L)) as (_ & Wa & _).
    destruct (inv_keys _ I _ _ (lookup_in _ _ _ Lj)) as (_ & Wb & Vb).
    assert (Ua := wf_usage _ Wa). unfold noAssignment. rewrite andb_false_r.
    destruct (oKind a) eqn:Ka, (oKind b) eqn:Kb; cbn [kindEq] in H; try discriminate; injection H as <-.
    + destruct (inv_replace d i a b (next d) (used d + usage b) I L Wb ltac:(lia) Vb) as (A & B).
      { left. rewrite !couplingId_kind; congruence. }
      cbn [addUsage setObjs used objs next total]. split; [exact A|]. rewrite B. split; [lia|discriminate].
    + destruct (inv_replace d i a b (next d) (used d + usage b) I L Wb ltac:(lia) Vb) as (A & B).
      { left. rewrite !couplingId_kind; congruence. }
      cbn [addUsage setObjs used objs next total]. split; [exact A|]. rewrite B. split; [lia|discriminate].
    + split; [exact I|]. split; [lia|discriminate].
  - unfold destroy in H. destruct (lookup i (objs d)) as [o|] eqn:L; [|discriminate].
    destruct (inv_keys _ I _ _ (lookup_in _ _ _ L)) as (_ & W & _).
    assert (E : used d' = used d - usage o /\ Inv d' /\ objs d' = remove i (objs d)).
    { assert (U : oKind o <> KElPh \/ useCount d o = 1 \/ (useCount d o = 0 /\ usage o = 0)).
      { destruct (oKind o) eqn:K; try (left; discriminate). right. destruct (couplingId_one o) as [Z0 | [c Z0]].
        - right. split; [unfold useCount; rewrite Z0; reflexivity|].
          unfold wf in W. rewrite K in W. destruct W as (a & b & x & e & f & g & E & _ & _ & _ & _ & _ & _ & _ & X). apply X.
          unfold couplingId in Z0. rewrite K, E in Z0. cbn [nth] in Z0. destruct (0 <=? vId b) eqn:P; [discriminate|lia].
        - left. apply (use_one d i); try assumption. rewrite Z0. discriminate. }
      destruct (oKind o) eqn:K.
      1-3: injection H as <-; cbn [removeUsage setObjs used objs next total]; split; [reflexivity|]; split; [|reflexivity];
           apply (inv_remove d i o _ I L).
      destruct U as [U | [U | [U U2]]]; [destruct (U eq_refl)| |]; rewrite U in H; cbn [Z.eqb Pos.eqb] in H; injection H as <-;
        cbn [removeUsage setObjs used objs next total]; (split; [lia|]); (split; [|reflexivity]); apply (inv_remove d i o _ I L). }
    destruct E as (E1 & E2 & E3). split; [exact E2|]. rewrite E1, E3. destruct (inv_remove d i o 0 I L) as [_ R]. rewrite R. lia.
  - unfold addShiftedVectors in H. destruct (lookup i (objs d)) as [o|] eqn:L; [|discriminate].
    destruct (inv_keys _ I _ _ (lookup_in _ _ _ L)) as (_ & W & V).
    unfold wf in W. destruct (oKind o) eqn:K; try discriminate.
    destruct W as (h & a & b & c & e & E & F & B0 & B1 & B2 & B3 & B4). rewrite E in H, F, V. apply Ok_eq in H. subst d'.
    repeat (match goal with F : Forall _ (_ :: _) |- _ => apply Forall_cons_iff in F; destruct F as [[? ?] F] end).
    match goal with |- context [replace i ?x _] => set (o' := x) end.
    destruct (inv_replace d i o o' (next d + 2) (used d - usage o + usage o') I L) as (A & B).
    + unfold wf, o'. cbn [oKind oViews]. do 5 eexists. split; [reflexivity|]. split; [repeat constructor; cbn [vElems vBytes]; lia|].
      repeat split; assumption.
    + lia.
    + unfold o'. cbn [oViews]. intros v Hv. cbn [In] in Hv, V.
      destruct Hv as [<- | [<- | [<- | [<- | [<- | []]]]]]; cbn [vId]; try lia.
      * assert (vId h < next d) by (apply V; tauto). lia.
      * assert (vId c < next d) by (apply V; tauto). lia.
      * assert (vId e < next d) by (apply V; tauto). lia.
    + left. rewrite !couplingId_kind; [reflexivity|congruence|unfold o'; discriminate].
    + cbn [addUsage removeUsage setObjs used objs next total]. split; [exact A|]. rewrite B. lia.
  - unfold cacheElPh in H. destruct (lookup i (objs d)) as [o|] eqn:L; [|discriminate].
    destruct (inv_keys _ I _ _ (lookup_in _ _ _ L)) as (_ & W & V).
    unfold wf in W. destruct (oKind o) eqn:K; try discriminate.
    destruct W as (a & b & x & e & f & g & E & F & B0 & B1 & B2 & B3 & B4 & B5 & U).
    assert (C : couplingId o = [vId b] \/ couplingId o = []).
    { unfold couplingId. rewrite K, E. cbn [nth]. destruct (0 <=? vId b); auto. }
    rewrite E in H, F, V. destruct (couplingId o) as [|c0 cs] eqn:Cd; [discriminate|].
    destruct (0 <=? n) eqn:N; [|discriminate]. apply Ok_eq in H. subst d'.
    repeat (match goal with F : Forall _ (_ :: _) |- _ => apply Forall_cons_iff in F; destruct F as [[? ?] F] end).
    match goal with |- context [replace i ?x _] => set (o' := x) end.
    assert (P : 0 <= vId b).
    { unfold couplingId in Cd. rewrite K, E in Cd. cbn [nth] in Cd. destruct (0 <=? vId b) eqn:P; [lia|discriminate]. }
    destruct (inv_replace d i o o' (next d + 1) (used d - usage o + usage o') I L) as (A & B).
    + unfold wf, o'. cbn [oKind oViews]. do 6 eexists. split; [reflexivity|]. split; [repeat constructor; cbn [vElems vBytes]; lia|].
      repeat split; try assumption; cbn [vBytes]; try lia.
    + lia.
    + unfold o'. cbn [oViews]. intros v [<- | Hv]; [cbn [vId]; lia|]. assert (vId v < next d) by (apply V; right; exact Hv). lia.
    + left. unfold o', couplingId. rewrite K, E. cbn [oKind oViews nth]. reflexivity.
    + cbn [addUsage removeUsage setObjs used objs next total]. split; [exact A|]. rewrite B. lia.
  - unfold parseInto in H. destruct (lookup i (objs d)) as [o|] eqn:L; [|discriminate].
    destruct (oKind o) eqn:K; try discriminate. destruct (couplingId o) as [|c0 cs] eqn:Cd; [|discriminate].
    destruct (shapeKind s) eqn:Sk; try discriminate.
    destruct (construct d s) as [d1 | |] eqn:C1; try discriminate. cbn [bind] in H.
    destruct (construct_inv _ _ _ I C1) as (I1 & _ & p & O1 & Kp & Wp & N1 & U1 & T1 & V1). rewrite Sk in Kp.
    destruct (inv_keys _ I _ _ (lookup_in _ _ _ L)) as (Li & W & V).
    assert (Fr : ~ In (next d) (map fst (objs d))).
    { intros X. apply in_map_iff in X as ([k q] & Ek & X). cbn in Ek. subst k. destruct (inv_keys _ I _ _ X) as (Y & _). lia. }
    unfold assign in H. replace (i =? next d) with false in H by lia.
    rewrite O1 in H. rewrite (lookup_app_some _ _ _ _ L), (lookup_app_fresh _ _ _ Fr), K, Kp in H. cbn [kindEq bind] in H.
    destruct (lookup_split _ _ _ L) as (l1 & l2 & E & _ & R & Ni).
    destruct (lookup_split _ _ _ (lookup_app_some _ _ [(next d, p)] _ L)) as (l1' & l2' & E' & _ & R' & Ni').
    assert (R2 : replace i p (objs d ++ [(next d, p)]) = replace i p (objs d) ++ [(next d, p)]).
    { clear -L. revert L. generalize (objs d) as l. induction l as [|[k q] r IH]; cbn [lookup replace app]; [discriminate|].
      destruct (i =? k); [reflexivity|]. intros X. rewrite (IH X). reflexivity. }
    rewrite R2 in H.
    assert (Fr2 : ~ In (next d) (map fst (replace i p (objs d)))).
    { rewrite R. rewrite map_app. cbn [map fst]. intros X. apply Fr. rewrite E, map_app. cbn [map fst]. exact X. }
    unfold destroy in H. cbn [setObjs objs next used total] in H. rewrite (lookup_app_fresh _ _ _ Fr2), Kp in H.
    assert (Cp : exists c, couplingId p = [c] /\ next d < c).
    { unfold wf in Wp. rewrite Kp in Wp. destruct Wp as (a & b & x & e & f & g & Ep & _).
      assert (Vb : next d < vId b < next d1) by (apply V1; rewrite Ep; right; left; reflexivity).
      exists (vId b). unfold couplingId. rewrite Kp, Ep. cbn [nth]. assert (X := inv_next _ I). replace (0 <=? vId b) with true by lia. split; [reflexivity|lia]. }
    destruct Cp as (c & Cp & Lc).
    assert (Old : forall l, incl l (objs d) -> filter (fun j => j =? c) (couplings l) = []).
    { intros l Hl. apply filter_none. intros X. assert (c < next d); [|lia]. apply (couplings_lt l); [|exact X].
      intros k q Hk. destruct (inv_keys _ I _ _ (Hl _ Hk)) as (_ & Y1 & Y2). split; assumption. }
    assert (Uc : useCount (setObjs d1 (next d1) (replace i p (objs d) ++ [(next d, p)])) p = 2).
    { unfold useCount. rewrite Cp. cbn [setObjs objs]. fold (couplings (replace i p (objs d) ++ [(next d, p)])).
      rewrite R, !couplings_app, !couplings_cons, Cp, !filter_app. 
      rewrite (Old l1) by (rewrite E; intros y Hy; apply in_or_app; left; exact Hy).
      rewrite (Old l2) by (rewrite E; intros y Hy; apply in_or_app; right; right; exact Hy).
      cbn [couplings flat_map app filter]. rewrite Z.eqb_refl. reflexivity. }
    rewrite Uc in H. cbn [Z.eqb Pos.eqb] in H. injection H as <-.
    assert (R3 : remove (next d) (replace i p (objs d) ++ [(next d, p)]) = replace i p (objs d)).
    { clear -Fr2. revert Fr2. generalize (replace i p (objs d)) as l. induction l as [|[k q] r IH]; cbn [remove app map fst In].
      - intros _. rewrite Z.eqb_refl. reflexivity.
      - intros X. destruct (next d =? k) eqn:Q; [apply Z.eqb_eq in Q; exfalso; apply X; left; symmetry; exact Q|].
        rewrite IH; [reflexivity|]. intros Y. apply X. right. exact Y. }
    cbn [setObjs used objs next total]. rewrite R3. unfold setObjs. cbn [used objs next total]. rewrite T1.
    destruct (inv_replace d i o p (next d1) (used d1) I L Wp ltac:(lia)) as (A & B).
    + intros v Hv. apply V1. exact Hv.
    + right. rewrite Cp. intros y [<- | []]. lia.
    + split; [exact A|]. rewrite B, U1.
      assert (Z0 : usage o = 0).
      { unfold wf in W. rewrite K in W. destruct W as (a & b & x & e & f & g & Eo & _ & _ & _ & _ & _ & _ & _ & X). apply X.
        unfold couplingId in Cd. rewrite K, Eo in Cd. cbn [nth] in Cd. destruct (0 <=? vId b) eqn:P; [discriminate|lia]. }
      lia.
Qed.

Lemma inv0 t : Inv (device0 t).
Proof. split; cbn; [lia|intros i o []|constructor]. Qed.

Lemma noAssignment_noSharing d o : noAssignment d o = true -> noSharing d o = true.
Proof. unfold noAssignment. intros H. apply andb_prop in H as [H _]. exact H. Qed.

Lemma run_inv ops : forall d d', Inv d -> everyStep noSharing ops d -> run ops d = Ok d' ->
  Inv d' /\ used d - usages (objs d) <= used d' - usages (objs d').
Proof.
  unfold run. induction ops as [|o r IH]; intros d d' I E H; cbn [foldM everyStep] in *.
  - injection H as <-. split; [exact I|lia].
  - destruct E as [E1 E2]. destruct (step d o) as [d1 | |] eqn:S; try discriminate. cbn [bind] in H.
    destruct (step_inv _ _ _ I E1 S) as (I1 & L1 & _). destruct (IH _ _ I1 (E2 _ eq_refl) H) as (I2 & L2). split; [exact I2|lia].
Qed.
Lemma run_balance ops : forall d d', Inv d -> everyStep noAssignment ops d -> run ops d = Ok d' ->
  Inv d' /\ used d - usages (objs d) = used d' - usages (objs d').
Proof.
  unfold run. induction ops as [|o r IH]; intros d d' I E H; cbn [foldM everyStep] in *.
  - injection H as <-. split; [exact I|lia].
  - destruct E as [E1 E2]. destruct (step d o) as [d1 | |] eqn:S; try discriminate. cbn [bind] in H.
    destruct (step_inv _ _ _ I (noAssignment_noSharing _ _ E1) S) as (I1 & _ & L1). specialize (L1 E1).
    destruct (IH _ _ I1 (E2 _ eq_refl) H) as (I2 & L2). split; [exact I2|lia].
Qed.

Lemma held_sum l vs : (forall v, In v vs -> nn v) -> NoDup l -> incl l vs -> zsum (map viewBytes l) <= zsum (map viewBytes vs).
Proof.
  revert vs. induction l as [|v l IH]; intros vs P N H.
  - cbn. clear H. induction vs as [|w vs IH]; cbn; [lia|]. assert (Q := P w (or_introl eq_refl)). destruct Q as [Q1 Q2].
    assert (0 <= viewBytes w) by (unfold viewBytes; apply Z.mul_nonneg_nonneg; assumption).
    assert (0 <= zsum (map viewBytes vs)); [|unfold zsum in *; cbn [map fold_right] in *; lia]. apply IH. intros u Hu. apply P. right. exact Hu.
  - inversion N as [|? ? N1 N2]; subst. destruct (in_split v vs (H v (or_introl eq_refl))) as (a & b & ->).
    assert (X : zsum (map viewBytes l) <= zsum (map viewBytes (a ++ b))).
    { apply IH; [intros u Hu; apply P; apply in_app_or in Hu as [Hu | Hu]; apply in_or_app; [left|right; right]; exact Hu|exact N2|].
      intros u Hu. assert (Y := H u (or_intror Hu)). apply in_app_or in Y as [Y | [Y | Y]]; [apply in_or_app; left; exact Y|subst; contradiction|apply in_or_app; right; exact Y]. }
    rewrite map_app, zsum_app in *. cbn [map]. unfold zsum in *; cbn [fold_right] in *. lia.
Qed.

Lemma objects_bytes l : (forall i o, In (i, o) l -> wf o) -> zsum (map viewBytes (flat_map (fun p => oViews (snd p)) l)) <= usages l.
Proof.
  induction l as [|[i o] r IH]; intros H; [cbn; lia|]. cbn [flat_map snd]. rewrite map_app, zsum_app, usages_cons.
  assert (A := wf_usage _ (H i o (or_introl eq_refl))). assert (B : forall j p, In (j, p) r -> wf p) by (intros j p Hj; apply (H j); right; exact Hj).
  specialize (IH B). lia.
Qed.
