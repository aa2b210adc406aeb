(** Lemmas on the selection of bands. *)
From Coq Require Import QArith Sorted.
From Verif Require Import Base BaseLemmas L_mpi M_fourier S_fourier.
From Coq Require Import Lia Lqa.
Open Scope Z_scope.

Lemma inWindow_iff lo hi x : inWindow lo hi x = true <-> (lo <= x <= hi)%Q.
Proof. unfold inWindow. rewrite Bool.andb_true_iff, !Qle_bool_iff. reflexivity. Qed.
Lemma touches_iff lo hi b : existsb (inWindow lo hi) b = true <-> touches lo hi b.
Proof. rewrite existsb_exists. split; intros (x & H & W); exists x; (split; [exact H|]); apply inWindow_iff; exact W. Qed.
Definition keepB (coarse : list (list Q)) (lo hi : Q) (ib : Z) : bool := match zget coarse ib with Some b => existsb (inWindow lo hi) b | None => false end.
Lemma concat_filter (p : Z -> bool) l : concat (map (fun i => if p i then [i] else []) l) = filter p l.
Proof. induction l as [|x l IH]; [reflexivity|]. cbn [map concat filter]. rewrite IH. destruct (p x); reflexivity. Qed.
Lemma zget_some {A} (l : list A) i : 0 <= i < zlen l -> exists x, zget l i = Some x.
Proof. intro H. unfold zget, zlen in *. destruct (Z.ltb_spec i 0); [lia|]. destruct (nth_error l (Z.to_nat i)) eqn:E; [eexists; reflexivity|]. apply nth_error_None in E. lia. Qed.
Lemma retain_eq coarse lo hi nB : nB <= zlen coarse -> retainBands coarse lo hi nB = Ok (filter (keepB coarse lo hi) (zrange 0 nB)).
Proof.
  intro H. unfold retainBands. rewrite (mapM_ok _ (fun ib => if keepB coarse lo hi ib then [ib] else [])).
  - cbn [bind]. rewrite concat_filter. reflexivity.
  - intros ib Hi. apply in_zrange in Hi. destruct (zget_some coarse ib) as (b & E); [lia|]. unfold keepB. rewrite E. reflexivity.
Qed.
Lemma rows_ok {Row} (rows : list Row) keep : (forall ib, In ib keep -> 0 <= ib < zlen rows) ->
  exists out, mapM (fun ib => match zget rows ib with None => UB | Some r => Ok r end) keep = Ok out /\ Forall2 (fun ib r => zget rows ib = Some r) keep out.
Proof.
  induction keep as [|ib keep IH]; intro H; [exists []; split; [reflexivity|constructor]|]. destruct IH as (out & E & F); [intros; apply H; right; assumption|].
  destruct (zget_some rows ib) as (r & Er); [apply H; left; reflexivity|]. exists (r :: out). cbn [mapM]. rewrite Er. cbn [bind]. rewrite E. split; [reflexivity|constructor; assumption].
Qed.
Lemma zrange_sorted a n : StronglySorted Z.lt (zrange a n).
Proof.
  unfold zrange. generalize 0%nat as s. induction (Z.to_nat n) as [|m IH]; intro s; cbn [seq map]; constructor; [apply IH|]. apply Forall_forall. intros x Hx. apply in_map_iff in Hx as (y & <- & Hy). apply in_seq in Hy. lia.
Qed.
Lemma filter_sorted (p : Z -> bool) l : StronglySorted Z.lt l -> StronglySorted Z.lt (filter p l).
Proof. induction 1 as [|x l S IH F]; cbn [filter]; [constructor|]. destruct (p x); [|exact IH]. constructor; [exact IH|]. apply Forall_forall. intros y Hy. apply filter_In in Hy as (Hy & _). rewrite Forall_forall in F. apply F, Hy. Qed.

Lemma trim_ok {Row} (coarse : list (list Q)) so lo hi (f : fourierBands Row) : fNumBands f = zlen coarse -> fNumBands f = zlen (fRows f) ->
  (exists ib b, zget coarse ib = Some b /\ touches lo hi b) ->
  exists f' keep first, trimBands coarse so lo hi f = Ok f' /\ StronglySorted Z.lt keep /\ zget keep 0 = Some first /\
    (forall ib, In ib keep <-> exists b, zget coarse ib = Some b /\ touches lo hi b) /\
    fNumBands f' = zlen keep /\ Forall2 (fun ib r => zget (fRows f) ib = Some r) keep (fRows f') /\
    fOccupied f' = (fOccupied f - inject_Z first * (if so then 1 else 2))%Q.
Proof.
  intros Hn Hr (i0 & b0 & E0 & T0). set (keep := filter (keepB coarse lo hi) (zrange 0 (fNumBands f))).
  assert (K : forall ib, In ib keep <-> exists b, zget coarse ib = Some b /\ touches lo hi b).
  { intro ib. unfold keep. rewrite filter_In, in_zrange. unfold keepB. split.
    - intros (_ & H). destruct (zget coarse ib) as [b|]; [|discriminate]. exists b. split; [reflexivity|apply touches_iff, H].
    - intros (b & E & T). rewrite E. split; [|apply touches_iff, T]. unfold zget, zlen in *. destruct (Z.ltb_spec ib 0); [discriminate|]. assert (nth_error coarse (Z.to_nat ib) <> None) by congruence. apply nth_error_Some in H0. lia. }
  destruct (rows_ok (fRows f) keep) as (rows & Er & F). { intros ib Hi. unfold keep in Hi. apply filter_In in Hi as (Hi & _). apply in_zrange in Hi. lia. }
  assert (Hk : In i0 keep) by (apply K; exists b0; split; assumption). destruct keep as [|first r] eqn:Ek; [destruct Hk|].
  exists {| fNumBands := zlen (first :: r); fRows := rows; fOccupied := (fOccupied f - inject_Z first * (if so then 1 else 2))%Q |}, (first :: r), first.
  split; [|split; [|split; [|split; [exact K|split; [reflexivity|split; [exact F|reflexivity]]]]]].
  - unfold trimBands. rewrite retain_eq by lia. fold keep. rewrite Ek. cbn [bind]. rewrite Er. cbn [bind]. destruct so; reflexivity.
  - rewrite <- Ek. apply filter_sorted, zrange_sorted.
  - reflexivity.
Qed.
Lemma trim_none {Row} (coarse : list (list Q)) so lo hi (f : fourierBands Row) : fNumBands f = zlen coarse ->
  (forall ib b, zget coarse ib = Some b -> ~ touches lo hi b) -> trimBands coarse so lo hi f = UB.
Proof.
  intros Hn H. unfold trimBands. rewrite retain_eq by lia. cbn [bind]. replace (filter (keepB coarse lo hi) (zrange 0 (fNumBands f))) with (@nil Z); [reflexivity|]. symmetry. apply filter_none.
  intros ib _. unfold keepB. destruct (zget coarse ib) as [b|] eqn:E; [|reflexivity]. destruct (existsb _ b) eqn:X; [|reflexivity]. apply touches_iff in X. exfalso. exact (H ib b E X).
Qed.
Lemma below_iff lo b : below lo b = true <-> forall x, In x b -> (x < lo)%Q.
Proof. unfold below. rewrite forallb_forall. split; intros H x Hx; specialize (H x Hx). - apply Bool.negb_true_iff in H. apply Qnot_le_lt. intro L. apply Qle_bool_iff in L. congruence. - apply Bool.negb_true_iff. destruct (Qle_bool lo x) eqn:E; [|reflexivity]. apply Qle_bool_iff in E. exfalso. apply (Qlt_not_le _ _ H E). Qed.
Lemma above_iff hi b : above hi b = true <-> forall x, In x b -> (hi < x)%Q.
Proof. unfold above. rewrite forallb_forall. split; intros H x Hx; specialize (H x Hx). - apply Bool.negb_true_iff in H. apply Qnot_le_lt. intro L. apply Qle_bool_iff in L. congruence. - apply Bool.negb_true_iff. destruct (Qle_bool x hi) eqn:E; [|reflexivity]. apply Qle_bool_iff in E. exfalso. apply (Qlt_not_le _ _ H E). Qed.
Lemma zget_zlen {A} (l : list A) i x : zget l i = Some x -> 0 <= i < zlen l.
Proof. unfold zget, zlen. destruct (Z.ltb_spec i 0); [discriminate|]. intro E. assert (nth_error l (Z.to_nat i) <> None) by congruence. apply nth_error_Some in H0. lia. Qed.
Lemma zget_nth {A} (l : list A) i x d : zget l i = Some x -> nth (Z.to_nat i) l d = x.
Proof. unfold zget. destruct (Z.ltb_spec i 0); [discriminate|]. intro E. exact (nth_error_nth _ _ _ E). Qed.
(** the first retained band comes after all the bands below the window *)
Lemma count_prefix (p : list Q -> bool) l first : 0 <= first <= zlen l -> (forall i b, zget l i = Some b -> p b = true <-> i < first) -> zlen (filter p l) = first.
Proof.
  revert first. induction l as [|b l IH]; intros first Hf H; [unfold zlen in *; cbn in *; lia|]. cbn [filter]. assert (H0 := H 0 b eq_refl).
  assert (Sh : forall i c, zget l i = Some c -> zget (b :: l) (i + 1) = Some c). { intros i c E. assert (B := zget_zlen _ _ _ E). unfold zget in *. destruct (Z.ltb_spec i 0); [lia|]. destruct (Z.ltb_spec (i + 1) 0); [lia|]. replace (Z.to_nat (i + 1)) with (S (Z.to_nat i)) by lia. exact E. }
  destruct (p b) eqn:Eb.
  - assert (0 < first) by (apply H0; reflexivity). replace (zlen (b :: filter p l)) with (zlen (filter p l) + 1) by (unfold zlen; cbn [length]; lia). rewrite (IH (first - 1)); [lia|unfold zlen in *; cbn [length] in Hf; lia|]. intros i c E. rewrite (H (i + 1) c (Sh i c E)). lia.
  - assert (first = 0). { destruct (Z.eq_dec first 0) as [|N]; [assumption|]. assert (false = true) by (apply H0; lia). discriminate. } subst first. apply IH; [unfold zlen; lia|]. intros i c E. rewrite (H (i + 1) c (Sh i c E)). assert (B := zget_zlen _ _ _ E). lia.
Qed.
Lemma electrons {Row} (coarse : list (list Q)) so lo hi (f f' : fourierBands Row) n : fNumBands f = zlen coarse -> fNumBands f = zlen (fRows f) -> ordered n coarse ->
  (forall ib b, zget coarse ib = Some b -> touches lo hi b \/ below lo b = true \/ above hi b = true) ->
  trimBands coarse so lo hi f = Ok f' -> fOccupied f' = (fOccupied f - inject_Z (zlen (filter (below lo) coarse)) * (if so then 1 else 2))%Q.
Proof.
  intros Hn Hr (Hl & Ho) Hb E. destruct (Forall_Exists_dec (fun b => ~ touches lo hi b)) with (l := coarse) as [A|A].
  { intro b. destruct (existsb (inWindow lo hi) b) eqn:X; [right; intro N; apply N, touches_iff, X|left; intro T; apply touches_iff in T; congruence]. }
  { rewrite (trim_none coarse so lo hi f Hn) in E; [discriminate|]. intros ib b Eb. rewrite Forall_forall in A. apply A. unfold zget in Eb. destruct (ib <? 0); [discriminate|]. eapply nth_error_In. exact Eb. }
  assert (T : exists ib b, zget coarse ib = Some b /\ touches lo hi b).
  { apply Exists_exists in A as (b & Ib & Nb). apply In_nth_error in Ib as (k & Ek). exists (Z.of_nat k), b. split; [unfold zget; destruct (Z.ltb_spec (Z.of_nat k) 0); [lia|]; rewrite Nat2Z.id; exact Ek|].
    apply touches_iff. destruct (existsb (inWindow lo hi) b) eqn:X; [reflexivity|]. exfalso. apply Nb. intro T. apply touches_iff in T. congruence. }
  destruct (trim_ok coarse so lo hi f Hn Hr T) as (f2 & keep & first & E2 & Sk & Ef & K & _ & _ & Oc). rewrite E in E2. injection E2 as <-. rewrite Oc. do 2 f_equal. 
  assert (Kf : In first keep) by (unfold zget in Ef; destruct (0 <? 0); [discriminate|]; eapply nth_error_In; exact Ef). apply K in Kf as (bf & Ebf & Tf). assert (Bf := zget_zlen _ _ _ Ebf). f_equal. f_equal. symmetry. apply count_prefix; [lia|].
  assert (Least : forall i, In i keep -> first <= i). { intros i Hi. destruct keep as [|k0 r]; [destruct Hi|]. assert (k0 = first) by (cbn in Ef; congruence). subst k0. destruct Hi as [->|Hi]; [lia|]. inversion Sk as [|? ? _ Fr]; subst. rewrite Forall_forall in Fr. specialize (Fr i Hi). lia. }
  assert (Len : forall i b, zget coarse i = Some b -> length b = n). { intros i b Eb. rewrite Forall_forall in Hl. apply Hl. unfold zget in Eb. destruct (i <? 0); [discriminate|]. eapply nth_error_In. exact Eb. }
  destruct Tf as (x & Ix & Wx). apply In_nth with (d := 0%Q) in Ix as (p & Hp & Ep). rewrite (Len first bf Ebf) in Hp.
  intros i b Eb. assert (Bi := zget_zlen _ _ _ Eb). rewrite below_iff. split.
  - intro Bl. destruct (Z.lt_ge_cases i first) as [L|L]; [exact L|]. exfalso. specialize (Ho first i bf b p ltac:(lia) L Ebf Eb Hp). specialize (Bl (nth p b 0%Q) ltac:(apply nth_In; rewrite (Len i b Eb); exact Hp)). rewrite Ep in Ho. lra.
  - intro L. destruct (Hb i b Eb) as [Tb|[Bl|Ab]].
    + exfalso. assert (In i keep) by (apply K; exists b; split; assumption). specialize (Least i H). lia.
    + apply below_iff. exact Bl.
    + exfalso. specialize (Ho i first b bf p ltac:(lia) ltac:(lia) Eb Ebf Hp). rewrite above_iff in Ab. specialize (Ab (nth p b 0%Q) ltac:(apply nth_In; rewrite (Len i b Eb); exact Hp)). rewrite Ep in Ho. lra.
Qed.
