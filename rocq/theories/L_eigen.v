(** Lemmas for P_eigen. *)
From Coq Require Import QArith Sorting.Sorted.
From Verif Require Import Base BaseLemmas M_matrix L_pmatrix M_eigen S_eigen.
Open Scope Z_scope.

Lemma readAt_in w i x : zget w i = Some x -> readAt w i = Ok x.
Proof. intros H. unfold readAt. rewrite H. reflexivity. Qed.

Lemma read_all w pre : mapM (readAt (pre ++ w)) (zrange (zlen pre) (zlen w)) = Ok w.
Proof.
  revert pre. induction w as [|x w IH]; intros pre; [reflexivity|].
  assert (N := zlen_nonneg w). rewrite zlen_cons, zrange_cons by lia. cbn [mapM].
  rewrite (readAt_in _ _ x). 2:{ rewrite zget_app2, Z.sub_diag by lia. reflexivity. }
  cbn [bind]. replace (1 + zlen w - 1) with (zlen w) by lia.
  specialize (IH (pre ++ [x])). rewrite <- app_assoc in IH. cbn [List.app] in IH.
  replace (zlen (pre ++ [x])) with (zlen pre + 1) in IH by (rewrite zlen_app, zlen_cons; cbn; lia). rewrite IH. reflexivity.
Qed.

Lemma read_first w rest : mapM (readAt (w ++ rest)) (zrange 0 (zlen w)) = Ok w.
Proof.
  rewrite (L_pmatrix.mapM_all _ (fun i => match zget w i with Some x => x | None => 0%Q end)).
  - f_equal. assert (R := read_all w []). cbn [List.app] in R.
    rewrite (L_pmatrix.mapM_all _ (fun i => match zget w i with Some x => x | None => 0%Q end)) in R.
    + injection R. intros E. exact E.
    + intros i Hi. apply in_zrange in Hi. unfold readAt. destruct (zget w i) eqn:E; [reflexivity|].
      change (zlen []) with 0 in Hi. destruct (zget_inrange w i ltac:(lia)) as [y Hy]. congruence.
  - intros i Hi. apply in_zrange in Hi. unfold readAt. rewrite zget_app1 by lia. destruct (zget w i) eqn:E; [reflexivity|].
    destruct (zget_inrange w i ltac:(lia)) as [y Hy]. congruence.
Qed.

Lemma filter_none (suf : list Q) x : StronglySorted Qle (x :: suf) -> ~ (x <= 0)%Q -> filter (fun y => Qle_bool y 0) (x :: suf) = [].
Proof.
  intros S N. cbn [filter]. destruct (Qle_bool x 0) eqn:E; [apply Qle_bool_iff in E; contradiction|].
  inversion S as [|? ? S' F]; subst. clear S S' E. induction suf as [|y suf IH]; [reflexivity|]. cbn [filter].
  inversion F as [|? ? Y F']; subst. destruct (Qle_bool y 0) eqn:E; [|apply IH; exact F'].
  apply Qle_bool_iff in E. exfalso. apply N. apply (Qle_trans _ y); assumption.
Qed.

Lemma print_ok n suf : suf <> [] -> StronglySorted Qle suf -> forall pre fuel, zlen (pre ++ suf) = n -> (length suf < fuel)%nat ->
  exists l, printNegative (pre ++ suf) n fuel (zlen pre) = Ok l /\ map snd l = filter (fun x => Qle_bool x 0) suf /\ map fst l = zrange (zlen pre) (zlen l).
Proof.
  induction suf as [|x suf IH]; intros NE S pre fuel E F; [contradiction|]. destruct fuel as [|fuel]; [cbn in F; lia|].
  cbn [printNegative]. rewrite (readAt_in _ _ x). 2:{ rewrite zget_app2, Z.sub_diag by lia. reflexivity. }
  cbn [bind]. destruct (Qle_bool x 0) eqn:X.
  - destruct suf as [|y suf].
    + rewrite zlen_app, zlen_cons in E. change (zlen (@nil Q)) with 0 in E. rewrite (proj2 (Z.eqb_eq (zlen pre + 1) n)) by lia.
      eexists. split; [reflexivity|]. cbn [filter map]. rewrite X. split; [reflexivity|]. change (zlen [(zlen pre, x)]) with 1.
      rewrite zrange_cons by lia. reflexivity.
    + assert (N := zlen_nonneg suf). rewrite zlen_app, !zlen_cons in E. rewrite (proj2 (Z.eqb_neq (zlen pre + 1) n)) by lia.
      destruct (IH ltac:(discriminate) ltac:(inversion S; assumption) (pre ++ [x]) fuel) as (l & L1 & L2 & L3).
      { rewrite !zlen_app, !zlen_cons. change (zlen (@nil Q)) with 0. lia. } { cbn in *. lia. }
      rewrite <- app_assoc in L1. cbn [List.app] in L1.
      assert (P1 : zlen (pre ++ [x]) = zlen pre + 1) by (rewrite zlen_app, zlen_cons; cbn; lia). rewrite P1 in *.
      rewrite L1. cbn [bind]. eexists. split; [reflexivity|]. change (filter (fun x0 : Q => Qle_bool x0 0) (x :: y :: suf)) with (if Qle_bool x 0 then x :: filter (fun x0 : Q => Qle_bool x0 0) (y :: suf) else filter (fun x0 : Q => Qle_bool x0 0) (y :: suf)).
      rewrite X. cbn [map snd fst]. rewrite L2, L3. split; [reflexivity|]. rewrite zlen_cons. assert (N2 := zlen_nonneg l). rewrite (zrange_cons (zlen pre)) by lia. f_equal. f_equal; lia.
  - exists []. rewrite filter_none; [repeat split|exact S|]. intros C. apply Qle_bool_iff in C. congruence.
Qed.

Lemma print_all n sp : spectrum n sp -> sp <> [] -> exists l, printNegative sp n (S (Z.to_nat n)) 0 = Ok l /\ listsNonPositive sp l.
Proof.
  intros [E S] NE. destruct (print_ok n sp NE S [] (Datatypes.S (Z.to_nat n)) E) as (l & L1 & L2).
  { rewrite <- E. unfold zlen. rewrite Nat2Z.id. lia. }
  exists l. split; [exact L1|exact L2].
Qed.

Lemma sorted_app (w l : list Q) : StronglySorted Qle (w ++ l) -> forall x y, In x w -> In y l -> (x <= y)%Q.
Proof.
  induction w as [|a w IH]; intros S x y X Y; [destruct X|]. inversion S as [|? ? S' F]; subst. destruct X as [-> | X].
  - rewrite Forall_forall in F. apply F. apply in_or_app. right. exact Y.
  - apply IH; assumption.
Qed.

Lemma first_negative n x sp : spectrum n (x :: sp) -> (exists y, In y (x :: sp) /\ (y < 0)%Q) <-> Qle_bool 0 x = false.
Proof.
  intros [_ S]. split.
  - intros (y & Y & N). destruct (Qle_bool 0 x) eqn:E; [|reflexivity]. apply Qle_bool_iff in E. exfalso. apply (Qlt_irrefl 0).
    apply Qle_lt_trans with y; [|exact N]. apply Qle_trans with x; [exact E|]. destruct Y as [-> | Y]; [apply Qle_refl|].
    inversion S as [|? ? S' F]; subst. rewrite Forall_forall in F. apply F. exact Y.
  - intros E. exists x. split; [left; reflexivity|]. apply Qnot_le_lt. intros C. apply Qle_bool_iff in C. congruence.
Qed.

Lemma ck_ok z : -2147483648 <= z <= 2147483647 -> ck z = Ok z.
Proof. intros H. unfold ck, INT_MIN, INT_MAX. rewrite (proj2 (Z.leb_le _ _)), (proj2 (Z.leb_le _ _)) by lia. reflexivity. Qed.

Lemma all_ok {M} (evdQuery : M -> Z) (evd : M -> outcome M) A n p sp vec : 0 < n -> 0 < p -> 7 * n + 8 * p + 2 <= 2147483647 ->
  -2147483648 <= evdQuery A <= 2147483647 -> spectrum n sp -> computesAll (evd A) sp vec ->
  exists report, diagonalizeAll evdQuery evd n n p p A = Ok (sp, vec n, report) /\
    (report <> None <-> exists x, In x sp /\ (x < 0)%Q) /\ (forall l, report = Some l -> listsNonPositive sp l).
Proof.
  intros Hn Hp W Q S (I & V & Z). unfold diagonalizeAll. rewrite !Z.eqb_refl. cbn [negb]. rewrite !ck_ok by lia. cbn [bind].
  rewrite I, V. change (0 =? 0) with true. cbn [negb].
  assert (L := proj1 S). destruct sp as [|x sp]; [cbn in L; lia|].
  rewrite (readAt_in _ _ x) by reflexivity. cbn [bind].
  assert (R := read_first (x :: sp) []). rewrite app_nil_r, L in R. rewrite R. rewrite L in Z.
  assert (F := first_negative n x sp S). destruct (Qle_bool 0 x) eqn:E; cbn [negb].
  - cbn [bind]. exists None. rewrite Z. split; [reflexivity|]. split; [|discriminate]. rewrite F. split; [congruence|discriminate].
  - destruct (print_all n (x :: sp) S ltac:(discriminate)) as (l & P1 & P2). rewrite P1. cbn [bind]. exists (Some l). rewrite Z. split; [reflexivity|].
    split; [|intros l0 E0; injection E0 as <-; exact P2]. rewrite F. split; [reflexivity|discriminate].
Qed.

Lemma mapM_pair {A B} (f : A -> res B) l r : mapM f l = Ok r -> mapM (fun i => do x <- f i ; Ok (i, x)) l = Ok (combine l r).
Proof.
  revert r. induction l as [|a l IH]; intros r H; cbn [mapM] in *; [injection H as <-; reflexivity|].
  destruct (f a) as [b| |]; try discriminate. cbn [bind] in *. destruct (mapM f l) as [bs| |]; try discriminate. cbn [bind] in *.
  injection H as <-. rewrite (IH bs eq_refl). reflexivity.
Qed.

Lemma check_ok {M} (evr : bool -> selection -> M -> outcome M) A sp vec : computesSome evr A sp vec ->
  exists r, negativeCheck evr A = Ok r /\
    snd r = (if 3 <? zlen (filter nearZero sp) then Some (combine (zrange 0 (zlen (filter nearZero sp))) (filter nearZero sp)) else None).
Proof.
  intros [H _]. destruct (H false (-1)%Q (1 # 10000000000000000)%Q) as (_ & V & F). unfold negativeCheck. rewrite F, V.
  change (filter (fun x => negb (Qle_bool x (-1)) && Qle_bool x (1 # 10000000000000000)) sp) with (filter nearZero sp).
  unfold overwrite. destruct (3 <? zlen (filter nearZero sp)).
  - rewrite (mapM_pair (readAt _) _ _ (read_first (filter nearZero sp) (skipn (length (filter nearZero sp)) []))). eexists. split; reflexivity.
  - eexists. split; reflexivity.
Qed.

Lemma some_ok {M} (evrQuery : M -> Z) (evr : bool -> selection -> M -> outcome M) A n p sp vec k check : 0 < n -> 0 < p -> 0 < k ->
  12 * Z.max (Z.max n (p * p + 1)) 4 + 2 * n <= 2147483647 -> -2147483648 <= evrQuery A <= 2147483647 ->
  spectrum n sp -> computesSome evr A sp vec ->
  exists w, smallest (Z.min k n) sp w /\
   diagonalizeSome evrQuery evr k check n n p p A = Ok (w, vec (Z.min k n),
     if check && (3 <? zlen (filter nearZero sp)) then Some (combine (zrange 0 (zlen (filter nearZero sp))) (filter nearZero sp)) else None).
Proof.
  intros Hn Hp Hk W Q S C. assert (L := proj1 S). unfold diagonalizeSome. rewrite !Z.eqb_refl. cbn [negb].
  replace (if n <? k then n else k) with (Z.min k n) by (destruct (n <? k) eqn:E; lia).
  rewrite !ck_ok by lia. cbn [bind].
  assert (D := proj2 C true (Z.min k n)). cbv zeta in D. rewrite (proj2 (Z.leb_le 1 (Z.min k n))), (proj2 (Z.leb_le (Z.min k n) (zlen sp))) in D by lia. cbn [andb] in D.
  destruct D as (I & (larger & E) & LV & _ & Z). specialize (Z eq_refl).
  set (w := values (evr true (ByIndex 1 (Z.min k n)) A)) in *. exists w. split.
  { split; [exact LV|]. exists larger. split; [exact E|]. apply sorted_app. rewrite <- E. exact (proj2 S). }
  assert (R : forall rest, mapM (readAt (overwrite w rest)) (zrange 0 (Z.min k n)) = Ok w) by (intros rest; rewrite <- LV; apply read_first).
  destruct (check_ok evr A sp vec C) as (r & N1 & N2).
  destruct check; cbn [andb].
  - rewrite N1. cbn [bind]. rewrite I. change (0 =? 0) with true. cbn [negb]. rewrite R. cbn [bind]. rewrite Z, N2. reflexivity.
  - cbn [bind]. rewrite I. change (0 =? 0) with true. cbn [negb]. rewrite R. cbn [bind]. rewrite Z. reflexivity.
Qed.
