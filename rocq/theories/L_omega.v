(** Lemmas on the representations of the collision matrix. *)
From Coq Require Import Reals Permutation.
From Verif Require Import Base BaseLemmas M_mpi M_points S_points M_irreducible M_matrix S_matrix L_fill L_irreducible L_matrix M_vbte L_vbte M_scattering S_scattering L_scattering L_scattering2 M_omega S_omega.
From Coq Require Import Lra.
Open Scope Z_scope.

Lemma own_iff L p r c : validLayout L -> isProcess L p -> (In (r, c) (getAllLocalStates L p) <-> inMatrix L r c /\ indicesAreLocal L p r c = true).
Proof. intros HL Hp. exact (local_iff (fun _ => Qcanon.Q2Qc (QArith_base.Qmake 0 1)) false L HL p r c Hp). Qed.
Section Omega.
Variables (sym : bool) (excl : list Z) (pop : Z -> R).
Lemma omegaStep_elem st t r c : snd (omegaStep sym excl pop st t) r c =
  if (r =? fst t) && (c =? snd t) && negb (isIn excl (fst (ofMat sym r))) && negb (isIn excl (fst (ofMat sym c)))
  then (snd st r c / sqrt (pop (fst (ofMat sym r)) * pop (fst (ofMat sym c))))%R else snd st r c.
Proof.
  destruct st as [d M]. unfold omegaStep. cbn [fst snd]. destruct (r =? fst t) eqn:E1, (c =? snd t) eqn:E2; cbn [andb].
  - assert (fst t = r) as -> by lia. assert (snd t = c) as -> by lia. destruct (isIn excl (fst (ofMat sym r))), (isIn excl (fst (ofMat sym c))); cbn [negb andb snd]; try reflexivity. rewrite !Z.eqb_refl. reflexivity.
  - destruct (isIn excl (fst (ofMat sym (fst t)))), (isIn excl (fst (ofMat sym (snd t)))); cbn [snd]; rewrite ?E1, ?E2; reflexivity.
  - destruct (isIn excl (fst (ofMat sym (fst t)))), (isIn excl (fst (ofMat sym (snd t)))); cbn [snd]; rewrite ?E1, ?E2; reflexivity.
  - destruct (isIn excl (fst (ofMat sym (fst t)))), (isIn excl (fst (ofMat sym (snd t)))); cbn [snd]; rewrite ?E1, ?E2; reflexivity.
Qed.
Lemma omega_elem es : NoDup es -> forall st r c, snd (fold_left (omegaStep sym excl pop) es st) r c =
  if existsb (fun t => (r =? fst t) && (c =? snd t)) es && negb (isIn excl (fst (ofMat sym r))) && negb (isIn excl (fst (ofMat sym c)))
  then (snd st r c / sqrt (pop (fst (ofMat sym r)) * pop (fst (ofMat sym c))))%R else snd st r c.
Proof.
  induction 1 as [|t es Hn Nd IH]; intros st r c; [reflexivity|]. cbn [fold_left existsb]. rewrite IH, omegaStep_elem.
  destruct (existsb _ es) eqn:X.
  - apply existsb_exists in X as ([r' c'] & Hin & E). cbn [fst snd] in E. assert (r' = r /\ c' = c) as [-> ->] by lia.
    replace ((r =? fst t) && (c =? snd t)) with false; [cbn [orb andb]; reflexivity|]. symmetry. apply not_true_is_false. intro C. apply Hn. destruct t as [a b]. cbn [fst snd] in C. replace a with r by lia. replace b with c by lia. exact Hin.
  - rewrite orb_false_r. reflexivity.
Qed.
Lemma omega_diag es : forall st b, isIn excl b = false -> fst (fold_left (omegaStep sym excl pop) es st) b =
  (fst st b / pop b ^ length (filter (fun t => (fst (ofMat sym (fst t)) =? b) && (fst (ofMat sym (snd t)) =? b)%Z) es))%R.
Proof.
  induction es as [|t es IH]; intros st b X; [cbn [fold_left filter length pow]; unfold Rdiv; rewrite Rinv_1; ring|]. cbn [fold_left filter]. rewrite IH by exact X. destruct st as [d M]. unfold omegaStep. cbn [fst snd].
  destruct (fst (ofMat sym (fst t)) =? b) eqn:E1, (fst (ofMat sym (snd t)) =? b) eqn:E2; cbn [andb].
  - assert (fst (ofMat sym (fst t)) = b) as -> by lia. assert (fst (ofMat sym (snd t)) = b) as -> by lia. rewrite X, !Z.eqb_refl. cbn [fst length pow]. unfold Rdiv. rewrite Rinv_mult. rewrite Z.eqb_refl. ring.
  - destruct (isIn excl (fst (ofMat sym (fst t)))), (isIn excl (fst (ofMat sym (snd t)))); cbn [fst]; try reflexivity. destruct (fst (ofMat sym (fst t)) =? fst (ofMat sym (snd t))) eqn:E3; [lia|reflexivity].
  - destruct (isIn excl (fst (ofMat sym (fst t)))), (isIn excl (fst (ofMat sym (snd t)))); cbn [fst]; try reflexivity. destruct (fst (ofMat sym (fst t)) =? fst (ofMat sym (snd t))) eqn:E3; [lia|reflexivity].
  - destruct (isIn excl (fst (ofMat sym (fst t)))), (isIn excl (fst (ofMat sym (snd t)))); cbn [fst]; try reflexivity. destruct (fst (ofMat sym (fst t)) =? fst (ofMat sym (snd t))) eqn:E3; [|reflexivity]. replace (b =? fst (ofMat sym (fst t))) with false by lia. reflexivity.
Qed.
Lemma omega_diag_excluded es : forall st b, isIn excl b = true -> fst (fold_left (omegaStep sym excl pop) es st) b = fst st b.
Proof.
  induction es as [|t es IH]; intros st b X; [reflexivity|]. cbn [fold_left]. rewrite IH by exact X. destruct st as [d M]. unfold omegaStep. cbn [fst snd].
  destruct (isIn excl (fst (ofMat sym (fst t)))) eqn:E1; [reflexivity|]. destruct (isIn excl (fst (ofMat sym (snd t)))); [reflexivity|]. cbn [fst]. destruct (fst (ofMat sym (fst t)) =? fst (ofMat sym (snd t))); [|reflexivity]. destruct (b =? fst (ofMat sym (fst t))) eqn:E3; [|reflexivity]. exfalso. assert (b = fst (ofMat sym (fst t))) by lia. congruence.
Qed.
Variables (L : layout) (HL : validLayout L) (elems : Z * Z -> list (Z * Z)) (He : ownElements L elems).
Lemma elems_NoDup p : isProcess L p -> NoDup (elems p).
Proof. intro Hp. apply (Permutation_NoDup (Permutation_sym (He p Hp))). apply states_NoDup; assumption. Qed.
Lemma a2Omega_elem S p r c : smOmega S = false -> isProcess L p -> inMatrix L r c -> smPart (a2Omega sym excl pop elems S) p r c =
  if indicesAreLocal L p r c && negb (isIn excl (fst (ofMat sym r))) && negb (isIn excl (fst (ofMat sym c)))
  then (smPart S p r c / sqrt (pop (fst (ofMat sym r)) * pop (fst (ofMat sym c))))%R else smPart S p r c.
Proof.
  intros HS Hp Hin. unfold a2Omega. rewrite HS. cbn [smPart]. rewrite omega_elem by (apply elems_NoDup; exact Hp). cbn [snd].
  replace (existsb (fun t => (r =? fst t) && (c =? snd t)) (elems p)) with (indicesAreLocal L p r c); [reflexivity|].
  destruct (indicesAreLocal L p r c) eqn:O.
  - symmetry. apply existsb_exists. exists (r, c). cbn [fst snd]. rewrite !Z.eqb_refl. split; [|reflexivity]. apply (Permutation_in _ (Permutation_sym (He p Hp))). apply own_iff; auto.
  - symmetry. apply not_true_is_false. intro X. apply existsb_exists in X as ([r' c'] & Hi & E). cbn [fst snd] in E. assert (r' = r /\ c' = c) as [-> ->] by lia.
    apply (Permutation_in _ (He p Hp)) in Hi. apply own_iff in Hi as [_ O']; [congruence|assumption|assumption].
Qed.
Lemma filter_perm_length {A} (f : A -> bool) l l' : Permutation l l' -> length (filter f l) = length (filter f l').
Proof. induction 1; cbn [filter]; try (destruct (f x)); try (destruct (f y)); cbn [length]; congruence. Qed.
Lemma a2Omega_diag S p b : smOmega S = false -> isProcess L p -> isIn excl b = false -> smDiag (a2Omega sym excl pop elems S) p b = (smDiag S p b / pop b ^ blockElements sym L p b)%R.
Proof. intros HS Hp X. unfold a2Omega. rewrite HS. cbn [smDiag]. rewrite omega_diag by exact X. cbn [fst]. unfold blockElements. rewrite (filter_perm_length _ _ _ (He p Hp)). reflexivity. Qed.
Lemma a2Omega_diag_excluded S p b : isIn excl b = true -> smDiag (a2Omega sym excl pop elems S) p b = smDiag S p b.
Proof. intro X. unfold a2Omega. destruct (smOmega S); [reflexivity|]. cbn [smDiag]. rewrite omega_diag_excluded by exact X. reflexivity. Qed.
End Omega.

Section Replace.
Variables (sym : bool) (n : Z) (L : layout) (d : Z -> R) (p : Z * Z).
Definition wr (M : Z -> Z -> R) (r c : Z) (f : R -> R) : Z -> Z -> R :=
  fun r' c' => if (r' =? r) && (c' =? c) && indicesAreLocal L p r c then f (M r' c') else M r' c'.
Lemma wr_eq M r c f r' c' : wr M r c f r' c' = if (r' =? r) && (c' =? c) && indicesAreLocal L p r' c' then f (M r' c') else M r' c'.
Proof. unfold wr. destruct (r' =? r) eqn:E1, (c' =? c) eqn:E2; cbn [andb]; try reflexivity. assert (r' = r) as -> by lia. assert (c' = c) as -> by lia. reflexivity. Qed.
Lemma replace_gen (g : (Z -> Z -> R) -> Z -> Z -> Z -> R) (v : Z -> R) r c br bc :
  (forall M b, g M b r c = if indicesAreLocal L p r c && (br =? b) && (bc =? b) then v b else M r c) ->
  forall l M, NoDup l -> fold_left (fun M b r c => g M b r c) l M r c = if indicesAreLocal L p r c && (br =? bc) && existsb (Z.eqb br) l then v br else M r c.
Proof.
  intros H l. induction l as [|b l IH]; intros M Nd; [rewrite andb_false_r; reflexivity|]. inversion Nd as [|? ? Hn Nd']; subst. cbn [fold_left existsb]. rewrite IH by exact Nd'. rewrite H.
  destruct (indicesAreLocal L p r c); cbn [andb]; [|reflexivity]. destruct (br =? b) eqn:E1; cbn [andb orb].
  - assert (br = b) as -> by lia. rewrite (Z.eqb_sym bc b). destruct (b =? bc); cbn [andb]; [destruct (existsb (Z.eqb b) l); reflexivity|reflexivity].
  - destruct (br =? bc); cbn [andb]; reflexivity.
Qed.
Lemma block_sym M b br i bc j : 0 <= i < 3 -> 0 <= j < 3 ->
  fold_left (fun M i => let M := fold_left (fun M j => wr M (toMat true b i) (toMat true b j) (fun _ => 0%R)) three M in
    wr M (toMat true b i) (toMat true b i) (fun x => x + d b)%R) three M (toMat true br i) (toMat true bc j) =
  if indicesAreLocal L p (toMat true br i) (toMat true bc j) && (br =? b) && (bc =? b) then if i =? j then d b else 0%R else M (toMat true br i) (toMat true bc j).
Proof.
  intros Hi Hj. unfold three. cbn [fold_left]. rewrite !wr_eq. rewrite !toMat_eqb by (lia || discriminate).
  set (o := indicesAreLocal L p (toMat true br i) (toMat true bc j)). clearbody o. set (m := M (toMat true br i) (toMat true bc j)). clearbody m.
  assert (Ci : i = 0 \/ i = 1 \/ i = 2) by lia. assert (Cj : j = 0 \/ j = 1 \/ j = 2) by lia.
  destruct o, (br =? b), (bc =? b); cbn [andb]; rewrite ?andb_false_r; cbn [andb]; try reflexivity;
  destruct Ci as [->|[->| ->]], Cj as [->|[->| ->]]; cbn [Z.eqb Pos.eqb andb]; ring.
Qed.
Lemma replace_elem M r c : 0 <= r < matSize sym n -> 0 <= c < matSize sym n -> replaceDiagonal sym n L d p M r c =
  if indicesAreLocal L p r c && (fst (ofMat sym r) =? fst (ofMat sym c)) then if snd (ofMat sym r) =? snd (ofMat sym c) then d (fst (ofMat sym r)) else 0%R else M r c.
Proof.
  intros Hr Hc. unfold replaceDiagonal. fold wr. destruct (ofMat_range sym n r Hr) as (R1 & R2 & R3). destruct (ofMat_range sym n c Hc) as (C1 & C2 & C3).
  assert (Ex : existsb (Z.eqb (fst (ofMat sym r))) (zrange 0 n) = true) by (apply existsb_exists; exists (fst (ofMat sym r)); split; [apply in_zrange; lia|lia]).
  destruct sym.
  - etransitivity; [apply (replace_gen (fun M b => fold_left (fun M i => let M := fold_left (fun M j => wr M (toMat true b i) (toMat true b j) (fun _ => 0%R)) three M in wr M (toMat true b i) (toMat true b i) (fun x => x + d b)%R) three M)
      (fun b => if snd (ofMat true r) =? snd (ofMat true c) then d b else 0%R) r c (fst (ofMat true r)) (fst (ofMat true c)))|].
    + intros M0 b. pose proof (block_sym M0 b (fst (ofMat true r)) (snd (ofMat true r)) (fst (ofMat true c)) (snd (ofMat true c)) R2 C2) as K. rewrite !(toMat_ofMat true) in K. exact K.
    + apply NoDup_zrange.
    + rewrite Ex, andb_true_r. reflexivity.
  - etransitivity; [apply (replace_gen (fun M b => wr M b b (fun _ => d b)) d r c (fst (ofMat false r)) (fst (ofMat false c)))|].
    + intros M0 b. rewrite wr_eq. cbn [ofMat fst]. destruct (r =? b), (c =? b), (indicesAreLocal L p r c); reflexivity.
    + apply NoDup_zrange.
    + rewrite Ex, andb_true_r. cbn [ofMat fst snd]. rewrite Z.eqb_refl. reflexivity.
Qed.
End Replace.

Lemma filter_none {A} (l : list A) : filter (fun _ => false) l = [].
Proof. induction l; [reflexivity|exact IHl]. Qed.
Lemma filter_single {A} (f : A -> bool) l a : NoDup l -> In a l -> (forall x, In x l -> f x = true -> x = a) -> f a = true -> length (filter f l) = 1%nat.
Proof.
  induction l as [|x l IH]; intros Nd Ha Hu Hf; [destruct Ha|]. inversion Nd as [|? ? Hn Nd']; subst. cbn [filter]. destruct Ha as [->|Ha].
  - rewrite Hf. cbn [length]. f_equal. replace (filter f l) with (@nil A); [reflexivity|]. symmetry. rewrite <- (filter_none l). apply filter_ext_in. intros y Hy. destruct (f y) eqn:E; [|reflexivity]. exfalso. apply Hn. rewrite <- (Hu y (or_intror Hy) E). exact Hy.
  - destruct (f x) eqn:E; [exfalso; apply Hn; rewrite (Hu x (or_introl eq_refl) E); exact Ha|]. apply IH; try assumption. intros y Hy. apply Hu. right. exact Hy.
Qed.
Lemma blockElements_owner L p b : validLayout L -> isProcess L p -> inMatrix L b b -> indicesAreLocal L p b b = true -> blockElements false L p b = 1%nat.
Proof.
  intros HL Hp Hin E. unfold blockElements. apply (filter_single _ _ (b, b)).
  - apply states_NoDup; assumption.
  - apply own_iff; auto.
  - intros [r c] _ Hf. cbn [fst snd ofMat] in Hf. f_equal; lia.
  - cbn [fst snd ofMat]. rewrite Z.eqb_refl. reflexivity.
Qed.
