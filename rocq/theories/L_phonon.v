From Coq Require Import Reals QArith Qreals Permutation.
From Verif Require Import Base BaseLemmas M_utilities L_utilities M_complex L_complex M_matrix L_matrix M_electron S_electron M_phonon S_phonon.
From Coq Require Import Lia Lra.
Open Scope Z_scope.

Lemma cellIndex_mod n N : 0 < N -> cellIndex n N = n mod N.
Proof.
  intros h. unfold cellIndex. cbv zeta. rewrite modZ_pos by lia. pose proof (Z.mod_pos_bound (n + 1) N h). pose proof (Z.mod_pos_bound n N h).
  pose proof (Z.div_mod n N ltac:(lia)). pose proof (Z.div_mod (n + 1) N ltac:(lia)).
  destruct ((n + 1) mod N <=? 0) eqn:E.
  - assert (N * (n / N - (n + 1) / N + 1) = N - 1 - n mod N) by lia. assert (n / N - (n + 1) / N + 1 = 0) by nia. nia.
  - assert (N * (n / N - (n + 1) / N) = (n + 1) mod N - 1 - n mod N) by lia. assert (n / N - (n + 1) / N = 0) by nia. nia.
Qed.
Lemma mod_opp n N : 0 < N -> (- (n mod N)) mod N = (- n) mod N.
Proof. intros h. rewrite <- !Z.sub_0_l. now rewrite Zminus_mod_idemp_r. Qed.

(** real sums *)
Lemma rsum_cons a l : rsum (a :: l) = (a + rsum l)%R. Proof. reflexivity. Qed.
Lemma rsum_ext {A} (f g : A -> R) l : (forall x, In x l -> f x = g x) -> rsum (map f l) = rsum (map g l).
Proof. intros h. f_equal. apply map_ext_in, h. Qed.
Lemma rsum_mul_l {A} c (f : A -> R) l : rsum (map (fun x => c * f x)%R l) = (c * rsum (map f l))%R.
Proof. induction l; cbn [map]; rewrite ?rsum_cons, ?IHl; cbn; ring. Qed.
Lemma rsum_add {A} (f g : A -> R) l : rsum (map (fun x => f x + g x)%R l) = (rsum (map f l) + rsum (map g l))%R.
Proof. induction l; cbn [map]; rewrite ?rsum_cons, ?IHl; cbn; ring. Qed.
Lemma rsum_zero {A} (f : A -> R) l : (forall x, In x l -> f x = 0%R) -> rsum (map f l) = 0%R.
Proof. induction l; intros h; cbn [map]; [reflexivity|]. rewrite rsum_cons, h by now left. rewrite IHl by (intros; apply h; now right). ring. Qed.
Lemma rsum_swap {A B} (f : A -> B -> R) l m : rsum (map (fun x => rsum (map (f x) m)) l) = rsum (map (fun y => rsum (map (fun x => f x y) l)) m).
Proof.
  induction l; cbn [map]; [symmetry; now apply rsum_zero|]. rewrite rsum_cons, IHl, <- rsum_add. apply rsum_ext. intros. now rewrite rsum_cons.
Qed.
Lemma rsum_filter {A} (p : A -> bool) (f : A -> R) l : rsum (map f (filter p l)) = rsum (map (fun x => if p x then f x else 0%R) l).
Proof. induction l; cbn [filter map]; [reflexivity|]. destruct (p a); cbn [map]; rewrite !rsum_cons, <- IHl; [reflexivity|now rewrite Rplus_0_l]. Qed.
Lemma rsum_perm l m : Permutation l m -> rsum l = rsum m.
Proof. induction 1; rewrite ?rsum_cons; lra. Qed.
Lemma csum_real {A} (f : A -> R) l : csum (map (fun x => (f x, 0%R)) l) = (rsum (map f l), 0%R).
Proof. induction l; cbn [map]; rewrite ?csum_cons, ?IHl; [reflexivity|]. apply cplx_eq; cbn; [reflexivity|ring]. Qed.
Lemma rsum_single {A} (eqb : A -> A -> bool) (f : A -> R) l a :
  (forall x y, eqb x y = true <-> x = y) -> NoDup l -> In a l -> rsum (map (fun x => if eqb x a then f x else 0%R) l) = f a.
Proof.
  intros he hn hi. pose proof (csum_single eqb (fun x => (f x, 0%R)) l a he hn hi) as E. cbv beta in E.
  transitivity (fst (csum (map (fun x => if eqb x a then (f x, 0%R) else c0) l))); [|exact (f_equal fst E)].
  clear. induction l; cbn [map]; [reflexivity|]. rewrite rsum_cons, csum_cons, IHl. destruct (eqb a0 a); reflexivity.
Qed.

(** * weights *)
Definition outside (r : qvec) (l : list qvec) : bool := existsb (fun v => negb (Qle_bool (wsCk r v) wsTol)) l.
Definition border (r : qvec) (l : list qvec) : nat := length (filter (fun v => Qle_bool (Qabs.Qabs (wsCk r v)) wsTol) l).
Lemma wsLoop_val r l k : wsLoop r l k = if outside r l then None else Some (Pos.of_nat (Pos.to_nat k + border r l)).
Proof.
  revert k. induction l as [|v l IH]; intros k; unfold outside, border; cbn [wsLoop existsb filter length].
  - rewrite Nat.add_0_r, Pos2Nat.id. reflexivity.
  - destruct (negb (Qle_bool (wsCk r v) wsTol)); cbn [orb]; [reflexivity|]. rewrite IH. unfold outside, border.
    destruct (existsb _ l); [reflexivity|]. destruct (Qle_bool (Qabs.Qabs (wsCk r v)) wsTol); cbn [length]; [|reflexivity].
    do 2 f_equal. lia.
Qed.
Lemma wsWeight_val r l : wsWeight r l = if outside r l then 0%Q else (1 # Pos.of_nat (1 + border r l)).
Proof. unfold wsWeight. rewrite wsLoop_val. destruct (outside r l); reflexivity. Qed.
Lemma wsWeight_nonneg r l : (0 <= wsWeight r l)%Q.
Proof. rewrite wsWeight_val. destruct (outside r l); unfold Qle; cbn; lia. Qed.
Lemma outside_perm r l m : Permutation l m -> outside r l = outside r m.
Proof.
  intros h. unfold outside. induction h; cbn [existsb]; [reflexivity|now rewrite IHh| |congruence].
  destruct (negb _), (negb _); reflexivity.
Qed.
Lemma filter_perm {A} (p : A -> bool) l m : Permutation l m -> Permutation (filter p l) (filter p m).
Proof.
  induction 1; cbn; [constructor| | |eapply Permutation_trans; eassumption].
  - destruct (p x); [now constructor|assumption].
  - destruct (p x), (p y); try apply Permutation_refl. apply perm_swap.
Qed.
Lemma border_perm r l m : Permutation l m -> border r l = border r m.
Proof. intros h. unfold border. apply Permutation_length, filter_perm, h. Qed.
(** replacing every vector by another one for which the tests give the same results *)
Lemma Qle_bool_compat a b c : (a == b)%Q -> Qle_bool a c = Qle_bool b c.
Proof. intros h. now rewrite h. Qed.
Lemma outside_map r r' (f : qvec -> qvec) l : (forall v, In v l -> (wsCk r' (f v) == wsCk r v)%Q) -> outside r' (map f l) = outside r l.
Proof.
  unfold outside. induction l as [|v l IH]; intros h; [reflexivity|]. cbn [map existsb]. rewrite IH by (intros; apply h; now right).
  now rewrite (Qle_bool_compat _ _ _ (h v (or_introl eq_refl))).
Qed.
Lemma border_map r r' (f : qvec -> qvec) l : (forall v, In v l -> (wsCk r' (f v) == wsCk r v)%Q) -> border r' (map f l) = border r l.
Proof.
  unfold border. induction l as [|v l IH]; intros h; [reflexivity|]. cbn [map filter].
  assert (E : (Qabs.Qabs (wsCk r' (f v)) == Qabs.Qabs (wsCk r v))%Q) by (rewrite (h v (or_introl eq_refl)); reflexivity).
  rewrite (Qle_bool_compat _ _ _ E). destruct (Qle_bool _ _); cbn [length]; rewrite IH by (intros; apply h; now right); reflexivity.
Qed.

(** negation of integer boxes *)
Lemma zrange_opp k : Permutation (map Z.opp (zrange (- k) (2 * k + 1))) (zrange (- k) (2 * k + 1)).
Proof.
  apply NoDup_Permutation; [apply FinFun.Injective_map_NoDup; [intros a b; lia|apply NoDup_zrange]|apply NoDup_zrange|].
  intros x. rewrite in_map_iff, in_zrange. split; [intros (y & <- & h); apply in_zrange in h; lia|]. intros h. exists (- x). rewrite in_zrange. lia.
Qed.
Definition symBox (k1 k2 k3 : Z) : list (Z * Z * Z) :=
  list_prod (list_prod (zrange (- k1) (2 * k1 + 1)) (zrange (- k2) (2 * k2 + 1))) (zrange (- k3) (2 * k3 + 1)).
Lemma in_symBox k1 k2 k3 n1 n2 n3 : In (n1, n2, n3) (symBox k1 k2 k3) <-> - k1 <= n1 <= k1 /\ - k2 <= n2 <= k2 /\ - k3 <= n3 <= k3.
Proof. unfold symBox. rewrite !in_prod_iff, !in_zrange. lia. Qed.
Lemma NoDup_symBox k1 k2 k3 : NoDup (symBox k1 k2 k3).
Proof. unfold symBox. apply NoDup_list_prod; [apply NoDup_list_prod|]; apply NoDup_zrange. Qed.
Lemma symBox_opp k1 k2 k3 : Permutation (map opp3z (symBox k1 k2 k3)) (symBox k1 k2 k3).
Proof.
  apply NoDup_Permutation; [apply FinFun.Injective_map_NoDup; [|apply NoDup_symBox]|apply NoDup_symBox|].
  - intros [[a b] c] [[x y] z] h. cbn in h. injection h as h1 h2 h3. repeat f_equal; lia.
  - intros [[a b] c]. rewrite in_map_iff, in_symBox. split.
    + intros ([[x y] z] & h & hi). cbn in h. injection h as <- <- <-. apply in_symBox in hi. lia.
    + intros h. exists (- a, - b, - c). split; [cbn; now rewrite !Z.opp_involutive|]. apply in_symBox. lia.
Qed.
Lemma csum_symBox k1 k2 k3 f : csum (map f (symBox k1 k2 k3)) = csum (map (fun n => f (opp3z n)) (symBox k1 k2 k3)).
Proof. rewrite <- (map_map opp3z f). apply csum_perm, Permutation_map, Permutation_sym, symBox_opp. Qed.
Lemma cellsBig_sym P : cellsBig P = symBox (2 * grid P 0) (2 * grid P 1) (2 * grid P 2).
Proof.
  unfold cellsBig, bigRange, symBox. replace (2 * (2 * grid P 0)) with (4 * grid P 0) by lia. replace (2 * (2 * grid P 1)) with (4 * grid P 1) by lia.
  replace (2 * (2 * grid P 2)) with (4 * grid P 2) by lia. reflexivity.
Qed.

Definition qopp (v : qvec) : qvec := fun i => (- v i)%Q.
Lemma lin3_opp A n1 n2 n3 i : (lin3 A (- n1) (- n2) (- n3) i == - lin3 A n1 n2 n3 i)%Q.
Proof. unfold lin3. rewrite !inject_Z_opp. ring. Qed.
Definition latt (P : phonon) (t : Z * Z * Z) : qvec := lin3 (superCell P) (fst (fst t)) (snd (fst t)) (snd t).
Lemma latt_opp P t i : (latt P (opp3z t) i == - latt P t i)%Q.
Proof. destruct t as [[a b] c]. apply lin3_opp. Qed.
Lemma isLong_opp P t : isLong (latt P (opp3z t)) = isLong (latt P t).
Proof. unfold isLong. f_equal. apply Qle_bool_compat. unfold qdot. rewrite !latt_opp. ring. Qed.
Lemma rws_opp P : Permutation (map (latt P) (map opp3z (filter (fun t => isLong (latt P t)) (symBox 2 2 2)))) (rws P).
Proof.
  unfold rws, triples. change (list_prod (list_prod (zrange (-2) 5) (zrange (-2) 5)) (zrange (-2) 5)) with (symBox 2 2 2). fold (latt P).
  replace (filter isLong (map (latt P) (symBox 2 2 2))) with (map (latt P) (filter (fun t => isLong (latt P t)) (symBox 2 2 2))).
  2:{ generalize (symBox 2 2 2). intro l. induction l as [|t l IH]; cbn [map filter]; [reflexivity|]. destruct (isLong (latt P t)); cbn [map]; now rewrite IH. }
  apply Permutation_map.
  replace (map opp3z (filter (fun t => isLong (latt P t)) (symBox 2 2 2))) with (filter (fun t => isLong (latt P t)) (map opp3z (symBox 2 2 2))).
  2:{ generalize (symBox 2 2 2). intro l. induction l as [|t l IH]; cbn [map filter]; [reflexivity|]. rewrite isLong_opp. destruct (isLong (latt P t)); cbn [map]; now rewrite IH. }
  apply filter_perm, symBox_opp.
Qed.
Lemma rws_map P : rws P = map (latt P) (filter (fun t => isLong (latt P t)) (symBox 2 2 2)).
Proof.
  unfold rws, triples. change (list_prod (list_prod (zrange (-2) 5) (zrange (-2) 5)) (zrange (-2) 5)) with (symBox 2 2 2).
  generalize (symBox 2 2 2). intro l. induction l as [|t l IH]; cbn [map filter]; [reflexivity|].
  change (lin3 (superCell P) (fst (fst t)) (snd (fst t)) (snd t)) with (latt P t). destruct (isLong (latt P t)); cbn [map]; now rewrite IH.
Qed.
Lemma wsCk_opp P r r' t : (forall i, (r' i == - r i)%Q) -> (wsCk r' (latt P (opp3z t)) == wsCk r (latt P t))%Q.
Proof. intros h. unfold wsCk, qdot. rewrite !latt_opp, !h. field. Qed.
Lemma wsWeight_opp P r r' : (forall i, (r' i == - r i)%Q) -> wsWeight r' (rws P) = wsWeight r (rws P).
Proof.
  intros h. rewrite !wsWeight_val. set (L := filter (fun t => isLong (latt P t)) (symBox 2 2 2)).
  assert (O : outside r' (rws P) = outside r (rws P)).
  { rewrite <- (outside_perm r' _ _ (rws_opp P)), rws_map. fold L. unfold outside. rewrite map_map. generalize L. intro l.
    induction l as [|t l IH]; cbn [map existsb]; [reflexivity|]. rewrite IH. now rewrite (Qle_bool_compat _ _ _ (wsCk_opp P r r' t h)). }
  assert (B : border r' (rws P) = border r (rws P)).
  { rewrite <- (border_perm r' _ _ (rws_opp P)), rws_map. fold L. unfold border. rewrite map_map. generalize L. intro l.
    induction l as [|t l IH]; cbn [map filter]; [reflexivity|].
    assert (E : (Qabs.Qabs (wsCk r' (latt P (opp3z t))) == Qabs.Qabs (wsCk r (latt P t)))%Q) by (rewrite (wsCk_opp P r r' t h); reflexivity).
    rewrite (Qle_bool_compat _ _ _ E). destruct (Qle_bool _ _); cbn [length]; rewrite IH; reflexivity. }
  now rewrite O, B.
Qed.
(** the pair (a, b) seen from b *)
Lemma wsCache_opp P n1 n2 n3 a b : wsCache P (- n1) (- n2) (- n3) a b = wsCache P n1 n2 n3 b a.
Proof. unfold wsCache. apply wsWeight_opp. intros i. unfold wsVector. rewrite lin3_opp. ring. Qed.
Lemma weightAt_opp P n a b : weightAt P (opp3z n) b a = weightAt P n a b.
Proof. destruct n as [[n1 n2] n3]. cbn. now rewrite wsCache_opp. Qed.
Lemma weightAt_nonneg P n a b : (0 <= weightAt P n a b)%R.
Proof. destruct n as [[n1 n2] n3]. cbn. rewrite <- RMicromega.Q2R_0. apply Qle_Rle, wsWeight_nonneg. Qed.
Lemma latticeAt_opp P n i : latticeAt P (opp3z n) i = (- latticeAt P n i)%R.
Proof. destruct n as [[n1 n2] n3]. cbn. rewrite !opp_IZR. ring. Qed.
Lemma inject_R z : Q2R (inject_Z z) = IZR z.
Proof. unfold Q2R. cbn. field. Qed.
Lemma toR_lin3 P n1 n2 n3 i : toR (lin3 (cell P) n1 n2 n3) i = latticeAt P (n1, n2, n3) i.
Proof. unfold toR, lin3. cbn. now rewrite !Q2R_plus, !Q2R_mult, !inject_R. Qed.

(** * the sum over the vectors is the Fourier transform *)
Lemma shortRange_fourier P q i j a b : gridPositive P -> 0 <= a < nAt P -> 0 <= b < nAt P -> shortRange P q i j a b = fourier P q i j a b.
Proof.
  intros (g0 & g1 & g2) ha hb. unfold shortRange, entries. rewrite csum_filter.
  set (F := fun n1 n2 n3 na nb => cscale (weightAt P (n1, n2, n3) na nb) (cscale (if (a =? na) && (b =? nb) then forceAt P i j (n1, n2, n3) na nb else 0%R) (cexpi (- dot3 q (latticeAt P (n1, n2, n3)))))).
  rewrite (csum_map_ext _ (fun e : entry => let '(n3, n2, n1, nb, na) := e in F n1 n2 n3 na nb)).
  2:{ intros [[[[n3 n2] n1] nb] na] _. unfold F. cbn [weightOf mat2R bravaisOf].
      rewrite !cellIndex_mod by assumption. change (force P i j (n1 mod grid P 0) (n2 mod grid P 1) (n3 mod grid P 2) na nb) with (forceAt P i j (n1, n2, n3) na nb).
      replace (dot3 q (toR (lin3 (cell P) n1 n2 n3))) with (dot3 q (latticeAt P (n1, n2, n3))) by (unfold dot3; now rewrite !toR_lin3).
      change (Q2R (wsCache P n1 n2 n3 nb na)) with (weightAt P (n1, n2, n3) na nb).
      destruct (Qle_bool (wsCache P n1 n2 n3 nb na) 0) eqn:E; cbn [negb]; [|reflexivity].
      apply Qle_bool_iff in E. pose proof (weightAt_nonneg P (n1, n2, n3) na nb) as W.
      assert (Z : weightAt P (n1, n2, n3) na nb = 0%R). { apply Qle_Rle in E. rewrite RMicromega.Q2R_0 in E. change (weightAt P (n1, n2, n3) na nb <= 0)%R in E. lra. }
      rewrite Z. generalize (cexpi (- dot3 q (latticeAt P (n1, n2, n3)))). intro. generalize (if (a =? na) && (b =? nb) then forceAt P i j (n1, n2, n3) na nb else 0%R). intro. apply cplx_eq; cbn; ring. }
  change entry with (Z * Z * Z * Z * Z)%type. rewrite !csum_list_prod.
  set (T := fun n : Z * Z * Z => F (fst (fst n)) (snd (fst n)) (snd n) a b).
  transitivity (csum (map (fun n3 => csum (map (fun n2 => csum (map (fun n1 => T (n1, n2, n3)) (bigRange P 0))) (bigRange P 1))) (bigRange P 2))).
  - apply csum_map_ext. intros n3 _. apply csum_map_ext. intros n2 _. apply csum_map_ext. intros n1 _.
    cbn [fst snd]. rewrite (csum_map_ext _ (fun nb => if Z.eqb nb b then T (n1, n2, n3) else c0)).
    + rewrite (csum_single Z.eqb (fun _ => T (n1, n2, n3)) (zrange 0 (nAt P)) b); [reflexivity|intros; lia|apply NoDup_zrange|apply in_zrange; lia].
    + intros nb _. rewrite (csum_map_ext _ (fun na => if Z.eqb na a then (if Z.eqb nb b then T (n1, n2, n3) else c0) else c0)).
      * rewrite (csum_single Z.eqb (fun _ => if nb =? b then T (n1, n2, n3) else c0) (zrange 0 (nAt P)) a); [reflexivity|intros; lia|apply NoDup_zrange|apply in_zrange; lia].
      * intros na _. unfold T, F. cbn [fst snd]. destruct (Z.eqb_spec na a) as [->|Na].
        -- rewrite !Z.eqb_refl. destruct (Z.eqb_spec nb b) as [->|Nb]; [rewrite Z.eqb_refl; reflexivity|].
           replace (b =? nb) with false by lia. cbn [andb]. generalize (cexpi (- dot3 q (latticeAt P (n1, n2, n3)))) (weightAt P (n1, n2, n3) a nb). intros. apply cplx_eq; cbn; ring.
        -- replace (a =? na) with false by lia. cbn [andb]. generalize (cexpi (- dot3 q (latticeAt P (n1, n2, n3)))) (weightAt P (n1, n2, n3) na nb). intros. apply cplx_eq; cbn; ring.
  - unfold fourier, cellsBig. rewrite !csum_list_prod.
    rewrite (csum_swap (fun n3 n2 => csum (map (fun n1 => T (n1, n2, n3)) (bigRange P 0)))).
    rewrite (csum_map_ext _ (fun n2 => csum (map (fun n1 => csum (map (fun n3 => T (n1, n2, n3)) (bigRange P 2))) (bigRange P 0)))).
    2:{ intros n2 _. apply (csum_swap (fun n3 n1 => T (n1, n2, n3))). }
    rewrite (csum_swap (fun n2 n1 => csum (map (fun n3 => T (n1, n2, n3)) (bigRange P 2)))).
    apply csum_map_ext. intros n1 _. apply csum_map_ext. intros n2 _. apply csum_map_ext. intros n3 _. unfold T, F. cbn [fst snd].
    rewrite !Z.eqb_refl. cbn [andb]. generalize (cexpi (- dot3 q (latticeAt P (n1, n2, n3)))) (weightAt P (n1, n2, n3) a b) (forceAt P i j (n1, n2, n3) a b). intros. apply cplx_eq; cbn; ring.
Qed.
