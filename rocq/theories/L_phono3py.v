From Coq Require Import QArith Qabs Qround Permutation.
From Verif Require Import Base BaseLemmas M_utilities M_points L_points M_phonon L_matrix L_phonon M_phono3py S_phono3py.
From Coq Require Import Lia Lqa.
Open Scope Z_scope.

Lemma qdot_comp a b a' b' : (forall i, 0 <= i < 3 -> (a i == a' i)%Q) -> (forall i, 0 <= i < 3 -> (b i == b' i)%Q) -> (qdot a b == qdot a' b')%Q.
Proof. intros H K. unfold qdot. now rewrite (H 0), (H 1), (H 2), (K 0), (K 1), (K 2) by lia. Qed.
Definition supA (A : Z -> qvec) (g : Z -> Z) : Z -> qvec := fun c i => (A c i * inject_Z (g c))%Q.
Lemma lat_shift A g n T i : (lat A (shift g n T) i == lat A n i - lat (supA A g) T i)%Q.
Proof. destruct n as [[n1 n2] n3], T as [[t1 t2] t3]. unfold shift, lat, lin3, supA. unfold Z.sub. rewrite !inject_Z_plus, !inject_Z_opp, !inject_Z_mult. ring. Qed.
Lemma ck_len A g d n T r : (forall i, 0 <= i < 3 -> (r i == pos A d n i)%Q) ->
  (qdot r (lat (supA A g) T) - qdot (lat (supA A g) T) (lat (supA A g) T) / 2 == (len2 A d n - len2 A d (shift g n T)) / 2)%Q.
Proof.
  intro H. unfold len2. rewrite (qdot_comp r (lat (supA A g) T) (pos A d n) (lat (supA A g) T)) by (assumption || reflexivity).
  rewrite (qdot_comp (pos A d (shift g n T)) (pos A d (shift g n T)) (fun i => lat A n i - lat (supA A g) T i + d i)%Q (fun i => lat A n i - lat (supA A g) T i + d i)%Q) by (intros; unfold pos; rewrite lat_shift; reflexivity).
  unfold qdot, pos. field.
Qed.
Definition isMin A g d n : bool := forallb (fun T => Qle_bool (len2 A d n) (len2 A d (shift g n T))) box.
Definition ties A g d n : list z3 := filter (fun T => Qeq_bool (len2 A d n) (len2 A d (shift g n T))) box.
Lemma shift_0 g n : shift g n (0, 0, 0) = n.
Proof. destruct n as [[n1 n2] n3]. unfold shift. rewrite !Z.mul_0_r, !Z.sub_0_r. reflexivity. Qed.
Lemma box_NoDup : NoDup box. Proof. unfold box. apply NoDup_list_prod; [apply NoDup_list_prod|]; apply NoDup_zrange. Qed.
Lemma in_box t1 t2 t3 : In (t1, t2, t3) box <-> -2 <= t1 <= 2 /\ -2 <= t2 <= 2 /\ -2 <= t3 <= 2.
Proof. unfold box. rewrite !in_prod_iff, !in_zrange. lia. Qed.

(** counting with the zero vector left out *)
Lemma filter_filter_map {B C} (f : B -> C) p q l : length (filter p (filter q (map f l))) = length (filter (fun x => q (f x) && p (f x)) l).
Proof. induction l as [|x l IH]; [reflexivity|]. cbn [map filter]. destruct (q (f x)); cbn [filter andb]; [destruct (p (f x)); cbn [length]; congruence|exact IH]. Qed.
Lemma filter_out {B} (z : B) (P P' : B -> bool) l : NoDup l -> In z l -> P z = true -> P' z = false -> (forall x, In x l -> x <> z -> P' x = P x) -> length (filter P l) = S (length (filter P' l)).
Proof.
  intros HN Hz HP HP' Hx. apply in_split in Hz. destruct Hz as (l1 & l2 & ->). apply NoDup_remove_2 in HN. rewrite !filter_app, !app_length. cbn [filter]. rewrite HP, HP'. cbn [length].
  assert (E1 : filter P' l1 = filter P l1). { apply filter_ext_in. intros x Hin. apply Hx; [apply in_or_app; now left|]. intros ->. apply HN, in_or_app. now left. }
  assert (E2 : filter P' l2 = filter P l2). { apply filter_ext_in. intros x Hin. apply Hx; [apply in_or_app; right; now right|]. intros ->. apply HN, in_or_app. now right. }
  rewrite E1, E2. lia.
Qed.
Lemma existsb_filter_map {B C} (f : B -> C) p q l : existsb p (filter q (map f l)) = existsb (fun x => q (f x) && p (f x)) l.
Proof. induction l as [|x l IH]; [reflexivity|]. cbn [map filter existsb]. destruct (q (f x)); cbn [existsb andb orb]; [now rewrite IH|exact IH]. Qed.

(** * sum of the weights over the images of a pair *)
Lemma images_refl g n : images g n n. Proof. exists (0, 0, 0). now rewrite shift_0. Qed.
Lemma images_sym g n m : images g n m -> images g m n.
Proof. intros (T & ->). destruct n as [[n1 n2] n3], T as [[t1 t2] t3]. exists (- t1, - t2, - t3). unfold shift. f_equal; [f_equal|]; ring. Qed.
Lemma images_trans g n m k : images g n m -> images g m k -> images g n k.
Proof. intros (T & ->) (U & ->). destruct n as [[n1 n2] n3], T as [[t1 t2] t3], U as [[u1 u2] u3]. exists (t1 + u1, t2 + u2, t3 + u3). unfold shift. f_equal; [f_equal|]; ring. Qed.
Lemma shift_inj g n T U : (forall c, 0 <= c < 3 -> 0 < g c) -> shift g n T = shift g n U -> T = U.
Proof.
  intros Hg E. destruct n as [[n1 n2] n3], T as [[t1 t2] t3], U as [[u1 u2] u3]. unfold shift in E. injection E as E1 E2 E3.
  pose proof (Hg 0 ltac:(lia)). pose proof (Hg 1 ltac:(lia)). pose proof (Hg 2 ltac:(lia)). f_equal; [f_equal|]; [apply (Z.mul_reg_l _ _ (g 0))|apply (Z.mul_reg_l _ _ (g 1))|apply (Z.mul_reg_l _ _ (g 2))]; lia.
Qed.
Lemma sumW_filter {B} (w : B -> Q) (p : B -> bool) c l : (forall x, In x l -> Qeq (w x) (if p x then c else 0%Q)) -> (sumW w l == inject_Z (Z.of_nat (length (filter p l))) * c)%Q.
Proof.
  unfold sumW. induction l as [|x l IH]; intro H; [cbn; ring|]. cbn [map fold_right filter]. rewrite IH by (intros; apply H; now right). rewrite (H x (or_introl eq_refl)).
  destruct (p x); [|ring]. cbn [length]. rewrite Nat2Z.inj_succ, <- Z.add_1_r, inject_Z_plus. ring.
Qed.
Lemma ws_sum A g d m W w : (forall c, 0 <= c < 3 -> 0 < g c) -> reach A g d m W ->
  (forall n, In n W -> Qeq (w n) (if isMin A g d n then 1 # Pos.of_nat (length (ties A g d n)) else 0%Q)) ->
  (sumW w W == 1)%Q /\ exists C, NoDup C /\ (forall n, In n C <-> images g m n /\ shortest A g d n) /\
    (forall n, In n W -> In n C -> (w n == 1 # Pos.of_nat (length C))%Q) /\ (forall n, In n W -> ~ In n C -> (w n == 0)%Q).
Proof.
  intros Hg R Hw. set (C := filter (isMin A g d) W).
  assert (MC : forall n, In n C <-> images g m n /\ shortest A g d n).
  { intro n. unfold C. rewrite filter_In. split.
    - intros [Hin Hm]. split; [now apply (r_images _ _ _ _ _ R)|]. apply (r_relevant _ _ _ _ _ R n Hin). intros T HT. unfold isMin in Hm. rewrite forallb_forall in Hm. apply Qle_bool_iff. now apply Hm.
    - intros [Hi Hs]. split; [now apply (r_inside _ _ _ _ _ R)|]. unfold isMin. rewrite forallb_forall. intros T HT. apply Qle_bool_iff, Hs. now exists T. }
  assert (NC : NoDup C) by (apply NoDup_filter, (r_unique _ _ _ _ _ R)).
  assert (LC : forall n, In n C -> length (ties A g d n) = length C).
  { intros n Hn. rewrite <- (map_length (shift g n) (ties A g d n)). apply Permutation_length, NoDup_Permutation; [|exact NC|].
    - apply FinFun.Injective_map_NoDup; [intros T U; now apply shift_inj|]. apply NoDup_filter, box_NoDup.
    - intro x. rewrite in_map_iff. apply MC in Hn. destruct Hn as [Hi Hs]. split.
      + intros (T & <- & HT). unfold ties in HT. rewrite filter_In in HT. destruct HT as [HT Heq]. apply Qeq_bool_iff in Heq. apply MC. split; [apply images_trans with n; [exact Hi|now exists T]|].
        intros k Hk. rewrite <- Heq. apply Hs. apply images_trans with (shift g n T); [now exists T|exact Hk].
      + intro Hx. apply MC in Hx. destruct Hx as [Hix Hsx]. destruct (r_box _ _ _ _ _ R n x Hi Hix Hs Hsx) as (T & HT & Ex). exists T. split; [now symmetry|]. unfold ties. rewrite filter_In. split; [exact HT|].
        apply Qeq_bool_iff. rewrite <- Ex. apply Qle_antisym; [apply Hs; now exists T|apply Hsx, images_sym; now exists T]. }
  assert (PC : (0 < length C)%nat). { destruct (r_exists _ _ _ _ _ R) as (n & Hi & Hs). assert (In n C) by (apply MC; now split). destruct C; [contradiction|cbn; lia]. }
  assert (Hw' : forall n, In n W -> Qeq (w n) (if isMin A g d n then 1 # Pos.of_nat (length C) else 0%Q)).
  { intros n Hn. rewrite (Hw n Hn). destruct (isMin A g d n) eqn:E; [|reflexivity]. rewrite LC; [reflexivity|]. unfold C. rewrite filter_In. now split. }
  split.
  - rewrite (sumW_filter w (isMin A g d) (1 # Pos.of_nat (length C)) W Hw'). fold C. unfold Qeq, Qmult, inject_Z. cbn [Qnum Qden]. rewrite Z.mul_1_r, Pos.mul_1_l, !Z.mul_1_l, Z.mul_1_r.
    rewrite <- positive_nat_Z, Nat2Pos.id by lia. reflexivity.
  - exists C. split; [exact NC|]. split; [exact MC|]. split.
    + intros n Hn Hc. rewrite (Hw' n Hn). unfold C in Hc. rewrite filter_In in Hc. destruct Hc as [_ ->]. reflexivity.
    + intros n Hn Hc. rewrite (Hw' n Hn). destruct (isMin A g d n) eqn:E; [|reflexivity]. exfalso. apply Hc. unfold C. rewrite filter_In. now split.
Qed.

(** * the two implementations of the weights *)
Definition ckOf (r v : qvec) : Q := (qdot r v - qdot v v / 2)%Q.
Lemma weight_form A g d n r (out tie long : qvec -> bool) tol : (0 < tol)%Q ->
  (forall i, 0 <= i < 3 -> (r i == pos A d n i)%Q) ->
  (forall T, In T box -> (len2 A d n == len2 A d (shift g n T))%Q \/ (2 * tol < Qabs (len2 A d n - len2 A d (shift g n T)))%Q) ->
  (forall T, In T box -> T <> (0, 0, 0) -> long (lat (supA A g) T) = true) -> long (lat (supA A g) (0, 0, 0)) = false ->
  (forall v, (ckOf r v == 0)%Q -> out v = false /\ tie v = true) -> (forall v, (tol < ckOf r v)%Q -> out v = true) -> (forall v, (ckOf r v < - tol)%Q -> out v = false /\ tie v = false) ->
  (forall v, (tol < ckOf r v)%Q -> tie v = false) ->
  let l := filter long (map (lat (supA A g)) box) in
  existsb out l = negb (isMin A g d n) /\ S (length (filter tie l)) = length (ties A g d n).
Proof.
  intros Ht Hr Hgap HL HL0 H0 Hp Hm Hp' l.
  assert (D : forall T, In T box -> let c := ckOf r (lat (supA A g) T) in
     ((len2 A d n == len2 A d (shift g n T))%Q /\ (c == 0)%Q) \/ ((len2 A d n < len2 A d (shift g n T))%Q /\ (c < - tol)%Q) \/ ((len2 A d (shift g n T) < len2 A d n)%Q /\ (tol < c)%Q)).
  { intros T HT c. assert (E : (c == (len2 A d n - len2 A d (shift g n T)) / 2)%Q) by (apply ck_len, Hr). destruct (Hgap T HT) as [E0 | G]; [left; split; [exact E0|rewrite E, E0; field]|]. right.
    set (a := len2 A d n) in *. set (b := len2 A d (shift g n T)) in *. assert (E' : (2 * c == a - b)%Q) by (rewrite E; field). clearbody a b c. clear -Ht G E'. destruct (Qlt_le_dec b a) as [K | K]; [right|left].
    - rewrite Qabs_pos in G by lra. split; lra.
    - rewrite Qabs_neg in G by lra. split; lra. }
  unfold l. split.
  - rewrite existsb_filter_map. unfold isMin. generalize box, D, HL. intro bx. induction bx as [|T bx IH]; intros D' HL'; [reflexivity|]. cbn [existsb forallb].
    rewrite (IH (fun T' HT => D' T' (or_intror HT)) (fun T' HT => HL' T' (or_intror HT))). rewrite Bool.negb_andb. f_equal.
    destruct (D' T (or_introl eq_refl)) as [[E C] | [[E C] | [E C]]].
    + rewrite (proj1 (H0 _ C)), Bool.andb_false_r. symmetry. apply Bool.negb_false_iff, Qle_bool_iff. now rewrite E; apply Qle_refl.
    + rewrite (proj1 (Hm _ C)), Bool.andb_false_r. symmetry. apply Bool.negb_false_iff, Qle_bool_iff. now apply Qlt_le_weak.
    + rewrite (Hp _ C), Bool.andb_true_r. assert (T <> (0, 0, 0)). { intros ->. rewrite shift_0 in E. revert E. apply Qlt_irrefl. }
      rewrite HL' by (assumption || now left). symmetry. apply Bool.negb_true_iff, Bool.not_true_iff_false. rewrite Qle_bool_iff. now apply Qlt_not_le.
  - rewrite filter_filter_map. unfold ties. symmetry. apply filter_out with (z := (0, 0, 0)).
    + apply box_NoDup.
    + apply in_box. lia.
    + rewrite shift_0. apply Qeq_bool_refl.
    + now rewrite HL0.
    + intros T HT Hne. rewrite HL by assumption. cbn [andb]. destruct (D T HT) as [[E C] | [[E C] | [E C]]].
      * rewrite (proj2 (H0 _ C)). symmetry. now apply Qeq_bool_iff.
      * rewrite (proj2 (Hm _ C)). symmetry. apply Bool.not_true_iff_false. rewrite Qeq_bool_iff. intro K. rewrite K in E. revert E. apply Qlt_irrefl.
      * rewrite (Hp' _ C). symmetry. apply Bool.not_true_iff_false. rewrite Qeq_bool_iff. intro K. rewrite K in E. revert E. apply Qlt_irrefl.
Qed.
Lemma p3Loop_val r l k : p3Loop r l k = if existsb (fun v => Qltb p3tol (ckOf r v)) l then None else Some (Pos.of_nat (Pos.to_nat k + length (filter (fun v => Qltb (Qabs (ckOf r v)) p3tol) l))).
Proof.
  revert k. induction l as [|v l IH]; intros k; cbn [p3Loop existsb filter length].
  - rewrite Nat.add_0_r, Pos2Nat.id. reflexivity.
  - fold (ckOf r v). destruct (Qltb p3tol (ckOf r v)); cbn [orb]; [reflexivity|]. rewrite IH. destruct (existsb _ l); [reflexivity|]. destruct (Qltb (Qabs (ckOf r v)) p3tol); cbn [length]; [|reflexivity].
    do 2 f_equal. lia.
Qed.
Lemma qdot_zero A g : (qdot (lat (supA A g) (0, 0, 0)%Z) (lat (supA A g) (0, 0, 0)%Z) == 0)%Q.
Proof. unfold qdot, lat, lin3. change (inject_Z 0) with 0%Q. ring. Qed.
Lemma p3Weight_form F d n r : (forall i, 0 <= i < 3 -> (r i == pos (pCell F) d n i)%Q) -> resolved (pCell F) (pGrid F) d [n] p3tol ->
  Qeq (p3Weight F r) (if isMin (pCell F) (pGrid F) d n then 1 # Pos.of_nat (length (ties (pCell F) (pGrid F) d n)) else 0%Q).
Proof.
  intros Hr [Hgap HL]. unfold p3Weight. rewrite p3Loop_val. change (p3rws F) with (filter (fun v => Qltb (1 # 1000000) (qdot v v)) (map (lat (supA (pCell F) (pGrid F))) box)).
  destruct (weight_form (pCell F) (pGrid F) d n r (fun v => Qltb p3tol (ckOf r v)) (fun v => Qltb (Qabs (ckOf r v)) p3tol) (fun v => Qltb (1 # 1000000) (qdot v v)) p3tol) as [E1 E2]; try assumption.
  - reflexivity.
  - intros T HT. apply Hgap; [now left|exact HT].
  - intros T HT Hne. apply Qltb_true. now apply HL.
  - apply Qltb_false. rewrite qdot_zero. discriminate.
  - intros v E. split; [apply Qltb_false; rewrite E; discriminate|apply Qltb_true; rewrite E; reflexivity].
  - intros v C. now apply Qltb_true.
  - intros v C. assert ((ckOf r v < 0)%Q) by (eapply Qlt_trans; [exact C|reflexivity]). split; [apply Qltb_false; apply Qlt_le_weak; eapply Qlt_trans; [eassumption|reflexivity]|]. apply Qltb_false. rewrite Qabs_neg by (now apply Qlt_le_weak). lra.
  - intros v C. apply Qltb_false. assert (0 < ckOf r v)%Q by (eapply Qlt_trans; [|exact C]; reflexivity). rewrite Qabs_pos by (now apply Qlt_le_weak). now apply Qlt_le_weak.
  - rewrite E1. destruct (isMin _ _ _ _); cbn [negb]; [|reflexivity]. rewrite Pos2Nat.inj_1, Nat.add_1_l, E2. reflexivity.
Qed.
