From Coq Require Import QArith Qabs Qround Permutation.
From Verif Require Import Base BaseLemmas M_utilities M_points L_points M_phonon L_matrix L_phonon M_phono3py S_phono3py L_phono3py.
From Coq Require Import Lia Lqa.
Open Scope Z_scope.

(** * the weights of the harmonic code *)
Lemma wsCache_form P d n na nb : (forall i, 0 <= i < 3 -> (d i == tau P na i - tau P nb i)%Q) -> resolved (cell P) (grid P) d [n] wsTol ->
  Qeq (wsCache P (fst (fst n)) (snd (fst n)) (snd n) nb na) (if isMin (cell P) (grid P) d n then 1 # Pos.of_nat (length (ties (cell P) (grid P) d n)) else 0%Q).
Proof.
  intros Hd [Hgap HL]. unfold wsCache. set (r := wsVector P _ _ _ nb na). rewrite wsWeight_val. unfold outside, border.
  assert (ER : rws P = filter isLong (map (lat (supA (cell P) (grid P))) box)).
  { unfold rws. change (triples (zrange (-2) 5)) with box. f_equal; try (apply map_ext; intros [[t1 t2] t3]; reflexivity). }
  rewrite ER.
  assert (Hr : forall i, 0 <= i < 3 -> (r i == pos (cell P) d n i)%Q). { intros i Hi. unfold r, wsVector, pos. rewrite (Hd i Hi). destruct n as [[n1 n2] n3]. cbn [fst snd lat]. reflexivity. }
  change (wsCk r) with (ckOf r).
  destruct (weight_form (cell P) (grid P) d n r (fun v => negb (Qle_bool (ckOf r v) wsTol)) (fun v => Qle_bool (Qabs (ckOf r v)) wsTol) isLong wsTol) as [E1 E2]; try assumption.
  - reflexivity.
  - intros T HT. apply Hgap; [now left|exact HT].
  - intros T HT Hne. unfold isLong. apply Bool.negb_true_iff, Bool.not_true_iff_false. rewrite Qle_bool_iff. apply Qlt_not_le. now apply HL.
  - unfold isLong. apply Bool.negb_false_iff, Qle_bool_iff. rewrite qdot_zero. discriminate.
  - intros v E. split; [apply Bool.negb_false_iff|]; apply Qle_bool_iff; rewrite E; discriminate.
  - intros v C. apply Bool.negb_true_iff, Bool.not_true_iff_false. rewrite Qle_bool_iff. now apply Qlt_not_le.
  - intros v C. assert ((ckOf r v < 0)%Q) by (eapply Qlt_trans; [exact C|reflexivity]). split; [apply Bool.negb_false_iff, Qle_bool_iff, Qlt_le_weak; eapply Qlt_trans; [eassumption|reflexivity]|].
    apply Bool.not_true_iff_false. rewrite Qle_bool_iff. apply Qlt_not_le. rewrite Qabs_neg by (now apply Qlt_le_weak). lra.
  - intros v C. apply Bool.not_true_iff_false. rewrite Qle_bool_iff. apply Qlt_not_le. assert (0 < ckOf r v)%Q by (eapply Qlt_trans; [|exact C]; reflexivity). now rewrite Qabs_pos by (now apply Qlt_le_weak).
  - rewrite E1. destruct (isMin _ _ _ _); cbn [negb]; [|reflexivity]. rewrite Nat.add_1_l, E2. reflexivity.
Qed.
Lemma resolved_one A g d W tol n : resolved A g d W tol -> In n W -> resolved A g d [n] tol.
Proof. intros [H1 H2] Hn. split; [|exact H2]. intros n' T [<- | []] HT. now apply H1. Qed.
Lemma imageb_spec g m n : (forall c, 0 <= c < 3 -> 0 < g c) -> imageb g m n = true <-> images g m n.
Proof.
  intro Hg. destruct m as [[m1 m2] m3], n as [[n1 n2] n3]. unfold imageb. pose proof (Hg 0 ltac:(lia)) as G0. pose proof (Hg 1 ltac:(lia)) as G1. pose proof (Hg 2 ltac:(lia)) as G2.
  rewrite !Bool.andb_true_iff, !Z.eqb_eq. split.
  - intros [[H1 H2] H3]. apply Z.mod_divide in H1, H2, H3; try lia. destruct H1 as [t1 H1], H2 as [t2 H2], H3 as [t3 H3]. exists (- t1, - t2, - t3). unfold shift. f_equal; [f_equal|]; lia.
  - intros ([[t1 t2] t3] & E). unfold shift in E. injection E as -> -> ->.
    replace (m1 - g 0 * t1 - m1) with (- t1 * g 0) by ring. replace (m2 - g 1 * t2 - m2) with (- t2 * g 1) by ring. replace (m3 - g 2 * t3 - m3) with (- t3 * g 2) by ring. now rewrite !Z.mod_mul by lia.
Qed.

(** * orthorhombic crystals *)
Lemma comp_min (x g : Q) (t : Z) : (Qabs (2 * x) <= g)%Q -> (x * x <= (x - g * inject_Z t) * (x - g * inject_Z t))%Q.
Proof.
  intro H. apply Qabs_Qle_condition in H. destruct H as [H1 H2]. destruct (Z_le_gt_dec t 0) as [Ht | Ht].
  - destruct (Z.eq_dec t 0) as [-> | Hne]; [change (inject_Z 0) with 0%Q; lra|]. assert (Hu : (inject_Z t <= -1)%Q) by (change (-1)%Q with (inject_Z (-1)); rewrite <- Zle_Qle; lia).
    set (u := inject_Z t) in *. clearbody u. assert (0 <= g)%Q by lra. assert (g * u <= - g)%Q by nra. assert (E : ((x - g * u) * (x - g * u) - x * x == (g * u) * (g * u - 2 * x))%Q) by ring. assert (0 <= (g * u) * (g * u - 2 * x))%Q; [|lra].
    setoid_replace ((g * u) * (g * u - 2 * x))%Q with ((- (g * u)) * (2 * x - g * u))%Q by ring. apply Qmult_le_0_compat; lra.
  - assert (Hu : (1 <= inject_Z t)%Q) by (change 1%Q with (inject_Z 1); rewrite <- Zle_Qle; lia).
    set (u := inject_Z t) in *. clearbody u. assert (0 <= g)%Q by lra. assert (g <= g * u)%Q by nra. assert (E : ((x - g * u) * (x - g * u) - x * x == (g * u) * (g * u - 2 * x))%Q) by ring. assert (0 <= (g * u) * (g * u - 2 * x))%Q; [|lra].
    apply Qmult_le_0_compat; lra.
Qed.
Lemma comp_inv (x g : Q) : (0 < g)%Q -> (x * x <= (x - g) * (x - g))%Q -> (x * x <= (x + g) * (x + g))%Q -> (Qabs (2 * x) <= g)%Q.
Proof.
  intros Hg H1 H2. apply Qabs_Qle_condition. assert (K1 : (0 <= g * (g - 2 * x))%Q) by (setoid_replace (g * (g - 2 * x))%Q with ((x - g) * (x - g) - x * x)%Q by ring; lra).
  assert (K2 : (0 <= g * (g + 2 * x))%Q) by (setoid_replace (g * (g + 2 * x))%Q with ((x + g) * (x + g) - x * x)%Q by ring; lra). split.
  - destruct (Qlt_le_dec (g + 2 * x) 0) as [K | K]; [|lra]. exfalso. assert (g * (g + 2 * x) < 0)%Q by nra. lra.
  - destruct (Qlt_le_dec (g - 2 * x) 0) as [K | K]; [|lra]. exfalso. assert (g * (g - 2 * x) < 0)%Q by nra. lra.
Qed.
Section Ortho.
Variables (A : Z -> qvec) (a : Z -> Q) (g : Z -> Z) (d : qvec).
Hypothesis HO : orthorhombic A a.
Hypothesis Hg : forall c, 0 <= c < 3 -> 0 < g c.
Definition cmp (c n : Z) : Q := (a c * inject_Z n + d c)%Q.
Definition cen (c n : Z) : Prop := (Qabs (2 * cmp c n) <= a c * inject_Z (g c))%Q.
Lemma HO3 : (0 < a 0%Z)%Q /\ (0 < a 1%Z)%Q /\ (0 < a 2%Z)%Q. Proof. repeat split; apply (HO _ 0); lia. Qed.
Lemma len2_ortho n1 n2 n3 : (len2 A d (n1, n2, n3) == cmp 0 n1 * cmp 0 n1 + cmp 1 n2 * cmp 1 n2 + cmp 2 n3 * cmp 2 n3)%Q.
Proof.
  unfold len2, qdot, pos, lat, lin3, cmp.
  rewrite (proj2 (HO 0 0 ltac:(lia) ltac:(lia))), (proj2 (HO 0 1 ltac:(lia) ltac:(lia))), (proj2 (HO 0 2 ltac:(lia) ltac:(lia))), (proj2 (HO 1 0 ltac:(lia) ltac:(lia))), (proj2 (HO 1 1 ltac:(lia) ltac:(lia))), (proj2 (HO 1 2 ltac:(lia) ltac:(lia))),
    (proj2 (HO 2 0 ltac:(lia) ltac:(lia))), (proj2 (HO 2 1 ltac:(lia) ltac:(lia))), (proj2 (HO 2 2 ltac:(lia) ltac:(lia))). cbn [Z.eqb Pos.eqb]. ring.
Qed.
Lemma cmp_shift c n t : (cmp c (n - g c * t) == cmp c n - (a c * inject_Z (g c)) * inject_Z t)%Q.
Proof. unfold cmp, Z.sub. rewrite inject_Z_plus, inject_Z_opp, inject_Z_mult. ring. Qed.
Lemma cen_shortest n1 n2 n3 : cen 0 n1 -> cen 1 n2 -> cen 2 n3 -> shortest A g d (n1, n2, n3).
Proof.
  intros H1 H2 H3 m ([[t1 t2] t3] & ->). unfold shift. rewrite !len2_ortho, !cmp_shift.
  pose proof (comp_min _ _ t1 H1). pose proof (comp_min _ _ t2 H2). pose proof (comp_min _ _ t3 H3). lra.
Qed.
Lemma ag_pos c : 0 <= c < 3 -> (0 < a c * inject_Z (g c))%Q.
Proof. intro Hc. apply Qmult_lt_0_compat; [apply (HO c 0); lia|]. change 0%Q with (inject_Z 0). rewrite <- Zlt_Qlt. now apply Hg. Qed.
Lemma local_cen n1 n2 n3 : (forall T, In T box -> (len2 A d (n1, n2, n3) <= len2 A d (shift g (n1, n2, n3) T))%Q) -> cen 0 n1 /\ cen 1 n2 /\ cen 2 n3.
Proof.
  intro H. assert (K : forall T, In T box -> (len2 A d (n1, n2, n3) <= len2 A d (shift g (n1, n2, n3) T))%Q) by exact H.
  pose proof (K (1, 0, 0) ltac:(apply in_box; lia)) as X1. pose proof (K (-1, 0, 0) ltac:(apply in_box; lia)) as X2.
  pose proof (K (0, 1, 0) ltac:(apply in_box; lia)) as Y1. pose proof (K (0, -1, 0) ltac:(apply in_box; lia)) as Y2.
  pose proof (K (0, 0, 1) ltac:(apply in_box; lia)) as Z1. pose proof (K (0, 0, -1) ltac:(apply in_box; lia)) as Z2. clear H K.
  unfold shift in *. rewrite !len2_ortho, !cmp_shift in *. change (inject_Z 0) with 0%Q in *. change (inject_Z 1) with 1%Q in *. change (inject_Z (-1)) with (-1)%Q in *.
  pose proof (ag_pos 0 ltac:(lia)). pose proof (ag_pos 1 ltac:(lia)). pose proof (ag_pos 2 ltac:(lia)). unfold cen.
  set (x := cmp 0 n1) in *. set (y := cmp 1 n2) in *. set (z := cmp 2 n3) in *. set (p := (a 0%Z * inject_Z (g 0))%Q) in *. set (q := (a 1%Z * inject_Z (g 1))%Q) in *. set (r := (a 2%Z * inject_Z (g 2))%Q) in *. clearbody x y z p q r.
  repeat split; apply comp_inv; try assumption; lra.
Qed.
Lemma shortest_cen n1 n2 n3 : shortest A g d (n1, n2, n3) -> cen 0 n1 /\ cen 1 n2 /\ cen 2 n3.
Proof. intro H. apply local_cen. intros T _. apply H. now exists T. Qed.
Lemma exists_cen c m : 0 <= c < 3 -> exists t, cen c (m - g c * t).
Proof.
  intro Hc. set (p := (a c * inject_Z (g c))%Q). pose proof (ag_pos c Hc) as Hp. fold p in Hp. set (y := (cmp c m / p + (1 # 2))%Q). exists (Qfloor y). unfold cen. rewrite cmp_shift. fold p.
  pose proof (Qfloor_le y) as L. pose proof (Qlt_floor y) as U. rewrite inject_Z_plus in U. change (inject_Z 1) with 1%Q in U. set (u := inject_Z (Qfloor y)) in *.
  assert (Ey : (2 * (y * p) == 2 * cmp c m + p)%Q). { unfold y. field. intro K. rewrite K in Hp. revert Hp. apply Qlt_irrefl. }
  set (x := cmp c m) in *. clearbody u x y p. assert (u * p <= y * p)%Q by (apply Qmult_le_compat_r; lra). assert (y * p < (u + 1) * p)%Q by (apply Qmult_lt_compat_r; assumption). apply Qabs_Qle_condition. split; lra.
Qed.
Hypothesis Hd : forall c, 0 <= c < 3 -> (Qabs (d c) < a c)%Q.
Lemma cen_range c n : 0 <= c < 3 -> cen c n -> - (2 * g c) <= n < 2 * g c.
Proof.
  intros Hc H. pose proof (Hg c Hc) as G. pose proof (proj1 (HO c 0 Hc ltac:(lia))) as Ha. pose proof (Hd c Hc) as D. unfold cen in H. apply Qabs_Qle_condition in H. apply Qabs_Qlt_condition in D. unfold cmp in H. destruct H as [H1 H2], D as [D1 D2].
  set (u := inject_Z n) in *. set (w := inject_Z (g c)) in *. 
  assert (K1 : (a c * (2 * u) < a c * (w + 2))%Q) by lra. assert (K2 : (a c * (- w - 2) < a c * (2 * u))%Q) by lra.
  apply Qmult_lt_l in K1; [|exact Ha]. apply Qmult_lt_l in K2; [|exact Ha].
  assert (Z1 : (inject_Z (2 * n) < inject_Z (g c + 2))%Q) by (rewrite inject_Z_mult, inject_Z_plus; exact K1). assert (Z2 : (inject_Z (- g c - 2) < inject_Z (2 * n))%Q) by (unfold Z.sub; rewrite inject_Z_mult, inject_Z_plus, !inject_Z_opp; exact K2).
  rewrite <- Zlt_Qlt in Z1, Z2. lia.
Qed.
Lemma cen_close c n t : 0 <= c < 3 -> cen c n -> cen c (n - g c * t) -> -2 <= t <= 2.
Proof.
  intros Hc H H'. unfold cen in *. rewrite cmp_shift in H'. pose proof (ag_pos c Hc) as Hp. set (p := (a c * inject_Z (g c))%Q) in *. apply Qabs_Qle_condition in H, H'. set (x := cmp c n) in *. set (u := inject_Z t) in *.
  assert (K1 : (p * u <= p * 1)%Q) by lra. assert (K2 : (p * (-1) <= p * u)%Q) by lra. apply Qmult_le_l in K1; [|exact Hp]. apply Qmult_le_l in K2; [|exact Hp].
  change 1%Q with (inject_Z 1) in K1. change (-1)%Q with (inject_Z (-1)) in K2. unfold u in *. rewrite <- Zle_Qle in K1, K2. lia.
Qed.
Lemma ortho_reach m W : NoDup W -> (forall n, In n W -> images g m n) -> (forall n1 n2 n3, images g m (n1, n2, n3) -> - (2 * g 0) <= n1 < 2 * g 0 -> - (2 * g 1) <= n2 < 2 * g 1 -> - (2 * g 2) <= n3 < 2 * g 2 -> In (n1, n2, n3) W) -> reach A g d m W.
Proof.
  intros HN HI HW. constructor; try assumption.
  - destruct m as [[m1 m2] m3]. destruct (exists_cen 0 m1 ltac:(lia)) as [t1 E1]. destruct (exists_cen 1 m2 ltac:(lia)) as [t2 E2]. destruct (exists_cen 2 m3 ltac:(lia)) as [t3 E3].
    exists (shift g (m1, m2, m3) (t1, t2, t3)). split; [now exists (t1, t2, t3)|]. now apply cen_shortest.
  - intros [[n1 n2] n3] Hi Hs. apply shortest_cen in Hs. destruct Hs as (S1 & S2 & S3). apply HW; try assumption; now apply cen_range.
  - intros [[n1 n2] n3] _ Hs. apply local_cen in Hs. destruct Hs as (S1 & S2 & S3). now apply cen_shortest.
  - intros n n' Hi Hi' Hs Hs'. destruct (images_trans g n m n' (images_sym g m n Hi) Hi') as ([[t1 t2] t3] & E). exists (t1, t2, t3). split; [|exact E]. destruct n as [[n1 n2] n3]. subst n'. unfold shift in Hs'.
    apply shortest_cen in Hs, Hs'. destruct Hs as (S1 & S2 & S3), Hs' as (S1' & S2' & S3'). apply in_box. repeat split; [eapply (proj1 (cen_close 0 n1 t1 _ S1 S1'))|eapply (proj2 (cen_close 0 n1 t1 _ S1 S1'))|eapply (proj1 (cen_close 1 n2 t2 _ S2 S2'))|eapply (proj2 (cen_close 1 n2 t2 _ S2 S2'))|eapply (proj1 (cen_close 2 n3 t3 _ S3 S3'))|eapply (proj2 (cen_close 2 n3 t3 _ S3 S3'))]. Unshelve. all: lia.
Qed.
End Ortho.
