(** Lemmas on the EPA approximation. *)
From Coq Require Import QArith Qabs Qround Permutation.
From Verif Require Import Base BaseLemmas M_utilities L_utilities M_mpi S_mpi L_mpi M_points L_points M_wigner L_wigner L_reduce M_epa S_epa.
From Coq Require Import Lia Lqa.
Open Scope Z_scope.

(** * Sums *)
Lemma sumQ_cons x l : sumQ (x :: l) = (x + sumQ l)%Q. Proof. reflexivity. Qed.
Lemma sumQ_app l m : (sumQ (l ++ m) == sumQ l + sumQ m)%Q.
Proof. induction l as [|x l IH]; [cbn [app]; change (sumQ []) with 0%Q; ring|]. cbn [app]. rewrite !sumQ_cons, IH. ring. Qed.
Lemma sumQ_map_ext {A} (f g : A -> Q) l : (forall x, In x l -> (f x == g x)%Q) -> (sumQ (map f l) == sumQ (map g l))%Q.
Proof. induction l as [|x l IH]; intro H; [reflexivity|]. cbn [map]. rewrite !sumQ_cons, (H x), IH by (intros; try apply H; cbn; auto). reflexivity. Qed.
Lemma sumQ_map_mul {A} (f : A -> Q) c l : (sumQ (map (fun x => c * f x) l) == c * sumQ (map f l))%Q.
Proof. induction l as [|x l IH]; [cbn [map]; change (sumQ []) with 0%Q; ring|]. cbn [map]. rewrite !sumQ_cons, IH. ring. Qed.
Lemma sumQ_map_add {A} (f g : A -> Q) l : (sumQ (map (fun x => f x + g x) l) == sumQ (map f l) + sumQ (map g l))%Q.
Proof. induction l as [|x l IH]; [cbn [map]; change (sumQ []) with 0%Q; ring|]. cbn [map]. rewrite !sumQ_cons, IH. ring. Qed.
Lemma sumQ_concat (l : list (list Q)) : (sumQ (concat l) == sumQ (map sumQ l))%Q.
Proof. induction l as [|x l IH]; [reflexivity|]. cbn [concat map]. rewrite sumQ_app, sumQ_cons, IH. reflexivity. Qed.
Lemma sumQ_flat_map {A} (f : A -> list Q) l : (sumQ (flat_map f l) == sumQ (map (fun x => sumQ (f x)) l))%Q.
Proof. induction l as [|x l IH]; [reflexivity|]. cbn [flat_map map]. rewrite sumQ_app, sumQ_cons, IH. reflexivity. Qed.
Lemma sumQ_nonneg l : (forall x, In x l -> (0 <= x)%Q) -> (0 <= sumQ l)%Q.
Proof. induction l as [|x l IH]; intro H; [apply Qle_refl|]. rewrite sumQ_cons. assert (0 <= x)%Q by (apply H; left; reflexivity). assert (0 <= sumQ l)%Q by (apply IH; intros; apply H; right; assumption). lra. Qed.
Lemma sumQ_le {A} (f g : A -> Q) l : (forall x, In x l -> (f x <= g x)%Q) -> (sumQ (map f l) <= sumQ (map g l))%Q.
Proof. induction l as [|x l IH]; intro H; [apply Qle_refl|]. cbn [map]. rewrite !sumQ_cons. assert (f x <= g x)%Q by (apply H; left; reflexivity). assert (sumQ (map f l) <= sumQ (map g l))%Q by (apply IH; intros; apply H; right; assumption). lra. Qed.

(** * Processes *)
Lemma mapM_zget {A} (stars : list A) (f : A -> Q) idx : (forall i, In i idx -> 0 <= i < zlen stars) ->
  exists xs, mapM (fun iq => match zget stars iq with Some s => Ok (f s) | None => UB end) idx = Ok (map f xs) /\ Forall2 (fun i x => zget stars i = Some x) idx xs.
Proof.
  induction idx as [|i idx IH]; intro H; [exists []; split; [reflexivity|constructor]|]. destruct IH as (xs & E & F); [intros; apply H; right; assumption|].
  destruct (zget_inrange stars i) as (x & Ex); [apply H; left; reflexivity|]. exists (x :: xs). cbn [mapM map]. rewrite Ex. cbn [bind]. rewrite E. split; [reflexivity|constructor; assumption].
Qed.
Lemma Forall2_len {A B} (P : A -> B -> Prop) l m : Forall2 P l m -> length l = length m.
Proof. induction 1; cbn; congruence. Qed.
Lemma forall2_range {A} (l : list A) : forall xs, Forall2 (fun i x => zget l i = Some x) (zrange 0 (zlen l)) xs -> xs = l.
Proof.
  intros xs F. assert (L : zlen xs = zlen l). { apply Forall2_len in F. unfold zlen. rewrite <- F, zrange_length. unfold zlen. lia. }
  apply zget_ext; [exact L|]. intros i Hi.
  assert (G : forall k (a : list Z) (b : list A), Forall2 (fun i x => zget l i = Some x) a b -> forall z, nth_error a k = Some z -> nth_error b k = zget l z).
  { induction k as [|k IH]; intros a b Fa z Hz; destruct Fa as [|u v a b Huv Fa]; try discriminate; cbn in *; [injection Hz as ->; symmetry; exact Huv|]. exact (IH a b Fa z Hz). }
  specialize (G (Z.to_nat i) _ _ F i). unfold zget at 1. destruct (Z.ltb_spec i 0); [lia|]. apply G. rewrite nth_error_zrange by lia. f_equal. lia.
Qed.
Lemma overProcesses_ok size stars f : fits (zlen stars) size -> exists r, overProcesses size stars f = Ok r /\ (r == sumQ (map f stars))%Q.
Proof.
  intro F. unfold overProcesses. destruct (divideWorkIter_partition (zlen stars) size F) as (shares & E & Ec).
  assert (G : forall rs shs, mapM (fun r => divideWorkIter (zlen stars) r size) rs = Ok shs -> (forall i, In i (concat shs) -> 0 <= i < zlen stars) ->
    exists xss, mapM (fun r => do idx <- divideWorkIter (zlen stars) r size ; do vals <- mapM (fun iq => match zget stars iq with Some s => Ok (f s) | None => UB end) idx ; Ok (sumQ vals)) rs = Ok (map (fun xs => sumQ (map f xs)) xss) /\ Forall2 (fun i x => zget stars i = Some x) (concat shs) (concat xss)).
  { induction rs as [|r rs IH]; intros shs Es Hi; cbn [mapM] in Es; [injection Es as <-; exists []; split; [reflexivity|constructor]|].
    destruct (divideWorkIter (zlen stars) r size) as [idx| |] eqn:Ed; cbn [bind] in Es; try discriminate. destruct (mapM _ rs) as [shs'| |] eqn:Em; cbn [bind] in Es; try discriminate. injection Es as <-. cbn [concat] in Hi.
    destruct (mapM_zget stars f idx) as (xs & Ex & Fx); [intros; apply Hi, in_app_iff; left; assumption|]. destruct (IH shs' eq_refl) as (xss & Exs & Fxs); [intros; apply Hi, in_app_iff; right; assumption|].
    exists (xs :: xss). cbn [mapM]. rewrite Ed. cbn [bind]. rewrite Ex. cbn [bind]. rewrite Exs. cbn [bind]. split; [reflexivity|]. cbn [concat]. apply Forall2_app; assumption. }
  destruct (G (zrange 0 size) shares E) as (xss & Exs & Fx). { intros i Hi. rewrite Ec in Hi. apply in_zrange in Hi. lia. }
  rewrite Exs. cbn [bind]. eexists. split; [reflexivity|]. rewrite Ec in Fx. apply forall2_range in Fx. rewrite <- Fx. clear.
  induction xss as [|xs xss IH]; [reflexivity|]. cbn [map concat]. rewrite sumQ_cons, IH, map_app, sumQ_app. reflexivity.
Qed.
Lemma overEnergies_ok size nE f v : fits nE size -> (forall iE, 0 <= iE < nE -> f iE = Ok (v iE)) ->
  exists out, overEnergies size nE f = Ok out /\ zlen out = nE /\ forall iE, 0 <= iE < nE -> exists x, zget out iE = Some x /\ (x == v iE)%Q.
Proof.
  intros F Hf. unfold overEnergies. destruct (divideWorkIter_partition nE size F) as (shares & E & Ec).
  set (row := fun idx : list Z => map (fun iE => if existsb (Z.eqb iE) idx then v iE else 0%Q) (zrange 0 nE)).
  assert (G : forall rs shs, mapM (fun r => divideWorkIter nE r size) rs = Ok shs -> mapM (fun r => do idx <- divideWorkIter nE r size ; mapM (fun iE => if existsb (Z.eqb iE) idx then f iE else Ok 0%Q) (zrange 0 nE)) rs = Ok (map row shs)).
  { induction rs as [|r rs IH]; intros shs Es; cbn [mapM] in Es; [injection Es as <-; reflexivity|].
    destruct (divideWorkIter nE r size) as [idx| |] eqn:Ed; cbn [bind] in Es; try discriminate. destruct (mapM _ rs) as [shs'| |] eqn:Em; cbn [bind] in Es; try discriminate. injection Es as <-. cbn [mapM map]. rewrite Ed. cbn [bind].
    rewrite (mapM_ok _ (fun iE => if existsb (Z.eqb iE) idx then v iE else 0%Q)) by (intros iE Hi; apply in_zrange in Hi; destruct (existsb (Z.eqb iE) idx); [apply Hf; lia|reflexivity]). cbn [bind]. rewrite (IH shs' eq_refl). reflexivity. }
  rewrite (G _ _ E). cbn [bind]. eexists. split; [reflexivity|]. split; [rewrite zlen_map; apply zlen_zrange; apply F|].
  intros iE Hi. rewrite zget_map, zget_zrange by lia. cbn [option_map]. eexists. split; [reflexivity|]. rewrite Z.add_0_l, map_map.
  transitivity (sumQ (map (fun idx => if existsb (Z.eqb iE) idx then v iE else 0%Q) shares)).
  { apply sumQ_map_ext. intros idx _. unfold row. assert (N : nth_error (map (fun iE => if existsb (Z.eqb iE) idx then v iE else 0%Q) (zrange 0 nE)) (Z.to_nat iE) = Some (if existsb (Z.eqb iE) idx then v iE else 0%Q)) by (rewrite nth_error_map, nth_error_zrange by lia; cbn [option_map]; replace (0 + Z.of_nat (Z.to_nat iE)) with iE by lia; reflexivity).
    rewrite (nth_error_nth _ _ _ N). reflexivity. }
  assert (Nd : NoDup (concat shares)) by (rewrite Ec; apply NoDup_zrange). assert (Ii : In iE (concat shares)) by (rewrite Ec; apply in_zrange; lia). clear - Nd Ii.
  assert (Z0 : forall shs, ~ In iE (concat shs) -> (sumQ (map (fun idx => if existsb (Z.eqb iE) idx then v iE else 0%Q) shs) == 0)%Q).
  { induction shs as [|s shs IH]; intro N; [reflexivity|]. cbn [map concat] in *. rewrite sumQ_cons, IH by (intro; apply N, in_app_iff; right; assumption). destruct (existsb (Z.eqb iE) s) eqn:X; [|ring]. exfalso. apply existsb_exists in X as (y & Iy & Ey). apply Z.eqb_eq in Ey. subst. apply N, in_app_iff. left. exact Iy. }
  induction shares as [|s shs IH]; [destruct Ii|]. cbn [map concat] in *. rewrite sumQ_cons. apply NoDup_app_inv in Nd as (_ & N2 & D). apply in_app_iff in Ii as [Is|Is].
  - replace (existsb (Z.eqb iE) s) with true by (symmetry; apply existsb_exists; exists iE; split; [exact Is|apply Z.eqb_refl]). rewrite Z0 by (intro X; exact (D _ Is X)). ring.
  - rewrite (IH N2 Is). destruct (existsb (Z.eqb iE) s) eqn:X; [|ring]. exfalso. apply existsb_exists in X as (y & Iy & Ey). apply Z.eqb_eq in Ey. subst. exact (D _ Iy Is).
Qed.

(** * The bin of an energy *)
Lemma qabs_le x y : (- y <= x)%Q -> (x <= y)%Q -> (Qabs x <= y)%Q.
Proof. intros. apply Qabs_Qle_condition. split; assumption. Qed.
Lemma qabs_inv x y : (Qabs x <= y)%Q -> (- y <= x /\ x <= y)%Q.
Proof. intro H. apply Qabs_Qle_condition in H. exact H. Qed.
Lemma qabs_lower x y : (y <= x \/ y <= - x)%Q -> (y <= Qabs x)%Q.
Proof. intros [H|H]; [pose proof (Qle_Qabs x); lra|]. rewrite <- Qabs_opp. pose proof (Qle_Qabs (- x)). lra. Qed.
Lemma inj_le a b : a <= b -> (inject_Z a <= inject_Z b)%Q. Proof. rewrite Zle_Qle. exact (fun H => H). Qed.
Lemma inj_lt a b : a < b -> (inject_Z a < inject_Z b)%Q. Proof. rewrite Zlt_Qlt. exact (fun H => H). Qed.
Lemma inj_le_inv a b : (inject_Z a <= inject_Z b)%Q -> a <= b. Proof. rewrite <- Zle_Qle. exact (fun H => H). Qed.
Lemma inj_lt_inv a b : (inject_Z a < inject_Z b)%Q -> a < b. Proof. rewrite <- Zlt_Qlt. exact (fun H => H). Qed.
Lemma clamp_nearest (t : Q) n i : 0 < n -> 0 <= i < n ->
  (Qabs (t - inject_Z (Z.max 0 (Z.min (n - 1) (cround t)))) <= Qabs (t - inject_Z i))%Q.
Proof.
  intros N I. pose proof (cround_near t) as C. set (r := cround t) in *. apply qabs_inv in C as [C1 C2]. set (j := Z.max 0 (Z.min (n - 1) r)).
  destruct (Z.lt_trichotomy i j) as [H|[->|H]]; [|apply Qle_refl|].
  - assert (A : (inject_Z i <= inject_Z r - 1)%Q). { assert (inject_Z i + 1 <= inject_Z r)%Q; [|lra]. change 1%Q with (inject_Z 1). rewrite <- inject_Z_plus. apply inj_le. subst j. lia. }
    assert (B : (inject_Z i <= inject_Z j - 1)%Q). { assert (inject_Z i + 1 <= inject_Z j)%Q; [|lra]. change 1%Q with (inject_Z 1). rewrite <- inject_Z_plus. apply inj_le. lia. }
    assert (D : (inject_Z j <= inject_Z r)%Q) by (apply inj_le; subst j; lia).
    apply Qle_trans with (t - inject_Z i)%Q; [apply qabs_le; lra|]. apply Qle_Qabs.
  - assert (A : (inject_Z r <= inject_Z i - 1)%Q). { assert (inject_Z r + 1 <= inject_Z i)%Q; [|lra]. change 1%Q with (inject_Z 1). rewrite <- inject_Z_plus. apply inj_le. subst j. lia. }
    assert (B : (inject_Z j <= inject_Z i - 1)%Q). { assert (inject_Z j + 1 <= inject_Z i)%Q; [|lra]. change 1%Q with (inject_Z 1). rewrite <- inject_Z_plus. apply inj_le. lia. }
    assert (D : (inject_Z r <= inject_Z j)%Q) by (apply inj_le; subst j; lia).
    apply Qle_trans with (inject_Z i - t)%Q; [apply qabs_le; lra|]. apply qabs_lower. right. lra.
Qed.
Lemma qeq_false y : ~ (y == 0)%Q -> Qeq_bool y 0 = false.
Proof. intro H. destruct (Qeq_bool y 0) eqn:E; [|reflexivity]. apply Qeq_bool_iff in E. contradiction. Qed.
Lemma qdivI_ok x y : ~ (y == 0)%Q -> qdivI x y = Ok (x / y)%Q.
Proof. intro H. unfold qdivI. rewrite qeq_false by exact H. reflexivity. Qed.
Lemma getQ_ok l i : 0 <= i < zlen l -> exists x, getQ l i = Ok x /\ zget l i = Some x.
Proof. intro H. destruct (zget_inrange l i H) as (x & E). exists x. unfold getQ. rewrite E. auto. Qed.
Lemma cround_ck t : (Qabs t <= inject_Z 2147483646)%Q -> ck (cround t) = Ok (cround t).
Proof.
  intro H. apply qabs_inv in H as [H1 H2]. pose proof (cround_near t) as C. apply qabs_inv in C as [C1 C2]. apply ck_ok. unfold INT_MIN, INT_MAX.
  assert (inject_Z (cround t) < inject_Z 2147483647)%Q by (change (inject_Z 2147483646) with (2147483646 # 1)%Q in *; change (inject_Z 2147483647) with (2147483647 # 1)%Q; lra).
  assert (inject_Z (-2147483647) < inject_Z (cround t))%Q by (change (inject_Z 2147483646) with (2147483646 # 1)%Q in *; change (inject_Z (-2147483647)) with (- 2147483647 # 1)%Q; lra).
  apply inj_lt_inv in H, H0. lia.
Qed.
Lemma qabs_ext x y : (x == y)%Q -> (Qabs x == Qabs y)%Q. Proof. intros ->. reflexivity. Qed.
Lemma binIndex_nearest e0 b en x : uniform e0 b en -> 1 < zlen en -> fitsInt e0 b x -> exists j, binIndex en x = Ok j /\ nearest en x j.
Proof.
  intros (B & _ & U) L F. unfold binIndex, binSize. replace (1 <? zlen en) with true by (symmetry; apply Z.ltb_lt; exact L).
  destruct (getQ_ok en 1) as (a1 & E1 & Z1); [lia|]. destruct (getQ_ok en 0) as (a0 & E0 & Z0); [lia|]. rewrite E1, E0. cbn [bind]. apply U in Z0 as Q0. apply U in Z1 as Q1. change (inject_Z 0) with 0%Q in Q0. change (inject_Z 1) with 1%Q in Q1.
  assert (D : (a1 - a0 == b)%Q) by (rewrite Q0, Q1; ring). rewrite qdivI_ok by (intro X; rewrite D in X; lra). cbn [bind].
  assert (T : ((x - a0) / (a1 - a0) == (x - e0) / b)%Q) by (rewrite D, Q0; apply Qmult_comp; [ring|reflexivity]). set (t := ((x - a0) / (a1 - a0))%Q) in *.
  rewrite cround_ck by (rewrite (qabs_ext _ _ T); exact F). cbn [bind]. set (j := Z.max 0 (Z.min (zlen en - 1) (cround t))). exists j. split; [reflexivity|].
  assert (J : 0 <= j < zlen en) by (subst j; lia). destruct (zget_inrange en j J) as (ej & Ej). exists ej. split; [exact Ej|]. intros i ei Ei.
  assert (G : forall k ek, zget en k = Some ek -> (Qabs (x - ek) == b * Qabs (t - inject_Z k))%Q).
  { intros k ek Ek. apply U in Ek. rewrite <- (Qabs_pos b) at 1 by lra. rewrite <- Qabs_Qmult. apply qabs_ext. rewrite T, Ek. field. lra. }
  rewrite (G _ _ Ej), (G _ _ Ei). apply zget_Some in Ei as [I _]. assert (C := clamp_nearest t (zlen en) i ltac:(lia) I). fold j in C. apply Qmult_le_l; assumption.
Qed.
Lemma getCoupling_nearest e0 b en g nu x y : uniform e0 b en -> 1 < zlen en -> fitsInt e0 b x -> fitsInt e0 b y ->
  exists j k, nearest en x j /\ nearest en y k /\ getCoupling en g nu x y = Ok (g nu j k).
Proof.
  intros U L Fx Fy. destruct (binIndex_nearest e0 b en x U L Fx) as (j & Ej & Nj). destruct (binIndex_nearest e0 b en y U L Fy) as (k & Ek & Nk). exists j, k. split; [exact Nj|]. split; [exact Nk|]. unfold getCoupling. rewrite Ej, Ek. reflexivity.
Qed.
(** a single bin: the whole table is one element *)
Lemma binIndex_single e0 x : fitsInt e0 1 x -> binIndex [e0] x = Ok 0.
Proof.
  intro F. unfold binIndex, binSize. change (1 <? zlen [e0]) with false. cbn [bind]. change (getQ [e0] 0) with (Ok e0). cbn [bind]. rewrite qdivI_ok by (intro X; discriminate X). cbn [bind]. rewrite cround_ck by exact F. cbn [bind]. f_equal. change (zlen [e0]) with 1. lia.
Qed.
Lemma binIndex_equal en x : 1 < zlen en -> (forall a b, zget en 0 = Some a -> zget en 1 = Some b -> (a == b)%Q) -> binIndex en x = UB.
Proof.
  intros L H. unfold binIndex, binSize. replace (1 <? zlen en) with true by (symmetry; apply Z.ltb_lt; exact L). destruct (getQ_ok en 1) as (a1 & E1 & Z1); [lia|]. destruct (getQ_ok en 0) as (a0 & E0 & Z0); [lia|]. rewrite E1, E0. cbn [bind].
  unfold qdivI. replace (Qeq_bool (a1 - a0) 0) with true; [reflexivity|]. symmetry. apply Qeq_bool_iff. rewrite (H a0 a1 Z0 Z1). ring.
Qed.

(** * Grids *)
Lemma quot_floor (x : Q) : (0 <= x)%Q -> (inject_Z (qtrunc x) <= x /\ x < inject_Z (qtrunc x) + 1)%Q /\ 0 <= qtrunc x.
Proof.
  intro H. destruct x as [a d]. unfold qtrunc. cbn [Qnum Qden]. assert (A : 0 <= a) by (unfold Qle in H; cbn in H; lia). rewrite Z.quot_div_nonneg by lia.
  change (a / Zpos d) with (Qfloor (a # d)). split; [split; [apply Qfloor_le|]|apply Z.div_pos; lia]. pose proof (Qlt_floor (a # d)). rewrite inject_Z_plus in H0. exact H0.
Qed.
Lemma zget_map_range {A} (f : Z -> A) n i : 0 <= i < n -> zget (map f (zrange 0 n)) i = Some (f i).
Proof. intro H. rewrite zget_map, zget_zrange by exact H. reflexivity. Qed.
Lemma zget_map_range_inv {A} (f : Z -> A) n i x : zget (map f (zrange 0 n)) i = Some x -> 0 <= i < n /\ x = f i.
Proof. intro H. assert (R : 0 <= i < n). { apply zget_Some in H as [[Ha Hb] _]. rewrite zlen_map in Hb. destruct (Z.lt_ge_cases 0 n); [rewrite zlen_zrange in Hb by lia; lia|]. rewrite zrange_nil in Hb by lia. unfold zlen in Hb. cbn in Hb. lia. } split; [exact R|]. rewrite zget_map_range in H by exact R. congruence. Qed.
Lemma epaGrid_spec fermi range step : (0 <= range)%Q -> (0 < step)%Q ->
  exists es, epaGrid fermi range step = Ok es /\
    (inject_Z (zlen es) * step <= 2 * range < (inject_Z (zlen es) + 1) * step)%Q /\
    forall i e, zget es i = Some e -> (e == fermi - range + (inject_Z i + (1 # 2)) * step)%Q /\ (fermi - range < e < fermi + range)%Q.
Proof.
  intros R S. unfold epaGrid. rewrite qdivI_ok by lra. cbn [bind]. set (t := ((fermi + range - (fermi - range)) / step)%Q). assert (T : (t * step == 2 * range)%Q) by (unfold t; field; lra). assert (T0 : (0 <= t)%Q). { apply Qle_shift_div_l; lra. }
  replace (Qle_bool t (-1)) with false by (symmetry; destruct (Qle_bool t (-1)) eqn:X; [apply Qle_bool_iff in X; lra|reflexivity]). destruct (quot_floor t T0) as ((L1 & L2) & N). set (n := qtrunc t) in *. eexists. split; [reflexivity|]. rewrite zlen_map, zlen_zrange by exact N.
  assert (Hn : (inject_Z n * step <= 2 * range)%Q) by (rewrite <- T; apply Qmult_le_compat_r; lra). split; [split; [exact Hn|rewrite <- T; apply Qmult_lt_compat_r; lra]|]. intros i e E. apply zget_map_range_inv in E as [I ->]. split; [ring|].
  assert (I0 : (0 <= inject_Z i)%Q) by (change 0%Q with (inject_Z 0); apply inj_le; lia). assert (I1 : (inject_Z i <= inject_Z n - 1)%Q). { assert (inject_Z i + 1 <= inject_Z n)%Q; [|lra]. change 1%Q with (inject_Z 1). rewrite <- inject_Z_plus. apply inj_le. lia. }
  assert (P : (0 < (inject_Z i + (1 # 2)) * step)%Q) by (apply Qmult_lt_0_compat; lra). assert (P2 : ((inject_Z i + (1 # 2)) * step < inject_Z n * step)%Q) by (apply Qmult_lt_compat_r; lra). lra.
Qed.
Lemma epaBins_delta emin emax d num : (emin <= emax)%Q -> (0 < d)%Q -> ((emax - emin) / d <= inject_Z 2147483646)%Q ->
  exists es, epaBins emin emax (Some d) num = Ok es /\ uniform emin d es /\
    (inject_Z (zlen es - 1) * d <= emax - emin < inject_Z (zlen es) * d)%Q.
Proof.
  intros E D F. unfold epaBins. replace (Qle_bool emin emax) with true by (symmetry; apply Qle_bool_iff; exact E). cbn [negb]. rewrite qdivI_ok by lra. cbn [bind]. set (t := ((emax - emin) / d)%Q) in *. assert (T : (t * d == emax - emin)%Q) by (unfold t; field; lra).
  assert (T0 : (0 <= t)%Q) by (apply Qle_shift_div_l; lra). destruct (quot_floor t T0) as ((L1 & L2) & N). set (n := qtrunc t) in *. assert (Hn : n <= 2147483646) by (apply inj_le_inv; lra).
  rewrite ck_ok by (unfold INT_MIN, INT_MAX; lia). cbn [bind]. rewrite ck_ok by (unfold INT_MIN, INT_MAX; lia). cbn [bind]. replace (n + 1 <? 0) with false by (symmetry; apply Z.ltb_ge; lia). eexists. split; [reflexivity|].
  rewrite zlen_map, zlen_zrange by lia. split.
  - split; [exact D|]. split; [rewrite zlen_map, zlen_zrange by lia; lia|]. intros i x Hx. apply zget_map_range_inv in Hx as [_ ->]. ring.
  - replace (n + 1 - 1) with n by lia. rewrite inject_Z_plus. change (inject_Z 1) with 1%Q. rewrite <- T. split; [apply Qmult_le_compat_r; lra|apply Qmult_lt_compat_r; lra].
Qed.
Lemma epaBins_number emin emax num : (emin < emax)%Q -> 0 < num ->
  exists es, epaBins emin emax None num = Ok es /\ zlen es = num /\ uniform emin ((emax - emin) / inject_Z num) es.
Proof.
  intros E N. unfold epaBins. replace (Qle_bool emin emax) with true by (symmetry; apply Qle_bool_iff; lra). cbn [negb]. assert (P : (0 < inject_Z num)%Q) by (change 0%Q with (inject_Z 0); apply inj_lt; lia). rewrite qdivI_ok by lra. cbn [bind].
  replace (num <? 0) with false by (symmetry; apply Z.ltb_ge; lia). eexists. split; [reflexivity|]. split; [rewrite zlen_map, zlen_zrange by lia; reflexivity|]. split; [apply Qlt_shift_div_l; lra|]. split; [rewrite zlen_map, zlen_zrange by lia; lia|]. intros i x Hx. apply zget_map_range_inv in Hx as [_ ->]. ring.
Qed.
Lemma epaBins_refused emin emax d num : (emax < emin)%Q -> epaBins emin emax d num = Err.
Proof. intro H. unfold epaBins. destruct (Qle_bool emin emax) eqn:X; [apply Qle_bool_iff in X; lra|reflexivity]. Qed.
(** the nearest of the bins is within one step of every energy of the window *)
Lemma nearest_within emin d es x j e : uniform emin d es -> (emin <= x < emin + inject_Z (zlen es) * d)%Q -> nearest es x j -> zget es j = Some e -> (Qabs (x - e) <= d)%Q.
Proof.
  intros (D & L & U) (X1 & X2) (ej & Ej & Hj) E. rewrite E in Ej. injection Ej as <-. set (t := ((x - emin) / d)%Q). assert (T : (t * d == x - emin)%Q) by (unfold t; field; lra). assert (T0 : (0 <= t)%Q) by (apply Qle_shift_div_l; lra). destruct (quot_floor t T0) as ((L1 & L2) & N). set (n := qtrunc t) in *.
  assert (Hn : n < zlen es). { apply inj_lt_inv. apply Qle_lt_trans with t; [exact L1|]. apply Qlt_shift_div_r; lra. }
  destruct (zget_inrange es n ltac:(lia)) as (en & En). apply Qle_trans with (Qabs (x - en)); [exact (Hj n en En)|]. apply U in En. assert (x - en == (t - inject_Z n) * d)%Q by (rewrite En; transitivity (t * d - inject_Z n * d)%Q; [rewrite T; ring|ring]).
  rewrite (qabs_ext _ _ H). assert (0 <= (t - inject_Z n) * d)%Q by (apply Qmult_le_0_compat; lra). assert ((t - inject_Z n) * d <= 1 * d)%Q by (apply Qmult_le_compat_r; lra). apply qabs_le; lra.
Qed.

(** * The averaged couplings *)
Lemma sumQ_map_flat_map {A B} (h : B -> Q) (g : A -> list B) l : (sumQ (map h (flat_map g l)) == sumQ (map (fun x => sumQ (map h (g x))) l))%Q.
Proof. induction l as [|x l IH]; [reflexivity|]. cbn [flat_map map]. rewrite map_app, sumQ_app, sumQ_cons, IH. reflexivity. Qed.
Lemma star_terms nB nK gauss i j nu stars (h : Q * Q * Q -> Q) (F : epaQ -> Z -> Z -> Z -> Q) :
  (forall q ik ib2 ib1, (F q ik ib2 ib1 == h (weightOf gauss q i j ik ib2 ib1, qG2 q ib1 ib2 nu ik, qPh q nu))%Q) ->
  (sumQ (map (fun star => sumStar nB nK star F) stars) == sumQ (map h (epaTerms nB nK gauss i j nu stars)))%Q.
Proof.
  intro H. unfold epaTerms. rewrite sumQ_map_flat_map. apply sumQ_map_ext. intros star _. unfold sumStar. rewrite sumQ_flat_map, sumQ_map_flat_map. apply sumQ_map_ext. intros ik _. rewrite sumQ_flat_map, sumQ_map_flat_map.
  apply sumQ_map_ext. intros q _. rewrite sumQ_flat_map, sumQ_map_flat_map. apply sumQ_map_ext. intros ib2 _. rewrite map_map. apply sumQ_map_ext. intros ib1 _. apply H.
Qed.
Lemma sumQ_filter {A} (f : A -> Q) p l : (sumQ (map f (filter p l)) == sumQ (map (fun x => if p x then f x else 0%Q) l))%Q.
Proof. induction l as [|x l IH]; [reflexivity|]. cbn [filter map]. destruct (p x); cbn [map]; rewrite !sumQ_cons, IH; ring. Qed.
Lemma epaAverage_value nB nK gauss cut size stars nu i j : fits (zlen stars) size ->
  exists r, epaAverage nB nK gauss cut size stars nu i j = Ok r /\
    let l := epaTerms nB nK gauss i j nu stars in
    let kept := filter (fun t => negb (Qle_bool (snd t) cut)) l in
    ((1 # 1000000000000) < totalWeight l -> r == totalCoupling kept / totalWeight l)%Q /\
    (totalWeight l <= (1 # 1000000000000) -> r == totalCoupling kept)%Q.
Proof.
  intro F. unfold epaAverage. destruct (overProcesses_ok size stars (normStar nB nK gauss i j) F) as (n & En & Qn). destruct (overProcesses_ok size stars (g2Star nB nK gauss cut nu i j) F) as (g & Eg & Qg). rewrite En, Eg. cbn [bind]. eexists. split; [reflexivity|].
  assert (Wn : (n == totalWeight (epaTerms nB nK gauss i j nu stars))%Q) by (rewrite Qn; unfold totalWeight; apply (star_terms nB nK gauss i j nu stars (fun t => fst (fst t))); intros; reflexivity).
  assert (Wg : (g == totalCoupling (filter (fun t => negb (Qle_bool (snd t) cut)) (epaTerms nB nK gauss i j nu stars)))%Q).
  { rewrite Qg. unfold totalCoupling. rewrite sumQ_filter. apply (star_terms nB nK gauss i j nu stars (fun t => if negb (Qle_bool (snd t) cut) then (fst (fst t) * (snd (fst t) / (2 * snd t)))%Q else 0%Q)). intros q ik ib2 ib1. cbn [fst snd]. destruct (Qle_bool (qPh q nu) cut); cbn [negb]; [reflexivity|].
    unfold Qdiv. rewrite Qinv_mult_distr. change (/ 2)%Q with (1 # 2)%Q. ring. }
  cbv zeta. split; intro H.
  - destruct (Qle_bool n (1 # 1000000000000)) eqn:X; [apply Qle_bool_iff in X; lra|]. rewrite Wg, Wn. reflexivity.
  - destruct (Qle_bool n (1 # 1000000000000)) eqn:X; [exact Wg|]. assert (Y : Qle_bool n (1 # 1000000000000) = true) by (apply Qle_bool_iff; lra). congruence.
Qed.
Lemma filter_all {A} (p : A -> bool) l : (forall x, In x l -> p x = true) -> filter p l = l.
Proof. induction l as [|x l IH]; intro H; [reflexivity|]. cbn. rewrite (H x) by (left; reflexivity). f_equal. apply IH. intros; apply H; right; assumption. Qed.
Lemma average_bounds (l : list (Q * Q * Q)) m M : (forall t, In t l -> (0 <= fst (fst t)) /\ (m <= snd (fst t) / (2 * snd t) <= M))%Q -> (0 < totalWeight l)%Q ->
  (m <= totalCoupling l / totalWeight l <= M)%Q.
Proof.
  intros H W. assert (A : (m * totalWeight l <= totalCoupling l)%Q). { unfold totalWeight, totalCoupling. rewrite <- sumQ_map_mul. apply sumQ_le. intros t It. destruct (H t It) as (H0 & H1 & H2). rewrite (Qmult_comm (fst (fst t))). apply Qmult_le_compat_r; assumption. }
  assert (B : (totalCoupling l <= M * totalWeight l)%Q). { unfold totalWeight, totalCoupling. rewrite <- sumQ_map_mul. apply sumQ_le. intros t It. destruct (H t It) as (H0 & H1 & H2). rewrite (Qmult_comm (fst (fst t))). apply Qmult_le_compat_r; assumption. }
  split; [apply Qle_shift_div_l|apply Qle_shift_div_r]; assumption.
Qed.
Lemma epaFrequency_value size nQ stars nu : fits (zlen stars) size -> exists r, epaFrequency size nQ stars nu = Ok r /\ (r == sumQ (map (fun q => qPh q nu) (concat stars)) / inject_Z nQ)%Q.
Proof.
  intro F. unfold epaFrequency. destruct (overProcesses_ok size stars (phStar nQ nu) F) as (r & E & Q). exists r. split; [exact E|]. rewrite Q. clear. induction stars as [|s l IH]; [cbn [map concat]; change (sumQ []) with 0%Q; unfold Qdiv; ring|]. cbn [map concat]. rewrite sumQ_cons, IH, map_app, sumQ_app. unfold phStar, Qdiv. ring.
Qed.

(** * The file *)
Lemma readReals_app xs rest : readReals (length xs) (map TReal xs ++ rest) = Ok (xs, rest).
Proof. induction xs as [|x xs IH]; [reflexivity|]. cbn [length readReals map app readReal]. cbn [bind fst snd]. rewrite IH. reflexivity. Qed.
Lemma readOrZero_firstn m : forall n xs, length xs = n -> (m <= n)%nat -> fst (readOrZero n (map TReal (firstn m xs))) = firstn m xs ++ repeat 0%Q (n - m).
Proof.
  induction m as [|m IH]; intros n xs L M.
  - cbn [firstn map app]. rewrite Nat.sub_0_r. clear. induction n as [|n IH]; [reflexivity|]. cbn. destruct (readOrZero n []) as [a b]. cbn in *. rewrite IH. reflexivity.
  - destruct n as [|n]; [lia|]. destruct xs as [|x xs]; [discriminate|]. cbn [firstn map readOrZero app]. specialize (IH n xs ltac:(cbn in L; lia) ltac:(lia)). destruct (readOrZero n (map TReal (firstn m xs))) as [a b]. cbn [fst] in *. rewrite IH. replace (S n - S m)%nat with (n - m)%nat by lia. reflexivity.
Qed.
Definition allCouplings (pr : Q -> Q) (nm ne : Z) (g : Z -> Z -> Z -> Q) : list Q :=
  flat_map (fun nu => flat_map (fun j => map (fun k => pr (g nu j k)) (zrange 0 ne)) (zrange 0 ne)) (zrange 0 nm).
Lemma flat_map_len {A B} (f : A -> list B) l m : (forall x, In x l -> length (f x) = m) -> length (flat_map f l) = (length l * m)%nat.
Proof. induction l as [|x l IH]; intro H; [reflexivity|]. cbn [flat_map length]. rewrite app_length, (H x), IH by (intros; try apply H; cbn; auto). lia. Qed.
Lemma flat_map_nth {A B} (f : A -> list B) m : forall l i k x, (forall x, In x l -> length (f x) = m) -> nth_error l i = Some x -> (k < m)%nat -> nth_error (flat_map f l) (i * m + k) = nth_error (f x) k.
Proof.
  induction l as [|y l IH]; intros i k x H N K; [destruct i; discriminate|]. cbn [flat_map]. assert (L : length (f y) = m) by (apply H; left; reflexivity). destruct i as [|i]; cbn in N.
  - injection N as ->. cbn [Nat.mul Nat.add]. apply nth_error_app1. lia.
  - rewrite nth_error_app2 by (rewrite L; cbn; lia). rewrite L. replace (S i * m + k - m)%nat with (i * m + k)%nat by (cbn; lia). apply IH; [intros; apply H; right; assumption|exact N|exact K].
Qed.
Lemma allCouplings_len pr nm ne g : length (allCouplings pr nm ne g) = (Z.to_nat nm * (Z.to_nat ne * Z.to_nat ne))%nat.
Proof. unfold allCouplings. rewrite (flat_map_len _ _ (Z.to_nat ne * Z.to_nat ne)), zrange_length; [reflexivity|]. intros nu _. rewrite (flat_map_len _ _ (Z.to_nat ne)), zrange_length; [reflexivity|]. intros j _. rewrite map_length, zrange_length. reflexivity. Qed.
Lemma allCouplings_nth pr nm ne g nu j k : 0 <= nu < nm -> 0 <= j < ne -> 0 <= k < ne -> nth_error (allCouplings pr nm ne g) (Z.to_nat ((nu * ne + j) * ne + k)) = Some (pr (g nu j k)).
Proof.
  intros Hn Hj Hk. replace (Z.to_nat ((nu * ne + j) * ne + k)) with (Z.to_nat nu * (Z.to_nat ne * Z.to_nat ne) + (Z.to_nat j * Z.to_nat ne + Z.to_nat k))%nat by nia.
  unfold allCouplings. assert (R : forall a n, 0 <= a < n -> nth_error (zrange 0 n) (Z.to_nat a) = Some a) by (intros a n Ha; rewrite nth_error_zrange by lia; f_equal; lia).
  rewrite (flat_map_nth _ (Z.to_nat ne * Z.to_nat ne) _ _ _ nu); [|intros x _; rewrite (flat_map_len _ _ (Z.to_nat ne)), zrange_length; [reflexivity|]; intros; rewrite map_length, zrange_length; reflexivity|apply R; lia|nia].
  rewrite (flat_map_nth _ (Z.to_nat ne) _ _ _ j); [|intros; rewrite map_length, zrange_length; reflexivity|apply R; lia|lia]. rewrite nth_error_map, R by lia. reflexivity.
Qed.
Lemma map_flat_map {A B C} (f : B -> C) (g : A -> list B) l : map f (flat_map g l) = flat_map (fun x => map f (g x)) l.
Proof. induction l as [|x l IH]; [reflexivity|]. cbn. rewrite map_app, IH. reflexivity. Qed.
Lemma writeEpa_shape pr nel nspin ph en g : writeEpa pr nel nspin ph en g =
  TInt nel :: TInt nspin :: TInt (zlen ph) :: map TReal (map pr ph) ++ TInt (zlen en) :: map TReal (map pr en) ++ map TReal (allCouplings pr (zlen ph) (zlen en) g).
Proof.
  unfold writeEpa. cbn [app]. rewrite !map_map. do 5 f_equal. f_equal. unfold allCouplings. rewrite map_flat_map. apply flat_map_ext. intro nu. rewrite map_flat_map. apply flat_map_ext. intro j. rewrite map_map. reflexivity.
Qed.
Definition fileOf (nel : Z) (pr : Q -> Q) (ph en : list Q) (gs : list Q) : epaFile :=
  {| efElectrons := nel; efModes := zlen ph; efPh := map pr ph; efEnergies := zlen en; efEn := map pr en; efG := gs |}.
Lemma parse_prefix pr nel ph en g m : (m <= length (allCouplings pr (zlen ph) (zlen en) g))%nat ->
  parseEpa (TInt nel :: TInt 1 :: TInt (zlen ph) :: map TReal (map pr ph) ++ TInt (zlen en) :: map TReal (map pr en) ++ map TReal (firstn m (allCouplings pr (zlen ph) (zlen en) g)))
  = Ok (fileOf nel pr ph en (firstn m (allCouplings pr (zlen ph) (zlen en) g) ++ repeat 0%Q (length (allCouplings pr (zlen ph) (zlen en) g) - m))).
Proof.
  intro M. unfold parseEpa. cbn [readInt bind negb Z.eqb]. change (negb (1 =? 1)) with false. cbv iota. pose proof (zlen_nonneg ph). pose proof (zlen_nonneg en). replace (zlen ph <? 0) with false by (symmetry; apply Z.ltb_ge; lia).
  replace (Z.to_nat (zlen ph)) with (length (map pr ph)) by (rewrite map_length; unfold zlen; lia). rewrite readReals_app. cbn [bind readInt]. replace (zlen en <? 0) with false by (symmetry; apply Z.ltb_ge; lia).
  replace (Z.to_nat (zlen en)) with (length (map pr en)) by (rewrite map_length; unfold zlen; lia). rewrite readReals_app. cbn [bind].
  set (cs := allCouplings pr (zlen ph) (zlen en) g) in *. assert (L : length cs = Z.to_nat (zlen ph * zlen en * zlen en)) by (unfold cs; rewrite allCouplings_len; nia). rewrite <- L. pose proof (readOrZero_firstn m (length cs) cs eq_refl M) as R. destruct (readOrZero (length cs) (map TReal (firstn m cs))) as [a b]. cbn [fst] in R. rewrite R. reflexivity.
Qed.
Lemma parse_write pr nel ph en g : parseEpa (writeEpa pr nel 1 ph en g) = Ok (fileOf nel pr ph en (allCouplings pr (zlen ph) (zlen en) g)).
Proof.
  rewrite writeEpa_shape. pose proof (parse_prefix pr nel ph en g (length (allCouplings pr (zlen ph) (zlen en) g)) (Nat.le_refl _)) as P. rewrite firstn_all, Nat.sub_diag in P. cbn [repeat] in P. rewrite app_nil_r in P. exact P.
Qed.
Lemma firstn_app_exact {A} (a b : list A) m : firstn (length a + m) (a ++ b) = a ++ firstn m b.
Proof. rewrite firstn_app_2. reflexivity. Qed.
Lemma parse_truncated pr nel ph en g m : (m <= Z.to_nat (zlen ph * zlen en * zlen en))%nat ->
  parseEpa (firstn (4 + length ph + length en + m) (writeEpa pr nel 1 ph en g)) = Ok (fileOf nel pr ph en (firstn m (allCouplings pr (zlen ph) (zlen en) g) ++ repeat 0%Q (Z.to_nat (zlen ph * zlen en * zlen en) - m))).
Proof.
  intro M. pose proof (zlen_nonneg ph). pose proof (zlen_nonneg en). assert (L : length (allCouplings pr (zlen ph) (zlen en) g) = Z.to_nat (zlen ph * zlen en * zlen en)) by (rewrite allCouplings_len; nia). rewrite <- L in M. rewrite <- L, <- (parse_prefix pr nel ph en g m M). f_equal. rewrite writeEpa_shape.
  replace (4 + length ph + length en + m)%nat with (S (S (S (length (map TReal (map pr ph)) + S (length (map TReal (map pr en)) + m))))) by (rewrite !map_length; lia).
  cbn [firstn]. rewrite firstn_app_exact. cbn [firstn]. rewrite firstn_app_exact, firstn_map. reflexivity.
Qed.
Lemma parse_spin pr nel ns ph en g : ns <> 1 -> parseEpa (writeEpa pr nel ns ph en g) = Err.
Proof. intro H. rewrite writeEpa_shape. unfold parseEpa. cbn [readInt bind]. replace (ns =? 1) with false by (symmetry; apply Z.eqb_neq; exact H). reflexivity. Qed.

(** * Densities of states at the final energies *)
Lemma dosFinal_spec e0 step energies dos iE e el w : uniform e0 step energies -> zlen dos = zlen energies -> zget energies iE = Some e -> zget energies (zlen energies - 1) = Some el -> (0 <= w)%Q -> (w / step <= inject_Z 2147483647)%Q ->
  exists em ab, dosFinal dos iE w step = Ok (em, ab) /\
    ((e0 < e - w)%Q -> interpolatedAt energies dos (e - w) em) /\ ((e - w <= e0)%Q -> (em == 0)%Q) /\
    ((e + w < el)%Q -> interpolatedAt energies dos (e + w) ab) /\ ((el <= e + w)%Q -> (ab == 0)%Q).
Proof.
  intros (S & L & U) D E El W F. unfold dosFinal. rewrite qdivI_ok by lra. cbn [bind]. set (t := (w / step)%Q) in *. assert (T : (t * step == w)%Q) by (unfold t; field; lra). assert (T0 : (0 <= t)%Q) by (apply Qle_shift_div_l; lra).
  destruct (quot_floor t T0) as ((L1 & L2) & N). set (n := qtrunc t) in *. assert (Hn : n <= 2147483647) by (apply inj_le_inv; lra). rewrite ck_ok by (unfold INT_MIN, INT_MAX; lia). cbn [bind].
  apply zget_Some in E as E'. destruct E' as [I _]. apply U in E as Ee. apply U in El as Eel. set (nE := zlen energies) in *.
  assert (SP : forall x y, (x <= y)%Q -> (x * step <= y * step)%Q) by (intros; apply Qmult_le_compat_r; lra).
  assert (SL : forall x y, (x < y)%Q -> (x * step < y * step)%Q) by (intros; apply Qmult_lt_compat_r; assumption).
  assert (A : exists em, (if 0 <=? iE - n - 1 then do a <- getQ dos (iE - n - 1) ; do b <- getQ dos (iE - n) ; Ok (a * (t - inject_Z n) + b * (1 - (t - inject_Z n)))%Q else Ok 0%Q) = Ok em /\ ((e0 < e - w)%Q -> interpolatedAt energies dos (e - w) em) /\ ((e - w <= e0)%Q -> (em == 0)%Q)).
  { destruct (Z.leb_spec 0 (iE - n - 1)) as [J|J].
    - destruct (getQ_ok dos (iE - n - 1)) as (a & Ea & Za); [lia|]. destruct (getQ_ok dos (iE - n)) as (b & Eb & Zb); [lia|]. rewrite Ea, Eb. cbn [bind]. eexists. split; [reflexivity|].
      destruct (zget_inrange energies (iE - n - 1)) as (e1 & X1); [lia|]. destruct (zget_inrange energies (iE - n)) as (e2 & X2); [lia|]. apply U in X1 as Y1. apply U in X2 as Y2. unfold Z.sub in Y1, Y2. rewrite !inject_Z_plus, !inject_Z_opp in Y1. rewrite !inject_Z_plus, !inject_Z_opp in Y2. change (inject_Z 1) with 1%Q in Y1.
      assert (B1 : (0 <= (t - inject_Z n) * step)%Q) by (apply Qmult_le_0_compat; lra). assert (B2 : ((t - inject_Z n) * step < 1 * step)%Q) by (apply SL; lra). assert (P : (0 <= inject_Z (iE - n - 1) * step)%Q) by (apply Qmult_le_0_compat; [change 0%Q with (inject_Z 0); apply inj_le; lia|lra]). unfold Z.sub in P. rewrite !inject_Z_plus, !inject_Z_opp in P. change (inject_Z 1) with 1%Q in P.
      split; [intros _|intro X; exfalso; rewrite Ee, <- T in X; lra].
      exists (iE - n - 1), e1, e2, a, b. replace (iE - n - 1 + 1) with (iE - n) by lia. split; [exact X1|]. split; [exact X2|]. split; [exact Za|]. split; [exact Zb|]. rewrite Y1, Y2, Ee, <- T. split; [split; lra|ring].
    - eexists. split; [reflexivity|]. split; [|reflexivity]. intro X. exfalso. assert (inject_Z iE <= inject_Z n)%Q by (apply inj_le; lia). assert ((inject_Z iE) * step <= t * step)%Q by (apply SP; lra). rewrite Ee, <- T in X. lra. }
  assert (B : exists ab, (if iE + n + 1 <? zlen dos then do a <- getQ dos (iE + n) ; do b <- getQ dos (iE + n + 1) ; Ok (a * (1 - (t - inject_Z n)) + b * (t - inject_Z n))%Q else Ok 0%Q) = Ok ab /\ ((e + w < el)%Q -> interpolatedAt energies dos (e + w) ab) /\ ((el <= e + w)%Q -> (ab == 0)%Q)).
  { rewrite D. fold nE. unfold Z.sub in Eel. rewrite inject_Z_plus, inject_Z_opp in Eel. change (inject_Z 1) with 1%Q in Eel. destruct (Z.ltb_spec (iE + n + 1) nE) as [J|J].
    - destruct (getQ_ok dos (iE + n)) as (a & Ea & Za); [lia|]. destruct (getQ_ok dos (iE + n + 1)) as (b & Eb & Zb); [lia|]. rewrite Ea, Eb. cbn [bind]. eexists. split; [reflexivity|].
      destruct (zget_inrange energies (iE + n)) as (e1 & X1); [lia|]. destruct (zget_inrange energies (iE + n + 1)) as (e2 & X2); [lia|]. apply U in X1 as Y1. apply U in X2 as Y2. rewrite !inject_Z_plus in Y1. rewrite !inject_Z_plus in Y2. change (inject_Z 1) with 1%Q in Y2.
      assert (B1 : (0 <= (t - inject_Z n) * step)%Q) by (apply Qmult_le_0_compat; lra). assert (B2 : ((t - inject_Z n) * step < 1 * step)%Q) by (apply SL; lra).
      split; [intros _|intro X; exfalso].
      + exists (iE + n), e1, e2, a, b. split; [exact X1|]. split; [exact X2|]. split; [exact Za|]. split; [exact Zb|]. rewrite Y1, Y2, Ee, <- T. split; [split; lra|ring].
      + assert (P : (inject_Z (iE + n + 1) * step <= (inject_Z nE - 1) * step)%Q). { apply SP. change 1%Q with (inject_Z 1). unfold Qminus. rewrite <- inject_Z_opp, <- inject_Z_plus. apply inj_le. lia. } rewrite !inject_Z_plus in P. change (inject_Z 1) with 1%Q in P. rewrite Eel, Ee, <- T in X. lra.
    - eexists. split; [reflexivity|]. split; [|reflexivity]. intro X. exfalso. assert (inject_Z nE - 1 <= inject_Z iE + inject_Z n)%Q. { assert (inject_Z nE <= inject_Z (iE + n + 1))%Q by (apply inj_le; lia). rewrite !inject_Z_plus in H. change (inject_Z 1) with 1%Q in H. lra. } assert ((inject_Z nE - 1) * step <= (inject_Z iE + t) * step)%Q by (apply SP; lra). rewrite Eel, Ee, <- T in X. lra. }
  destruct A as (em & Em & A1 & A2). destruct B as (ab & Eab & B1 & B2). exists em, ab. rewrite Em. cbn [bind]. rewrite Eab. cbn [bind]. split; [reflexivity|]. split; [exact A1|]. split; [exact A2|]. split; assumption.
Qed.
Lemma interpolated_nonneg energies dos e v e0 step : uniform e0 step energies -> (forall i d, zget dos i = Some d -> (0 <= d)%Q) -> interpolatedAt energies dos e v -> (0 <= v)%Q.
Proof.
  intros (S & _ & U) D (i & e1 & e2 & d1 & d2 & X1 & X2 & Z1 & Z2 & (L1 & L2) & V). apply D in Z1, Z2. apply U in X1, X2. rewrite inject_Z_plus in X2. change (inject_Z 1) with 1%Q in X2. assert (G : (e2 - e1 == step)%Q) by (rewrite X1, X2; ring).
  assert (A : (0 <= d1 * (e2 - e))%Q) by (apply Qmult_le_0_compat; lra). assert (B : (0 <= d2 * (e - e1))%Q) by (apply Qmult_le_0_compat; lra). rewrite G in V. destruct (Qlt_le_dec v 0) as [N|N]; [|exact N]. exfalso. assert (v * step < 0 * step)%Q by (apply Qmult_lt_compat_r; assumption). lra.
Qed.
Lemma interpolated_linear energies dos e v e0 step a b : uniform e0 step energies -> linearDos a b energies dos -> interpolatedAt energies dos e v -> (v == a + b * e)%Q.
Proof.
  intros (S & _ & U) (_ & D) (i & e1 & e2 & d1 & d2 & X1 & X2 & Z1 & Z2 & (L1 & L2) & V). pose proof (D _ _ _ X1 Z1) as E1. pose proof (D _ _ _ X2 Z2) as E2. apply U in X1, X2. rewrite inject_Z_plus in X2. change (inject_Z 1) with 1%Q in X2. assert (G : (e2 - e1 == step)%Q) by (rewrite X1, X2; ring).
  apply Qmult_inj_r with (z := step); [lra|]. rewrite <- G at 1. rewrite V, E1, E2, <- G. ring.
Qed.

(** * Rates *)
Lemma mapM_ex {A B} (f : A -> res B) (P : A -> B -> Prop) l : (forall x, In x l -> exists y, f x = Ok y /\ P x y) -> exists ys, mapM f l = Ok ys /\ Forall2 P l ys.
Proof.
  induction l as [|x l IH]; intro H; [exists []; split; [reflexivity|constructor]|]. destruct (H x) as (y & Ey & Py); [left; reflexivity|]. destruct IH as (ys & Eys & Pys); [intros; apply H; right; assumption|]. exists (y :: ys). cbn [mapM]. rewrite Ey. cbn [bind]. rewrite Eys. split; [reflexivity|constructor; assumption].
Qed.
Lemma epaRateAt_spec b0 b binEn g ph e0 step energies dos norm bose fermi iE e el :
  uniform b0 b binEn -> 1 < zlen binEn -> uniform e0 step energies -> zlen dos = zlen energies -> regularInput b0 b step ph energies ->
  zget energies iE = Some e -> zget energies (zlen energies - 1) = Some el ->
  exists r terms, epaRateAt binEn g ph energies dos step norm bose fermi iE = Ok r /\ (r == sumQ terms)%Q /\
    Forall2 (fun nu t => exists w, zget ph nu = Some w /\ oneTerm binEn g energies dos e0 el norm bose fermi e nu w t) (zrange 0 (zlen ph)) terms.
Proof.
  intros Ub Lb Ue D R E El. unfold epaRateAt.
  destruct (mapM_ex (fun nu => do w <- getQ ph nu ; do d <- dosFinal dos iE w step ; do e <- getQ energies iE ; do gA <- getCoupling binEn g nu e (e + w) ; do gE <- getCoupling binEn g nu e (e - w) ;
      Ok (norm * (gA * (bose nu + fermi (e + w)) * snd d + gE * (bose nu + 1 - fermi (e - w)) * fst d))%Q) (fun nu t => exists w, zget ph nu = Some w /\ oneTerm binEn g energies dos e0 el norm bose fermi e nu w t) (zrange 0 (zlen ph))) as (terms & Et & F).
  { intros nu Hn. apply in_zrange in Hn. destruct (getQ_ok ph nu) as (w & Ew & Zw); [lia|]. rewrite Ew. cbn [bind]. apply zget_Some in E as Ie. apply zget_Some in Zw as Iw. destruct (R e w (proj2 Ie) (proj2 Iw)) as ((W0 & W1) & F1 & F2 & F3).
    destruct (dosFinal_spec e0 step energies dos iE e el w Ue D E El W0 W1) as (em & ab & Ed & D1 & D2 & D3 & D4). rewrite Ed. cbn [bind]. unfold getQ at 1. rewrite E. cbn [bind].
    unfold getCoupling. destruct (binIndex_nearest b0 b binEn e Ub Lb F1) as (jE & EjE & NE). destruct (binIndex_nearest b0 b binEn _ Ub Lb F2) as (jA & EjA & NA). destruct (binIndex_nearest b0 b binEn _ Ub Lb F3) as (jM & EjM & NM). rewrite EjE. cbn [bind]. rewrite EjA. cbn [bind]. rewrite EjM. cbn [bind].
    eexists. split; [reflexivity|]. exists w. split; [exact Zw|]. exists jE, jA, jM, em, ab. cbn [fst snd]. split; [exact NE|]. split; [exact NA|]. split; [exact NM|]. split; [exact D1|]. split; [exact D2|]. split; [exact D3|]. split; [exact D4|]. reflexivity. }
  rewrite Et. cbn [bind]. eexists. exists terms. split; [reflexivity|]. split; [reflexivity|exact F].
Qed.
Lemma oneTerm_nonneg binEn g energies dos e0 el step norm bose fermi e nu w t :
  uniform e0 step energies -> (forall i d, zget dos i = Some d -> (0 <= d)%Q) -> (0 <= norm)%Q -> (forall a b c, (0 <= g a b c)%Q) -> (0 <= bose nu)%Q -> (forall x, (0 <= fermi x <= 1)%Q) ->
  oneTerm binEn g energies dos e0 el norm bose fermi e nu w t -> (0 <= t)%Q.
Proof.
  intros U D N G B F (jE & jA & jM & em & ab & _ & _ & _ & E1 & E2 & A1 & A2 & T). assert (Em : (0 <= em)%Q). { destruct (Qlt_le_dec e0 (e - w)) as [X|X]; [exact (interpolated_nonneg _ _ _ _ _ _ U D (E1 X))|rewrite (E2 X); apply Qle_refl]. }
  assert (Ab : (0 <= ab)%Q). { destruct (Qlt_le_dec (e + w) el) as [X|X]; [exact (interpolated_nonneg _ _ _ _ _ _ U D (A1 X))|rewrite (A2 X); apply Qle_refl]. }
  rewrite T. pose proof (F (e + w)%Q). pose proof (F (e - w)%Q). apply Qmult_le_0_compat; [exact N|].
  assert (0 <= g nu jE jA * (bose nu + fermi (e + w)) * ab)%Q by (apply Qmult_le_0_compat; [apply Qmult_le_0_compat; [apply G|lra]|exact Ab]).
  assert (0 <= g nu jE jM * (bose nu + 1 - fermi (e - w)) * em)%Q by (apply Qmult_le_0_compat; [apply Qmult_le_0_compat; [apply G|lra]|exact Em]). lra.
Qed.
Lemma epaRates_spec size b0 b binEn g ph e0 step energies dos norm bose fermi el :
  fits (zlen energies) size -> uniform b0 b binEn -> 1 < zlen binEn -> uniform e0 step energies -> zlen dos = zlen energies -> regularInput b0 b step ph energies -> zget energies (zlen energies - 1) = Some el ->
  exists out, epaRates size binEn g ph energies dos step norm bose fermi = Ok out /\ zlen out = zlen energies /\
    forall iE e, zget energies iE = Some e -> exists r terms, zget out iE = Some r /\ (r == sumQ terms)%Q /\
      Forall2 (fun nu t => exists w, zget ph nu = Some w /\ oneTerm binEn g energies dos e0 el norm bose fermi e nu w t) (zrange 0 (zlen ph)) terms.
Proof.
  intros F Ub Lb Ue D R El. unfold epaRates. set (f := epaRateAt binEn g ph energies dos step norm bose fermi).
  destruct (overEnergies_ok size (zlen energies) f (fun iE => match f iE with Ok r => r | _ => 0%Q end) F) as (out & Eo & Lo & Ho).
  { intros iE Hi. destruct (zget_inrange energies iE Hi) as (e & E). destruct (epaRateAt_spec b0 b binEn g ph e0 step energies dos norm bose fermi iE e el Ub Lb Ue D R E El) as (r & ts & Er & _). unfold f. rewrite Er. reflexivity. }
  exists out. split; [exact Eo|]. split; [exact Lo|]. intros iE e E. apply zget_Some in E as I. destruct (Ho iE (proj1 I)) as (x & Ex & Qx). destruct (epaRateAt_spec b0 b binEn g ph e0 step energies dos norm bose fermi iE e el Ub Lb Ue D R E El) as (r & ts & Er & Qr & Ft). exists x, ts. split; [exact Ex|]. split; [|exact Ft]. rewrite Qx. unfold f. rewrite Er. exact Qr.
Qed.

(** * Projected velocities *)
Lemma projVelocity_sym norm states iE i j : (projVelocity norm states iE i j == projVelocity norm states iE j i)%Q.
Proof. unfold projVelocity. rewrite !sumQ_flat_map. apply sumQ_map_ext. intros s _. apply sumQ_map_ext. intros r _. ring. Qed.
Lemma quad3_expand T x : (quad3 T x == x 0%Z * T 0%Z 0%Z * x 0%Z + x 0%Z * T 0%Z 1%Z * x 1%Z + x 0%Z * T 0%Z 2%Z * x 2%Z + (x 1%Z * T 1%Z 0%Z * x 0%Z + x 1%Z * T 1%Z 1%Z * x 1%Z + x 1%Z * T 1%Z 2%Z * x 2%Z) + (x 2%Z * T 2%Z 0%Z * x 0%Z + x 2%Z * T 2%Z 1%Z * x 1%Z + x 2%Z * T 2%Z 2%Z * x 2%Z))%Q.
Proof. unfold quad3. change (zrange 0 3) with [0; 1; 2]. cbn [list_prod map app fst snd]. rewrite !sumQ_cons. change (sumQ []) with 0%Q. ring. Qed.
Lemma projVelocity_quad norm states iE x :
  (quad3 (projVelocity norm states iE) x == sumQ (flat_map (fun s => map (fun r => ((x 0%Z * rotV r (sVel s) 0%Z + x 1%Z * rotV r (sVel s) 1%Z + x 2%Z * rotV r (sVel s) 2%Z) * (x 0%Z * rotV r (sVel s) 0%Z + x 1%Z * rotV r (sVel s) 1%Z + x 2%Z * rotV r (sVel s) 2%Z) * (sDelta s iE * norm))%Q) (sRot s)) states))%Q.
Proof.
  rewrite quad3_expand. unfold projVelocity. rewrite !sumQ_flat_map. induction states as [|s l IH]; [cbn [map]; change (sumQ []) with 0%Q; ring|]. cbn [map]. rewrite !sumQ_cons, <- IH. clear IH.
  set (F := fun i j => sumQ (map (fun r => rotV r (sVel s) i * rotV r (sVel s) j * sDelta s iE * norm)%Q (sRot s))).
  assert (H : (sumQ (map (fun r => ((x 0%Z * rotV r (sVel s) 0%Z + x 1%Z * rotV r (sVel s) 1%Z + x 2%Z * rotV r (sVel s) 2%Z) * (x 0%Z * rotV r (sVel s) 0%Z + x 1%Z * rotV r (sVel s) 1%Z + x 2%Z * rotV r (sVel s) 2%Z) * (sDelta s iE * norm))%Q) (sRot s)) == x 0%Z * F 0%Z 0%Z * x 0%Z + x 0%Z * F 0%Z 1%Z * x 1%Z + x 0%Z * F 0%Z 2%Z * x 2%Z + (x 1%Z * F 1%Z 0%Z * x 0%Z + x 1%Z * F 1%Z 1%Z * x 1%Z + x 1%Z * F 1%Z 2%Z * x 2%Z) + (x 2%Z * F 2%Z 0%Z * x 0%Z + x 2%Z * F 2%Z 1%Z * x 1%Z + x 2%Z * F 2%Z 2%Z * x 2%Z))%Q).
  { unfold F. clear. induction (sRot s) as [|r rs IH]; [cbn [map]; change (sumQ []) with 0%Q; ring|]. cbn [map]. rewrite !sumQ_cons, IH. ring. }
  rewrite H. unfold F. ring.
Qed.
Lemma projVelocity_psd norm states iE x : (0 <= norm)%Q -> (forall s, In s states -> (0 <= sDelta s iE)%Q) -> (0 <= quad3 (projVelocity norm states iE) x)%Q.
Proof.
  intros N D. rewrite projVelocity_quad. apply sumQ_nonneg. intros y Hy. apply in_flat_map in Hy as (s & Is & Hy). apply in_map_iff in Hy as (r & <- & _). apply Qmult_le_0_compat; [|apply Qmult_le_0_compat; [apply D; exact Is|exact N]].
  generalize (x 0%Z * rotV r (sVel s) 0%Z + x 1%Z * rotV r (sVel s) 1%Z + x 2%Z * rotV r (sVel s) 2%Z)%Q. intro z. destruct (Qlt_le_dec z 0) as [H|H]; [setoid_replace (z * z)%Q with ((- z) * (- z))%Q by ring; apply Qmult_le_0_compat; lra|apply Qmult_le_0_compat; assumption].
Qed.
Lemma projVelocity_invariant norm states iE P i j : starsClosed P states -> 0 <= i < 3 -> 0 <= j < 3 ->
  (projVelocity norm states iE i j == sumQ (map (fun ab => P i (fst ab) * P j (snd ab) * projVelocity norm states iE (fst ab) (snd ab))%Q (list_prod (zrange 0 3) (zrange 0 3))))%Q.
Proof.
  intros C I J. change (list_prod (zrange 0 3) (zrange 0 3)) with [(0,0);(0,1);(0,2);(1,0);(1,1);(1,2);(2,0);(2,1);(2,2)]. cbn [map fst snd]. rewrite !sumQ_cons. change (sumQ []) with 0%Q. unfold projVelocity. rewrite !sumQ_flat_map.
  induction states as [|s l IH]; [cbn [map]; change (sumQ []) with 0%Q; ring|]. cbn [map]. rewrite !sumQ_cons, IH by (intros s' Hs'; apply C; right; exact Hs'). clear IH.
  destruct (C s) as (rs & Pm & Fa); [left; reflexivity|].
  assert (H : (sumQ (map (fun r => rotV r (sVel s) i * rotV r (sVel s) j * sDelta s iE * norm) (sRot s)) == sumQ (map (fun r => rotV P (rotV r (sVel s)) i * rotV P (rotV r (sVel s)) j * sDelta s iE * norm) (sRot s)))%Q).
  { rewrite <- (sumQ_perm _ _ (Permutation_map _ Pm)). clear Pm C. induction Fa as [|r r' a b H Fa IH]; [reflexivity|]. cbn [map]. rewrite !sumQ_cons, IH, (H i I), (H j J). reflexivity. }
  rewrite H. clear. 
  set (F := fun i j => sumQ (map (fun r => rotV r (sVel s) i * rotV r (sVel s) j * sDelta s iE * norm)%Q (sRot s))).
  assert (G : (sumQ (map (fun r => rotV P (rotV r (sVel s)) i * rotV P (rotV r (sVel s)) j * sDelta s iE * norm) (sRot s)) == P i 0%Z * P j 0%Z * F 0%Z 0%Z + (P i 0%Z * P j 1%Z * F 0%Z 1%Z + (P i 0%Z * P j 2%Z * F 0%Z 2%Z + (P i 1%Z * P j 0%Z * F 1%Z 0%Z + (P i 1%Z * P j 1%Z * F 1%Z 1%Z + (P i 1%Z * P j 2%Z * F 1%Z 2%Z + (P i 2%Z * P j 0%Z * F 2%Z 0%Z + (P i 2%Z * P j 1%Z * F 2%Z 1%Z + P i 2%Z * P j 2%Z * F 2%Z 2%Z))))))))%Q).
  { unfold F. induction (sRot s) as [|r rs IH]; [cbn [map]; change (sumQ []) with 0%Q; ring|]. cbn [map]. rewrite !sumQ_cons, IH. assert (X : forall k, rotV P (rotV r (sVel s)) k = (P k 0%Z * rotV r (sVel s) 0%Z + P k 1%Z * rotV r (sVel s) 1%Z + P k 2%Z * rotV r (sVel s) 2%Z)%Q) by reflexivity. rewrite !X. ring. }
  rewrite G. unfold F. ring.
Qed.
Lemma epaDos_full norm states iE : (epaDos norm states iE == sumQ (flat_map (fun s => map (fun _ => (sDelta s iE * norm)%Q) (sRot s)) states))%Q.
Proof. unfold epaDos. rewrite sumQ_flat_map. apply sumQ_map_ext. intros s _. rewrite (sumQ_const (fun _ => (sDelta s iE * norm)%Q) (sDelta s iE * norm)%Q) by (intros; reflexivity). ring. Qed.
Lemma qtrunc_neg t : (t <= -1)%Q -> qtrunc t <= -1.
Proof. intro H. destruct t as [a d]. unfold qtrunc. cbn [Qnum Qden]. unfold Qle in H. cbn in H. assert (a <= - Zpos d) by lia. pose proof (Z.quot_opp_l a (Zpos d) ltac:(lia)). assert (1 <= Z.quot (- a) (Zpos d)) by (apply Z.quot_le_lower_bound; lia). lia. Qed.
Lemma dosFinal_unstable dos w step : 0 < zlen dos -> (0 < step)%Q -> (w <= - step)%Q -> dosFinal dos 0 w step = UB.
Proof.
  intros L S W. unfold dosFinal. rewrite qdivI_ok by lra. cbn [bind]. set (t := (w / step)%Q). assert (T : (t <= -1)%Q) by (apply Qle_shift_div_r; lra). pose proof (qtrunc_neg t T) as N. set (n := qtrunc t) in *.
  unfold ck. destruct ((INT_MIN <=? n) && (n <=? INT_MAX)); [|reflexivity]. cbn [bind]. replace (0 <=? 0 - n - 1) with true by (symmetry; apply Z.leb_le; lia).
  replace (0 + n + 1 <? zlen dos) with true by (symmetry; apply Z.ltb_lt; lia). replace (getQ dos (0 + n)) with (UB : res Q) by (unfold getQ; rewrite zget_None by lia; reflexivity). cbn [bind].
  unfold getQ. destruct (zget dos (0 - n - 1)); cbn [bind]; [|reflexivity]. destruct (zget dos (0 - n)); reflexivity.
Qed.
