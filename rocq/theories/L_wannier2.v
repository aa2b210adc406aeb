(** Threads and processes of the transformation to the Wannier representation. *)
From Coq Require Import Reals QArith Permutation.
From Verif Require Import Base BaseLemmas M_utilities L_utilities M_mpi S_mpi L_mpi L_matrix L_reduce M_wigner S_wigner M_complex L_complex L_dft M_interaction M_wannier S_wannier.
From Coq Require Import Lia Lra.
Open Scope Z_scope.

(** * One thread *)
Definition hits (i j nu : Z) (x : iter4) : bool := let '(nu', i', j', _) := x in (i =? i') && (j =? j') && (nu =? nu').
Lemma fold_add (h : iter4 -> cplx) c : forall T i j nu,
  fold_left (fun T (x : iter4) => let '(nu, i, j, l) := x in addTo T i j nu (h (nu, i, j, l))) c T i j nu = cadd (T i j nu) (csum (map (fun x => if hits i j nu x then h x else c0) c)).
Proof.
  induction c as [|x c IH]; intros T i j nu; cbn [fold_left map]; [rewrite csum_nil; ring|]. rewrite csum_cons, IH. destruct x as [[[nu' i'] j'] l]. unfold addTo, hits. destruct ((i =? i') && (j =? j') && (nu =? nu')); ring.
Qed.
Lemma first_sum uKq g c1 i j nu : threadFirst uKq g c1 i j nu = csum (map (fun x => if hits i j nu x then (let '(nu, i, j, l) := x in cmul (uKq l i) (g l j nu)) else c0) c1).
Proof. unfold threadFirst. rewrite (fold_add (fun x => let '(nu, i, j, l) := x in cmul (uKq l i) (g l j nu))). unfold zero3. ring. Qed.
Lemma second_sum uK tmp c2 i j nu : threadSecond uK tmp c2 i j nu = csum (map (fun x => if hits i j nu x then (let '(nu, i, j, l) := x in cmul (tmp i l nu) (cconj (uK l j))) else c0) c2).
Proof. unfold threadSecond. rewrite (fold_add (fun x => let '(nu, i, j, l) := x in cmul (tmp i l nu) (cconj (uK l j)))). unfold zero3. ring. Qed.
Lemma hits_iff i j nu x : hits i j nu x = true <-> exists l, x = (nu, i, j, l).
Proof.
  destruct x as [[[nu' i'] j'] l]. unfold hits. split.
  - intro H. apply andb_true_iff in H as (H & H3). apply andb_true_iff in H as (H1 & H2). exists l. apply Z.eqb_eq in H1, H2, H3. subst. reflexivity.
  - intros (l' & E). injection E as -> -> -> ->. rewrite !Z.eqb_refl. reflexivity.
Qed.
Lemma hits_sum (L : list iter4) n i j nu (f : iter4 -> cplx) : NoDup L -> (forall l, In (nu, i, j, l) L <-> 0 <= l < n) ->
  csum (map (fun x => if hits i j nu x then f x else c0) L) = csumTo n (fun l => f (nu, i, j, l)).
Proof.
  intros Nd H. rewrite <- csum_filter. unfold csumTo. rewrite <- (map_map (fun l => (nu, i, j, l)) f). apply csum_perm, Permutation_map. apply NoDup_Permutation.
  - apply NoDup_filter. exact Nd.
  - apply FinFun.Injective_map_NoDup; [intros a b E; injection E; auto|apply NoDup_zrange].
  - intro x. rewrite filter_In, hits_iff, in_map_iff. split.
    + intros (Hx & l & ->). exists l. split; [reflexivity|]. apply in_zrange. apply H in Hx. lia.
    + intros (l & <- & Hl). apply in_zrange in Hl. split; [apply H; lia|]. exists l. reflexivity.
Qed.
Lemma collapse_In a b c d nu i j l : In (nu, i, j, l) (collapse4 a b c d) <-> 0 <= nu < a /\ 0 <= i < b /\ 0 <= j < c /\ 0 <= l < d.
Proof. unfold collapse4. rewrite !in_prod_iff, !in_zrange. lia. Qed.
Lemma collapse_NoDup a b c d : NoDup (collapse4 a b c d).
Proof. unfold collapse4. repeat apply NoDup_list_prod; apply NoDup_zrange. Qed.
Lemma concat_NoDup {A} (ls : list (list A)) l : NoDup (concat ls) -> In l ls -> NoDup l.
Proof.
  induction ls as [|x ls IH]; intros H I; [destruct I|]. destruct I as [<-|I]; cbn [concat] in H.
  - exact (proj1 (L_reduce.NoDup_app_inv _ _ H)).
  - apply IH; [|exact I]. exact (proj1 (proj2 (L_reduce.NoDup_app_inv _ _ H))).
Qed.
Lemma in_concat_of {A} (ls : list (list A)) l x : In l ls -> In x l -> In x (concat ls).
Proof. intros. apply in_concat. exists l. split; assumption. Qed.
Lemma csum_concat {A} (f : A -> cplx) (ls : list (list A)) : csum (map f (concat ls)) = csum (map (fun l => csum (map f l)) ls).
Proof. induction ls as [|l ls IH]; [reflexivity|]. cbn [concat map]. rewrite map_app, csum_app, csum_cons, IH. reflexivity. Qed.

Lemma rotate_aligned s nM nW nB uKq uK g i j nu : Distributes s nM nW nB -> Aligned s nM nW nB -> 0 <= i < nW -> 0 <= j < nW -> 0 <= nu < nM ->
  rotateRegion s uKq uK g i j nu = rotated nB uKq uK g i j nu.
Proof.
  intros (P1 & P2) Al Hi Hj Hnu. unfold rotateRegion.
  set (S := fun i l nu => csumTo nB (fun l' => cmul (uKq l' i) (g l' l nu))).
  transitivity (csum (map (fun t : list iter4 * list iter4 => csum (map (fun x => if hits i j nu x then (let '(nu, i, j, l) := x in cmul (S i l nu) (cconj (uK l j))) else c0) (snd t))) s)).
  - apply csum_map_ext. intros t Ht. rewrite second_sum. apply csum_map_ext. intros x Hx. destruct (hits i j nu x) eqn:E; [|reflexivity]. apply hits_iff in E as (l & ->). f_equal. rewrite first_sum.
    assert (I2 : In (nu, i, j, l) (loop2 nM nW nB)). { apply (Permutation_in _ P2), (in_concat_of _ (snd t)); [apply in_map; exact Ht|exact Hx]. } apply collapse_In in I2.
    assert (N1 : NoDup (fst t)). { apply (concat_NoDup (map fst s)); [|apply in_map; exact Ht]. apply (Permutation_NoDup (Permutation_sym P1)), collapse_NoDup. }
    rewrite (hits_sum _ nB i l nu _ N1); [reflexivity|]. intro l'. split.
    + intro I. assert (I1 : In (nu, i, l, l') (loop1 nM nW nB)). { apply (Permutation_in _ P1), (in_concat_of _ (fst t)); [apply in_map; exact Ht|exact I]. } apply collapse_In in I1. lia.
    + intro Hl. apply (Al t nu i j l Ht Hx); lia.
  - rewrite <- (map_map snd (fun c => csum (map (fun x => if hits i j nu x then (let '(nu, i, j, l) := x in cmul (S i l nu) (cconj (uK l j))) else c0) c))). rewrite <- csum_concat.
    rewrite (csum_perm _ _ (Permutation_map _ P2)). unfold rotated, loop2. rewrite (hits_sum (collapse4 nM nW nW nB) nB).
    + apply csumTo_ext. intros l _. unfold S. rewrite <- csumTo_mul_r. reflexivity.
    + apply collapse_NoDup.
    + intro l. rewrite collapse_In. lia.
Qed.
Lemma one_thread nM nW nB : Distributes [(loop1 nM nW nB, loop2 nM nW nB)] nM nW nB /\ Aligned [(loop1 nM nW nB, loop2 nM nW nB)] nM nW nB.
Proof.
  split; [split; cbn [map concat fst snd]; rewrite app_nil_r; apply Permutation_refl|]. intros t nu i j l [<-|[]] H j' l' Hj Hl. cbn [fst snd] in *. apply collapse_In in H. apply collapse_In. lia.
Qed.

(** * Static schedule *)
Definition sStart (n T t : Z) : Z := if t <? n mod T then t * (n / T + 1) else t * (n / T) + n mod T.
Lemma sStart_S n T t : 0 <= n -> 0 < T -> 0 <= t -> sStart n T (t + 1) = sStart n T t + (if t <? n mod T then n / T + 1 else n / T).
Proof. intros Hn HT Ht. unfold sStart. destruct (Z.ltb_spec t (n mod T)), (Z.ltb_spec (t + 1) (n mod T)); nia. Qed.
Lemma static_concat {A} T (l : list A) : 0 < T -> concat (map (fun t => staticShare T t l) (zrange 0 T)) = l.
Proof.
  intro HT. set (n := zlen l). assert (Hn : 0 <= n) by (unfold n, zlen; lia).
  assert (K : forall k, 0 <= k -> concat (map (fun t => staticShare T t l) (zrange 0 k)) = firstn (Z.to_nat (sStart n T k)) l /\ 0 <= sStart n T k).
  { apply natlike_ind.
    - assert (S0 : sStart n T 0 = 0) by (unfold sStart; pose proof (Z.mod_pos_bound n T HT); destruct (Z.ltb_spec 0 (n mod T)); lia). rewrite S0. split; [reflexivity|lia].
    - intros k Hk (IH & Pk). replace (Z.succ k) with (k + 1) by lia. rewrite zrange_S by exact Hk. rewrite map_app, concat_app, IH. cbn [map concat]. rewrite app_nil_r, Z.add_0_l.
      assert (Q : 0 <= n / T) by (apply Z.div_pos; lia). rewrite sStart_S by lia. unfold staticShare. fold n. fold (sStart n T k). set (w := if k <? n mod T then n / T + 1 else n / T). assert (W : 0 <= w) by (unfold w; destruct (k <? n mod T); lia).
      split; [|lia]. rewrite Z2Nat.inj_add by lia. generalize (Z.to_nat (sStart n T k)) (Z.to_nat w). clear. intros a b. revert l. induction a as [|a IH]; intro l; [reflexivity|]. destruct l as [|x l]; [cbn; rewrite firstn_nil; reflexivity|].
      cbn [firstn skipn app plus]. rewrite IH. reflexivity. }
  destruct (K T ltac:(lia)) as (E & _). rewrite E. replace (sStart n T T) with n. { unfold n, zlen. rewrite Nat2Z.id. apply firstn_all. }
  unfold sStart. pose proof (Z.mod_pos_bound n T HT). replace (T <? n mod T) with false by lia. pose proof (Z.div_mod n T). lia.
Qed.
Lemma static_distributes T nM nW nB : 0 < T -> Distributes (staticSchedule T nM nW nB) nM nW nB.
Proof. intro HT. unfold Distributes, staticSchedule. rewrite !map_map. cbn [fst snd]. split; rewrite static_concat by exact HT; apply Permutation_refl. Qed.
Lemma list_prod_app {A B} (l l' : list A) (m : list B) : list_prod (l ++ l') m = list_prod l m ++ list_prod l' m.
Proof. induction l as [|x l IH]; [reflexivity|]. cbn [app list_prod]. rewrite IH, app_assoc. reflexivity. Qed.
Definition block4 (c d : Z) (p : Z * Z) : list iter4 := list_prod (map (pair p) (zrange 0 c)) (zrange 0 d).
Lemma block_length c d p : 0 <= c -> 0 <= d -> length (block4 c d p) = Z.to_nat (c * d).
Proof. intros Hc Hd. unfold block4. etransitivity; [exact (prod_length _ _)|]. rewrite map_length, !zrange_length. nia. Qed.
Lemma blocks_length {A B} (f : A -> list B) w (P : list A) : (forall p, length (f p) = w) -> length (concat (map f P)) = (length P * w)%nat.
Proof. intro H. induction P as [|p P IH]; [reflexivity|]. cbn [map concat length]. rewrite app_length, H, IH. lia. Qed.
Lemma collapse_blocks a b c d : collapse4 a b c d = concat (map (block4 c d) (list_prod (zrange 0 a) (zrange 0 b))).
Proof.
  unfold collapse4. generalize (list_prod (zrange 0 a) (zrange 0 b)). intro P. induction P as [|p P IH]; [reflexivity|]. cbn [list_prod map concat]. rewrite list_prod_app, IH. reflexivity.
Qed.
Lemma blocks_share {A B} (f : A -> list B) (w : nat) (P : list A) : (forall p, length (f p) = w) -> forall a b, firstn (b * w) (skipn (a * w) (concat (map f P))) = concat (map f (firstn b (skipn a P))).
Proof.
  intro Hw. assert (S1 : forall a P, skipn (a * w) (concat (map f P)) = concat (map f (skipn a P))).
  { induction a as [|a IH]; intro Q; [reflexivity|]. destruct Q as [|p Q]; [cbn [map concat skipn]; apply skipn_nil|]. cbn [map concat skipn Nat.mul]. rewrite skipn_app, Hw. rewrite skipn_all2 by (rewrite Hw; lia). cbn [app]. replace (w + a * w - w)%nat with (a * w)%nat by lia. apply IH. }
  assert (F1 : forall b P, firstn (b * w) (concat (map f P)) = concat (map f (firstn b P))).
  { induction b as [|b IH]; intro Q; [reflexivity|]. destruct Q as [|p Q]; [cbn [map concat firstn]; apply firstn_nil|]. cbn [map concat firstn Nat.mul]. rewrite firstn_app, Hw. rewrite firstn_all2 by (rewrite Hw; lia). replace (w + b * w - w)%nat with (b * w)%nat by lia. rewrite IH. reflexivity. }
  intros a b. rewrite S1, F1. reflexivity.
Qed.
Lemma static_aligned T nM nW nB : 0 < T -> 0 <= nM -> 0 <= nW -> 0 <= nB -> (T | nM * nW) -> Aligned (staticSchedule T nM nW nB) nM nW nB.
Proof.
  intros HT HM HW HB (k & Ek) t nu i j l Ht. unfold staticSchedule in Ht. apply in_map_iff in Ht as (x & <- & Hx). apply in_zrange in Hx. cbn [fst snd].
  set (P := list_prod (zrange 0 nM) (zrange 0 nW)).
  assert (Kp : 0 <= k) by nia.
  assert (LP : zlen P = k * T). { unfold P, zlen. rewrite prod_length, !zrange_length. nia. }
  assert (Sh : forall c d, 0 <= c -> 0 <= d -> staticShare T x (collapse4 nM nW c d) = concat (map (block4 c d) (firstn (Z.to_nat k) (skipn (Z.to_nat (x * k)) P)))).
  { intros c d Hc Hd. rewrite collapse_blocks. fold P. assert (BL : forall p, length (block4 c d p) = Z.to_nat (c * d)) by (intro p; apply block_length; assumption).
    assert (LL : zlen (concat (map (block4 c d) P)) = k * (c * d) * T). { unfold zlen in *. rewrite (blocks_length _ _ P BL). nia. }
    unfold staticShare. rewrite LL, Z.mod_mul, Z.div_mul by lia. replace (x <? 0) with false by lia. rewrite Z.add_0_r.
    rewrite <- (blocks_share (block4 c d) (Z.to_nat (c * d)) P BL). f_equal; [nia|]. f_equal. nia. }
  unfold loop1, loop2. rewrite !Sh by assumption. intros H j' l' Hj Hl. apply in_concat in H as (bl & Hb & Hin). apply in_map_iff in Hb as (p & <- & Hp). apply in_concat. exists (block4 nB nB p). split; [apply in_map; exact Hp|].
  unfold block4 in *. apply (proj1 (in_prod_iff (map (pair p) (zrange 0 nW)) (zrange 0 nB) (nu, i, j) l)) in Hin. destruct Hin as (Hin & _). apply in_map_iff in Hin as (y & E & _). injection E as E _. subst p.
  apply (proj2 (in_prod_iff (map (pair (nu, i)) (zrange 0 nB)) (zrange 0 nB) (nu, i, j') l')). split; [apply in_map_iff; exists j'; split; [reflexivity|apply in_zrange; lia]|apply in_zrange; lia].
Qed.

(** * Processes *)
Lemma reduced_eq shares n f i : concat shares = zrange 0 n -> 0 <= i < n -> reduced shares f i = f i.
Proof.
  intros E Hi. unfold reduced.
  assert (Nd : NoDup (concat shares)) by (rewrite E; apply NoDup_zrange). assert (I : In i (concat shares)) by (rewrite E; apply in_zrange; lia). clear E.
  induction shares as [|m shares IH]; [destruct I|]. cbn [map concat] in *. rewrite csum_cons. destruct (existsb (Z.eqb i) m) eqn:X.
  - rewrite csum_zero; [ring|]. intros m' Hm'. destruct (existsb (Z.eqb i) m') eqn:Y; [|reflexivity]. exfalso. apply existsb_exists in X as (a & Ia & Ea), Y as (b & Ib & Eb). apply Z.eqb_eq in Ea, Eb. subst a b.
    clear - Nd Ia Ib Hm'. induction m as [|y m IH]; [destruct Ia|]. cbn [app] in Nd. inversion Nd; subst. destruct Ia as [->|Ia]; [|exact (IH H2 Ia)]. apply H1, in_or_app. right. apply (in_concat_of _ m'); assumption.
  - apply in_app_iff in I as [I|I]; [exfalso; assert (existsb (Z.eqb i) m = true) by (apply existsb_exists; exists i; split; [exact I|apply Z.eqb_refl]); congruence|]. rewrite IH; [ring| |exact I]. exact (proj1 (proj2 (L_reduce.NoDup_app_inv _ _ Nd))).
Qed.
Lemma shares_ok n size : fits n size -> exists s, allShares n size = Ok s /\ concat s = zrange 0 n.
Proof. exact (divideWorkIter_partition n size). Qed.

Section Transform.
Variables (D : bloch) (g : tensor5).
Definition rotOf (ik iq i j nu : Z) : cplx := rotated (bB D) (uM D (kqI D ik iq)) (uM D ik) (fun a b m => g a b m ik iq) i j nu.
Lemma btw_ok sched size : fits (bQ D) size -> fits (bK D) size -> fits (nE D) size ->
  (forall ik iq, 0 <= ik < bK D -> 0 <= iq < bQ D -> Distributes (sched ik iq) (bM D) (bW D) (bB D) /\ Aligned (sched ik iq) (bM D) (bW D) (bB D)) ->
  exists T, blochToWannier D sched size g = Ok T /\
    forall i j nu irP irE, 0 <= i < bW D -> 0 <= j < bW D -> 0 <= nu < bM D -> 0 <= irE < nE D -> T i j nu irP irE = wannierTensor D g i j nu irP irE.
Proof.
  intros Fq Fk Fe Hs. unfold blochToWannier. destruct (shares_ok _ _ Fq) as (sq & -> & Eq), (shares_ok _ _ Fk) as (sk & -> & Ek), (shares_ok _ _ Fe) as (se & -> & Ee). cbn [bind]. eexists. split; [reflexivity|].
  intros i j nu irP irE Hi Hj Hnu HE. cbv beta. rewrite (reduced_eq se _ _ irE Ee HE). unfold wannierTensor. apply csumTo_ext. intros iq Hq.
  rewrite (reduced_eq sq (bQ D) (fun iq => phaseOf (bQ D) (qC D iq) (phV D irP)) iq Eq Hq).
  rewrite (reduced_eq sq (bQ D) _ iq Eq Hq). rewrite <- csumTo_mul_l. apply csumTo_ext. intros nu2 Hn2.
  rewrite (reduced_eq sq (bQ D) _ iq Eq Hq). rewrite (reduced_eq sq (bQ D) (fun iq => phI D iq nu2 nu) iq Eq Hq).
  rewrite <- csumTo_mul_r, <- csumTo_mul_l. apply csumTo_ext. intros ik Hk. rewrite (reduced_eq sk (bK D) _ ik Ek Hk). rewrite (reduced_eq sq (bQ D) _ iq Eq Hq).
  destruct (Hs ik iq Hk Hq) as (D1 & A1). rewrite (rotate_aligned _ (bM D) (bW D) (bB D)) by assumption. unfold phaseOf, Rminus. rewrite expi_add. cring.
Qed.
End Transform.
