(** Lookup by nested binary search in a filtered (active) list of mesh points. *)
From Coq Require Import QArith Qabs Qround Lqa.
From Verif Require Import Base BaseLemmas M_utilities L_utilities M_points S_points L_points.
Open Scope Z_scope.

(** * generic: binary search on a range where the tests are a monotone three-way comparison *)
Lemma innermost_spec (l : list v3) (x : v3) (dir : nat) (K : Z -> Z) (X : Z) :
  forall fuel left right, (Z.to_nat (right - left + 1) < fuel)%nat -> 0 <= left ->
  (forall i, left <= i <= right -> exists p, zget l i = Some p /\
     Qltb (Qabs (vget p dir - vget x dir)) eps6 = (K i =? X) /\
     (K i <> X -> Qltb eps6 (vget p dir - vget x dir) = (X <? K i))) ->
  (forall i j, left <= i -> i <= j -> j <= right -> K i <= K j) ->
  exists r, innermost fuel l left right x dir = Ok r /\
    ((r = -1 /\ forall i, left <= i <= right -> K i <> X) \/
     (left <= r <= right /\ K r = X)).
Proof.
  induction fuel as [|f IH]; intros left right Hf Hl Htest Hmono; [lia|].
  cbn [innermost]. rewrite Z.geb_leb.
  destruct (Z.leb_spec left right) as [Hlr|Hlr].
  - rewrite Z.quot_div_nonneg by lia.
    set (mid := left + (right - left) / 2).
    assert (Hmid : left <= mid <= right).
    { subst mid. assert (0 <= (right - left) / 2 <= right - left); [|lia].
      split; [apply Z.div_pos; lia|]. apply Z.div_le_upper_bound; lia. }
    destruct (Htest mid Hmid) as (p & Ep & T1 & T2). rewrite Ep, T1.
    destruct (Z.eqb_spec (K mid) X) as [E|N].
    + exists mid. split; [reflexivity|]. right. split; assumption.
    + rewrite (T2 N). destruct (Z.ltb_spec X (K mid)) as [L|L].
      * destruct (IH left (mid - 1)) as (r & Er & Hr); [lia|lia| | |].
        -- intros i Hi. apply Htest. lia.
        -- intros i j Hi Hij Hj. apply Hmono; lia.
        -- exists r. split; [assumption|]. destruct Hr as [[-> Hn]|[Hr1 Hr2]].
           ++ left. split; [reflexivity|]. intros i Hi.
              destruct (Z_lt_le_dec i mid); [apply Hn; lia|].
              assert (K mid <= K i) by (apply Hmono; lia). lia.
           ++ right. split; [lia|assumption].
      * destruct (IH (mid + 1) right) as (r & Er & Hr); [lia|lia| | |].
        -- intros i Hi. apply Htest. lia.
        -- intros i j Hi Hij Hj. apply Hmono; lia.
        -- exists r. split; [assumption|]. destruct Hr as [[-> Hn]|[Hr1 Hr2]].
           ++ left. split; [reflexivity|]. intros i Hi.
              destruct (Z_lt_le_dec mid i); [apply Hn; lia|].
              assert (K i <= K mid) by (apply Hmono; lia). lia.
           ++ right. split; [lia|assumption].
  - exists (-1). split; [reflexivity|]. left. split; [reflexivity|]. intros; lia.
Qed.

Definition T (l : list v3) (x : v3) (dir : nat) (i : nat) : bool :=
  match nth_error l i with Some p => Qltb (Qabs (partialSq p x dir)) eps6 | None => false end.

Lemma growDown_spec l x dir k :
  exists a, growDown k l x dir = a /\ (a <= k)%nat /\
    (forall i, (a <= i < k)%nat -> T l x dir i = true) /\ (a = O \/ T l x dir (a - 1) = false).
Proof.
  induction k as [|k IH].
  - exists O. cbn. repeat split; [lia|intros; lia|left; reflexivity].
  - cbn [growDown]. destruct (T l x dir k) eqn:E.
    + assert (X : growDown (S k) l x dir = growDown k l x dir).
      { cbn [growDown]. unfold T in E. destruct (nth_error l k); [rewrite E; reflexivity|discriminate]. }
      cbn [growDown] in X. rewrite X.
      destruct IH as (a & -> & La & Ha & Hb). exists a. split; [reflexivity|]. split; [lia|]. split; [|assumption].
      intros i Hi. destruct (Nat.eq_dec i k) as [->|]; [assumption|apply Ha; lia].
    + exists (S k). split.
      { unfold T in E. destruct (nth_error l k); [rewrite E; reflexivity|reflexivity]. }
      split; [lia|]. split; [intros; lia|]. right. replace (S k - 1)%nat with k by lia. assumption.
Qed.

Lemma growUp_spec l x dir fuel : forall k, (length l <= fuel + k)%nat ->
  exists b, growUp fuel k l x dir = b /\ (k <= b)%nat /\
    (forall i, (k < i <= b)%nat -> T l x dir i = true) /\ T l x dir (S b) = false.
Proof.
  induction fuel as [|f IH]; intros k Hk.
  - exists k. cbn. repeat split; [lia|intros; lia|].
    unfold T. rewrite (proj2 (nth_error_None l (S k))) by lia. reflexivity.
  - destruct (T l x dir (S k)) eqn:E.
    + assert (X : growUp (S f) k l x dir = growUp f (S k) l x dir).
      { cbn [growUp]. unfold T in E. destruct (nth_error l (S k)); [rewrite E; reflexivity|discriminate]. }
      rewrite X. destruct (IH (S k)) as (b & -> & Lb & Ha & Hb); [lia|].
      exists b. split; [reflexivity|]. split; [lia|]. split; [|assumption].
      intros i Hi. destruct (Nat.eq_dec i (S k)) as [->|]; [assumption|apply Ha; lia].
    + exists k. split.
      { cbn [growUp]. unfold T in E. destruct (nth_error l (S k)); [rewrite E; reflexivity|reflexivity]. }
      repeat split; [lia|intros; lia|assumption].
Qed.

(** expansion around one match, when matches are contiguous *)
Lemma grow_interval l x dir r : (r < length l)%nat -> T l x dir r = true ->
  (forall p q s, (p <= q)%nat -> (q <= s)%nat -> T l x dir p = true -> T l x dir s = true -> T l x dir q = true) ->
  exists a b, growDown r l x dir = a /\ growUp (length l) r l x dir = b /\ (a <= r <= b)%nat /\
    forall i, T l x dir i = true <-> (a <= i <= b)%nat.
Proof.
  intros Hr Tr C.
  destruct (growDown_spec l x dir r) as (a & Ea & La & Ha & Hb).
  destruct (growUp_spec l x dir (length l) r) as (b & Eb & Lb & Hc & Hd); [lia|].
  exists a, b. split; [assumption|]. split; [assumption|]. split; [lia|]. intro i. split.
  - intro Ti. split.
    + destruct (Nat.le_gt_cases a i); [assumption|exfalso].
      destruct Hb as [->|Hb]; [lia|].
      rewrite (C i (a - 1)%nat r) in Hb by (lia || assumption). discriminate.
    + destruct (Nat.le_gt_cases i b); [assumption|exfalso].
      rewrite (C r (S b) i) in Hd by (lia || assumption). discriminate.
  - intros Hi. destruct (Nat.lt_ge_cases i r); [apply Ha; lia|].
    destruct (Nat.eq_dec i r) as [->|]; [assumption|apply Hc; lia].
Qed.

(** * one direction *)
Lemma internalSearch_spec (l : list v3) (x : v3) (dir : nat) (K : Z -> Z) (X lo hi : Z) :
  0 <= lo -> hi < zlen l -> lo <= hi + 1 ->
  (forall i, lo <= i <= hi -> exists p, zget l i = Some p /\
     Qltb (Qabs (vget p dir - vget x dir)) eps6 = (K i =? X) /\
     (K i <> X -> Qltb eps6 (vget p dir - vget x dir) = (X <? K i))) ->
  (forall i j, lo <= i -> i <= j -> j <= hi -> K i <= K j) ->
  (forall i, T l x dir (Z.to_nat i) = true /\ 0 <= i <-> lo <= i <= hi /\ K i = X) ->
  (internalSearch l lo hi x dir = Ok (-1, -1) /\ forall i, 0 <= i -> T l x dir (Z.to_nat i) = false) \/
  exists a b, internalSearch l lo hi x dir = Ok (a, b) /\ 0 <= a <= b /\ b < zlen l /\
    forall i, 0 <= i -> (T l x dir (Z.to_nat i) = true <-> a <= i <= b).
Proof.
  intros Hlo Hhi Hlh Htest Hmono HT. unfold zlen in *.
  destruct (innermost_spec l x dir K X (S (length l)) lo hi) as (r & Er & Hr); [lia|assumption..|].
  unfold internalSearch. rewrite Er. cbn [bind]. destruct Hr as [[-> Hn]|[Hr1 Hr2]].
  - left. split; [reflexivity|]. intros i Hi.
    destruct (T l x dir (Z.to_nat i)) eqn:E; [|reflexivity].
    destruct (proj1 (HT i)) as [A B]; [split; assumption|]. exfalso. apply (Hn i); assumption.
  - right. destruct (Z.eqb_spec r (-1)); [lia|].
    assert (Tr : T l x dir (Z.to_nat r) = true) by (apply HT; split; assumption).
    destruct (grow_interval l x dir (Z.to_nat r)) as (a & b & Ea & Eb & Hab & HI); [lia|assumption| |].
    + intros p q s Hpq Hqs Tp Ts.
      assert (Kp : lo <= Z.of_nat p <= hi /\ K (Z.of_nat p) = X) by (apply HT; rewrite Nat2Z.id; split; [assumption|lia]).
      assert (Ks : lo <= Z.of_nat s <= hi /\ K (Z.of_nat s) = X) by (apply HT; rewrite Nat2Z.id; split; [assumption|lia]).
      rewrite <- (Nat2Z.id q). apply HT. split; [lia|].
      assert (K (Z.of_nat p) <= K (Z.of_nat q)) by (apply Hmono; lia).
      assert (K (Z.of_nat q) <= K (Z.of_nat s)) by (apply Hmono; lia). lia.
    + rewrite Ea, Eb. exists (Z.of_nat a), (Z.of_nat b). split; [reflexivity|]. split; [lia|]. split.
      * assert (Tb : T l x dir b = true) by (apply HI; lia).
        assert (lo <= Z.of_nat b <= hi /\ K (Z.of_nat b) = X) by (apply HT; rewrite Nat2Z.id; split; [assumption|lia]).
        lia.
      * intros i Hi. rewrite HI. lia.
Qed.

(** * the tests on mesh points, in terms of integer coordinates *)

Lemma frac_cmp (m a b : Z) (x o : Q) : 0 < m <= 1000 ->
  (x == inject_Z b / inject_Z m + o)%Q ->
  let d := ((inject_Z a / inject_Z m + o) - x)%Q in
  Qltb (Qabs d) eps6 = (a =? b) /\ (a <> b -> Qltb eps6 d = (b <? a)) /\
  (d * d == 0 /\ a = b \/ eps6 <= d * d /\ a <> b)%Q.
Proof.
  intros Hm Ex d.
  assert (P : (0 < inject_Z m)%Q) by (apply injZ_pos; lia).
  assert (D : (d * inject_Z m == inject_Z (a - b))%Q).
  { subst d. rewrite Ex. unfold Z.sub. rewrite inject_Z_plus, inject_Z_opp. field. lra. }
  assert (M : (inject_Z m <= 1000)%Q) by (change 1000%Q with (inject_Z 1000); rewrite <- Zle_Qle; lia).
  clearbody d. clear Ex.
  destruct (Z.lt_trichotomy a b) as [L|[E|G]].
  - assert (N : (inject_Z (a - b) <= inject_Z (-1))%Q) by (rewrite <- Zle_Qle; lia).
    change (inject_Z (-1)) with (-(1))%Q in N.
    assert (d <= - (1 # 1000))%Q.
    { destruct (Qlt_le_dec (-(1#1000)) d) as [Q|Q]; [|assumption]. exfalso.
      assert (-(1) < d * inject_Z m)%Q; [|lra].
      assert (-(1#1000) * inject_Z m < d * inject_Z m)%Q by (apply Qmult_lt_compat_r; assumption). lra. }
    repeat split.
    + rewrite Qltb_false by (unfold eps6; apply Qabs_case; intros; lra). symmetry. apply Z.eqb_neq. lia.
    + intros _. rewrite Qltb_false by (unfold eps6; lra). symmetry. apply Z.ltb_ge. lia.
    + right. split; [unfold eps6; nra|lia].
  - subst b. rewrite Z.sub_diag in D. change (inject_Z 0) with 0%Q in D.
    assert (Z0 : (d == 0)%Q).
    { apply Qmult_integral in D. destruct D; [assumption|lra]. }
    repeat split.
    + rewrite Z.eqb_refl. apply Qltb_true. rewrite Z0. reflexivity.
    + congruence.
    + left. split; [rewrite Z0; ring|reflexivity].
  - assert (N : (inject_Z 1 <= inject_Z (a - b))%Q) by (rewrite <- Zle_Qle; lia).
    change (inject_Z 1) with 1%Q in N.
    assert (1 # 1000 <= d)%Q.
    { destruct (Qlt_le_dec d (1#1000)) as [Q|Q]; [|assumption]. exfalso.
      assert (d * inject_Z m < 1)%Q; [|lra].
      assert (d * inject_Z m < (1#1000) * inject_Z m)%Q by (apply Qmult_lt_compat_r; assumption). lra. }
    repeat split.
    + rewrite Qltb_false by (unfold eps6; apply Qabs_case; intros; lra). symmetry. apply Z.eqb_neq. lia.
    + intros _. rewrite Qltb_true by (unfold eps6; lra). symmetry. apply Z.ltb_lt. lia.
    + right. split; [unfold eps6; nra|lia].
Qed.

Definition node (m : mesh) (t : Z * Z * Z) : v3 := gridNode m (fst (fst t)) (snd (fst t)) (snd t).
Definition key (t : Z * Z * Z) (d : nat) : Z :=
  match d with O => fst (fst t) | 1%nat => snd (fst t) | _ => snd t end.
Definition mdim (m : mesh) (d : nat) : Z := match d with O => m0 m | 1%nat => m1 m | _ => m2 m end.

Lemma vget_node m t d : vget (node m t) d = (inject_Z (key t d) / inject_Z (mdim m d) + vget (off m) d)%Q.
Proof. destruct d as [|[|d]]; reflexivity. Qed.

Lemma veq_vget a b d : veq a b -> (vget a d == vget b d)%Q.
Proof. intros (A & B & C). destruct d as [|[|d]]; assumption. Qed.

Lemma mdim_res m d : resolved m -> 0 < mdim m d <= 1000.
Proof. intros ((A & B & C) & D & E & F). destruct d as [|[|d]]; cbn; lia. Qed.

Lemma node_cmp m t u x d : resolved m -> veq x (node m u) ->
  let D := (vget (node m t) d - vget x d)%Q in
  Qltb (Qabs D) eps6 = (key t d =? key u d) /\ (key t d <> key u d -> Qltb eps6 D = (key u d <? key t d)) /\
  (D * D == 0 /\ key t d = key u d \/ eps6 <= D * D /\ key t d <> key u d)%Q.
Proof.
  intros R V. rewrite vget_node. apply frac_cmp; [apply mdim_res; assumption|].
  rewrite (veq_vget _ _ d V), vget_node. reflexivity.
Qed.

(** the accumulated squared distance is below 1e-6 iff all remaining coordinates agree *)
Lemma partialSq_cmp m t u x d : resolved m -> veq x (node m u) -> (d <= 2)%nat ->
  Qltb (Qabs (partialSq (node m t) x d)) eps6 = true <-> forall e, (d <= e <= 2)%nat -> key t e = key u e.
Proof.
  intros R V Hd.
  pose proof (proj2 (proj2 (node_cmp m t u x 0 R V))) as C0.
  pose proof (proj2 (proj2 (node_cmp m t u x 1 R V))) as C1.
  pose proof (proj2 (proj2 (node_cmp m t u x 2 R V))) as C2.
  set (d0 := (vget (node m t) 0 - vget x 0)%Q) in *.
  set (d1 := (vget (node m t) 1 - vget x 1)%Q) in *.
  set (d2 := (vget (node m t) 2 - vget x 2)%Q) in *.
  assert (S0 : (0 <= d0 * d0)%Q) by (destruct (Qlt_le_dec d0 0); nra).
  assert (S1 : (0 <= d1 * d1)%Q) by (destruct (Qlt_le_dec d1 0); nra).
  assert (S2 : (0 <= d2 * d2)%Q) by (destruct (Qlt_le_dec d2 0); nra).
  assert (E6 : (0 < eps6)%Q) by reflexivity.
  destruct d as [|[|[|d]]]; [| | |lia].
  - change (partialSq (node m t) x 0) with (0 + d0 * d0 + d1 * d1 + d2 * d2)%Q.
    rewrite Qabs_pos by lra. split.
    + intros H e He. destruct (Qltb_spec (0 + d0 * d0 + d1 * d1 + d2 * d2) eps6) as [L|]; [|discriminate].
      destruct C0 as [[A0 B0]|[A0 B0]]; [|lra]. destruct C1 as [[A1 B1]|[A1 B1]]; [|lra].
      destruct C2 as [[A2 B2]|[A2 B2]]; [|lra]. destruct e as [|[|[|e]]]; [assumption..|lia].
    + intros H. assert (H0 := H 0%nat ltac:(lia)). assert (H1 := H 1%nat ltac:(lia)). assert (H2 := H 2%nat ltac:(lia)).
      apply Qltb_true. destruct C0 as [[A0 B0]|[A0 B0]]; [|contradiction].
      destruct C1 as [[A1 B1]|[A1 B1]]; [|contradiction]. destruct C2 as [[A2 B2]|[A2 B2]]; [|contradiction]. lra.
  - change (partialSq (node m t) x 1) with (0 + d1 * d1 + d2 * d2)%Q.
    rewrite Qabs_pos by lra. split.
    + intros H e He. destruct (Qltb_spec (0 + d1 * d1 + d2 * d2) eps6) as [L|]; [|discriminate].
      destruct C1 as [[A1 B1]|[A1 B1]]; [|lra].
      destruct C2 as [[A2 B2]|[A2 B2]]; [|lra]. destruct e as [|[|[|e]]]; [lia|assumption..|lia].
    + intros H. assert (H1 := H 1%nat ltac:(lia)). assert (H2 := H 2%nat ltac:(lia)).
      apply Qltb_true.
      destruct C1 as [[A1 B1]|[A1 B1]]; [|contradiction]. destruct C2 as [[A2 B2]|[A2 B2]]; [|contradiction]. lra.
  - change (partialSq (node m t) x 2) with (0 + d2 * d2)%Q.
    rewrite Qabs_pos by lra. split.
    + intros H e He. destruct (Qltb_spec (0 + d2 * d2) eps6) as [L|]; [|discriminate].
      destruct C2 as [[A2 B2]|[A2 B2]]; [|lra]. destruct e as [|[|[|e]]]; [lia|lia|assumption|lia].
    + intros H. assert (H2 := H 2%nat ltac:(lia)).
      apply Qltb_true. destruct C2 as [[A2 B2]|[A2 B2]]; [|contradiction]. lra.
Qed.

(** * lexicographically sorted list of integer triples *)
Definition inBox (m : mesh) (t : Z * Z * Z) : Prop :=
  0 <= key t 0 < m0 m /\ 0 <= key t 1 < m1 m /\ 0 <= key t 2 < m2 m.
Definition idx (m : mesh) (t : Z * Z * Z) : Z := key t 2 * m0 m * m1 m + key t 1 * m0 m + key t 0.

Lemma idx_lex m t u : posMesh m -> inBox m t -> inBox m u -> idx m t < idx m u ->
  key t 2 <= key u 2 /\ (key t 2 = key u 2 -> key t 1 <= key u 1) /\
  (key t 2 = key u 2 -> key t 1 = key u 1 -> key t 0 < key u 0).
Proof.
  intros (A & B & C) (H0 & H1 & H2) (G0 & G1 & G2) L. unfold idx in L.
  assert (0 <= key t 1 * m0 m + key t 0 < m0 m * m1 m) by nia.
  assert (0 <= key u 1 * m0 m + key u 0 < m0 m * m1 m) by nia.
  set (P := m0 m * m1 m) in *.
  replace (key t 2 * m0 m * m1 m) with (key t 2 * P) in L by (subst P; ring).
  replace (key u 2 * m0 m * m1 m) with (key u 2 * P) in L by (subst P; ring).
  split; [nia|]. split.
  - intro E. rewrite E in L. nia.
  - intros E F. rewrite E, F in L. lia.
Qed.

Section Sorted.
Variable m : mesh.
Variable ts : list (Z * Z * Z).
Hypothesis R : resolved m.
Hypothesis Hbox : Forall (inBox m) ts.
Hypothesis Hsorted : forall p q t u, p < q -> zget ts p = Some t -> zget ts q = Some u -> idx m t < idx m u.
Variable u : Z * Z * Z.
Variable x : v3.
Hypothesis Hx : veq x (node m u).
Let l := map (node m) ts.
Let Kf (d : nat) (i : Z) : Z := match zget ts i with Some t => key t d | None => 0 end.

Lemma zget_ts i : 0 <= i < zlen ts -> exists t, zget ts i = Some t /\ inBox m t.
Proof.
  intro H. destruct (zget_inrange ts i H) as (t & E). exists t. split; [assumption|].
  destruct (zget_Some _ _ _ E) as (_ & I). rewrite Forall_forall in Hbox. apply Hbox; assumption.
Qed.

Lemma len_l : zlen l = zlen ts.
Proof. apply zlen_map. Qed.

Lemma T_spec d i : (d <= 2)%nat -> 0 <= i ->
  (T l x d (Z.to_nat i) = true <-> exists t, zget ts i = Some t /\ forall e, (d <= e <= 2)%nat -> key t e = key u e).
Proof.
  intros Hd Hi. unfold T.
  assert (E : nth_error l (Z.to_nat i) = option_map (node m) (zget ts i)).
  { unfold zget. destruct (Z.ltb_spec i 0); [lia|]. subst l. apply nth_error_map. }
  rewrite E. destruct (zget ts i) as [t|] eqn:G; cbn [option_map].
  - rewrite (partialSq_cmp m t u x d R Hx Hd). split.
    + intro H. exists t. split; [reflexivity|assumption].
    + intros (t' & E' & H). injection E' as <-. assumption.
  - split; [discriminate|]. intros (t & E' & _). discriminate.
Qed.

Lemma tests d i : 0 <= i < zlen ts -> exists p, zget l i = Some p /\
  Qltb (Qabs (vget p d - vget x d)) eps6 = (Kf d i =? key u d) /\
  (Kf d i <> key u d -> Qltb eps6 (vget p d - vget x d) = (key u d <? Kf d i)).
Proof.
  intro H. destruct (zget_ts i H) as (t & E & _). exists (node m t). subst l Kf. cbn beta.
  rewrite zget_map, E. split; [reflexivity|].
  destruct (node_cmp m t u x d R Hx) as (A & B & _). split; assumption.
Qed.

Lemma search_spec : exists r, pointsBinarySearch l x = Ok r /\
  ((exists t, zget ts r = Some t /\ forall e, (e <= 2)%nat -> key t e = key u e) \/
   (r = -1 /\ forall i t, zget ts i = Some t -> ~ forall e, (e <= 2)%nat -> key t e = key u e)).
Proof.
  assert (P : posMesh m) by apply R.
  assert (mono : forall p q t v, p <= q -> zget ts p = Some t -> zget ts q = Some v ->
     key t 2 <= key v 2 /\ (key t 2 = key v 2 -> key t 1 <= key v 1) /\
     (key t 2 = key v 2 -> key t 1 = key v 1 -> key t 0 <= key v 0)).
  { intros p q t v L E F. destruct (Z.eq_dec p q) as [->|N].
    - rewrite E in F. injection F as <-. lia.
    - assert (Bt : inBox m t).
      { rewrite Forall_forall in Hbox. apply Hbox. apply (zget_Some _ _ _ E). }
      assert (Bv : inBox m v).
      { rewrite Forall_forall in Hbox. apply Hbox. apply (zget_Some _ _ _ F). }
      destruct (idx_lex m t v P Bt Bv) as (A1 & A2 & A3); [eapply Hsorted; [|eassumption..]; lia|].
      split; [assumption|]. split; [assumption|]. intros. specialize (A3 H H0). lia. }
  pose proof (zlen_nonneg ts) as Hlen. pose proof len_l as Hl.
  (* nothing matches at direction d: no complete match *)
  assert (none : forall d, (d <= 2)%nat -> (forall i, 0 <= i -> T l x d (Z.to_nat i) = false) ->
     forall i t, zget ts i = Some t -> ~ forall e, (e <= 2)%nat -> key t e = key u e).
  { intros d Hd Hf i t E H. destruct (zget_Some _ _ _ E) as (Hi & _).
    assert (T l x d (Z.to_nat i) = true); [|rewrite Hf in H0 by lia; discriminate].
    apply T_spec; [assumption|lia|]. exists t. split; [assumption|]. intros; apply H; lia. }
  unfold pointsBinarySearch.
  destruct (internalSearch_spec l x 2 (Kf 2) (key u 2) 0 (zlen l - 1)) as [[E Hn]|(a & b & E & Hab & Hb & Hiff)];
    [lia|lia|lia| | | | |].
  { intros i Hi. apply tests. lia. }
  { intros i j Hi Hij Hj. subst Kf. cbn beta.
    destruct (zget_ts i) as (t & Et & _); [lia|]. destruct (zget_ts j) as (v & Ev & _); [lia|].
    rewrite Et, Ev. apply (mono i j t v); assumption. }
  { intros i. split.
    - intros (HT & Hi). apply T_spec in HT; [|lia|assumption]. destruct HT as (t & Et & HH).
      destruct (zget_Some _ _ _ Et) as (Hr & _). split; [lia|]. subst Kf. cbn beta. rewrite Et. apply HH. lia.
    - intros (Hi & HK). split; [|lia]. apply T_spec; [lia|lia|].
      destruct (zget_ts i) as (t & Et & _); [lia|]. exists t. split; [assumption|].
      intros e He. subst Kf. cbn beta in HK. rewrite Et in HK. replace e with 2%nat by lia. assumption. }
  { rewrite E. exists (-1). split; [reflexivity|]. right. split; [reflexivity|]. eapply none; [|eassumption]; lia. }
  rewrite E. cbn [bind fst snd].
  destruct (Z.eqb_spec a (-1)); [lia|]. destruct (Z.eqb_spec b (-1)); [lia|]. cbn [orb].
  assert (Hz : forall i, 0 <= i -> (a <= i <= b <-> exists t, zget ts i = Some t /\ key t 2 = key u 2)).
  { intros i Hi. rewrite <- (Hiff i Hi), T_spec by lia. split; intros (t & Et & HH); exists t; (split; [assumption|]).
    - apply HH; lia.
    - intros e He. replace e with 2%nat by lia. assumption. }
  destruct (internalSearch_spec l x 1 (Kf 1) (key u 1) a b) as [[E1 Hn]|(a1 & b1 & E1 & Hab1 & Hb1 & Hiff1)];
    [lia|lia|lia| | | | |].
  { intros i Hi. apply tests. lia. }
  { intros i j Hi Hij Hj. subst Kf. cbn beta.
    destruct (proj1 (Hz i ltac:(lia))) as (t & Et & Zt); [lia|].
    destruct (proj1 (Hz j ltac:(lia))) as (v & Ev & Zv); [lia|].
    rewrite Et, Ev. apply (mono i j t v); [assumption..|congruence]. }
  { intros i. split.
    - intros (HT & Hi). apply T_spec in HT; [|lia|assumption]. destruct HT as (t & Et & HH).
      split; [apply Hz; [assumption|exists t; split; [assumption|apply HH; lia]]|].
      subst Kf. cbn beta. rewrite Et. apply HH. lia.
    - intros (Hi & HK). split; [|lia]. apply T_spec; [lia|lia|].
      destruct (proj1 (Hz i ltac:(lia))) as (t & Et & Zt); [lia|]. exists t. split; [assumption|].
      intros e He. subst Kf. cbn beta in HK. rewrite Et in HK.
      destruct (Nat.eq_dec e 2) as [->|]; [assumption|]. replace e with 1%nat by lia. assumption. }
  { rewrite E1. exists (-1). split; [reflexivity|]. right. split; [reflexivity|]. eapply none; [|eassumption]; lia. }
  rewrite E1. cbn [bind fst snd].
  destruct (Z.eqb_spec a1 (-1)); [lia|]. destruct (Z.eqb_spec b1 (-1)); [lia|]. cbn [orb].
  assert (Hy : forall i, 0 <= i -> (a1 <= i <= b1 <-> exists t, zget ts i = Some t /\ key t 2 = key u 2 /\ key t 1 = key u 1)).
  { intros i Hi. rewrite <- (Hiff1 i Hi), T_spec by lia. split; intros (t & Et & HH); exists t; (split; [assumption|]).
    - split; apply HH; lia.
    - intros e He. destruct (Nat.eq_dec e 2) as [->|]; [apply HH|]. replace e with 1%nat by lia. apply HH. }
  destruct (internalSearch_spec l x 0 (Kf 0) (key u 0) a1 b1) as [[E2 Hn]|(a2 & b2 & E2 & Hab2 & Hb2 & Hiff2)];
    [lia|lia|lia| | | | |].
  { intros i Hi. apply tests. lia. }
  { intros i j Hi Hij Hj. subst Kf. cbn beta.
    destruct (proj1 (Hy i ltac:(lia))) as (t & Et & Zt & Yt); [lia|].
    destruct (proj1 (Hy j ltac:(lia))) as (v & Ev & Zv & Yv); [lia|].
    rewrite Et, Ev. apply (mono i j t v); [assumption..|congruence|congruence]. }
  { intros i. split.
    - intros (HT & Hi). apply T_spec in HT; [|lia|assumption]. destruct HT as (t & Et & HH).
      split; [apply Hy; [assumption|exists t; split; [assumption|split; apply HH; lia]]|].
      subst Kf. cbn beta. rewrite Et. apply HH. lia.
    - intros (Hi & HK). split; [|lia]. apply T_spec; [lia|lia|].
      destruct (proj1 (Hy i ltac:(lia))) as (t & Et & Zt & Yt); [lia|]. exists t. split; [assumption|].
      intros e He. subst Kf. cbn beta in HK. rewrite Et in HK.
      destruct e as [|[|[|e]]]; [assumption..|lia]. }
  { rewrite E2. exists (-1). split; [reflexivity|]. right. split; [reflexivity|]. eapply none; [|eassumption]; lia. }
  rewrite E2. cbn [bind fst snd].
  destruct (Z.eqb_spec a2 (-1)); [lia|]. destruct (Z.eqb_spec b2 (-1)); [lia|]. cbn [orb].
  destruct (proj1 (T_spec 0 a2 ltac:(lia) ltac:(lia))) as (t & Et & Ht); [apply Hiff2; lia|].
  destruct (proj1 (T_spec 0 b2 ltac:(lia) ltac:(lia))) as (v & Ev & Hv); [apply Hiff2; lia|].
  destruct (Z.eqb_spec a2 b2) as [<-|N].
  - cbn [negb]. exists a2. split; [reflexivity|]. left. exists t. split; [assumption|]. intros; apply Ht; lia.
  - exfalso. assert (L : idx m t < idx m v) by (eapply Hsorted; [|eassumption..]; lia).
    unfold idx in L. rewrite (Ht 0%nat), (Ht 1%nat), (Ht 2%nat), (Hv 0%nat), (Hv 1%nat), (Hv 2%nat) in L by lia. lia.
Qed.
End Sorted.

(** * active layers *)
Definition decode (m : mesh) (ik : Z) : Z * Z * Z := (ik mod m0 m, (ik / m0 m) mod m1 m, ik / (m0 m * m1 m)).

Lemma decode_ok m ik : posMesh m -> 0 <= ik < nodes m ->
  inBox m (decode m ik) /\ idx m (decode m ik) = ik /\ node m (decode m ik) = meshCoordinates m ik.
Proof.
  intros P H.
  assert (B : inBox m (decode m ik)).
  { destruct P as (A & B & C). unfold nodes in H.
    unfold inBox, decode, key; cbn [fst snd].
    split; [apply Z.mod_pos_bound; lia|]. split; [apply Z.mod_pos_bound; lia|].
    split; [apply Z.div_pos; nia|]. apply Z.div_lt_upper_bound; nia. }
  assert (I : idx m (decode m ik) = ik).
  { destruct P as (A & B' & C). unfold idx, decode, key; cbn [fst snd].
    pose proof (Z.div_mod ik (m0 m) ltac:(lia)) as E1.
    pose proof (Z.div_mod (ik / m0 m) (m1 m) ltac:(lia)) as E2.
    rewrite Z.div_div in E2 by lia. nia. }
  split; [assumption|]. split; [assumption|].
  rewrite <- I at 2. destruct B as (B0 & B1 & B2). unfold idx. rewrite meshCoordinates_node by assumption. reflexivity.
Qed.

Lemma increasing_zget l : increasing l -> forall i j a b, i < j -> zget l i = Some a -> zget l j = Some b -> a < b.
Proof.
  induction l as [|x l IH]; intros HI i j a b L Ea Eb.
  - rewrite zget_None in Ea; [discriminate|]. unfold zlen; cbn; lia.
  - assert (HT : increasing l) by (destruct l; [exact I|apply HI]).
    assert (Hd : forall j b, zget l j = Some b -> x < b).
    { clear i j a b L Ea Eb. intros j b Eb. destruct l as [|y l']; [rewrite zget_None in Eb; [discriminate|unfold zlen; cbn; lia]|].
      destruct HI as [Hxy _]. destruct (zget_Some _ _ _ Eb) as (Hj & _).
      destruct (Z.eq_dec j 0) as [->|].
      - rewrite zget_cons0 in Eb. injection Eb as <-. assumption.
      - assert (y < b); [|lia]. apply (IH HT 0 j y b); [lia|apply zget_cons0|assumption]. }
    destruct (zget_Some _ _ _ Ea) as (Hi & _).
    rewrite zget_consS in Eb by lia.
    destruct (Z.eq_dec i 0) as [->|].
    + rewrite zget_cons0 in Ea. injection Ea as <-. eapply Hd; eassumption.
    + rewrite zget_consS in Ea by lia. eapply (IH HT (i - 1) (j - 1)); [lia|eassumption..].
Qed.


Lemma fold1_node (c o : Q) (m i n : Z) : 0 < m -> 0 <= i < m -> (0 <= o)%Q -> (o + eps8 < 1 / inject_Z m)%Q ->
  (c - (inject_Z i / inject_Z m + o) == inject_Z n)%Q ->
  (fold1 c == inject_Z i / inject_Z m + o)%Q.
Proof.
  intros Hm Hi Ho1 Ho2 E.
  assert (P : (0 < inject_Z m)%Q) by (apply injZ_pos; assumption).
  unfold fold1. set (v := (inject_Z i / inject_Z m + o)%Q) in *.
  assert (V0 : (0 <= v)%Q).
  { subst v. assert (0 <= inject_Z i / inject_Z m)%Q; [|lra].
    apply Qle_shift_div_l; [assumption|]. rewrite Qmult_0_l. change 0%Q with (inject_Z 0). rewrite <- Zle_Qle. lia. }
  assert (V1 : (v + eps8 < 1)%Q).
  { subst v. assert (inject_Z i / inject_Z m <= 1 - 1 / inject_Z m)%Q; [|lra].
    setoid_replace (1 - 1 / inject_Z m)%Q with (inject_Z (m - 1) / inject_Z m)%Q.
    - apply Qmult_le_compat_r; [rewrite <- Zle_Qle; lia|]. apply Qinv_le_0_compat. lra.
    - unfold Z.sub. rewrite inject_Z_plus, inject_Z_opp. change (inject_Z 1) with 1%Q. field. lra. }
  assert (F : Qfloor (c + eps8) = n).
  { apply Qfloor_unique; [|rewrite inject_Z_plus; change (inject_Z 1) with 1%Q];
      unfold eps8 in *; lra. }
  rewrite F. rewrite <- E. ring.
Qed.

Lemma foldToBz_node m c i j k : posMesh m -> smallOffset m ->
  0 <= i < m0 m -> 0 <= j < m1 m -> 0 <= k < m2 m ->
  sameWavevector c (gridNode m i j k) -> veq (foldToBz c) (gridNode m i j k).
Proof.
  intros (A & B & C) (O0 & O0' & O1 & O1' & O2 & O2') Hi Hj Hk (n0 & n1 & n2 & (E0 & E1 & E2)).
  unfold veq, foldToBz, vmap, vsub, gridNode in *; cbn [c0 c1 c2] in *.
  split; [|split]; eapply fold1_node; eassumption.
Qed.

Lemma mono_frac (a b m : Z) (o : Q) : 0 < m -> a < b ->
  Qle_bool (inject_Z b / inject_Z m + o) (inject_Z a / inject_Z m + o) = false.
Proof.
  intros Hm L. apply Qle_bool_false.
  assert (inject_Z a / inject_Z m < inject_Z b / inject_Z m)%Q; [|lra].
  apply Qmult_lt_compat_r; [|rewrite <- Zlt_Qlt; assumption].
  apply Qinv_lt_0_compat, injZ_pos; assumption.
Qed.

Lemma notAbove_false m a b : posMesh m -> 0 <= a < nodes m -> 0 <= b < nodes m -> a < b ->
  notAbove (meshCoordinates m b) (meshCoordinates m a) = false.
Proof.
  intros P Ha Hb L.
  destruct (decode_ok m a P Ha) as (Ba & Ia & <-). destruct (decode_ok m b P Hb) as (Bb & Ib & <-).
  assert (L' : idx m (decode m a) < idx m (decode m b)) by lia.
  destruct (idx_lex m _ _ P Ba Bb L') as (A1 & A2 & A3).
  destruct P as (P0 & P1 & P2).
  unfold notAbove, node, gridNode; cbn [c0 c1 c2]. fold (key (decode m a) 0) (key (decode m b) 0).
  change (fst (fst (decode m a))) with (key (decode m a) 0). change (fst (fst (decode m b))) with (key (decode m b) 0).
  change (snd (fst (decode m a))) with (key (decode m a) 1). change (snd (fst (decode m b))) with (key (decode m b) 1).
  change (snd (decode m a)) with (key (decode m a) 2). change (snd (decode m b)) with (key (decode m b) 2).
  destruct (Z.eq_dec (key (decode m a) 2) (key (decode m b) 2)) as [E2|N2].
  - destruct (Z.eq_dec (key (decode m a) 1) (key (decode m b) 1)) as [E1|N1].
    + rewrite mono_frac; [reflexivity|assumption|]. apply A3; assumption.
    + rewrite (mono_frac (key (decode m a) 1)); [|assumption|specialize (A2 E2); lia].
      rewrite andb_false_r. reflexivity.
  - rewrite (mono_frac (key (decode m a) 2)) by lia. apply andb_false_r.
Qed.

Lemma foldM_app {A S} (f : S -> A -> res S) l l' s : foldM f (l ++ l') s = do s' <- foldM f l s ; foldM f l' s'.
Proof. revert s; induction l as [|x l IH]; intro s; cbn; [reflexivity|]. destruct (f s x); cbn; auto. Qed.

Lemma increasing_app l x : increasing (l ++ [x]) -> increasing l.
Proof.
  induction l as [|a l IH]; intro H; [exact I|].
  destruct l as [|b l]; [exact I|]. destruct H as [H1 H2]. split; [assumption|apply IH; assumption].
Qed.
Lemma increasing_last l a x : increasing (l ++ [a] ++ [x]) -> a < x.
Proof.
  induction l as [|b l IH]; intro H; [apply H|].
  apply IH. destruct l; apply H.
Qed.

Lemma activeFold m F : posMesh m -> increasing F -> Forall (fun ik => 0 <= ik < nodes m) F ->
  foldM (activeStep m) F ([], true) = Ok (map (meshCoordinates m) F, true).
Proof.
  intros P. induction F as [|x F IH] using rev_ind; intros HI HR; [reflexivity|].
  rewrite Forall_app in HR. destruct HR as [HR Hx].
  apply Forall_inv in Hx.
  rewrite foldM_app, IH by (try assumption; eapply increasing_app; eassumption). cbn [bind foldM].
  unfold activeStep; cbn [fst snd].
  assert (E : (if x >? 0 then 0 else x) <? 0 = false).
  { rewrite Z.gtb_ltb. destruct (Z.ltb_spec 0 x); lia. }
  rewrite E, map_app. cbn [map bind]. f_equal. f_equal.
  destruct F as [|a F] using rev_ind; [reflexivity|]. clear IHF.
  rewrite map_app, rev_app_distr. cbn [map rev app].
  rewrite Forall_app in HR. destruct HR as [_ Ha]. apply Forall_inv in Ha.
  rewrite notAbove_false; [reflexivity|assumption..|].
  apply (increasing_last F). rewrite <- app_assoc in HI. assumption.
Qed.

Lemma increasing_full F n : increasing F -> Forall (fun ik => 0 <= ik < n) F -> zlen F = n ->
  F = zrange 0 n.
Proof.
  intros HI HR HL. apply zget_ext; [rewrite zlen_zrange; [assumption|]; rewrite <- HL; apply zlen_nonneg|].
  intros i Hi.
  assert (X : forall k : nat, (Z.of_nat k < n) -> exists a, zget F (Z.of_nat k) = Some a /\ Z.of_nat k <= a).
  { induction k as [|k IH]; intros Hk.
    - destruct (zget_inrange F 0) as (a & E); [lia|]. exists a. split; [assumption|].
      rewrite Forall_forall in HR. apply HR. apply (zget_Some _ _ _ E).
    - destruct IH as (a & E & L); [lia|]. destruct (zget_inrange F (Z.of_nat (S k))) as (b & E'); [lia|].
      exists b. split; [assumption|]. assert (a < b) by (eapply (increasing_zget F HI (Z.of_nat k)); [|eassumption..]; lia). lia. }
  assert (Y : forall k : nat, Z.of_nat k < n -> exists a, zget F (n - 1 - Z.of_nat k) = Some a /\ a <= n - 1 - Z.of_nat k).
  { induction k as [|k IH]; intros Hk.
    - destruct (zget_inrange F (n - 1 - Z.of_nat 0)) as (a & E); [lia|]. exists a. split; [assumption|].
      rewrite Forall_forall in HR. pose proof (HR a (proj2 (zget_Some _ _ _ E))). lia.
    - destruct IH as (a & E & L); [lia|]. destruct (zget_inrange F (n - 1 - Z.of_nat (S k))) as (b & E'); [lia|].
      exists b. split; [assumption|].
      assert (b < a) by (eapply (increasing_zget F HI (n - 1 - Z.of_nat (S k)) (n - 1 - Z.of_nat k)); [|eassumption..]; lia). lia. }
  destruct (X (Z.to_nat i)) as (a & E & L); [lia|]. destruct (Y (Z.to_nat (n - 1 - i))) as (b & E' & L'); [lia|].
  rewrite Z2Nat.id in E, L by lia. replace (n - 1 - Z.of_nat (Z.to_nat (n - 1 - i))) with i in * by lia.
  rewrite E in E'. injection E' as <-. rewrite E, zget_zrange by lia. f_equal. lia.
Qed.

Lemma activeLayer_lookup m F : resolved m -> smallOffset m -> increasing F ->
  Forall (fun ik => 0 <= ik < nodes m) F ->
  exists p, setActiveLayer (fullMesh m) F = Ok p /\ numPoints p = zlen F /\
    (forall i ik c, zget F i = Some ik -> sameWavevector c (meshCoordinates m ik) ->
       getIndex p c = Ok i /\ getPointCoordinates p i = Ok (meshCoordinates m ik)) /\
    (forall ik c, 0 <= ik < nodes m -> ~ In ik F -> sameWavevector c (meshCoordinates m ik) ->
       getIndex p c = Err).
Proof.
  intros R O HI HR. assert (P : posMesh m) by apply R.
  unfold setActiveLayer. cbn [numPoints fullMesh pmesh].
  destruct (Z.eqb_spec (zlen F) (nodes m)) as [EN|NN].
  - exists (fullMesh m). split; [reflexivity|]. split; [cbn; lia|].
    rewrite (increasing_full F (nodes m) HI HR EN).
    split.
    + intros i ik c E S. destruct (zget_Some _ _ _ E) as (Hi & _). pose proof (nodes_pos m P).
      rewrite zlen_zrange in Hi by lia. rewrite zget_zrange in E by lia. injection E as <-.
      split; [apply getIndex_full; assumption|reflexivity].
    + intros ik c Hik NI. exfalso. apply NI. apply in_zrange. lia.
  - rewrite (activeFold m F P HI HR). cbn [bind fst snd].
    pose proof (nodes_pos m P) as NP. unfold nodes in NP. rewrite Z.gtb_ltb.
    destruct (Z.ltb_spec (m0 m * m1 m * m2 m) (0 + 1)); [lia|].
    eexists. split; [reflexivity|]. split; [reflexivity|].
    set (ts := map (decode m) F).
    assert (El : map (meshCoordinates m) F = map (node m) ts).
    { subst ts. rewrite map_map. apply map_ext_in. intros a Ha. rewrite Forall_forall in HR.
      symmetry. apply decode_ok; [assumption|apply HR; assumption]. }
    assert (Bx : Forall (inBox m) ts).
    { subst ts. rewrite Forall_map. eapply Forall_impl; [|exact HR]. intros a Ha. apply decode_ok; assumption. }
    assert (HF : forall i a, zget F i = Some a -> 0 <= a < nodes m).
    { intros i a E. rewrite Forall_forall in HR. apply HR. apply (zget_Some _ _ _ E). }
    assert (Srt : forall p q t u, p < q -> zget ts p = Some t -> zget ts q = Some u -> idx m t < idx m u).
    { intros p q t u L Et Eu. subst ts. rewrite zget_map in Et, Eu.
      destruct (zget F p) as [a|] eqn:Ea; [|discriminate]. destruct (zget F q) as [b|] eqn:Eb; [|discriminate].
      cbn [option_map] in Et, Eu. injection Et as <-. injection Eu as <-.
      destruct (decode_ok m a P (HF _ _ Ea)) as (_ & -> & _). destruct (decode_ok m b P (HF _ _ Eb)) as (_ & -> & _).
      eapply (increasing_zget F HI p q); eassumption. }
    assert (Key : forall ik c, 0 <= ik < nodes m -> sameWavevector c (meshCoordinates m ik) ->
      exists r, pointsBinarySearch (map (meshCoordinates m) F) (foldToBz c) = Ok r /\
        ((zget F r = Some ik) \/ (r = -1 /\ forall i, zget F i <> Some ik))).
    { intros ik c Hik S. destruct (decode_ok m ik P Hik) as (Bk & Ik & Nk). rewrite <- Nk in S.
      assert (V : veq (foldToBz c) (node m (decode m ik))).
      { destruct Bk as (K0 & K1 & K2). apply foldToBz_node; assumption. }
      destruct (search_spec m ts R Bx Srt (decode m ik) (foldToBz c) V) as (r & Er & Hr).
      rewrite El. exists r. split; [exact Er|]. destruct Hr as [(t & Et & HK)|(-> & HK)].
      - left. subst ts. rewrite zget_map in Et. destruct (zget F r) as [a|] eqn:Ea; [|discriminate].
        cbn [option_map] in Et. injection Et as <-. f_equal.
        destruct (decode_ok m a P (HF _ _ Ea)) as (_ & Ia & _). rewrite <- Ia, <- Ik. unfold idx.
        rewrite (HK 0%nat), (HK 1%nat), (HK 2%nat) by lia. reflexivity.
      - right. split; [reflexivity|]. intros i Ei. apply (HK i (decode m ik)).
        + subst ts. rewrite zget_map, Ei. reflexivity.
        + reflexivity. }
    split.
    + intros i ik c E S. split.
      * destruct (Key ik c (HF _ _ E) S) as (r & Er & Hr).
        unfold getIndex, isPointStored. cbn [explicitlyStored negb isPointsListSorted pointsList]. rewrite Er. cbn [bind].
        destruct Hr as [Er'|(-> & Hn)]; [|exfalso; apply (Hn i); assumption].
        destruct (zget_Some _ _ _ Er') as (Hr & _).
        destruct (Z.eqb_spec r (-1)); [lia|]. f_equal.
        destruct (Z.lt_trichotomy r i) as [L|[L|L]]; [|assumption|].
        -- pose proof (increasing_zget F HI _ _ _ _ L Er' E). lia.
        -- pose proof (increasing_zget F HI _ _ _ _ L E Er'). lia.
      * unfold getPointCoordinates. cbn [explicitlyStored pointsList]. rewrite zget_map, E. reflexivity.
    + intros ik c Hik NI S. destruct (Key ik c Hik S) as (r & Er & Hr).
      unfold getIndex, isPointStored. cbn [explicitlyStored negb isPointsListSorted pointsList]. rewrite Er. cbn [bind].
      destruct Hr as [Er'|(-> & Hn)]; [|reflexivity].
      exfalso. apply NI. apply (zget_Some _ _ _ Er').
Qed.
