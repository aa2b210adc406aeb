(** Proofs about block-cyclic layouts. *)
From Coq Require Import QArith Qcanon Permutation.
From Verif Require Import Base BaseLemmas M_utilities M_mpi M_reduce M_matrix S_matrix L_fill L_reduce.
Open Scope Z_scope.

Section Dim.
Variables (nb P p : Z).
Hypothesis Hnb : 0 < nb.
Hypothesis HP : 0 < P.
Hypothesis Hp : 0 <= p < P.

Definition glob (l : Z) : Z := (l / nb * P + p) * nb + l mod nb.
Definition loc (g : Z) : Z := nb * (g / (nb * P)) + g mod nb.
Definition own (g : Z) : Z := (g / nb) mod P.

Lemma glob_div l : 0 <= l -> glob l / nb = l / nb * P + p /\ glob l mod nb = l mod nb.
Proof.
  intro Hl. unfold glob. pose proof (Z.mod_pos_bound l nb Hnb).
  split.
  - symmetry. apply (Z.div_unique _ _ _ (l mod nb)); [left; lia|ring].
  - symmetry. apply (Z.mod_unique _ _ (l / nb * P + p)); [left; lia|ring].
Qed.
Lemma own_glob l : 0 <= l -> own (glob l) = p.
Proof.
  intro Hl. unfold own. destruct (glob_div l Hl) as [-> _].
  rewrite Z.add_comm, Z.mod_add by lia. apply Z.mod_small; lia.
Qed.
Lemma loc_glob l : 0 <= l -> loc (glob l) = l.
Proof.
  intro Hl. unfold loc. destruct (glob_div l Hl) as [E1 E2]. rewrite E2.
  rewrite <- Z.div_div by lia. rewrite E1.
  replace ((l / nb * P + p) / P) with (l / nb).
  - pose proof (Z.div_mod l nb ltac:(lia)). lia.
  - symmetry. rewrite Z.add_comm, Z.div_add by lia. rewrite Z.div_small; lia.
Qed.
Lemma loc_nonneg g : 0 <= g -> 0 <= loc g.
Proof.
  intro. unfold loc. pose proof (Z.mod_pos_bound g nb Hnb). assert (0 <= g / (nb * P)) by (apply Z.div_pos; nia). nia.
Qed.
Lemma glob_loc g : 0 <= g -> own g = p -> glob (loc g) = g.
Proof.
  intros Hg Ho. unfold glob, loc. pose proof (Z.mod_pos_bound g nb Hnb) as B.
  assert (E1 : (nb * (g / (nb * P)) + g mod nb) / nb = g / (nb * P)).
  { rewrite Z.add_comm, Z.mul_comm, Z.div_add by lia. rewrite (Z.div_small (g mod nb)); lia. }
  assert (E2 : (nb * (g / (nb * P)) + g mod nb) mod nb = g mod nb).
  { rewrite Z.add_comm, Z.mul_comm, Z.mod_add by lia. apply Z.mod_small; lia. }
  rewrite E1, E2. rewrite <- Z.div_div by lia. unfold own in Ho.
  pose proof (Z.div_mod (g / nb) P ltac:(lia)) as D. rewrite Ho in D.
  pose proof (Z.div_mod g nb ltac:(lia)) as D2. nia.
Qed.
Lemma glob_inj l l' : 0 <= l -> 0 <= l' -> glob l = glob l' -> l = l'.
Proof. intros A B E. rewrite <- (loc_glob l A), <- (loc_glob l' B), E. reflexivity. Qed.
Lemma glob_nonneg l : 0 <= l -> 0 <= glob l.
Proof.
  intro H. unfold glob. pose proof (Z.mod_pos_bound l nb Hnb). assert (0 <= l / nb) by (apply Z.div_pos; lia). nia.
Qed.

Lemma numroc_eq n : 0 <= n -> numroc n nb p P =
  (n / nb / P) * nb + (if p <? (n / nb) mod P then nb else if p =? (n / nb) mod P then n mod nb else 0).
Proof.
  intro Hn. unfold numroc. assert (0 <= n / nb) by (apply Z.div_pos; lia).
  rewrite (Z.quot_div_nonneg n nb) by lia. rewrite (Z.quot_div_nonneg (n / nb) P) by lia.
  rewrite !Z.rem_mod_nonneg by lia.
  replace ((P + p) mod P) with p. 2:{ replace (P + p) with (p + 1 * P) by ring. rewrite Z.mod_add by lia. symmetry; apply Z.mod_small; lia. }
  destruct (p <? _); [lia|]. destruct (p =? _); lia.
Qed.
Lemma numroc_nonneg n : 0 <= n -> 0 <= numroc n nb p P.
Proof.
  intro Hn. rewrite numroc_eq by lia. assert (0 <= n / nb / P) by (apply Z.div_pos; [apply Z.div_pos; lia|lia]).
  pose proof (Z.mod_pos_bound n nb Hnb). destruct (p <? _); [nia|]. destruct (p =? _); nia.
Qed.
Lemma numroc_iff n l : 0 <= n -> 0 <= l -> (l < numroc n nb p P <-> glob l < n).
Proof.
  intros Hn Hl. rewrite numroc_eq by lia. unfold glob.
  pose proof (Z.mod_pos_bound l nb Hnb) as B1. pose proof (Z.mod_pos_bound n nb Hnb) as B2.
  pose proof (Z.mod_pos_bound (n / nb) P HP) as B3.
  pose proof (Z.div_mod l nb ltac:(lia)) as D1. pose proof (Z.div_mod n nb ltac:(lia)) as D2.
  pose proof (Z.div_mod (n / nb) P ltac:(lia)) as D3.
  set (lb := l / nb) in *. set (x := l mod nb) in *. set (r := n mod nb) in *.
  set (N := n / nb) in *. set (c := N / P) in *. set (e := N mod P) in *.
  assert (X : (lb * P + p) * nb + x < n <-> lb * P + p < N \/ (lb * P + p = N /\ x < r)).
  { rewrite D2. split; intro H.
    - destruct (Z.lt_trichotomy (lb * P + p) N) as [|[E|G]]; [left; lia|right; split; [lia|]|nia].
      rewrite E in H. nia.
    - destruct H as [H|[H1 H2]]; [nia|rewrite H1; nia]. }
  assert (Y : lb * P + p < N <-> lb < c \/ (lb = c /\ p < e)).
  { rewrite D3. split; intro H.
    - destruct (Z.lt_trichotomy lb c) as [|[E|G]]; [left; lia|right; subst lb; split; [exact E|rewrite E in H; nia]|nia].
    - destruct H as [H|[H1 H2]]; [nia|rewrite H1; nia]. }
  assert (Y' : lb * P + p = N <-> lb = c /\ p = e).
  { rewrite D3. split; intro H.
    - destruct (Z.lt_trichotomy lb c) as [|[E|G]]; [nia|split; [lia|rewrite E in H; nia]|nia].
    - destruct H as [H1 H2]; rewrite H1, H2; nia. }
  rewrite X, Y, Y'. rewrite D1.
  destruct (p <? e) eqn:E1; [|destruct (p =? e) eqn:E2].
  - split; intro H.
    + left. destruct (Z.lt_trichotomy lb c) as [|[E|G]]; [left; lia|right; lia|nia].
    + destruct H as [[H|[H1 H2]]|[[H1 H2] H3]]; [nia|rewrite H1; nia|lia].
  - split; intro H.
    + destruct (Z.lt_trichotomy lb c) as [|[E|G]]; [left; left; lia| |nia].
      right. split; [split; lia|]. rewrite E in H. nia.
    + destruct H as [[H|[H1 H2]]|[[H1 H2] H3]]; [nia|lia|rewrite H1; nia].
  - split; intro H.
    + left; left. destruct (Z.lt_trichotomy lb c) as [|[E|G]]; [lia|rewrite E in H; nia|nia].
    + destruct H as [[H|[H1 H2]]|[[H1 H2] H3]]; [nia|lia|lia].
Qed.
End Dim.

(** ** two dimensions *)
Lemma owner_eq g nb P : 0 <= g -> 0 < nb -> 0 < P -> infog2lOwner (g + 1) nb P = own nb P g.
Proof.
  intros. unfold infog2lOwner, own. replace (g + 1 - 1) with g by ring. rewrite Z.quot_div_nonneg by lia.
  rewrite Z.rem_mod_nonneg; [reflexivity| |lia]. apply Z.div_pos; lia.
Qed.
Lemma indxg2l_eq g nb P : 0 <= g -> 0 < nb -> 0 < P -> indxg2l (g + 1) nb P = loc nb P g + 1.
Proof.
  intros. unfold indxg2l, loc. replace (g + 1 - 1) with g by ring.
  rewrite Z.quot_div_nonneg by nia. rewrite Z.rem_mod_nonneg by lia. reflexivity.
Qed.

Section Lay.
Variable L : layout.
Hypothesis HL : validLayout L.
Variable p : Z * Z.
Hypothesis Hp : isProcess L p.

Let nr := numLocalRows L p.
Let nc := numLocalCols L p.

Lemma nr_nonneg : 0 <= nr.
Proof. destruct HL as (?&?&?&?&?&?), Hp. apply numroc_nonneg; lia. Qed.
Lemma nc_nonneg : 0 <= nc.
Proof. destruct HL as (?&?&?&?&?&?), Hp. apply numroc_nonneg; lia. Qed.

Lemma local2Global_eq k : 0 <= k -> 0 < nr ->
  local2Global L p k = (glob (bsRows L) (npRows L) (fst p) (k mod nr), glob (bsCols L) (npCols L) (snd p) (k / nr)).
Proof.
  intros Hk Hnr. unfold local2Global. fold nr. destruct HL as (?&?&?&?&?&?).
  rewrite (Z.quot_div_nonneg k nr) by lia.
  replace (k - k / nr * nr) with (k mod nr) by (rewrite Z.mod_eq by lia; ring).
  pose proof (Z.mod_pos_bound k nr Hnr). assert (0 <= k / nr) by (apply Z.div_pos; lia).
  rewrite !Z.quot_div_nonneg by lia. rewrite !Z.rem_mod_nonneg by lia. reflexivity.
Qed.

Lemma global2Local_eq r c : inMatrix L r c ->
  global2Local L p r c =
  (if (fst p =? own (bsRows L) (npRows L) r) && (snd p =? own (bsCols L) (npCols L) c)
   then loc (bsRows L) (npRows L) r + loc (bsCols L) (npCols L) c * nr else -1).
Proof.
  intros [Hr Hc]. pose proof HL as (?&?&?&?&?&?). unfold global2Local. rewrite !owner_eq, !indxg2l_eq by lia.
  destruct (fst p =? _) eqn:E1; destruct (snd p =? _) eqn:E2; cbn [negb orb andb]; try reflexivity.
  assert (G : glob (bsRows L) (npRows L) (fst p) (loc (bsRows L) (npRows L) r) = r) by (apply glob_loc; lia).
  assert (Q : loc (bsRows L) (npRows L) r < nr).
  { unfold nr, numLocalRows. destruct Hp. apply numroc_iff; try lia. apply loc_nonneg; lia. }
  pose proof (loc_nonneg (bsRows L) (npRows L) ltac:(lia) ltac:(lia) r ltac:(lia)).
  unfold lddA. fold nr. destruct (1 <? nr) eqn:E3; [ring|]. replace nr with 1 by lia. ring.
Qed.

Lemma local_slot r c k : inMatrix L r c -> global2Local L p r c = k -> k <> -1 ->
  0 <= k < numLocalElements L p /\ local2Global L p k = (r, c).
Proof.
  intros Hin E Hk. pose proof HL as (?&?&?&?&?&?). pose proof Hp as [Hp1 Hp2]. pose proof Hin as [Hr Hc].
  rewrite (global2Local_eq _ _ Hin) in E.
  destruct ((fst p =? _) && (snd p =? _)) eqn:E1; [|congruence].
  assert (O1 : own (bsRows L) (npRows L) r = fst p) by lia. assert (O2 : own (bsCols L) (npCols L) c = snd p) by lia.
  set (lr := loc (bsRows L) (npRows L) r) in *. set (lc := loc (bsCols L) (npCols L) c) in *.
  assert (G1 : glob (bsRows L) (npRows L) (fst p) lr = r) by (apply glob_loc; lia).
  assert (G2 : glob (bsCols L) (npCols L) (snd p) lc = c) by (apply glob_loc; lia).
  assert (N1 : 0 <= lr) by (apply loc_nonneg; lia). assert (N2 : 0 <= lc) by (apply loc_nonneg; lia).
  assert (Q1 : lr < nr) by (apply numroc_iff; lia). assert (Q2 : lc < nc) by (apply numroc_iff; lia).
  split. { unfold numLocalElements. fold nr nc. nia. }
  rewrite local2Global_eq by nia. subst k.
  rewrite Z.mod_add by lia. rewrite Z.mod_small by lia. rewrite Z.div_add by lia. rewrite Z.div_small by lia.
  cbn [Z.add]. rewrite G1, G2. reflexivity.
Qed.

Lemma local_range k : 0 <= k < numLocalElements L p -> 0 < nr /\ 0 <= k mod nr < nr /\ 0 <= k / nr < nc.
Proof.
  intro Hk. unfold numLocalElements in Hk. fold nr nc in Hk. pose proof nr_nonneg. pose proof nc_nonneg.
  assert (0 < nr) by nia. split; [lia|]. split; [apply Z.mod_pos_bound; lia|].
  split; [apply Z.div_pos; lia|apply Z.div_lt_upper_bound; lia].
Qed.
Lemma local_back k : 0 <= k < numLocalElements L p ->
  inMatrix L (fst (local2Global L p k)) (snd (local2Global L p k)) /\
  global2Local L p (fst (local2Global L p k)) (snd (local2Global L p k)) = k.
Proof.
  intro Hk. destruct (local_range k Hk) as (A & B & C). pose proof HL as (?&?&?&?&?&?). pose proof Hp as [Hp1 Hp2].
  rewrite local2Global_eq by lia. cbn [fst snd].
  assert (In : inMatrix L (glob (bsRows L) (npRows L) (fst p) (k mod nr)) (glob (bsCols L) (npCols L) (snd p) (k / nr))).
  { split; (split; [apply glob_nonneg; lia|]).
    - apply numroc_iff; try lia. exact (proj2 B).
    - apply numroc_iff; try lia. exact (proj2 C). }
  split; [exact In|]. rewrite global2Local_eq by exact In. rewrite !own_glob by lia. rewrite !Z.eqb_refl. cbn [andb].
  rewrite !loc_glob by lia. pose proof (Z.div_mod k nr ltac:(lia)). lia.
Qed.

Lemma states_In r c : In (r, c) (getAllLocalStates L p) <-> inMatrix L r c /\ global2Local L p r c <> -1.
Proof.
  unfold getAllLocalStates. rewrite in_map_iff. split.
  - intros (k & E & Hk). apply in_zrange in Hk. destruct (local_back k ltac:(lia)) as [A B].
    rewrite E in A, B. cbn in A, B. split; [exact A|lia].
  - intros [A B]. destruct (local_slot r c _ A eq_refl B) as [C D].
    exists (global2Local L p r c). split; [exact D|apply in_zrange; lia].
Qed.
Lemma states_NoDup : NoDup (getAllLocalStates L p).
Proof.
  unfold getAllLocalStates. assert (G : forall l, (forall k, In k l -> 0 <= k < numLocalElements L p) -> NoDup l -> NoDup (map (local2Global L p) l)).
  { induction l as [|k l IH]; intros Hin Hn; [constructor|]. inversion Hn; subst. cbn. constructor.
    - intro C. apply in_map_iff in C as (k' & E & Hk'). destruct (local_back k (Hin k (or_introl eq_refl))) as [_ B].
      destruct (local_back k' (Hin k' (or_intror Hk'))) as [_ B']. rewrite E in B'. rewrite B in B'. subst k'. contradiction.
    - apply IH; auto. intros; apply Hin; right; auto. }
  apply G; [|apply NoDup_zrange]. intros k Hk. apply in_zrange in Hk. lia.
Qed.
End Lay.

Lemma own_range nb P g : 0 < P -> 0 <= own nb P g < P.
Proof. intro. apply Z.mod_pos_bound; lia. Qed.

Lemma one_owner L r c : validLayout L -> inMatrix L r c ->
  exists p, isProcess L p /\ indicesAreLocal L p r c = true /\
  forall q, isProcess L q -> indicesAreLocal L q r c = true -> q = p.
Proof.
  intros HL Hin. pose proof HL as (?&?&?&?&?&?). pose proof Hin as [Hr Hc].
  set (p := (own (bsRows L) (npRows L) r, own (bsCols L) (npCols L) c)).
  assert (Hp : isProcess L p) by (split; apply own_range; lia).
  exists p. split; [exact Hp|]. unfold indicesAreLocal. split.
  - rewrite (global2Local_eq L HL p Hp) by exact Hin. cbn [p fst snd]. rewrite !Z.eqb_refl. cbn [andb].
    assert (0 <= loc (bsRows L) (npRows L) r) by (apply loc_nonneg; lia). assert (0 <= loc (bsCols L) (npCols L) c) by (apply loc_nonneg; lia).
    pose proof (nr_nonneg L HL p Hp). destruct (_ =? -1) eqn:E; [nia|reflexivity].
  - intros q Hq E. rewrite (global2Local_eq L HL q Hq) in E by exact Hin.
    destruct ((fst q =? _) && (snd q =? _)) eqn:E1; [|discriminate]. destruct q as [q1 q2]. cbn in E1. unfold p. f_equal; lia.
Qed.

Lemma isProcess_In L p : isProcess L p <-> In p (processes L).
Proof.
  unfold processes, isProcess. destruct p as [a b]. rewrite in_prod_iff, !in_zrange. cbn. lia.
Qed.
Lemma NoDup_app2 {A} (l l' : list A) : NoDup l -> NoDup l' -> (forall x, In x l -> ~ In x l') -> NoDup (l ++ l').
Proof.
  intros H H' D. induction H as [|a l Ha Hl IH]; [exact H'|]. cbn. constructor.
  - rewrite in_app_iff. intros [C|C]; [contradiction|]. exact (D a (or_introl eq_refl) C).
  - apply IH. intros x I. apply D. right; exact I.
Qed.
Lemma NoDup_flat_map {A B} (f : A -> list B) l : NoDup l -> (forall a, In a l -> NoDup (f a)) ->
  (forall a a' x, In a l -> In a' l -> In x (f a) -> In x (f a') -> a = a') -> NoDup (flat_map f l).
Proof.
  intros H Hf D. induction H as [|a l Ha Hl IH]; [constructor|]. cbn. apply NoDup_app2.
  - apply Hf. left; reflexivity.
  - apply IH; [intros; apply Hf; right; assumption|]. intros b b' x I I'. apply D; right; assumption.
  - intros x I C. apply in_flat_map in C as (b & Hb & Hx).
    rewrite (D a b x (or_introl eq_refl) (or_intror Hb) I Hx) in Ha. contradiction.
Qed.
Lemma NoDup_list_prod {A B} (l : list A) (l' : list B) : NoDup l -> NoDup l' -> NoDup (list_prod l l').
Proof.
  intros H H'. induction H as [|a l Ha Hl IH]; [constructor|]. cbn. apply NoDup_app2; [|exact IH|].
  - clear - H'. induction H' as [|b l' Hb H' IH']; [constructor|]. cbn. constructor; [|exact IH'].
    intro C. apply in_map_iff in C as (x & E & I). injection E as ->. contradiction.
  - intros [x y] I C. apply in_map_iff in I as (z & E & _). injection E as -> ->.
    apply in_prod_iff in C as [C _]. contradiction.
Qed.

Lemma states_partition L : validLayout L ->
  Permutation (flat_map (getAllLocalStates L) (processes L)) (list_prod (zrange 0 (lRows L)) (zrange 0 (lCols L))).
Proof.
  intro HL. apply NoDup_Permutation.
  - apply NoDup_flat_map.
    + apply NoDup_list_prod; apply NoDup_zrange.
    + intros p Hp. apply states_NoDup; [exact HL|]. apply isProcess_In, Hp.
    + intros p q [r c] Hp Hq I J. apply isProcess_In in Hp. apply isProcess_In in Hq.
      apply (states_In L HL p Hp) in I as [I1 I2]. apply (states_In L HL q Hq) in J as [J1 J2].
      destruct (one_owner L r c HL I1) as (o & _ & _ & U).
      rewrite (U p Hp), (U q Hq); [reflexivity| |]; unfold indicesAreLocal; destruct (_ =? -1) eqn:E; try reflexivity; lia.
  - apply NoDup_list_prod; apply NoDup_zrange.
  - intros [r c]. rewrite in_flat_map, in_prod_iff, !in_zrange. split.
    + intros (p & Hp & I). apply isProcess_In in Hp. apply (states_In L HL p Hp) in I as [[I1 I2] _]. lia.
    + intros [H1 H2]. assert (Hin : inMatrix L r c) by (split; lia).
      destruct (one_owner L r c HL Hin) as (p & Hp & E & _). exists p. split; [apply isProcess_In, Hp|].
      apply (states_In L HL p Hp). split; [exact Hin|]. unfold indicesAreLocal in E. destruct (_ =? -1) eqn:F; [discriminate|lia].
Qed.

Lemma blockSize_pos n k : 0 < n -> 0 < k -> 0 < blockSize n k /\ blockSize n k = (n + k - 1) / k.
Proof.
  intros Hn Hk. unfold blockSize. rewrite Z.quot_div_nonneg, Z.rem_mod_nonneg by lia.
  pose proof (Z.div_mod n k ltac:(lia)) as D. pose proof (Z.mod_pos_bound n k Hk) as B.
  assert (0 <= n / k) by (apply Z.div_pos; lia).
  destruct (n mod k =? 0) eqn:E.
  - split; [nia|]. apply (Z.div_unique _ _ _ (k - 1)); [left; lia|]. lia.
  - split; [lia|]. apply (Z.div_unique _ _ _ (n mod k - 1)); [left; lia|]. lia.
Qed.

Lemma initBlacs_ok size a b g : 0 < size -> 0 <= a -> 0 <= b -> a <= size -> b <= size -> initBlacs size a b = Ok g ->
  0 < fst g /\ 0 < snd g /\ fst g * snd g <= size /\ (a <> 0 -> fst g = a) /\ (b <> 0 -> snd g = b) /\
  (a = 0 -> b = 0 -> fst g = snd g /\ fst g * snd g = size).
Proof.
  intros Hs Ha Hb La Lb. unfold initBlacs. destruct (size <? a * b) eqn:E0; [discriminate|].
  destruct (a =? 0) eqn:Ea; destruct (b =? 0) eqn:Eb; cbn [negb andb].
  - pose proof (Z.sqrt_spec size ltac:(lia)) as S. destruct (_ <? size) eqn:E1; [discriminate|]. intro E; injection E as <-. cbn [fst snd].
    assert (0 < Z.sqrt size) by (apply Z.sqrt_pos; lia). set (s := Z.sqrt size) in *. cbv zeta in S. assert (s * s = size) by lia. split; [lia|]. split; [lia|]. split; [lia|]. split; [lia|]. split; [lia|]. intros; split; [reflexivity|lia].
  - intro E; injection E as <-. cbn [fst snd]. rewrite Z.quot_div_nonneg by lia.
    assert (0 < size / b) by (apply Z.div_str_pos; lia). pose proof (Z.mul_div_le size b ltac:(lia)). repeat split; try lia.
  - intro E; injection E as <-. cbn [fst snd]. rewrite Z.quot_div_nonneg by lia.
    assert (0 < size / a) by (apply Z.div_str_pos; lia). pose proof (Z.mul_div_le size a ltac:(lia)). repeat split; try lia.
  - intro E; injection E as <-. cbn [fst snd]. repeat split; lia.
Qed.

Lemma mkLayout_valid size n m a b nbr nbc L : 0 < size -> 0 < n -> 0 < m -> 0 <= a <= size -> 0 <= b <= size -> 0 <= nbr -> 0 <= nbc ->
  mkLayout size n m a b nbr nbc = Ok L -> validLayout L /\ lRows L = n /\ lCols L = m /\ npRows L * npCols L <= size.
Proof.
  intros Hs Hn Hm Ha Hb Hr Hc. unfold mkLayout. destruct (initBlacs size a b) as [g| |] eqn:E; [|discriminate|discriminate].
  cbn [bind]. destruct (initBlacs_ok size a b g) as (P1 & P2 & P3 & _); try lia; try assumption.
  destruct (((if nbr =? 0 then fst g else nbr) =? 0) || ((if nbc =? 0 then snd g else nbc) =? 0)) eqn:Z; [discriminate|].
  intro X; injection X as <-. unfold validLayout. cbn.
  split; [|repeat split; lia].
  split; [lia|]. split; [lia|].
  split. { apply (blockSize_pos n); [lia|]. destruct (nbr =? 0); lia. }
  split. { apply (blockSize_pos m); [lia|]. destruct (nbc =? 0); lia. }
  lia.
Qed.
