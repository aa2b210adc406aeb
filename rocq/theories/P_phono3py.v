(** Properties C131 and C132 *)
From Coq Require Import Reals QArith Qabs Permutation.
From Verif Require Import Base BaseLemmas M_utilities M_points L_points M_phonon L_matrix L_phonon M_phono3py S_phono3py L_phono3py L_phono3py2 L_phono3py3 L_phono3py4.
From Coq Require Import Lia Lqa.
Open Scope Z_scope.

(** * C131: the tensor read from phono3py files *)
Theorem C131_tensor : forall F s, wellSized F -> independent (pCell F) -> orderedSupercell F s -> exists bv w m, parsePhono3py F = Ok (bv, w, m) /\ readCorrectly F s bv w m.
Proof. intros. now apply reader_ok. Qed.
(** a supercell whose atoms are not where the cell of the harmonic constants puts them is rejected: no position of the file is that of a cell
    of the supercell that is needed *)
Lemma foldM_defined {A S} (f : S -> A -> res S) l : (forall x m, In x l -> f m x <> UB) -> forall m, foldM f l m <> UB.
Proof.
  induction l as [|x l IH]; intros H m; cbn [foldM]; [discriminate|]. pose proof (H x m (or_introl eq_refl)) as Hx. destruct (f m x); cbn [bind]; try congruence. apply IH. intros; apply H; now right.
Qed.
Lemma findRow_range F l v t : findRow F l v = Ok t -> In t l.
Proof. induction l as [|x l IH]; cbn [findRow]; [discriminate|]. destruct (Qltb _ _); [intro E; injection E as ->; now left|intro E; right; now apply IH]. Qed.
Lemma findRow_defined F l v : findRow F l v <> UB.
Proof. induction l as [|x l IH]; cbn [findRow]; [discriminate|]. destruct (Qltb _ _); [discriminate|exact IH]. Qed.
Lemma step2_defined F : wellSized F -> forall m n, step2 F (bravais F) m n <> UB.
Proof.
  intros HS m n. unfold step2. destruct (findVec _ _) as [iR2|]; [|discriminate]. destruct (findIndexRow F _) as [ir2 | |] eqn:E2; cbn [bind]; try discriminate; [|exfalso; now apply (findRow_defined _ _ _ E2)].
  unfold findIndexRow in E2. apply (findRow_range F (zrange 0 (numCells F))) in E2. apply in_zrange in E2. apply foldM_defined. intros n3 m3 _. unfold step3. destruct (findVec _ _) as [iR3|]; [|discriminate]. destruct (findIndexRow F _) as [ir3 | |] eqn:E3; cbn [bind]; try discriminate; [|exfalso; now apply (findRow_defined _ _ _ E3)].
  unfold findIndexRow in E3. apply (findRow_range F (zrange 0 (numCells F))) in E3. apply in_zrange in E3. apply foldM_defined. intros [na nb] m4 Hab. apply in_prod_iff in Hab. rewrite !in_zrange in Hab. unfold stepAB. cbn [fst snd]. destruct (Qeq_bool _ _); [discriminate|].
  apply foldM_defined. intros nc m5 Hc. apply in_zrange in Hc. rewrite (stepC_ok F HS) by lia. discriminate.
Qed.
Theorem C131_mismatch : forall F n na nb, wellSized F -> inWindow F n -> 0 <= na < pAt F -> 0 <= nb < pAt F -> (0 < p3Weight F (p3vector F (lat (pCell F) n) na nb))%Q ->
  (forall t, 0 <= t < numCells F -> exists i, 0 <= i < 3 /\ ((1 # 1000000000000) <= Qabs (lat (pCell F) (wrap F n) i - cellPos F t i))%Q) -> parsePhono3py F = Err.
Proof.
  intros F n na nb HS Hn Ha Hb Hw Hm. unfold parsePhono3py. rewrite (weights_updates F HS). cbn [bind].
  destruct (bravais_has F HS na nb n Ha Hb Hn Hw) as (ir & x & Ef & _). assert (E : forall m, step2 F (bravais F) m n = Err).
  { intro m. unfold step2. rewrite Ef, (positive3_wrap F HS). assert (EF : findIndexRow F (lat (pCell F) (wrap F n)) = Err); [|now rewrite EF].
    unfold findIndexRow. rewrite <- (app_nil_r (zrange 0 (numCells F))). rewrite findRow_skip with (l' := []); try reflexivity; try exact HS. intros t Ht. apply in_zrange in Ht. apply Hm. lia. }
  assert (K : forall l m, In n l -> foldM (step2 F (bravais F)) l m = Err).
  { induction l as [|y l IH]; intros m Hin; [contradiction|]. cbn [foldM]. destruct Hin as [-> | Hin]; [now rewrite E|]. pose proof (step2_defined F HS m y) as Hu. destruct (step2 F (bravais F) m y); cbn [bind]; try congruence. now apply IH. }
  rewrite K; [reflexivity|]. now apply (in_window F HS).
Qed.
Definition exCell (c i : Z) : Q := if (c =? i)%Z then 4%Q else 0%Q.
Definition exP3 : p3file := {| pAt := 1; pCell := exCell; pGrid := fun c => if c =? 0 then 2 else 1; pTau := fun _ _ => 1%Q; numSup := 2;
  supPos := fun t i => if i =? 0 then inject_Z (4 * t) else 0%Q; p2s := [0]; fc3 := fun a b c i j k => IZR (100 * a + 10 * b + c); p3conv := 1%R |}.
Example C131_ex : wellSized exP3 /\ independent (pCell exP3) /\ orderedSupercell exP3 (fun m => fst (fst m)) /\ zlen (bravais exP3) = 3 /\ p3Weight exP3 (p3vector exP3 (lat exCell (1, 0, 0)) 0 0) = (1 # 2)%Q.
Proof.
  split; [|split; [|split; [|split]]]; [| | |vm_compute; reflexivity|vm_compute; reflexivity].
  - split; [cbn; lia|]. split; [cbn; unfold INT_MAX; lia|]. split; [intros c Hc; cbn; destruct (c =? 0); lia|]. split; [reflexivity|]. intros a x Hx. pose proof (proj1 (zget_Some _ _ _ Hx)) as B. assert (a = 0) by (unfold zlen in B; cbn in B; lia). subst a. injection Hx as <-. vm_compute. split; intro K; discriminate K.
  - intros [[n1 n2] n3] [[m1 m2] m3] H. pose proof (H 0 ltac:(lia)) as H0. pose proof (H 1 ltac:(lia)) as H1. pose proof (H 2 ltac:(lia)) as H2. cbn [pCell exP3] in *. unfold lat, lin3, exCell in *. cbn [Z.eqb Pos.eqb] in *.
    assert (E1 : (inject_Z n1 == inject_Z m1)%Q) by lra. assert (E2 : (inject_Z n2 == inject_Z m2)%Q) by lra. assert (E3 : (inject_Z n3 == inject_Z m3)%Q) by lra. apply (proj1 (inject_Z_injective _ _)) in E1. apply (proj1 (inject_Z_injective _ _)) in E2. apply (proj1 (inject_Z_injective _ _)) in E3. subst m1 m2 m3. reflexivity.
  - intros [[m1 m2] m3] H. cbn [fst snd pGrid exP3] in *. cbn [Z.eqb] in H. change (numCells exP3) with 2. split; [lia|]. assert (m2 = 0) as -> by lia. assert (m3 = 0) as -> by lia. split.
    + intros i Hi. assert (m1 = 0 \/ m1 = 1) as [-> | ->] by lia; assert (i = 0 \/ i = 1 \/ i = 2) as [-> | [-> | ->]] by lia; vm_compute; reflexivity.
    + intros t Ht. exists 0. split; [lia|]. assert (m1 = 1) as -> by lia. assert (t = 0) as -> by lia. vm_compute. intro K. discriminate K.
Qed.

(** * C132: Wigner-Seitz weights *)
(** third-order force constants: the images of a pair of atoms share a total weight of one, equally among the shortest *)
Theorem C132_anharmonic_partial : forall F na nb m d W, (forall c, 0 <= c < 3 -> 0 < pGrid F c) -> (forall i, d i = (pTau F nb i - pTau F na i)%Q) ->
  reach (pCell F) (pGrid F) d m W -> resolved (pCell F) (pGrid F) d W p3tol ->
  let w := fun n => p3Weight F (p3vector F (lat (pCell F) n) na nb) in
  (sumW w W == 1)%Q /\ exists C, NoDup C /\ (forall n, In n C <-> images (pGrid F) m n /\ shortest (pCell F) (pGrid F) d n) /\
    (forall n, In n W -> In n C -> (w n == 1 # Pos.of_nat (length C))%Q) /\ (forall n, In n W -> ~ In n C -> (w n == 0)%Q).
Proof.
  intros F na nb m d W Hg Hd HR HD w. apply ws_sum; [exact Hg|exact HR|]. intros n Hn. apply p3Weight_form; [|now apply resolved_one with W]. intros i _. unfold p3vector, pos. rewrite Hd. ring.
Qed.
(** harmonic force constants *)
Theorem C132_harmonic_partial : forall P na nb m d W, (forall c, 0 <= c < 3 -> 0 < grid P c) -> (forall i, d i = (tau P na i - tau P nb i)%Q) ->
  reach (cell P) (grid P) d m W -> resolved (cell P) (grid P) d W wsTol ->
  let w := fun n : z3 => wsCache P (fst (fst n)) (snd (fst n)) (snd n) nb na in
  (sumW w W == 1)%Q /\ exists C, NoDup C /\ (forall n, In n C <-> images (grid P) m n /\ shortest (cell P) (grid P) d n) /\
    (forall n, In n W -> In n C -> (w n == 1 # Pos.of_nat (length C))%Q) /\ (forall n, In n W -> ~ In n C -> (w n == 0)%Q).
Proof.
  intros P na nb m d W Hg Hd HR HD w. apply ws_sum; [exact Hg|exact HR|]. intros n Hn. apply wsCache_form; [|now apply resolved_one with W]. intros i _. rewrite Hd. reflexivity.
Qed.
(** orthorhombic crystals: the cells searched by the two codes hold the shortest images *)
Theorem C132_orthorhombic_anharmonic : forall F a na nb m d, (forall c, 0 <= c < 3 -> 0 < pGrid F c) -> orthorhombic (pCell F) a -> (forall i, d i = (pTau F nb i - pTau F na i)%Q) -> (forall c, 0 <= c < 3 -> (Qabs (d c) < a c)%Q) ->
  let W := filter (imageb (pGrid F) m) (window F) in resolved (pCell F) (pGrid F) d W p3tol -> (sumW (fun n => p3Weight F (p3vector F (lat (pCell F) n) na nb)) W == 1)%Q.
Proof.
  intros F a na nb m d Hg HO Hd Hs W HD. assert (IW : forall n, In n (window F) <-> inWindow F n).
  { intros [[n1 n2] n3]. unfold window, p3range, z3. cbn [inWindow]. rewrite in_map_iff. pose proof (Hg 0 ltac:(lia)). pose proof (Hg 1 ltac:(lia)). pose proof (Hg 2 ltac:(lia)). split.
    - intros ([[x y] z] & E & Hin). injection E as -> -> ->. rewrite !in_prod_iff, !in_zrange in Hin. lia.
    - intro Hw. exists (n3, n2, n1). split; [reflexivity|]. rewrite !in_prod_iff, !in_zrange. lia. }
  apply (C132_anharmonic_partial F na nb m d W Hg Hd); [|exact HD]. apply (ortho_reach (pCell F) a (pGrid F) d HO Hg Hs).
  - apply NoDup_filter. unfold window. apply FinFun.Injective_map_NoDup; [intros [[x y] z] [[x' y'] z'] E; injection E as -> -> ->; reflexivity|]. repeat apply NoDup_list_prod; apply NoDup_zrange.
  - intros n Hn. unfold W in Hn. rewrite filter_In in Hn. now apply (imageb_spec _ _ _ Hg).
  - intros n1 n2 n3 Hi H1 H2 H3. unfold W. rewrite filter_In. split; [apply IW; cbn [inWindow]; auto|now apply (imageb_spec _ _ _ Hg)].
Qed.
Theorem C132_orthorhombic_harmonic : forall P a na nb m d, (forall c, 0 <= c < 3 -> 0 < grid P c) -> orthorhombic (cell P) a -> (forall i, d i = (tau P na i - tau P nb i)%Q) -> (forall c, 0 <= c < 3 -> (Qabs (d c) < a c)%Q) ->
  let W := filter (imageb (grid P) m) (cellsBig P) in resolved (cell P) (grid P) d W wsTol -> (sumW (fun n : z3 => wsCache P (fst (fst n)) (snd (fst n)) (snd n) nb na) W == 1)%Q.
Proof.
  intros P a na nb m d Hg HO Hd Hs W HD. apply (C132_harmonic_partial P na nb m d W Hg Hd); [|exact HD]. apply (ortho_reach (cell P) a (grid P) d HO Hg Hs).
  - apply NoDup_filter. unfold cellsBig. repeat apply NoDup_list_prod; apply NoDup_zrange.
  - intros n Hn. unfold W in Hn. rewrite filter_In in Hn. now apply (imageb_spec _ _ _ Hg).
  - intros n1 n2 n3 Hi H1 H2 H3. unfold W. rewrite filter_In. split; [|now apply (imageb_spec _ _ _ Hg)]. unfold cellsBig, bigRange. rewrite !in_prod_iff, !in_zrange. pose proof (Hg 0 ltac:(lia)). pose proof (Hg 1 ltac:(lia)). pose proof (Hg 2 ltac:(lia)). lia.
Qed.
(** a skewed cell: all images of a pair of atoms inside the cell have weight zero, and the reader of third-order force constants does not
    notice *)
Definition skewCell (c i : Z) : Q := match c, i with 0, 0 => 1%Q | 1, 0 => 20%Q | 1, 1 => 1%Q | 2, 2 => 1%Q | _, _ => 0%Q end.
Definition skewP3 : p3file := {| pAt := 2; pCell := skewCell; pGrid := fun _ => 1; pTau := fun t i => if t =? 0 then 0%Q else match i with 0 => 10%Q | 1 => (1 # 2)%Q | _ => 0%Q end; numSup := 2;
  supPos := fun t i => if t =? 0 then 0%Q else match i with 0 => 10%Q | 1 => (1 # 2)%Q | _ => 0%Q end; p2s := [0; 1]; fc3 := fun a b c i j k => 1%R; p3conv := 1%R |}.
Lemma weight_zero F r : Qeq_bool (p3Weight F r) 0 = true -> p3Weight F r = 0%Q.
Proof. unfold p3Weight. destruct (p3Loop _ _ _); [intro K; discriminate K|reflexivity]. Qed.
Lemma skew_window : forallb (fun n => Qeq_bool (p3Weight skewP3 (p3vector skewP3 (lat skewCell n) 0 1)) 0) (window skewP3) = true.
Proof. vm_compute. reflexivity. Qed.
Theorem C132_skewed_refuted : wellSized skewP3 /\ independent (pCell skewP3) /\ orderedSupercell skewP3 (fun _ => 0) /\
  (forall i, pTau skewP3 1 i == (1 # 2) * skewCell 1 i)%Q /\ forall n, inWindow skewP3 n -> p3Weight skewP3 (p3vector skewP3 (lat skewCell n) 0 1) = 0%Q.
Proof.
  split; [|split; [|split; [|split]]].
  - split; [cbn; lia|]. split; [cbn; unfold INT_MAX; lia|]. split; [intros c Hc; cbn; lia|]. split; [reflexivity|]. intros a x Hx. change (numCells skewP3) with 1. change (numSup skewP3) with 2. pose proof (proj1 (zget_Some _ _ _ Hx)) as B. change (zlen (p2s skewP3)) with 2 in B.
    assert (a = 0 \/ a = 1) as [-> | ->] by lia; injection Hx as <-; lia.
  - intros [[n1 n2] n3] [[m1 m2] m3] H. pose proof (H 0 ltac:(lia)) as H0. pose proof (H 1 ltac:(lia)) as H1. pose proof (H 2 ltac:(lia)) as H2. cbn [pCell skewP3] in *. unfold lat, lin3, skewCell in *.
    assert (E2 : (inject_Z n2 == inject_Z m2)%Q) by lra. assert (E1 : (inject_Z n1 == inject_Z m1)%Q) by lra. assert (E3 : (inject_Z n3 == inject_Z m3)%Q) by lra. apply (proj1 (inject_Z_injective _ _)) in E1. apply (proj1 (inject_Z_injective _ _)) in E2. apply (proj1 (inject_Z_injective _ _)) in E3. subst m1 m2 m3. reflexivity.
  - intros [[m1 m2] m3] H. cbn [fst snd pGrid skewP3] in *. change (numCells skewP3) with 1. split; [lia|]. assert (m1 = 0) as -> by lia. assert (m2 = 0) as -> by lia. assert (m3 = 0) as -> by lia. split; [|intros t Ht; lia].
    intros i Hi. assert (i = 0 \/ i = 1 \/ i = 2) as [-> | [-> | ->]] by lia; vm_compute; reflexivity.
  - intro i. unfold skewP3, pTau, skewCell. cbn [Z.eqb]. destruct i as [|p|p]; [vm_compute; reflexivity| |vm_compute; reflexivity]. destruct p; vm_compute; reflexivity.
  - intros [[n1 n2] n3] Hn. cbn [inWindow pGrid skewP3] in Hn.
    pose proof skew_window as K. rewrite forallb_forall in K. assert (Hin : In (n1, n2, n3) (window skewP3)). { unfold window, p3range, z3. rewrite in_map_iff. exists (n3, n2, n1). split; [reflexivity|]. cbn [pGrid skewP3]. rewrite !in_prod_iff, !in_zrange. lia. }
    apply weight_zero. exact (K _ Hin).
Qed.
Example C132_ex : orthorhombic (pCell exP3) (fun _ => 4%Q) /\ (forall c, 0 <= c < 3 -> (Qabs (0 : Q) < 4)%Q) /\ resolved (pCell exP3) (pGrid exP3) (fun _ => 0%Q) (filter (imageb (pGrid exP3) (1, 0, 0)) (window exP3)) p3tol /\
  map (fun n => p3Weight exP3 (p3vector exP3 (lat exCell n) 0 0)) [(1, 0, 0); (-1, 0, 0); (1, 0, -1)] = [(1 # 2)%Q; (1 # 2)%Q; 0%Q].
Proof.
  split; [|split; [|split]]; [| | |vm_compute; reflexivity].
  - intros c i Hc Hi. split; [reflexivity|]. cbn [pCell exP3]. unfold exCell. reflexivity.
  - intros. reflexivity.
  - set (W := filter _ _). split.
    + assert (K : forallb (fun n => forallb (fun T => let x := (len2 exCell (fun _ => 0%Q) n - len2 exCell (fun _ => 0%Q) (shift (pGrid exP3) n T))%Q in Qeq_bool x 0 || Qltb (2 * p3tol) (Qabs x)) box) W = true) by (vm_compute; reflexivity).
      intros n T Hn HT. rewrite forallb_forall in K. specialize (K n Hn). rewrite forallb_forall in K. specialize (K T HT). cbv zeta in K. apply Bool.orb_prop in K. destruct K as [K | K]; [left|right].
      * apply Qeq_bool_iff in K. cbn [pCell exP3]. lra.
      * apply Qltb_iff in K. exact K.
    + assert (K : forallb (fun T => (let '(a, b, c) := T in (a =? 0) && (b =? 0) && (c =? 0)) || Qltb (1 # 1000000) (qdot (lat (fun c i => pCell exP3 c i * inject_Z (pGrid exP3 c))%Q T) (lat (fun c i => pCell exP3 c i * inject_Z (pGrid exP3 c))%Q T))) box = true) by (vm_compute; reflexivity).
      rewrite forallb_forall in K. intros [[a b] c] HT Hne. specialize (K _ HT). apply Bool.orb_prop in K. destruct K as [K | K]; [|now apply Qltb_iff in K]. rewrite !Bool.andb_true_iff, !Z.eqb_eq in K. destruct K as [[-> ->] ->]. contradiction.
Qed.
Print Assumptions C131_tensor. Print Assumptions C131_mismatch. Print Assumptions C132_anharmonic_partial. Print Assumptions C132_harmonic_partial. Print Assumptions C132_orthorhombic_anharmonic. Print Assumptions C132_orthorhombic_harmonic. Print Assumptions C132_skewed_refuted.
