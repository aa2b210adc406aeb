(** Device treatment of degenerate velocities of all points, and batches. *)
From Coq Require Import Reals QArith Permutation.
From Verif Require Import Base BaseLemmas L_matrix M_complex L_complex M_helper L_helper2 M_electron S_electron L_electron L_electron2 L_electron3 L_electron4.
From Coq Require Import Lia Lra.
Open Scope Z_scope.

Lemma zget_concat_n {A} n (d : list (list A)) : 0 <= n -> (forall l, In l d -> zlen l = n) ->
  zlen (concat d) = zlen d * n /\ forall q l r, zget d q = Some l -> 0 <= r < n -> zget (concat d) (q * n + r) = zget l r.
Proof.
  intro hn. induction d as [|l0 d IH]; intros h.
  - split; [reflexivity|]. intros q l r hq. apply zget_Some in hq. cbn in hq. lia.
  - destruct (IH (fun l hl => h l (or_intror hl))) as (L & G). pose proof (h l0 (or_introl eq_refl)) as e. cbn [concat]. split; [rewrite zlen_app, zlen_cons; lia|].
    intros q l r hq hr. pose proof (zget_Some _ _ _ hq) as (hb & _). destruct (Z.eq_dec q 0) as [->|hne].
    + rewrite zget_cons0 in hq. injection hq as ->. rewrite zget_app1 by lia. reflexivity.
    + rewrite zget_consS in hq by lia. rewrite zget_app2 by nia. rewrite <- (G (q - 1) l r hq hr). f_equal. lia.
Qed.
Lemma counts_get thr ens nb : 0 <= nb -> let counts := flat_map (fun en => degCounts thr en nb) ens in
  zlen counts = zlen ens * nb /\ forall iK en ib, zget ens iK = Some en -> 0 <= ib < nb -> zget counts (iK * nb + ib) = zget (degCounts thr en nb) ib.
Proof.
  intro h. cbv zeta. rewrite flat_map_concat_map. destruct (zget_concat_n nb (map (fun en => degCounts thr en nb) ens) h) as (A & B).
  - intros l hl. apply in_map_iff in hl as (en & <- & _). apply degCounts_len, h.
  - rewrite zlen_map in A. split; [exact A|]. intros iK en ib he hib. apply B; [rewrite zget_map, he; reflexivity|exact hib].
Qed.

Lemma inner_fold solve d nb iK S : forall vs,
  fold_left (fun (vs : Z -> cmat) (p : option (Z * Z)) =>
            let q := match p with Some q => q | None => (0, 0) end in
            fun iK => if iK =? fst q then deviceTreat solve (vs iK) (snd q, d) else vs iK) (map (fun p => Some (Z.quot p nb, Z.rem p nb)) S) vs iK =
  fold_left (deviceTreat solve) (map (fun p => (Z.rem p nb, d)) (filter (fun p => iK =? Z.quot p nb) S)) (vs iK).
Proof.
  induction S as [|p S IH]; intro vs; [reflexivity|]. cbn [map fold_left filter]. rewrite IH. cbn [fst snd]. destruct (iK =? Z.quot p nb); reflexivity.
Qed.
Definition devBlocks (nb : Z) (counts : list Z) (m iK : Z) : list (Z * Z) :=
  flat_map (fun d => map (fun p => (Z.rem p nb, d)) (filter (fun p => iK =? Z.quot p nb) (starts d counts))) (zrange 2 (m - 1)).
Lemma device_fold solve thr ens nb sched vs : (forall d, Permutation (sched d) (zrange 0 (zlen (flat_map (fun en => degCounts thr en nb) ens)))) ->
  exists vs', deviceDegenerate solve thr ens nb sched vs = Ok vs' /\
    forall iK, vs' iK = fold_left (deviceTreat solve) (devBlocks nb (flat_map (fun en => degCounts thr en nb) ens) (maxDegeneracy thr ens nb) iK) (vs iK).
Proof.
  intro h. unfold deviceDegenerate, devBlocks. cbv zeta. set (counts := flat_map (fun en => degCounts thr en nb) ens) in *. revert vs.
  induction (zrange 2 (maxDegeneracy thr ens nb - 1)) as [|d L IH]; intro vs; cbn [foldM flat_map].
  - exists vs. split; reflexivity.
  - rewrite funcKB_spec by apply h. cbn [bind]. edestruct IH as (vs' & e & H). rewrite e. exists vs'. split; [reflexivity|]. intro iK. rewrite H, fold_left_app. f_equal. apply inner_fold.
Qed.
Lemma max_ge l x : In x l -> x <= fold_right Z.max 1 l.
Proof. induction l as [|y l IH]; [easy|]. intros [->|h]; cbn [fold_right]; [lia|]. specialize (IH h). lia. Qed.
Lemma devBlocks_in thr ens nb iK en b : 0 < nb -> zget ens iK = Some en ->
  In b (devBlocks nb (flat_map (fun en => degCounts thr en nb) ens) (maxDegeneracy thr ens nb) iK) <-> 2 <= snd b /\ In b (blocks thr en nb).
Proof.
  intros hn he. destruct (counts_get thr ens nb ltac:(lia)) as (CL & CG). set (counts := flat_map (fun en => degCounts thr en nb) ens) in *. pose proof (zget_Some _ _ _ he) as (hk & hein).
  unfold devBlocks. rewrite in_flat_map. split.
  - intros (d & hd & hb). apply in_map_iff in hb as (p & <- & hp). apply filter_In in hp as (hp & hq). apply filter_In in hp as (hp & hdeg). apply in_zrange in hd, hp. cbn [snd]. split; [lia|].
    apply Z.eqb_eq in hq. rewrite Z.quot_div_nonneg in hq by lia. rewrite Z.rem_mod_nonneg by lia. pose proof (Z.mod_pos_bound p nb hn). pose proof (Z.div_mod p nb ltac:(lia)) as D.
    assert (P : p = iK * nb + p mod nb) by (rewrite hq; lia). unfold isDeg in hdeg. rewrite P in hdeg. rewrite (CG iK en (p mod nb) he) in hdeg by lia.
    destruct (degCounts_get thr en nb (p mod nb) ltac:(lia)) as (_ & c & hc & hs). rewrite hc in hdeg. apply Z.eqb_eq in hdeg. apply hs; [lia|exact hdeg].
  - intros (h2 & hb). exists (snd b). pose proof (blocks_group thr en nb b ltac:(lia) hb) as (g1 & g2 & g3 & _). split.
    + apply in_zrange. assert (snd b <= maxDegeneracy thr ens nb); [|lia]. apply max_ge. apply in_flat_map. exists en. split; [exact hein|apply in_map, hb].
    + apply in_map_iff. exists (iK * nb + fst b). rewrite Z.rem_mod_nonneg by nia. split.
      * rewrite Z.add_comm, Z_mod_plus_full, Z.mod_small by lia. now destruct b.
      * apply filter_In. split; [|apply Z.eqb_eq; rewrite Z.quot_div_nonneg by nia; rewrite Z.div_add_l, Z.div_small by lia; lia].
        apply filter_In. split; [apply in_zrange; nia|]. unfold isDeg. rewrite (CG iK en (fst b) he) by lia.
        destruct (degCounts_get thr en nb (fst b) ltac:(lia)) as (_ & c & hc & hs). rewrite hc. apply Z.eqb_eq, hs; [lia|]. now destruct b.
Qed.
Lemma devBlocks_NoDup nb counts m iK : 0 < nb -> NoDup (devBlocks nb counts m iK).
Proof.
  intro h. apply NoDup_flat_map; [apply NoDup_zrange| |].
  - intros d _. apply NoDup_map_in; [apply NoDup_filter, NoDup_filter, NoDup_zrange|].
    intros x y hx hy e. apply filter_In in hx as (hx & ex). apply filter_In in hy as (hy & ey). apply filter_In in hx as (hx & _), hy as (hy & _). apply in_zrange in hx, hy.
    injection e as e. pose proof (Z.quot_rem x nb ltac:(lia)). pose proof (Z.quot_rem y nb ltac:(lia)). apply Z.eqb_eq in ex, ey. congruence.
  - intros a a' x _ _ h1 h2. apply in_map_iff in h1 as (p & <- & _). apply in_map_iff in h2 as (q & e & _). injection e. auto.
Qed.
Lemma inB_dec b i : {inB b i} + {~ inB b i}.
Proof. unfold inB. destruct (Z_le_dec (fst b) i); [|right; lia]. destruct (Z_lt_dec i (fst b + snd b)); [left|right]; lia. Qed.
Lemma device_host_degenerate solve thr ens nb sched vs : ReadsEntries solve -> 0 <= nb ->
  (forall d, Permutation (sched d) (zrange 0 (zlen ens * nb))) ->
  exists vs', deviceDegenerate solve thr ens nb sched vs = Ok vs' /\
    forall iK en, zget ens iK = Some en -> SameMat nb (vs' iK) (hostDegenerate solve thr en nb (vs iK)).
Proof.
  intros R h hs. destruct (counts_get thr ens nb h) as (CL & _). destruct (device_fold solve thr ens nb sched vs) as (vs' & e & H); [intro d; rewrite CL; apply hs|].
  exists vs'. split; [exact e|]. intros iK en he i j hi hj. rewrite H. set (L := devBlocks _ _ _ iK).
  assert (IN : forall b, In b L <-> 2 <= snd b /\ In b (blocks thr en nb)) by (intro b; apply devBlocks_in; [lia|exact he]).
  pose proof (fold_tr (deviceTreat solve) (newD solve) (deviceTreat_eq solve) (newD_local solve R) L (devBlocks_NoDup nb _ _ _ ltac:(lia))) as F.
  destruct (fun hd => F hd (vs iK) i j) as (F1 & F2). { intros b b' x hb hb'. apply IN in hb, hb'. apply (blocks_disjoint thr en nb); [exact h|apply hb|apply hb']. }
  destruct (blocks_has thr en nb i hi) as (b & hb & hbi). destruct (inB_dec b j) as [hbj|hbj].
  - rewrite (host_in solve thr en nb _ b i j R h hb hbi hbj). destruct (Z_lt_ge_dec 1 (snd b)) as [G|G].
    + assert (hL : In b L) by (apply IN; split; [lia|exact hb]). rewrite (F1 b hL hbi hbj). symmetry. apply newH_D; unfold inB in *; lia.
    + rewrite F2.
      * unfold newH. replace (1 <? snd b) with false by lia. unfold subMat. f_equal; lia.
      * intros b' hb' (h1 & _). apply IN in hb' as (g & hb'). assert (b' = b) by (eapply blocks_disjoint; [exact h|exact hb'|exact hb|exact h1|exact hbi]). subst. lia.
  - assert (N : forall b', In b' (blocks thr en nb) -> ~ (inB b' i /\ inB b' j)).
    { intros b' hb' (h1 & h2). assert (b' = b) by (eapply blocks_disjoint; [exact h|exact hb'|exact hb|exact h1|exact hbi]). subst. easy. }
    rewrite (host_out solve thr en nb _ i j R h N). apply F2. intros b' hb'. apply IN in hb' as (_ & hb'). apply N, hb'.
Qed.

(** * what the treatment does *)
Lemma sub_hermitian nb v b : Hermitian nb v -> 0 <= fst b -> fst b + snd b <= nb -> Hermitian (snd b) (subMat v (fst b)).
Proof. intros h h1 h2 i j hi hj. unfold subMat. apply h; lia. Qed.
Lemma host_hermitian_deg solve thr en nb v : ReadsEntries solve -> 0 <= nb -> Hermitian nb v -> Hermitian nb (hostDegenerate solve thr en nb v).
Proof.
  intros R h hv i j hi hj. destruct (blocks_has thr en nb i hi) as (b & hb & hbi). pose proof (blocks_group _ _ _ _ h hb) as (g1 & g2 & g3 & _). destruct (inB_dec b j) as [hbj|hbj].
  - rewrite !(host_in solve thr en nb _ b) by assumption. unfold inB in *. assert (N : Hermitian (snd b) (newH solve v b)). { unfold newH. destruct (1 <? snd b); [apply hermitise_hermitian|apply (sub_hermitian nb); assumption]. } apply N; lia.
  - assert (N : forall b', In b' (blocks thr en nb) -> ~ (inB b' i /\ inB b' j)).
    { intros b' hb' (h1 & h2). assert (b' = b) by (eapply blocks_disjoint; [exact h|exact hb'|exact hb|exact h1|exact hbi]). subst. easy. }
    rewrite (host_out solve thr en nb _ i j R h N), (host_out solve thr en nb _ j i R h); [apply hv; assumption|]. intros b' hb' (h1 & h2). apply (N b' hb'). split; assumption.
Qed.
Lemma host_block_diagonal solve thr en nb v b i j : ReadsEntries solve -> 0 <= nb -> Diagonalises (snd b) (blockPart v (fst b)) (solve (snd b) (blockPart v (fst b))) -> In b (blocks thr en nb) -> inB b i -> inB b j -> i <> j ->
  hostDegenerate solve thr en nb v i j = c0.
Proof.
  intros R h (_ & O) hb hi hj hn. rewrite (host_in solve thr en nb _ b) by assumption. unfold inB in *. assert (1 < snd b) by lia. rewrite newH_D by lia. unfold newD.
  apply O; lia.
Qed.
Lemma trace_same n A B : SameMat n A B -> trace n A = trace n B.
Proof. intro h. apply csumTo_ext. intros i hi. apply h; assumption. Qed.
Lemma trace_cyclic n A B : trace n (matMul n A B) = trace n (matMul n B A).
Proof. unfold trace, matMul. rewrite csumTo_swap. apply csumTo_ext. intros i _. apply csumTo_ext. intros j _. ring. Qed.
Lemma matMul_id_l n A i j : 0 <= i < n -> matMul n idMat A i j = A i j.
Proof.
  intro h. unfold matMul, idMat. rewrite (csumTo_ext _ _ (fun l => if l =? i then A l j else c0)); [apply (csumTo_single n (fun l => A l j)); exact h|].
  intros l _. rewrite Z.eqb_sym. destruct (l =? i); ring.
Qed.
Lemma trace_rotate n U A : Unitary n U -> trace n (rotateV n U A) = trace n A.
Proof.
  intros (_ & h). unfold rotateV. rewrite trace_cyclic. apply trace_same. intros i j hi hj. rewrite <- matMul_assoc. rewrite <- (matMul_id_l n A i j hi). apply matMul_ext; [|reflexivity]. intros l hl. apply h; assumption.
Qed.
Lemma host_block_trace solve thr en nb v b : ReadsEntries solve -> 0 <= nb -> Unitary (snd b) (solve (snd b) (blockPart v (fst b))) -> Hermitian nb v -> In b (blocks thr en nb) ->
  trace (snd b) (subMat (hostDegenerate solve thr en nb v) (fst b)) = trace (snd b) (subMat v (fst b)).
Proof.
  intros R h D hv hb. pose proof (blocks_group _ _ _ _ h hb) as (g1 & g2 & g3 & _).
  rewrite (trace_same _ _ (newH solve v b)).
  2:{ intros i j hi hj. unfold subMat at 1. rewrite (host_in solve thr en nb _ b) by (try assumption; unfold inB; lia). f_equal; lia. }
  assert (SH : Hermitian (snd b) (subMat v (fst b))) by (apply (sub_hermitian nb); assumption).
  destruct (Z_lt_ge_dec 1 (snd b)) as [G|G].
  - rewrite (trace_same _ _ _ (newH_D solve v b G)). unfold newD. rewrite trace_rotate by exact D. apply trace_same, hermitise_id, SH.
  - unfold newH. replace (1 <? snd b) with false by lia. reflexivity.
Qed.
Lemma host_other solve thr en nb v i j : ReadsEntries solve -> 0 <= nb -> 0 <= i < nb -> (forall b, In b (blocks thr en nb) -> inB b i -> inB b j -> snd b = 1) ->
  hostDegenerate solve thr en nb v i j = v i j.
Proof.
  intros R h hi hs. destruct (blocks_has thr en nb i hi) as (b & hb & hbi). destruct (inB_dec b j) as [hbj|hbj].
  - rewrite (host_in solve thr en nb _ b) by assumption. unfold newH. replace (1 <? snd b) with false by (rewrite (hs b hb hbi hbj); reflexivity). unfold subMat. f_equal; lia.
  - apply host_out; [exact R|exact h|]. intros b' hb' (h1 & h2). assert (b' = b) by (eapply blocks_disjoint; [exact h|exact hb'|exact hb|exact h1|exact hbi]). subst. easy.
Qed.

(** * Batches *)
Lemma populate_batch {K D} (diag : K -> D) (coords : list K) : forall n done start, 0 <= n -> start = zlen done -> zlen done + n <= zlen coords ->
  forall tail, zlen tail = zlen coords - zlen done ->
  foldM (fun (acc : list D) iik => match zget coords (iik + start) with
          | Some k => if inb (iik + start) (zlen acc) then Ok (zupd acc (iik + start) (diag k)) else UB
          | None => UB end) (zrange 0 n) (done ++ tail) =
  Ok (done ++ map diag (firstn (Z.to_nat n) (skipn (Z.to_nat start) coords)) ++ skipn (Z.to_nat n) tail).
Proof.
  intros n done start hn hs hl tail ht.
  assert (M : forall (k : nat), Z.of_nat k <= n -> foldM (fun (acc : list D) iik => match zget coords (iik + start) with
          | Some k => if inb (iik + start) (zlen acc) then Ok (zupd acc (iik + start) (diag k)) else UB
          | None => UB end) (zrange 0 (Z.of_nat k)) (done ++ tail) =
     Ok (done ++ map diag (firstn k (skipn (Z.to_nat start) coords)) ++ skipn k tail)).
  { induction k as [|k IH]; intro hk; [reflexivity|]. rewrite Nat2Z.inj_succ, <- Z.add_1_r, zrange_S by lia.
    assert (FA : forall {A S} (f : S -> A -> res S) l1 l2 s, foldM f (l1 ++ l2) s = bind (foldM f l1 s) (foldM f l2)).
    { intros A S f l1. induction l1 as [|x l1 IH1]; intros l2 s; cbn [foldM app bind]; [reflexivity|]. destruct (f s x); cbn [bind]; [apply IH1|reflexivity..]. }
    rewrite FA, IH by lia. cbn [bind foldM]. destruct (zget_inrange coords (0 + Z.of_nat k + start) ltac:(pose proof (zlen_nonneg done); lia)) as (x & hx). rewrite hx.
    pose proof (zlen_nonneg done) as PD.
    assert (Lf : zlen (firstn k (skipn (Z.to_nat start) coords)) = Z.of_nat k). { unfold zlen in *. rewrite firstn_length, skipn_length. lia. }
    assert (Lt : zlen (skipn k tail) = zlen tail - Z.of_nat k). { unfold zlen in *. rewrite skipn_length. lia. }
    rewrite inb_true; [|rewrite !zlen_app, zlen_map; lia]. cbn [bind]. f_equal.
    destruct (skipn k tail) as [|y tl] eqn:Et; [cbn in Lt; lia|].
    assert (Fx : firstn (S k) (skipn (Z.to_nat start) coords) = firstn k (skipn (Z.to_nat start) coords) ++ [x]).
    { assert (E : nth_error (skipn (Z.to_nat start) coords) k = Some x).
      { unfold zget in hx. destruct (_ <? 0) eqn:B; [lia|]. replace (Z.to_nat (0 + Z.of_nat k + start)) with (Z.to_nat start + k)%nat in hx by lia. rewrite <- hx. clear. revert coords. induction (Z.to_nat start) as [|m IHm]; intros c; [reflexivity|]. destruct c; cbn [skipn Nat.add nth_error]; [destruct k; reflexivity|apply IHm]. }
      revert E. generalize (skipn (Z.to_nat start) coords). clear. induction k as [|k IHk]; intros l E; destruct l; cbn in *; try discriminate; [injection E as ->; reflexivity|]. f_equal. apply IHk, E. }
    rewrite Fx, map_app, <- app_assoc. cbn [map app].
    assert (St : skipn (S k) tail = tl). { revert Et. clear. revert tail. induction k as [|k IHk]; intros t E; destruct t; cbn in *; try discriminate; [injection E; auto|apply IHk, E]. }
    rewrite St. assert (ZU : forall (p : list D) z v, zupd (p ++ z :: tl) (zlen p) v = p ++ v :: tl).
    { clear. intros p z v. unfold zupd. replace (zlen p <? 0) with false by (pose proof (zlen_nonneg p); lia). unfold zlen. rewrite Nat2Z.id. induction p; cbn; [reflexivity|]. now f_equal. }
    rewrite app_assoc. replace (0 + Z.of_nat k + start) with (zlen (done ++ map diag (firstn k (skipn (Z.to_nat start) coords)))) by (rewrite zlen_app, zlen_map; lia). rewrite ZU, <- app_assoc. reflexivity. }
  rewrite <- (Z2Nat.id n hn) at 1. rewrite M by lia. reflexivity.
Qed.
Lemma populate_ok {K D} (diag : K -> D) (coords : list K) (iks : list Z) batchSize d0 : iks <> [] -> length iks = length coords -> 1 <= batchSize ->
  kokkosPopulate diag coords iks batchSize d0 = Ok (map diag coords).
Proof.
  intros hne hl hb. destruct (split_ok iks batchSize hne hb) as (bs & e & hc & hsz). unfold kokkosPopulate. rewrite e. cbn [bind].
  assert (M : forall bs done start tail, start = zlen done -> done = map diag (firstn (Z.to_nat start) coords) -> zlen done + zlen (concat bs) = zlen coords -> zlen tail = zlen (concat bs) ->
    exists s, foldM (fun (st : list D * Z) (batch : list Z) =>
      do out <- foldM (fun (acc : list D) iik => match zget coords (iik + snd st) with
          | Some k => if inb (iik + snd st) (zlen acc) then Ok (zupd acc (iik + snd st) (diag k)) else UB
          | None => UB end) (zrange 0 (zlen batch)) (fst st) ;
      Ok (out, snd st + zlen batch)) bs (done ++ tail, start) = Ok (map diag coords, s)).
  { clear. induction bs as [|b bs IH]; intros done start tail hs hd hl ht; cbn [foldM].
    - cbn in hl, ht. exists start. do 2 f_equal. destruct tail; [|cbn in ht; lia]. rewrite app_nil_r, hd. rewrite firstn_all2; [reflexivity|]. unfold zlen in *. lia.
    - cbn [concat] in hl, ht. rewrite zlen_app in hl, ht. pose proof (zlen_nonneg b). pose proof (zlen_nonneg (concat bs)). cbn [fst snd].
      rewrite populate_batch by lia. cbn [bind].
      assert (E2 : done ++ map diag (firstn (Z.to_nat (zlen b)) (skipn (Z.to_nat start) coords)) = map diag (firstn (Z.to_nat (start + zlen b)) coords)).
      { rewrite hd at 1. rewrite <- map_app. f_equal. rewrite Z2Nat.inj_add by (pose proof (zlen_nonneg done); lia). generalize (Z.to_nat (zlen b)) as q. generalize (Z.to_nat start) as m. clear. intro m. revert coords. induction m as [|m IHm]; intros c q; [reflexivity|]. destruct c; cbn; [now rewrite firstn_nil|]. f_equal. apply IHm. }
      rewrite app_assoc, E2. apply IH.
      + rewrite zlen_map. unfold zlen in *. rewrite firstn_length. lia.
      + reflexivity.
      + rewrite zlen_map. unfold zlen in *. rewrite firstn_length. lia.
      + unfold zlen in *. rewrite skipn_length. lia. }
  destruct (M bs [] 0 (repeat d0 (length coords))) as (s & E2); [reflexivity|reflexivity|rewrite hc; unfold zlen; cbn; lia|rewrite hc; unfold zlen; rewrite repeat_length; lia|].
  cbn [app] in E2. rewrite E2. reflexivity.
Qed.
