(** Interpolated bands, distributed transformation, long range part, thread dependence, offset of the bands. *)
From Coq Require Import Reals QArith Permutation.
From Verif Require Import Base BaseLemmas M_utilities L_utilities M_mpi S_mpi L_mpi M_wigner S_wigner L_wigner M_complex L_complex L_dft M_electron S_electron M_interaction S_interaction M_wannier S_wannier L_wannier L_wannier2 L_wannier3.
From Coq Require Import Lia Lra.
Open Scope Z_scope.

(** * Bands on the mesh *)
Section Bands.
Variables (D : bloch) (A B : Z -> vec) (kMesh qMesh : v3) (nx : Z) (d : v3 -> Q) (wsK wsQ : list (v3 * Z)) (en : Z -> Z -> R).
Hypothesis (HG : CoarseGrids D A B kMesh qMesh nx d wsK wsQ).
Lemma host_back r ik m n : 0 <= ik < bK D -> hostH (wannier90 D en (latDeg wsK) r) (kC D ik) m n = blochH D en ik m n.
Proof.
  intro Hk. destruct HG as (Pk & Pq & Hx & Ck & Cq & Ho & Ek & Eq & Du & Mk & Mq & NE & VE & NP & VP). unfold hostH, phaseR, wannier90. cbn [nR brav degR h0R]. rewrite NE, VE.
  exact (invert kMesh nx d wsK Pk Hx Ck Ho Ek A B (bK D) (kC D) Du Mk (fun ik => blochH D en ik m n) ik Hk).
Qed.
Lemma blochH_eigen ik b m : RowsOrthonormal (bB D) (bW D) (uM D ik) -> 0 <= b < bB D -> csumTo (bW D) (fun n => cmul (blochH D en ik m n) (stateOf D ik b n)) = cscale (en ik b) (stateOf D ik b m).
Proof.
  intros Or Hb. unfold blochH, stateOf.
  transitivity (csumTo (bB D) (fun b' => cmul (cscale (en ik b') (uM D ik b' m)) (csumTo (bW D) (fun n => cmul (uM D ik b n) (cconj (uM D ik b' n)))))).
  - transitivity (csumTo (bW D) (fun n => csumTo (bB D) (fun b' => cmul (cscale (en ik b') (uM D ik b' m)) (cmul (uM D ik b n) (cconj (uM D ik b' n)))))).
    + apply csumTo_ext. intros n _. rewrite <- csumTo_mul_r. apply csumTo_ext. intros b' _. ring.
    + rewrite csumTo_swap. apply csumTo_ext. intros b' _. apply csumTo_mul_l.
  - transitivity (csumTo (bB D) (fun b' => cmul (cscale (en ik b') (uM D ik b' m)) (if b' =? b then c1 else c0))); [|exact (csumTo_delta (bB D) (fun b' => cscale (en ik b') (uM D ik b' m)) b Hb)].
    apply csumTo_ext. intros b' Hb'. rewrite (Or b b' Hb Hb'), Z.eqb_sym. reflexivity.
Qed.
End Bands.

(** * Distributed transformation *)
Lemma csumTo_tail n k f : 0 <= n -> 0 <= k -> (forall i, n <= i < n + k -> f i = c0) -> csumTo (n + k) f = csumTo n f.
Proof.
  intros Hn Hk. revert k Hk. apply (natlike_ind (fun k => (forall i, n <= i < n + k -> f i = c0) -> csumTo (n + k) f = csumTo n f)); [intros _; rewrite Z.add_0_r; reflexivity|]. intros k Hk IH H.
  replace (n + Z.succ k) with (n + k + 1) by lia. rewrite csumTo_S by lia. rewrite IH by (intros; apply H; lia). rewrite H by lia. ring.
Qed.
Lemma csum_rounds {X} (h : X -> cplx) (l : list X) L : zlen l <= L -> csumTo L (fun i => match zget l i with Some x => h x | None => c0 end) = csum (map h l).
Proof.
  intro H. replace L with (zlen l + (L - zlen l)) by ring. rewrite csumTo_tail; [|unfold zlen; lia|lia|].
  - apply csum_zget. intros i x E. rewrite E. reflexivity.
  - intros i Hi. destruct (zget l i) as [x|] eqn:E; [|reflexivity]. exfalso. unfold zget in E. destruct (i <? 0); [discriminate|]. assert (nth_error l (Z.to_nat i) <> None) as X1 by congruence. apply nth_error_Some in X1. unfold zlen in Hi. lia.
Qed.
Lemma max_bound (l : list Z) x : In x l -> x <= fold_right Z.max 0 l.
Proof. induction l as [|y l IH]; intros H; [destruct H|]. cbn [fold_right]. destruct H as [->|H]; [lia|]. specialize (IH H). lia. Qed.
Lemma local_share n size r : fits n size -> 0 <= r < size -> exists s l, allShares n size = Ok s /\ zget s r = Some l /\ l = zrange (cut n size r) (cut n size (r + 1) - cut n size r).
Proof.
  intros F Hr. exists (map (fun r => zrange (cut n size r) (cut n size (r + 1) - cut n size r)) (zrange 0 size)). eexists. split; [|split; [|reflexivity]].
  - apply mapM_ok. intros x Hx. apply in_zrange in Hx. apply divideWorkIter_cut; [assumption|lia].
  - rewrite zget_map', zget_zrange by lia. reflexivity.
Qed.
Section Distributed.
Variables (D : bloch) (g : tensor5) (sched : Z -> Z -> schedule).
Lemma star_sum s1 i j nu irP irE : 0 <= i < bW D -> 0 <= j < bW D -> 0 <= nu < bM D -> GoodThreads D sched -> Permutation s1 (map (starOf D sched g) (zrange 0 (bQ D))) ->
  fileSum D s1 i j nu irP irE = wannierTensor D g i j nu irP irE.
Proof.
  intros Hi Hj Hnu Ht P. unfold fileSum. rewrite (csum_perm _ _ (Permutation_map _ P)), map_map. unfold wannierTensor. apply csum_map_ext. intros iq Hq. apply in_zrange in Hq. cbn [starOf sQ sKq sG sInv sSched].
  rewrite <- csumTo_mul_l. apply csumTo_ext. intros nu2 H2. rewrite <- csumTo_mul_r, <- csumTo_mul_l. apply csumTo_ext. intros ik Hk. destruct (Ht ik iq Hk ltac:(lia)) as (D1 & A1).
  rewrite (rotate_aligned _ (bM D) (bW D) (bB D)) by assumption. unfold phaseOf, Rminus. rewrite expi_add. cring.
Qed.
Lemma fileSum_concat files i j nu irP irE : fileSum D (concat files) i j nu irP irE = csum (map (fun f => fileSum D f i j nu irP irE) files).
Proof. unfold fileSum. rewrite csum_concat. reflexivity. Qed.
Lemma rounds_sum files its i j nu irP irE : concat its = zrange 0 (zlen files) ->
  csumTo (fold_right Z.max 0 (map zlen its)) (fun iLoop => csum (map (fun mine => fileSum D (fileAt files mine iLoop) i j nu irP irE) its)) = fileSum D (concat files) i j nu irP irE.
Proof.
  intro E. unfold csumTo. rewrite csum_swap. transitivity (csum (map (fun mine => csum (map (fun f => fileSum D (match zget files f with Some s => s | None => [] end) i j nu irP irE) mine)) its)).
  - apply csum_map_ext. intros mine Hm. rewrite <- (csum_rounds (fun f => fileSum D (match zget files f with Some s => s | None => [] end) i j nu irP irE) mine (fold_right Z.max 0 (map zlen its))) by (apply max_bound, in_map; exact Hm).
    apply csumTo_ext. intros r _. unfold fileAt. destruct (zget mine r); reflexivity.
  - rewrite <- csum_concat, E, fileSum_concat. apply (csum_zget (fun f => fileSum D f i j nu irP irE)). intros x y Hx. rewrite Hx. reflexivity.
Qed.
Lemma distributed_ok size files : 0 < size <= zlen files -> size <= nE D -> fits (nE D) size -> fits (zlen files) size -> GoodThreads D sched -> Permutation (concat files) (map (starOf D sched g) (zrange 0 (bQ D))) ->
  exists locals out, allShares (nE D) size = Ok locals /\ blochToWannierEfficient D size files = Ok out /\ zlen out = size /\
    forall r loc part e irE i j nu irP, zget locals r = Some loc -> zget out r = Some part -> zget loc e = Some irE -> 0 <= i < bW D -> 0 <= j < bW D -> 0 <= nu < bM D ->
      part i j nu irP e = wannierTensor D g i j nu irP irE.
Proof.
  intros Hs He Fe Ff Ht P. unfold blochToWannierEfficient. replace (zlen files <? size) with false by lia.
  set (L := map (fun r => zrange (cut (nE D) size r) (cut (nE D) size (r + 1) - cut (nE D) size r)) (zrange 0 size)).
  assert (EL : allShares (nE D) size = Ok L). { apply mapM_ok. intros x Hx. apply in_zrange in Hx. apply divideWorkIter_cut; [assumption|lia]. }
  rewrite EL. cbn [bind].
  assert (Pos : forall r, 0 <= r < size -> 0 < cut (nE D) size (r + 1) - cut (nE D) size r). { intros r Hr. pose proof (share_size (nE D) size r ltac:(lia) ltac:(lia)) as S1. assert (1 <= nE D / size) by (apply Z.div_le_lower_bound; lia). lia. }
  replace (existsb (fun l => zlen l =? 0) L) with false.
  2:{ symmetry. destruct (existsb _ L) eqn:X; [|reflexivity]. exfalso. apply existsb_exists in X as (l & Hl & El). unfold L in Hl. apply in_map_iff in Hl as (r & <- & Hr). apply in_zrange in Hr. specialize (Pos r ltac:(lia)). rewrite zlen_zrange in El by lia. lia. }
  destruct (shares_ok _ _ Ff) as (its & -> & Ei). cbn [bind]. assert (Cs : (1 <= Z.to_nat (Z.quot (nE D) size))%nat). { rewrite Z.quot_div_nonneg by lia. assert (1 <= nE D / size) by (apply Z.div_le_lower_bound; lia). lia. }
  destruct (splitVector_ok (Z.to_nat (Z.quot (nE D) size)) Cs (Z.to_nat (nE D)) (zrange 0 (nE D)) ltac:(rewrite zrange_length; lia)) as (ch & -> & Ech & _).
  exists L. eexists. split; [reflexivity|]. split; [reflexivity|]. split; [unfold zlen, L; rewrite !map_length, zrange_length; lia|].
  intros r loc part e irE i j nu irP Hr Hp HE Hi Hj Hnu. rewrite zget_map', Hr in Hp. cbn [option_map] in Hp. injection Hp as <-.
  assert (Rr : 0 <= r < size). { unfold L in Hr. rewrite zget_map' in Hr. destruct (zget (zrange 0 size) r) as [y|] eqn:Y; [|discriminate]. unfold zget in Y. destruct (r <? 0) eqn:Z1; [discriminate|]. assert (nth_error (zrange 0 size) (Z.to_nat r) <> None) as X1 by congruence. apply nth_error_Some in X1. rewrite zrange_length in X1. lia. }
  unfold L in Hr. rewrite zget_map', zget_zrange in Hr by lia. cbn [option_map] in Hr. rewrite Z.add_0_l in Hr. injection Hr as <-. specialize (Pos r Rr). set (a := cut (nE D) size r) in *. set (w := cut (nE D) size (r + 1) - a) in *.
  assert (Re : 0 <= e < w). { unfold zget in HE. destruct (e <? 0) eqn:Z1; [discriminate|]. assert (nth_error (zrange a w) (Z.to_nat e) <> None) as X1 by congruence. apply nth_error_Some in X1. rewrite zrange_length in X1. lia. }
  rewrite zget_zrange in HE by exact Re. injection HE as <-.
  assert (Hin : 0 <= a + e < nE D). { assert (C0 : 0 <= a) by (unfold a, cut; apply Z.div_pos; nia). pose proof (cut_mono_le (nE D) size (r + 1) size ltac:(lia) ltac:(lia) ltac:(lia)) as C1. rewrite cut_size in C1 by lia. lia. }
  assert (Hd : hd 0 (zrange a w) = a) by (rewrite zrange_cons by lia; reflexivity). rewrite Hd.
  rewrite <- (star_sum (concat files) i j nu irP (a + e) Hi Hj Hnu Ht P). rewrite <- (rounds_sum files its i j nu irP (a + e) Ei). apply csumTo_ext. intros iLoop _.
  rewrite <- (csum_concat (fun irE => if existsb (Z.eqb irE) (zrange a w) && (irE - a =? e) then csum (map (fun mine => fileSum D (fileAt files mine iLoop) i j nu irP irE) its) else c0) ch). rewrite Ech.
  rewrite <- (csum_single Z.eqb (fun irE => csum (map (fun mine => fileSum D (fileAt files mine iLoop) i j nu irP irE) its)) (zrange 0 (nE D)) (a + e) Z.eqb_eq (NoDup_zrange _ _) ltac:(apply in_zrange; lia)).
  apply csum_map_ext. intros x _. destruct (Z.eqb_spec x (a + e)) as [->|Ne].
  - replace (a + e - a =? e) with true by lia. replace (existsb (Z.eqb (a + e)) (zrange a w)) with true; [reflexivity|]. symmetry. apply existsb_exists. exists (a + e). split; [apply in_zrange; lia|apply Z.eqb_refl].
  - replace (x - a =? e) with false by lia. rewrite andb_false_r. reflexivity.
Qed.
End Distributed.
