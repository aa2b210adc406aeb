(** Properties C108-C111: Fourier interpolation of the electronic bands. *)
From Coq Require Import Reals QArith Sorted.
From Verif Require Import Base BaseLemmas M_utilities M_mpi S_mpi M_wigner S_wigner L_wigner M_complex L_complex M_wannier S_wannier L_wannier5 M_fourier S_fourier L_fourier L_fourier2 L_fourier3.
From Coq Require Import Lia Lra.
Open Scope Z_scope.

(** * C108: lattice vectors of the interpolation *)
Theorem C108_vectors g cutoff d : positive g -> (1 <= cutoff)%Q -> compact g d -> (forall w, (d (0, 0, 0)%Z <= d w)%Q) -> separated g d ->
  exists r, setPositionVectors g cutoff d = Ok (((0, 0, 0), 1) :: r) /\
    let out := ((0, 0, 0), 1) :: r in
    NoDup (map fst out) /\ (forall v, In v (map fst out) <-> shortest g d v) /\
    (forall t, (exists v, In v (map fst out) /\ images g t v) /\
       forall sel, (forall v, sel v = true <-> images g t v) -> (sumQ (map weight (filter (fun x => sel (fst x)) out)) == 1)%Q).
Proof.
  intros Hg Hc Hd Ho Hs. destruct (positions_weights g cutoff d Hg Hc Hd Ho) as (n & r & E & P). assert (n = 1) by exact (origin_single g cutoff d n r Hg Hc Hd Ho Hs E). subst n.
  exists r. split; [exact E|]. cbv zeta in *. destruct P as (P1 & P2 & P3 & _). split; [exact P1|]. split; [exact P2|exact P3].
Qed.
Print Assumptions C108_vectors.
Theorem C108_refused g cutoff d : (cutoff < 1)%Q -> setPositionVectors g cutoff d = Err.
Proof. apply positions_err. Qed.
Print Assumptions C108_refused.
Lemma d1_separated : separated (2, 1, 1) d1.
Proof.
  intros w _ N. destruct w as [[a b] c]. unfold d1. assert (P : 1 <= Z.abs a + Z.abs b + Z.abs c) by (destruct (Z.eq_dec a 0), (Z.eq_dec b 0), (Z.eq_dec c 0); subst; try lia; congruence).
  unfold tol, Qle, Qminus, Qplus, Qopp, inject_Z. cbn [Qnum Qden]. cbn. lia.
Qed.
Example C108_ex : positive (2, 1, 1) /\ compact (2, 1, 1) d1 /\ (forall w, (d1 (0, 0, 0)%Z <= d1 w)%Q) /\ separated (2, 1, 1) d1 /\
  setPositionVectors (2, 1, 1) (3 # 2) d1 = Ok [((0, 0, 0), 1); ((-1, 0, 0), 2); ((1, 0, 0), 2)].
Proof. split; [cbn [positive]; lia|]. split; [exact d1_compact|]. split; [exact d1_origin|]. split; [exact d1_separated|]. vm_compute. reflexivity. Qed.

(** * C109: the interpolated bands go through the energies of the coarse points *)
Theorem C109_through_points g cutoff d ws A B nD pts fn ldlt nB size e : FourierSetup g cutoff d ws A B nD pts -> fits nB size ->
  let h := hMatrix (latV A ws) (latDeg ws) (zlen ws) fn pts in
  (forall b, 0 <= b < nB -> Solves (nD - 1) h (ldlt h (deltaEnergies (e b))) (deltaEnergies (e b))) ->
  exists C, expansionCoefficients (latV A ws) (latDeg ws) (zlen ws) fn pts nD ldlt nB size e = Ok C /\
    forall b i, 0 <= b < nB -> 0 <= i < nD -> energyAt (latV A ws) (latDeg ws) (zlen ws) (C b) (pts i) = e b i.
Proof.
  intros (Hg & Hc & Hd & Ho & Hs & Hw & HAB & Hm) F h Sv. destruct (expansion_rows (latV A ws) (latDeg ws) (zlen ws) fn pts nD ldlt nB size e F) as (C & E & R). exists C. split; [exact E|]. intros b i Hb Hi.
  rewrite <- (mesh_interpolates g cutoff d ws A fn nD pts Hg Hc Hd Ho Hs Hw ldlt (e b) (Sv b Hb) i Hi). rewrite !energy_complex. f_equal. apply csumTo_ext. intros m _. rewrite R by exact Hb. reflexivity.
Qed.
Print Assumptions C109_through_points.
(** the linear system of a complete mesh has one solution at most and is Hermitian, positive and definite: what the solver requires *)
Theorem C109_definite g cutoff d ws A B nD pts fn : FourierSetup g cutoff d ws A B nD pts ->
  PositiveDefinite (nD - 1) (hMatrix (latV A ws) (latDeg ws) (zlen ws) fn pts).
Proof. intros (Hg & Hc & Hd & Ho & Hs & Hw & HAB & Hm). exact (mesh_definite g cutoff d ws A B fn nD pts Hg Hc Hd Ho Hs Hw HAB Hm). Qed.
Print Assumptions C109_definite.
(** the points need not be a mesh: with any points and any lattice vectors the first of which is zero, if the system can be solved *)
Theorem C109_any_points pos deg nP fn pts nD ldlt e : 0 < nP -> (forall x, 0 <= x < 3 -> pos 0 x = 0%R) -> deg 0 = 1%R ->
  let h := hMatrix pos deg nP fn pts in Solves (nD - 1) h (ldlt h (deltaEnergies e)) (deltaEnergies e) ->
  forall i, 0 <= i < nD -> energyAt pos deg nP (coefficients pos deg nP fn pts nD ldlt e) (pts i) = e i.
Proof. intros Hn H0 Hd. cbv zeta. intro H. exact (interpolates pos deg nP fn Hn H0 Hd pts nD ldlt e H). Qed.
Print Assumptions C109_any_points.
(** of all functions with these lattice vectors that go through the points, it is the smoothest, and the only one *)
Theorem C109_smoothest g cutoff d ws A B nD pts fn ldlt e : FourierSetup g cutoff d ws A B nD pts ->
  let pos := latV A ws in let deg := latDeg ws in let nP := zlen ws in
  let h := hMatrix pos deg nP fn pts in let c := coefficients pos deg nP fn pts nD ldlt e in
  let weight m := roughness pos nP fn (pos m) in
  0 < nD -> Solves (nD - 1) h (ldlt h (deltaEnergies e)) (deltaEnergies e) ->
  passesThrough pos deg nP c pts nD e /\
  forall other, passesThrough pos deg nP other pts nD e ->
    (roughnessOf weight nP c <= roughnessOf weight nP other)%R /\
    (roughnessOf weight nP c = roughnessOf weight nP other -> forall m, 0 <= m < nP -> other m = c m).
Proof.
  intros (Hg & Hc & Hd & Ho & Hs & Hw & HAB & Hm). cbv zeta. intros HD Sv. destruct (C108_vectors g cutoff d Hg Hc Hd Ho Hs) as (r & E & _). rewrite Hw in E. injection E as ->.
  set (w := ((0, 0, 0), 1) :: r) in *. assert (Hn : 0 < zlen w) by (unfold w, zlen; cbn [length]; lia).
  assert (H0 : forall x, 0 <= x < 3 -> latV A w 0 x = 0%R) by (intros x _; unfold latV, w; cbn; ring). assert (Hd0 : latDeg w 0 = 1%R) by reflexivity.
  split; [exact (passes (latV A w) (latDeg w) (zlen w) fn Hn H0 Hd0 pts nD ldlt e Sv)|]. intros other Ho'.
  destruct (smoothest (latV A w) (latDeg w) (zlen w) fn Hn H0 Hd0 pts nD ldlt e Sv other Ho') as [S1 S2]. split; [exact S1|]. intros E. exact (S2 HD E).
Qed.
Print Assumptions C109_smoothest.
(** the weight is the one of the documentation *)
Theorem C109_weight pos nP fn : exists r, smallest pos nP fn r /\ forall v, roughness pos nP fn v = documentedWeight (lengthOf v / r).
Proof.
  exists (minDistance pos nP fn). split.
  - split; [apply minDistance_bound|]. split.
    + intros m Hm. rewrite <- norm3_length. exact (proj1 (minDistance_le pos nP fn m Hm)).
    + destruct (minDistance_attained pos nP fn) as [E|(m & Hm & E)]; [left; exact E|right; exists m; split; [exact Hm|rewrite <- norm3_length; exact E]].
  - intros v. unfold roughness, documentedWeight, coefficient1, coefficient2. rewrite norm3_length. replace 0.75%R with (3 / 4)%R by lra. unfold Rdiv. rewrite <- !Rmult_assoc. reflexivity.
Qed.
Print Assumptions C109_weight.
Lemma ex_setup : FourierSetup (2, 1, 1) 1 d1 exWs exA exB 2 exPts.
Proof. split; [cbn [positive]; lia|]. split; [apply Qle_refl|]. split; [exact d1_compact|]. split; [exact d1_origin|]. split; [exact d1_separated|]. split; [vm_compute; reflexivity|]. split; [exact ex_dual|exact ex_mesh]. Qed.
Definition exSolve (A : cmat) (b : Z -> cplx) (i : Z) : cplx := cscale (/ fst (A 0 0)) (b i).
Example C109_ex : FourierSetup (2, 1, 1) 1 d1 exWs exA exB 2 exPts /\ fits 3 2 /\
  forall fn b, let h := hMatrix (latV exA exWs) (latDeg exWs) (zlen exWs) fn exPts in Solves (2 - 1) h (exSolve h b) b.
Proof.
  split; [exact ex_setup|]. split; [unfold fits; lia|]. intros fn b h i Hi. assert (i = 0) by lia. subst i. destruct (C109_definite _ _ _ _ _ _ _ _ fn ex_setup) as (Hh & Hp). fold h in Hh, Hp.
  specialize (Hp (fun _ => c1) ltac:(exists 0; split; [lia|unfold c1, c0; intro X; apply (f_equal fst) in X; cbn in X; lra])). specialize (Hh 0 0).
  change (2 - 1) with 1 in *. unfold quadratic, csumTo in Hp. unfold csumTo. change (zrange 0 1) with [0] in *. cbn [map csum fold_right] in *. unfold exSolve. destruct (h 0 0) as [u v]. unfold cconj in Hh. cbn [fst snd] in Hh. injection Hh as Hv. assert (v = 0%R) by lra. subst v.
  unfold cadd, cmul, cconj, c1, c0 in Hp. cbn [fst snd] in Hp. destruct Hp as (_ & Hp). assert (u <> 0%R) by lra. cbn [fst]. apply cplx_eq; cbn; field; assumption.
Qed.

(** * C110: velocities are derivatives of the bands, both are periodic in the reciprocal lattice *)
Theorem C110_velocity pos deg nP c k i t : 0 <= i < 3 ->
  derivable_pt_lim (fun s => energyAt pos deg nP c (along k i s)) t (velocityAt pos deg nP c (along k i t) i).
Proof. apply gradient. Qed.
Print Assumptions C110_velocity.
Theorem C110_periodic g cutoff d ws A B nD pts c k n0 n1 n2 : FourierSetup g cutoff d ws A B nD pts ->
  let G := fun x => (IZR n0 * B 0%Z x + IZR n1 * B 1%Z x + IZR n2 * B 2%Z x)%R in
  energyAt (latV A ws) (latDeg ws) (zlen ws) c (vadd k G) = energyAt (latV A ws) (latDeg ws) (zlen ws) c k /\
  forall i, velocityAt (latV A ws) (latDeg ws) (zlen ws) c (vadd k G) i = velocityAt (latV A ws) (latDeg ws) (zlen ws) c k i.
Proof.
  intros (Hg & _ & _ & _ & _ & _ & HAB & _) G. apply periodic. intros m Hm. destruct (zget_some ws m) as (x & Ex); [lia|]. unfold latV. rewrite Ex. destruct (fst x) as [[a b] e]. exists (n0 * a + n1 * b + n2 * e).
  assert (D := fun i j Hi Hj => HAB i j Hi Hj). unfold Dual, dot3 in D. pose proof (D 0 0 ltac:(lia) ltac:(lia)) as D00. pose proof (D 0 1 ltac:(lia) ltac:(lia)) as D01. pose proof (D 0 2 ltac:(lia) ltac:(lia)) as D02. pose proof (D 1 0 ltac:(lia) ltac:(lia)) as D10. pose proof (D 1 1 ltac:(lia) ltac:(lia)) as D11. pose proof (D 1 2 ltac:(lia) ltac:(lia)) as D12. pose proof (D 2 0 ltac:(lia) ltac:(lia)) as D20. pose proof (D 2 1 ltac:(lia) ltac:(lia)) as D21. pose proof (D 2 2 ltac:(lia) ltac:(lia)) as D22. cbn [Z.eqb Pos.eqb] in *.
  unfold dot3, cart, G. rewrite !plus_IZR, !mult_IZR.
  transitivity (IZR n0 * IZR a * (A 0%Z 0%Z * B 0%Z 0%Z + A 0%Z 1%Z * B 0%Z 1%Z + A 0%Z 2%Z * B 0%Z 2%Z) + IZR n1 * IZR a * (A 0%Z 0%Z * B 1%Z 0%Z + A 0%Z 1%Z * B 1%Z 1%Z + A 0%Z 2%Z * B 1%Z 2%Z) + IZR n2 * IZR a * (A 0%Z 0%Z * B 2%Z 0%Z + A 0%Z 1%Z * B 2%Z 1%Z + A 0%Z 2%Z * B 2%Z 2%Z)
    + IZR n0 * IZR b * (A 1%Z 0%Z * B 0%Z 0%Z + A 1%Z 1%Z * B 0%Z 1%Z + A 1%Z 2%Z * B 0%Z 2%Z) + IZR n1 * IZR b * (A 1%Z 0%Z * B 1%Z 0%Z + A 1%Z 1%Z * B 1%Z 1%Z + A 1%Z 2%Z * B 1%Z 2%Z) + IZR n2 * IZR b * (A 1%Z 0%Z * B 2%Z 0%Z + A 1%Z 1%Z * B 2%Z 1%Z + A 1%Z 2%Z * B 2%Z 2%Z)
    + IZR n0 * IZR e * (A 2%Z 0%Z * B 0%Z 0%Z + A 2%Z 1%Z * B 0%Z 1%Z + A 2%Z 2%Z * B 0%Z 2%Z) + IZR n1 * IZR e * (A 2%Z 0%Z * B 1%Z 0%Z + A 2%Z 1%Z * B 1%Z 1%Z + A 2%Z 2%Z * B 1%Z 2%Z) + IZR n2 * IZR e * (A 2%Z 0%Z * B 2%Z 0%Z + A 2%Z 1%Z * B 2%Z 1%Z + A 2%Z 2%Z * B 2%Z 2%Z))%R; [ring|].
  rewrite D00, D01, D02, D10, D11, D12, D20, D21, D22. ring.
Qed.
Print Assumptions C110_periodic.
Example C110_ex : FourierSetup (2, 1, 1) 1 d1 exWs exA exB 2 exPts. Proof. exact ex_setup. Qed.

(** * C111: selection of the bands in an energy window *)
Theorem C111_selected {Row} (coarse : list (list Q)) so lo hi (f : fourierBands Row) : fNumBands f = zlen coarse -> fNumBands f = zlen (fRows f) ->
  (exists ib b, zget coarse ib = Some b /\ touches lo hi b) ->
  exists f' keep, trimBands coarse so lo hi f = Ok f' /\ StronglySorted Z.lt keep /\
    (forall ib, In ib keep <-> exists b, zget coarse ib = Some b /\ touches lo hi b) /\
    fNumBands f' = zlen keep /\ Forall2 (fun ib r => zget (fRows f) ib = Some r) keep (fRows f').
Proof. intros Hn Hr Ht. destruct (trim_ok coarse so lo hi f Hn Hr Ht) as (f' & keep & first & E & S & _ & K & N & R & _). exists f', keep. repeat (split; [assumption|]). assumption. Qed.
Print Assumptions C111_selected.
(** the electrons of the bands below the window are taken off; missing: bands that jump over the window between coarse points *)
Theorem C111_electrons_partial {Row} (coarse : list (list Q)) so lo hi (f f' : fourierBands Row) n : fNumBands f = zlen coarse -> fNumBands f = zlen (fRows f) -> ordered n coarse ->
  (forall ib b, zget coarse ib = Some b -> touches lo hi b \/ below lo b = true \/ above hi b = true) ->
  trimBands coarse so lo hi f = Ok f' -> fOccupied f' = (fOccupied f - inject_Z (zlen (filter (below lo) coarse)) * (if so then 1 else 2))%Q.
Proof. apply electrons. Qed.
Print Assumptions C111_electrons_partial.
Definition exBands : fourierBands Z := {| fNumBands := 3; fRows := [10; 11; 12]; fOccupied := 4 |}.
Example C111_ex : fNumBands exBands = zlen [[-2; -1]; [0; 3 # 1]; [2; 3]]%Q /\ ordered 2 [[-2; -1]; [0; 3]; [2; 3]]%Q /\
  (forall ib b, zget [[-2; -1]; [0; 3]; [2; 3]]%Q ib = Some b -> touches (- (1 # 2)) 1 b \/ below (- (1 # 2)) b = true \/ above 1 b = true) /\
  trimBands [[-2; -1]; [0; 3]; [2; 3]]%Q false (- (1 # 2)) 1 exBands = Ok {| fNumBands := 1; fRows := [11]; fOccupied := 4 - 1 * 2 |}.
Proof.
  split; [reflexivity|]. split; [|split; [|vm_compute; reflexivity]].
  - split; [repeat constructor|]. intros a b ba bb p Ha Hab Ea Eb Hp. assert (B1 := zget_zlen _ _ _ Ea). assert (B2 := zget_zlen _ _ _ Eb). unfold zlen in B1, B2. cbn [length] in B1, B2. assert (Ca : a = 0 \/ a = 1 \/ a = 2) by lia. assert (Cb : b = 0 \/ b = 1 \/ b = 2) by lia.
    destruct Ca as [-> | [-> | ->]]; destruct Cb as [-> | [-> | ->]]; try lia; cbn in Ea, Eb; injection Ea as <-; injection Eb as <-; destruct p as [|[|p]]; try lia; cbn [nth]; unfold Qle; cbn; lia.
  - intros ib b E. assert (B1 := zget_zlen _ _ _ E). unfold zlen in B1. cbn [length] in B1. assert (Ca : ib = 0 \/ ib = 1 \/ ib = 2) by lia. destruct Ca as [-> | [-> | ->]]; cbn in E; injection E as <-.
    + right. left. reflexivity.
    + left. exists 0%Q. split; [left; reflexivity|]. split; unfold Qle; cbn; lia.
    + right. right. reflexivity.
Qed.
(** finding (l.13-25): a band that crosses the window between two coarse points, below it at one and above it at the other, is discarded
    while the bands next to it are kept, and its electrons are given to the next band: here 4 electrons fill bands 0 and 1, and
    afterwards they fill bands 0 and 2 *)
Theorem C111_electrons_refuted : exists (coarse : list (list Q)) lo hi (f f' : fourierBands Z), fNumBands f = zlen coarse /\ fNumBands f = zlen (fRows f) /\ ordered 2 coarse /\ (lo <= hi)%Q /\
  trimBands coarse false lo hi f = Ok f' /\ (exists b, zget coarse 1 = Some b /\ (exists x y, In x b /\ In y b /\ (x < lo)%Q /\ (hi < y)%Q)) /\
  fRows f = [0; 1; 2] /\ fRows f' = [0; 2] /\ (fOccupied f == 4)%Q /\ (fOccupied f' == 4)%Q.
Proof.
  exists [[1 # 2; -2]; [2; -1]; [3; 1 # 2]]%Q, 0%Q, 1%Q, {| fNumBands := 3; fRows := [0; 1; 2]; fOccupied := 4 |}, {| fNumBands := 2; fRows := [0; 2]; fOccupied := 4 - 0 * 2 |}.
  split; [reflexivity|]. split; [reflexivity|]. split; [|split; [unfold Qle; cbn; lia|split; [vm_compute; reflexivity|split; [|split; [reflexivity|split; [reflexivity|split; reflexivity]]]]]].
  - split; [repeat constructor|]. intros a b ba bb p Ha Hab Ea Eb Hp. assert (B1 := zget_zlen _ _ _ Ea). assert (B2 := zget_zlen _ _ _ Eb). unfold zlen in B1, B2. cbn [length] in B1, B2. assert (Ca : a = 0 \/ a = 1 \/ a = 2) by lia. assert (Cb : b = 0 \/ b = 1 \/ b = 2) by lia.
    destruct Ca as [-> | [-> | ->]]; destruct Cb as [-> | [-> | ->]]; try lia; cbn in Ea, Eb; injection Ea as <-; injection Eb as <-; destruct p as [|[|p]]; try lia; cbn [nth]; unfold Qle; cbn; lia.
  - exists [2; -1]%Q. split; [reflexivity|]. exists (-1)%Q, 2%Q. split; [right; left; reflexivity|]. split; [left; reflexivity|]. split; reflexivity.
Qed.
Print Assumptions C111_electrons_refuted.
(** finding (l.15, l.41): no band in the window is undefined behaviour; so is trimming twice, because the coarse bands are not renumbered *)
Theorem C111_empty_refuted {Row} (coarse : list (list Q)) so lo hi (f : fourierBands Row) : fNumBands f = zlen coarse ->
  (forall ib b, zget coarse ib = Some b -> ~ touches lo hi b) -> trimBands coarse so lo hi f = UB.
Proof. apply trim_none. Qed.
Print Assumptions C111_empty_refuted.
Theorem C111_twice_refuted : exists (coarse : list (list Q)) lo hi (f f' : fourierBands Z), trimBands coarse false lo hi f = Ok f' /\ trimBands coarse false lo hi f' = UB.
Proof. exists [[-2; -1]; [0; 1]]%Q, 0%Q, 1%Q, {| fNumBands := 2; fRows := [0; 1]; fOccupied := 4 |}, {| fNumBands := 1; fRows := [1]; fOccupied := 4 - 1 * 2 |}. split; vm_compute; reflexivity. Qed.
Print Assumptions C111_twice_refuted.
