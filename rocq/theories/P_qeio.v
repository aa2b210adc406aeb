(** Properties C134, C135 and C136 *)
From Coq Require Import Reals Ascii Permutation.
From Verif Require Import Base BaseLemmas M_particle M_context L_context M_complex L_complex L_matrix M_electron M_qe S_qe L_qe M_qeio S_qeio L_qeio L_qeio2.
From Coq Require Import Lia Lra.
Open Scope Z_scope.

(** * C134: force constants of Quantum ESPRESSO *)
Theorem C134_file : forall d C alat rest, qeSized d -> getQELattice (dIb d) (dDm d) (freeCell d) = Ok (C, alat) -> exists q, parsePhHarmonic (writeQE d ++ rest) = Ok q /\ qeRead d C alat q.
Proof. intros. now apply qe_ok. Qed.
Theorem C134_cell_rejected : forall d rest, qeSized d -> getQELattice (dIb d) (dDm d) (freeCell d) = Err -> parsePhHarmonic (writeQE d ++ rest) = Err.
Proof.
  intros d rest (HE & HA & HI & HT & HG) HL. unfold writeQE, writeHead. destruct (dGrid d) as [[n1 n2] n3]. set (D := dDm d) in *. unfold parsePhHarmonic. cbn [app getline].
  rewrite (intAt_get _ 0 (dEl d)); [|reflexivity|exact HE]. cbn [bind]. rewrite (intAt_get _ 1 (dAt d)); [|reflexivity|exact HA]. cbn [bind]. rewrite (intAt_get _ 2 (dIb d)); [|reflexivity|exact HI]. cbn [bind].
  rewrite (realAt_get _ 3 (cd0 D)) by reflexivity. cbn [bind]. rewrite (realAt_get _ 4 (cd1 D)) by reflexivity. cbn [bind]. rewrite (realAt_get _ 5 (cd2 D)) by reflexivity. cbn [bind]. rewrite (realAt_get _ 6 (cd3 D)) by reflexivity. cbn [bind]. rewrite (realAt_get _ 7 (cd4 D)) by reflexivity. cbn [bind]. rewrite (realAt_get _ 8 (cd5 D)) by reflexivity. cbn [bind].
  replace {| cd0 := cd0 D; cd1 := cd1 D; cd2 := cd2 D; cd3 := cd3 D; cd4 := cd4 D; cd5 := cd5 D |} with D by now destruct D.
  unfold freeCell in HL. rewrite <- !app_assoc. destruct (dIb d =? 0); cbn [app]; [rewrite readCell_ok|]; cbn [bind]; rewrite HL; reflexivity.
Qed.
(** a file without its last line: the reader goes on, and the last force constant becomes a copy of the one before it *)
Theorem C134_truncated_refuted : forall d C alat, qeSized d -> dAt d = 1 -> dGrid d = (1, 1, 1) -> getQELattice (dIb d) (dDm d) (freeCell d) = Ok (C, alat) ->
  exists q, parsePhHarmonic (writeHead d ++ removelast (fcLines d)) = Ok q /\ forall v, In ((2, 2, 0, 0, 0, 0, 0), v) (qFC q) <-> v = dFC d (2, 1, 0, 0, 0, 0, 0).
Proof.
  intros d C alat HS HA HG HL. rewrite (head_ok d C alat _ HS HL). unfold fcLines. rewrite HG, HA. eexists. split; [reflexivity|]. cbn [qFC]. intro v. cbn [In app]. split.
  - intros H. repeat (destruct H as [H|H]; [first [discriminate H | injection H as <-; reflexivity]|]). contradiction.
  - intros ->. do 8 right. now left.
Qed.
(** nor is a value that is not a number refused, such as the stars Fortran writes for a number that does not fit: it is read as zero *)
Theorem C134_stars_refuted : forall d C alat w, qeSized d -> dAt d = 1 -> dGrid d = (1, 1, 1) -> getQELattice (dIb d) (dDm d) (freeCell d) = Ok (C, alat) ->
  exists q, parsePhHarmonic (writeHead d ++ removelast (fcLines d) ++ [[WI 1; WI 1; WI 1; WS w]]) = Ok q /\ forall v, In ((2, 2, 0, 0, 0, 0, 0), v) (qFC q) <-> v = 0%R.
Proof.
  intros d C alat w HS HA HG HL. rewrite (head_ok d C alat _ HS HL). unfold fcLines. rewrite HG, HA. eexists. split; [reflexivity|]. cbn [qFC]. intro v. cbn [In app]. split.
  - intros H. repeat (destruct H as [H|H]; [first [discriminate H | injection H as <-; reflexivity]|]). contradiction.
  - intros ->. do 8 right. now left.
Qed.
Print Assumptions C134_stars_refuted.
Definition exData : qeData := {| dEl := 1; dName := fun _ => ["S"%char; "i"%char]; dMass := fun _ => 1%R; dAt := 1; dType := fun _ => 0; dPos := fun _ _ => 0%R; dIb := 2;
  dDm := {| cd0 := 10; cd1 := 0; cd2 := 0; cd3 := 0; cd4 := 0; cd5 := 0 |}; dFree := fun _ _ => 0%R; dHas := true; dEps := fun i j => if i =? j then 12%R else 0%R; dZ := fun _ _ _ => 0%R;
  dGrid := (1, 1, 1); dFC := fun k => let '(i, j, _, _, _, _, _) := k in IZR (i + j) |}.
Example C134_ex : qeSized exData /\ (exists C, getQELattice (dIb exData) (dDm exData) (freeCell exData) = Ok (C, 10%R)).
Proof.
  split.
  - unfold qeSized, int, INT_MIN, INT_MAX. cbn [dEl dAt dIb dType dGrid exData]. repeat split; try lia.
  - unfold getQELattice. cbn [dIb exData Z.eqb]. unfold lattice. rewrite stopIf_no; [|apply pos_no; cbn; lra]. eexists. reflexivity.
Qed.

(** * C135: Hamiltonian of Wannier90 *)
Theorem C135_file : forall d ry bohr rest, tbSized d -> exists t, parseWannier ry bohr (writeTb d ++ rest) = Ok t /\ tbRead d ry bohr t.
Proof. intros. now apply tb_ok. Qed.
(** the arrays hold the transposed matrices; without shifts the energies at every wavevector are those of the file, with conjugated eigenvectors *)
Lemma arrays_elements d ry bohr t br W : tbRead d ry bohr t -> fromArrays d t br W -> (forall iR m n, 0 <= iR < bN d -> 0 <= m < bW d -> 0 <= n < bW d -> h0R W iR m n = over ry (bH d iR n m)) /\ (forall iR, 0 <= iR < bN d -> degR W iR = IZR (bDeg d iR)).
Proof.
  intros (_ & _ & _ & HD & HH & _) (_ & _ & _ & HG & HE). split.
  - intros iR m n Hi Hm Hn. exact (proj2 (proj1 (proj2 HH (iR, m, n) _) (HE iR m n Hi Hm Hn))).
  - intros iR Hi. destruct (HG iR Hi) as (g & Hin & ->). rewrite HD in Hin. apply in_map_iff in Hin. destruct Hin as (j & E & _). injection E as -> ->. reflexivity.
Qed.
Theorem C135_energies : forall d ry bohr t br W k e v, tbRead d ry bohr t -> fromArrays d t br W -> hermitianOn (bW d) (hostH (ofFile d ry br) k) ->
  eigenpair (bW d) (hostH (ofFile d ry br) k) e v -> eigenpair (bW d) (hostH W k) e (fun l => cconj (v l)).
Proof.
  intros d ry bohr t br W k e v HT HF HH HE m Hm. destruct (arrays_elements _ _ _ _ _ _ HT HF) as [EH ED]. destruct HF as (_ & HN & HB & _).
  assert (ET : forall a b, 0 <= a < bW d -> 0 <= b < bW d -> hostH W k a b = hostH (ofFile d ry br) k b a).
  { intros a b Ha Hb. unfold hostH. rewrite HN. cbn [nR ofFile]. apply csumTo_ext. intros iR Hi. unfold phaseR. rewrite HB, (ED iR Hi), (EH iR a b Hi Ha Hb). reflexivity. }
  rewrite (csumTo_ext _ _ (fun l => cconj (cmul (hostH (ofFile d ry br) k m l) (v l)))).
  - rewrite <- csumTo_conj, (HE m Hm). unfold cconj, cscale. cbn [fst snd]. f_equal. ring.
  - intros l Hl. rewrite (ET m l Hm Hl), (HH l m Hl Hm). unfold cconj, cmul. cbn [fst snd]. f_equal; ring.
Qed.
(** with shifts they are not: the shifts are not transposed. A Hermitian Hamiltonian with energies 2 and -2 is read as the null matrix *)
Definition twoBands : tbData := {| bCell := fun i j => if i =? j then 1%R else 0%R; bW := 2; bN := 3; bVec := fun iR i => if i =? 0 then iR - 1 else 0; bDeg := fun _ => 1;
  bH := fun iR m n => if (m =? 0) && (n =? 1) then (if iR =? 0 then c0 else c1) else if (m =? 1) && (n =? 0) then (if iR =? 2 then c0 else c1) else c0; bR := fun _ _ _ _ => c0 |}.
Definition oneShift : shifts := {| degS := fun _ _ _ => 1; vecS := fun i _ m n iR => if (i =? 0) && (iR =? 1) then (if (m =? 0) && (n =? 1) then 1%R else if (m =? 1) && (n =? 0) then (-1)%R else 0%R) else 0%R |}.
Definition lineVectors (iR i : Z) : R := if i =? 0 then IZR (iR - 1) else 0%R.
Definition kHalf : vec := fun i => if i =? 0 then (PI / 2)%R else 0%R.
Lemma shift_sum W m n : nR W = 3 -> hostShiftH W oneShift kHalf m n =
  csum (map (fun iR => cadd (cmul (cscale (/ (degR W iR * 1)) (cexpi (PI / 2 * (vecS oneShift 0%Z 0%Z m n iR + brav W iR 0%Z) + (0 * (0 + brav W iR 1%Z) + 0 * (0 + brav W iR 2%Z)))%R)) (h0R W iR m n)) c0) [0; 1; 2]).
Proof.
  intro H. unfold hostShiftH. rewrite H. unfold csumTo. change (zrange 0 3) with [0; 1; 2]. cbn [degS oneShift]. change (zrange 0 1) with [0]. f_equal. apply map_ext. intro iR. cbn [map csum fold_right]. do 4 f_equal. unfold dot3, shifted, kHalf. cbn [vecS oneShift Z.eqb andb]. ring.
Qed.
Lemma cexpi_half : cexpi (PI / 2) = cI. Proof. unfold cexpi, cI. now rewrite cos_PI2, sin_PI2. Qed.
Lemma cexpi_mhalf : cexpi (- (PI / 2)) = copp cI. Proof. unfold cexpi, cI, copp. rewrite cos_neg, sin_neg, cos_PI2, sin_PI2. cbn [fst snd]. f_equal; lra. Qed.
Lemma cexpi_zero : cexpi 0 = c1. Proof. unfold cexpi, c1. now rewrite cos_0, sin_0. Qed.
Lemma elements W m n (x y z : cplx) (sh : R) : nR W = 3 -> brav W = lineVectors -> (forall iR, 0 <= iR < 3 -> degR W iR = 1%R) -> h0R W 0 m n = x -> h0R W 1 m n = y -> h0R W 2 m n = z -> vecS oneShift 0 0 m n 1 = sh ->
  hostShiftH W oneShift kHalf m n = cadd (cmul (copp cI) x) (cadd (cmul (cexpi (PI / 2 * sh)) y) (cmul cI z)).
Proof.
  intros HN HB HG <- <- <- Hs. rewrite (shift_sum W m n HN), HB. cbn [map csum fold_right]. rewrite !HG by lia. unfold lineVectors. cbn [Z.eqb]. 
  assert (V0 : vecS oneShift 0 0 m n 0 = 0%R) by reflexivity. assert (V2 : vecS oneShift 0 0 m n 2 = 0%R) by reflexivity. rewrite V0, V2, Hs.
  replace (PI / 2 * (0 + IZR (0 - 1)) + (0 * (0 + 0) + 0 * (0 + 0)))%R with (- (PI / 2))%R by (cbn; lra). replace (PI / 2 * (sh + IZR (1 - 1)) + (0 * (0 + 0) + 0 * (0 + 0)))%R with (PI / 2 * sh)%R by (cbn; lra). replace (PI / 2 * (0 + IZR (2 - 1)) + (0 * (0 + 0) + 0 * (0 + 0)))%R with (PI / 2)%R by (cbn; lra).
  rewrite cexpi_half, cexpi_mhalf. unfold cadd, cmul, cscale, copp, c0, cI. cbn [fst snd]. f_equal; field.
Qed.
Theorem C135_shifts_refuted : tbSized twoBands /\ hermitianOn 2 (hostShiftH (ofFile twoBands 1 lineVectors) oneShift kHalf) /\
  eigenpair 2 (hostShiftH (ofFile twoBands 1 lineVectors) oneShift kHalf) 2 (fun l => if l =? 0 then cI else c1) /\
  forall t W, tbRead twoBands 1 1 t -> fromArrays twoBands t lineVectors W -> forall m n, 0 <= m < 2 -> 0 <= n < 2 -> hostShiftH W oneShift kHalf m n = c0.
Proof.
  assert (OV : forall c, over 1 c = c) by (intros [a b]; unfold over; cbn [fst snd]; f_equal; field).
  assert (two : forall m, 0 <= m < 2 -> m = 0 \/ m = 1) by (intros; lia).
  assert (E : let A := hostShiftH (ofFile twoBands 1 lineVectors) oneShift kHalf in A 0 0 = c0 /\ A 1 1 = c0 /\ A 0 1 = (0, 2)%R /\ A 1 0 = (0, -2)%R).
  { assert (G : forall iR, 0 <= iR < 3 -> degR (ofFile twoBands 1 lineVectors) iR = 1%R) by reflexivity. cbv zeta. repeat split.
    - rewrite (elements (ofFile twoBands 1 lineVectors) 0 0 c0 c0 c0 0 eq_refl eq_refl G); try apply OV; try reflexivity. unfold cadd, cmul, copp, cI, c0. cbn [fst snd]. f_equal; ring.
    - rewrite (elements (ofFile twoBands 1 lineVectors) 1 1 c0 c0 c0 0 eq_refl eq_refl G); try apply OV; try reflexivity. unfold cadd, cmul, copp, cI, c0. cbn [fst snd]. f_equal; ring.
    - rewrite (elements (ofFile twoBands 1 lineVectors) 0 1 c0 c1 c1 1 eq_refl eq_refl G); try apply OV; try reflexivity. rewrite Rmult_1_r, cexpi_half. unfold cadd, cmul, copp, cI, c0, c1. cbn [fst snd]. f_equal; ring.
    - rewrite (elements (ofFile twoBands 1 lineVectors) 1 0 c1 c1 c0 (-1) eq_refl eq_refl G); try apply OV; try reflexivity. replace (PI / 2 * -1)%R with (- (PI / 2))%R by lra. rewrite cexpi_mhalf. unfold cadd, cmul, copp, cI, c0, c1. cbn [fst snd]. f_equal; ring. }
  cbv zeta in E. destruct E as (E00 & E11 & E01 & E10). split; [|split; [|split]].
  - unfold tbSized, int, INT_MIN, INT_MAX. cbn [bW bN bDeg twoBands]. repeat split; intros; lia.
  - intros a b Ha Hb. destruct (two a Ha) as [-> | ->]; destruct (two b Hb) as [-> | ->]; rewrite ?E00, ?E11, ?E01, ?E10; unfold cconj, c0; cbn [fst snd]; f_equal; lra.
  - intros m Hm. unfold csumTo. change (zrange 0 2) with [0; 1]. cbn [map csum fold_right Z.eqb]. destruct (two m Hm) as [-> | ->]; rewrite ?E00, ?E11, ?E01, ?E10; cbn [Z.eqb]; unfold cadd, cmul, cscale, c0, c1, cI; cbn [fst snd]; f_equal; ring.
  - intros t W HT HF m n Hm Hn. destruct (arrays_elements _ _ _ _ _ _ HT HF) as [EH ED]. destruct HF as (_ & HN & HB & _). cbn [bN bW bDeg twoBands] in *.
    assert (EE : forall iR a b, 0 <= iR < 3 -> 0 <= a < 2 -> 0 <= b < 2 -> h0R W iR a b = bH twoBands iR b a) by (intros; rewrite EH, OV by lia; reflexivity).
    destruct (two m Hm) as [-> | ->]; destruct (two n Hn) as [-> | ->].
    + rewrite (elements W 0 0 c0 c0 c0 0 HN HB ED); try (rewrite EE by lia; reflexivity); try reflexivity. unfold cadd, cmul, copp, cI, c0. cbn [fst snd]. f_equal; ring.
    + rewrite (elements W 0 1 c1 c1 c0 1 HN HB ED); try (rewrite EE by lia; reflexivity); try reflexivity. rewrite Rmult_1_r, cexpi_half. unfold cadd, cmul, copp, cI, c0, c1. cbn [fst snd]. f_equal; ring.
    + rewrite (elements W 1 0 c0 c1 c1 (-1) HN HB ED); try (rewrite EE by lia; reflexivity); try reflexivity. replace (PI / 2 * -1)%R with (- (PI / 2))%R by lra. rewrite cexpi_mhalf. unfold cadd, cmul, copp, cI, c0, c1. cbn [fst snd]. f_equal; ring.
    + rewrite (elements W 1 1 c0 c0 c0 0 HN HB ED); try (rewrite EE by lia; reflexivity); try reflexivity. unfold cadd, cmul, copp, cI, c0. cbn [fst snd]. f_equal; ring.
Qed.
Example C135_ex : tbSized {| bCell := fun _ _ => 1%R; bW := 2; bN := 19; bVec := fun iR i => iR - 9; bDeg := fun j => if j =? 0 then 6 else 2; bH := fun iR m n => (IZR (m + n), IZR (m - n)); bR := fun _ _ _ _ => c0 |} /\
  hermitianOn 2 (hostH (ofFile twoBands 1 lineVectors) (fun _ => 0%R)) /\ (exists t W, tbRead twoBands 1 1 t /\ fromArrays twoBands t lineVectors W).
Proof.
  split; [|split].
  - unfold tbSized, int, INT_MIN, INT_MAX. cbn [bW bN bDeg]. repeat split; try lia; destruct (j =? 0); lia.
  - intros a b Ha Hb. unfold hostH. cbn [nR ofFile bN twoBands]. unfold csumTo. change (zrange 0 3) with [0; 1; 2]. cbn [map csum fold_right]. unfold phaseR. cbn [degR ofFile bDeg twoBands].
    assert (Z0 : forall iR, dot3 (fun _ => 0%R) (brav (ofFile twoBands 1 lineVectors) iR) = 0%R) by (intro; unfold dot3; ring). rewrite !Z0, cexpi_zero. unfold ofFile, h0R, bH, twoBands, over.
    assert (a = 0 \/ a = 1) as [-> | ->] by lia; assert (b = 0 \/ b = 1) as [-> | ->] by lia; cbn [Z.eqb Pos.eqb andb]; unfold cadd, cmul, cscale, cconj, c0, c1; cbn [fst snd]; f_equal; field.
  - destruct (C135_file twoBands 1 1 [] ltac:(unfold tbSized, int, INT_MIN, INT_MAX; cbn [bW bN bDeg twoBands]; repeat split; intros; lia)) as (t & _ & HT). exists t.
    exists {| nW := 2; nR := 3; brav := lineVectors; degR := fun _ => 1%R; h0R := fun iR m n => over 1 (bH twoBands iR n m); rMatrix := fun _ _ _ _ => c0 |}. split; [exact HT|].
    destruct HT as (_ & HN & _ & HD & HH & _). split; [now rewrite HN|]. split; [reflexivity|]. split; [reflexivity|]. split.
    + intros iR Hi. exists 1. split; [|reflexivity]. rewrite HD. apply in_map_iff. exists iR. split; [reflexivity|]. apply in_zrange. cbn [bN twoBands] in *. lia.
    + intros iR m n Hi Hm Hn. apply (proj2 HH). split; [lia|reflexivity].
Qed.

(** * C136: shifts of Wannier90 *)
Theorem C136_file : forall nw nv vs ps sh, wsSized nw nv vs ps sh -> changing (0, 0, 0) vs -> parseWsVec nw nv (wsLines vs 0 ps sh) = Ok (flat_map (fun iR => wsWrites iR ps sh) (zrange 0 (zlen vs))).
Proof. intros. now apply ws_ok. Qed.
(** a file that starts with the null lattice vector writes before the start of the arrays *)
Theorem C136_origin_refuted : forall nw nv vs ps sh, wsSized nw nv ((0, 0, 0) :: vs) ps sh -> parseWsVec nw nv (wsLines ((0, 0, 0) :: vs) 0 ps sh) = UB.
Proof.
  intros nw nv vs ps sh (_ & HW & HP & HB & _ & HS). destruct ps as [|[a b] ps]; [contradiction|]. destruct (HB (a, b) (or_introl eq_refl)) as [Ha Hb]. cbn [fst snd] in Ha, Hb. destruct (HS 0 a b) as [Hl _].
  unfold parseWsVec. cbn [wsLines flat_map fst snd]. rewrite <- !app_assoc. match goal with |- context [wsEntry _ a b _ ++ ?r] => generalize r end. intro rest. unfold wsEntry. cbn [app length]. match goal with |- wsEntries (S ?n) _ _ _ _ _ = _ => remember n as N eqn:EN; clear EN end. cbn [wsEntries].
  assert (I0 : int 0) by (unfold int, INT_MIN, INT_MAX; lia). rewrite (intAt_get _ 0 0); [|reflexivity|exact I0]. cbn [bind]. rewrite (intAt_get _ 1 0); [|reflexivity|exact I0]. cbn [bind]. rewrite (intAt_get _ 2 0); [|reflexivity|exact I0]. cbn [bind].
  rewrite (intAt_get _ 3 (a + 1)); [|reflexivity|unfold int, INT_MIN; lia]. cbn [bind]. rewrite (intAt_get _ 4 (b + 1)); [|reflexivity|unfold int, INT_MIN; lia]. cbn [bind getline].
  assert (0 <= zlen (sh 0 a b)) by (unfold zlen; lia). rewrite stoi_int by (unfold int, INT_MIN, INT_MAX; lia). cbn [bind z3eqb Z.eqb andb]. replace (inside nw nv (a + 1 - 1, b + 1 - 1, -1)) with false by (symmetry; unfold inside; lia). reflexivity.
Qed.
Example C136_ex : let sh := fun iR a b : Z => if a =? b then [(0, 0, 0)] else [(0, 0, 0); (2, 0, 0)] in let ps := list_prod [0; 1] [0; 1] in
  wsSized 2 3 [(-1, 0, 0); (0, 0, 0); (1, 0, 0)] ps sh /\ changing (0, 0, 0) [(-1, 0, 0); (0, 0, 0); (1, 0, 0)] /\ wsSized 2 1 [(0, 0, 0)] ps sh.
Proof.
  cbv zeta. assert (K : forall nv vs, zlen vs <= nv -> (forall v, In v vs -> int3 v) -> wsSized 2 nv vs (list_prod [0; 1] [0; 1]) (fun iR a b : Z => if a =? b then [(0, 0, 0)] else [(0, 0, 0); (2, 0, 0)])).
  { intros nv vs H1 H2. split; [exact H1|]. split; [unfold INT_MAX; lia|]. split; [discriminate|]. split; [|split; [exact H2|]].
    - intros p Hp. cbn in Hp. repeat (destruct Hp as [<-|Hp]; [cbn; lia|]). contradiction.
    - intros iR a b. destruct (a =? b); (split; [unfold zlen; cbn; lia|]); intros t Ht; cbn in Ht; repeat (destruct Ht as [<-|Ht]; [unfold int3, int, INT_MIN, INT_MAX; lia|]); contradiction. }
  split; [|split]; [apply K; [unfold zlen; cbn; lia|]| |apply K; [unfold zlen; cbn; lia|]].
  - intros v Hv. cbn in Hv. repeat (destruct Hv as [<-|Hv]; [unfold int3, int, INT_MIN, INT_MAX; lia|]). contradiction.
  - cbn. repeat split; discriminate.
  - intros v Hv. cbn in Hv. repeat (destruct Hv as [<-|Hv]; [unfold int3, int, INT_MIN, INT_MAX; lia|]). contradiction.
Qed.
Print Assumptions C134_file. Print Assumptions C134_cell_rejected. Print Assumptions C134_truncated_refuted. Print Assumptions C135_file. Print Assumptions C135_energies. Print Assumptions C135_shifts_refuted. Print Assumptions C136_file. Print Assumptions C136_origin_refuted.
