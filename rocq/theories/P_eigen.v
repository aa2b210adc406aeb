(** Theorems on the diagonalisation of the scattering matrix (C157). *)
From Coq Require Import QArith Sorting.Sorted.
From Verif Require Import Base BaseLemmas M_matrix L_matrix M_eigen S_eigen L_eigen.
Open Scope Z_scope.

(** All eigenvalues: those of the routine, all of them; a warning if and only if one is negative, and then the list of all those <= 0. *)
Theorem C157_all : forall (M : Type) (evdQuery : M -> Z) (evd : M -> outcome M) A n p sp vec,
  0 < n -> 0 < p -> 7 * n + 8 * p + 2 <= 2147483647 -> -2147483648 <= evdQuery A <= 2147483647 ->
  spectrum n sp -> computesAll (evd A) sp vec ->
  exists report, diagonalizeAll evdQuery evd n n p p A = Ok (sp, vec n, report) /\
    (report <> None <-> exists x, In x sp /\ (x < 0)%Q) /\ (forall l, report = Some l -> listsNonPositive sp l).
Proof. exact @all_ok. Qed.
Print Assumptions C157_all.

(** A matrix that is not square, or a grid of processes that is not square, is refused. *)
Theorem C157_refused : forall (M : Type) (evdQuery evrQuery : M -> Z) (evd : M -> outcome M) evr A n nc pr pc k check, n <> nc \/ pr <> pc ->
  diagonalizeAll evdQuery evd n nc pr pc A = Err /\ diagonalizeSome evrQuery evr k check n nc pr pc A = Err /\
  forall nb, diagonalizeComplex evd n nc pr pc nb A = Err.
Proof.
  intros M evdQuery evrQuery evd evr A n nc pr pc k check H. unfold diagonalizeAll, diagonalizeSome, diagonalizeComplex.
  destruct (n =? nc) eqn:E; [|now cbn]. destruct (pr =? pc) eqn:E2; [|now cbn]. lia.
Qed.
Print Assumptions C157_refused.

(** A failure of the routine is an error, never a result. *)
Theorem C157_failure : forall (M : Type) (evdQuery evrQuery : M -> Z) (evd : M -> outcome M) evr A n nc pr pc k r,
  (info (evd A) <> 0 -> diagonalizeAll evdQuery evd n nc pr pc A <> Ok r) /\
  ((forall k', info (evr true (ByIndex 1 k') A) <> 0) -> forall check, diagonalizeSome evrQuery evr k check n nc pr pc A <> Ok r).
Proof.
  intros M evdQuery evrQuery evd evr A n nc pr pc k r. split.
  - intros H. unfold diagonalizeAll. destruct (negb (n =? nc)); [discriminate|]. destruct (negb (pr =? pc)); [discriminate|].
    destruct (ck (7 * n + 8 * pc + 2)); try discriminate. cbn [bind]. destruct (ck (evdQuery A)); try discriminate. cbn [bind].
    rewrite (proj2 (Z.eqb_neq _ _) H). discriminate.
  - intros H check. unfold diagonalizeSome. destruct (negb (n =? nc)); [discriminate|]. destruct (negb (pr =? pc)); [discriminate|].
    destruct (ck (evrQuery A)); try discriminate. cbn [bind]. destruct (ck (12 * _ + 2 * n)); try discriminate. cbn [bind].
    destruct (if check then negativeCheck evr A else Ok ([], None)) as [x| |]; try discriminate. cbn [bind].
    rewrite (proj2 (Z.eqb_neq _ _) (H _)). discriminate.
Qed.
Print Assumptions C157_failure.

(** A matrix without states: the first eigenvalue is read from an empty array. *)
Theorem C157_empty_refuted : forall (M : Type) (evdQuery : M -> Z) (evd : M -> outcome M) A p vec, 0 < p <= 1000 ->
  -2147483648 <= evdQuery A <= 2147483647 -> computesAll (evd A) [] vec -> diagonalizeAll evdQuery evd 0 0 p p A = UB.
Proof.
  intros M evdQuery evd A p vec Hp Q (I & V & _). unfold diagonalizeAll. rewrite !Z.eqb_refl. cbn [negb]. rewrite !ck_ok by lia. cbn [bind].
  rewrite I, V. reflexivity.
Qed.
Print Assumptions C157_empty_refuted.

(** The first k eigenvalues: the k smallest (all, if k exceeds the size), with their eigenvectors, whether or not negative
    eigenvalues are checked. The check warns if and only if more than three eigenvalues are in (-1, 10^-16], and lists these. *)
Theorem C157_some : forall (M : Type) (evrQuery : M -> Z) evr (A : M) n p sp vec k, 0 < n -> 0 < p -> 0 < k ->
  12 * Z.max (Z.max n (p * p + 1)) 4 + 2 * n <= 2147483647 -> -2147483648 <= evrQuery A <= 2147483647 ->
  spectrum n sp -> computesSome evr A sp vec ->
  exists w report, smallest (Z.min k n) sp w /\
    diagonalizeSome evrQuery evr k true n n p p A = Ok (w, vec (Z.min k n), report) /\
    diagonalizeSome evrQuery evr k false n n p p A = Ok (w, vec (Z.min k n), None) /\
    (report <> None <-> 3 < zlen (filter nearZero sp)) /\
    (forall l, report = Some l -> map snd l = filter nearZero sp /\ map fst l = zrange 0 (zlen (filter nearZero sp))).
Proof.
  intros M evrQuery evr A n p sp vec k Hn Hp Hk W Q S C.
  destruct (some_ok evrQuery evr A n p sp vec k true Hn Hp Hk W Q S C) as (w & Sm & R).
  exists w. eexists. split; [exact Sm|]. split; [exact R|]. split.
  - destruct (some_ok evrQuery evr A n p sp vec k false Hn Hp Hk W Q S C) as (w' & Sm' & R'). rewrite R'. cbn [andb].
    f_equal. f_equal. f_equal. destruct Sm as (L & l1 & E1 & _), Sm' as (L' & l2 & E2 & _). clear R R'.
    assert (E : w ++ l1 = w' ++ l2) by congruence. assert (LL : length w = length w') by (unfold zlen in *; lia).
    clear - E LL. revert w' LL E. induction w as [|x w IH]; intros [|y w'] LL E; cbn in *; try discriminate; [reflexivity|].
    injection E as -> E. f_equal. apply IH; [congruence|exact E].
  - cbn [andb]. split.
    + destruct (3 <? zlen (filter nearZero sp)) eqn:E; [split; [lia|discriminate]|split; [congruence|lia]].
    + destruct (3 <? zlen (filter nearZero sp)); [|discriminate]. intros l E. injection E as <-.
      assert (B : forall (a : list Z) (b : list QArith_base.Q), length a = length b -> map snd (combine a b) = b /\ map fst (combine a b) = a).
      { clear. induction a as [|x a IH]; intros [|y b] E; cbn in *; try discriminate; [split; reflexivity|]. destruct (IH b ltac:(congruence)) as [-> ->]. split; reflexivity. }
      apply B. assert (Z := zlen_zrange 0 (zlen (filter nearZero sp)) (zlen_nonneg _)). unfold zlen in *. lia.
Qed.
Print Assumptions C157_some.

(** A routine that does what is documented, for diagonal matrices: the content is the diagonal, in ascending order. *)
Definition diagonalEvd (A : list Q) : outcome (list Q) := {| info := 0; found := zlen A; values := A; vectors := A |}.
Definition diagonalEvr (v : bool) (s : selection) (A : list Q) : outcome (list Q) :=
  match s with
  | ByValue vl vu => let w := filter (fun x => negb (Qle_bool x vl) && Qle_bool x vu) A in {| info := 0; found := zlen w; values := w; vectors := w |}
  | ByIndex il iu => let w := firstn (Z.to_nat iu) A in
    {| info := if (1 <=? iu) && (iu <=? zlen A) then 0 else -11; found := iu; values := w; vectors := w |}
  end.
Lemma diagonal_some A : computesSome diagonalEvr A A (fun k => firstn (Z.to_nat k) A).
Proof.
  split.
  - intros v vl vu. cbn. repeat split.
  - intros v iu. cbn. destruct ((1 <=? iu) && (iu <=? zlen A)) eqn:E; [|discriminate]. repeat split.
    + exists (skipn (Z.to_nat iu) A). symmetry. apply firstn_skipn.
    + unfold zlen in *. rewrite firstn_length. lia.
Qed.
Lemma diagonal_all A : computesAll (diagonalEvd A) A (fun k => firstn (Z.to_nat k) A).
Proof. repeat split. cbn. unfold zlen. rewrite Nat2Z.id. symmetry. apply firstn_all. Qed.

(** The check says nothing of an eigenvalue below -1, nor of three negative ones, and warns where no eigenvalue is negative. *)
Theorem C157_check_refuted :
  (exists w v, diagonalizeSome (fun _ => 100) diagonalEvr 2 true 5 5 1 1 [-2; 0; 1; 1; 3]%Q = Ok (w, v, None)) /\
  (exists w v, diagonalizeSome (fun _ => 100) diagonalEvr 2 true 5 5 1 1 [-(1 # 2); -(1 # 2); -(1 # 3); 1; 3]%Q = Ok (w, v, None)) /\
  (exists w v l, diagonalizeSome (fun _ => 100) diagonalEvr 2 true 5 5 1 1 [0; 0; 0; 0; 3]%Q = Ok (w, v, Some l)).
Proof. repeat split; repeat eexists. Qed.
Print Assumptions C157_check_refuted.

(** What an input asks for: with s*s processes, 0 (or a negative number) means all eigenvalues of the matrix, a number below the number
    of states that many of the smallest, and more than the number of states is refused. *)
Theorem C157_request : forall (M : Type) (evdQuery evrQuery : M -> Z) evd evr (A : M) s sym check numStates sp vec,
  let n := matSize sym numStates in
  0 < s <= 1000 -> 0 < numStates <= 10000000 -> -2147483648 <= evrQuery A <= 2147483647 -> -2147483648 <= evdQuery A <= 2147483647 ->
  spectrum n sp -> computesAll (evd A) sp vec -> computesSome evr A sp vec ->
  (forall k, k <= 0 -> exists report, scatteringDiagonalize evdQuery evrQuery evd evr (s * s) sym check numStates k A = Ok (sp, vec n, report)) /\
  (forall k, 0 < k < numStates -> exists w report, scatteringDiagonalize evdQuery evrQuery evd evr (s * s) sym check numStates k A = Ok (w, vec k, report) /\ smallest k sp w) /\
  (forall k, numStates < k -> scatteringDiagonalize evdQuery evrQuery evd evr (s * s) sym check numStates k A = Err).
Proof.
  intros M evdQuery evrQuery evd evr A s sym check numStates sp vec n Hs Hn Q1 Q2 S CA CS.
  assert (G : initBlacs (s * s) 0 0 = Ok (s, s)).
  { unfold initBlacs. rewrite (proj2 (Z.ltb_ge (s * s) (0 * 0))) by lia. cbn [Z.eqb negb andb]. rewrite Z.sqrt_square by lia. rewrite Z.ltb_irrefl. reflexivity. }
  assert (N : numStates <= n <= 3 * numStates) by (unfold n, matSize; destruct sym; lia).
  split; [|split].
  - intros k Hk. unfold scatteringDiagonalize. rewrite G. cbn [bind fst snd]. fold n. rewrite (proj2 (Z.ltb_ge numStates k)), (proj2 (Z.ltb_ge 0 k)) by lia. cbn [andb].
    destruct (all_ok evdQuery evd A n s sp vec) as (r & R & _); try assumption; try lia. exists r. exact R.
  - intros k Hk. unfold scatteringDiagonalize. rewrite G. cbn [bind fst snd]. fold n. rewrite (proj2 (Z.ltb_ge numStates k)), (proj2 (Z.ltb_lt 0 k)), (proj2 (Z.eqb_neq k numStates)) by lia. cbn [andb negb].
    destruct (some_ok evrQuery evr A n s sp vec k check) as (w & Sm & R); try assumption; try nia. rewrite Z.min_l in * by lia. exists w. eexists. split; [exact R|exact Sm].
  - intros k Hk. unfold scatteringDiagonalize. rewrite G. cbn [bind]. rewrite (proj2 (Z.ltb_lt numStates k)) by lia. reflexivity.
Qed.
Print Assumptions C157_request.

(** With symmetries, as many eigenvalues as states are asked for and three times as many come, while two more than the states are refused. *)
Theorem C157_symmetries_refuted : forall (M : Type) (evdQuery evrQuery : M -> Z) evd evr (A : M) s check numStates sp vec,
  0 < s <= 1000 -> 0 < numStates <= 10000000 -> -2147483648 <= evdQuery A <= 2147483647 ->
  spectrum (3 * numStates) sp -> computesAll (evd A) sp vec ->
  (exists report, scatteringDiagonalize evdQuery evrQuery evd evr (s * s) true check numStates numStates A = Ok (sp, vec (3 * numStates), report)) /\
  ~ smallest numStates sp sp /\ scatteringDiagonalize evdQuery evrQuery evd evr (s * s) true check numStates (numStates + 1) A = Err.
Proof.
  intros M evdQuery evrQuery evd evr A s check numStates sp vec Hs Hn Q2 S CA.
  assert (G : initBlacs (s * s) 0 0 = Ok (s, s)).
  { unfold initBlacs. rewrite (proj2 (Z.ltb_ge (s * s) (0 * 0))) by lia. cbn [Z.eqb negb andb]. rewrite Z.sqrt_square by lia. rewrite Z.ltb_irrefl. reflexivity. }
  unfold scatteringDiagonalize. rewrite G. cbn [bind fst snd matSize]. split; [|split].
  - rewrite Z.ltb_irrefl, Z.eqb_refl. cbn [negb]. rewrite andb_false_r.
    destruct (all_ok evdQuery evd A (3 * numStates) s sp vec) as (r & R & _); try assumption; try lia. exists r. exact R.
  - intros [L _]. destruct S as [L2 _]. lia.
  - rewrite (proj2 (Z.ltb_lt numStates (numStates + 1))) by lia. reflexivity.
Qed.
Print Assumptions C157_symmetries_refuted.

(** A number of processes that is not a square is refused. *)
Theorem C157_processes : forall (M : Type) (evdQuery evrQuery : M -> Z) evd evr (A : M) size sym check numStates k,
  0 < size -> (forall s, size <> s * s) -> scatteringDiagonalize evdQuery evrQuery evd evr size sym check numStates k A = Err.
Proof.
  intros M evdQuery evrQuery evd evr A size sym check numStates k Hs H. unfold scatteringDiagonalize, initBlacs.
  rewrite (proj2 (Z.ltb_ge size (0 * 0))) by lia. cbn [Z.eqb negb andb]. destruct (Z.sqrt_spec size ltac:(lia)) as [B _]. specialize (H (Z.sqrt size)).
  rewrite (proj2 (Z.ltb_lt (Z.sqrt size * Z.sqrt size) size)) by lia. reflexivity.
Qed.
Print Assumptions C157_processes.

(** Complex matrices: eigenvalues and eigenvectors of the routine up to 40000 rows with blocks up to 1000; from 46341 rows on
    the size of the work array exceeds an int, whatever the number of processes. *)
Theorem C157_complex_partial : forall (M : Type) ev (A : M) n p nb sp vec, 0 < n <= 40000 -> 0 < nb <= 1000 -> 0 < p -> spectrum n sp -> computesAll (ev A) sp vec ->
  diagonalizeComplex ev n n p p nb A = Ok (sp, vec n).
Proof.
  intros M ev A n p nb sp vec Hn Hb Hp [L S] (I & V & Z). unfold diagonalizeComplex. rewrite !Z.eqb_refl. cbn [negb].
  set (nn := Z.max (Z.max n nb) 2). assert (B0 := numroc_nonneg nb p 0 ltac:(lia) ltac:(lia) ltac:(lia) nn ltac:(lia)).
  assert (B1 : numroc nn nb 0 p <= nn).
  { rewrite numroc_eq by lia. assert (D2 := Z.div_mod nn nb ltac:(lia)). assert (D3 := Z.div_mod (nn / nb) p ltac:(lia)).
    assert (M1 := Z.mod_pos_bound nn nb ltac:(lia)). assert (M2 := Z.mod_pos_bound (nn / nb) p Hp).
    assert (0 <= nn / nb / p) by (apply Z.div_pos; [apply Z.div_pos; lia|lia]).
    destruct (0 <? _) eqn:E; [nia|]. destruct (0 =? _); nia. }
  rewrite !ck_ok by nia. cbn [bind]. rewrite (proj2 (Z.ltb_ge _ 0)), (proj2 (Z.ltb_ge _ 0)) by nia. cbn [orb]. rewrite I. change (0 =? 0) with true. cbn [negb].
  rewrite V, Z, L. rewrite <- L at 1. assert (R := read_first sp []). rewrite app_nil_r in R. rewrite R. reflexivity.
Qed.
Print Assumptions C157_complex_partial.
Theorem C157_complex_size_refuted : forall (M : Type) ev (A : M) n p nb, 46341 <= n -> 0 < nb -> 0 < p -> diagonalizeComplex ev n n p p nb A = UB.
Proof.
  intros M ev A n p nb Hn Hb Hp. unfold diagonalizeComplex. rewrite !Z.eqb_refl. cbn [negb].
  set (nn := Z.max (Z.max n nb) 2). assert (B0 := numroc_nonneg nb p 0 ltac:(lia) ltac:(lia) ltac:(lia) nn ltac:(lia)).
  unfold ck at 1. unfold INT_MAX. rewrite (proj2 (Z.leb_gt _ 2147483647)) by nia. rewrite andb_false_r. reflexivity.
Qed.
Print Assumptions C157_complex_size_refuted.

(** Matrices of one process: real ones give the eigenvalues and eigenvectors of the routine; complex ones give the eigenvalues,
    but the eigenvectors returned are zero, whatever the routine computes. *)
Theorem C157_serial : forall (T : Type) syev (A : smat T) sp vec, sRows A = sCols A -> spectrum (sRows A) sp -> computesAll (syev A) sp vec ->
  serialReal syev A = Ok (sp, vec (sRows A)) /\ forall zero, exists v, serialComplex zero syev A = Ok (sp, v).
Proof.
  intros T syev A sp vec E [L S] (I & V & Z). unfold serialReal, serialComplex. rewrite E, !Z.eqb_refl in *. cbn [negb]. rewrite I, V, Z, L. change (0 =? 0) with true. cbn [negb].
  assert (R := read_first sp []). rewrite app_nil_r, L in R. rewrite R. split; [reflexivity|]. intros zero. eexists. reflexivity.
Qed.
Print Assumptions C157_serial.
Theorem C157_serial_refused : forall (T : Type) (zero : T) ev (A : smat T), sRows A <> sCols A \/ info (ev A) <> 0 ->
  serialReal ev A = Err /\ serialComplex zero ev A = Err.
Proof.
  intros T zero ev A H. unfold serialReal, serialComplex. destruct (Z.eqb_spec (sRows A) (sCols A)) as [E|E]; cbn [negb]; [|split; reflexivity].
  destruct H as [H|H]; [contradiction|]. apply Z.eqb_neq in H. rewrite H. split; reflexivity.
Qed.
Print Assumptions C157_serial_refused.
Theorem C157_serial_complex_refuted : forall (T : Type) (zero : T) heev A w v, serialComplex zero heev A = Ok (w, v) ->
  sRows v = sRows A /\ forall x, In x (sBuf v) -> x = zero.
Proof.
  intros T zero heev A w v. unfold serialComplex. destruct (negb (sRows A =? sCols A)); [discriminate|]. destruct (negb (info (heev A) =? 0)); [discriminate|].
  destruct (mapM _ _); try discriminate. cbn [bind]. intros E. injection E as _ <-. cbn [smat0 sRows sBuf]. split; [reflexivity|]. apply repeat_spec.
Qed.
Print Assumptions C157_serial_complex_refuted.

(** A matrix with six eigenvalues on four processes. *)
Definition exSpectrum : list Q := [-(1 # 10); -(1 # 100); 0; 1; 2; 2]%Q.
Example C157_ex : spectrum 6 exSpectrum /\ computesAll (diagonalEvd exSpectrum) exSpectrum (fun k => firstn (Z.to_nat k) exSpectrum) /\
  computesSome diagonalEvr exSpectrum exSpectrum (fun k => firstn (Z.to_nat k) exSpectrum) /\
  scatteringDiagonalize (fun _ => 100) (fun _ => 100) diagonalEvd diagonalEvr 4 false true 6 3 exSpectrum = Ok ([-(1 # 10); -(1 # 100); 0]%Q, [-(1 # 10); -(1 # 100); 0]%Q, None) /\
  scatteringDiagonalize (fun _ => 100) (fun _ => 100) diagonalEvd diagonalEvr 4 false true 6 0 exSpectrum = Ok (exSpectrum, exSpectrum, Some [(0, (-(1 # 10))%Q); (1, (-(1 # 100))%Q); (2, 0%Q)]) /\
  scatteringDiagonalize (fun _ => 100) (fun _ => 100) diagonalEvd diagonalEvr 5 false true 6 0 exSpectrum = Err.
Proof.
  split. { split; [reflexivity|]. unfold exSpectrum. repeat (constructor; try (repeat constructor; discriminate)). }
  split; [apply diagonal_all|]. split; [apply diagonal_some|]. repeat split; vm_compute; reflexivity.
Qed.
