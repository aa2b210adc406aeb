(** Lemmas about the lattices of Quantum ESPRESSO *)
From Coq Require Import Reals.
From Verif Require Import Base M_particle L_particle M_qe S_qe.
From Coq Require Import Lia Lra Psatz.
Local Open Scope R_scope.

Lemma stopIf_no {A} b (k : res A) : b = false -> stopIf b k = k. Proof. now intros ->. Qed.
Lemma stopIf_yes {A} b (k : res A) : b = true -> stopIf b k = Err. Proof. now intros ->. Qed.
Lemma rsqrt_ok x : 0 <= x -> rsqrt x = Ok (sqrt x).
Proof. intro H. unfold rsqrt. now rewrite (proj2 (rltb_ge _ _) H). Qed.
Lemma abs1_no x : angle x -> abs1 x = false.
Proof. intros [H1 H2]. unfold abs1. apply rleb_gt. apply Rabs_def1; lra. Qed.
Lemma abs1_yes x : ~ angle x -> abs1 x = true.
Proof. intro H. unfold abs1. apply rleb_le. unfold angle in H. unfold Rabs. destruct (Rcase_abs x); lra. Qed.
Lemma angle_dec x : angle x \/ ~ angle x.
Proof. unfold angle. destruct (Rlt_dec (-1) x); destruct (Rlt_dec x 1); intuition lra. Qed.
Lemma sin2 x : angle x -> 0 < 1 - x * x. Proof. intros [H1 H2]. nra. Qed.
Lemma pos_no x : 0 < x -> rleb x 0 = false. Proof. intro. now apply rleb_gt. Qed.
Lemma pos_yes x : ~ 0 < x -> rleb x 0 = true. Proof. intro. apply rleb_le. lra. Qed.

Lemma close_eq ib D x y : x = y -> 0 < cd0 D -> close ib D x y.
Proof.
  intros -> H. unfold close. replace (y - y) with 0 by ring. rewrite Rabs_R0. apply Rmult_le_pos; [|nra]. unfold tolerance. destruct (_ || _)%bool; lra.
Qed.
Lemma Rabs_le_inv' x y : Rabs x <= y -> - y <= x <= y.
Proof. unfold Rabs. destruct (Rcase_abs x); lra. Qed.
Lemma sr3_sq : Rabs (sr3 * sr3 - 3) <= 1 / 100000000000.
Proof. unfold sr3. apply Rabs_le. lra. Qed.
Lemma sr2_sq : Rabs (sr2 * sr2 - 2) <= 1 / 100000000000.
Proof. unfold sr2. apply Rabs_le. lra. Qed.
Ltac pick H := repeat (first [exact H | destruct H as [H|H]; [symmetry in H; subst|]]).
Definition described (ib : Z) (D : celldm) : Prop :=
  exists C, lattice ib D = Ok C /\ Forall2 (close ib D) (gram C) (expected ib (ofCelldm ib D)) /\ (notFlat ib D -> 0 < det C).
Ltac start := unfold lattice; repeat first [rewrite (stopIf_no (rleb _ 0)) by (now apply pos_no) | rewrite (stopIf_no (abs1 _)) by (now apply abs1_no)].
Ltac each := cbv beta iota zeta delta [gram expected]; repeat lazymatch goal with |- Forall2 _ (_ :: _) _ => apply Forall2_cons | |- Forall2 _ [] _ => apply Forall2_nil end.
Ltac exactly HA := each; apply close_eq; try exact HA; cbv beta iota zeta delta [ofCelldm la lb lc cosBC cosAC cosAB dot Z.eqb Pos.eqb orb]; try (field; fail).
Ltac pmul := repeat (match goal with |- 0 < _ * _ => apply Rmult_lt_0_compat end); try assumption.
Lemma pos3 a b c : 0 < a -> 0 < b -> 0 < c -> 0 < a * b * c.
Proof. intros. repeat apply Rmult_lt_0_compat; assumption. Qed.
Ltac solveDet := intros _; cbv beta iota zeta delta [det].

Section Lat.
Variable D : celldm.
Hypothesis HA : 0 < cd0 D.
Lemma lat1 : described 1 D.
Proof.
  eexists. split; [start; reflexivity|]. split; [exactly HA|]. solveDet.
  replace (_ - _ + _) with (cd0 D * cd0 D * cd0 D) by ring. now apply pos3.
Qed.
Lemma lat2 : described 2 D.
Proof.
  eexists. split; [start; reflexivity|]. split; [exactly HA|]. solveDet.
  replace (_ - _ + _) with (cd0 D * cd0 D * cd0 D / 4) by field. pose proof (pos3 _ _ _ HA HA HA). lra.
Qed.
Lemma lat3 : described 3 D.
Proof.
  eexists. split; [start; reflexivity|]. split; [exactly HA|]. solveDet.
  replace (_ - _ + _) with (cd0 D * cd0 D * cd0 D / 2) by field. pose proof (pos3 _ _ _ HA HA HA). lra.
Qed.
Lemma latm3 : described (-3) D.
Proof.
  eexists. split; [start; reflexivity|]. split; [exactly HA|]. solveDet.
  replace (_ - _ + _) with (cd0 D * cd0 D * cd0 D / 2) by field. pose proof (pos3 _ _ _ HA HA HA). lra.
Qed.
Lemma close_factor ib x y k : x - y = cd0 D * cd0 D * k -> Rabs k <= tolerance ib -> close ib D x y.
Proof.
  intros E H. unfold close. rewrite E, Rabs_mult, (Rabs_pos_eq (cd0 D * cd0 D)) by nra. rewrite (Rmult_comm (tolerance _)). apply Rmult_le_compat_l; [nra|exact H].
Qed.
Lemma lat4 : 0 < cd2 D -> described 4 D.
Proof.
  intro H2. eexists. split; [start; reflexivity|]. split.
  - each; try (apply close_eq; [cbv beta iota zeta delta [ofCelldm la lb lc dot]; field|exact HA]).
    apply close_factor with ((sr3 * sr3 - 3) / 4); [cbv beta iota zeta delta [ofCelldm la dot]; field|]. unfold tolerance. cbn [Z.eqb Pos.eqb orb]. pose proof sr3_sq as S. apply Rabs_le. apply Rabs_le_inv' in S. lra.
  - solveDet. replace (_ - _ + _) with (cd0 D * cd0 D * cd0 D * (sr3 / 2) * cd2 D) by field. pmul. unfold sr3; lra.
Qed.
Lemma inv2 : / sr2 = 1000000000000 / 1414213562373. Proof. unfold sr2. field. Qed.
Lemma inv3 : / sr3 = 1000000000000 / 1732050807569. Proof. unfold sr3. field. Qed.
Lemma lat5 : - (1 / 2) < cd3 D < 1 -> described 5 D.
Proof.
  intro H3. assert (P1 : 0 < sqrt (1 + 2 * cd3 D)) by (apply sqrt_lt_R0; lra). assert (P2 : 0 < sqrt (1 - cd3 D)) by (apply sqrt_lt_R0; lra).
  assert (Q1 : sqrt (1 + 2 * cd3 D) * sqrt (1 + 2 * cd3 D) = 1 + 2 * cd3 D) by (apply sqrt_sqrt; lra). assert (Q2 : sqrt (1 - cd3 D) * sqrt (1 - cd3 D) = 1 - cd3 D) by (apply sqrt_sqrt; lra).
  eexists. split; [start; rewrite stopIf_no; [rewrite !rsqrt_ok by lra; reflexivity|]|].
  { apply Bool.orb_false_iff. split; apply rleb_gt; lra. }
  set (t1 := sqrt (1 + 2 * cd3 D)) in *. set (t2 := sqrt (1 - cd3 D)) in *. split.
  - assert (K : forall x y p q r, x - y = cd0 D * cd0 D * (p * (t1 * t1) + q * (t2 * t2) - r) -> Rabs (p * (1 + 2 * cd3 D) + q * (1 - cd3 D) - r) <= 1 / 100000000000 -> close 5 D x y).
    { intros x y p q r E B. rewrite Q1, Q2 in E. now apply (close_factor 5 _ _ _ E). }
    assert (V2 : sr2 = 1414213562373 / 1000000000000) by reflexivity.
    each; cbv beta iota zeta delta [ofCelldm la cosBC dot]; unfold Rdiv; rewrite ?inv2, ?inv3, ?V2.
    + apply K with ((1000000000000 / 1732050807569) * (1000000000000 / 1732050807569)) ((1000000000000 / 1414213562373) * (1000000000000 / 1414213562373) * (1 + (1000000000000 / 1732050807569) * (1000000000000 / 1732050807569))) 1; [field|apply Rabs_le; lra].
    + apply K with ((1000000000000 / 1732050807569) * (1000000000000 / 1732050807569)) ((1414213562373 / 1000000000000) * (1414213562373 / 1000000000000) * (1000000000000 / 1732050807569) * (1000000000000 / 1732050807569)) 1; [field|apply Rabs_le; lra].
    + apply K with ((1000000000000 / 1732050807569) * (1000000000000 / 1732050807569)) ((1000000000000 / 1414213562373) * (1000000000000 / 1414213562373) * (1 + (1000000000000 / 1732050807569) * (1000000000000 / 1732050807569))) 1; [field|apply Rabs_le; lra].
    + apply K with ((1000000000000 / 1732050807569) * (1000000000000 / 1732050807569)) (- ((1000000000000 / 1732050807569) * (1000000000000 / 1732050807569))) (cd3 D); [field|apply Rabs_le; lra].
    + apply K with ((1000000000000 / 1732050807569) * (1000000000000 / 1732050807569)) ((1000000000000 / 1414213562373) * (1000000000000 / 1414213562373) * ((1000000000000 / 1732050807569) * (1000000000000 / 1732050807569) - 1)) (cd3 D); [field|apply Rabs_le; lra].
    + apply K with ((1000000000000 / 1732050807569) * (1000000000000 / 1732050807569)) (- ((1000000000000 / 1732050807569) * (1000000000000 / 1732050807569))) (cd3 D); [field|apply Rabs_le; lra].
  - solveDet. assert (0 < sr2) by (unfold sr2; lra). assert (0 < sr3) by (unfold sr3; lra). unfold Rdiv.
    assert (0 < / sr2) by now apply Rinv_0_lt_compat. assert (0 < / sr3) by now apply Rinv_0_lt_compat.
    set (x := cd0 D * t2 * / sr2). set (y := sr2 * cd0 D * t2 * / sr3). set (h := cd0 D * t1 * / sr3). set (s := / sr3) in *.
    assert (0 < x) by (unfold x; pmul). assert (0 < y) by (unfold y; pmul). assert (0 < h) by (unfold h; pmul).
    replace (_ - _ + _) with (2 * (x * y * h) + 2 * (x * x * h * s)) by ring. assert (0 < x * y * h) by now apply pos3. assert (0 < x * x * h * s) by (apply Rmult_lt_0_compat; [now apply pos3|assumption]). lra.
Qed.
Lemma latm5 : - (1 / 2) < cd3 D < 1 -> described (-5) D.
Proof.
  intro H3. assert (P1 : 0 < sqrt (1 + 2 * cd3 D)) by (apply sqrt_lt_R0; lra). assert (P2 : 0 < sqrt (1 - cd3 D)) by (apply sqrt_lt_R0; lra).
  assert (Q1 : sqrt (1 + 2 * cd3 D) * sqrt (1 + 2 * cd3 D) = 1 + 2 * cd3 D) by (apply sqrt_sqrt; lra). assert (Q2 : sqrt (1 - cd3 D) * sqrt (1 - cd3 D) = 1 - cd3 D) by (apply sqrt_sqrt; lra).
  eexists. split; [start; rewrite stopIf_no; [rewrite !rsqrt_ok by lra; reflexivity|]|].
  { apply Bool.orb_false_iff. split; apply rleb_gt; lra. }
  set (t1 := sqrt (1 + 2 * cd3 D)) in *. set (t2 := sqrt (1 - cd3 D)) in *. split.
  - assert (K : forall x y p q r, x - y = cd0 D * cd0 D * (p * (t1 * t1) + q * (t2 * t2) - r) -> p * (1 + 2 * cd3 D) + q * (1 - cd3 D) - r = 0 -> close (-5) D x y).
    { intros x y p q r E B. rewrite Q1, Q2, B in E. apply close_eq; [lra|exact HA]. }
    each; cbv beta iota zeta delta [ofCelldm la cosBC dot].
    1,2,3: apply K with (1 / 3) (2 / 3) 1; field.
    all: apply K with (1 / 3) (- (1 / 3)) (cd3 D); field.
  - solveDet. replace (_ - _ + _) with (cd0 D * cd0 D * cd0 D * (t1 * t2 * t2)) by field. apply Rmult_lt_0_compat; now apply pos3.
Qed.
Lemma lat6 : 0 < cd2 D -> described 6 D.
Proof.
  intro H2. eexists. split; [start; reflexivity|]. split; [exactly HA|]. solveDet.
  replace (_ - _ + _) with (cd0 D * cd0 D * cd0 D * cd2 D) by ring. apply Rmult_lt_0_compat; [now apply pos3|assumption].
Qed.
Lemma lat7 : 0 < cd2 D -> described 7 D.
Proof.
  intro H2. eexists. split; [start; reflexivity|]. split; [exactly HA|]. solveDet.
  replace (_ - _ + _) with (cd0 D * cd0 D * cd0 D * cd2 D / 2) by field. assert (0 < cd0 D * cd0 D * cd0 D * cd2 D) by (apply Rmult_lt_0_compat; [now apply pos3|assumption]). lra.
Qed.
Hypothesis H1 : 0 < cd1 D.
Hypothesis H2 : 0 < cd2 D.
Lemma vol : 0 < cd0 D * cd0 D * cd0 D * (cd1 D * cd2 D).
Proof. apply Rmult_lt_0_compat; [now apply pos3|now apply Rmult_lt_0_compat]. Qed.
Lemma lat8 : described 8 D.
Proof. eexists. split; [start; reflexivity|]. split; [exactly HA|]. solveDet. pose proof vol. replace (_ - _ + _) with (cd0 D * cd0 D * cd0 D * (cd1 D * cd2 D)) by field. lra. Qed.
Lemma lat9 : described 9 D.
Proof. eexists. split; [start; reflexivity|]. split; [exactly HA|]. solveDet. pose proof vol. replace (_ - _ + _) with (cd0 D * cd0 D * cd0 D * (cd1 D * cd2 D) / 2) by field. lra. Qed.
Lemma latm9 : described (-9) D.
Proof. eexists. split; [start; reflexivity|]. split; [exactly HA|]. solveDet. pose proof vol. replace (_ - _ + _) with (cd0 D * cd0 D * cd0 D * (cd1 D * cd2 D) / 2) by field. lra. Qed.
Lemma lat91 : described 91 D.
Proof. eexists. split; [start; reflexivity|]. split; [exactly HA|]. solveDet. pose proof vol. replace (_ - _ + _) with (cd0 D * cd0 D * cd0 D * (cd1 D * cd2 D) / 2) by field. lra. Qed.
Lemma lat10 : described 10 D.
Proof. eexists. split; [start; reflexivity|]. split; [exactly HA|]. solveDet. pose proof vol. replace (_ - _ + _) with (cd0 D * cd0 D * cd0 D * (cd1 D * cd2 D) / 4) by field. lra. Qed.
Lemma lat11 : described 11 D.
Proof. eexists. split; [start; reflexivity|]. split; [exactly HA|]. solveDet. pose proof vol. replace (_ - _ + _) with (cd0 D * cd0 D * cd0 D * (cd1 D * cd2 D) / 2) by field. lra. Qed.
Lemma sine x : angle x -> sqrt (1 - x * x) * sqrt (1 - x * x) = 1 - x * x /\ 0 < sqrt (1 - x * x).
Proof. intro H. pose proof (sin2 x H). split; [apply sqrt_sqrt; lra|now apply sqrt_lt_R0]. Qed.
Lemma lat12 : angle (cd3 D) -> described 12 D.
Proof.
  intro H3. pose proof (sin2 _ H3) as S0. destruct (sine _ H3) as [S1 S2]. eexists. split; [start; rewrite rsqrt_ok by lra; reflexivity|]. set (s := sqrt _) in *. split.
  - exactly HA. replace (_ + _ + _) with (cd0 D * cd0 D * (cd1 D * cd1 D) * (cd3 D * cd3 D + s * s)) by ring. rewrite S1. ring.
  - solveDet. pose proof vol. replace (_ - _ + _) with (cd0 D * cd0 D * cd0 D * (cd1 D * cd2 D) * s) by field. now apply Rmult_lt_0_compat.
Qed.
Lemma latm12 : angle (cd4 D) -> described (-12) D.
Proof.
  intro H3. pose proof (sin2 _ H3) as S0. destruct (sine _ H3) as [S1 S2]. eexists. split; [start; rewrite rsqrt_ok by lra; reflexivity|]. set (s := sqrt _) in *. split.
  - exactly HA. replace (_ + _ + _) with (cd0 D * cd0 D * (cd2 D * cd2 D) * (cd4 D * cd4 D + s * s)) by ring. rewrite S1. ring.
  - solveDet. pose proof vol. replace (_ - _ + _) with (cd0 D * cd0 D * cd0 D * (cd1 D * cd2 D) * s) by field. now apply Rmult_lt_0_compat.
Qed.
Lemma latm13 : angle (cd4 D) -> described (-13) D.
Proof.
  intro H3. pose proof (sin2 _ H3) as S0. destruct (sine _ H3) as [S1 S2]. eexists. split; [start; rewrite rsqrt_ok by lra; reflexivity|]. set (s := sqrt _) in *. split.
  - exactly HA. replace (_ + _ + _) with (cd0 D * cd0 D * (cd2 D * cd2 D) * (cd4 D * cd4 D + s * s)) by ring. rewrite S1. ring.
  - solveDet. pose proof vol. replace (_ - _ + _) with (cd0 D * cd0 D * cd0 D * (cd1 D * cd2 D) * s / 2) by field. assert (0 < cd0 D * cd0 D * cd0 D * (cd1 D * cd2 D) * s) by now apply Rmult_lt_0_compat. lra.
Qed.
Lemma lat14 : angle (cd3 D) -> angle (cd4 D) -> angle (cd5 D) -> 0 <= 1 + 2 * cd3 D * cd4 D * cd5 D - cd3 D * cd3 D - cd4 D * cd4 D - cd5 D * cd5 D -> described 14 D.
Proof.
  intros H3 H4 H5 HT. pose proof (sin2 _ H5) as S0. destruct (sine _ H5) as [S1 S2]. set (T := 1 + _ - _ - _ - _) in *.
  assert (QT : 0 <= T / (1 - cd5 D * cd5 D)) by (unfold Rdiv; apply Rmult_le_pos; [exact HT|left; now apply Rinv_0_lt_compat]).
  eexists. split. { start. rewrite rsqrt_ok by lra. cbn [bind]. cbv zeta. fold T. rewrite stopIf_no by now apply rltb_ge. rewrite rsqrt_ok by exact QT. reflexivity. }
  assert (S3 : sqrt (T / (1 - cd5 D * cd5 D)) * sqrt (T / (1 - cd5 D * cd5 D)) = T / (1 - cd5 D * cd5 D)) by now apply sqrt_sqrt.
  assert (S4 : 0 < T -> 0 < sqrt (T / (1 - cd5 D * cd5 D))). { intro. apply sqrt_lt_R0. unfold Rdiv. apply Rmult_lt_0_compat; [assumption|now apply Rinv_0_lt_compat]. }
  set (t := sqrt (T / _)) in *. set (s := sqrt _) in *. rewrite <- S1 in S3. split.
  - exactly HA.
    + replace (_ + _ + _) with (cd0 D * cd0 D * (cd1 D * cd1 D) * (cd5 D * cd5 D + s * s)) by ring. rewrite S1. ring.
    + replace (_ + _ + _) with (cd0 D * cd0 D * (cd2 D * cd2 D) * (cd4 D * cd4 D + (cd3 D - cd4 D * cd5 D) * (cd3 D - cd4 D * cd5 D) / (s * s) + t * t)) by (field; lra). rewrite S3.
      replace (cd4 D * cd4 D + _ + _) with ((cd4 D * cd4 D * (s * s) + (cd3 D - cd4 D * cd5 D) * (cd3 D - cd4 D * cd5 D) + T) / (s * s)) by (field; lra). rewrite S1. unfold T. field. lra.
    + field. lra.
    + field. lra.
  - intro NF. specialize (NF eq_refl). fold T in NF. specialize (S4 NF). cbv beta iota zeta delta [det]. pose proof vol. replace (_ - _ + _) with (cd0 D * cd0 D * cd0 D * (cd1 D * cd2 D) * (s * t)) by (field; lra). apply Rmult_lt_0_compat; [assumption|now apply Rmult_lt_0_compat].
Qed.
End Lat.
