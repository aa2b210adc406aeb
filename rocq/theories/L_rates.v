(** Lemmas on the rates of single events. *)
From Coq Require Import QArith Qcanon Permutation.
From Verif Require Import Base BaseLemmas M_matrix S_matrix L_matrix2 M_vbte M_scattering S_scattering L_scattering S_rates.
Open Scope Z_scope.

Lemma qltb_lt a b : qltb a b = true <-> (a < b)%Qc.
Proof. unfold qltb. destruct (Qclt_le_dec a b) as [H|H]; split; intro K; try reflexivity; try discriminate; auto. exfalso. exact (Qcle_not_lt _ _ H K). Qed.
Lemma qltb_ge a b : qltb a b = false <-> (b <= a)%Qc.
Proof. unfold qltb. destruct (Qclt_le_dec a b) as [H|H]; split; intro K; try reflexivity; try discriminate; auto. exfalso. exact (Qcle_not_lt _ _ K H). Qed.
Lemma change_nil x1 x2 : change [] x1 x2 = 0%Qc. Proof. reflexivity. Qed.
Lemma change_one e x1 x2 : change [e] x1 x2 = (evDiag e * x1 + evOff e * x2)%Qc. Proof. unfold change, qsum. cbn [map fold_right]. ring. Qed.
Lemma parts1 a : qsum (map fst [a]) = fst (a : Qc * bool). Proof. unfold qsum. cbn [map fold_right]. ring. Qed.
Lemma parts2 a b : qsum (map fst [a; b]) = (fst (a : Qc * bool) + fst b)%Qc. Proof. unfold qsum. cbn [map fold_right]. ring. Qed.
Lemma half_two : (half + half)%Qc = 1%Qc. Proof. apply Qc_is_canon. reflexivity. Qed.
Lemma discarded_perm cut same e1 e2 e3 : discarded cut same e1 e3 e2 = discarded cut same e1 e2 e3.
Proof. unfold discarded. destruct same. - destruct (qltb e1 cut), (qltb e2 cut), (qltb e3 cut); reflexivity. - f_equal. ring. Qed.
Lemma lt_irr a : ~ (a < a)%Qc. Proof. intro H. exact (Qcle_not_lt _ _ (Qcle_refl a) H). Qed.
Lemma pos_ne a : (0 < a)%Qc -> a <> 0%Qc. Proof. intros H ->. exact (lt_irr _ H). Qed.
Lemma clip0 d : ~ (0 < d)%Qc -> (if qltb d 0%Qc then 0%Qc else d) = 0%Qc.
Proof. intro H. destruct (qltb d 0) eqn:E; [reflexivity|]. apply qltb_ge in E. apply Qcle_antisym; [|exact E]. apply Qcnot_lt_le. exact H. Qed.
Lemma clipP d : (0 < d)%Qc -> (if qltb d 0%Qc then 0%Qc else d) = d.
Proof. intro H. destruct (qltb d 0) eqn:E; [|reflexivity]. apply qltb_lt in E. exfalso. exact (lt_irr _ (Qclt_trans _ _ _ H E)). Qed.

Lemma sq_nonneg (x : Qc) : (0 <= x * x)%Qc.
Proof.
  destruct (Qclt_le_dec x 0) as [H|H].
  - replace (x * x)%Qc with ((- x) * (- x))%Qc by ring. replace 0%Qc with (0 * (- x))%Qc by ring. assert (0 <= - x)%Qc by (apply Qclt_le_weak in H; apply Qcopp_le_compat in H; exact H). apply Qcmult_le_compat_r; assumption.
  - replace 0%Qc with (0 * x)%Qc by ring. apply Qcmult_le_compat_r; assumption.
Qed.
Lemma one_sq_pos (x : Qc) : (0 < x * x + 1)%Qc.
Proof. apply Qclt_le_trans with 1%Qc; [reflexivity|]. replace 1%Qc with (0 + 1)%Qc at 1 by ring. apply Qcplus_le_compat; [apply sq_nonneg|apply Qcle_refl]. Qed.
Lemma sq_one_pos (x : Qc) : (1 < x)%Qc -> (0 < x * x - 1)%Qc.
Proof.
  intro H. assert (0 < x - 1)%Qc by (apply Qclt_minus_iff in H; exact H). replace (x * x - 1)%Qc with ((x - 1) * (x + 1))%Qc by ring. replace 0%Qc with (0 * (x + 1))%Qc by ring. apply Qcmult_lt_compat_r; [|exact H0].
  apply Qclt_trans with 1%Qc; [reflexivity|]. apply Qclt_le_trans with x; [exact H|]. replace x with (x + 0)%Qc at 1 by ring. apply Qcplus_le_compat; [apply Qcle_refl|discriminate].
Qed.

Section Ph.
Variables (G : grid) (idx : Z -> Z -> Z) (irrOf : Z -> Z) (rotInv : Z -> Z -> Z -> Qc) (en : Z -> Z -> Qc) (en3p en3m : Z -> Z -> Z -> Qc) (cp cm dp d1 d2 : Z -> Z -> Z -> Z -> Z -> Qc).
Variables (bose : Z -> Qc) (bose3p bose3m : Z -> Z -> Z -> Qc) (umk umkm1 umkm2 : Z -> Z -> bool) (cpi norm cut : Qc) (same : bool).
Notation plus := (plusEvent G idx irrOf rotInv en en3p cp dp bose bose3p umk cpi norm cut same).
Notation minus := (minusEvent G idx irrOf rotInv en en3m cm d1 d2 bose bose3m umkm1 umkm2 cpi norm cut same).
Notation n1 q b := (bose (gS2B G (idx q b))).
Notation n2 q b := (bose (gS2B G (idx (irrOf q) b))).

Lemma change_plus q1 q2 b1 b2 b3 x1 x2 : (0 < dp q1 q2 b1 b2 b3)%Qc ->
  change (plus q1 q2 b1 b2 b3) x1 x2 = if discarded cut same (en q1 b1) (en q2 b2) (en3p q1 q2 b3) then 0%Qc else
  (cpi * quarter * n1 q1 b1 * n2 q2 b2 * (bose3p q1 q2 b3 + 1) * cp q1 q2 b1 b2 b3 * dp q1 q2 b1 b2 b3 * norm / (en q1 b1 * en q2 b2 * en3p q1 q2 b3) * (half * x1 + x2))%Qc.
Proof.
  intro H. unfold plusEvent. cbv zeta. destruct (discarded _ _ _ _ _); [reflexivity|]. apply qltb_lt in H. rewrite H. cbn [negb].
  rewrite change_one. unfold evDiag. cbn [evParts evOff]. rewrite parts1. cbn [fst]. ring.
Qed.
Lemma change_minus1 q1 q2 b1 b2 b3 x1 x2 : (0 < d1 q1 q2 b1 b2 b3)%Qc -> ~ (0 < d2 q1 q2 b1 b2 b3)%Qc ->
  change (minus q1 q2 b1 b2 b3) x1 x2 = if discarded cut same (en q1 b1) (en q2 b2) (en3m q1 q2 b3) then 0%Qc else
  (cpi * quarter * bose3m q1 q2 b3 * n1 q1 b1 * (n2 q2 b2 + 1) * cm q1 q2 b1 b2 b3 * d1 q1 q2 b1 b2 b3 * norm / (en q1 b1 * en q2 b2 * en3m q1 q2 b3) * (half * x1 - x2))%Qc.
Proof.
  intros H K. unfold minusEvent. cbv zeta. destruct (discarded _ _ _ _ _); [reflexivity|]. rewrite (clipP _ H), (clip0 _ K). apply qltb_lt in H. rewrite H. cbn [negb andb].
  rewrite change_one. unfold evDiag. cbn [evParts evOff]. rewrite parts2. cbn [fst]. unfold Qcdiv. ring.
Qed.
Lemma change_minus2 q1 q2 b1 b2 b3 x1 x2 : ~ (0 < d1 q1 q2 b1 b2 b3)%Qc -> (0 < d2 q1 q2 b1 b2 b3)%Qc ->
  change (minus q1 q2 b1 b2 b3) x1 x2 = if discarded cut same (en q1 b1) (en q2 b2) (en3m q1 q2 b3) then 0%Qc else
  (cpi * quarter * n2 q2 b2 * bose3m q1 q2 b3 * (n1 q1 b1 + 1) * cm q1 q2 b1 b2 b3 * d2 q1 q2 b1 b2 b3 * norm / (en q1 b1 * en q2 b2 * en3m q1 q2 b3) * (half * x1 - x2))%Qc.
Proof.
  intros H K. unfold minusEvent. cbv zeta. destruct (discarded _ _ _ _ _); [reflexivity|]. rewrite (clip0 _ H), (clipP _ K). apply qltb_lt in K. rewrite K.
  rewrite Bool.andb_false_r. rewrite change_one. unfold evDiag. cbn [evParts evOff]. rewrite parts2. cbn [fst]. unfold Qcdiv. ring.
Qed.

(** 1 + a -> b: the pair (1,a) with b as third state and the pair (1,b) with a as third state *)
Lemma absorption q1 b1 qa ba qb bb :
  en3p q1 qa bb = en qb bb -> en3m q1 qb ba = en qa ba -> bose3p q1 qa bb = n2 qb bb -> bose3m q1 qb ba = n2 qa ba ->
  cp q1 qa b1 ba bb = cm q1 qb b1 bb ba -> dp q1 qa b1 ba bb = d1 q1 qb b1 bb ba ->
  (0 < dp q1 qa b1 ba bb)%Qc -> (en q1 b1 + en qa ba = en qb bb)%Qc -> (0 < en qa ba)%Qc ->
  ((0 < d2 q1 qb b1 bb ba)%Qc -> (en qb bb + en qa ba = en q1 b1)%Qc) ->
  (change (plus q1 qa b1 ba bb) (en q1 b1) (en qa ba) + change (minus q1 qb b1 bb ba) (en q1 b1) (en qb bb) = 0)%Qc.
Proof.
  intros E3 E3m N3 N3m C D Dp On Pa Off.
  assert (D2 : ~ (0 < d2 q1 qb b1 bb ba)%Qc).
  { intro H. apply Off in H. rewrite <- On in H. apply (pos_ne _ Pa).
    assert (T : (en qa ba + en qa ba = 0)%Qc) by (transitivity ((en q1 b1 + en qa ba + en qa ba) - en q1 b1)%Qc; [ring|rewrite H; ring]).
    transitivity (half * (en qa ba + en qa ba))%Qc; [|rewrite T; ring].
    transitivity ((half + half) * en qa ba)%Qc; [rewrite half_two; ring|ring]. }
  rewrite change_plus by exact Dp. rewrite change_minus1 by (try exact D2; rewrite <- D; exact Dp).
  rewrite E3, E3m, N3, N3m, <- C, <- D. rewrite (discarded_perm cut same (en q1 b1) (en qa ba) (en qb bb)). destruct (discarded _ _ _ _ _); [ring|].
  replace (en q1 b1 * en qb bb * en qa ba)%Qc with (en q1 b1 * en qa ba * en qb bb)%Qc by ring.
  set (r := (/ (en q1 b1 * en qa ba * en qb bb))%Qc). unfold Qcdiv. fold r.
  transitivity (cpi * quarter * n1 q1 b1 * n2 qa ba * (n2 qb bb + 1) * cp q1 qa b1 ba bb * dp q1 qa b1 ba bb * norm * r * ((half + half) * en q1 b1 + en qa ba - en qb bb))%Qc; [ring|].
  rewrite half_two, <- On. ring.
Qed.
(** 1 -> a + b: the pair (1,a) with b as third state and the pair (1,b) with a as third state *)
Lemma decay q1 b1 qa ba qb bb :
  en3m q1 qa bb = en qb bb -> en3m q1 qb ba = en qa ba -> bose3m q1 qa bb = n2 qb bb -> bose3m q1 qb ba = n2 qa ba ->
  cm q1 qa b1 ba bb = cm q1 qb b1 bb ba -> d2 q1 qa b1 ba bb = d2 q1 qb b1 bb ba ->
  (0 < d2 q1 qa b1 ba bb)%Qc -> (en qa ba + en qb bb = en q1 b1)%Qc -> (0 < en qa ba)%Qc -> (0 < en qb bb)%Qc ->
  ((0 < d1 q1 qa b1 ba bb)%Qc -> (en q1 b1 + en qb bb = en qa ba)%Qc) -> ((0 < d1 q1 qb b1 bb ba)%Qc -> (en q1 b1 + en qa ba = en qb bb)%Qc) ->
  (change (minus q1 qa b1 ba bb) (en q1 b1) (en qa ba) + change (minus q1 qb b1 bb ba) (en q1 b1) (en qb bb) = 0)%Qc.
Proof.
  intros E3 E3' N3 N3' C D Dp On Pa Pb O1 O2.
  assert (Hz : forall x : Qc, (x + x = 0)%Qc -> x = 0%Qc).
  { intros x T. transitivity (half * (x + x))%Qc; [|rewrite T; ring]. transitivity ((half + half) * x)%Qc; [rewrite half_two; ring|ring]. }
  assert (A1 : ~ (0 < d1 q1 qa b1 ba bb)%Qc).
  { intro H. apply O1 in H. rewrite <- On in H. apply (pos_ne _ Pb), Hz. transitivity ((en qa ba + en qb bb + en qb bb) - en qa ba)%Qc; [ring|rewrite H; ring]. }
  assert (A2 : ~ (0 < d1 q1 qb b1 bb ba)%Qc).
  { intro H. apply O2 in H. rewrite <- On in H. apply (pos_ne _ Pa), Hz. transitivity ((en qa ba + en qb bb + en qa ba) - en qb bb)%Qc; [ring|rewrite H; ring]. }
  rewrite change_minus2 by assumption. rewrite change_minus2 by (try exact A2; rewrite <- D; exact Dp).
  rewrite E3, E3', N3, N3', <- C, <- D. rewrite (discarded_perm cut same (en q1 b1) (en qa ba) (en qb bb)). destruct (discarded _ _ _ _ _); [ring|].
  replace (en q1 b1 * en qb bb * en qa ba)%Qc with (en q1 b1 * en qa ba * en qb bb)%Qc by ring.
  set (r := (/ (en q1 b1 * en qa ba * en qb bb))%Qc). unfold Qcdiv. fold r.
  transitivity (cpi * quarter * n2 qa ba * n2 qb bb * (n1 q1 b1 + 1) * cm q1 qa b1 ba bb * d2 q1 qa b1 ba bb * norm * r * ((half + half) * en q1 b1 - en qa ba - en qb bb))%Qc; [ring|].
  rewrite half_two, <- On. ring.
Qed.
(** exchange of the two states of the pair *)
Lemma plus_exchange q1 b1 q2 b2 b3 b3' e e' : In e (plus q1 q2 b1 b2 b3) -> In e' (plus q2 q1 b2 b1 b3') ->
  en3p q1 q2 b3 = en3p q2 q1 b3' -> bose3p q1 q2 b3 = bose3p q2 q1 b3' -> n1 q1 b1 = n2 q1 b1 -> n1 q2 b2 = n2 q2 b2 ->
  cp q1 q2 b1 b2 b3 = cp q2 q1 b2 b1 b3' -> dp q1 q2 b1 b2 b3 = dp q2 q1 b2 b1 b3' -> evOff e = evOff e' /\ evDiag e = evDiag e'.
Proof.
  intros He He' E3 N3 I1 I2 C D. unfold plusEvent in He, He'. cbv zeta in He, He'.
  destruct (discarded _ _ _ _ _) in He; [destruct He|]. destruct (negb _) in He; [destruct He|]. destruct He as [<-|[]].
  destruct (discarded _ _ _ _ _) in He'; [destruct He'|]. destruct (negb _) in He'; [destruct He'|]. destruct He' as [<-|[]]. unfold evDiag. cbn [evOff evParts]. rewrite !parts1. cbn [fst].
  rewrite <- E3, <- N3, <- C, <- D, <- I1, <- I2. replace (en q2 b2 * en q1 b1 * en3p q1 q2 b3)%Qc with (en q1 b1 * en q2 b2 * en3p q1 q2 b3)%Qc by ring. unfold Qcdiv. split; ring.
Qed.
Lemma minus_exchange q1 b1 q2 b2 b3 b3' e e' : In e (minus q1 q2 b1 b2 b3) -> In e' (minus q2 q1 b2 b1 b3') ->
  en3m q1 q2 b3 = en3m q2 q1 b3' -> bose3m q1 q2 b3 = bose3m q2 q1 b3' -> n1 q1 b1 = n2 q1 b1 -> n1 q2 b2 = n2 q2 b2 ->
  cm q1 q2 b1 b2 b3 = cm q2 q1 b2 b1 b3' -> d1 q1 q2 b1 b2 b3 = d2 q2 q1 b2 b1 b3' -> d2 q1 q2 b1 b2 b3 = d1 q2 q1 b2 b1 b3' -> evOff e = evOff e' /\ evDiag e = evDiag e'.
Proof.
  intros He He' E3 N3 I1 I2 C D D'. unfold minusEvent in He, He'. cbv zeta in He, He'.
  destruct (discarded _ _ _ _ _) in He; [destruct He|]. destruct (negb _ && negb _) in He; [destruct He|]. destruct He as [<-|[]].
  destruct (discarded _ _ _ _ _) in He'; [destruct He'|]. destruct (negb _ && negb _) in He'; [destruct He'|]. destruct He' as [<-|[]]. unfold evDiag. cbn [evOff evParts]. rewrite !parts2. cbn [fst].
  rewrite <- E3, <- N3, <- C, <- D, <- D', <- I1, <- I2. replace (en q2 b2 * en q1 b1 * en3m q1 q2 b3)%Qc with (en q1 b1 * en q2 b2 * en3m q1 q2 b3)%Qc by ring. unfold Qcdiv. split; ring.
Qed.
(** the rate of 1 + 2 -> 3 seen from 1 is that of 3 -> 1 + 2 seen from 3 *)
Lemma reverse q1 b1 q2 b2 q3 b3 ep em : In ep (plus q1 q2 b1 b2 b3) -> In em (minus q3 q1 b3 b1 b2) ->
  en3p q1 q2 b3 = en q3 b3 -> en3m q3 q1 b2 = en q2 b2 -> bose3p q1 q2 b3 = n1 q3 b3 -> bose3m q3 q1 b2 = n2 q2 b2 -> n1 q1 b1 = n2 q1 b1 ->
  cp q1 q2 b1 b2 b3 = cm q3 q1 b3 b1 b2 -> dp q1 q2 b1 b2 b3 = d2 q3 q1 b3 b1 b2 -> ~ (0 < d1 q3 q1 b3 b1 b2)%Qc ->
  (evOff em = - evOff ep)%Qc /\ evDiag em = evDiag ep.
Proof.
  intros Hp Hm E3 E3m N3 N3m NI C D D1. unfold plusEvent in Hp. unfold minusEvent in Hm. cbv zeta in Hp, Hm.
  destruct (discarded _ _ _ _ _) eqn:X1 in Hp; [destruct Hp|]. destruct (negb _) eqn:Y1 in Hp; [destruct Hp|]. destruct Hp as [<-|[]].
  destruct (discarded _ _ _ _ _) eqn:X2 in Hm; [destruct Hm|]. destruct (negb _ && negb _) eqn:Y2 in Hm; [destruct Hm|]. destruct Hm as [<-|[]]. unfold evDiag. cbn [evOff evParts]. rewrite parts1, parts2. cbn [fst].
  apply Bool.negb_false_iff, qltb_lt in Y1. rewrite (clip0 _ D1). rewrite <- D, (clipP _ Y1). rewrite E3, E3m, N3, N3m, <- NI, <- C.
  replace (en q3 b3 * en q1 b1 * en q2 b2)%Qc with (en q1 b1 * en q2 b2 * en q3 b3)%Qc by ring. unfold Qcdiv. split; ring.
Qed.
End Ph.

Lemma isotope_balance G excl idx irrOf rotInv en diso iso bose umk cpi norm cut q1 q2 b1 b2 e :
  In e (isotopeEvent G excl idx irrOf rotInv en diso iso bose umk cpi norm cut q1 q2 b1 b2) -> (evDiag e + evOff e = 0)%Qc.
Proof.
  intro H. unfold isotopeEvent in H. cbv zeta in H. destruct (_ || _ || _ || _); [destruct H|]. destruct H as [<-|[]]. unfold evDiag. cbn [evParts evOff]. rewrite parts1. cbn [fst]. ring.
Qed.
Lemma isotope_exchange G excl idx irrOf rotInv en diso iso bose umk cpi norm cut q1 q2 b1 b2 e e' :
  In e (isotopeEvent G excl idx irrOf rotInv en diso iso bose umk cpi norm cut q1 q2 b1 b2) ->
  In e' (isotopeEvent G excl idx irrOf rotInv en diso iso bose umk cpi norm cut q2 q1 b2 b1) ->
  diso q1 b1 q2 b2 = diso q2 b2 q1 b1 -> iso q1 b1 q2 b2 = iso q2 b2 q1 b1 -> irrOf q1 = q1 -> irrOf q2 = q2 -> evOff e = evOff e'.
Proof.
  intros H H' D I I1 I2. unfold isotopeEvent in H, H'. cbv zeta in H, H'. rewrite I2 in H. rewrite I1 in H'. destruct (_ || _ || _ || _) in H; [destruct H|]. destruct (_ || _ || _ || _) in H'; [destruct H'|].
  destruct H as [<-|[]], H' as [<-|[]]. cbn [evOff]. rewrite <- D, <- I. ring.
Qed.
(** rate of an elastic transition in equilibrium: n(n+1) *)
Lemma isotope_value G excl idx irrOf rotInv en diso iso bose umk cpi norm cut q1 q2 b1 b2 e n :
  In e (isotopeEvent G excl idx irrOf rotInv en diso iso bose umk cpi norm cut q1 q2 b1 b2) ->
  bose (gS2B G (idx q1 b1)) = n -> bose (gS2B G (idx (irrOf q2) b2)) = n ->
  evDiag e = (cpi * half * norm * iso q1 b1 q2 b2 * en q1 b1 * en q2 b2 * diso q1 b1 q2 b2 * (n * (n + 1)))%Qc.
Proof.
  intros H N1 N2. unfold isotopeEvent in H. cbv zeta in H. destruct (_ || _ || _ || _); [destruct H|]. destruct H as [<-|[]]. unfold evDiag. cbn [evParts evOff]. rewrite parts1. cbn [fst]. rewrite N1, N2.
  transitivity (cpi * half * norm * iso q1 b1 q2 b2 * en q1 b1 * en q2 b2 * diso q1 b1 q2 b2 * (n * n + (half + half) * n))%Qc; [ring|]. rewrite half_two. ring.
Qed.

Section El.
Variables (G : grid) (idx : Z -> Z -> Z) (irrOf : Z -> Z) (rotInv : Z -> Z -> Z -> Qc) (en3 : Z -> Z -> Z -> Qc) (cc da db : Z -> Z -> Z -> Z -> Z -> Qc).
Variables (fermi : Z -> Qc) (bose3 symm3 : Z -> Z -> Z -> Qc) (cpi norm cut : Qc).
Notation ev := (electronEvent G idx irrOf rotInv en3 cc da db fermi bose3 symm3 cpi norm cut).
Lemma electron_absorption k1 k2 b1 b2 b3 e u v : In e (ev k1 k2 b1 b2 b3) ->
  db k1 k2 b1 b2 b3 = 0%Qc -> (0 < u)%Qc -> (1 < v)%Qc ->
  fermi (gS2B G (idx (irrOf k2) b2)) = fd (u * v) -> bose3 k1 k2 b3 = be v -> symm3 k1 k2 b3 = halfInvSinh v ->
  (evDiag e * fdRoot u + evOff e * fdRoot (u * v) = 0)%Qc.
Proof.
  intros H D Hu Hv F B S. unfold electronEvent in H. cbv zeta in H. destruct (qltb _ _) in H; [destruct H|]. destruct (negb _ && negb _) in H; [destruct H|]. destruct H as [<-|[]].
  unfold evDiag. cbn [evParts evOff]. rewrite parts1. cbn [fst]. rewrite D, F, B, S. clear D F B S.
  set (K := (cc k1 k2 b1 b2 b3 * norm / en3 k1 k2 b3 * cpi * da k1 k2 b1 b2 b3)%Qc).
  transitivity (K * ((fd (u * v) + be v) * fdRoot u - halfInvSinh v * fdRoot (u * v)))%Qc; [unfold K, Qcdiv; ring|].
  replace ((fd (u * v) + be v) * fdRoot u - halfInvSinh v * fdRoot (u * v))%Qc with 0%Qc; [ring|].
  unfold fd, be, fdRoot, halfInvSinh. symmetry. field. repeat split; apply pos_ne; try apply one_sq_pos. apply sq_one_pos. exact Hv.
Qed.
Lemma electron_emission k1 k2 b1 b2 b3 e u v : In e (ev k1 k2 b1 b2 b3) ->
  da k1 k2 b1 b2 b3 = 0%Qc -> (0 < u)%Qc -> (1 < v)%Qc ->
  fermi (gS2B G (idx (irrOf k2) b2)) = fd u -> bose3 k1 k2 b3 = be v -> symm3 k1 k2 b3 = halfInvSinh v ->
  (evDiag e * fdRoot (u * v) + evOff e * fdRoot u = 0)%Qc.
Proof.
  intros H D Hu Hv F B S. unfold electronEvent in H. cbv zeta in H. destruct (qltb _ _) in H; [destruct H|]. destruct (negb _ && negb _) in H; [destruct H|]. destruct H as [<-|[]].
  unfold evDiag. cbn [evParts evOff]. rewrite parts1. cbn [fst]. rewrite D, F, B, S. clear D F B S.
  set (K := (cc k1 k2 b1 b2 b3 * norm / en3 k1 k2 b3 * cpi * db k1 k2 b1 b2 b3)%Qc).
  transitivity (K * ((1 - fd u + be v) * fdRoot (u * v) - halfInvSinh v * fdRoot u))%Qc; [unfold K, Qcdiv; ring|].
  replace ((1 - fd u + be v) * fdRoot (u * v) - halfInvSinh v * fdRoot u)%Qc with 0%Qc; [ring|].
  unfold fd, be, fdRoot, halfInvSinh. symmetry. field. repeat split; apply pos_ne; try apply one_sq_pos. apply sq_one_pos. exact Hv.
Qed.
End El.

Lemma rankDot_concat x evs i b : 0 <= i < 3 -> qsum (map (fun es => rankDot x es i b) evs) = rankDot x (concat evs) i b.
Proof.
  intro Hi. rewrite (rankDot_sum x (concat evs) i b Hi). induction evs as [|es evs IH]; [reflexivity|]. cbn [map concat]. rewrite map_app, qsum_app, <- IH, <- (rankDot_sum x es i b Hi). reflexivity.
Qed.
Lemma dot_missing excl bnd evs es x i b : Permutation (concat evs) es -> 0 <= i < 3 ->
  flyDot excl bnd evs x i b = if isIn excl b then 0%Qc else
  (fullProduct [] bnd es x i b - qsum (map (inScattering x i) (filter (fun e => evIs1 e =? evIs2Irr e) (from b es))))%Qc.
Proof.
  intros P Hi. unfold flyDot, finishDot. destruct (isIn excl b); [reflexivity|]. rewrite rankDot_concat by exact Hi. rewrite rankDot_sum by exact Hi. unfold fullProduct. cbn [isIn existsb].
  unfold from, rateOut. rewrite (qsum_perm _ _ (Permutation_map _ P)). rewrite !qsum_filter. clear P.
  induction es as [|e es IH]; [unfold qsum; cbn [map fold_right filter]; ring|]. cbn [map filter]. unfold qsum in *. cbn [fold_right]. fold (qsum) in *. rewrite (Z.eqb_sym b).
  destruct (evBte1 e =? b) eqn:E; cbn [map filter fold_right].
  - assert (B : evBte1 e = b) by lia. unfold ite in *. destruct (evIs1 e =? evIs2Irr e) eqn:I; cbn [negb map filter fold_right].
    all: unfold inScattering at 2 3 || unfold inScattering at 2 || idtac. all: rewrite B.
    all: match goal with |- (?a + ?s + ?c = _)%Qc => transitivity (a + (s + c))%Qc; [ring|] end; rewrite IH; unfold inScattering; ring.
  - unfold ite in *. match goal with |- (?a + ?s + ?c = _)%Qc => transitivity (s + c)%Qc; [ring|] end. rewrite IH. ring.
Qed.
