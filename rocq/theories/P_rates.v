(** Property theorems for the transition rates: C94 (conservation laws and symmetry of the rates), C95 (in-scattering between equivalent states). *)
From Coq Require Import QArith Qcanon Permutation.
From Verif Require Import Base BaseLemmas M_matrix S_matrix L_matrix2 M_vbte M_scattering S_scattering L_scattering P_scattering S_rates L_rates.
Open Scope Z_scope.

(** * C94 *)
(** Absorption 1 + a -> b. It is found twice: as the pair (1,a) with third state b, and as the pair (1,b) with third state a. The two contributions together
    do not change the energy, for a smearing that is positive only on the energy shell. *)
Theorem C94_absorption_energy : forall G idx irrOf rotInv en en3p en3m cp cm dp d1 d2 bose bose3p bose3m umk umkm1 umkm2 cpi norm cut same q1 b1 qa ba qb bb,
  en3p q1 qa bb = en qb bb -> en3m q1 qb ba = en qa ba ->
  bose3p q1 qa bb = bose (gS2B G (idx (irrOf qb) bb)) -> bose3m q1 qb ba = bose (gS2B G (idx (irrOf qa) ba)) ->
  cp q1 qa b1 ba bb = cm q1 qb b1 bb ba -> dp q1 qa b1 ba bb = d1 q1 qb b1 bb ba ->
  (0 < dp q1 qa b1 ba bb)%Qc -> (en q1 b1 + en qa ba = en qb bb)%Qc -> (0 < en qa ba)%Qc -> ((0 < d2 q1 qb b1 bb ba)%Qc -> (en qb bb + en qa ba = en q1 b1)%Qc) ->
  (change (plusEvent G idx irrOf rotInv en en3p cp dp bose bose3p umk cpi norm cut same q1 qa b1 ba bb) (en q1 b1) (en qa ba) +
   change (minusEvent G idx irrOf rotInv en en3m cm d1 d2 bose bose3m umkm1 umkm2 cpi norm cut same q1 qb b1 bb ba) (en q1 b1) (en qb bb) = 0)%Qc.
Proof. intros. apply absorption; assumption. Qed.
Print Assumptions C94_absorption_energy.
(** Decay 1 -> a + b, found as the pair (1,a) and as the pair (1,b) *)
Theorem C94_decay_energy : forall G idx irrOf rotInv en en3m cm d1 d2 bose bose3m umkm1 umkm2 cpi norm cut same q1 b1 qa ba qb bb,
  en3m q1 qa bb = en qb bb -> en3m q1 qb ba = en qa ba ->
  bose3m q1 qa bb = bose (gS2B G (idx (irrOf qb) bb)) -> bose3m q1 qb ba = bose (gS2B G (idx (irrOf qa) ba)) ->
  cm q1 qa b1 ba bb = cm q1 qb b1 bb ba -> d2 q1 qa b1 ba bb = d2 q1 qb b1 bb ba ->
  (0 < d2 q1 qa b1 ba bb)%Qc -> (en qa ba + en qb bb = en q1 b1)%Qc -> (0 < en qa ba)%Qc -> (0 < en qb bb)%Qc ->
  ((0 < d1 q1 qa b1 ba bb)%Qc -> (en q1 b1 + en qb bb = en qa ba)%Qc) -> ((0 < d1 q1 qb b1 bb ba)%Qc -> (en q1 b1 + en qa ba = en qb bb)%Qc) ->
  (change (minusEvent G idx irrOf rotInv en en3m cm d1 d2 bose bose3m umkm1 umkm2 cpi norm cut same q1 qa b1 ba bb) (en q1 b1) (en qa ba) +
   change (minusEvent G idx irrOf rotInv en en3m cm d1 d2 bose bose3m umkm1 umkm2 cpi norm cut same q1 qb b1 bb ba) (en q1 b1) (en qb bb) = 0)%Qc.
Proof. intros. apply decay; assumption. Qed.
Print Assumptions C94_decay_energy.
(** Reverse processes have the same rate: 1 + 2 -> 3 seen from 1, and 3 -> 1 + 2 seen from 3 *)
Theorem C94_reverse_process : forall G idx irrOf rotInv en en3p en3m cp cm dp d1 d2 bose bose3p bose3m umk umkm1 umkm2 cpi norm cut same q1 b1 q2 b2 q3 b3 ep em,
  In ep (plusEvent G idx irrOf rotInv en en3p cp dp bose bose3p umk cpi norm cut same q1 q2 b1 b2 b3) ->
  In em (minusEvent G idx irrOf rotInv en en3m cm d1 d2 bose bose3m umkm1 umkm2 cpi norm cut same q3 q1 b3 b1 b2) ->
  en3p q1 q2 b3 = en q3 b3 -> en3m q3 q1 b2 = en q2 b2 ->
  bose3p q1 q2 b3 = bose (gS2B G (idx q3 b3)) -> bose3m q3 q1 b2 = bose (gS2B G (idx (irrOf q2) b2)) -> bose (gS2B G (idx q1 b1)) = bose (gS2B G (idx (irrOf q1) b1)) ->
  cp q1 q2 b1 b2 b3 = cm q3 q1 b3 b1 b2 -> dp q1 q2 b1 b2 b3 = d2 q3 q1 b3 b1 b2 -> ~ (0 < d1 q3 q1 b3 b1 b2)%Qc ->
  (evOff em = - evOff ep)%Qc /\ evDiag em = evDiag ep.
Proof. intros. eapply reverse; eassumption. Qed.
Print Assumptions C94_reverse_process.
(** The two states of a pair can be exchanged: the operator is symmetric *)
Theorem C94_symmetric_rates : forall G idx irrOf rotInv en en3p en3m cp cm dp d1 d2 bose bose3p bose3m umk umkm1 umkm2 cpi norm cut same q1 b1 q2 b2 b3 b3' e e',
  bose (gS2B G (idx q1 b1)) = bose (gS2B G (idx (irrOf q1) b1)) -> bose (gS2B G (idx q2 b2)) = bose (gS2B G (idx (irrOf q2) b2)) ->
  (In e (plusEvent G idx irrOf rotInv en en3p cp dp bose bose3p umk cpi norm cut same q1 q2 b1 b2 b3) ->
   In e' (plusEvent G idx irrOf rotInv en en3p cp dp bose bose3p umk cpi norm cut same q2 q1 b2 b1 b3') ->
   en3p q1 q2 b3 = en3p q2 q1 b3' -> bose3p q1 q2 b3 = bose3p q2 q1 b3' -> cp q1 q2 b1 b2 b3 = cp q2 q1 b2 b1 b3' -> dp q1 q2 b1 b2 b3 = dp q2 q1 b2 b1 b3' ->
   evOff e = evOff e' /\ evDiag e = evDiag e') /\
  (In e (minusEvent G idx irrOf rotInv en en3m cm d1 d2 bose bose3m umkm1 umkm2 cpi norm cut same q1 q2 b1 b2 b3) ->
   In e' (minusEvent G idx irrOf rotInv en en3m cm d1 d2 bose bose3m umkm1 umkm2 cpi norm cut same q2 q1 b2 b1 b3') ->
   en3m q1 q2 b3 = en3m q2 q1 b3' -> bose3m q1 q2 b3 = bose3m q2 q1 b3' -> cm q1 q2 b1 b2 b3 = cm q2 q1 b2 b1 b3' ->
   d1 q1 q2 b1 b2 b3 = d2 q2 q1 b2 b1 b3' -> d2 q1 q2 b1 b2 b3 = d1 q2 q1 b2 b1 b3' ->
   evOff e = evOff e' /\ evDiag e = evDiag e').
Proof. intros. split; intros; [eapply plus_exchange|eapply minus_exchange]; eassumption. Qed.
Print Assumptions C94_symmetric_rates.
(** Isotope scattering moves a phonon from one state to the other: nothing is created, the rate is symmetric, and it is n(n+1) in equilibrium *)
Theorem C94_isotopes : forall G excl idx irrOf rotInv en diso iso bose umk cpi norm cut q1 q2 b1 b2 e,
  In e (isotopeEvent G excl idx irrOf rotInv en diso iso bose umk cpi norm cut q1 q2 b1 b2) ->
  (evDiag e + evOff e = 0)%Qc /\
  (forall e', In e' (isotopeEvent G excl idx irrOf rotInv en diso iso bose umk cpi norm cut q2 q1 b2 b1) ->
    diso q1 b1 q2 b2 = diso q2 b2 q1 b1 -> iso q1 b1 q2 b2 = iso q2 b2 q1 b1 -> irrOf q1 = q1 -> irrOf q2 = q2 -> evOff e = evOff e') /\
  (forall n, bose (gS2B G (idx q1 b1)) = n -> bose (gS2B G (idx (irrOf q2) b2)) = n ->
    evDiag e = (cpi * half * norm * iso q1 b1 q2 b2 * en q1 b1 * en q2 b2 * diso q1 b1 q2 b2 * (n * (n + 1)))%Qc).
Proof.
  intros G excl idx irrOf rotInv en diso iso bose umk cpi norm cut q1 q2 b1 b2 e H. split; [eapply isotope_balance; exact H|]. split.
  - intros e' H' D I I1 I2. eapply isotope_exchange; eassumption.
  - intros n N1 N2. eapply isotope_value; eassumption.
Qed.
Print Assumptions C94_isotopes.
(** Electrons scattered by phonons: no electron is created. The operator is the symmetrised one, so that the vector it must send to zero is the root of f(1-f).
    u = exp((e1 - mu)/2kT) for the lower state, v = exp(w/2kT) for the phonon. *)
Theorem C94_electron_number : forall G idx irrOf rotInv en3 cc da db fermi bose3 symm3 cpi norm cut k1 k2 b1 b2 b3 e u v,
  In e (electronEvent G idx irrOf rotInv en3 cc da db fermi bose3 symm3 cpi norm cut k1 k2 b1 b2 b3) -> (0 < u)%Qc -> (1 < v)%Qc ->
  bose3 k1 k2 b3 = be v -> symm3 k1 k2 b3 = halfInvSinh v ->
  (db k1 k2 b1 b2 b3 = 0%Qc -> fermi (gS2B G (idx (irrOf k2) b2)) = fd (u * v) -> (evDiag e * fdRoot u + evOff e * fdRoot (u * v) = 0)%Qc) /\
  (da k1 k2 b1 b2 b3 = 0%Qc -> fermi (gS2B G (idx (irrOf k2) b2)) = fd u -> (evDiag e * fdRoot (u * v) + evOff e * fdRoot u = 0)%Qc).
Proof. intros. split; intros; [eapply electron_absorption|eapply electron_emission]; eassumption. Qed.
Print Assumptions C94_electron_number.

(** three phonons with energies 1, 2, 3 and populations 7, 5, 2 *)
Definition rG : grid := {| gN := 3; gPts := 3; gIrr := [0; 1; 2]; gStar := fun q => [q]; gB2S := fun b => b; gS2B := fun s => s; gPoint := fun s => s |}.
Definition rOne (_ _ _ _ _ : Z) : Qc := 1%Qc.
Definition rZero (_ _ _ _ _ : Z) : Qc := 0%Qc.
Definition rBose (b : Z) : Qc := if b =? 0 then q 7 else if b =? 1 then q 5 else q 2.
Definition rId (_ i j : Z) : Qc := if i =? j then 1%Qc else 0%Qc.
Example C94_ex :
  (* 0 + 1 -> 2 *)
  map evOff (plusEvent rG (fun p _ => p) (fun p => p) rId (fun p _ => q (p + 1)) (fun _ _ _ => q 3) rOne rOne rBose (fun _ _ _ => q 2) (fun _ _ => false) 1%Qc 1%Qc 0%Qc true 0 1 0 0 0) = [(Q2Qc (35 # 8))%Qc] /\
  map evOff (minusEvent rG (fun p _ => p) (fun p => p) rId (fun p _ => q (p + 1)) (fun _ _ _ => q 2) rOne rOne rZero rBose (fun _ _ _ => q 5) (fun _ _ => false) (fun _ _ => false) 1%Qc 1%Qc 0%Qc true 0 2 0 0 0) = [(Q2Qc (-35 # 8))%Qc] /\
  (* 2 -> 0 + 1, seen from 2 *)
  map evOff (minusEvent rG (fun p _ => p) (fun p => p) rId (fun p _ => q (p + 1)) (fun _ _ _ => q 2) rOne rZero rOne rBose (fun _ _ _ => q 5) (fun _ _ => false) (fun _ _ => false) 1%Qc 1%Qc 0%Qc true 2 0 0 0 0) = [(Q2Qc (-35 # 8))%Qc] /\
  (* an electron of state 0 that absorbs a phonon, u = 1, v = 2 *)
  map (fun e => (evDiag e * fdRoot 1 + evOff e * fdRoot (q 2))%Qc)
    (electronEvent rG (fun p _ => p) (fun p => p) rId (fun _ _ _ => 1%Qc) rOne rOne rZero (fun _ => fd (q 2)) (fun _ _ _ => be (q 2)) (fun _ _ _ => halfInvSinh (q 2)) 1%Qc 1%Qc 0%Qc 0 1 0 0 0) = [0%Qc] /\
  map evOff (electronEvent rG (fun p _ => p) (fun p => p) rId (fun _ _ _ => 1%Qc) rOne rOne rZero (fun _ => fd (q 2)) (fun _ _ _ => be (q 2)) (fun _ _ _ => halfInvSinh (q 2)) 1%Qc 1%Qc 0%Qc 0 1 0 0 0) = [(Q2Qc (-2 # 3))%Qc].
Proof. repeat split; apply (f_equal (fun x => [x])); apply Qc_is_canon; vm_compute; reflexivity. Qed.

(** * C95 *)
(** What the product computes, for any division of the transitions over the processes: the linearised operator without the in-scattering
    from the images of the state under the symmetries *)
Theorem C95_product_partial : forall excl bnd evs es x i b, Permutation (concat evs) es -> 0 <= i < 3 ->
  flyDot excl bnd evs x i b = if isIn excl b then 0%Qc else
  (fullProduct [] bnd es x i b - qsum (map (inScattering x i) (filter (fun e => evIs1 e =? evIs2Irr e) (from b es))))%Qc.
Proof. intros. apply dot_missing; assumption. Qed.
Print Assumptions C95_product_partial.
(** A run with symmetries gives the product of the run without them when no transition connects two equivalent states *)
Theorem C95_symmetries_partial : forall bnd bnd' evs es evs' es' x x' b b', Permutation (concat evs) es -> Permutation (concat evs') es' ->
  Forall2 (sameTransition x x') (from b es) (from b' es') -> (forall i, 0 <= i < 3 -> x i b = x' i b') -> bnd b = bnd' b' ->
  (forall e, In e (from b es) -> ~ withinStar e) -> (forall e, In e (from b' es') -> ~ withinStar e) ->
  forall i, 0 <= i < 3 -> flyDot [] bnd evs x i b = flyDot [] bnd' evs' x' i b'.
Proof.
  intros bnd bnd' evs es evs' es' x x' b b' P P' F X B W W' i Hi. rewrite (dot_missing [] bnd evs es x i b P Hi), (dot_missing [] bnd' evs' es' x' i b' P' Hi). cbn [isIn existsb].
  assert (E : forall l, (forall e, In e l -> ~ withinStar e) -> filter (fun e => evIs1 e =? evIs2Irr e) l = []).
  { induction l as [|e l IH]; intro H; [reflexivity|]. cbn [filter]. destruct (evIs1 e =? evIs2Irr e) eqn:Q; [exfalso; apply (H e (or_introl eq_refl)); unfold withinStar; lia|]. apply IH. intros e' He'. apply H. right. exact He'. }
  rewrite (E _ W), (E _ W'). unfold fullProduct. cbn [isIn existsb]. unfold rateOut. fold (from b es). fold (from b' es'). rewrite (X i Hi), B.
  assert (S1 : qsum (map evDiag (from b es)) = qsum (map evDiag (from b' es'))).
  { induction F as [|e e' l l' [D _] F IH]; [reflexivity|]. cbn [map]. unfold qsum in *. cbn [fold_right]. rewrite D, IH; [reflexivity| |]; intros a Ha; [apply W|apply W']; right; exact Ha. }
  assert (S2 : qsum (map (inScattering x i) (from b es)) = qsum (map (inScattering x' i) (from b' es'))).
  { clear S1. induction F as [|e e' l l' [_ D] F IH]; [reflexivity|]. cbn [map]. unfold qsum in *. cbn [fold_right]. rewrite (D i Hi), IH; [reflexivity| |]; intros a Ha; [apply W|apply W']; right; exact Ha. }
  rewrite S1, S2. reflexivity.
Qed.
Print Assumptions C95_symmetries_partial.

(** Two points, -k and k, one band, isotope scattering between them. Whole grid: both are irreducible; with the inversion, only point 0 is. *)
Definition gWhole : grid := {| gN := 2; gPts := 2; gIrr := [0; 1]; gStar := fun p => [p]; gB2S := fun b => b; gS2B := fun s => s; gPoint := fun s => s |}.
Definition gInv : grid := {| gN := 1; gPts := 2; gIrr := [0]; gStar := fun _ => [0; 1]; gB2S := fun b => b; gS2B := fun s => s; gPoint := fun s => s |}.
Definition isoW : Z -> Z -> list event := isotopes gWhole [] (fun _ => 1) (fun p _ => p) (fun p => p) rId (fun _ _ => 1%Qc) (fun q1 _ q2 _ => if q1 =? q2 then 0%Qc else 1%Qc) (fun _ _ _ _ => 1%Qc) (fun _ => 1%Qc) (fun _ _ => false) 1%Qc 1%Qc 0%Qc.
Definition isoI : Z -> Z -> list event := isotopes gInv [] (fun _ => 1) (fun p _ => p) (fun _ => 0) (fun p i j => if i =? j then if p =? 1 then (q (-1)) else 1%Qc else 0%Qc) (fun _ _ => 1%Qc) (fun q1 _ q2 _ => if q1 =? q2 then 0%Qc else 1%Qc) (fun _ _ _ _ => 1%Qc) (fun _ => 1%Qc) (fun _ _ => false) 1%Qc 1%Qc 0%Qc.
Definition xW (i b : Z) : Qc := if i =? 0 then if b =? 0 then 1%Qc else (q (-1)) else 0%Qc.
Definition xI (i b : Z) : Qc := if i =? 0 then 1%Qc else 0%Qc.
(** The same transitions, the same populations: the products differ by a factor 2 *)
Theorem C95_symmetries_refuted :
  goodGrid gWhole /\ goodGrid gInv /\ Forall2 (sameTransition xW xI) (from 0 (allEvents gWhole isoW)) (from 0 (allEvents gInv isoI)) /\
  (forall i, 0 <= i < 3 -> xW i 0 = xI i 0) /\
  flyDot [] (fun _ => 0%Qc) [allEvents gWhole isoW] xW 0 0 = q 2 /\ flyDot [] (fun _ => 0%Qc) [allEvents gInv isoI] xI 0 0 = q 1 /\
  linewidthSpec [] (fun _ => 0%Qc) (allEvents gWhole isoW) 0 = linewidthSpec [] (fun _ => 0%Qc) (allEvents gInv isoI) 0.
Proof.
  split. { unfold goodGrid. cbn. split; [lia|]. split; [lia|]. split; [repeat constructor; cbn; lia|]. split; [apply Permutation_refl|]. split; [intros p [<-|[<-|[]]]; cbn; tauto|]. intros b Hb. lia. }
  split. { unfold goodGrid. cbn. split; [lia|]. split; [lia|]. split; [repeat constructor; cbn; lia|]. split; [apply Permutation_refl|]. split; [intros p [<-|[]]; cbn; tauto|]. intros b Hb. lia. }
  split.
  { change (from 0 (allEvents gWhole isoW)) with (isoW 0 0 ++ isoW 0 1). change (from 0 (allEvents gInv isoI)) with (isoI 0 0 ++ isoI 0 1).
    assert (K : forall i, 0 <= i < 3 -> i = 0 \/ i = 1 \/ i = 2) by (intros; lia).
    repeat (constructor; [split; [apply Qc_is_canon; vm_compute; reflexivity|intros i Hi; apply K in Hi; destruct Hi as [-> | [-> | ->]]; apply Qc_is_canon; vm_compute; reflexivity]|]). constructor. }
  split. { intros i Hi. unfold xW, xI. destruct (i =? 0); reflexivity. }
  repeat split; apply Qc_is_canon; vm_compute; reflexivity.
Qed.
Print Assumptions C95_symmetries_refuted.
(** transitions 0 -> 1 and 0 -> 2 on three points *)
Example C95_ex : flyDot [] (fun _ => 0%Qc) [exEvents 0 0 ++ exEvents 0 1; exEvents 0 2] exX 0 0 =
  (fullProduct [] (fun _ => 0%Qc) (exEvents 0 0 ++ exEvents 0 1 ++ exEvents 0 2) exX 0 0 - qsum (map (inScattering exX 0) (exEvents 0 0)))%Qc.
Proof. apply Qc_is_canon. vm_compute. reflexivity. Qed.
