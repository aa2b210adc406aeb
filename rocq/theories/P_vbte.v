(** Property theorems for vectors of populations: C29, C30, C31. *)
From Coq Require Import QArith Qcanon Permutation.
From Verif Require Import Base BaseLemmas M_utilities L_utilities M_matrix S_matrix L_matrix L_matrix2 L_matrix3 L_matrix4 M_vbte S_vbte L_vbte.
Open Scope Z_scope.

(** * C29 *)
Theorem C29_index_maps_inverse : forall v, consistent v ->
  (forall imu it d, 0 <= imu < vMu v -> 0 <= it < vTemp v -> 0 <= d < vDim v ->
     exists r, glob2Loc v imu it d = Ok r /\ 0 <= r < vRows v /\ loc2Glob v r = Ok (imu, it, d)) /\
  (forall r, 0 <= r < vRows v -> exists imu it d, loc2Glob v r = Ok (imu, it, d) /\ glob2Loc v imu it d = Ok r /\
     0 <= imu < vMu v /\ 0 <= it < vTemp v /\ 0 <= d < vDim v).
Proof.
  intros v (Hm & Ht & Hd & _ & Hc & HM). unfold glob2Loc, loc2Glob, vRows in *. rewrite Hc in *. split.
  - intros imu it d H1 H2 H3. apply compress3_roundtrip; try assumption.
  - intros r Hr. rewrite decompress3_ok by (lia || nia). eexists _, _, _. split; [reflexivity|].
    assert (D1 := Z.div_mod r (vTemp v * vDim v) ltac:(nia)). assert (M1 := Z.mod_pos_bound r (vTemp v * vDim v) ltac:(nia)).
    set (a := r / (vTemp v * vDim v)) in *. set (m := r mod (vTemp v * vDim v)) in *.
    assert (Ha : 0 <= a < vMu v) by (split; [apply Z.div_pos; nia|apply Z.div_lt_upper_bound; nia]).
    assert (Hb : 0 <= m / vDim v < vTemp v) by (split; [apply Z.div_pos; lia|apply Z.div_lt_upper_bound; nia]).
    assert (M2 := Z.mod_pos_bound r (vDim v) ltac:(lia)).
    assert (E : r mod vDim v = m mod vDim v). { rewrite D1, (Z.mul_comm (vTemp v)), <- Z.mul_assoc, (Z.mul_comm (vDim v)), Z.add_comm, Z.mod_add by lia. reflexivity. }
    split; [|repeat split; lia]. rewrite compress3_ok by (lia || nia). f_equal. unfold c3. rewrite E. pose proof (Z.div_mod m (vDim v) ltac:(lia)). nia.
Qed.
Print Assumptions C29_index_maps_inverse.
(** +, -, *, / of two vectors of the same shape *)
Theorem C29_elementwise : forall o v w, sameShape v w -> exists v', baseOperator o v w = Ok v' /\ sameShape v' v /\
  forall iCalc d s, inRange v iCalc d s -> vget v' iCalc d s =
    if in_dec Z.eq_dec s (vExcl v) then 0%Qc else
    match o with Sums => vget v iCalc d s + vget w iCalc d s | Diff => vget v iCalc d s - vget w iCalc d s
               | Prod => vget v iCalc d s * vget w iCalc d s | Divs => vget v iCalc d s / vget w iCalc d s end%Qc.
Proof.
  intros o v w H. rewrite base_same by exact H. eexists. split; [reflexivity|]. split; [repeat split|]. intros iCalc d s (Hc & Hd & Hs). unfold vget. cbn [vData withData vDim].
  destruct H as (_ & _ & _ & <- & _). rewrite nth_zrange_rows by (unfold vRows; nia).
  destruct (in_dec Z.eq_dec s (vExcl v)) as [I|I]; destruct (isExcluded v s) eqn:E; try reflexivity.
  - apply isExcluded_In in I. congruence.
  - apply isExcluded_In in E. contradiction.
Qed.
Print Assumptions C29_elementwise.
(** a vector of dimensionality 1 acts on every direction *)
Theorem C29_broadcast : forall o v w, consistent v -> vMu w = vMu v -> vTemp w = vTemp v -> vDim w = 1 -> vCalc w = vCalc v -> vN w = vN v ->
  exists v', baseOperator o v w = Ok v' /\ sameShape v' v /\
  forall iCalc d s, inRange v iCalc d s -> vget v' iCalc d s =
    if in_dec Z.eq_dec s (vExcl v) then 0%Qc else
    match o with Sums => vget v iCalc d s + vget w iCalc 0 s | Diff => vget v iCalc d s - vget w iCalc 0 s
               | Prod => vget v iCalc d s * vget w iCalc 0 s | Divs => vget v iCalc d s / vget w iCalc 0 s end%Qc.
Proof.
  intros o v w H Em Et Ed Ec En. destruct (base_broadcast o v w H Em Et Ed Ec En) as (v' & E & S & G). exists v'. split; [exact E|]. split; [exact S|].
  intros iCalc d s (Hc & Hd & Hs). unfold vget. destruct S as (_ & _ & _ & -> & _). rewrite G by (unfold vRows; nia). rewrite Ed.
  replace ((iCalc * vDim v + d) / vDim v) with (iCalc * 1 + 0) by (rewrite Z.div_add_l by lia; rewrite Z.div_small by lia; lia).
  destruct (in_dec Z.eq_dec s (vExcl v)) as [I|I]; destruct (isExcluded v s) eqn:X; try reflexivity.
  - apply isExcluded_In in I. congruence.
  - apply isExcluded_In in X. contradiction.
Qed.
Print Assumptions C29_broadcast.
Theorem C29_mismatch_stops : forall o v w, vN v <> vN w \/ vCalc v <> vCalc w \/ (vDim v <> vDim w /\ vDim w <> 1) -> baseOperator o v w = Err.
Proof.
  intros o v w H. unfold baseOperator. destruct (Z.eqb_spec (vN v) (vN w)) as [A|A]; [|reflexivity]. cbn [negb]. destruct (Z.eqb_spec (vCalc v) (vCalc w)) as [B|B]; [|reflexivity]. cbn [negb].
  destruct H as [H|[H|[H1 H2]]]; try contradiction. destruct (Z.eqb_spec (vDim v) (vDim w)); [contradiction|]. destruct (Z.eqb_spec (vDim w) 1); [contradiction|]. reflexivity.
Qed.
Print Assumptions C29_mismatch_stops.
Theorem C29_reciprocal : forall v iCalc d s, sameShape (vreciprocal v) v /\
  (vget v iCalc d s = 0%Qc -> vget (vreciprocal v) iCalc d s = 0%Qc) /\
  (vget v iCalc d s <> 0%Qc -> vget (vreciprocal v) iCalc d s * vget v iCalc d s = 1)%Qc /\
  vget (vreciprocal (vreciprocal v)) iCalc d s = vget v iCalc d s.
Proof.
  intros v iCalc d s. split; [repeat split|]. unfold vget, vreciprocal. cbn [vData withData vDim]. set (x := vData v (iCalc * vDim v + d) s).
  destruct (Qc_eq_dec x 0) as [E|N].
  - split; [reflexivity|]. split; [contradiction|]. destruct (Qc_eq_dec 0 0); [symmetry; exact E|contradiction].
  - split; [contradiction|]. split; [intros _; field; exact N|]. destruct (Qc_eq_dec (1 / x) 0) as [E|_].
    + exfalso. assert (K : (1 / x * x = 1)%Qc) by (field; exact N). rewrite E in K. discriminate K.
    + field. split; [exact N|discriminate].
Qed.
Print Assumptions C29_reciprocal.
Theorem C29_scalings : forall v iCalc d s c, vget (vscale c v) iCalc d s = (vget v iCalc d s * c)%Qc /\ vget (vneg v) iCalc d s = (- vget v iCalc d s)%Qc /\
  forall m, vDim v = 3 -> inRange v iCalc d s -> exists v', vscaleCalcs v (vCalc v) 3 m = Ok v' /\ sameShape v' v /\ vget v' iCalc d s = (vget v iCalc d s * m iCalc d)%Qc.
Proof.
  intros v iCalc d s c. split; [reflexivity|]. split; [reflexivity|]. intros m H3 (Hc & Hd & Hs). unfold vscaleCalcs. rewrite Z.eqb_refl, H3. cbn. eexists. split; [reflexivity|]. split; [repeat split|].
  unfold vget. cbn [vData withData vDim]. rewrite H3 in *. rewrite Z.div_add_l by lia. rewrite Z.div_small by lia. rewrite Z.add_0_r. rewrite Z.add_comm, Z.mod_add by lia. rewrite Z.mod_small by lia. reflexivity.
Qed.
Print Assumptions C29_scalings.
(** canonical populations and back *)
Theorem C29_canonical_round_trip : forall v pop, vDim v = 3 -> (forall iCalc s, pop iCalc s <> 0%Qc) ->
  exists p w, canonical2Population pop v = Ok p /\ population2Canonical false pop p = Ok w /\ sameShape w v /\ forall iCalc d s, inRange v iCalc d s ->
  vget p iCalc d s = (vget v iCalc d s * pop iCalc s)%Qc /\ vget w iCalc d s = vget v iCalc d s.
Proof.
  intros v pop H3 Hp. unfold canonical2Population, population2Canonical. rewrite H3. cbn. eexists _, _. split; [reflexivity|]. cbn [vDim withData]. rewrite H3. cbn. split; [reflexivity|].
  split; [repeat split|]. intros iCalc d s (Hc & Hd & Hs). unfold vget. cbn [vData withData vDim]. rewrite H3 in *. rewrite Z.div_add_l by lia. rewrite Z.div_small by lia. rewrite Z.add_0_r.
  split; [reflexivity|]. field. apply Hp.
Qed.
Print Assumptions C29_canonical_round_trip.
Definition vexample (calcs mus temps dim n : Z) (excl : list Z) (f : Z -> Z -> Z) : vbte :=
  {| vCalc := calcs; vMu := mus; vTemp := temps; vDim := dim; vN := n; vExcl := excl; vData := fun r s => Q2Qc (inject_Z (f r s)) |}.
Example C29_ex : consistent (vexample 6 2 3 3 5 [0] (fun r s => r + s)) /\
  exists v', baseOperator Prod (vexample 6 2 3 3 5 [0] (fun r s => r + s)) (vexample 6 2 3 1 5 [0] (fun r s => r)) = Ok v' /\ this (vget v' 4 1 2) = 60%Q.
Proof. split; [unfold consistent, vRows, INT_MAX; cbn; lia|]. eexists. split; reflexivity. Qed.

(** a new vector is zero; for phonons it leaves out the acoustic states at Gamma, for electrons nothing *)
Theorem C29_new_vector : forall calcs mus temps dim n isPhonon acoustic,
  (dim <= 0 -> newVector calcs mus temps dim n isPhonon acoustic = Err) /\
  (0 < dim -> exists v, newVector calcs mus temps dim n isPhonon acoustic = Ok v /\ (forall iBte, In iBte (vExcl v) <-> isPhonon = true /\ 0 <= iBte < n /\ acoustic iBte = true) /\
     vCalc v = calcs /\ vMu v = mus /\ vTemp v = temps /\ vDim v = dim /\ vN v = n /\ forall iCalc iDim iState, vget v iCalc iDim iState = 0%Qc).
Proof.
  intros calcs mus temps dim n isPhonon acoustic. unfold newVector. split; intro h.
  - replace (dim <=? 0) with true by lia. reflexivity.
  - replace (dim <=? 0) with false by lia. eexists. split; [reflexivity|]. split; [|repeat split; reflexivity]. intro i. cbn [vExcl]. destruct isPhonon.
    + rewrite filter_In, in_zrange. split; [intros (a & b); repeat split; (lia || exact b)|intros (_ & a & b); split; [lia|exact b]].
    + split; [intros []|intros (a & _); discriminate].
Qed.
Print Assumptions C29_new_vector.
(** * C30 *)
Theorem C30_vector_times_matrix : forall L (F : Z -> Z -> Qc) v threads, validLayout L -> vCalc v = 1 -> 0 <= vDim v -> lRows L = vN v -> lCols L = vN v ->
  (forall p, In p (processes L) -> Permutation (concat (threads p)) (getAllLocalStates L p)) ->
  exists v', timesMatrix L (map (fun p => (p, map (fun t => F (fst t) (snd t)) (getAllLocalStates L p), threads p)) (processes L)) v = Ok v' /\ sameShape v' v /\
  forall d j, 0 <= d < vDim v -> 0 <= j < vN v -> vget v' 0 d j = sumTo (vN v) (fun i => vget v 0 d i * F i j)%Qc.
Proof.
  intros L F v threads HL Hc Hd Hr Hcol Hs. destruct (timesMatrix_ok L F v threads HL Hc Hd Hr Hcol Hs) as (v' & E & S & G). exists v'. split; [exact E|]. split; [exact S|].
  intros d j Hd' Hj. unfold vget. rewrite !Z.mul_0_l, !Z.add_0_l. apply G; [unfold vRows; rewrite Hc; lia|exact Hj].
Qed.
Print Assumptions C30_vector_times_matrix.
Theorem C30_misaligned_stops : forall L ranks v, vRows v <> vDim v \/ lRows L <> vN v -> timesMatrix L ranks v = Err.
Proof.
  intros L ranks v H. unfold timesMatrix. destruct (Z.eqb_spec (vRows v) (vDim v)); [|reflexivity]. destruct (Z.eqb_spec (lRows L) (vN v)); [|reflexivity]. destruct H; contradiction.
Qed.
Print Assumptions C30_misaligned_stops.
(** the same operation of VectorEPA keeps the last element of each row instead of the sum *)
Theorem C30_epa_matrix_refuted : exists L (F : Z -> Z -> Qc) x f, mkLayout 1 2 2 0 0 0 0 = Ok L /\ validLayout L /\
  epaTimesMatrix L (map (fun p => (p, map (fun t => F (fst t) (snd t)) (getAllLocalStates L p))) (processes L)) x = Ok f /\
  f 0 <> sumTo 2 (fun j => F 0%Z j * x j)%Qc.
Proof.
  eexists _, (fun _ _ => 1%Qc), (fun _ => 1%Qc), _. split; [reflexivity|]. split; [unfold validLayout; cbn; lia|]. split; [reflexivity|]. vm_compute. discriminate.
Qed.
Print Assumptions C30_epa_matrix_refuted.
Example C30_ex : exists L v', mkLayout 4 3 3 0 0 0 0 = Ok L /\ validLayout L /\
  timesMatrix L (map (fun p => (p, map (fun t => Q2Qc (inject_Z (fst t + 10 * snd t))) (getAllLocalStates L p), [getAllLocalStates L p; []])) (processes L)) (vexample 1 1 1 3 3 [] (fun r s => r + s)) = Ok v' /\
  map (fun j => this (vget v' 0 1 j)) [0; 1; 2] = [8; 68; 128]%Q.
Proof. eexists _, _. split; [reflexivity|]. split; [unfold validLayout; cbn; repeat split; lia|]. split; [reflexivity|]. vm_compute. reflexivity. Qed.

(** * C31 *)
(** the index of the state, not of the BTE vector, is searched among the excluded modes: an excluded mode counts, another one is lost *)
Theorem C31_exclusion_refuted : exists stateToBte star ranks v f, (forall is, In is (concat (concat ranks)) -> length (star is) = 1%nat) /\ vExcl v = [1] /\
  map stateToBte (concat (concat ranks)) = [0; 1; 2] /\
  vdot stateToBte star ranks v v = Ok f /\ f 0 0 = Q2Qc 2 /\ vget v 0 0 1 <> 0%Qc /\
  (vget v 0 0 0 * vget v 0 0 0 + vget v 0 0 2 * vget v 0 0 2)%Qc = Q2Qc 1.
Proof.
  exists (fun is => if is =? 0 then 0 else if is =? 4 then 1 else 2), (fun _ => [fun i j => if i =? j then 1%Qc else 0%Qc]), [[[0; 4; 1]]], (vexample 1 1 1 3 3 [1] (fun r s => if s =? 2 then 0 else 1)).
  eexists. split; [reflexivity|]. split; [reflexivity|]. split; [reflexivity|]. split; [reflexivity|]. split; [apply Qc_is_canon; vm_compute; reflexivity|].
  split; [vm_compute; discriminate|]. apply Qc_is_canon. vm_compute. reflexivity.
Qed.
Print Assumptions C31_exclusion_refuted.
(** if exclusion of a state and of its BTE index agree, e.g. without symmetries or when only the first modes are excluded *)
Theorem C31_dot_partial : forall stateToBte star ranks v w, sameShape v w -> vDim v = 3 ->
  (forall is, In is (concat (concat ranks)) -> isExcluded v is = isExcluded v (stateToBte is)) ->
  (forall is R, In is (concat (concat ranks)) -> In R (star is) -> orthogonal R) ->
  exists f, vdot stateToBte star ranks v w = Ok f /\ forall iCalc,
  (f iCalc 0%Z + f iCalc 1%Z + f iCalc 2%Z)%Qc =
  qsum (map (fun is => times (length (star is)) (dot3 (fun i => vget v iCalc i (stateToBte is)) (fun i => vget w iCalc i (stateToBte is))))
            (filter (fun is => negb (if in_dec Z.eq_dec (stateToBte is) (vExcl v) then true else false)) (concat (concat ranks)))).
Proof.
  intros stateToBte star ranks v w (A & B & C & D & E & F) H3 Hex Ho. unfold vdot, vRows. rewrite A, D, E, !Z.eqb_refl. cbn [negb orb]. rewrite <- D, H3. change (3 =? 3) with true. cbn [negb].
  eexists. split; [reflexivity|]. intro iCalc. cbv beta. rewrite !qsum_concat2. rewrite qsum_add3. revert Hex Ho. generalize (concat (concat ranks)) as l. induction l as [|is l IH]; intros Hex Ho; [reflexivity|].
  specialize (IH (fun x Hx => Hex x (or_intror Hx)) (fun x R Hx => Ho x R (or_intror Hx))).
  cbn [map filter]. unfold qsum at 1. cbn [fold_right]. fold (qsum (map (fun x => (dotState stateToBte star v w iCalc 0 x + dotState stateToBte star v w iCalc 1 x + dotState stateToBte star v w iCalc 2 x)%Qc) l)).
  rewrite IH. unfold dotState. rewrite (Hex is (or_introl eq_refl)).
  destruct (in_dec Z.eq_dec (stateToBte is) (vExcl v)) as [I|I].
  - apply (isExcluded_In v) in I. rewrite I. cbn [negb]. ring.
  - assert (I' : isExcluded v (stateToBte is) = false) by (destruct (isExcluded v (stateToBte is)) eqn:X; [apply isExcluded_In in X; contradiction|reflexivity]).
    rewrite I'. cbn [negb map]. rewrite qsum_add3. unfold qsum at 3. cbn [fold_right]. f_equal. apply qsum_const. intros R HR. apply rotate_dot. apply (Ho is R (or_introl eq_refl) HR).
Qed.
Print Assumptions C31_dot_partial.
(** processes and threads do not matter *)
Theorem C31_schedule_independent : forall stateToBte star ranks ranks' v w f f', Permutation (concat (concat ranks)) (concat (concat ranks')) ->
  vdot stateToBte star ranks v w = Ok f -> vdot stateToBte star ranks' v w = Ok f' -> forall iCalc i, f iCalc i = f' iCalc i.
Proof.
  intros stateToBte star ranks ranks' v w f f' P E E' iCalc i. unfold vdot in *. destruct (_ || _); [discriminate|]. destruct (negb _); [discriminate|]. injection E as <-. injection E' as <-.
  rewrite !qsum_concat2. apply qsum_perm, Permutation_map, P.
Qed.
Print Assumptions C31_schedule_independent.
Example C31_ex : exists f, vdot (fun is => is) (fun _ => [fun i j => if i =? j then 1%Qc else 0%Qc; fun i j => if i =? j then (- (1))%Qc else 0%Qc]) [[[0; 1]]; [[2]; []]]
  (vexample 1 1 1 3 3 [0] (fun r s => r + s)) (vexample 1 1 1 3 3 [0] (fun r s => 1)) = Ok f /\ this (f 0 1 ) = 10%Q /\
  orthogonal (fun i j => if i =? j then (- (1))%Qc else 0%Qc).
Proof.
  eexists. split; [reflexivity|]. split; [vm_compute; reflexivity|]. intros j k Hj Hk. assert (j = 0 \/ j = 1 \/ j = 2) as [->|[->| ->]] by lia; assert (k = 0 \/ k = 1 \/ k = 2) as [->|[->| ->]] by lia; apply Qc_is_canon; reflexivity.
Qed.
