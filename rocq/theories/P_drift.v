(** C144: the driving terms of the transport equation *)
From Coq Require Import Reals Permutation List Lia ZArith Lra.
From Verif Require Import Base BaseLemmas M_mpi S_mpi L_mpi M_bands S_bands L_bands2 M_particle S_particle L_particle M_drift S_drift P_particle P_bands L_drift.
Import ListNotations.
Open Scope Z_scope.

Lemma mapM_image {A} (f : Z -> res A) l r : mapM f l = Ok r -> forall d, map (fun x => match f x with Ok y => y | _ => d end) l = r /\ forall x, In x l -> exists y, f x = Ok y.
Proof.
  revert r. induction l as [|x l IH]; intros r H d; cbn [mapM] in H.
  - injection H as <-. split; [reflexivity|intros x []].
  - destruct (f x) as [y| |] eqn:E; try discriminate. cbn [bind] in H. destruct (mapM f l) as [t| |]; try discriminate. cbn [bind] in H. injection H as <-.
    destruct (IH t eq_refl d) as (M & X). split; [cbn [map]; rewrite E, M; reflexivity|]. intros z [<-|Z]; [eauto|apply X; exact Z].
Qed.
Lemma Nan_or (x : dbl) : (exists v, x = Fin v) \/ (forall v, x <> Fin v). Proof. destruct x; [left; eauto|right; discriminate|right; discriminate]. Qed.

Section Common.
Context (nb irr red2irr : list Z) (k : driftKind) (s : particle) (sym : bool) (calcs : list (R * R)) (energy : Z -> R) (vel : Z -> Z -> R).
Lemma drift_values : Forall (fun n => 0 <= n) nb -> indexMaps irr red2irr (zlen nb) ->
  exists offs aux iter, buildSymmetries nb irr red2irr = Ok (offs, aux) /\ irrStateIterator nb irr = Ok iter /\
  forall size ranks, fits (zlen iter) size -> schedules iter size ranks ->
  exists d, bulkDrift k s sym calcs energy vel (stateToBte nb irr red2irr offs) ranks = Ok d /\
  forall ik ib is iBte iCalc calc i, In ik irr -> isState nb ik ib -> bloch2Comb nb ik ib = Ok is -> stateToBte nb irr red2irr offs is = Ok iBte ->
    zget calcs iCalc = Some calc -> 0 <= i < 3 -> d (iCalc * 3 + i) iBte = dmul (driftFactor k s (energy is) calc sym) (vel is i).
Proof.
  intros HN HI. destruct (C19_irreducible_states_iterator nb irr red2irr HN HI) as (offs & aux & E & iter & Ei & M & In_ & _).
  exists offs, aux, iter. split; [exact E|]. split; [exact Ei|]. intros size ranks F H. pose proof (schedules_perm iter size ranks F H) as P.
  set (s2b := stateToBte nb irr red2irr offs) in *. set (b := fun x => match s2b x with Ok y => y | _ => -1 end).
  destruct (mapM_image s2b iter _ M (-1)) as (Mb & X). fold b in Mb.
  destruct (drift_ok k s sym calcs energy vel s2b b ranks) as (d & Ed & A & _).
  - intros is I. apply (Permutation_in _ P) in I. destruct (X is I) as (y & Y). unfold b. rewrite Y. reflexivity.
  - apply (Permutation_NoDup (l := map b iter)); [apply Permutation_map; symmetry; exact P|]. rewrite Mb. apply zrange_NoDup.
  - exists d. split; [exact Ed|]. intros ik ib is iBte iCalc calc i Hk Hs Hb Hbte Hc Hi.
    assert (I : In is iter) by (apply In_; exists ik, ib; repeat split; assumption).
    assert (Ib : b is = iBte) by (unfold b; rewrite Hbte; reflexivity). rewrite <- Ib.
    assert (R : 0 <= iCalc < zlen calcs).
    { unfold zget in Hc. destruct (Z.ltb_spec iCalc 0); [discriminate|]. assert (Z.to_nat iCalc < length calcs)%nat by (apply nth_error_Some; congruence). unfold zlen. lia. }
    rewrite A; [|apply (Permutation_in _ (Permutation_sym P)); exact I|exact R|exact Hi]. unfold entry. rewrite Hc. reflexivity.
Qed.
End Common.

(** For every number of processes and every order in which threads finish, each process ends with the vector whose entry for a calculation, a
    direction and an irreducible state is the derivative of the population (by temperature for the thermal drift, by energy for the electric one) times
    the velocity of the state. *)
Theorem C144_drift : forall nb irr red2irr k s calcs energy vel, Forall (fun n => 0 <= n) nb -> indexMaps irr red2irr (zlen nb) ->
  exists offs aux iter, buildSymmetries nb irr red2irr = Ok (offs, aux) /\ irrStateIterator nb irr = Ok iter /\
  forall size ranks, fits (zlen iter) size -> schedules iter size ranks ->
  exists d, bulkDrift k s false calcs energy vel (stateToBte nb irr red2irr offs) ranks = Ok d /\
  forall ik ib is iBte iCalc T mu i, In ik irr -> isState nb ik ib -> bloch2Comb nb ik ib = Ok is -> stateToBte nb irr red2irr offs is = Ok iBte ->
    zget calcs iCalc = Some (T, mu) -> 0 <= i < 3 -> regular s (energy is) T mu ->
    exists x, slope k s (energy is) T mu x /\ d (iCalc * 3 + i) iBte = Fin (x * vel is i)%R.
Proof.
  intros nb irr red2irr k s calcs energy vel HN HI. destruct (drift_values nb irr red2irr k s false calcs energy vel HN HI) as (offs & aux & iter & E & Ei & H).
  exists offs, aux, iter. split; [exact E|]. split; [exact Ei|]. intros size ranks F Sc. destruct (H size ranks F Sc) as (d & Ed & A). exists d. split; [exact Ed|].
  intros ik ib is iBte iCalc T mu i Hk Hs Hb Hbte Hc Hi Rg. destruct (slope_ok k s (energy is) T mu Rg) as (x & Sx & Fx). exists x. split; [exact Sx|].
  rewrite (A ik ib is iBte iCalc (T, mu) i Hk Hs Hb Hbte Hc Hi), Fx. reflexivity.
Qed.
Print Assumptions C144_drift.

(** The symmetrized drift, used with the symmetrized scattering matrix, is the drift divided by sqrt(n(n+1)) for phonons, sqrt(f(1-f)) for electrons. *)
Theorem C144_symmetrized : forall nb irr red2irr k s calcs energy vel, Forall (fun n => 0 <= n) nb -> indexMaps irr red2irr (zlen nb) ->
  exists offs aux iter, buildSymmetries nb irr red2irr = Ok (offs, aux) /\ irrStateIterator nb irr = Ok iter /\
  forall size ranks, fits (zlen iter) size -> schedules iter size ranks ->
  exists d, bulkDrift k s true calcs energy vel (stateToBte nb irr red2irr offs) ranks = Ok d /\
  forall ik ib is iBte iCalc T mu i, In ik irr -> isState nb ik ib -> bloch2Comb nb ik ib = Ok is -> stateToBte nb irr red2irr offs is = Ok iBte ->
    zget calcs iCalc = Some (T, mu) -> 0 <= i < 3 -> regular s (energy is) T mu ->
    exists x n y, slope k s (energy is) T mu x /\ getPopulation s (energy is) T mu = Fin n /\ d (iCalc * 3 + i) iBte = Fin y /\
      (y * sqrt (match s with phonon => n * (n + 1) | electron => n * (1 - n) end) = x * vel is i)%R.
Proof.
  intros nb irr red2irr k s calcs energy vel HN HI. destruct (drift_values nb irr red2irr k s true calcs energy vel HN HI) as (offs & aux & iter & E & Ei & H).
  exists offs, aux, iter. split; [exact E|]. split; [exact Ei|]. intros size ranks F Sc. destruct (H size ranks F Sc) as (d & Ed & A). exists d. split; [exact Ed|].
  intros ik ib is iBte iCalc T mu i Hk Hs Hb Hbte Hc Hi Rg. destruct (slope_ok k s (energy is) T mu Rg) as (x & Sx & Fx).
  assert (Pn : exists n, getPopulation s (energy is) T mu = Fin n /\ getPopPopPm1 s (energy is) T mu = Fin (match s with phonon => n * (n + 1) | electron => n * (1 - n) end)%R).
  { destruct Rg as (HT & HP). destruct s; [apply C41_fluctuations_phonons; auto|apply C41_fluctuations_electrons; auto]. }
  destruct Pn as (n & Pn & Pp). destruct (C41_symmetrized_derivatives s (energy is) T mu _ (proj1 Rg) Pp) as (a & a' & D1 & D2 & D3 & D4).
  destruct k; cbn [driftFactor fst snd] in Fx.
  - exists x, n, (a' * vel is i)%R. split; [exact Sx|]. split; [exact Pn|]. split.
    + rewrite (A ik ib is iBte iCalc (T, mu) i Hk Hs Hb Hbte Hc Hi). cbn [driftFactor fst snd]. rewrite D3. reflexivity.
    + rewrite D4 in Fx. injection Fx as <-. ring.
  - exists x, n, (a * vel is i)%R. split; [exact Sx|]. split; [exact Pn|]. split.
    + rewrite (A ik ib is iBte iCalc (T, mu) i Hk Hs Hb Hbte Hc Hi). cbn [driftFactor fst snd]. rewrite D1. reflexivity.
    + rewrite D2 in Fx. injection Fx as <-. ring.
Qed.
Print Assumptions C144_symmetrized.

(** The drift of a symmetric band structure, rotated with the operation that takes the irreducible state to another state, is the drift of that state. *)
Theorem C144_rotation : forall k s e T mu sym (v v' : Z -> R) (S : Z -> Z -> R) i, regular s e T mu ->
  (forall i, 0 <= i < 3 -> v' i = (S i 0%Z * v 0%Z + S i 1%Z * v 1%Z + S i 2%Z * v 2%Z)%R) -> 0 <= i < 3 ->
  exists x0 x1 x2, dmul (driftFactor k s e (T, mu) sym) (v 0) = Fin x0 /\ dmul (driftFactor k s e (T, mu) sym) (v 1) = Fin x1 /\ dmul (driftFactor k s e (T, mu) sym) (v 2) = Fin x2 /\
    dmul (driftFactor k s e (T, mu) sym) (v' i) = Fin (S i 0%Z * x0 + S i 1%Z * x1 + S i 2%Z * x2)%R.
Proof.
  intros k s e T mu sym v v' S i Rg Hv Hi.
  assert (Fx : exists x, driftFactor k s e (T, mu) sym = Fin x).
  { destruct (slope_ok k s e T mu Rg) as (x & _ & Fx). destruct sym; [|eauto]. destruct k; cbn [driftFactor fst snd] in *; unfold getDndt, getDnde in *; destruct (getPopPopPm1 s e T mu); eauto; discriminate. }
  destruct Fx as (x & ->). cbn [dmul]. do 3 eexists. do 3 (split; [reflexivity|]). rewrite Hv by exact Hi. f_equal. ring.
Qed.
Print Assumptions C144_rotation.

(** An acoustic phonon of zero energy has no finite drift, although its vector excludes it from the sums. *)
Theorem C144_gamma_refuted : forall k T v sym, (0 < T)%R -> dmul (driftFactor k phonon 0 (T, 0%R) sym) v = Nan.
Proof.
  intros k T v sym HT. assert (P : getPopPopPm1 phonon 0 T 0 = Inf).
  { unfold getPopPopPm1. rewrite (proj2 (reqb_ne T 0)) by lra. replace ((0 - 0) / 2 / T)%R with 0%R by (field; lra). rewrite sinh_0.
    unfold reqb. destruct (Req_EM_T 0 0); [reflexivity|contradiction]. }
  destruct k; cbn [driftFactor fst snd]; unfold getDndt, getDnde; rewrite P; reflexivity.
Qed.
Print Assumptions C144_gamma_refuted.

(** two wavevectors with one and two bands, no symmetry, two processes, the second of which has its two states in reverse order *)
Example C144_ex : let nb := [1; 2] in let irr := [0; 1] in
  Forall (fun n => 0 <= n) nb /\ indexMaps irr irr (zlen nb) /\ irrStateIterator nb irr = Ok [0; 1; 2] /\ fits 3 2 /\
  schedules [0; 1; 2] 2 [[0]; [2; 1]] /\ regular phonon 1 1 0 /\ regular electron (-1) 1 0.
Proof.
  cbn zeta. split; [repeat constructor; lia|]. split.
  - split; [reflexivity|]. split.
    + intros i Hi. assert (C : i = 0 \/ i = 1) by (cbn in Hi; lia). destruct C as [-> | ->]; [exists 0|exists 1]; cbn; repeat split; lia.
    + intros i Hi. assert (C : i = 0 \/ i = 1) by (cbn in Hi; lia). destruct C as [-> | ->]; [exists 0|exists 1]; cbn; repeat split; lia.
  - split; [reflexivity|]. split; [unfold fits; repeat split; lia|]. split.
    + unfold schedules. change (zrange 0 2) with [0; 1]. constructor; [vm_compute; apply Permutation_refl|]. constructor; [vm_compute; apply perm_swap|constructor].
    + split; split; try lra; intros; try discriminate; lra.
Qed.
