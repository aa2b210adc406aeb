(** C146: construction of a crystal; C147: the periodic table *)
From Coq Require Import Reals QArith String Ascii List Lia ZArith Lra.
From Verif Require Import Base BaseLemmas M_points M_particle M_context L_context L_mpi L_xml M_crystal S_crystal.
Import ListNotations.
Open Scope Z_scope.

(** ** periodic table *)
Definition wfTable (t : list element) : Prop := map symbol t = map symbol elements /\ map atomicNumber t = map atomicNumber elements.
Lemma wf_elements : wfTable elements. Proof. split; reflexivity. Qed.
Lemma numbers : map atomicNumber elements = zrange 1 109. Proof. vm_compute. reflexivity. Qed.

Lemma find_ext : forall l l' s, map symbol l = map symbol l' -> map atomicNumber l = map atomicNumber l' -> findElement l s = findElement l' s.
Proof.
  induction l as [|e l IH]; intros [|e' l'] s H N; cbn in *; try discriminate; [reflexivity|].
  injection H as H1 H2. injection N as N1 N2. rewrite H1, N1, (IH l' s H2 N2). reflexivity.
Qed.
Lemma find_at : forall l k s i, map atomicNumber l = zrange (k + 1) (zlen l) -> findElement l s = Ok i -> 0 <= i - k /\ exists e, zget l (i - k) = Some e /\ symbol e = s.
Proof.
  induction l as [|e l IH]; intros k s i N F; cbn [findElement] in F; [discriminate|].
  assert (N' : map atomicNumber (e :: l) = (k + 1) :: zrange (k + 1 + 1) (zlen l)).
  { rewrite N. unfold zrange, zlen. cbn [length]. rewrite !Nat2Z.id. cbn [seq map]. rewrite <- seq_shift, map_map. f_equal; [lia|]. apply map_ext. intros j. lia. }
  cbn [map] in N'. injection N' as N1 N2. destruct (streq (symbol e) s) eqn:E.
  - injection F as <-. apply streq_eq in E. replace (atomicNumber e - 1 - k) with 0 by lia. split; [lia|]. exists e. split; [reflexivity|exact E].
  - destruct (IH (k + 1) s i N2 F) as (G & e' & Z1 & Z2). split; [lia|]. exists e'. split; [|exact Z2]. rewrite zget_consS by lia. replace (i - k - 1) with (i - (k + 1)) by lia. exact Z1.
Qed.
Lemma find_total l s : match findElement l s with Ok _ => exists e, In e l /\ symbol e = s | Err => forall e, In e l -> symbol e <> s | UB => False end.
Proof.
  induction l as [|e l IH]; cbn [findElement]; [intros e []|]. destruct (streq (symbol e) s) eqn:E.
  - apply streq_eq in E. exists e. split; [left; reflexivity|exact E].
  - apply streq_neq in E. destruct (findElement l s); [destruct IH as (e' & I & H); exists e'; split; [right; exact I|exact H]| |exact IH].
    intros e' [-> | I]; [exact E|apply IH; exact I].
Qed.
Lemma wf_find t s : wfTable t -> findElement t s = findElement elements s.
Proof. intros [H N]. apply find_ext; assumption. Qed.
Lemma wf_len t : wfTable t -> zlen t = 109.
Proof. intros [H _]. unfold zlen. rewrite <- (map_length symbol), H. reflexivity. Qed.
Lemma wf_at t s i : wfTable t -> findElement t s = Ok i -> exists e, eltAt t i = Ok e /\ zget t i = Some e /\ symbol e = s.
Proof.
  intros W F. destruct (find_at t 0 s i) as (_ & e & Z1 & Z2); [rewrite (wf_len t W); destruct W as [_ ->]; exact numbers|exact F|].
  rewrite Z.sub_0_r in Z1. exists e. unfold eltAt. rewrite Z1. repeat split. exact Z2.
Qed.
Fixpoint nodupb (l : list str) : bool := match l with [] => true | a :: r => negb (existsb (streq a) r) && nodupb r end.
Lemma nodupb_ok l : nodupb l = true -> NoDup l.
Proof.
  induction l as [|a l IH]; cbn; intros H; constructor; apply andb_prop in H; destruct H as [H1 H2]; [|apply IH; exact H2].
  intros I. assert (existsb (streq a) l = true) by (apply existsb_exists; exists a; split; [exact I|apply streq_refl]). rewrite H in H1. discriminate.
Qed.
Lemma symbols_nodup : NoDup (map symbol elements).
Proof. apply nodupb_ok. vm_compute. reflexivity. Qed.
Lemma nodup_inj {A B} (f : A -> B) l : NoDup (map f l) -> forall x y, In x l -> In y l -> f x = f y -> x = y.
Proof.
  induction l as [|a l IH]; cbn; intros N x y X Y E; [destruct X|]. inversion N as [|? ? N1 N2]; subst.
  destruct X as [-> | X]; destruct Y as [-> | Y]; [reflexivity| | |apply IH; assumption]; exfalso; apply N1; [rewrite E|rewrite <- E]; apply in_map; assumption.
Qed.
(** what is stored about s in a well-formed table *)
Lemma wf_get t s e : wfTable t -> elementOf s e -> exists e', In e' t /\ symbol e' = s /\ atomicNumber e' = atomicNumber e /\
  getMass t s = Ok (eMass e') /\ getMassVariance t s = Ok (eVariance e') /\ getIonicCharge t s = Ok (atomicNumber e') /\ findElement t s = Ok (atomicNumber e' - 1) /\
  eltAt t (atomicNumber e' - 1) = Ok e'.
Proof.
  intros W [I E]. pose proof (find_total elements s) as T. rewrite <- (wf_find t s W) in T. destruct (findElement t s) as [i| |] eqn:F; [|destruct (T e I E)|destruct T].
  destruct (wf_at t s i W F) as (e' & G & Z1 & Z2).
  destruct (wf_at elements s i wf_elements) as (e0 & _ & Y1 & Y2); [rewrite <- (wf_find t s W); exact F|].
  assert (e0 = e) by (apply (nodup_inj symbol elements symbols_nodup); [eapply zget_in; exact Y1|exact I|congruence]). subst e0.
  assert (An : atomicNumber e' = i + 1 /\ atomicNumber e = i + 1).
  { assert (X : forall t' x, wfTable t' -> zget t' i = Some x -> atomicNumber x = i + 1).
    { intros t' x W' Z. assert (0 <= i < zlen t').
      { unfold zget in Z. destruct (i <? 0) eqn:L; [discriminate|]. assert (nth_error t' (Z.to_nat i) <> None) by congruence. apply nth_error_Some in H. unfold zlen. lia. }
      assert (Q : zget (map atomicNumber t') i = Some (atomicNumber x)) by (rewrite zget_map, Z; reflexivity).
      destruct W' as [W0 W1]. rewrite W1, numbers in Q. rewrite (wf_len t' (conj W0 W1)) in H. rewrite zget_zrange in Q by lia. assert (1 + i = atomicNumber x) by congruence. lia. }
    split; [apply (X t e' W Z1)|apply (X elements e wf_elements Y1)]. }
  destruct An as [An1 An2]. exists e'. unfold getMass, getMassVariance, getIonicCharge. rewrite F. cbn [bind]. rewrite G. cbn [bind].
  replace (atomicNumber e' - 1) with i by lia. repeat split; try congruence. eapply zget_in. exact Z1.
Qed.
Lemma unknown t s : wfTable t -> (forall e, ~ elementOf s e) -> findElement t s = Err.
Proof.
  intros W U. rewrite (wf_find t s W). pose proof (find_total elements s) as T. destruct (findElement elements s); [|reflexivity|destruct T].
  destruct T as (e & I & E). destruct (U e (conj I E)).
Qed.
Lemma known_dec s : (exists e, elementOf s e) \/ forall e, ~ elementOf s e.
Proof.
  pose proof (find_total elements s) as T. destruct (findElement elements s); [left; destruct T as (e & I & E); exists e; split; assumption| |destruct T].
  right. intros e [I E]. exact (T e I E).
Qed.
Theorem C147_lookup : forall s,
  (exists e, elementOf s e /\ (forall e', elementOf s e' -> e' = e) /\ getMass elements s = Ok (eMass e) /\ getMassVariance elements s = Ok (eVariance e) /\
             getIonicCharge elements s = Ok (atomicNumber e)) \/
  ((forall e, ~ elementOf s e) /\ getMass elements s = Err /\ getMassVariance elements s = Err /\ getIonicCharge elements s = Err).
Proof.
  intros s. destruct (known_dec s) as [(e & K) | U]; [left|right].
  - exists e. destruct (wf_get elements s e wf_elements K) as (e' & I & E & N & G1 & G2 & G3 & _).
    assert (e' = e) by (apply (nodup_inj symbol elements symbols_nodup); [exact I|apply K|rewrite E; symmetry; apply K]). subst e'.
    repeat split; try assumption; try apply K. intros e' [I' E']. apply (nodup_inj symbol elements symbols_nodup); [exact I'|exact I|congruence].
  - split; [exact U|]. unfold getMass, getMassVariance, getIonicCharge. rewrite (unknown elements s wf_elements U). repeat split.
Qed.
Print Assumptions C147_lookup.
Example C147_lookup_ex : getMass elements (str! "Si") = Ok (28085 # 1000)%Q /\ getIonicCharge elements (str! "Si") = Ok 14 /\ getMass elements (str! "si") = Err.
Proof. vm_compute. repeat split. Qed.

Lemma map_zupd {A B} (f : A -> B) l i v e : zget l i = Some e -> f v = f e -> map f (zupd l i v) = map f l.
Proof.
  unfold zget, zupd. destruct (i <? 0); [discriminate|]. generalize (Z.to_nat i). clear i. intros n. revert l. induction n as [|n IH]; intros [|a l] H E; cbn in *; try discriminate.
  - injection H as ->. rewrite E. reflexivity.
  - rewrite (IH l H E). reflexivity.
Qed.
(** one setting on the element of symbol s *)
Lemma wf_set t s x e o : wfTable t -> elementOf s e -> o = SetMass s x \/ o = SetVariance s x -> exists t', applySetting t o = Ok t' /\ wfTable t' /\
  forall s2 e2, elementOf s2 e2 ->
    getMass t' s2 = (match o with SetMass _ _ => if streq s s2 then Ok x else getMass t s2 | _ => getMass t s2 end) /\
    getMassVariance t' s2 = (match o with SetVariance _ _ => if streq s s2 then Ok x else getMassVariance t s2 | _ => getMassVariance t s2 end).
Proof.
  intros W K O. destruct (wf_get t s e W K) as (e' & I & E & N & _ & _ & _ & F & G).
  assert (Zg : zget t (atomicNumber e' - 1) = Some e') by (unfold eltAt in G; destruct (zget t (atomicNumber e' - 1)); [injection G as ->; reflexivity|discriminate]).
  assert (Rg : 0 <= atomicNumber e' - 1 < zlen t).
  { unfold zget in Zg. destruct (atomicNumber e' - 1 <? 0) eqn:L; [discriminate|]. assert (nth_error t (Z.to_nat (atomicNumber e' - 1)) <> None) by congruence. apply nth_error_Some in H. unfold zlen. lia. }
  set (v := match o with SetMass _ _ => Elt (symbol e') (atomicNumber e') x (eVariance e') | _ => Elt (symbol e') (atomicNumber e') (eMass e') x end).
  exists (zupd t (atomicNumber e' - 1) v).
  assert (A : applySetting t o = Ok (zupd t (atomicNumber e' - 1) v)) by (destruct O as [-> | ->]; cbn [applySetting]; unfold setMass, setMassVariance; rewrite F; cbn [bind]; rewrite G; reflexivity).
  assert (W' : wfTable (zupd t (atomicNumber e' - 1) v)).
  { destruct W as [W1 W2]. split; [rewrite <- W1|rewrite <- W2]; (eapply map_zupd; [exact Zg|]); subst v; destruct O as [-> | ->]; reflexivity. }
  split; [exact A|]. split; [exact W'|]. intros s2 e2 K2. destruct (wf_get t s2 e2 W K2) as (e3 & I3 & E3 & N3 & M3 & V3 & _ & F3 & G3).
  assert (F4 : findElement (zupd t (atomicNumber e' - 1) v) s2 = Ok (atomicNumber e3 - 1)) by (rewrite (wf_find _ s2 W'), <- (wf_find t s2 W); exact F3).
  rewrite M3, V3. unfold getMass, getMassVariance. rewrite F4. cbn [bind]. unfold eltAt in *. destruct (streq s s2) eqn:Eq.
  - apply streq_eq in Eq. rewrite <- Eq in F3. rewrite F in F3. injection F3 as F3. rewrite <- F3 in *. rewrite (zget_zupd_eq t _ v Rg). cbn [bind]. subst v. rewrite Zg in G3. injection G3 as <-.
    destruct O as [-> | ->]; split; reflexivity.
  - apply streq_neq in Eq. assert (Ne : atomicNumber e' - 1 <> atomicNumber e3 - 1).
    { intros C. rewrite C in Zg. rewrite Zg in G3. injection G3 as ->. congruence. }
    rewrite (zget_zupd_ne t _ _ v Ne). destruct (zget t (atomicNumber e3 - 1)); [|discriminate]. injection G3 as ->. cbn [bind]. destruct O as [-> | ->]; split; reflexivity.
Qed.
Lemma history : forall h t, wfTable t -> (forall o, In o h -> exists e, elementOf (settingName o) e) -> exists t', foldM applySetting h t = Ok t' /\ wfTable t' /\
  forall s e, elementOf s e -> forall m v, getMass t s = Ok m -> getMassVariance t s = Ok v -> getMass t' s = Ok (lastMass h s m) /\ getMassVariance t' s = Ok (lastVariance h s v).
Proof.
  induction h as [|o h IH]; intros t W K; cbn [foldM].
  - exists t. split; [reflexivity|]. split; [exact W|]. intros s e _ m v M V. cbn. split; assumption.
  - destruct (K o (or_introl eq_refl)) as (e & Ke).
    assert (St : exists x, o = SetMass (settingName o) x \/ o = SetVariance (settingName o) x) by (destruct o as [s x|s x]; exists x; [left|right]; reflexivity).
    destruct St as (x & St). destruct (wf_set t (settingName o) x e o W Ke St) as (t1 & A & W1 & G). rewrite A. cbn [bind].
    destruct (IH t1 W1 (fun o' I => K o' (or_intror I))) as (t' & F & W' & G'). exists t'. split; [exact F|]. split; [exact W'|].
    intros s e2 K2 m v M V. destruct (G s e2 K2) as [G1 G2]. destruct o as [s0 y|s0 y]; cbn [settingName lastMass lastVariance] in *; (destruct St as [St|St]; [|]; try discriminate); injection St as <-;
      apply (G' s e2 K2); rewrite ?G1, ?G2, ?M, ?V; destruct (streq s0 s); reflexivity.
Qed.
Theorem C147_history : forall h,
  ((forall o, In o h -> exists e, elementOf (settingName o) e) /\ exists t, foldM applySetting h elements = Ok t /\
     forall s e, elementOf s e -> getMass t s = Ok (lastMass h s (eMass e)) /\ getMassVariance t s = Ok (lastVariance h s (eVariance e)) /\ getIonicCharge t s = Ok (atomicNumber e)) \/
  ((exists o, In o h /\ forall e, ~ elementOf (settingName o) e) /\ foldM applySetting h elements = Err).
Proof.
  intros h. assert (D : (forall o, In o h -> exists e, elementOf (settingName o) e) \/ exists h1 o h2, h = h1 ++ o :: h2 /\ (forall o', In o' h1 -> exists e, elementOf (settingName o') e) /\ forall e, ~ elementOf (settingName o) e).
  { induction h as [|o h IH]; [left; intros o []|]. destruct (known_dec (settingName o)) as [K | U]; [|right; exists [], o, h; split; [reflexivity|split; [intros ? []|exact U]]].
    destruct IH as [A | (h1 & o1 & h2 & -> & A & U)]; [left; intros o' [<- | I]; [exact K|apply A; exact I]|].
    right. exists (o :: h1), o1, h2. split; [reflexivity|]. split; [intros o' [<- | I]; [exact K|apply A; exact I]|exact U]. }
  destruct D as [K | (h1 & o & h2 & -> & K & U)]; [left|right].
  - split; [exact K|]. destruct (history h elements wf_elements K) as (t & F & W & G). exists t. split; [exact F|]. intros s e Ke.
    destruct (C147_lookup s) as [(e0 & K0 & Un & M & V & _) | (No & _)]; [|destruct (No e Ke)]. rewrite (Un e Ke). destruct (G s e Ke _ _ M V) as [G1 G2]. split; [exact G1|]. split; [exact G2|].
    rewrite <- (Un e Ke). destruct (wf_get t s e W Ke) as (e' & _ & _ & N & _ & _ & C & _). rewrite C, N. reflexivity.
  - split; [exists o; split; [apply in_or_app; right; left; reflexivity|exact U]|].
    destruct (history h1 elements wf_elements K) as (t & F & W & _).
    assert (App : forall (a b : list setting) x, foldM applySetting (a ++ b) x = (do y <- foldM applySetting a x ; foldM applySetting b y)).
    { induction a as [|o' a IH]; intros b x; cbn [app foldM bind]; [reflexivity|]. destruct (applySetting x o'); cbn [bind]; [apply IH|reflexivity|reflexivity]. }
    rewrite App, F. cbn [bind foldM]. destruct o as [s x|s x]; cbn [applySetting settingName] in *; unfold setMass, setMassVariance; rewrite (unknown t s W U); reflexivity.
Qed.
Print Assumptions C147_history.
Example C147_history_ex : let h := [SetMass (str! "C") 12; SetVariance (str! "C") 0; SetMass (str! "C") 13] in
  (forall o, In o h -> exists e, elementOf (settingName o) e) /\
  (do t <- foldM applySetting h elements ; do m <- getMass t (str! "C") ; do v <- getMassVariance t (str! "C") ; do b <- getMass t (str! "B") ; Ok (m, v, b)) = Ok (13, 0, 1081 # 100)%Q.
Proof.
  split; [|vm_compute; reflexivity]. intros o I. exists (Elt (str! "C") 6 (12011 # 1000) (8000097592094282 # 100000000000000000000)). split; [right; right; right; right; right; left; reflexivity|].
  destruct I as [<- | [<- | [<- | []]]]; reflexivity.
Qed.

(** ** unit cell *)
Local Open Scope R_scope.
Lemma rapp_point A x : rapp A x = point A x.
Proof. unfold rapp, point, vlin, vadd, rscale, rdot, a1, a2, a3; cbn. f_equal; ring. Qed.
Lemma rinv_l A x : rdet A <> 0 -> rapp (rinv A) (rapp A x) = x.
Proof.
  destruct A as [[a b c] [d e f] [g h i]], x as [x y z]. unfold rinv, rapp, rmscale, rscale, rtrans, rdet, rcross, rdot; cbn. intros D.
  f_equal; field; exact D.
Qed.
Lemma rinv_r A x : rdet A <> 0 -> rapp A (rapp (rinv A) x) = x.
Proof.
  destruct A as [[a b c] [d e f] [g h i]], x as [x y z]. unfold rinv, rapp, rmscale, rscale, rtrans, rdet, rcross, rdot; cbn. intros D.
  f_equal; field; exact D.
Qed.
Lemma dot_trans A u v : rdot (rapp (rtrans A) u) v = rdot u (rapp A v).
Proof. unfold rdot, rapp, rtrans, rdot; cbn. ring. Qed.
Lemma app_scale c A v : rapp (rmscale c A) v = rscale c (rapp A v).
Proof. unfold rapp, rmscale, rscale, rdot; cbn. f_equal; ring. Qed.
Lemma app_mul A B v : rapp (rmul A B) v = rapp A (rapp B v).
Proof. unfold rapp, rmul, rtrans, rdot; cbn. f_equal; ring. Qed.
Lemma dot_scale c u v : rdot (rscale c u) v = c * rdot u v.
Proof. unfold rdot, rscale; cbn. ring. Qed.
Lemma dot_comm u v : rdot u v = rdot v u.
Proof. unfold rdot. ring. Qed.
Lemma volume_det A : calcVolume A = Rabs (rdet A).
Proof.
  unfold calcVolume. assert (E2 : rdot (m1 A) (rcross (m2 A) (m0 A)) = rdet A) by (unfold rdet, rdot, rcross; cbn; ring).
  assert (E3 : rdot (m2 A) (rcross (m0 A) (m1 A)) = rdet A) by (unfold rdet, rdot, rcross; cbn; ring). rewrite E2, E3. fold (rdet A). field.
Qed.
Lemma det_scale c A : rdet (rmscale c A) = c * c * c * rdet A.
Proof. unfold rdet, rmscale, rscale, rdot, rcross; cbn. ring. Qed.
Lemma det_trans A : rdet (rtrans A) = rdet A.
Proof. unfold rdet, rtrans, rdot, rcross; cbn. ring. Qed.
Lemma det_cof A : rdet (RM (rcross (m1 A) (m2 A)) (rcross (m2 A) (m0 A)) (rcross (m0 A) (m1 A))) = rdet A * rdet A.
Proof. destruct A as [[a b c] [d e f] [g h i]]. unfold rdet, rdot, rcross; cbn. ring. Qed.
(** the volume is that of the parallelepiped of the three lattice vectors; in two dimensions, with a1 and a2 in the plane, it is the area of
    their parallelogram, and the volume is that area times the height of the cell; it never depends on the order or orientation *)
Theorem C146_volume : forall A,
  calcVolume A = Rabs (rdot (a1 A) (rcross (a2 A) (a3 A))) /\
  getVolumeUnitCell A 3 = calcVolume A /\
  (vz (a1 A) = 0 -> vz (a2 A) = 0 ->
     getVolumeUnitCell A 2 = sqrt (norm2 (rcross (a1 A) (a2 A))) /\ calcVolume A = getVolumeUnitCell A 2 * Rabs (vz (a3 A))).
Proof.
  intros A. split; [rewrite volume_det; f_equal; unfold rdet, rdot, rcross; cbn; ring|]. split; [reflexivity|]. intros H1 H2. cbn in H1, H2.
  unfold getVolumeUnitCell. cbn [Z.eqb Pos.eqb]. split.
  - replace (norm2 (rcross (a1 A) (a2 A))) with (Rsqr (vx (m0 A) * vy (m1 A) - vy (m0 A) * vx (m1 A))); [symmetry; apply sqrt_Rsqr_abs|].
    unfold norm2, rdot, rcross, Rsqr; cbn. rewrite H1, H2. ring.
  - rewrite volume_det, <- Rabs_mult. f_equal. unfold rdet, rdot, rcross; cbn. rewrite H1, H2. ring.
Qed.
Print Assumptions C146_volume.
Definition hexA : rmat := RM (RV 2 (-1) 0) (RV 0 3 0) (RV 0 0 5).
Example C146_volume_ex : vz (a1 hexA) = 0 /\ vz (a2 hexA) = 0 /\ calcVolume hexA = 30 /\ getVolumeUnitCell hexA 2 = 6.
Proof.
  split; [reflexivity|]. split; [reflexivity|]. split.
  - rewrite volume_det. replace (rdet hexA) with 30; [apply Rabs_pos_eq; lra|]. unfold rdet, rdot, rcross, hexA; cbn [vx vy vz m0 m1 m2]. lra.
  - change (Rabs (2 * 3 - -1 * 0) = 6). replace (2 * 3 - -1 * 0) with 6 by lra. apply Rabs_pos_eq. lra.
Qed.
(** the reciprocal vectors are dual to the lattice vectors, with the factor 2 pi: the phase of a wavevector with crystal coordinates k at the
    point with crystal coordinates x is 2 pi k . x *)
Theorem C146_reciprocal : forall A, 0 < calcVolume A -> let B := calcReciprocalCell A in
  (forall k x, rdot (point B k) (point A x) = 2 * PI * rdot k x) /\
  rdot (a1 A) (a1 B) = 2 * PI /\ rdot (a2 A) (a2 B) = 2 * PI /\ rdot (a3 A) (a3 B) = 2 * PI /\
  rdot (a1 A) (a2 B) = 0 /\ rdot (a2 A) (a3 B) = 0 /\ rdot (a3 A) (a1 B) = 0 /\ rdot (a2 A) (a1 B) = 0 /\ rdot (a3 A) (a2 B) = 0 /\ rdot (a1 A) (a3 B) = 0 /\
  calcVolume A * calcVolume B = (2 * PI) * (2 * PI) * (2 * PI).
Proof.
  intros A V B. rewrite volume_det in V. assert (D : rdet A <> 0) by (intros D; rewrite D, Rabs_R0 in V; lra).
  assert (G : forall k x, rdot (point B k) (point A x) = 2 * PI * rdot k x).
  { intros k x. rewrite <- !rapp_point. unfold B, calcReciprocalCell. rewrite app_scale, dot_scale, dot_trans, rinv_l by exact D. reflexivity. }
  split; [exact G|].
  assert (P1 : forall C, a1 C = point C (RV 1 0 0)) by (intros C; unfold point, vlin, vadd, rscale, a1, a2, a3; cbn; f_equal; ring).
  assert (P2 : forall C, a2 C = point C (RV 0 1 0)) by (intros C; unfold point, vlin, vadd, rscale, a1, a2, a3; cbn; f_equal; ring).
  assert (P3 : forall C, a3 C = point C (RV 0 0 1)) by (intros C; unfold point, vlin, vadd, rscale, a1, a2, a3; cbn; f_equal; ring).
  repeat (split; [rewrite ?P1, ?P2, ?P3, dot_comm, G; unfold rdot; cbn; ring|]).
  rewrite !volume_det, <- Rabs_mult. replace (rdet A * rdet B) with ((2 * PI) * (2 * PI) * (2 * PI)).
  - apply Rabs_pos_eq. pose proof PI_RGT_0. assert (0 <= 2 * PI) by lra. apply Rmult_le_pos; [apply Rmult_le_pos; assumption|assumption].
  - unfold B, calcReciprocalCell, rinv. rewrite det_scale, det_trans, det_scale, det_trans, det_cof. generalize PI. generalize (rdet A) D. intros d H p. field. exact H.
Qed.
Print Assumptions C146_reciprocal.
Example C146_reciprocal_ex : 0 < calcVolume hexA.
Proof. destruct C146_volume_ex as (_ & _ & -> & _). lra. Qed.
Local Close Scope R_scope.

(** ** the constructor *)
Lemma naturalCouplings_ok : forall names g, naturalCouplings names = Ok g ->
  zlen g = zlen names /\ forall i s, zget names i = Some s -> exists e, elementOf s e /\ zget g i = Some (eVariance e).
Proof.
  unfold naturalCouplings. induction names as [|s names IH]; intros g H; cbn [mapM] in H; [injection H as <-; split; [reflexivity|]; intros i s; unfold zget; destruct (i <? 0); [discriminate|]; destruct (Z.to_nat i); discriminate|].
  destruct (C147_lookup s) as [(e & K & _ & _ & V & C) | (_ & _ & V & _)]; rewrite V in H; cbn [bind] in H; [|discriminate]. rewrite C in H. cbn [bind] in H.
  destruct (mapM _ names) as [g'| |] eqn:M; cbn [bind] in H; try discriminate. injection H as <-. destruct (IH g' eq_refl) as [L G]. split; [rewrite !zlen_cons, L; reflexivity|].
  intros i s' Z. destruct (Z.eq_dec i 0) as [->|Ni]; [cbn in Z; injection Z as <-; exists e; split; [exact K|reflexivity]|].
  assert (0 < i) by (unfold zget in Z; destruct (i <? 0) eqn:L0; [discriminate|lia]). rewrite (zget_consS s names i) in Z by lia. rewrite zget_consS by lia. apply G. exact Z.
Qed.
Lemma naturalCouplings_iff names : (exists g, naturalCouplings names = Ok g) <-> forall s, In s names -> exists e, elementOf s e.
Proof.
  unfold naturalCouplings. split.
  - intros (g & H). intros s I. apply in_zget in I. destruct I as (i & _ & I). destruct (naturalCouplings_ok names g H) as [_ G]. destruct (G i s I) as (e & K & _). exists e. exact K.
  - induction names as [|s names IH]; intros H; [exists []; reflexivity|]. destruct IH as (g & G); [intros s' I; apply H; right; exact I|].
    destruct (C147_lookup s) as [(e & K & _ & _ & V & C) | (U & _)]; [|destruct (H s (or_introl eq_refl)) as (e & K); destruct (U e K)].
    cbn [mapM]. rewrite V. cbn [bind]. rewrite C. cbn [bind]. rewrite G. cbn [bind]. exists (eVariance e :: g). reflexivity.
Qed.
Lemma natural_not_ub names : naturalCouplings names <> UB.
Proof.
  unfold naturalCouplings. induction names as [|s names IH]; cbn [mapM]; [discriminate|].
  destruct (C147_lookup s) as [(e & K & _ & _ & V & C) | (_ & _ & V & _)]; rewrite V; cbn [bind]; [|discriminate]. rewrite C. cbn [bind]. destruct (mapM _ names); cbn [bind]; congruence.
Qed.
Lemma override_get : forall custom old i q, zlen custom = zlen old -> zget old i = Some q -> zget (overrideWith custom old) i = Some (chosen custom i q).
Proof.
  intros custom old i q L Z. unfold overrideWith, chosen. rewrite zget_map.
  assert (Cb : forall (a b : list Q) j, zlen a = zlen b -> zget (combine a b) j = match zget a j, zget b j with Some x, Some y => Some (x, y) | _, _ => None end).
  { clear. intros a b j L. unfold zget. destruct (j <? 0); [reflexivity|]. generalize (Z.to_nat j). clear j. revert b L. induction a as [|x a IH]; intros [|y b] L n; try (unfold zlen in L; cbn in L; lia).
    - destruct n; reflexivity.
    - destruct n; cbn [combine nth_error]; [reflexivity|]. apply IH. unfold zlen in *. cbn in L. lia. }
  rewrite Cb by exact L. rewrite Z. destruct (zget custom i) as [c|] eqn:E; cbn; [reflexivity|].
  exfalso. assert (0 <= i < zlen custom).
  { rewrite L. unfold zget in Z. destruct (i <? 0) eqn:L0; [discriminate|]. assert (nth_error old (Z.to_nat i) <> None) by congruence. apply nth_error_Some in H. unfold zlen. lia. }
  destruct (zget_inrange custom i H) as (c & C). congruence.
Qed.
Lemma override_len custom old : zlen custom = zlen old -> zlen (overrideWith custom old) = zlen old.
Proof. intros L. unfold overrideWith, zlen in *. rewrite map_length, combine_length. lia. Qed.
Lemma zget_nil {A} i : @zget A [] i = None.
Proof. unfold zget. destruct (i <? 0); [reflexivity|]. destruct (Z.to_nat i); reflexivity. Qed.
(** the parts of a successful construction *)
Lemma new_parts spg x c : newCrystal spg x = Ok c -> exists g ops,
  (0 < calcVolume (iCell x))%R /\ zlen (iSpecies x) = zlen (iPositions x) /\ zlen (iMasses x) = zlen (iNames x) /\ naturalCouplings (iNames x) = Ok g /\
  customizeMasses x = Ok (cSpeciesMasses c) /\ customizeCouplings x g = Ok (cSpeciesCouplings c) /\
  mapM (ofSpecies (cSpeciesMasses c)) (iSpecies x) = Ok (cMasses c) /\ mapM (ofSpecies (iNames x)) (iSpecies x) = Ok (cNames c) /\
  mapM (ofSpecies (cSpeciesCouplings c)) (iSpecies x) = Ok (cCouplings c) /\
  (if iUseSym x then ops <> [] /\ ops = spg (iCell x) (map (rapp (rinv (iCell x))) (iPositions x)) (map (fun s => s + 1) (iSpecies x)) else ops = [(zid, RV 0 0 0)]) /\
  cCell c = iCell x /\ cRec c = calcReciprocalCell (iCell x) /\ cVolume c = calcVolume (iCell x) /\ cDim c = iDim x /\ cPositions c = iPositions x /\ cSpecies c = iSpecies x /\
  cSpeciesNames c = iNames x /\ cSyms c = map (fun o => (rtrans (rotR (fst o)), snd o)) ops /\ cUseSym c = if zlen ops =? 1 then false else iUseSym x.
Proof.
  unfold newCrystal. intros H. unfold rleb in H. destruct (Rle_dec (calcVolume (iCell x)) 0) as [|V]; [discriminate|]. apply Rnot_le_lt in V.
  destruct (zlen (iSpecies x) =? zlen (iPositions x)) eqn:L1; cbn [negb] in H; [|discriminate].
  destruct (zlen (iMasses x) =? zlen (iNames x)) eqn:L2; cbn [negb] in H; [|discriminate].
  destruct (naturalCouplings (iNames x)) as [g| |] eqn:G; cbn [bind] in H; try discriminate.
  destruct (customizeMasses x) as [ms| |] eqn:M; cbn [bind] in H; try discriminate.
  destruct (customizeCouplings x g) as [cs| |] eqn:C; cbn [bind] in H; try discriminate.
  destruct (mapM (ofSpecies ms) (iSpecies x)) as [am| |] eqn:A1; cbn [bind] in H; try discriminate.
  destruct (mapM (ofSpecies (iNames x)) (iSpecies x)) as [an| |] eqn:A2; cbn [bind] in H; try discriminate.
  destruct (mapM (ofSpecies cs) (iSpecies x)) as [ag| |] eqn:A3; cbn [bind] in H; try discriminate.
  exists g. destruct (iUseSym x) eqn:U.
  - destruct (spg _ _ _) as [|o ops] eqn:Sp; [discriminate|]. cbn [bind] in H. injection H as <-. exists (o :: ops). cbn -[rtrans rotR zlen Z.eqb]. repeat split; try assumption; try lia; discriminate.
  - cbn [bind] in H. injection H as <-. exists [(zid, RV 0 0 0)]. cbn -[rtrans rotR zlen Z.eqb]. repeat split; try assumption; lia.
Qed.
Lemma ofSpecies_get {A} (l : list A) ss r : mapM (ofSpecies l) ss = Ok r -> zlen r = zlen ss /\ forall i s, zget ss i = Some s -> exists a, zget l s = Some a /\ zget r i = Some a.
Proof.
  revert r. induction ss as [|s ss IH]; intros r H; cbn [mapM] in H; [injection H as <-; split; [reflexivity|]; intros i s; rewrite zget_nil; discriminate|].
  unfold ofSpecies in H at 1. destruct (zget l s) as [a|] eqn:E; cbn [bind] in H; [|discriminate]. destruct (mapM _ ss) as [r'| |] eqn:M; cbn [bind] in H; try discriminate. injection H as <-.
  destruct (IH r' eq_refl) as [L G]. split; [rewrite !zlen_cons, L; reflexivity|]. intros i s' Z. destruct (Z.eq_dec i 0) as [->|Ni]; [cbn in Z; injection Z as <-; exists a; split; [exact E|reflexivity]|].
  assert (0 < i) by (unfold zget in Z; destruct (i <? 0) eqn:L0; [discriminate|lia]). rewrite zget_consS in Z by lia. rewrite zget_consS by lia. apply G. exact Z.
Qed.
(** each atom has the name, the mass and the isotope coupling of its species: those of the user where positive, else those of the input file and
    of the periodic table *)
Theorem C146_atoms : forall spg x c, newCrystal spg x = Ok c ->
  cPositions c = iPositions x /\ cSpecies c = iSpecies x /\ zlen (cMasses c) = zlen (iPositions x) /\ zlen (cNames c) = zlen (iPositions x) /\ zlen (cCouplings c) = zlen (iPositions x) /\
  forall i s, zget (iSpecies x) i = Some s -> exists name mass e,
    zget (iNames x) s = Some name /\ zget (iMasses x) s = Some mass /\ elementOf name e /\
    zget (cNames c) i = Some name /\ zget (cMasses c) i = Some (chosen (iCustomMasses x) s mass) /\
    zget (cCouplings c) i = Some (chosen (iCustomCouplings x) s (eVariance e)).
Proof.
  intros spg x c H. destruct (new_parts spg x c H) as (g & ops & V & L1 & L2 & G & M & C & A1 & A2 & A3 & _ & _ & _ & _ & _ & P & Sp & _).
  destruct (ofSpecies_get _ _ _ A1) as [B1 D1]. destruct (ofSpecies_get _ _ _ A2) as [B2 D2]. destruct (ofSpecies_get _ _ _ A3) as [B3 D3].
  do 5 (split; [congruence|]). intros i s Z. destruct (D1 i s Z) as (m & M1 & M2). destruct (D2 i s Z) as (n & N1 & N2). destruct (D3 i s Z) as (q & Q1 & Q2).
  destruct (naturalCouplings_ok _ _ G) as [Lg Gg]. destruct (Gg s n N1) as (e & K & Ge).
  assert (exists mass, zget (iMasses x) s = Some mass) as (mass & Mm).
  { apply zget_inrange. rewrite L2. unfold zget in N1. destruct (s <? 0) eqn:L0; [discriminate|]. assert (nth_error (iNames x) (Z.to_nat s) <> None) by congruence. apply nth_error_Some in H0. unfold zlen. lia. }
  exists n, mass, e. split; [exact N1|]. split; [exact Mm|]. split; [exact K|]. split; [exact N2|]. split.
  - rewrite M2, <- M1. unfold customizeMasses in M. destruct (iCustomMasses x) as [|q0 qs] eqn:E.
    + injection M as <-. rewrite Mm. unfold chosen. rewrite zget_nil. reflexivity.
    + destruct (containsStr _ _); cbn [negb] in M; [|discriminate]. destruct (zlen (q0 :: qs) =? zlen (iNames x)) eqn:L3; cbn [negb] in M; [|discriminate].
      injection M as <-. rewrite (override_get (q0 :: qs) (iMasses x) s mass); [reflexivity|lia|exact Mm].
  - rewrite Q2, <- Q1. unfold customizeCouplings in C. destruct (iCustomCouplings x) as [|q0 qs] eqn:E.
    + injection C as <-. rewrite Ge. unfold chosen. rewrite zget_nil. reflexivity.
    + destruct (iNames x) as [|n0 ns] eqn:En; [rewrite zget_nil in N1; discriminate|]. rewrite <- En in *. destruct (zlen (q0 :: qs) =? zlen (iNames x)) eqn:L3; cbn [negb] in C; [|discriminate].
      injection C as <-. rewrite (override_get (q0 :: qs) g s (eVariance e)); [reflexivity|lia|exact Ge].
Qed.
Print Assumptions C146_atoms.

Lemma dot_ext u v : (forall w, rdot u w = rdot v w) -> u = v.
Proof.
  intros H. destruct u as [u0 u1 u2], v as [v0 v1 v2]. pose proof (H (RV 1 0 0)) as H0. pose proof (H (RV 0 1 0)) as H1. pose proof (H (RV 0 0 1)) as H2.
  unfold rdot in *; cbn in *. f_equal; lra.
Qed.
Lemma vol_det A : (0 < calcVolume A)%R -> rdet A <> 0%R.
Proof. rewrite volume_det. intros V D. rewrite D, Rabs_R0 in V. lra. Qed.
Lemma rec_det A : (0 < calcVolume A)%R -> rdet (calcReciprocalCell A) <> 0%R.
Proof.
  intros V D. destruct (C146_reciprocal A V) as (_ & _ & _ & _ & _ & _ & _ & _ & _ & _ & P). rewrite (volume_det (calcReciprocalCell A)), D, Rabs_R0, Rmult_0_r in P.
  pose proof PI_RGT_0. assert (0 < 2 * PI)%R by lra. assert (0 < (2 * PI) * (2 * PI) * (2 * PI))%R by (apply Rmult_lt_0_compat; [apply Rmult_lt_0_compat; assumption|assumption]). lra.
Qed.
Lemma point_inv A ps : rdet A <> 0%R -> map (point A) (map (rapp (rinv A)) ps) = ps.
Proof. intros D. rewrite map_map. rewrite <- (map_id ps) at 2. apply map_ext. intros p. rewrite <- rapp_point. apply rinv_r. exact D. Qed.
Lemma point_add A u v : point A (vadd u v) = vadd (point A u) (point A v).
Proof. unfold point, vlin, vadd, rscale, a1, a2, a3; cbn. f_equal; ring. Qed.
Lemma identity_sound A xs types : spgSound A xs types [(zid, RV 0 0 0)].
Proof.
  assert (I : forall u, rapp (rotR zid) u = u) by (intros [a b c]; unfold rapp, rdot; cbn; f_equal; ring).
  intros W w [E | []]. injection E as <- <-. split; [intros u v; rewrite !I; reflexivity|]. intros i x t X T. exists i, x, 0, 0, 0. split; [exact X|]. split; [exact T|]. rewrite I. reflexivity.
Qed.
(** Let spglib keep its contract for the atoms given to it. Each stored operation comes from an isometry O of space which, followed by the
    translation of fractional coordinates w, takes every atom to an atom of the same species up to a lattice vector; the stored rotation acts on
    the crystal coordinates of wavevectors as the inverse of O, and so does the Cartesian rotation used for points *)
Theorem C146_symmetries : forall spg x c, newCrystal spg x = Ok c ->
  (forall xs, map (point (iCell x)) xs = iPositions x ->
     spgSound (iCell x) xs (map (fun s => s + 1) (iSpecies x)) (spg (iCell x) xs (map (fun s => s + 1) (iSpecies x)))) ->
  forall Sk w, In (Sk, w) (cSyms c) -> exists O Oinv,
    isometry O /\ (forall v, rapp Oinv (rapp O v) = v) /\
    (forall k, point (cRec c) (rapp Sk k) = rapp Oinv (point (cRec c) k)) /\
    (forall q, rapp (rotationCartesian c Sk) q = rapp Oinv q) /\
    forall i p s, zget (cPositions c) i = Some p -> zget (cSpecies c) i = Some s -> exists j p' n0 n1 n2,
      zget (cPositions c) j = Some p' /\ zget (cSpecies c) j = Some s /\ vadd (rapp O p) (point (cCell c) w) = vadd p' (point (cCell c) (zvec n0 n1 n2)).
Proof.
  intros spg x c H Sg Sk w I. destruct (new_parts spg x c H) as (g & ops & V & L1 & _ & _ & _ & _ & _ & _ & _ & Op & Ec & Er & _ & _ & Ep & Es & _ & Sy & _).
  rewrite Sy in I. apply in_map_iff in I. destruct I as ([W w'] & E & I). cbn [fst snd] in E. injection E as <- <-.
  rewrite Ec, Er, Ep, Es. set (A := iCell x) in *. pose proof (vol_det A V) as D. set (xs := map (rapp (rinv A)) (iPositions x)) in *.
  assert (Sd : spgSound A xs (map (fun s => s + 1) (iSpecies x)) ops).
  { destruct (iUseSym x); [destruct Op as [_ ->]; apply Sg; apply point_inv; exact D|subst ops; apply identity_sound]. }
  destruct (Sd W w' I) as [Is At]. set (O := rmul (rmul A (rotR W)) (rinv A)).
  assert (OA : forall u, rapp O (rapp A u) = rapp A (rapp (rotR W) u)) by (intros u; unfold O; rewrite !app_mul, rinv_l by exact D; reflexivity).
  assert (Oi : isometry O).
  { intros u v. rewrite <- (rinv_r A u D) at 1. rewrite <- (rinv_r A v D) at 1. rewrite !OA. assert (Is' := Is (rapp (rinv A) u) (rapp (rinv A) v)). rewrite <- !rapp_point in Is'. rewrite Is', !rinv_r by exact D. reflexivity. }
  destruct (C146_reciprocal A V) as [Du _].
  assert (K : forall k, point (calcReciprocalCell A) (rapp (rtrans (rotR W)) k) = rapp (rtrans O) (point (calcReciprocalCell A) k)).
  { intros k. apply dot_ext. intros v. rewrite <- (rinv_r A v D). set (u := rapp (rinv A) v). rewrite dot_trans, OA, !rapp_point, !Du, <- !rapp_point, dot_trans. reflexivity. }
  exists O, (rtrans O). split; [exact Oi|]. split; [intros v; apply dot_ext; intros u; rewrite dot_trans; apply Oi|]. split; [exact K|]. split.
  - intros q. unfold rotationCartesian. rewrite Er. fold A. rewrite !app_mul. pose proof (K (rapp (rinv (calcReciprocalCell A)) q)) as Kq. rewrite <- !rapp_point in Kq. rewrite Kq. f_equal. apply rinv_r. apply rec_det. exact V.
  - intros i p s P Q. destruct (At i (rapp (rinv A) p) (s + 1)) as (j & y & n0 & n1 & n2 & Y & T & Eq); [unfold xs; rewrite zget_map, P; reflexivity|rewrite zget_map, Q; reflexivity|].
    unfold xs in Y. rewrite zget_map in Y. rewrite zget_map in T. destruct (zget (iPositions x) j) as [p'|] eqn:Pj; cbn in Y; [|discriminate]. injection Y as <-.
    destruct (zget (iSpecies x) j) as [s'|] eqn:Sj; cbn in T; [|discriminate]. assert (s' = s) by (injection T; lia). subst s'.
    exists j, p', n0, n1, n2. split; [exact Pj|]. split; [first [exact Sj|reflexivity]|]. apply (f_equal (point A)) in Eq. rewrite !point_add in Eq. rewrite <- !rapp_point in Eq. rewrite rinv_r in Eq by exact D.
    rewrite <- !rapp_point. rewrite <- Eq. f_equal. rewrite <- (rinv_r A p D) at 1. rewrite OA. reflexivity.
Qed.
Print Assumptions C146_symmetries.
(** which inputs are accepted, exactly; undefined behaviour only by an atom of a species that does not exist *)
Theorem C146_accepted : forall spg x,
  ((exists c, newCrystal spg x = Ok c) <->
   (0 < calcVolume (iCell x))%R /\ zlen (iSpecies x) = zlen (iPositions x) /\ zlen (iMasses x) = zlen (iNames x) /\
   (forall s, In s (iNames x) -> exists e, elementOf s e) /\
   (iCustomMasses x = [] \/ zlen (iCustomMasses x) = zlen (iNames x) /\ containsStr (str! "phonon") (iApp x) = true) /\
   (iCustomCouplings x = [] \/ iNames x = [] \/ zlen (iCustomCouplings x) = zlen (iNames x)) /\
   (forall s, In s (iSpecies x) -> 0 <= s < zlen (iNames x)) /\
   (iUseSym x = true -> spg (iCell x) (map (rapp (rinv (iCell x))) (iPositions x)) (map (fun s => s + 1) (iSpecies x)) <> [])) /\
  (newCrystal spg x = UB -> exists s, In s (iSpecies x) /\ ~ 0 <= s < zlen (iNames x)).
Proof.
  intros spg x.
  assert (OfOk : forall (T : Type) (l : list T), (forall s, In s (iSpecies x) -> 0 <= s < zlen l) -> exists r, mapM (ofSpecies l) (iSpecies x) = Ok r).
  { intros T l. induction (iSpecies x) as [|s ss IH]; intros B; [exists []; reflexivity|]. destruct IH as (r & R); [intros s' I; apply B; right; exact I|].
    cbn [mapM]. unfold ofSpecies at 1. destruct (zget_inrange l s (B s (or_introl eq_refl))) as (a & Ha). rewrite Ha. cbn [bind]. rewrite R. cbn [bind]. exists (a :: r). reflexivity. }
  split.
  - split.
    + intros (c & H). destruct (new_parts spg x c H) as (g & ops & V & L1 & L2 & G & M & C & A1 & A2 & A3 & Op & _).
      split; [exact V|]. split; [exact L1|]. split; [exact L2|]. split; [apply naturalCouplings_iff; exists g; exact G|]. split; [|split; [|split]].
      * unfold customizeMasses in M. destruct (iCustomMasses x) as [|q qs]; [left; reflexivity|right]. destruct (containsStr _ _); cbn [negb] in M; [|discriminate].
        destruct (zlen (q :: qs) =? zlen (iNames x)) eqn:L; [|discriminate]. split; [lia|reflexivity].
      * unfold customizeCouplings in C. destruct (iCustomCouplings x) as [|q qs]; [left; reflexivity|right]. destruct (iNames x) as [|n ns] eqn:En; [left; reflexivity|right]. rewrite <- En in *.
        destruct (zlen (q :: qs) =? zlen (iNames x)) eqn:L; [lia|discriminate].
      * intros s I. apply in_zget in I. destruct I as (i & _ & I). destruct (ofSpecies_get _ _ _ A2) as [_ D]. destruct (D i s I) as (a & Ha & _). apply zget_in in Ha. apply Ha.
      * intros U. rewrite U in Op. destruct Op as [N E]. rewrite <- E. exact N.
    + intros (V & L1 & L2 & Nm & M & C & B & Sp). unfold newCrystal, rleb. destruct (Rle_dec (calcVolume (iCell x)) 0) as [V'|_]; [lra|].
      rewrite (proj2 (Z.eqb_eq _ _) L1), (proj2 (Z.eqb_eq _ _) L2). cbn [negb]. apply naturalCouplings_iff in Nm. destruct Nm as (g & G). rewrite G. cbn [bind].
      destruct (naturalCouplings_ok _ _ G) as [Lg _].
      assert (exists ms, customizeMasses x = Ok ms /\ zlen ms = zlen (iNames x)) as (ms & Ms & Lm).
      { unfold customizeMasses. destruct M as [M | [M1 M2]]; [rewrite M; exists (iMasses x); split; [reflexivity|exact L2]|]. destruct (iCustomMasses x) as [|q qs]; [exists (iMasses x); split; [reflexivity|exact L2]|].
        rewrite M2, (proj2 (Z.eqb_eq _ _) M1). cbn [negb]. exists (overrideWith (q :: qs) (iMasses x)). split; [reflexivity|]. rewrite override_len; lia. }
      assert (exists cs, customizeCouplings x g = Ok cs /\ zlen cs = zlen (iNames x)) as (cs & Cs & Lc).
      { unfold customizeCouplings. destruct (iCustomCouplings x) as [|q qs]; [exists g; split; [reflexivity|exact Lg]|]. destruct (iNames x) as [|n ns] eqn:En; [exists g; split; [reflexivity|exact Lg]|]. rewrite <- En in *.
        destruct C as [C | [C | C]]; [discriminate|congruence|]. rewrite (proj2 (Z.eqb_eq _ _) C). cbn [negb]. exists (overrideWith (q :: qs) g). split; [reflexivity|]. rewrite override_len; lia. }
      rewrite Ms. cbn [bind]. rewrite Cs. cbn [bind].
      destruct (OfOk _ ms) as (r1 & R1); [rewrite Lm; exact B|]. destruct (OfOk _ (iNames x) B) as (r2 & R2). destruct (OfOk _ cs) as (r3 & R3); [rewrite Lc; exact B|].
      rewrite R1. cbn [bind]. rewrite R2. cbn [bind]. rewrite R3. cbn [bind]. destruct (iUseSym x); [|eexists; reflexivity].
      specialize (Sp eq_refl). destruct (spg _ _ _); [congruence|]. eexists. reflexivity.
  - intros H. assert (Dc : (forall s, In s (iSpecies x) -> 0 <= s < zlen (iNames x)) \/ exists s, In s (iSpecies x) /\ ~ 0 <= s < zlen (iNames x)).
    { clear. induction (iSpecies x) as [|s ss IH]; [left; intros s []|]. destruct (Z_lt_dec s 0) as [N|P]; [right; exists s; split; [left; reflexivity|lia]|].
      destruct (Z_lt_dec s (zlen (iNames x))) as [Q|Q]; [|right; exists s; split; [left; reflexivity|lia]].
      destruct IH as [A | (s' & I & N)]; [left; intros s' [<- | I]; [lia|apply A; exact I]|right; exists s'; split; [right; exact I|exact N]]. }
    destruct Dc as [B | B]; [exfalso|exact B]. unfold newCrystal in H. destruct (rleb _ _); [discriminate|]. destruct (negb _); [discriminate|].
    destruct (zlen (iMasses x) =? zlen (iNames x)) eqn:L2; cbn [negb] in H; [|discriminate].
    destruct (naturalCouplings (iNames x)) as [g| |] eqn:G; cbn [bind] in H; [|discriminate|exact (natural_not_ub _ G)]. destruct (naturalCouplings_ok _ _ G) as [Lg _].
    destruct (customizeMasses x) as [ms| |] eqn:Ms; cbn [bind] in H; [|discriminate|unfold customizeMasses in Ms; destruct (iCustomMasses x); [discriminate|]; destruct (negb _); [discriminate|]; destruct (negb _); discriminate].
    assert (Lm : zlen ms = zlen (iNames x)).
    { unfold customizeMasses in Ms. destruct (iCustomMasses x) as [|q qs]; [injection Ms as <-; lia|]. destruct (negb _); [discriminate|]. destruct (zlen (q :: qs) =? zlen (iNames x)) eqn:L; cbn [negb] in Ms; [|discriminate].
      injection Ms as <-. rewrite override_len; lia. }
    destruct (customizeCouplings x g) as [cs| |] eqn:Cs; cbn [bind] in H; [|discriminate|unfold customizeCouplings in Cs; destruct (iCustomCouplings x); [discriminate|]; destruct (iNames x); [discriminate|]; destruct (negb _); discriminate].
    assert (Lc : zlen cs = zlen (iNames x)).
    { unfold customizeCouplings in Cs. destruct (iCustomCouplings x) as [|q qs]; [injection Cs as <-; lia|]. destruct (iNames x) as [|n ns] eqn:En; [injection Cs as <-; exact Lg|]. rewrite <- En in *.
      destruct (zlen (q :: qs) =? zlen (iNames x)) eqn:L; cbn [negb] in Cs; [|discriminate]. injection Cs as <-. rewrite override_len; lia. }
    destruct (OfOk _ ms) as (r1 & R1); [rewrite Lm; exact B|]. destruct (OfOk _ (iNames x) B) as (r2 & R2). destruct (OfOk _ cs) as (r3 & R3); [rewrite Lc; exact B|].
    rewrite R1 in H. cbn [bind] in H. rewrite R2 in H. cbn [bind] in H. rewrite R3 in H. cbn [bind] in H. destruct (iUseSym x); [destruct (spg _ _ _)|]; discriminate.
Qed.
Print Assumptions C146_accepted.
(** an example: caesium chloride with inversion, a mass changed by the user *)
Definition exCell : rmat := RM (RV 2 0 0) (RV 0 2 0) (RV 0 0 2).
Definition exIn (cell : rmat) (couplings : list Q) : crystalIn :=
  CrystalIn cell [RV 0 0 0; RV 1 1 1] [0; 1] [str! "Cs"; str! "Cl"] [133; 35]%Q 3 (str! "phononTransport") [0; 37]%Q couplings true.
Definition exSpg : rmat -> list rvec -> list Z -> list (zrot * rvec) := fun _ _ _ => [(zid, RV 0 0 0); (ZR (-1) 0 0 0 (-1) 0 0 0 (-1), RV 0 0 0)].
Lemma exOk cell g : (0 < calcVolume cell)%R -> zlen g = 2 \/ g = [] -> exists c, newCrystal exSpg (exIn cell g) = Ok c.
Proof.
  intros V L. apply C146_accepted. cbn -[calcVolume In zlen elementOf]. split; [exact V|]. split; [reflexivity|]. split; [reflexivity|]. split; [|split; [|split; [|split]]].
  - intros s [<- | [<- | []]].
    + destruct (C147_lookup (str! "Cs")) as [(e & K & _) | (_ & G & _)]; [exists e; exact K|exfalso; vm_compute in G; discriminate].
    + destruct (C147_lookup (str! "Cl")) as [(e & K & _) | (_ & G & _)]; [exists e; exact K|exfalso; vm_compute in G; discriminate].
  - right. split; reflexivity.
  - destruct L as [L | L]; [right; right; exact L|left; exact L].
  - intros s [<- | [<- | []]]; cbn; lia.
  - intros _. discriminate.
Qed.
Lemma exVol : (0 < calcVolume exCell)%R.
Proof. rewrite volume_det. replace (rdet exCell) with 8%R; [rewrite Rabs_pos_eq; lra|]. unfold rdet, rdot, rcross, exCell; cbn [vx vy vz m0 m1 m2]. lra. Qed.
Example C146_crystal_ex : (exists c, newCrystal exSpg (exIn exCell []) = Ok c /\ zget (cMasses c) 0 = Some 133%Q /\ zget (cMasses c) 1 = Some 37%Q) /\
  forall xs, map (point (iCell (exIn exCell []))) xs = iPositions (exIn exCell []) -> spgSound exCell xs [1; 2] (exSpg exCell xs [1; 2]).
Proof.
  split.
  - destruct (exOk exCell [] exVol (or_intror eq_refl)) as (c & H). exists c. split; [exact H|]. destruct (C146_atoms exSpg _ c H) as (_ & _ & _ & _ & _ & G).
    destruct (G 0 0 eq_refl) as (n0 & q0 & e0 & _ & M0 & _ & _ & C0 & _). destruct (G 1 1 eq_refl) as (n1 & q1 & e1 & _ & M1 & _ & _ & C1 & _). cbn in M0, M1. injection M0 as <-. injection M1 as <-.
    split; [exact C0|exact C1].
  - cbn [iCell iPositions exIn]. intros xs E. assert (D : rdet exCell <> 0%R) by (apply vol_det; exact exVol).
    assert (X : xs = map (rapp (rinv exCell)) [RV 0 0 0; RV 1 1 1]).
    { rewrite <- E, map_map. rewrite <- (map_id xs) at 1. apply map_ext. intros a. rewrite <- rapp_point. symmetry. apply rinv_l. exact D. }
    assert (X0 : rapp (rinv exCell) (RV 0 0 0) = RV 0 0 0) by (replace (RV 0 0 0) with (rapp exCell (RV 0 0 0)) at 1 by (unfold rapp, rdot, exCell; cbn [vx vy vz m0 m1 m2]; f_equal; lra); apply rinv_l; exact D).
    assert (X1 : rapp (rinv exCell) (RV 1 1 1) = RV (1/2) (1/2) (1/2)) by (replace (RV 1 1 1) with (rapp exCell (RV (1/2) (1/2) (1/2))) at 1 by (unfold rapp, rdot, exCell; cbn [vx vy vz m0 m1 m2]; f_equal; lra); apply rinv_l; exact D).
    cbn [map] in X. rewrite X0, X1 in X. subst xs. intros W w [Ew | [Ew | []]].
    + apply (identity_sound exCell _ [1; 2]). left. exact Ew.
    + injection Ew as <- <-. split.
      * intros u v. unfold point, vlin, vadd, rscale, a1, a2, a3, rapp, rdot, exCell; cbn [vx vy vz m0 m1 m2 rotR z00 z01 z02 z10 z11 z12 z20 z21 z22]. ring.
      * intros i x t Hx Ht. assert (Hi : i = 0 \/ i = 1) by (apply zget_in in Ht; destruct Ht as [_ Ht]; unfold zlen in Ht; cbn in Ht; lia).
        destruct Hi as [-> | ->]; cbn in Hx, Ht; injection Hx as <-; injection Ht as <-.
        -- exists 0, (RV 0 0 0), 0, 0, 0. split; [reflexivity|]. split; [reflexivity|]. unfold vadd, rapp, rdot, zvec, rotR; cbn [vx vy vz m0 m1 m2 z00 z01 z02 z10 z11 z12 z20 z21 z22]. f_equal; lra.
        -- exists 1, (RV (1/2) (1/2) (1/2)), (-1), (-1), (-1). split; [reflexivity|]. split; [reflexivity|]. unfold vadd, rapp, rdot, zvec, rotR; cbn [vx vy vz m0 m1 m2 z00 z01 z02 z10 z11 z12 z20 z21 z22]. f_equal; lra.
Qed.
(** finding (l.107): a user who asks for no isotopic disorder, couplings of 0, gets the natural disorder *)
Theorem C146_zero_coupling_refuted : ~ forall spg x c i s q, newCrystal spg x = Ok c -> zget (iSpecies x) i = Some s -> zget (iCustomCouplings x) s = Some q -> (0 <= q)%Q ->
  zget (cCouplings c) i = Some q.
Proof.
  intros H. destruct (exOk exCell [0; 0]%Q exVol (or_introl eq_refl)) as (c & Hc).
  pose proof (H exSpg _ c 1 1 0%Q Hc eq_refl eq_refl (Qle_refl 0)) as G. destruct (C146_atoms exSpg _ c Hc) as (_ & _ & _ & _ & _ & At).
  destruct (At 1 1 eq_refl) as (n & m & e & N & _ & K & _ & _ & C). rewrite G in C. cbn in N. injection N as <-. injection C as C. change (0%Q = eVariance e) in C.
  destruct (C147_lookup (str! "Cl")) as [(e' & K' & Un & _ & V & _) | (U & _)]; [|exact (U e K)]. rewrite <- (Un e K), <- C in V. vm_compute in V. discriminate.
Qed.
Print Assumptions C146_zero_coupling_refuted.
(** finding (l.318): in one dimension the "volume" is the last entry of the cell with its sign; it is negative for a crystal that is accepted *)
Theorem C146_line_refuted : ~ forall spg x c, newCrystal spg x = Ok c -> (0 <= getVolumeUnitCell (cCell c) 1)%R.
Proof.
  intros H. set (A := RM (RV 2 0 0) (RV 0 2 0) (RV 0 0 (-2))).
  assert (V : (0 < calcVolume A)%R) by (rewrite volume_det; replace (rdet A) with (-8)%R by (unfold rdet, rdot, rcross, A; cbn [vx vy vz m0 m1 m2]; lra); rewrite Rabs_left; lra).
  destruct (exOk A [] V (or_intror eq_refl)) as (c & Hc). pose proof (H exSpg _ c Hc) as G. destruct (new_parts _ _ _ Hc) as (g & ops & _ & _ & _ & _ & _ & _ & _ & _ & _ & _ & Ec & _).
  rewrite Ec in G. unfold getVolumeUnitCell, A in G. cbn in G. lra.
Qed.
Print Assumptions C146_line_refuted.
