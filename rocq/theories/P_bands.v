(** Property theorems for band structures: C18-C20, C22, C55 (numbering), C61. *)
From Coq Require Import QArith Permutation.
From Verif Require Import Base BaseLemmas M_utilities M_mpi M_reduce S_mpi M_points S_points L_points M_irreducible S_irreducible M_bands S_bands
  L_bands L_bands2 L_bands3 L_bands4.
Open Scope Z_scope.

Lemma Qltb_lt a b : Qltb a b = true <-> (a < b)%Q.
Proof. destruct (Qltb_spec a b); split; intro; auto; discriminate. Qed.

(** * C18 *)
Theorem C18_state_numbering : forall nb, Forall (fun n => 0 <= n) nb ->
  (forall ik ib, isState nb ik ib -> exists is, bloch2Comb nb ik ib = Ok is /\ 0 <= is < numStates nb /\ comb2Bloch nb is = Ok (ik, ib)) /\
  (forall is, 0 <= is < numStates nb -> exists ik ib, comb2Bloch nb is = Ok (ik, ib) /\ isState nb ik ib /\ bloch2Comb nb ik ib = Ok is).
Proof. exact state_numbering. Qed.
Print Assumptions C18_state_numbering.
Theorem C18_velocity_slots : forall nb, Forall (fun n => 0 <= n) nb ->
  (forall ik ib1 ib2 i, isState nb ik ib1 -> isState nb ik ib2 -> 0 <= i < 3 ->
     exists s, velBloch2Comb nb ik ib1 ib2 i = Ok s /\ 0 <= s < numVelStates nb) /\
  (forall ik ib1 ib2 i ik' ib1' ib2' i' s, isState nb ik ib1 -> isState nb ik ib2 -> 0 <= i < 3 ->
     isState nb ik' ib1' -> isState nb ik' ib2' -> 0 <= i' < 3 ->
     velBloch2Comb nb ik ib1 ib2 i = Ok s -> velBloch2Comb nb ik' ib1' ib2' i' = Ok s ->
     ik = ik' /\ ib1 = ib1' /\ ib2 = ib2' /\ i = i').
Proof. exact velocity_slots. Qed.
Print Assumptions C18_velocity_slots.
Theorem C18_eigenvector_slots : forall nfb nb, 0 <= nfb -> Forall (fun n => 0 <= n) nb ->
  (forall ik ib1 ib2, 0 <= ib1 < nfb -> isState nb ik ib2 ->
     exists s, eigBloch2Comb nfb nb ik ib1 ib2 = Ok s /\ 0 <= s < numEigStates nfb nb) /\
  (forall ik ib1 ib2 ik' ib1' ib2' s, 0 <= ib1 < nfb -> isState nb ik ib2 -> 0 <= ib1' < nfb -> isState nb ik' ib2' ->
     eigBloch2Comb nfb nb ik ib1 ib2 = Ok s -> eigBloch2Comb nfb nb ik' ib1' ib2' = Ok s -> ik = ik' /\ ib1 = ib1' /\ ib2 = ib2').
Proof. exact eigenvector_slots. Qed.
Print Assumptions C18_eigenvector_slots.
Example C18_ex : Forall (fun n => 0 <= n) [2; 0; 3; 1] /\ isState [2; 0; 3; 1] 2 1 /\ bloch2Comb [2; 0; 3; 1] 2 1 = Ok 3 /\
  comb2Bloch [2; 0; 3; 1] 3 = Ok (2, 1) /\ velBloch2Comb [2; 0; 3; 1] 2 1 2 0 = Ok 27 /\ eigBloch2Comb 4 [2; 0; 3; 1] 2 3 1 = Ok 18.
Proof.
  split; [repeat (apply Forall_cons; [lia|]); apply Forall_nil|]. split; [exists 3; split; [reflexivity|lia]|]. repeat split; reflexivity.
Qed.

(** * C19 *)
Theorem C19_bte_numbering : forall nb irr red2irr, Forall (fun n => 0 <= n) nb -> indexMaps irr red2irr (zlen nb) ->
  exists offs aux numIrrStates, buildSymmetries nb irr red2irr = Ok (offs, aux) /\
  numIrrStates = zsum (map (bandsAt nb) irr) /\
  (forall iBte, 0 <= iBte < numIrrStates -> exists is ik ib, bteToState nb irr aux iBte = Ok is /\
     comb2Bloch nb is = Ok (ik, ib) /\ isState nb ik ib /\ In ik irr /\ stateToBte nb irr red2irr offs is = Ok iBte) /\
  (forall is ik ib, 0 <= is < numStates nb -> comb2Bloch nb is = Ok (ik, ib) -> In ik irr -> exists iBte, 0 <= iBte < numIrrStates /\
     stateToBte nb irr red2irr offs is = Ok iBte /\ bteToState nb irr aux iBte = Ok is) /\
  (forall is ik ib e is', 0 <= is < numStates nb -> comb2Bloch nb is = Ok (ik, ib) -> representative irr red2irr ik e -> isState nb e ib ->
     bloch2Comb nb e ib = Ok is' -> stateToBte nb irr red2irr offs is = stateToBte nb irr red2irr offs is' /\
     exists iBte, stateToBte nb irr red2irr offs is = Ok iBte /\ 0 <= iBte < numIrrStates).
Proof. exact bte_numbering. Qed.
Print Assumptions C19_bte_numbering.
Theorem C19_irreducible_states_iterator : forall nb irr red2irr, Forall (fun n => 0 <= n) nb -> indexMaps irr red2irr (zlen nb) ->
  exists offs aux, buildSymmetries nb irr red2irr = Ok (offs, aux) /\
  exists iter, irrStateIterator nb irr = Ok iter /\
  mapM (stateToBte nb irr red2irr offs) iter = Ok (zrange 0 (zsum (map (bandsAt nb) irr))) /\
  (forall is, In is iter <-> exists ik ib, isState nb ik ib /\ In ik irr /\ bloch2Comb nb ik ib = Ok is) /\
  forall size, fits (zlen iter) size -> concat (map (fun r => parallelSlice iter r size) (zrange 0 size)) = iter.
Proof. exact irr_state_iterator. Qed.
Print Assumptions C19_irreducible_states_iterator.
(** same for a band structure with a constant number of bands *)
Theorem C19_full_bte_numbering : forall numBands irr red2irr nk, 0 < numBands -> indexMaps irr red2irr nk ->
  (forall iBte, 0 <= iBte < zlen irr * numBands -> exists is, fullBteToState numBands irr iBte = Ok is /\ 0 <= is < nk * numBands /\
     fullStateToBte numBands irr red2irr is = Ok iBte) /\
  (forall is ik ib, 0 <= is < nk * numBands -> fullFromIndex numBands is = Ok (ik, ib) -> In ik irr -> exists iBte,
     fullStateToBte numBands irr red2irr is = Ok iBte /\ 0 <= iBte < zlen irr * numBands /\ fullBteToState numBands irr iBte = Ok is) /\
  (forall is ik ib e, 0 <= is < nk * numBands -> fullFromIndex numBands is = Ok (ik, ib) -> representative irr red2irr ik e ->
     fullStateToBte numBands irr red2irr is = fullStateToBte numBands irr red2irr (fullGetIndex numBands e ib)).
Proof. exact full_bte. Qed.
Print Assumptions C19_full_bte_numbering.
(** the tables made by the symmetry analysis are such tables *)
Theorem C19_tables_of_points_qualify : forall (S : Type) (rot : S -> Z -> res Z) syms n, 0 < n -> acts rot syms n ->
  (exists E, zget syms 0 = Some E /\ forall j, 0 <= j < n -> rot E j = Ok j) ->
  exists equiv stars ri, setIrreduciblePoints rot syms n [] = Ok (equiv, stars, ri) /\
  forall size, fits n size -> exists outs, redToIrr equiv size = Ok outs /\ zlen outs = size /\
    Forall (fun red2irr => indexMaps (irrList equiv) red2irr n /\
      forall ik e, representative (irrList equiv) red2irr ik e -> 0 <= ik < n -> isRepresentative rot syms n ik e) outs.
Proof. exact @maps_qualify. Qed.
Print Assumptions C19_tables_of_points_qualify.
Example C19_ex : Forall (fun n => 0 <= n) [2; 3; 2; 1] /\ indexMaps [0; 1; 3] [0; 1; 0; 2] 4 /\
  buildSymmetries [2; 3; 2; 1] [0; 1; 3] [0; 1; 0; 2] = Ok ([0; 2; 5], [(0,0); (0,1); (1,0); (1,1); (1,2); (2,0)]) /\
  stateToBte [2; 3; 2; 1] [0; 1; 3] [0; 1; 0; 2] [0; 2; 5] 6 = Ok 1 /\
  bteToState [2; 3; 2; 1] [0; 1; 3] [(0,0); (0,1); (1,0); (1,1); (1,2); (2,0)] 5 = Ok 7.
Proof.
  split; [repeat (apply Forall_cons; [lia|]); apply Forall_nil|]. split; [|repeat split; reflexivity].
  split; [reflexivity|]. split.
  - intros i Hi. change (zlen [0; 1; 3]) with 3 in Hi. assert (i = 0 \/ i = 1 \/ i = 2) as [->|[->| ->]] by lia; eexists; (split; [reflexivity|split; [lia|reflexivity]]).
  - intros i Hi. change (zlen [0; 1; 3]) with 3. assert (i = 0 \/ i = 1 \/ i = 2 \/ i = 3) as [->|[->|[->| ->]]] by lia; eexists; (split; [reflexivity|lia]).
Qed.

(** * C20 *)
Theorem C20_energy_window : forall (lo hi : Q) energies,
  windowResult (fun e => (lo < e)%Q /\ (e < hi)%Q) energies (windowFilter (inEnergyWindow lo hi) energies).
Proof.
  intros lo hi energies. pose proof (windowFilter_spec (inEnergyWindow lo hi) energies) as W.
  assert (K : forall e, inEnergyWindow lo hi e = true <-> (lo < e)%Q /\ (e < hi)%Q).
  { intro e. unfold inEnergyWindow. rewrite andb_true_iff, !Qltb_lt. tauto. }
  destruct W as (W1 & W2 & W3 & idx & W4 & W5 & W6). split; [|split; [exact W2|split]].
  - rewrite W1. split; intros H i e G A; apply (H i e G), K, A.
  - intro H. destruct (W3 H) as (a & b & ea & eb & E1 & E2 & E3 & E4 & E5 & E6).
    exists a, b, ea, eb. split; [exact E1|]. split; [exact E2|]. split; [apply K, E3|]. split; [exact E4|]. split; [apply K, E5|].
    intros i e G A. apply (E6 i e G), K, A.
  - exists idx. split; [|split; assumption]. intro i. rewrite W4. split; intros (e & G & A); exists e; (split; [exact G|apply K, A]).
Qed.
Print Assumptions C20_energy_window.
(** the limits used are the smaller and the larger of the two numbers given; equal or missing numbers stop the run *)
Theorem C20_energy_limits : forall limits, match energyLimits limits with
  | Ok (lo, hi) => exists a b, limits = Some (a, b) /\ (lo < hi)%Q /\ (((lo == a)%Q /\ (hi == b)%Q) \/ ((lo == b)%Q /\ (hi == a)%Q))
  | Err => limits = None \/ exists a b, limits = Some (a, b) /\ (a == b)%Q
  | UB => False
  end.
Proof.
  intros [[a b]|]; cbn; [|left; reflexivity]. unfold qmin, qmax.
  destruct (Qltb b a) eqn:E1, (Qltb a b) eqn:E2; try apply Qltb_lt in E1; try apply Qltb_lt in E2.
  - exfalso. apply (Qlt_irrefl a). apply Qlt_trans with b; assumption.
  - destruct (Qeq_bool b a) eqn:E3.
    + apply Qeq_bool_iff in E3. exfalso. rewrite E3 in E1. apply (Qlt_irrefl a E1).
    + exists a, b. split; [reflexivity|]. split; [assumption|]. right. split; reflexivity.
  - destruct (Qeq_bool a b) eqn:E3.
    + apply Qeq_bool_iff in E3. exfalso. rewrite E3 in E2. apply (Qlt_irrefl b E2).
    + exists a, b. split; [reflexivity|]. split; [assumption|]. left. split; reflexivity.
  - assert (Eab : (a == b)%Q).
    { apply Qle_antisym; apply Qnot_lt_le; intro K; apply Qltb_lt in K; congruence. }
    assert (E3 : Qeq_bool a a = true) by (apply Qeq_bool_iff; reflexivity). rewrite E3. right. exists a, b. split; [reflexivity|assumption].
Qed.
Print Assumptions C20_energy_limits.
(** chemical-potential centred window: every band within the given distances of every requested
    chemical potential is inside *)
Theorem C20_mu_window_contains : forall muMin muMax a b lo hi mu e,
  muEnergyLimits muMin muMax (Some (a, b)) = Ok (lo, hi) -> (muMin <= mu)%Q -> (mu <= muMax)%Q ->
  (mu - qabs (qmin a b) < e)%Q -> (e < mu + qabs (qmax a b))%Q -> inEnergyWindow lo hi e = true.
Proof.
  intros muMin muMax a b lo hi mu e H H1 H2 H3 H4. unfold muEnergyLimits in H.
  match type of H with context [if ?c then _ else _] => destruct c end; [discriminate|]. injection H as <- <-.
  unfold inEnergyWindow. rewrite andb_true_iff, !Qltb_lt. split.
  - apply Qlt_le_trans with (mu + qabs (qmax a b))%Q; [assumption|]. apply Qplus_le_compat; [assumption|apply Qle_refl].
  - apply Qle_lt_trans with (mu - qabs (qmin a b))%Q; [|assumption]. apply Qplus_le_compat; [assumption|apply Qle_refl].
Qed.
Print Assumptions C20_mu_window_contains.
Example C20_ex : windowFilter (inEnergyWindow (1#2) (7#2)) [0; 1; 3; 5; 2; 9]%Q = ([1; 3; 2]%Q, [1; 4]) /\
  energyLimits (Some (3, 1)%Q) = Ok (1, 3)%Q /\ muEnergyLimits (-1) 2 (Some (-3, 1)%Q) = Ok (-1 - 3, 2 + 1)%Q.
Proof. split; [vm_compute; reflexivity|]. split; reflexivity. Qed.

(** * C22 *)
Theorem C22_kept_points_independent_of_ranks_and_threads :
  forall (E : Type) (apply : Z -> list E * list Z) n (chunks : list (list (list Z))),
  0 <= n -> (forall ik, 0 <= ik < n -> fst (apply ik) = [] \/ exists a b, snd (apply ik) = [a; b]) ->
  fits (zlen chunks) (zlen chunks) -> zlen chunks <= INT_MAX ->
  concat (map (@concat Z) chunks) = zrange 0 n ->
  exists f lo hi, gatherPoints apply chunks = Ok (f, lo, hi) /\
    zlen f = zlen chunks /\ zlen lo = zlen chunks /\ zlen hi = zlen chunks /\
    Forall (fun o => o = filter (keeps apply) (zrange 0 n)) f /\
    Forall (fun o => o = map (firstBand apply) (filter (keeps apply) (zrange 0 n))) lo /\
    Forall (fun o => o = map (lastBand apply) (filter (keeps apply) (zrange 0 n))) hi.
Proof. exact @gatherPoints_spec. Qed.
Print Assumptions C22_kept_points_independent_of_ranks_and_threads.
(** windows return such results *)
Theorem C22_windows_qualify : forall (E : Type) (keep : E -> bool) energies,
  fst (windowFilter keep energies) = [] \/ exists a b, snd (windowFilter keep energies) = [a; b].
Proof.
  intros E keep energies. pose proof (windowFilter_spec keep energies) as (_ & _ & W & _).
  destruct (fst (windowFilter keep energies)) eqn:F; [left; reflexivity|right].
  destruct W as (a & b & _ & _ & H & _); [discriminate|]. exists a, b. exact H.
Qed.
Print Assumptions C22_windows_qualify.
(** the number of bands kept at a point counts the bands from the first to the last *)
Theorem C22_band_counts : forall lo hi ik l h, zget lo ik = Some l -> zget hi ik = Some h -> 0 <= l <= h ->
  zget (activeNumBands lo hi) ik = Some (zlen (filter (fun b => (l <=? b) && (b <=? h)) (zrange 0 (h + 1)))).
Proof.
  intros lo hi ik l h e1 e2 H. unfold activeNumBands. rewrite zget_map.
  assert (C : zget (combine lo hi) ik = Some (l, h)).
  { unfold zget in *. destruct (ik <? 0); [discriminate|]. revert hi e1 e2. generalize (Z.to_nat ik) as n. clear. induction lo as [|a lo IH]; intros n hi e1 e2; [destruct n; discriminate|].
    destruct hi as [|b hi]; [destruct n; discriminate|]. destruct n as [|n]; cbn in *; [congruence|]. apply IH; assumption. }
  rewrite C. cbn [option_map fst snd]. f_equal. replace (h + 1) with (l + (h - l + 1)) by lia. rewrite <- zrange_app by lia. rewrite filter_app.
  assert (F1 : filter (fun b => (l <=? b) && (b <=? h)) (zrange 0 l) = []).
  { assert (G : forall b, In b (zrange 0 l) -> ((l <=? b) && (b <=? h)) = false) by (intros b hb; apply in_zrange in hb; lia). revert G. generalize (zrange 0 l) as m. induction m as [|x m IH]; intro G; [reflexivity|]. cbn. rewrite (G x (or_introl eq_refl)). apply IH. intros b hb. apply G. now right. }
  assert (F2 : filter (fun b => (l <=? b) && (b <=? h)) (zrange (0 + l) (h - l + 1)) = zrange (0 + l) (h - l + 1)).
  { assert (G : forall b, In b (zrange (0 + l) (h - l + 1)) -> ((l <=? b) && (b <=? h)) = true) by (intros b hb; apply in_zrange in hb; lia). revert G. generalize (zrange (0 + l) (h - l + 1)) as m. induction m as [|x m IH]; intro G; [reflexivity|]. cbn. rewrite (G x (or_introl eq_refl)). f_equal. apply IH. intros b hb. apply G. now right. }
  rewrite F1, F2. cbn [app]. rewrite zlen_zrange by lia. lia.
Qed.
Print Assumptions C22_band_counts.
Theorem C22_energies_independent_of_ranks : forall (V : Type) (zero : V) add,
  (forall v, add zero v = v) -> (forall v, add v zero = v) ->
  forall nb lo, Forall (fun n => 0 <= n) nb -> zlen lo = zlen nb ->
  forall iks, iks <> [] -> Permutation (concat iks) (zrange 0 (zlen nb)) ->
  forall en : Z -> list V,
  (forall ik n l, zget nb ik = Some n -> zget lo ik = Some l -> 0 <= l /\ l + n <= zlen (en ik)) ->
  exists outs, fillPoints add zero (numStates nb) (energyWrites nb lo en) iks = Ok outs /\ zlen outs = zlen iks /\
    Forall (fun o => zlen o = numStates nb /\ forall ik ib l is, isState nb ik ib -> zget lo ik = Some l -> bloch2Comb nb ik ib = Ok is ->
      zget o is = zget (en ik) (l + ib)) outs.
Proof. exact @fill_energies. Qed.
Print Assumptions C22_energies_independent_of_ranks.
Theorem C22_velocities_independent_of_ranks : forall (V : Type) (zero : V) add,
  (forall v, add zero v = v) -> (forall v, add v zero = v) ->
  forall nb lo, Forall (fun n => 0 <= n) nb -> zlen lo = zlen nb ->
  forall iks, iks <> [] -> Permutation (concat iks) (zrange 0 (zlen nb)) ->
  forall vel : Z -> Z -> Z -> Z -> V,
  exists outs, fillPoints add zero (numVelStates nb) (velocityWrites nb lo vel) iks = Ok outs /\ zlen outs = zlen iks /\
    Forall (fun o => zlen o = numVelStates nb /\ forall ik ib1 ib2 i l s, isState nb ik ib1 -> isState nb ik ib2 -> 0 <= i < 3 ->
      zget lo ik = Some l -> velBloch2Comb nb ik ib1 ib2 i = Ok s -> zget o s = Some (vel ik (l + ib1) (l + ib2) i)) outs.
Proof. exact @fill_velocities. Qed.
Print Assumptions C22_velocities_independent_of_ranks.
Theorem C22_eigenvectors_independent_of_ranks : forall (V : Type) (zero : V) add,
  (forall v, add zero v = v) -> (forall v, add v zero = v) ->
  forall nb lo, Forall (fun n => 0 <= n) nb -> zlen lo = zlen nb ->
  forall iks, iks <> [] -> Permutation (concat iks) (zrange 0 (zlen nb)) ->
  forall nfb (eig : Z -> Z -> Z -> V), 0 <= nfb ->
  exists outs, fillPoints add zero (numEigStates nfb nb) (eigenvectorWrites nfb nb lo eig) iks = Ok outs /\ zlen outs = zlen iks /\
    Forall (fun o => zlen o = numEigStates nfb nb /\ forall ik ib1 ib2 l s, 0 <= ib1 < nfb -> isState nb ik ib2 ->
      zget lo ik = Some l -> eigBloch2Comb nfb nb ik ib1 ib2 = Ok s -> zget o s = Some (eig ik ib1 (l + ib2))) outs.
Proof. exact @fill_eigenvectors. Qed.
Print Assumptions C22_eigenvectors_independent_of_ranks.
(** two ranks with two threads each and three ranks with one thread each, same answer *)
Definition win_ex (ik : Z) : list Q * list Z := windowFilter (inEnergyWindow 1 4) [inject_Z ik - 2; inject_Z ik; inject_Z ik + 1]%Q.
Example C22_ex : concat (map (@concat Z) [[[0; 1]; [2]]; [[3]; [4; 5]]]) = zrange 0 6 /\
  gatherPoints win_ex [[[0; 1]; [2]]; [[3]; [4; 5]]] = Ok ([[1;2;3;4;5]; [1;2;3;4;5]], [[2;1;1;0;0]; [2;1;1;0;0]], [[2;2;1;0;0]; [2;2;1;0;0]]) /\
  gatherPoints win_ex [[[0; 1]]; [[2; 3]]; [[4; 5]]] = Ok ([[1;2;3;4;5]; [1;2;3;4;5]; [1;2;3;4;5]],
     [[2;1;1;0;0]; [2;1;1;0;0]; [2;1;1;0;0]], [[2;2;1;0;0]; [2;2;1;0;0]; [2;2;1;0;0]]).
Proof. split; [reflexivity|]. split; vm_compute; reflexivity. Qed.
Example C22_ex2 : fillPoints Z.add 0 (numStates [1; 2]) (energyWrites [1; 2] [1; 0] (fun ik => [10 * ik + 5; 10 * ik + 6])) [[1]; [0]; []]
  = Ok [[6; 15; 16]; [6; 15; 16]; [6; 15; 16]].
Proof. vm_compute. reflexivity. Qed.

(** * C55: numbering of the full band structure *)
Theorem C55_state_numbering : forall nb nk, 0 < nb ->
  (forall ik ib, 0 <= ik < nk -> 0 <= ib < nb -> 0 <= fullGetIndex nb ik ib < nk * nb /\ fullFromIndex nb (fullGetIndex nb ik ib) = Ok (ik, ib)) /\
  (forall is, 0 <= is < nk * nb -> exists ik ib, fullFromIndex nb is = Ok (ik, ib) /\ 0 <= ik < nk /\ 0 <= ib < nb /\ fullGetIndex nb ik ib = is).
Proof. exact full_index. Qed.
Print Assumptions C55_state_numbering.
Example C55_ex : fullFromIndex 6 (fullGetIndex 6 4 5) = Ok (4, 5).
Proof. reflexivity. Qed.

(** * C61 *)
Theorem C61_no_window_energies_refuted : exists energies : list Q, fst (windowNothing inject_Z energies) <> energies.
Proof. exists [(5 # 2)%Q]. cbn. discriminate. Qed.
Print Assumptions C61_no_window_energies_refuted.
(** all bands are kept and the right number of energies is returned (missing: their values) *)
Theorem C61_no_window_partial : forall (E : Type) (ofZ : Z -> E) energies, energies <> [] ->
  exists a b, snd (windowNothing ofZ energies) = [a; b] /\ zlen (fst (windowNothing ofZ energies)) = zlen energies /\ (forall i e, zget energies i = Some e -> a <= i <= b) /\ (exists e, zget energies a = Some e) /\ exists e, zget energies b = Some e.
Proof.
  intros E ofZ energies H. exists 0, (zlen energies - 1). split; [reflexivity|].
  assert (0 < zlen energies) by (unfold zlen; destruct energies; [contradiction|cbn; lia]).
  split; [cbn; rewrite zlen_map, zlen_zrange; lia|]. split; [|split].
  - intros i e G. destruct (zget_Some _ _ _ G) as [R _]. lia.
  - apply zget_inrange. lia.
  - apply zget_inrange. lia.
Qed.
Print Assumptions C61_no_window_partial.
