(** Lemmas about the readers of text files *)
From Coq Require Import Reals Ascii Permutation.
From Verif Require Import Base BaseLemmas M_particle M_context L_context M_complex L_matrix M_qe M_qeio S_qeio.
From Coq Require Import Lia Lra.
Open Scope Z_scope.

Lemma loop_ok {K W X} (body : K -> list line * X -> res (list W * (list line * X))) wr ws ks :
  (forall k rest x, In k ks -> exists x', body k (wr k ++ rest, x) = Ok (ws k, (rest, x'))) ->
  forall rest x, exists x', loop body ks (flat_map wr ks ++ rest, x) = Ok (flat_map ws ks, (rest, x')).
Proof.
  induction ks as [|k ks IH]; intros H rest x; [now exists x|]. cbn [flat_map loop]. rewrite <- app_assoc. destruct (H k (flat_map wr ks ++ rest) x (or_introl eq_refl)) as [x1 ->]. cbn [bind].
  destruct (IH (fun k' r y Hk => H k' r y (or_intror Hk)) rest x1) as [x2 ->]. now exists x2.
Qed.
Lemma loop_unit {K W} (body : K -> list line * unit -> res (list W * (list line * unit))) wr ws ks :
  (forall k rest, In k ks -> body k (wr k ++ rest, tt) = Ok (ws k, (rest, tt))) -> forall rest, loop body ks (flat_map wr ks ++ rest, tt) = Ok (flat_map ws ks, (rest, tt)).
Proof.
  intros H rest. destruct (loop_ok body wr ws ks) with (rest := rest) (x := tt) as [[] E]; [|exact E]. intros k r [] Hk. exists tt. now apply H.
Qed.
Lemma stoi_int z : int z -> stoi (WI z) = Ok z.
Proof. intros [H1 H2]. cbn. apply Z.leb_le in H1, H2. now rewrite H1, H2. Qed.
Lemma row_ok {K} (key : Z -> K) f rest : readRow key (rowOf f :: rest, tt) = Ok ([(key 0, f 0); (key 1, f 1); (key 2, f 2)], (rest, tt)).
Proof. reflexivity. Qed.
Lemma flat_map_single {A B} (f : A -> B) l : flat_map (fun x => [f x]) l = map f l.
Proof. induction l as [|x l IH]; [reflexivity|]. cbn. now rewrite IH. Qed.
(** assignments over a product of ranges *)
Lemma definesOn_map {K V A} (ks : list A) (g : A -> K) (v : A -> V) (range : K -> Prop) f : NoDup (map g ks) -> (forall k, range k <-> exists a, In a ks /\ g a = k) -> (forall a, In a ks -> v a = f (g a)) ->
  definesOn (map (fun a => (g a, v a)) ks) range f.
Proof.
  intros HN HR HV. split; [rewrite map_map; exact HN|]. intros k w. rewrite in_map_iff, HR. split.
  - intros (a & E & Ha). injection E as <- <-. split; [now exists a|now apply HV].
  - intros ((a & Ha & <-) & ->). exists a. split; [now rewrite HV|exact Ha].
Qed.
Lemma definesOn_perm {K V} (l l' : list (K * V)) range f : Permutation l l' -> definesOn l range f -> definesOn l' range f.
Proof.
  intros HP [H1 H2]. split; [now apply (Permutation_NoDup (Permutation_map fst HP))|]. intros k v. rewrite <- H2. split; apply Permutation_in; [now apply Permutation_sym|exact HP].
Qed.
Lemma dir_three i : dir i <-> In i three.
Proof. unfold dir, three. cbn [In]. lia. Qed.
Lemma NoDup_three : NoDup three. Proof. repeat constructor; cbn; lia. Qed.

Section Fc.
Variable d : qeData.
Lemma fcValue_ok ic b r rest x : let '(jc, iat, jat) := b in let '(r3, r2, r1) := r in
  fcValue ic b r ([WI (r1 + 1); WI (r2 + 1); WI (r3 + 1); WR (dFC d (ic, jc, r1, r2, r3, iat, jat))] :: rest, x) = Ok ([((ic, jc, r1, r2, r3, iat, jat), dFC d (ic, jc, r1, r2, r3, iat, jat))], (rest, Some (dFC d (ic, jc, r1, r2, r3, iat, jat)))).
Proof. destruct b as [[jc iat] jat]. destruct r as [[r3 r2] r1]. reflexivity. Qed.
Definition fcKeyOf (ic : Z) (b r : Z * Z * Z) : fcKey := let '(jc, iat, jat) := b in let '(r3, r2, r1) := r in (ic, jc, r1, r2, r3, iat, jat).
Definition cellsOf : list (Z * Z * Z) := let '(n1, n2, n3) := dGrid d in list_prod (list_prod (zrange 0 n3) (zrange 0 n2)) (zrange 0 n1).
Definition blocksOf : list (Z * Z * Z) := list_prod (list_prod three (zrange 0 (dAt d))) (zrange 0 (dAt d)).
Definition fcWrites : list (fcKey * R) := flat_map (fun ic => flat_map (fun b => flat_map (fun r => [(fcKeyOf ic b r, dFC d (fcKeyOf ic b r))]) cellsOf) blocksOf) three.
Lemma fc_ok rest x : exists x', loop (fcDir (dGrid d) (dAt d)) three (fcLines d ++ rest, x) = Ok (fcWrites, (rest, x')).
Proof.
  unfold fcLines, fcWrites. destruct (dGrid d) as [[n1 n2] n3] eqn:EG. apply loop_ok. intros ic r1 x1 _. unfold fcDir. cbn [fst]. apply loop_ok. intros b r2 x2 _. unfold fcBlock. cbn [fst snd]. destruct b as [[jc iat] jat]. cbn [app getline snd].
  unfold cellsOf. rewrite EG. apply (loop_ok (fcValue ic (jc, iat, jat)) (fun r => let '(m3, m2, m1) := r in [[WI (m1 + 1); WI (m2 + 1); WI (m3 + 1); WR (dFC d (ic, jc, m1, m2, m3, iat, jat))]])). intros r r3 x3 _.
  pose proof (fcValue_ok ic (jc, iat, jat) r r3 x3) as F. destruct r as [[m3 m2] m1]. eexists. exact F.
Qed.
Lemma flat_prod {A B C} (f : A -> B -> C) (l : list A) (m : list B) : flat_map (fun a => flat_map (fun b => [f a b]) m) l = map (fun p => f (fst p) (snd p)) (list_prod l m).
Proof.
  induction l as [|a l IH]; [reflexivity|]. cbn [flat_map list_prod]. rewrite map_app, map_map, IH, flat_map_single. reflexivity.
Qed.
Lemma flat_map_flat {A B C} (f : B -> list C) (g : A -> list B) l : flat_map f (flat_map g l) = flat_map (fun a => flat_map f (g a)) l.
Proof. induction l as [|a l IH]; [reflexivity|]. cbn. now rewrite flat_map_app, IH. Qed.
Lemma flat_prod_list {A B C} (f : A -> B -> list C) (l : list A) (m : list B) : flat_map (fun a => flat_map (f a) m) l = flat_map (fun p => f (fst p) (snd p)) (list_prod l m).
Proof.
  induction l as [|a l IH]; [reflexivity|]. cbn [flat_map list_prod]. rewrite flat_map_app, IH. f_equal. clear. induction m as [|b m IHm]; [reflexivity|]. cbn. now rewrite IHm.
Qed.
Lemma fcWrites_eq : fcWrites = map (fun p => (fcKeyOf (fst (fst p)) (snd (fst p)) (snd p), dFC d (fcKeyOf (fst (fst p)) (snd (fst p)) (snd p)))) (list_prod (list_prod three blocksOf) cellsOf).
Proof.
  unfold fcWrites. rewrite (flat_prod_list (fun ic b => flat_map (fun r => [(fcKeyOf ic b r, dFC d (fcKeyOf ic b r))]) cellsOf)). apply (flat_prod (fun ab r => (fcKeyOf (fst ab) (snd ab) r, dFC d (fcKeyOf (fst ab) (snd ab) r)))).
Qed.
Lemma fcWrites_defines : definesOn fcWrites (fcRange d) (dFC d).
Proof.
  rewrite fcWrites_eq. apply definesOn_map; [| |reflexivity].
  - apply FinFun.Injective_map_NoDup.
    + intros [[i [[j a] b]] [[m3 m2] m1]] [[i' [[j' a'] b']] [[m3' m2'] m1']] E. cbn in E. injection E as -> -> -> -> -> -> ->. reflexivity.
    + unfold blocksOf, cellsOf. destruct (dGrid d) as [[n1 n2] n3]. repeat apply NoDup_list_prod; try apply NoDup_zrange; apply NoDup_three.
  - intros [[[[[[i j] m1] m2] m3] a] b]. unfold fcRange, cellsOf, blocksOf. destruct (dGrid d) as [[n1 n2] n3]. rewrite !dir_three. split.
    + intro H. exists (i, (j, a, b), (m3, m2, m1)). split; [|reflexivity]. rewrite !in_prod_iff, !in_zrange. repeat split; try tauto; lia.
    + intros ([[i' [[j' a'] b']] [[m3' m2'] m1']] & Hin & E). cbn in E. injection E as -> -> -> -> -> -> ->. rewrite !in_prod_iff, !in_zrange in Hin. repeat split; try tauto; lia.
Qed.
End Fc.

(** * the whole file of force constants *)
Lemma realAt_get l i x : zget l i = Some (WR x) -> realAt l i = Ok x.
Proof. intro H. unfold realAt, at_. now rewrite H. Qed.
Lemma intAt_get l i z : zget l i = Some (WI z) -> int z -> intAt l i = Ok z.
Proof. intros H Hz. unfold intAt, at_. rewrite H. cbn [bind]. now apply stoi_int. Qed.
Lemma readCell_ok f rest : readCell (flat_map (fun i => [rowOf (f i)]) three ++ rest, tt) = Ok ((f 0 0, f 0 1, f 0 2), (f 1 0, f 1 1, f 1 2), (f 2 0, f 2 1, f 2 2), (rest, tt)).
Proof. reflexivity. Qed.
Lemma rows_ok f rest : loop (fun i => readRow (fun j => (i, j))) three (flat_map (fun i => [rowOf (f i)]) three ++ rest, tt) = Ok (map (fun p => (p, f (fst p) (snd p))) (list_prod three three), (rest, tt)).
Proof. reflexivity. Qed.
Lemma species_ok d rest : loop readSpecies (zrange 0 (dEl d)) (flat_map (fun i => [[WI (i + 1); WS (dName d i); WR (dMass d i)]]) (zrange 0 (dEl d)) ++ rest, tt) = Ok (map (fun i => (dName d i, dMass d i)) (zrange 0 (dEl d)), (rest, tt)).
Proof. rewrite <- (flat_map_single (fun i => (dName d i, dMass d i))). apply loop_unit. intros. reflexivity. Qed.
Lemma atoms_ok d alat rest : (forall i, 0 <= i < dAt d -> int (dType d i + 1)) ->
  loop (readAtom alat) (zrange 0 (dAt d)) (flat_map (fun i => [[WI (i + 1); WI (dType d i + 1); WR (dPos d i 0); WR (dPos d i 1); WR (dPos d i 2)]]) (zrange 0 (dAt d)) ++ rest, tt) =
  Ok (map (fun i => (dType d i, (alat * dPos d i 0, alat * dPos d i 1, alat * dPos d i 2)%R)) (zrange 0 (dAt d)), (rest, tt)).
Proof.
  intro H. rewrite <- (flat_map_single (fun i => (dType d i, (alat * dPos d i 0, alat * dPos d i 1, alat * dPos d i 2)%R))). apply loop_unit. intros k r Hk. apply in_zrange in Hk. unfold readAtom. cbn [fst app getline].
  rewrite (intAt_get _ 1 (dType d k + 1)); [|reflexivity|apply H; lia]. cbn [bind]. rewrite (realAt_get _ 2 (dPos d k 0)) by reflexivity. cbn [bind]. rewrite (realAt_get _ 3 (dPos d k 1)) by reflexivity. cbn [bind]. rewrite (realAt_get _ 4 (dPos d k 2)) by reflexivity. cbn [bind]. cbn [bind]. now replace (dType d k + 1 - 1) with (dType d k) by lia.
Qed.
Lemma born_ok d rest : loop readBorn (zrange 0 (dAt d)) (flat_map (fun a => [WI (a + 1)] :: flat_map (fun i => [rowOf (dZ d a i)]) three) (zrange 0 (dAt d)) ++ rest, tt) =
  Ok (flat_map (fun a => flat_map (fun i => flat_map (fun j => [((a, i, j), dZ d a i j)]) three) three) (zrange 0 (dAt d)), (rest, tt)).
Proof. apply loop_unit. intros k r _. reflexivity. Qed.
Lemma diel_defines (f : Z * Z -> R) : definesOn (map (fun k => (k, f k)) (list_prod three three)) (fun k => dir (fst k) /\ dir (snd k)) f.
Proof.
  apply (definesOn_map (list_prod three three) (fun k => k) f); [rewrite map_id; apply NoDup_list_prod; apply NoDup_three| |reflexivity].
  intros [i j]. cbn [fst snd]. rewrite !dir_three. split; [intros [Hi Hj]; exists (i, j); rewrite in_prod_iff; tauto|]. intros ((i' & j') & Hin & E). injection E as -> ->. now rewrite in_prod_iff in Hin.
Qed.
Lemma born_defines n (f : Z * Z * Z -> R) : definesOn (map (fun k => (k, f k)) (list_prod (list_prod (zrange 0 n) three) three)) (fun k => let '(a, i, j) := k in 0 <= a < n /\ dir i /\ dir j) f.
Proof.
  apply (definesOn_map (list_prod (list_prod (zrange 0 n) three) three) (fun k => k) f); [rewrite map_id; repeat apply NoDup_list_prod; try apply NoDup_three; apply NoDup_zrange| |reflexivity].
  intros [[a i] j]. rewrite !dir_three. split; [intro H; exists (a, i, j); rewrite !in_prod_iff, in_zrange; repeat split; try tauto; lia|]. intros ([[a' i'] j'] & Hin & E). injection E as -> -> ->. rewrite !in_prod_iff, in_zrange in Hin. repeat split; try tauto; lia.
Qed.
Lemma head_ok d C alat L : qeSized d -> getQELattice (dIb d) (dDm d) (freeCell d) = Ok (C, alat) -> parsePhHarmonic (writeHead d ++ L) =
  (do (fc, _) <- loop (fcDir (dGrid d) (dAt d)) three (L, None) ;
   Ok {| qCell := C; qSpecies := map (fun i => (dName d i, dMass d i)) (zrange 0 (dEl d)); qAtoms := map (fun i => (dType d i, (alat * dPos d i 0, alat * dPos d i 1, alat * dPos d i 2)%R)) (zrange 0 (dAt d));
     qDiel := map (fun k => (k, if dHas d then dEps d (fst k) (snd k) else 0%R)) (list_prod three three); qBorn := map (fun k => (k, let '(a, i, j) := k in if dHas d then dZ d a i j else 0%R)) (list_prod (list_prod (zrange 0 (dAt d)) three) three);
     qGrid := dGrid d; qFC := fc |}).
Proof.
  intros (HE & HA & HI & HT & HG) HL. unfold writeHead. destruct (dGrid d) as [[n1 n2] n3] eqn:EG. destruct HG as (G1 & G2 & G3).
  assert (I1 : int n1) by (unfold int, INT_MIN; lia). assert (I2 : int n2) by (unfold int, INT_MIN; lia). assert (I3 : int n3) by (unfold int, INT_MIN; lia).
  unfold parsePhHarmonic. cbn [app getline]. set (D := dDm d) in *.
  rewrite (intAt_get _ 0 (dEl d)); [|reflexivity|exact HE]. cbn [bind]. rewrite (intAt_get _ 1 (dAt d)); [|reflexivity|exact HA]. cbn [bind]. rewrite (intAt_get _ 2 (dIb d)); [|reflexivity|exact HI]. cbn [bind]. cbn [bind].
  rewrite (realAt_get _ 3 (cd0 D)) by reflexivity. cbn [bind]. rewrite (realAt_get _ 4 (cd1 D)) by reflexivity. cbn [bind]. rewrite (realAt_get _ 5 (cd2 D)) by reflexivity. cbn [bind]. rewrite (realAt_get _ 6 (cd3 D)) by reflexivity. cbn [bind]. rewrite (realAt_get _ 7 (cd4 D)) by reflexivity. cbn [bind]. rewrite (realAt_get _ 8 (cd5 D)) by reflexivity. cbn [bind]. cbn [bind].
  assert (ED : {| cd0 := cd0 D; cd1 := cd1 D; cd2 := cd2 D; cd3 := cd3 D; cd4 := cd4 D; cd5 := cd5 D |} = D) by now destruct D. rewrite ED. rewrite <- !app_assoc.
  assert (EC : forall r, (if dIb d =? 0 then readCell ((if dIb d =? 0 then flat_map (fun i => [rowOf (dFree d i)]) three else []) ++ r, tt) else Ok (zeroCell, ((if dIb d =? 0 then flat_map (fun i => [rowOf (dFree d i)]) three else []) ++ r, tt))) = Ok (freeCell d, (r, tt))).
  { intro r. unfold freeCell. destruct (dIb d =? 0); [apply readCell_ok|reflexivity]. }
  rewrite EC. cbn [bind]. rewrite HL. cbn [bind]. rewrite species_ok. cbn [bind]. rewrite (atoms_ok d alat _ HT). cbn [bind fst app getline].
  assert (EB : forall r, readDielectric (isT [WS [if dHas d then "T"%char else "F"%char]]) (dAt d) (((if dHas d then flat_map (fun i => [rowOf (dEps d i)]) three ++ flat_map (fun a => [WI (a + 1)] :: flat_map (fun i => [rowOf (dZ d a i)]) three) (zrange 0 (dAt d)) else []) ++ r), tt) =
    Ok (map (fun k => (k, if dHas d then dEps d (fst k) (snd k) else 0%R)) (list_prod three three), map (fun k => (k, let '(a, i, j) := k in if dHas d then dZ d a i j else 0%R)) (list_prod (list_prod (zrange 0 (dAt d)) three) three), (r, tt))).
  { intro r. unfold readDielectric, isT. destruct (dHas d); cbn [streq Ascii.eqb Bool.eqb andb].
    - rewrite <- app_assoc, rows_ok. cbn [bind]. rewrite born_ok. cbn [bind]. do 2 f_equal. f_equal.
      rewrite (flat_prod_list (fun a i => flat_map (fun j => [((a, i, j), dZ d a i j)]) three)). rewrite (flat_prod (fun ai j => ((fst ai, snd ai, j), dZ d (fst ai) (snd ai) j))). apply map_ext. intros [[a i] j]. reflexivity.
    - cbn [app]. do 2 f_equal. f_equal. apply map_ext. intros [[a i] j]. reflexivity. }
  rewrite <- app_assoc, EB. cbn [bind fst app getline].
  rewrite (intAt_get _ 0 n1); [|reflexivity|exact I1]. cbn [bind]. rewrite (intAt_get _ 1 n2); [|reflexivity|exact I2]. cbn [bind]. rewrite (intAt_get _ 2 n3); [|reflexivity|exact I3]. cbn [bind]. cbn [bind].
  replace ((n1 <=? 0) || (n2 <=? 0) || (n3 <=? 0)) with false by lia. reflexivity.
Qed.
Theorem qe_ok d C alat rest : qeSized d -> getQELattice (dIb d) (dDm d) (freeCell d) = Ok (C, alat) -> exists q, parsePhHarmonic (writeQE d ++ rest) = Ok q /\ qeRead d C alat q.
Proof.
  intros HS HL. unfold writeQE. rewrite <- app_assoc, (head_ok d C alat _ HS HL). destruct (fc_ok d rest None) as [x' ->]. cbn [bind]. eexists. split; [reflexivity|]. unfold qeRead.
  cbn [qCell qSpecies qAtoms qDiel qBorn qGrid qFC]. repeat (split; [reflexivity|]). split; [apply diel_defines|]. split; [apply (born_defines (dAt d) (fun k => let '(a, i, j) := k in if dHas d then dZ d a i j else 0%R))|]. split; [reflexivity|apply fcWrites_defines].
Qed.
