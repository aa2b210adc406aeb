(** Lemmas for C139: the whole document *)
From Coq Require Import QArith Ascii String.
From Verif Require Import Base BaseLemmas M_context S_context L_context M_yaml S_yaml L_yaml.
Open Scope Z_scope.

Lemma prefix_suffix a b : forall s, isPrefix (a ++ b) s = true -> patternInString s b = true.
Proof.
  induction a as [|x a IH]; intros s H; cbn [app] in H.
  - destruct s; cbn [patternInString]; rewrite H; reflexivity.
  - destruct s as [|y s]; [discriminate|]. cbn [isPrefix] in H. apply andb_true_iff in H as [_ H]. cbn [patternInString]. rewrite (IH _ H). apply orb_true_r.
Qed.
Lemma pattern_suffix a b s : patternInString s (a ++ b) = true -> patternInString s b = true.
Proof.
  induction s as [|y s IH]; intro H.
  - cbn [patternInString] in H. rewrite orb_false_r in H. exact (prefix_suffix _ _ _ H).
  - cbn [patternInString] in H. apply orb_true_iff in H as [H|H]; [exact (prefix_suffix _ _ _ H)|]. cbn [patternInString]. rewrite (IH H). apply orb_true_r.
Qed.
Lemma quiet_suffix a b l : finds l b = false -> finds l (a ++ b) = false.
Proof. unfold finds. intro H. destruct (patternInString l (a ++ b)) eqn:E; [|reflexivity]. apply pattern_suffix in E. congruence. Qed.

(** * Matrix of the supercell *)
Definition nomat (l : str) : Prop := finds l (str! "supercell_matrix:") = false.
Lemma dims_skip L : Forall nomat L -> forall R g, dims (L ++ R) g = dims R g.
Proof.
  intro H. induction H as [|l L Hl _ IH]; intros R g; [reflexivity|]. cbn [app dims].
  change (str! "phonon_supercell_matrix:") with (str! "phonon_" ++ str! "supercell_matrix:"). rewrite (quiet_suffix (str! "phonon_") _ _ Hl), Hl. apply IH.
Qed.
Lemma silent_nomat l : silent l -> nomat l.
Proof. intro H. apply H. cbn. tauto. Qed.
Lemma silent_nil : silent [].
Proof. intros k K. repeat (destruct K as [<-|K]; [reflexivity|]). destruct K. Qed.
Ltac wordsOf H := apply H; [cbn; tauto|discriminate].
Lemma point_facts p : goodPoint p -> Forall (fun l => nomat l /\ finds l (str! "phonon_supercell:") = false /\ finds l (str! "supercell:") = false /\ finds l (str! "length") = false /\ finds l (str! "unit_cell:") = false /\ finds l (str! "primitive_cell:") = false /\ finds l (str! "lattice:") = false) (pointLines p).
Proof.
  intro G. destruct (symbol_only p G) as [S _]. destruct G as (_ & _ & _ & _ & P & M). destruct (coord_only _ P) as [C _]. pose proof (mass_silent _ M) as K.
  constructor; [|constructor; [|constructor; [|constructor]]].
  - repeat split; (wordsOf S).
  - repeat split; (wordsOf C).
  - repeat split; apply K; cbn; tauto.
Qed.
Lemma flat_Forall {A B} (P : B -> Prop) (Q : A -> Prop) (f : A -> list B) l : (forall x, Q x -> Forall P (f x)) -> Forall Q l -> Forall P (flat_map f l).
Proof. intros H F. induction F as [|x l Hx _ IH]; [constructor|]. cbn [flat_map]. apply Forall_app. split; [apply H; exact Hx|exact IH]. Qed.
Lemma block_nomat h b : nomat h -> goodBlock b -> Forall nomat (blockLines h b).
Proof.
  intros H. unfold goodBlock, blockLines. destruct (bRows b) as [[r0 r1] r2]. intros (G0 & G1 & G2 & P).
  apply Forall_app. split; [|apply (flat_Forall nomat goodPoint); [intros p Hp; eapply Forall_impl; [|apply (point_facts p Hp)]; intros l X; apply X|exact P]].
  repeat (constructor; [first [exact H|reflexivity|apply silent_nomat, vector_silent; [assumption|cbn; tauto]]|]). constructor.
Qed.
Lemma recip_nomat k0 k1 k2 : good3 k0 -> good3 k1 -> good3 k2 -> Forall nomat [str! "  reciprocal_lattice: # without 2pi"; vectorLine k0 (str! " # a*"); vectorLine k1 (str! " # b*"); vectorLine k2 (str! " # c*"); []].
Proof. intros. repeat (constructor; [first [reflexivity|apply silent_nomat, vector_silent; [assumption|cbn; tauto]]|]). constructor. Qed.
Lemma matrix_three g : exists l0 l1 l2, matrixLines g = [l0; l1; l2].
Proof. destruct g as [[a b] c]. do 3 eexists. reflexivity. Qed.
Lemma dims_matrix g R g0 : goodGrid g -> dims (str! "supercell_matrix:" :: matrixLines g ++ R) g0 = dims R (gridOf g).
Proof. intro G. destruct (matrix_three g) as (l0 & l1 & l2 & E). pose proof (three_matrix g l0 l1 l2 G E) as T. rewrite E. cbn [app]. cbn [dims]. change (finds (str! "supercell_matrix:") (str! "phonon_supercell_matrix:")) with false. change (finds (str! "supercell_matrix:") (str! "supercell_matrix:")) with true. cbv iota. rewrite T. reflexivity. Qed.
Lemma dims_phonon g R g0 : goodGrid g -> dims (str! "phonon_supercell_matrix:" :: matrixLines g ++ R) g0 = Ok (gridOf g, true).
Proof. intro G. destruct (matrix_three g) as (l0 & l1 & l2 & E). pose proof (three_matrix g l0 l1 l2 G E) as T. rewrite E. cbn [app]. cbn [dims]. change (finds (str! "phonon_supercell_matrix:") (str! "phonon_supercell_matrix:")) with true. cbv iota. rewrite T. reflexivity. Qed.
Definition tailOf (d : doc) : list str :=
  let '(k0, k1, k2) := dRecip d in
  [[]] ++
  blockLines (str! "primitive_cell:") (dPrim d) ++ [str! "  reciprocal_lattice: # without 2pi"; vectorLine k0 (str! " # a*"); vectorLine k1 (str! " # b*"); vectorLine k2 (str! " # c*"); []] ++
  blockLines (str! "unit_cell:") (dUnit d) ++ [[]] ++ blockLines (str! "supercell:") (dSuper d) ++ [[]] ++
  (match dPh d with Some (_, b) => blockLines (str! "phonon_supercell:") b ++ [[]] | None => [] end) ++ dPost d.
Lemma quiet_nomat l : quiet l -> nomat l.
Proof. intro H. apply H. cbn. tauto. Qed.
Lemma write_tail d : writeDoc d = dPre d ++ (str! "supercell_matrix:" :: matrixLines (dGrid d) ++ (match dPh d with Some (g, _) => str! "phonon_supercell_matrix:" :: matrixLines g ++ tailOf d | None => tailOf d end)).
Proof. unfold writeDoc, tailOf. destruct (dRecip d) as [[k0 k1] k2]. destruct (dPh d) as [[g b]|]; reflexivity. Qed.
Lemma tail_nomat d : goodDoc d -> dPh d = None -> Forall nomat (tailOf d).
Proof.
  intros (_ & _ & _ & Gp & Gr & Gu & Gs & Gq) E. unfold tailOf. rewrite E. destruct (dRecip d) as [[k0 k1] k2]. destruct Gr as (R0 & R1 & R2).
  assert (N : Forall nomat [[]]) by (constructor; [reflexivity|constructor]).
  repeat (apply Forall_app; split); try exact N.
  - apply block_nomat; [reflexivity|exact Gp].
  - apply recip_nomat; assumption.
  - apply block_nomat; [reflexivity|exact Gu].
  - apply block_nomat; [reflexivity|exact Gs].
  - constructor.
  - eapply Forall_impl; [|exact Gq]. apply quiet_nomat.
Qed.
Lemma good_positive g : goodGrid g -> let '(a, b, c) := gridOf g in (a <=? 0) || (b <=? 0) || (c <=? 0) = false.
Proof. destruct g as [[a b] c]. intros ((_ & _ & _ & A) & (_ & _ & _ & B) & (_ & _ & _ & C)). cbn [gridOf]. rewrite !(proj2 (Z.leb_gt _ _)) by assumption. reflexivity. Qed.
Lemma grid_doc d : goodDoc d -> grid (writeDoc d) = Ok (gridOf (match dPh d with Some (g, _) => g | None => dGrid d end), match dPh d with Some _ => true | None => false end).
Proof.
  intro G. pose proof (tail_nomat d G) as T. destruct G as (Gq & Gg & Gh & _). unfold grid. rewrite write_tail. rewrite dims_skip by (eapply Forall_impl; [|exact Gq]; apply quiet_nomat). rewrite dims_matrix by exact Gg.
  destruct (dPh d) as [[g b]|].
  - rewrite dims_phonon by apply Gh. cbn [bind]. pose proof (good_positive g (proj1 Gh)) as P. destruct (gridOf g) as [[x y] z]. rewrite P. reflexivity.
  - rewrite <- (app_nil_r (tailOf d)). rewrite (dims_skip _ (T eq_refl)). cbn [dims bind]. pose proof (good_positive _ Gg) as P. destruct (gridOf (dGrid d)) as [[x y] z]. rewrite P. reflexivity.
Qed.

(** * Unit cell *)
Definition st (b : bool) : unitState := {| uBohr := b; uFound := false; uPrim := false; uRow := 3; uNames := []; uSpecies := []; uPos := []; uCell := [] |}.
Definition stp (b : bool) (k : Z) : unitState := {| uBohr := b; uFound := false; uPrim := true; uRow := k; uNames := []; uSpecies := []; uPos := []; uCell := [] |}.
Definition stu (b : bool) (k : Z) (n : list str) (sp : list Z) (ps : list q3) (c : list (Z * q3)) : unitState := {| uBohr := b; uFound := true; uPrim := false; uRow := k; uNames := n; uSpecies := sp; uPos := ps; uCell := c |}.
Definition idle (l : str) : Prop := finds l (str! "length") = false /\ finds l (str! "unit_cell:") = false /\ finds l (str! "primitive_cell:") = false.
Lemma silent_idle l : silent l -> idle l.
Proof. intro H. repeat split; apply H; cbn; tauto. Qed.
Lemma unit_pre L : Forall quiet L -> forall b R, unitCell (L ++ R) (st b) = unitCell R (st (b || existsb saysBohr L)).
Proof.
  intro H. induction H as [|l L Hl _ IH]; intros b R; cbn [app existsb]; [rewrite orb_false_r; reflexivity|]. cbn [unitCell]. unfold setBohr at 1. cbn [uFound st]. unfold primRow, setBohr, setFlags. cbn [uPrim st bind uBohr uFound uRow uNames uSpecies uPos uCell].
  change (finds l (str! "unit_cell:")) with (patternInString l (str! "unit_cell:")). change (finds l (str! "primitive_cell:")) with (patternInString l (str! "primitive_cell:")).
  rewrite (Hl (str! "unit_cell:")) by (cbn; tauto). rewrite (Hl (str! "primitive_cell:")) by (cbn; tauto). cbn [orb]. rewrite orb_assoc. exact (IH _ R).
Qed.
Lemma unit_idle l b R : idle l -> unitCell (l :: R) (st b) = unitCell R (st b).
Proof. intros (A & B & C). cbn [unitCell]. unfold setBohr at 1. cbn [uFound st]. unfold primRow, setBohr, setFlags. cbn [uPrim st bind uBohr uFound uRow uNames uSpecies uPos uCell]. rewrite A, B, C. cbn [andb orb]. rewrite orb_false_r. reflexivity. Qed.
Lemma unit_idles L b R : Forall idle L -> unitCell (L ++ R) (st b) = unitCell R (st b).
Proof. intro H. induction H as [|l L Hl _ IH]; [reflexivity|]. cbn [app]. rewrite unit_idle by exact Hl. exact IH. Qed.
Lemma prim_start b R : unitCell (str! "primitive_cell:" :: R) (st b) = unitCell R (stp b 3).
Proof. destruct b; reflexivity. Qed.
Lemma prim_lattice b R : unitCell (str! "  lattice:" :: R) (stp b 3) = unitCell R (stp b 0).
Proof. destruct b; reflexivity. Qed.
Lemma prim_row b k R t m : good3 t -> In m marks -> 0 <= k < 3 -> unitCell (vectorLine t m :: R) (stp b k) = unitCell R (if k =? 2 then st b else stp b (k + 1)).
Proof.
  intros G M K. pose proof (vector_silent t m G M) as S. pose proof (triple_vector t m G) as T. remember (vectorLine t m) as l eqn:E. clear E.
  assert (A : finds l (str! "length") = false) by (apply S; cbn; tauto). assert (B : finds l (str! "unit_cell:") = false) by (apply S; cbn; tauto).
  assert (C : finds l (str! "primitive_cell:") = false) by (apply S; cbn; tauto). assert (D : finds l (str! "lattice:") = false) by (apply S; cbn; tauto).
  cbn [unitCell]. unfold setBohr at 1. cbn [uFound stp]. unfold primRow, setBohr. cbn [uPrim stp bind uBohr uFound uRow uNames uSpecies uPos uCell]. rewrite (proj2 (Z.ltb_lt k 3)) by lia. rewrite T. cbn [bind]. rewrite D. cbn [andb]. unfold setFlags, setRow. cbn [uPrim stp bind uBohr uFound uRow uNames uSpecies uPos uCell].
  rewrite A, B, C. cbn [andb orb]. rewrite !orb_false_r. destruct (Z.eqb_spec k 2) as [->|N]; [reflexivity|]. replace (k + 1 =? 3) with false by (symmetry; apply Z.eqb_neq; lia). reflexivity.
Qed.
Lemma points_idle L : Forall goodPoint L -> Forall idle (flat_map pointLines L).
Proof. intro H. apply (flat_Forall idle goodPoint); [|exact H]. intros p Hp. eapply Forall_impl; [|apply (point_facts p Hp)]. intros l X. repeat split; apply X. Qed.
Lemma prim_block c b R : goodBlock c -> unitCell (blockLines (str! "primitive_cell:") c ++ R) (st b) = unitCell R (st b).
Proof.
  unfold goodBlock, blockLines. destruct (bRows c) as [[r0 r1] r2]. intros (G0 & G1 & G2 & P). cbn [app].
  rewrite prim_start, prim_lattice. rewrite (prim_row b 0) by (assumption || lia || (cbn; tauto)). change (if 0 =? 2 then st b else stp b (0 + 1)) with (stp b 1).
  rewrite (prim_row b 1) by (assumption || lia || (cbn; tauto)). change (if 1 =? 2 then st b else stp b (1 + 1)) with (stp b 2). rewrite (prim_row b 2) by (assumption || lia || (cbn; tauto)). change (if 2 =? 2 then st b else stp b (2 + 1)) with (st b).
  rewrite unit_idle by (repeat split). apply unit_idles. apply points_idle. exact P.
Qed.
Lemma unit_start b R : unitCell (str! "unit_cell:" :: R) (st b) = unitCell R (stu b 3 [] [] [] []).
Proof. destruct b; reflexivity. Qed.
(** one line inside the unit cell *)
Lemma unit_line l R b k n sp ps c : idle l -> l <> [] ->
  unitCell (l :: R) (stu b k n sp ps c) = do s <- addPosition l (addSymbol l (stu b k n sp ps c)) ; do s <- addRow l s ; do s <- primRow l s ; unitCell R (setFlags l s).
Proof.
  intros (A & _) N. destruct l as [|ch l]; [congruence|]. cbn [unitCell]. unfold setBohr at 1. cbn [uFound stu].
  replace (setBohr (ch :: l) (stu b k n sp ps c)) with (stu b k n sp ps c) by (unfold setBohr; rewrite A; cbn [andb]; rewrite orb_false_r; reflexivity). reflexivity.
Qed.
Lemma unit_lattice b R : unitCell (str! "  lattice:" :: R) (stu b 3 [] [] [] []) = unitCell R (stu b 0 [] [] [] []).
Proof. destruct b; reflexivity. Qed.
Lemma unit_quiet l R b n sp ps c : silent l -> l <> [] -> unitCell (l :: R) (stu b 3 n sp ps c) = unitCell R (stu b 3 n sp ps c).
Proof.
  intros S N. rewrite unit_line by (apply silent_idle, S || exact N). unfold addSymbol, addPosition, addRow, primRow, setFlags.
  rewrite (S (str! " symbol: ")) by (cbn; tauto). rewrite (S (str! "coordinates: ")) by (cbn; tauto). cbn [bind uRow stu]. change (3 <? 3) with false. cbn [bind]. rewrite (S (str! "lattice:")) by (cbn; tauto). cbn [bind uPrim uFound stu orb]. rewrite (S (str! "primitive_cell:")) by (cbn; tauto). reflexivity.
Qed.
Lemma unit_row b k c R t m : good3 t -> In m marks -> 0 <= k < 3 -> unitCell (vectorLine t m :: R) (stu b k [] [] [] c) = unitCell R (stu b (k + 1) [] [] [] (c ++ [(k, val3 t)])).
Proof.
  intros G M K. pose proof (vector_silent t m G M) as S. pose proof (triple_vector t m G) as T.
  rewrite unit_line; [|apply silent_idle, S|destruct t as [[x y] z]; discriminate]. remember (vectorLine t m) as l eqn:E. clear E.
  unfold addSymbol, addPosition, addRow, primRow, setFlags.
  rewrite (S (str! " symbol: ")) by (cbn; tauto). rewrite (S (str! "coordinates: ")) by (cbn; tauto). cbn [bind uRow stu]. rewrite (proj2 (Z.ltb_lt k 3)) by lia. rewrite T. cbn [bind]. rewrite (S (str! "lattice:")) by (cbn; tauto).
  unfold setRow. cbn [bind uPrim uFound uCell uRow stu orb uBohr uNames uSpecies uPos]. rewrite (S (str! "primitive_cell:")) by (cbn; tauto). reflexivity.
Qed.
Definition newNames (n : list str) (x : str) : list str := match indexOf 0 n x with Some _ => n | None => n ++ [x] end.
Definition newKind (n : list str) (x : str) : Z := match indexOf 0 (newNames n x) x with Some k => k | None => zlen (newNames n x) end.
Lemma unit_symbol p R b n sp ps c : goodPoint p -> unitCell (symbolLine p :: R) (stu b 3 n sp ps c) = unitCell R (stu b 3 (newNames n (pName p)) (sp ++ [newKind n (pName p)]) ps c).
Proof.
  intro G. destruct (symbol_only p G) as [S Y]. rewrite unit_line; [|repeat split; wordsOf S|discriminate]. unfold addSymbol. rewrite Y, (symbolOf_line p G). cbn [uNames uSpecies uBohr uFound uPrim uRow uPos uCell stu].
  fold (newNames n (pName p)). fold (newKind n (pName p)). unfold addPosition. rewrite (S (str! "coordinates: ")) by (cbn; tauto || discriminate). cbn [bind]. unfold addRow. cbn [uRow]. change (3 <? 3) with false. cbn [bind]. rewrite (S (str! "lattice:")) by (cbn; tauto || discriminate).
  cbn [bind]. unfold primRow. cbn [uPrim bind]. unfold setFlags. cbn [uNames uSpecies uBohr uFound uPrim uRow uPos uCell orb]. rewrite (S (str! "primitive_cell:")) by (cbn; tauto || discriminate). reflexivity.
Qed.
Lemma unit_coord t R b n sp ps c : good3 t -> unitCell (coordLine t :: R) (stu b 3 n sp ps c) = unitCell R (stu b 3 n sp (ps ++ [val3 t]) c).
Proof.
  intro G. destruct (coord_only t G) as [S Y]. rewrite unit_line; [|repeat split; wordsOf S|destruct t as [[x y] z]; discriminate]. unfold addSymbol. rewrite (S (str! " symbol: ")) by (cbn; tauto || discriminate). unfold addPosition. rewrite Y, (triple_coord t G). cbn [bind].
  cbn [uNames uSpecies uBohr uFound uPrim uRow uPos uCell stu]. unfold addRow. cbn [uRow]. change (3 <? 3) with false. cbn [bind]. rewrite (S (str! "lattice:")) by (cbn; tauto || discriminate).
  cbn [bind]. unfold primRow. cbn [uPrim bind]. unfold setFlags. cbn [uNames uSpecies uBohr uFound uPrim uRow uPos uCell orb]. rewrite (S (str! "primitive_cell:")) by (cbn; tauto || discriminate). reflexivity.
Qed.
Fixpoint kinds (n : list str) (L : list point) : list str * list Z :=
  match L with [] => (n, []) | p :: L => let '(m, k) := kinds (newNames n (pName p)) L in (m, newKind n (pName p) :: k) end.
Lemma unit_points L : Forall goodPoint L -> forall R b n sp ps c,
  unitCell (flat_map pointLines L ++ R) (stu b 3 n sp ps c) = unitCell R (stu b 3 (fst (kinds n L)) (sp ++ snd (kinds n L)) (ps ++ map (fun p => val3 (pAt p)) L) c).
Proof.
  intro H. induction H as [|p L Hp _ IH]; intros R b n sp ps c; [cbn [flat_map app kinds fst snd map]; rewrite !app_nil_r; reflexivity|].
  cbn [flat_map]. unfold pointLines at 1. fold (symbolLine p). cbn [app]. rewrite unit_symbol by exact Hp. pose proof Hp as (_ & _ & _ & _ & P & M). rewrite unit_coord by exact P. change (" "%char :: " "%char :: " "%char :: " "%char :: "m"%char :: "a"%char :: "s"%char :: "s"%char :: ":"%char :: " "%char :: nText (pMass p)) with (str! "    mass: " ++ nText (pMass p)). rewrite unit_quiet by (apply mass_silent, M || discriminate).
  rewrite IH. cbn [kinds map]. destruct (kinds (newNames n (pName p)) L) as [m k]. cbn [fst snd]. rewrite <- !app_assoc. reflexivity.
Qed.
Lemma unit_block c b R : goodBlock c -> unitCell (blockLines (str! "unit_cell:") c ++ [] :: R) (st b) =
  Ok (stu b 3 (fst (kinds [] (bPoints c))) (snd (kinds [] (bPoints c))) (map (fun p => val3 (pAt p)) (bPoints c)) (let '(r0, r1, r2) := bRows c in [(0, val3 r0); (1, val3 r1); (2, val3 r2)]), R).
Proof.
  unfold goodBlock, blockLines. destruct (bRows c) as [[r0 r1] r2]. intros (G0 & G1 & G2 & P). rewrite <- app_assoc. cbn [app].
  rewrite unit_start, unit_lattice. rewrite (unit_row b 0) by (assumption || lia || (cbn; tauto)). rewrite (unit_row b (0 + 1)) by (assumption || lia || (cbn; tauto)). rewrite (unit_row b (0 + 1 + 1)) by (assumption || lia || (cbn; tauto)).
  change (0 + 1 + 1 + 1) with 3. rewrite unit_quiet; [|intros k K; repeat (destruct K as [<-|K]; [reflexivity|]); destruct K|discriminate]. rewrite unit_points by exact P.
  cbn [app]. generalize (fst (kinds [] (bPoints c))) (snd (kinds [] (bPoints c))) (map (fun p => val3 (pAt p)) (bPoints c)). intros n sp ps. cbn [unitCell]. unfold setBohr. cbn [uFound stu]. unfold addSymbol, addPosition, addRow.
  change (finds [] (str! " symbol: ")) with false. change (finds [] (str! "coordinates: ")) with false. change (finds [] (str! "lattice:")) with false. change (finds [] (str! "length")) with false. cbn [bind uRow stu]. change (3 <? 3) with false. cbn [bind andb uBohr uFound uPrim uNames uSpecies uPos uCell stu]. rewrite orb_false_r. reflexivity.
Qed.
