(** Lemmas for C139: the supercell and the species *)
From Coq Require Import QArith Ascii String.
From Verif Require Import Base BaseLemmas M_context S_context L_context M_yaml S_yaml L_yaml L_yaml2.
Open Scope Z_scope.

Lemma foldM_cons' {A S} (f : S -> A -> res S) x l s : foldM f (x :: l) s = do s <- f s x ; foldM f l s.
Proof. reflexivity. Qed.
(** * Supercell *)
Definition ss (k : Z) (ps : list q3) (c : list (Z * q3)) : superState := {| sRead := true; sRow := k; sPos := ps; sCell := c |}.
Definition ss0 : superState := {| sRead := false; sRow := 3; sPos := []; sCell := [] |}.
Lemma super_skip key L R : Forall (fun l => finds l key = false) L -> foldM (superLine key) (L ++ R) ss0 = foldM (superLine key) R ss0.
Proof. intro H. induction H as [|l L Hl _ IH]; [reflexivity|]. cbn [app foldM]. unfold superLine at 1. cbn [sRead ss0 orb]. rewrite Hl. cbn [bind]. exact IH. Qed.
Definition calm (l : str) : Prop := finds l (str! "coordinates: ") = false /\ finds l (str! "lattice:") = false.
Lemma super_calm key l R ps c : calm l -> foldM (superLine key) (l :: R) (ss 3 ps c) = foldM (superLine key) R (ss 3 ps c).
Proof. intros [A B]. cbn [foldM]. unfold superLine at 1. cbn [sRead ss orb]. rewrite A. cbn [bind sRow ss]. change (3 <? 3) with false. cbn [bind]. rewrite B. reflexivity. Qed.
Lemma super_calms key L R ps c : Forall calm L -> foldM (superLine key) (L ++ R) (ss 3 ps c) = foldM (superLine key) R (ss 3 ps c).
Proof. intro H. induction H as [|l L Hl _ IH]; [reflexivity|]. cbn [app]. rewrite super_calm by exact Hl. exact IH. Qed.
Lemma super_row key k c R t m : good3 t -> In m marks -> 0 <= k < 3 -> foldM (superLine key) (vectorLine t m :: R) (ss k [] c) = foldM (superLine key) R (ss (k + 1) [] (c ++ [(k, val3 t)])).
Proof.
  intros G M K. pose proof (vector_silent t m G M) as S. pose proof (triple_vector t m G) as T. cbn [foldM]. unfold superLine at 1. cbn [sRead ss orb]. rewrite (S (str! "coordinates: ")) by (cbn; tauto). cbn [bind sRow sPos sCell ss].
  rewrite (proj2 (Z.ltb_lt k 3)) by lia. rewrite T. cbn [bind]. rewrite (S (str! "lattice:")) by (cbn; tauto). reflexivity.
Qed.
Lemma super_point key p R ps c : goodPoint p -> foldM (superLine key) (pointLines p ++ R) (ss 3 ps c) = foldM (superLine key) R (ss 3 (ps ++ [val3 (pAt p)]) c).
Proof.
  intro G. destruct (symbol_only p G) as [S _]. pose proof G as (_ & _ & _ & _ & P & M). destruct (coord_only _ P) as [C Y]. pose proof (mass_silent _ M) as Z0.
  unfold pointLines. fold (symbolLine p). remember (symbolLine p) as l1. remember (coordLine (pAt p)) as l2. remember (str! "    mass: " ++ nText (pMass p)) as l3. cbn [app].
  rewrite super_calm by (split; wordsOf S).
  assert (E : foldM (superLine key) (l2 :: l3 :: R) (ss 3 ps c) = foldM (superLine key) (l3 :: R) (ss 3 (ps ++ [val3 (pAt p)]) c)).
  { rewrite foldM_cons'. unfold superLine at 1. cbn [sRead ss orb]. rewrite Y. subst l2. rewrite (triple_coord _ P). cbn [bind sRow ss]. change (3 <? 3) with false. cbn [bind]. rewrite (C (str! "lattice:")) by (cbn; tauto || discriminate). reflexivity. }
  refine (eq_trans E _). apply super_calm. split; apply Z0; cbn; tauto.
Qed.
Lemma super_points key L : Forall goodPoint L -> forall R ps c, foldM (superLine key) (flat_map pointLines L ++ R) (ss 3 ps c) = foldM (superLine key) R (ss 3 (ps ++ map (fun p => val3 (pAt p)) L) c).
Proof.
  intro H. induction H as [|p L Hp _ IH]; intros R ps c; [cbn [flat_map app map]; rewrite app_nil_r; reflexivity|]. cbn [flat_map map]. rewrite <- app_assoc, super_point by exact Hp. rewrite IH, <- app_assoc. reflexivity.
Qed.
Definition cellOf (b : block) : list (Z * q3) := let '(r0, r1, r2) := bRows b in [(0, val3 r0); (1, val3 r1); (2, val3 r2)].
Lemma super_block key h b R : goodBlock b -> (key = str! "supercell:" \/ key = str! "phonon_supercell:") -> h = key ->
  foldM (superLine key) (blockLines h b ++ R) ss0 = foldM (superLine key) R (ss 3 (map (fun p => val3 (pAt p)) (bPoints b)) (cellOf b)).
Proof.
  unfold goodBlock, blockLines, cellOf. destruct (bRows b) as [[r0 r1] r2]. intros (G0 & G1 & G2 & P) K ->. rewrite <- app_assoc.
  assert (H : superLine key ss0 key = Ok (ss 3 [] [])) by (destruct K as [-> | ->]; reflexivity).
  assert (L : superLine key (ss 3 [] []) (str! "  lattice:") = Ok (ss 0 [] [])) by reflexivity.
  cbn [app]. rewrite foldM_cons', H. cbn [bind]. rewrite foldM_cons'. change (superLine key (ss 3 [] []) (" "%char :: " "%char :: "l"%char :: "a"%char :: "t"%char :: "t"%char :: "i"%char :: "c"%char :: "e"%char :: ":"%char :: [])) with (superLine key (ss 3 [] []) (str! "  lattice:")). rewrite L. cbn [bind].
  rewrite (super_row key 0) by (assumption || lia || (cbn; tauto)). rewrite (super_row key (0 + 1)) by (assumption || lia || (cbn; tauto)). rewrite (super_row key (0 + 1 + 1)) by (assumption || lia || (cbn; tauto)).
  change (0 + 1 + 1 + 1) with 3. rewrite super_calm by (split; reflexivity). rewrite super_points by exact P. reflexivity.
Qed.
Lemma block_without key h b : finds h key = false -> (key = str! "supercell:" \/ key = str! "phonon_supercell:") -> goodBlock b -> Forall (fun l => finds l key = false) (blockLines h b).
Proof.
  intros H K. unfold goodBlock, blockLines. destruct (bRows b) as [[r0 r1] r2]. intros (G0 & G1 & G2 & P). assert (KW : In key allWords) by (destruct K as [-> | ->]; cbn; tauto).
  apply Forall_app. split.
  - constructor; [exact H|]. repeat (constructor; [first [destruct K as [-> | ->]; reflexivity|apply vector_silent; [assumption|cbn; tauto|exact KW]]|]). constructor.
  - apply (flat_Forall _ goodPoint); [|exact P]. intros p Hp. eapply Forall_impl; [|apply (point_facts p Hp)]. intros l X. destruct K as [-> | ->]; apply X.
Qed.
Lemma quiet_calm l : quiet l -> calm l.
Proof. intro H. split; apply H; cbn; tauto. Qed.

(** * Species *)
Lemma indexOf_None i n x : indexOf i n x = None <-> ~ In x n.
Proof.
  revert i. induction n as [|y n IH]; intro i; cbn [indexOf]; [split; [intros _ []|reflexivity]|]. destruct (streq y x) eqn:E.
  - apply streq_eq in E. subst. split; [discriminate|intro H; exfalso; apply H; left; reflexivity].
  - apply streq_neq in E. rewrite IH. split; [intros H [F|F]; [congruence|exact (H F)]|intros H F; apply H; right; exact F].
Qed.
Lemma indexOf_Some n x : forall i k, indexOf i n x = Some k -> i <= k /\ zget n (k - i) = Some x.
Proof.
  induction n as [|y n IH]; intros i k H; cbn [indexOf] in H; [discriminate|]. destruct (streq y x) eqn:E.
  - apply streq_eq in E. injection H as <-. subst y. split; [lia|]. replace (i - i) with 0 by lia. reflexivity.
  - destruct (IH _ _ H) as [L G]. split; [lia|]. replace (k - i) with ((k - (i + 1)) + 1) by lia. rewrite zget_consS by lia. replace (k - (i + 1) + 1 - 1) with (k - (i + 1)) by lia. exact G.
Qed.
Lemma newNames_In n x y : In y (newNames n x) <-> In y n \/ y = x.
Proof.
  unfold newNames. destruct (indexOf 0 n x) eqn:E.
  - split; [tauto|]. intros [H| ->]; [exact H|]. apply indexOf_Some in E as [_ E]. apply zget_Some in E. apply E.
  - rewrite in_app_iff. cbn. intuition congruence.
Qed.
Lemma newNames_NoDup n x : NoDup n -> NoDup (newNames n x).
Proof.
  unfold newNames. destruct (indexOf 0 n x) eqn:E; [tauto|]. apply indexOf_None in E. intro H. apply NoDup_rev in H. rewrite <- (rev_involutive (n ++ [x])). apply NoDup_rev. rewrite rev_app_distr. cbn [rev app]. constructor; [rewrite <- in_rev; exact E|exact H].
Qed.
Lemma newNames_ext n x : exists e, newNames n x = n ++ e.
Proof. unfold newNames. destruct (indexOf 0 n x); [exists []; rewrite app_nil_r; reflexivity|eexists; reflexivity]. Qed.
Lemma newKind_get n x : zget (newNames n x) (newKind n x) = Some x.
Proof.
  unfold newKind. destruct (indexOf 0 (newNames n x) x) eqn:E.
  - apply indexOf_Some in E as [_ E]. rewrite Z.sub_0_r in E. exact E.
  - exfalso. apply indexOf_None in E. apply E. apply newNames_In. tauto.
Qed.
Lemma zget_ext (n e : list str) k x : zget n k = Some x -> zget (n ++ e) k = Some x.
Proof. intro H. rewrite zget_app1; [exact H|]. apply zget_Some in H. lia. Qed.
Lemma kinds_spec L : forall n, NoDup n -> let '(m, k) := kinds n L in
  NoDup m /\ (exists e, m = n ++ e) /\ (forall x, In x m <-> In x n \/ exists p, In p L /\ pName p = x) /\ Forall2 (fun j p => zget m j = Some (pName p)) k L.
Proof.
  induction L as [|p L IH]; intros n N; cbn [kinds].
  - split; [exact N|]. split; [exists []; rewrite app_nil_r; reflexivity|]. split; [|constructor]. intro x. split; [tauto|]. intros [H|(q & [] & _)]; exact H.
  - specialize (IH (newNames n (pName p)) (newNames_NoDup _ _ N)). destruct (kinds (newNames n (pName p)) L) as [m k]. destruct IH as (A & (e & B) & C & D).
    split; [exact A|]. split; [|split].
    + destruct (newNames_ext n (pName p)) as [e' E']. exists (e' ++ e). rewrite B, E', <- app_assoc. reflexivity.
    + intro x. rewrite C, newNames_In. split.
      * intros [[H| ->]|(q & Q & R)]; [left; exact H|right; exists p; split; [left; reflexivity|reflexivity]|right; exists q; split; [right; exact Q|exact R]].
      * intros [H|(q & [<-|Q] & R)]; [tauto|left; right; congruence|right; exists q; tauto].
    + constructor; [|exact D]. rewrite B. apply zget_ext, newKind_get.
Qed.

(** * Reading *)
Lemma matrix_silent g : goodGrid g -> Forall idle (matrixLines g).
Proof.
  destruct g as [[a b] c]. intros ((a0 & a1 & _) & (b0 & b1 & _) & (c0 & c1 & _)).
  assert (Z0 : str! "0" <> [] /\ Forall (fun c => numChar c = true) (str! "0")) by (split; [discriminate|repeat constructor]).
  assert (N : forall x, x <> [] -> Forall (fun c => isdigit c = true) x -> x <> [] /\ Forall (fun c => numChar c = true) x) by (intros x X Y; split; [exact X|eapply Forall_impl; [|exact Y]; intros q; apply digit_num]).
  pose proof (N _ a0 a1) as Na. pose proof (N _ b0 b1) as Nb. pose proof (N _ c0 c1) as Nc.
  assert (K : forall x y z, (forall w, In w [x; y; z] -> w <> [] /\ Forall (fun c => numChar c = true) w) -> idle (str! "- " ++ brackets x y z)).
  { intros x y z H. apply silent_idle, silent_colon; (apply notin_app; [apply notin_lit; reflexivity|apply brackets_num; [exact H|reflexivity|reflexivity]]). }
  unfold matrixLines. do 3 (apply Forall_cons; [apply K; intros w [<-|[<-|[<-|[]]]]; assumption|]). apply Forall_nil.
Qed.
Lemma const_idle l : (finds l (str! "length"), finds l (str! "unit_cell:"), finds l (str! "primitive_cell:")) = (false, false, false) -> idle l.
Proof. intro H. injection H as A B C. repeat split; assumption. Qed.
Definition superOf (d : doc) : block := match dPh d with Some (_, b) => b | None => dSuper d end.
Definition superTail (d : doc) : list str :=
  blockLines (str! "supercell:") (dSuper d) ++ [[]] ++ (match dPh d with Some (_, b) => blockLines (str! "phonon_supercell:") b ++ [[]] | None => [] end) ++ dPost d ++ [[]].
Lemma unit_doc d : goodDoc d -> unitCell (writeDoc d ++ [[]]) unit0 =
  Ok (stu (existsb saysBohr (dPre d)) 3 (fst (kinds [] (bPoints (dUnit d)))) (snd (kinds [] (bPoints (dUnit d)))) (map (fun p => val3 (pAt p)) (bPoints (dUnit d))) (cellOf (dUnit d)), superTail d).
Proof.
  intros (Gq & Gg & Gh & Gp & Gr & Gu & Gs & Gt). rewrite write_tail. rewrite <- app_assoc. change unit0 with (st false). rewrite unit_pre by exact Gq. cbn [orb]. remember (existsb saysBohr (dPre d)) as b.
  cbn [app]. rewrite unit_idle by (apply const_idle; reflexivity). rewrite <- app_assoc, unit_idles by (apply matrix_silent; exact Gg).
  assert (T : unitCell (tailOf d ++ [[]]) (st b) = Ok (stu b 3 (fst (kinds [] (bPoints (dUnit d)))) (snd (kinds [] (bPoints (dUnit d)))) (map (fun p => val3 (pAt p)) (bPoints (dUnit d))) (cellOf (dUnit d)), superTail d)).
  { unfold tailOf. destruct (dRecip d) as [[k0 k1] k2]. destruct Gr as (R0 & R1 & R2). rewrite <- !app_assoc. rewrite (unit_idles [[]]) by (constructor; [apply const_idle; reflexivity|constructor]). rewrite prim_block by exact Gp.
    rewrite unit_idles by (repeat (constructor; [first [apply const_idle; reflexivity|apply silent_idle, vector_silent; [assumption|cbn; tauto]]|]); constructor).
    change ([[]] ++ blockLines (str! "supercell:") (dSuper d) ++ [[]] ++ match dPh d with Some (_, b0) => blockLines (str! "phonon_supercell:") b0 ++ [[]] | None => [] end ++ dPost d ++ [[]]) with ([] :: superTail d).
    rewrite unit_block by exact Gu. reflexivity. }
  destruct (dPh d) as [[g bl]|]; [|exact T]. cbn [app]. rewrite unit_idle by (apply const_idle; reflexivity). rewrite <- app_assoc, unit_idles by (apply matrix_silent; apply Gh). exact T.
Qed.
Lemma super_doc d : goodDoc d -> foldM (superLine (if match dPh d with Some _ => true | None => false end then str! "phonon_supercell:" else str! "supercell:")) (superTail d) ss0 = Ok (ss 3 (map (fun p => val3 (pAt p)) (bPoints (superOf d))) (cellOf (superOf d))).
Proof.
  intros (Gq & Gg & Gh & Gp & Gr & Gu & Gs & Gt). unfold superTail, superOf.
  assert (Q : Forall calm (dPost d ++ [[]])) by (apply Forall_app; split; [eapply Forall_impl; [|exact Gt]; apply quiet_calm|constructor; [split; reflexivity|constructor]]).
  destruct (dPh d) as [[g b]|].
  - rewrite super_skip by (apply block_without; [reflexivity|tauto|exact Gs]). rewrite (super_skip _ [[]]) by (constructor; [reflexivity|constructor]). rewrite <- app_assoc. rewrite super_block by (apply Gh || tauto || reflexivity).
    rewrite (super_calms _ [[]]) by (constructor; [split; reflexivity|constructor]). rewrite <- (app_nil_r (dPost d ++ [[]])). rewrite super_calms by exact Q. reflexivity.
  - rewrite super_block by (exact Gs || tauto || reflexivity). rewrite (super_calms _ [[]]) by (constructor; [split; reflexivity|constructor]). cbn [app]. rewrite <- (app_nil_r (dPost d ++ [[]])). rewrite super_calms by exact Q. reflexivity.
Qed.
Lemma read_doc d : goodDoc d -> exists y, readYaml (writeDoc d) = Ok y /\ readsDoc d y.
Proof.
  intro G. unfold readYaml. rewrite (grid_doc d G). cbn [bind]. rewrite (unit_doc d G). cbn [bind]. pose proof (super_doc d G) as S. fold ss0. rewrite S. cbn [bind]. eexists. split; [reflexivity|].
  unfold readsDoc. cbn [yGrid yBohr yCell yNames ySpecies yPos ySupPos ySupCell uBohr uFound uNames uSpecies uPos uCell stu sPos sCell ss].
  pose proof (kinds_spec (bPoints (dUnit d)) [] (NoDup_nil _)) as K. destruct (kinds [] (bPoints (dUnit d))) as [m k]. destruct K as (A & _ & C & D). cbn [fst snd].
  repeat split; try assumption.
  - unfold cellOf, rowsAre. destruct (bRows (dUnit d)) as [[r0 r1] r2]. reflexivity.
  - intro H. apply C in H as [[]|H]. exact H.
  - intro H. apply C. right. exact H.
  - fold (superOf d). unfold cellOf, rowsAre. destruct (bRows (superOf d)) as [[r0 r1] r2]. reflexivity.
Qed.
