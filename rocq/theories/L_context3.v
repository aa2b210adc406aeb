(** Lemmas on lists, strings, booleans and units. *)
From Coq Require Import QArith Ascii String Permutation.
From Verif Require Import Base BaseLemmas M_context S_context L_context L_context2.
Open Scope Z_scope.

Lemma skipn_after {A} (a : list A) x s : skipn (S (length a)) (a ++ x :: s) = s.
Proof. replace (S (length a)) with (length (a ++ [x])) by (rewrite app_length; cbn [length]; lia). change (x :: s) with ([x] ++ s). rewrite app_assoc, skipn_app, Nat.sub_diag, skipn_all. reflexivity. Qed.
Lemma firstn_exact {A} (s t : list A) : firstn (length s) (s ++ t) = s.
Proof. rewrite firstn_app, Nat.sub_diag, firstn_all. cbn [firstn]. apply app_nil_r. Qed.
Lemma between_text o c a s z : ~ In o a -> ~ In c z -> between o c (a ++ o :: s ++ c :: z) = Ok s.
Proof.
  intros Ha Hz. unfold between. rewrite find_app by exact Ha. replace (a ++ o :: s ++ c :: z) with ((a ++ o :: s) ++ c :: z) by (rewrite <- app_assoc; reflexivity).
  rewrite findLast_app by exact Hz. rewrite app_length. cbn [length]. replace (length a <? length a + S (length s))%nat with true by (symmetry; apply Nat.ltb_lt; lia).
  rewrite <- app_assoc. cbn [app]. rewrite skipn_after. replace (length a + S (length s) - length a - 1)%nat with (length s) by lia. rewrite firstn_exact. reflexivity.
Qed.
Lemma splitAll_commas l : l <> [] -> Forall (fun s => ~ In ","%char s) l -> splitAll ","%char (commas l) = l.
Proof.
  intros N H. induction H as [|x l Hx Hl IH]; [congruence|]. destruct l as [|y l]; [apply splitAll_none; exact Hx|]. change (commas (x :: y :: l)) with (x ++ ","%char :: commas (y :: l)).
  rewrite splitAll_app by exact Hx. rewrite IH by discriminate. reflexivity.
Qed.
Definition numChar (c : ascii) : bool := isdigit c || existsb (fun x => Ascii.eqb c x) ["."; "e"; "E"; "+"; "-"]%char.
Lemma digitChars_num ds : Forall isDigit ds -> Forall (fun c => numChar c = true) (digitChars ds).
Proof. induction 1 as [|d ds Hd _ IH]; [constructor|]. cbn [digitChars map]. constructor; [|exact IH]. unfold numChar. rewrite (proj1 (digitChar_digit d Hd)). reflexivity. Qed.
Lemma signText_num s : Forall (fun c => numChar c = true) (signText s).
Proof. destruct s; cbn [signText]; constructor; (reflexivity || constructor). Qed.
Lemma numberText_num n : goodNumber n -> Forall (fun c => numChar c = true) (numberText n).
Proof.
  intros (Hi & Hf & _ & He). unfold numberText. apply Forall_app. split; [apply signText_num|]. apply Forall_app. split; [apply digitChars_num; exact Hi|]. apply Forall_app. split.
  - unfold fracDigits in Hf. destruct (nFrac n); [|constructor]. constructor; [reflexivity|apply digitChars_num; exact Hf].
  - destruct (nExp n) as [[[u s] ds]|]; [|constructor]. constructor; [destruct u; reflexivity|]. apply Forall_app. split; [apply signText_num|apply digitChars_num; exact He].
Qed.
Lemma num_notin s c : Forall (fun c => numChar c = true) s -> numChar c = false -> ~ In c s.
Proof. rewrite Forall_forall. intros H E F. rewrite (H c F) in E. discriminate. Qed.
Lemma blank_ends b : blank b -> ends b.
Proof.
  intro B. destruct b as [|c b]; [exact I|]. inversion B as [|? ? E _]; subst. cbn [ends]. split.
  - unfold isspace in E. unfold isdigit. lia.
  - intros F. cbn [In] in F. repeat destruct F as [<-|F]; try discriminate. destruct F.
Qed.
Lemma blank_app a b : blank a -> blank b -> blank (a ++ b).
Proof. intros. apply Forall_app. split; assumption. Qed.
(** lists of numbers *)
Lemma itemText_notin i c : goodItemText i -> isspace c = false -> numChar c = false -> ~ In c (itemText i).
Proof.
  intros (B1 & G & B2) E1 E2. unfold itemText. rewrite !in_app_iff. intros [F|[F|F]]; [exact (blank_notin _ _ B1 E1 F)|exact (num_notin _ _ (numberText_num _ G) E2 F)|exact (blank_notin _ _ B2 E1 F)].
Qed.
Lemma doubleList_text a z items : ~ In "["%char a -> ~ In "]"%char z -> items <> [] -> Forall goodItemText items ->
  parseDoubleList (a ++ "["%char :: commas (map itemText items) ++ "]"%char :: z) = Ok (map (fun i => numberValue (snd (fst i))) items).
Proof.
  intros Ha Hz N H. unfold parseDoubleList. rewrite between_text by assumption. cbn [bind]. rewrite splitAll_commas.
  - clear N. induction H as [|i items Hi _ IH]; [reflexivity|]. cbn [map mapM]. destruct Hi as (B1 & G & B2). unfold itemText at 1. rewrite stod_text by (assumption || apply blank_ends; assumption). cbn [bind]. rewrite IH. reflexivity.
  - destruct items; [congruence|discriminate].
  - apply Forall_forall. intros s Hs. apply in_map_iff in Hs as (i & <- & Hi). rewrite Forall_forall in H. apply itemText_notin; [apply H; exact Hi|reflexivity|reflexivity].
Qed.
Lemma blank_noDigit b : blank b -> noDigit b.
Proof. intro B. destruct b as [|c b]; [exact I|]. inversion B as [|? ? E _]; subst. cbn [noDigit]. unfold isspace in E. unfold isdigit. lia. Qed.
Lemma stoi_good i : goodInt i -> stoi (intText i) = Ok (intValue i).
Proof.
  intros (B1 & B2 & D & N & R). unfold intText. rewrite stoi_text by (assumption || apply blank_noDigit; assumption). cbv zeta. fold (intValue i). replace ((INT_MIN <=? intValue i) && (intValue i <=? INT_MAX)) with true by lia. reflexivity.
Qed.
Lemma intText_notin i c : goodInt i -> isspace c = false -> numChar c = false -> ~ In c (intText i).
Proof.
  intros (B1 & B2 & D & _) E1 E2. unfold intText. rewrite !in_app_iff. intros [F|[F|[F|F]]]; [exact (blank_notin _ _ B1 E1 F)|exact (num_notin _ _ (signText_num _) E2 F)|exact (num_notin _ _ (digitChars_num _ D) E2 F)|exact (blank_notin _ _ B2 E1 F)].
Qed.
Lemma intList_text a z items : ~ In "["%char a -> ~ In "]"%char z -> items <> [] -> Forall goodInt items ->
  parseIntList (a ++ "["%char :: commas (map intText items) ++ "]"%char :: z) = Ok (map intValue items).
Proof.
  intros Ha Hz N H. unfold parseIntList. rewrite between_text by assumption. cbn [bind]. rewrite splitAll_commas.
  - clear N. induction H as [|i items Hi _ IH]; [reflexivity|]. cbn [map mapM]. rewrite stoi_good by exact Hi. cbn [bind]. rewrite IH. reflexivity.
  - destruct items; [congruence|discriminate].
  - apply Forall_forall. intros s Hs. apply in_map_iff in Hs as (i & <- & Hi). rewrite Forall_forall in H. apply intText_notin; [apply H; exact Hi|reflexivity|reflexivity].
Qed.
(** strings *)
Lemma quoted_text q a s z : ~ In q a -> ~ In q z -> quoted q (a ++ q :: s ++ q :: z) = Ok s.
Proof.
  intros Ha Hz. unfold quoted. rewrite find_app by exact Ha. replace (a ++ q :: s ++ q :: z) with ((a ++ q :: s) ++ q :: z) by (rewrite <- app_assoc; reflexivity).
  rewrite findLast_app by exact Hz. rewrite app_length. cbn [length]. replace (length a =? length a + S (length s))%nat with false by (symmetry; apply Nat.eqb_neq; lia).
  rewrite <- app_assoc. cbn [app]. rewrite skipn_after. replace (length a + S (length s) - length a - 1)%nat with (length s) by lia. rewrite firstn_exact. reflexivity.
Qed.
Lemma string_single a s z : ~ In squote a -> ~ In squote z -> parseString (a ++ squote :: s ++ squote :: z) = Ok s.
Proof. intros Ha Hz. unfold parseString. replace (has squote (a ++ squote :: s ++ squote :: z)) with true; [apply quoted_text; assumption|]. symmetry. apply has_In. apply in_app_iff. right. left. reflexivity. Qed.
Lemma string_double a s z : ~ In squote (a ++ s ++ z) -> ~ In dquote a -> ~ In dquote z -> parseString (a ++ dquote :: s ++ dquote :: z) = Ok s.
Proof.
  intros Hs Ha Hz. unfold parseString. replace (has squote (a ++ dquote :: s ++ dquote :: z)) with false; [apply quoted_text; assumption|]. symmetry. apply has_notIn. intro F. apply Hs.
  rewrite !in_app_iff in *. cbn [In] in F. rewrite in_app_iff in F. cbn [In] in F. destruct F as [F|[F|[F|[F|F]]]]; try discriminate; tauto.
Qed.
Lemma remove_out f s : (forall c, In c s -> f c = false) -> remove f s = s.
Proof. intro H. apply remove_none. apply Forall_forall. exact H. Qed.
Lemma name_nospace i : goodName i -> remove (isc " "%char) (nameText i) = dquote :: snd (fst i) ++ [dquote].
Proof.
  intros (B1 & B2 & W & _). unfold nameText. rewrite remove_app. change (dquote :: snd (fst i) ++ dquote :: snd i) with ([dquote] ++ snd (fst i) ++ [dquote] ++ snd i). rewrite !remove_app.
  rewrite (remove_all _ (fst (fst i))) by (eapply Forall_impl; [|exact B1]; intros c ->; reflexivity). rewrite (remove_all _ (snd i)) by (eapply Forall_impl; [|exact B2]; intros c ->; reflexivity).
  rewrite (remove_out _ (snd (fst i))); [rewrite app_nil_r; reflexivity|]. intros c Hc. apply isc_neq. intros ->. apply (without_notin _ _ " "%char W); [left; reflexivity|exact Hc].
Qed.
Lemma commas_remove l : remove (isc " "%char) (commas l) = commas (map (remove (isc " "%char)) l).
Proof. induction l as [|x l IH]; [reflexivity|]. destruct l as [|y l]; [reflexivity|]. change (commas (x :: y :: l)) with (x ++ [","%char] ++ commas (y :: l)). rewrite !remove_app, IH. reflexivity. Qed.
Lemma nameList_text a z items : ~ In "["%char a -> ~ In "]"%char z -> items <> [] -> Forall goodName items ->
  parseStringList (a ++ "["%char :: commas (map nameText items) ++ "]"%char :: z) = Ok (map (fun i => snd (fst i)) items).
Proof.
  intros Ha Hz N H. unfold parseStringList. change ("["%char :: commas (map nameText items) ++ "]"%char :: z) with (["["%char] ++ commas (map nameText items) ++ ["]"%char] ++ z). rewrite !remove_app, commas_remove.
  change (remove (isc " "%char) ["["%char]) with ["["%char]. change (remove (isc " "%char) ["]"%char]) with ["]"%char]. cbn [app].
  assert (R : forall c s, ~ In c s -> ~ In c (remove (isc " "%char) s)) by (intros c s F G; apply F; unfold remove in G; apply filter_In in G as [G _]; exact G).
  rewrite between_text by (apply R; assumption). cbn [bind]. rewrite map_map. rewrite (map_ext_in _ (fun i => dquote :: snd (fst i) ++ [dquote])). 2: { intros i Hi. apply name_nospace. rewrite Forall_forall in H. apply H. exact Hi. }
  rewrite splitAll_commas.
  - rewrite map_map. f_equal. apply map_ext_in. intros i Hi. rewrite Forall_forall in H. destruct (H i Hi) as (_ & _ & _ & Q). change (dquote :: snd (fst i) ++ [dquote]) with ([dquote] ++ snd (fst i) ++ [dquote]). rewrite !remove_app.
    change (remove (isc dquote) [dquote]) with (@nil ascii). rewrite (remove_out _ (snd (fst i))); [cbn [app]; apply app_nil_r|]. intros c Hc. apply isc_neq. intros ->. exact (Q Hc).
  - destruct items; [congruence|discriminate].
  - apply Forall_forall. intros s Hs. apply in_map_iff in Hs as (i & <- & Hi). rewrite Forall_forall in H. destruct (H i Hi) as (_ & _ & W & _). intro F. destruct F as [F|F]; [discriminate|]. apply in_app_iff in F as [F|[F|[]]]; [|discriminate]. apply (without_notin _ _ ","%char W); [cbn; tauto|exact F].
Qed.
(** booleans *)
Lemma tolower_letter c : isalpha (tolower c) = isalpha c.
Proof.
  unfold tolower. destruct (isupper c) eqn:E; [|reflexivity]. unfold isalpha. rewrite E. cbn [orb]. unfold isupper, code in E. unfold isupper, islower, code.
  rewrite N_ascii_embedding by lia. rewrite Z2N.id by lia. lia.
Qed.
Lemma bool_text a w z b : Forall (fun c => isalpha c = false) (a ++ z) -> ~ In "="%char (a ++ z) -> map tolower w = (if b : bool then str! "true" else str! "false") -> parseBool (a ++ w ++ z) = Ok b.
Proof.
  intros H Ne E. apply Forall_app in H as [Ha Hz]. rewrite in_app_iff in Ne. assert (Hw : ~ In "="%char w).
  { intro F. apply (in_map tolower) in F. rewrite E in F. change (tolower "="%char) with "="%char in F. destruct b; cbn in F; repeat destruct F as [F|F]; try discriminate; destruct F. }
  unfold parseBool. rewrite (proj1 (find_none "="%char (a ++ w ++ z))) by (rewrite !in_app_iff; tauto). cbn [substrAfter]. rewrite !map_app, !remove_app.
  assert (T : forall s, Forall (fun c => isalpha c = false) s -> remove (fun c => negb (isalpha c)) (map tolower s) = []). { intros s Hs. apply remove_all. apply Forall_map. eapply Forall_impl; [|exact Hs]. intros c Hc. rewrite tolower_letter, Hc. reflexivity. }
  rewrite (T a Ha), (T z Hz), E, app_nil_r. destruct b; reflexivity.
Qed.
(** units *)
Lemma isPrefix_stop p a x c : ~ In x p -> isPrefix p (a ++ x :: c) = isPrefix p a.
Proof.
  revert a. induction p as [|y p IH]; intros a H; [destruct a; reflexivity|]. destruct a as [|z a]; cbn [app isPrefix].
  - destruct (Ascii.eqb y x) eqn:E; [apply Ascii.eqb_eq in E; exfalso; apply H; left; exact E|reflexivity].
  - rewrite IH by (intro; apply H; right; assumption). reflexivity.
Qed.
Lemma pattern_stop p a x c : ~ In x p -> p <> [] -> patternInString (a ++ x :: c) p = patternInString a p || patternInString c p.
Proof.
  intros H N. induction a as [|y a IH].
  - cbn [app patternInString]. change (x :: c) with ([] ++ x :: c). rewrite isPrefix_stop by exact H. destruct p; [congruence|]. reflexivity.
  - change (((y :: a) ++ x :: c)) with (y :: (a ++ x :: c)). cbn [patternInString]. rewrite IH. change (y :: a ++ x :: c) with ((y :: a) ++ x :: c). rewrite isPrefix_stop by exact H. rewrite orb_assoc. reflexivity.
Qed.
Lemma pattern_blank p b : blank b -> p <> [] -> Forall (fun c => isspace c = false) p -> patternInString b p = false.
Proof.
  intros B N H. destruct (patternInString b p) eqn:E; [|reflexivity]. exfalso. destruct p as [|y p]; [congruence|]. inversion H as [|? ? Hy _]; subst. apply (blank_notin b y B Hy). apply (pattern_In _ _ y E). left. reflexivity.
Qed.
Lemma pattern_blank_app p b c : blank b -> b <> [] -> p <> [] -> Forall (fun c => isspace c = false) p -> forall a, patternInString (a ++ b ++ c) p = patternInString a p || patternInString c p.
Proof.
  intros B N Np H. induction B as [|x b E B IH]; [congruence|]. intro a. assert (Nx : ~ In x p) by (intro F; rewrite Forall_forall in H; rewrite (H x F) in E; discriminate).
  cbn [app]. rewrite pattern_stop by assumption. destruct b as [|y b]; [reflexivity|]. pose proof (IH ltac:(discriminate) []) as E0. cbn [app] in E0 |- *. rewrite E0. cbn [patternInString]. destruct p; [congruence|]. reflexivity.
Qed.
Definition unitWord (w : str) : Prop := w <> [] /\ Forall (fun c => isspace c = false) w /\ exists c, In c w /\ isspace c = false /\ numChar c = false.
Lemma unit_word b n sp u z w : blank b -> goodNumber n -> blank sp -> sp <> [] -> blank z -> unitWord w -> patternInString (b ++ numberText n ++ sp ++ u ++ z) w = patternInString u w.
Proof.
  intros B G S N Z (N1 & N2 & (c & Hc & Ec & Ed)). rewrite app_assoc. rewrite pattern_blank_app by assumption.
  replace (patternInString (b ++ numberText n) w) with false; [cbn [orb]|].
  - destruct z as [|x z']; [rewrite app_nil_r; reflexivity|]. pose proof (pattern_blank_app w (x :: z') [] Z ltac:(discriminate) N1 N2 u) as E. rewrite app_nil_r in E. rewrite E. cbn [patternInString]. destruct w; [congruence|]. cbn [isPrefix orb]. apply orb_false_r.
  - symmetry. destruct (patternInString (b ++ numberText n) w) eqn:E; [|reflexivity]. exfalso. pose proof (pattern_In _ _ c E Hc) as F. apply in_app_iff in F as [F|F]; [exact (blank_notin _ _ B Ec F)|exact (num_notin _ _ (numberText_num _ G) Ed F)].
Qed.
Lemma unit_words : unitWord (str! "eV") /\ unitWord (str! "cmm1") /\ unitWord (str! "ps") /\ unitWord (str! "fs") /\ unitWord (str! "mum") /\ unitWord (str! "ang") /\ unitWord (str! "Bohr") /\ unitWord (str! "bohr").
Proof.
  repeat split; try discriminate; try (repeat (apply Forall_cons; [reflexivity|]); apply Forall_nil);
  [exists "V"%char|exists "c"%char|exists "p"%char|exists "f"%char|exists "m"%char|exists "a"%char|exists "B"%char|exists "b"%char]; (split; [cbn; tauto|split; reflexivity]).
Qed.
Lemma units_text b n sp u z : blank b -> goodNumber n -> blank sp -> sp <> [] -> blank z -> ~ In "="%char (u ++ z) ->
  parseDoubleWithUnits (b ++ numberText n ++ sp ++ u ++ z) = Ok (fold_left (fun x (w : list str * Q) => if existsb (patternInString u) (fst w) then (x / snd w)%Q else x) units (numberValue n)).
Proof.
  intros B G S N Z Ne. unfold parseDoubleWithUnits. rewrite (proj1 (find_none "="%char _)).
  2: { rewrite !in_app_iff. rewrite in_app_iff in Ne. intros [F|[F|[F|F]]]; [exact (blank_notin _ "="%char B eq_refl F)|exact (num_notin _ "="%char (numberText_num _ G) eq_refl F)|exact (blank_notin _ "="%char S eq_refl F)|exact (Ne F)]. }
  cbn [substrAfter]. rewrite stod_text; [|exact B|exact G|].
  2: { destruct sp as [|c sp]; [congruence|]. pose proof (blank_ends (c :: sp) S) as E. exact E. }
  cbn [bind]. destruct unit_words as (U1 & U2 & U3 & U4 & U5 & U6 & U7 & U8). unfold units. cbn [fold_left fst snd existsb]. rewrite !unit_word by assumption. reflexivity.
Qed.
