(** Property theorems for the input file: C44, C45. *)
From Coq Require Import QArith Ascii String Permutation.
From Verif Require Import Base BaseLemmas M_context S_context L_context L_context2 L_context3 L_context4.
From Coq Require Import Lia.
Open Scope Z_scope.

(** * C44 *)
(** an empty line, anywhere *)
Theorem C44_empty_line : forall f1 f2, setupFromInput (f1 ++ [[]] ++ f2) = setupFromInput (f1 ++ f2).
Proof. intros. unfold setupFromInput. rewrite !flat_map_app. reflexivity. Qed.
Print Assumptions C44_empty_line.
(** a line of blanks with or without a comment, outside blocks *)
Theorem C44_ignorable_line_partial : forall f1 f2 l, ignorable l -> closedBlocks f1 -> setupFromInput (f1 ++ [l] ++ f2) = setupFromInput (f1 ++ f2).
Proof. intros f1 f2 l Hl Hf. apply setup_insert; [exact Hf|apply ignorable_inert; exact Hl]. Qed.
Print Assumptions C44_ignorable_line_partial.
(** a comment at the end of a line, outside blocks *)
Theorem C44_trailing_comment_partial : forall f1 f2 l c, ~ In ";"%char l -> comment c -> closedBlocks f1 -> setupFromInput (f1 ++ [l ++ c] ++ f2) = setupFromInput (f1 ++ [l] ++ f2).
Proof. intros. apply trailing_comment; assumption. Qed.
Print Assumptions C44_trailing_comment_partial.
(** files of "key = value" lines: accepted exactly if every value of a known key can be read *)
Theorem C44_accepted : forall items, Forall goodItem items ->
  ((exists st, setupFromInput (map render items) = Ok st) <->
   (forall key val k, In (key, val) (params items) -> kindOf key = Some k -> exists w, readValue k false val = Ok w)).
Proof. intros items H. rewrite items_read by exact H. apply fold_accepts. Qed.
Print Assumptions C44_accepted.
(** the setting of a key is the value of its last line; keys that do not appear (or are unknown) keep their default *)
Theorem C44_settings : forall items st, Forall goodItem items -> setupFromInput (map render items) = Ok st -> forall key,
  match lastValue key (params items), kindOf key with
  | Some v, Some k => k <> KOccupied -> exists w, readValue k false v = Ok w /\ st key = Some w
  | _, _ => st key = None
  end.
Proof.
  intros items st H E key. rewrite items_read in E by exact H. pose proof (fold_last _ _ _ E key) as F. destruct (lastValue key (params items)) as [v|]; [|exact F]. destruct (kindOf key) as [k|]; [|exact F].
  intro N. destruct F as (soc & w & R & V & _). exists w. split; [rewrite (readValue_soc k false soc) by exact N; exact R|exact V].
Qed.
Print Assumptions C44_settings.
(** the order of the lines does not matter when each key appears once and hasSpinOrbit and numOccupiedStates are not both given *)
Theorem C44_order_partial : forall items items' st, Permutation items items' -> Forall goodItem items -> NoDup (map fst (params items)) ->
  ~ (In (str! "hasSpinOrbit") (map fst (params items)) /\ In (str! "numOccupiedStates") (map fst (params items))) ->
  setupFromInput (map render items) = Ok st -> exists st', setupFromInput (map render items') = Ok st' /\ forall key, st' key = st key.
Proof.
  intros items items' st P H Nd Nb E. rewrite items_read in E by exact H. rewrite items_read by (apply (Permutation_Forall P); exact H).
  apply (order_irrelevant (params items) (params items') defaults st); [apply Permutation_flat_map; exact P|exact Nd|tauto|reflexivity|exact E].
Qed.
Print Assumptions C44_order_partial.
(** missing: these two keys *)
Theorem C44_order_refuted : exists l l' st st', setupFromInput [l; l'] = Ok st /\ setupFromInput [l'; l] = Ok st' /\
  goodItem (Param [] (str! "hasSpinOrbit") (str! " ") (str! " true") []) /\ l = render (Param [] (str! "hasSpinOrbit") (str! " ") (str! " true") []) /\
  st (str! "numOccupiedStates") = Some (VNum (4 * 1)) /\ st' (str! "numOccupiedStates") = Some (VNum (4 * 1 * 2)).
Proof.
  exists (str! "hasSpinOrbit = true"), (str! "numOccupiedStates = 4"). eexists _, _. split; [reflexivity|]. split; [reflexivity|]. split; [|split; [reflexivity|split; reflexivity]].
  cbn [goodItem]. split; [constructor|]. split; [repeat constructor|]. split; [|split; [repeat constructor|split; [|left; reflexivity]]].
  - repeat (apply Forall_cons; [intro F; cbn in F; repeat destruct F as [F|F]; try discriminate; destruct F|]). apply Forall_nil.
  - repeat (apply Forall_cons; [intro F; cbn in F; repeat destruct F as [F|F]; try discriminate; destruct F|]). apply Forall_nil.
Qed.
Print Assumptions C44_order_refuted.
(** missing: what follows a ";" inside a comment is executed *)
Theorem C44_semicolon_in_comment_refuted : exists l st, hd_error l = Some "#"%char /\ setupFromInput [l] = Ok st /\ st (str! "useSymmetries") = Some (VBool true) /\ defaults (str! "useSymmetries") = None.
Proof. exists (str! "# old choice; useSymmetries = true"). eexists. split; [reflexivity|]. split; [reflexivity|]. split; reflexivity. Qed.
Print Assumptions C44_semicolon_in_comment_refuted.
(** missing: a comment line inside a block stops the program *)
Theorem C44_comment_in_block_refuted : exists l, ignorable l /\
  setupFromInput [str! "begin crystal"; str! "Si 0. 0. 0."; l; str! "end crystal"] = Err /\
  exists st, setupFromInput [str! "begin crystal"; str! "Si 0. 0. 0."; str! "end crystal"] = Ok st.
Proof.
  exists (str! "# second atom"). split; [|split; [vm_compute; reflexivity|eexists; reflexivity]].
  exists [], (str! "# second atom"). split; [reflexivity|]. split; [constructor|]. right. eexists. split; [reflexivity|].
  repeat (apply Forall_cons; [intro F; cbn in F; repeat destruct F as [F|F]; try discriminate; destruct F|]). apply Forall_nil.
Qed.
Print Assumptions C44_comment_in_block_refuted.
(** missing: the letters "end" in a comment close a block *)
Theorem C44_end_in_comment_refuted : exists l c st st' at1 at2, comment c /\
  setupFromInput [str! "begin crystal"; str! "Si 0. 0. 0."; l; str! "end crystal"] = Ok st /\
  setupFromInput [str! "begin crystal"; str! "Si 0. 0. 0."; l ++ c; str! "end crystal"] = Ok st' /\
  st (str! "crystal") = Some (VCrystal at1) /\ st' (str! "crystal") = Some (VCrystal at2) /\ length (fst at1) = 2%nat /\ length (fst at2) = 1%nat.
Proof.
  exists (str! "Si 1. 1. 1."), (str! "# at the end"). eexists _, _, _, _. split; [|split; [reflexivity|]; split; [reflexivity|]; split; [reflexivity|]; split; [reflexivity|]; split; reflexivity].
  right. eexists. split; [reflexivity|]. repeat (apply Forall_cons; [intro F; cbn in F; repeat destruct F as [F|F]; try discriminate; destruct F|]). apply Forall_nil.
Qed.
Print Assumptions C44_end_in_comment_refuted.
(** missing: a blank after the name of a block makes the program pass over it *)
Theorem C44_blank_after_block_name_refuted : exists st st', setupFromInput [str! "begin crystal"; str! "Si 0. 0. 0."; str! "end"] = Ok st /\
  setupFromInput [str! "begin crystal  # atoms"; str! "Si 0. 0. 0."; str! "end"] = Ok st' /\ st (str! "crystal") <> None /\ st' (str! "crystal") = None.
Proof. eexists _, _. split; [reflexivity|]. split; [reflexivity|]. split; [vm_compute; discriminate|reflexivity]. Qed.
Print Assumptions C44_blank_after_block_name_refuted.
(** blanks are space, tabulation, line feed, vertical tabulation, form feed and carriage return *)
Theorem C44_blanks : forall c, isspace c = true <-> In (N_of_ascii c) [32; 9; 10; 11; 12; 13]%N.
Proof.
  intro c. unfold isspace, code. split.
  - intro H. assert (E : (N_of_ascii c = 32 \/ N_of_ascii c = 9 \/ N_of_ascii c = 10 \/ N_of_ascii c = 11 \/ N_of_ascii c = 12 \/ N_of_ascii c = 13)%N) by lia. cbn [In]. intuition congruence.
  - intro H. cbn [In] in H. repeat destruct H as [H|H]; try contradiction; rewrite <- H; reflexivity.
Qed.
Print Assumptions C44_blanks.
(** lines of the block crystal: one atom each, in Bohr, with the number of its species in the list of names without repetitions *)
Theorem C44_crystal : forall items lines, Forall goodNamed items -> Forall2 (fun a line => lineWith (namedWords a) line) items lines ->
  exists atoms names, parseCrystal lines = Ok (atoms, names) /\ NoDup names /\ (forall n, In n names -> In n (map nmName items)) /\
    Forall2 (fun a (at1 : Z * (Q * Q * Q)) => zget names (fst at1) = Some (nmName a) /\
      snd at1 = (numberValue (nmX a) / distanceBohrToAng, numberValue (nmY a) / distanceBohrToAng, numberValue (nmZ a) / distanceBohrToAng)%Q) items atoms.
Proof. intros items lines G F. destruct (crystal_block items lines G F) as (atoms & names & E & N & M & S). exists atoms, names. split; [exact E|]. split; [exact N|]. split; [exact S|exact M]. Qed.
Print Assumptions C44_crystal.
(** lines of the block point path: names and coordinates of both ends *)
Theorem C44_path : forall items lines, Forall (fun p => goodNamed (fst p) /\ goodNamed (snd p)) items -> Forall2 (fun p line => lineWith (namedWords (fst p) ++ namedWords (snd p)) line) items lines ->
  parsePathExtrema lines = Ok (map (fun p => ((nmName (fst p), (numberValue (nmX (fst p)), numberValue (nmY (fst p)), numberValue (nmZ (fst p)))),
                                             (nmName (snd p), (numberValue (nmX (snd p)), numberValue (nmY (snd p)), numberValue (nmZ (snd p)))))) items).
Proof. exact path_block. Qed.
Print Assumptions C44_path.
Definition exNumber (d : Z) : number := {| nSign := NoSign; nInt := [d]; nFrac := Some [5]; nExp := None |}.
Lemma exNumber_good d : isDigit d -> goodNumber (exNumber d).
Proof. intro H. split; [repeat constructor; apply H|]. split; [repeat constructor; unfold isDigit; lia|]. split; [discriminate|exact I]. Qed.
Definition exAtom : named := {| nmName := str! "Si"; nmX := exNumber 0; nmY := exNumber 1; nmZ := exNumber 2 |}.
Example C44_block_ex : goodNamed exAtom /\ lineWith (namedWords exAtom) (str! " Si 0.5  1.5 2.5 ").
Proof.
  assert (D : forall d, 0 <= d < 10 -> goodNumber (exNumber d)) by (intros d H; apply exNumber_good; exact H). split.
  - split; [split; [discriminate|repeat constructor]|]. split; [apply D; lia|]. split; apply D; lia.
  - exists [(str! " ", str! "Si"); (str! " ", str! "0.5"); (str! "  ", str! "1.5"); (str! " ", str! "2.5")], (str! " "). split; [reflexivity|]. split; [|reflexivity].
    split; [|repeat constructor]. cbn [goodWords fst snd]. assert (B : forall s, blank s -> blank s) by tauto.
    repeat match goal with |- _ /\ _ => split | |- blank _ => repeat constructor | |- goodWord _ => split; [discriminate|repeat constructor] | |- True => exact I | |- _ <> [] => discriminate end.
Qed.
Definition exItems : list item := [Skip (str! "  # a comment"); Param (str! " ") (str! "kMesh") (str! " ") (str! " [4,4, 2] ") (str! "# mesh"); Param [] (str! "useSymmetries") [] (str! "True") []].
Ltac chars := repeat (apply Forall_cons; [let F := fresh in intro F; cbn in F; repeat destruct F as [F|F]; try discriminate; destruct F|]); apply Forall_nil.
Example C44_ex : Forall goodItem exItems /\ NoDup (map fst (params exItems)) /\ closedBlocks [str! "begin crystal"; str! "Si 0. 0. 0."; str! "end"] /\
  exists st, setupFromInput (map render exItems) = Ok st /\ st (str! "kMesh") = Some (VInts [4; 4; 2]) /\ st (str! "useSymmetries") = Some (VBool true) /\ st (str! "qMesh") = None.
Proof.
  split; [|split; [|split]].
  - apply Forall_cons; [|apply Forall_cons; [|apply Forall_cons; [|apply Forall_nil]]]; cbn [goodItem].
    + exists (str! "  "), (str! "# a comment"). split; [reflexivity|]. split; [repeat constructor|]. right. eexists. split; [reflexivity|]. chars.
    + split; [repeat constructor|]. split; [repeat constructor|]. split; [chars|]. split; [repeat constructor|]. split; [chars|]. right. eexists. split; [reflexivity|]. chars.
    + split; [constructor|]. split; [constructor|]. split; [chars|]. split; [repeat constructor|]. split; [chars|]. left. reflexivity.
  - cbn [exItems params flat_map app map fst]. constructor; [intros [F|[]]; discriminate|]. constructor; [intros []|constructor].
  - intros before l after E B. cbn in E. destruct before as [|x before]; [injection E as <- <-; exists (str! "end"); split; [cbn; tauto|reflexivity]|]. injection E as _ E.
    destruct before as [|y before]; [injection E as <- <-; vm_compute in B; discriminate|]. injection E as _ E. destruct before as [|z before]; [injection E as <- <-; vm_compute in B; discriminate|]. injection E as _ E. destruct before; discriminate.
  - eexists. split; [reflexivity|]. split; [reflexivity|]. split; reflexivity.
Qed.

(** * C45 *)
(** true and false in any mixture of cases, among characters that are not letters *)
Theorem C45_bool : forall a w z b, Forall (fun c => isalpha c = false) (a ++ z) -> ~ In "="%char (a ++ z) ->
  map tolower w = (if b : bool then str! "true" else str! "false") -> parseBool (a ++ w ++ z) = Ok b.
Proof. exact bool_text. Qed.
Print Assumptions C45_bool.
(** whole numbers: the value written, an error if it does not fit an int *)
Theorem C45_int : forall b s ds rest, blank b -> Forall isDigit ds -> ds <> [] -> noDigit rest -> ~ In "="%char rest ->
  let v := withSign s (decimalValue ds) in
  (INT_MIN <= v <= INT_MAX -> parseInt (b ++ signText s ++ digitChars ds ++ rest) = Ok v) /\
  (~ (INT_MIN <= v <= INT_MAX) -> parseInt (b ++ signText s ++ digitChars ds ++ rest) = Err).
Proof.
  intros b s ds rest B D N R Ne v. unfold parseInt. rewrite (proj1 (find_none "="%char _)).
  2: { rewrite !in_app_iff. intros [F|[F|[F|F]]]; [exact (blank_notin _ "="%char B eq_refl F)|exact (num_notin _ "="%char (signText_num _) eq_refl F)|exact (num_notin _ "="%char (digitChars_num _ D) eq_refl F)|exact (Ne F)]. }
  cbn [substrAfter]. rewrite stoi_text by assumption. cbv zeta. fold v. split; intro H; [replace ((INT_MIN <=? v) && (v <=? INT_MAX)) with true by lia|replace ((INT_MIN <=? v) && (v <=? INT_MAX)) with false by lia]; reflexivity.
Qed.
Print Assumptions C45_int.
(** decimal numbers with fraction and exponent *)
Theorem C45_double : forall b n rest, blank b -> goodNumber n -> ends rest -> ~ In "="%char rest -> parseDouble (b ++ numberText n ++ rest) = Ok (numberValue n).
Proof.
  intros b n rest B G R Ne. unfold parseDouble. rewrite (proj1 (find_none "="%char _)); [apply stod_text; assumption|].
  rewrite !in_app_iff. intros [F|[F|F]]; [exact (blank_notin _ "="%char B eq_refl F)|exact (num_notin _ "="%char (numberText_num _ G) eq_refl F)|exact (Ne F)].
Qed.
Print Assumptions C45_double.
(** lists *)
Theorem C45_double_list : forall a z items, ~ In "["%char a -> ~ In "]"%char z -> items <> [] -> Forall goodItemText items ->
  parseDoubleList (a ++ "["%char :: commas (map itemText items) ++ "]"%char :: z) = Ok (map (fun i => numberValue (snd (fst i))) items).
Proof. exact doubleList_text. Qed.
Print Assumptions C45_double_list.
Theorem C45_int_list : forall a z items, ~ In "["%char a -> ~ In "]"%char z -> items <> [] -> Forall goodInt items ->
  parseIntList (a ++ "["%char :: commas (map intText items) ++ "]"%char :: z) = Ok (map intValue items).
Proof. exact intList_text. Qed.
Print Assumptions C45_int_list.
Theorem C45_string_list : forall a z items, ~ In "["%char a -> ~ In "]"%char z -> items <> [] -> Forall goodName items ->
  parseStringList (a ++ "["%char :: commas (map nameText items) ++ "]"%char :: z) = Ok (map (fun i => snd (fst i)) items).
Proof. exact nameList_text. Qed.
Print Assumptions C45_string_list.
(** a list without brackets is refused *)
Theorem C45_list_brackets : forall s, ~ In "["%char s \/ ~ In "]"%char s -> parseDoubleList s = Err /\ parseIntList s = Err.
Proof.
  intros s H. assert (E : between "["%char "]"%char s = Err). { unfold between. destruct H as [H|H]; [rewrite (proj1 (find_none _ _) H); reflexivity|]. rewrite findLast_none by exact H. destruct (findFirst "["%char s); reflexivity. }
  unfold parseDoubleList, parseIntList. rewrite E. split; reflexivity.
Qed.
Print Assumptions C45_list_brackets.
(** text in quotes *)
Theorem C45_string : forall a s z, (~ In squote a -> ~ In squote z -> parseString (a ++ squote :: s ++ squote :: z) = Ok s) /\
  (~ In squote (a ++ s ++ z) -> ~ In dquote a -> ~ In dquote z -> parseString (a ++ dquote :: s ++ dquote :: z) = Ok s).
Proof. intros. split; [apply string_single|apply string_double]. Qed.
Print Assumptions C45_string.
(** text without quotes, or with one quote, is refused *)
Theorem C45_unquoted : forall s, (~ In squote s -> ~ In dquote s -> parseString s = Err) /\
  (forall a z, s = a ++ squote :: z -> ~ In squote a -> ~ In squote z -> parseString s = Err) /\
  (forall a z, s = a ++ dquote :: z -> ~ In squote s -> ~ In dquote a -> ~ In dquote z -> parseString s = Err).
Proof.
  intro s. split; [|split].
  - intros H1 H2. unfold parseString. rewrite (proj2 (has_notIn _ _) H1). apply unquoted, H2.
  - intros a z -> Ha Hz. unfold parseString. rewrite (proj2 (has_In squote (a ++ squote :: z))) by (apply in_app_iff; right; left; reflexivity). apply one_quote; assumption.
  - intros a z -> Hs Ha Hz. unfold parseString. rewrite (proj2 (has_notIn _ _) Hs). apply one_quote; assumption.
Qed.
Print Assumptions C45_unquoted.
(** lists of numbers that have a unit: chemical potentials in eV, temperatures in kelvin, masses in atomic mass units, dopings as they are *)
Theorem C45_keys : forall key f soc a z items, In (key, f) [(str! "chemicalPotentials", fun x => x / energyRyToEv); (str! "temperatures", fun x => x / temperatureAuToSi); (str! "masses", fun x => x * massAmuToRy); (str! "dopings", fun x => x / 1)]%Q ->
  ~ In "["%char a -> ~ In "]"%char z -> items <> [] -> Forall goodItemText items ->
  exists k, kindOf key = Some k /\ readValue k soc (a ++ "["%char :: commas (map itemText items) ++ "]"%char :: z) = Ok (VNums (map (fun i => f (numberValue (snd (fst i)))) items)).
Proof.
  intros key f soc a z items H Ha Hz Hi G. pose proof (doubleList_text a z items Ha Hz Hi G) as E.
  cbn [In] in H. destruct H as [H|[H|[H|[H|[]]]]]; injection H as <- <-; [exists (KNums energyRyToEv)|exists (KNums temperatureAuToSi)|exists (KNumsTimes massAmuToRy)|exists (KNums 1)]; (split; [reflexivity|]); cbn [readValue]; rewrite E; cbn [bind]; rewrite map_map; reflexivity.
Qed.
Print Assumptions C45_keys.
(** the two limits of the energy window, in any order *)
Theorem C45_window : forall soc a z i1 i2 rest, ~ In "["%char a -> ~ In "]"%char z -> Forall goodItemText (i1 :: i2 :: rest) ->
  exists k lo hi, kindOf (str! "windowEnergyLimit") = Some k /\ readValue k soc (a ++ "["%char :: commas (map itemText (i1 :: i2 :: rest)) ++ "]"%char :: z) = Ok (VNums [lo / energyRyToEv; hi / energyRyToEv]%Q) /\ (lo <= hi)%Q /\
    let x := numberValue (snd (fst i1)) in let y := numberValue (snd (fst i2)) in (lo = x /\ hi = y) \/ (lo = y /\ hi = x).
Proof.
  intros soc a z i1 i2 rest Ha Hz G. pose proof (doubleList_text a z (i1 :: i2 :: rest) Ha Hz ltac:(discriminate) G) as E. exists KWindow, (Qmin2 (numberValue (snd (fst i1))) (numberValue (snd (fst i2)))), (Qmax2 (numberValue (snd (fst i1))) (numberValue (snd (fst i2)))).
  split; [reflexivity|]. split; [cbn [readValue]; rewrite E; cbn [bind map]; reflexivity|]. cbv zeta. unfold Qmin2, Qmax2. destruct (Qle_bool _ _) eqn:L.
  - apply Qle_bool_iff in L. split; [exact L|left; split; reflexivity].
  - assert (~ (numberValue (snd (fst i1)) <= numberValue (snd (fst i2)))%Q) by (intro H; apply Qle_bool_iff in H; congruence). split; [apply Qlt_le_weak, Qnot_le_lt; assumption|right; split; reflexivity].
Qed.
Print Assumptions C45_window.
(** the factors of the conversions: 13.6057 eV, 157887 K, 0.529177 angstrom, 911.444, 0.0483777 fs, 109737 cm-1 *)
Theorem C45_constants : (136056 # 10000 < energyRyToEv < 136058 # 10000 /\ 157886 < temperatureAuToSi < 157889 /\ 529177 # 1000000 < distanceBohrToAng < 529178 # 1000000 /\
  911443 # 1000 < massAmuToRy < 911445 # 1000 /\ 48377 # 1000000 < timeAuToFs < 48378 # 1000000 /\ 109736 < ryToCmm1 < 109738 /\ distanceBohrToMum * 10000 == distanceBohrToAng)%Q.
Proof. repeat split; vm_compute; reflexivity. Qed.
Print Assumptions C45_constants.
(** numbers with their unit, in atomic units *)
Theorem C45_units : forall b n sp z u f, blank b -> goodNumber n -> blank sp -> sp <> [] -> blank z ->
  In (u, f) [(str! "eV", energyRyToEv); (str! "cmm1", ryToCmm1); (str! "ps", (timeAuToFs * pow10 (-3))%Q); (str! "fs", timeAuToFs); (str! "mum", distanceBohrToMum); (str! "ang", distanceBohrToAng); (str! "Bohr", 1%Q); (str! "bohr", 1%Q)] ->
  parseDoubleWithUnits (b ++ numberText n ++ sp ++ u ++ z) = Ok (numberValue n / f)%Q.
Proof.
  intros b n sp z u f B G S N Z Hu. rewrite units_text; try assumption.
  - unfold units. cbn [In] in Hu. destruct Hu as [Hu|[Hu|[Hu|[Hu|[Hu|[Hu|[Hu|[Hu|[]]]]]]]]]; injection Hu as <- <-; reflexivity.
  - rewrite in_app_iff. intros [F|F]; [|exact (blank_notin _ "="%char Z eq_refl F)]. cbn [In] in Hu. destruct Hu as [Hu|[Hu|[Hu|[Hu|[Hu|[Hu|[Hu|[Hu|[]]]]]]]]]; injection Hu as <- <-; cbn in F; repeat destruct F as [F|F]; try discriminate; destruct F.
Qed.
Print Assumptions C45_units.
(** not faithful: 0 and 1, which the program means to accept, are refused; letters may be scattered *)
Theorem C45_bool_refuted : parseBool (str! " 1") = Err /\ parseBool (str! " 0") = Err /\ parseBool (str! " 1t2r3u4e") = Ok true.
Proof. repeat split; reflexivity. Qed.
Print Assumptions C45_bool_refuted.
(** what follows a number is not checked; fractions are cut off where a whole number is expected *)
Theorem C45_trailing_text_refuted : parseInt (str! " 12 apples") = Ok 12 /\ parseInt (str! "3.7") = Ok 3 /\ parseIntList (str! "[1e3]") = Ok [1] /\ exists x, parseDouble (str! "1.5.7") = Ok x.
Proof. split; [reflexivity|]. split; [reflexivity|]. split; [reflexivity|]. eexists. reflexivity. Qed.
Print Assumptions C45_trailing_text_refuted.
(** milli-electronvolts are read as electronvolts; several units divide one after the other *)
Theorem C45_units_refuted : parseDoubleWithUnits (str! "5 meV") = parseDoubleWithUnits (str! "5 eV") /\ parseDoubleWithUnits (str! "5 parsecs") <> Err.
Proof. split; [reflexivity|discriminate]. Qed.
Print Assumptions C45_units_refuted.
(** a mesh with two numbers: read past the end. Unknown keys: passed over *)
Theorem C45_short_mesh_refuted : setupFromInput [str! "kMesh = [4,4]"] = UB /\ (exists st, setupFromInput [str! "kmesh = [4,4,4]"] = Ok st /\ forall k, st k = None).
Proof. split; [reflexivity|]. eexists. split; [reflexivity|]. reflexivity. Qed.
Print Assumptions C45_short_mesh_refuted.
Example C45_ex : let n := {| nSign := Minus; nInt := [1; 2]; nFrac := Some [5]; nExp := Some (false, Plus, [0; 2]) |} in
  numberText n = str! "-12.5e+02" /\ goodNumber n /\ (numberValue n == -1250)%Q /\ ends (str! " eV") /\
  goodItemText ([], n, str! " ") /\ goodInt (str! " ", (NoSign, [4; 2]), []) /\ goodName (str! " ", str! "variational", []) /\ map tolower (str! "TrUe") = str! "true" /\
  parseDoubleList (str! " [-12.5e+02 , 3.]") = Ok [numberValue n; (3 * 1)%Q].
Proof.
  cbv zeta. split; [reflexivity|]. split.
  { split; [repeat constructor; unfold isDigit; lia|]. split; [repeat constructor; unfold isDigit; lia|]. split; [discriminate|]. repeat constructor; unfold isDigit; lia. }
  split; [vm_compute; reflexivity|]. split; [split; [reflexivity|intro F; cbn in F; repeat destruct F as [F|F]; try discriminate; destruct F]|].
  split. { split; [constructor|]. split; [|repeat constructor]. split; [repeat constructor; unfold isDigit; lia|]. split; [repeat constructor; unfold isDigit; lia|]. split; [discriminate|]. repeat constructor; unfold isDigit; lia. }
  split. { split; [repeat constructor|]. split; [constructor|]. split; [repeat constructor; unfold isDigit; lia|]. split; [discriminate|]. vm_compute. split; discriminate. }
  split. { split; [repeat constructor|]. split; [constructor|]. split; [chars|]. intro F. vm_compute in F. repeat destruct F as [F|F]; try discriminate. destruct F. }
  split; reflexivity.
Qed.
