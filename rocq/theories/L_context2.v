(** Lemmas on settings and their order, and on the notation of values. *)
From Coq Require Import QArith Ascii String Permutation.
From Verif Require Import Base BaseLemmas M_context S_context L_context.
Open Scope Z_scope.

Lemma readValue_soc k b b' s : k <> KOccupied -> readValue k b s = readValue k b' s.
Proof. intro H. destruct k; try reflexivity. congruence. Qed.
Lemma readValue_total k b b' s w : readValue k b s = Ok w -> exists w', readValue k b' s = Ok w'.
Proof.
  destruct k; intro H; try (exists w; exact H). cbn [readValue] in *. destruct (parseDouble s); cbn [bind] in *; try discriminate. eexists. reflexivity.
Qed.
Lemma lastValue_snoc key ps p : lastValue key (ps ++ [p]) = if streq (fst p) key then Some (snd p) else lastValue key ps.
Proof. unfold lastValue. rewrite rev_unit. cbn [find]. destruct (streq (fst p) key); reflexivity. Qed.
Lemma lastValue_None key ps : lastValue key ps = None <-> ~ In key (map fst ps).
Proof.
  induction ps as [|p ps IH] using rev_ind; [split; [intros _ []|reflexivity]|]. rewrite lastValue_snoc, map_app, in_app_iff. cbn [map In]. destruct (streq (fst p) key) eqn:E.
  - apply streq_eq in E. split; [discriminate|intro H; exfalso; apply H; right; left; exact E].
  - apply streq_neq in E. rewrite IH. tauto.
Qed.
Lemma lastValue_In key ps v : lastValue key ps = Some v -> In (key, v) ps.
Proof.
  induction ps as [|[a b] ps IH] using rev_ind; [discriminate|]. rewrite lastValue_snoc, in_app_iff. cbn [fst snd]. destruct (streq a key) eqn:E; intro H.
  - apply streq_eq in E. subst a. injection H as ->. right. left. reflexivity.
  - left. exact (IH H).
Qed.
Lemma lastValue_NoDup key ps v : NoDup (map fst ps) -> In (key, v) ps -> lastValue key ps = Some v.
Proof.
  induction ps as [|[a b] ps IH] using rev_ind; intros Nd H; [destruct H|]. rewrite lastValue_snoc. cbn [fst snd]. rewrite map_app in Nd. cbn [map fst] in Nd. apply NoDup_remove in Nd as [Nd Nn]. rewrite app_nil_r in *.
  apply in_app_iff in H as [H|[H|[]]].
  - destruct (streq a key) eqn:E; [|apply IH; assumption]. apply streq_eq in E. subst a. exfalso. apply Nn. change key with (fst (key, v)). apply in_map. exact H.
  - injection H as -> ->. rewrite streq_refl. reflexivity.
Qed.
Definition hso : str := str! "hasSpinOrbit".
Lemma setKey_other st p st' key : setKey st p = Ok st' -> fst p <> key -> st' key = st key.
Proof.
  unfold setKey. destruct (kindOf (fst p)) as [k|]; [|intro H; injection H as <-; reflexivity]. destruct (readValue k (socOf st) (snd p)); cbn [bind]; try discriminate.
  intros H N. injection H as <-. unfold assign. destruct (streq key (fst p)) eqn:E; [apply streq_eq in E; congruence|reflexivity].
Qed.
Lemma fold_last ps : forall st st', foldM setKey ps st = Ok st' -> forall key,
  match lastValue key ps with
  | None => st' key = st key
  | Some v => match kindOf key with None => st' key = st key | Some k => exists soc w, readValue k soc v = Ok w /\ st' key = Some w /\ (~ In hso (map fst ps) -> socOf st = false -> soc = false) end
  end.
Proof.
  induction ps as [|p ps IH] using rev_ind; intros st st' H key; [injection H as <-; reflexivity|]. rewrite foldM_app' in H. destruct (foldM setKey ps st) as [s| |] eqn:E; cbn [bind] in H; try discriminate. cbn [foldM] in H.
  destruct (setKey s p) as [s'| |] eqn:Es; cbn [bind] in H; try discriminate. injection H as <-. specialize (IH st s E). rewrite lastValue_snoc. destruct (streq (fst p) key) eqn:Ek.
  - apply streq_eq in Ek. unfold setKey in Es. rewrite Ek in Es. destruct (kindOf key) as [k|] eqn:EK.
    + destruct (readValue k (socOf s) (snd p)) as [w| |] eqn:Ew; cbn [bind] in Es; try discriminate. injection Es as <-. exists (socOf s), w. split; [exact Ew|]. split; [unfold assign; rewrite streq_refl; reflexivity|].
      intros Nh Hst. specialize (IH hso). rewrite (proj2 (lastValue_None hso ps)) in IH by (intro F; apply Nh; rewrite map_app, in_app_iff; left; exact F). unfold socOf in *. fold hso in *. rewrite IH. exact Hst.
    + injection Es as <-. specialize (IH key). destruct (lastValue key ps); [rewrite EK in IH|]; exact IH.
  - apply streq_neq in Ek. pose proof (setKey_other _ _ _ _ Es Ek) as E'. specialize (IH key). destruct (lastValue key ps) as [v|]; [|congruence]. destruct (kindOf key) as [k|]; [|congruence].
    destruct IH as (soc & w & H1 & H2 & H3). exists soc, w. split; [exact H1|]. split; [congruence|]. intros Nh Hs. apply H3; [|exact Hs]. intro F. apply Nh. rewrite map_app, in_app_iff. left. exact F.
Qed.
Lemma fold_accepts ps : forall st, (exists st', foldM setKey ps st = Ok st') <-> (forall key v k, In (key, v) ps -> kindOf key = Some k -> exists w, readValue k false v = Ok w).
Proof.
  induction ps as [|[a b] ps IH]; intro st; [split; [intros _ ? ? ? []|intros _; exists st; reflexivity]|]. cbn [foldM]. unfold setKey at 1. cbn [fst snd]. split.
  - intros (st' & H) key v k [Hin|Hin] Hk.
    + injection Hin as -> ->. rewrite Hk in H. destruct (readValue k (socOf st) v) as [w| |] eqn:E; cbn [bind] in H; try discriminate. apply (readValue_total _ _ _ _ _ E).
    + destruct (kindOf a) as [ka|]; [destruct (readValue ka (socOf st) b) as [w| |]; cbn [bind] in H; try discriminate|cbn [bind] in H]; refine (proj1 (IH _) (ex_intro _ st' H) key v k Hin Hk).
  - intro H. destruct (kindOf a) as [ka|] eqn:E; cbn [bind].
    + destruct (H a b ka (or_introl eq_refl) E) as (w & Ew). destruct (readValue_total _ _ (socOf st) _ _ Ew) as (w' & ->). cbn [bind]. apply IH. intros key v k Hin. apply H. right. exact Hin.
    + apply IH. intros key v k Hin. apply H. right. exact Hin.
Qed.
Definition nocc : str := str! "numOccupiedStates".
Lemma occupied_key key : kindOf key = Some KOccupied -> key = nocc.
Proof.
  unfold kindOf. destruct (find (fun e : str * kind => streq (fst e) key) table) as [e|] eqn:E; [|discriminate]. cbn [option_map]. intro H. injection H as H. apply find_some in E as [Hin Hk]. apply streq_eq in Hk.
  assert (F : Forall (fun e : str * kind => snd e = KOccupied -> fst e = nocc) table).
  { unfold table. cbn [map app]. repeat (apply Forall_cons; [cbn [fst snd]; (discriminate || reflexivity)|]). apply Forall_nil. }
  rewrite Forall_forall in F. rewrite <- Hk. apply F; assumption.
Qed.
Lemma order_irrelevant ps ps' st st1 : Permutation ps ps' -> NoDup (map fst ps) -> (In hso (map fst ps) -> In nocc (map fst ps) -> False) -> socOf st = false ->
  foldM setKey ps st = Ok st1 -> exists st2, foldM setKey ps' st = Ok st2 /\ forall key, st2 key = st1 key.
Proof.
  intros P Nd Nb Hs H. assert (A : exists st2, foldM setKey ps' st = Ok st2).
  { apply fold_accepts. intros key v k Hin Hk. refine (proj1 (fold_accepts ps st) (ex_intro _ st1 H) key v k _ Hk). apply (Permutation_in _ (Permutation_sym P)). exact Hin. }
  destruct A as (st2 & H2). exists st2. split; [exact H2|]. intro key. pose proof (fold_last ps st st1 H key) as F1. pose proof (fold_last ps' st st2 H2 key) as F2.
  assert (Pk : Permutation (map fst ps) (map fst ps')) by (apply Permutation_map; exact P).
  destruct (lastValue key ps) as [v|] eqn:E1.
  - pose proof (lastValue_In _ _ _ E1) as Hin. assert (E2 : lastValue key ps' = Some v) by (apply lastValue_NoDup; [apply (Permutation_NoDup Pk Nd)|apply (Permutation_in _ P); exact Hin]). rewrite E2 in F2.
    destruct (kindOf key) as [k|] eqn:EK; [|congruence]. destruct F1 as (s1 & w1 & R1 & V1 & C1), F2 as (s2 & w2 & R2 & V2 & C2). rewrite V1, V2. f_equal.
    assert (Heq : readValue k s1 v = readValue k s2 v). { destruct k; try reflexivity. apply occupied_key in EK. subst key. assert (Nh : ~ In hso (map fst ps)) by (intro F; apply Nb; [exact F|]; change nocc with (fst (nocc, v)); apply in_map; exact Hin). rewrite (C1 Nh Hs). rewrite C2; [reflexivity| |exact Hs]. intro F. apply Nh. apply (Permutation_in _ (Permutation_sym Pk)). exact F. }
    congruence.
  - assert (E2 : lastValue key ps' = None). { apply lastValue_None. intro F. apply (proj1 (lastValue_None key ps) E1). apply (Permutation_in _ (Permutation_sym Pk)). exact F. } rewrite E2 in F2. congruence.
Qed.

(** * Numbers *)
Lemma digitChar_digit d : isDigit d -> isdigit (digitChar d) = true /\ code (digitChar d) = 48 + d /\ isspace (digitChar d) = false /\ isc "-"%char (digitChar d) = false /\ isc "+"%char (digitChar d) = false /\ isc "."%char (digitChar d) = false.
Proof.
  intro H. unfold isDigit in H. assert (C : d = 0 \/ d = 1 \/ d = 2 \/ d = 3 \/ d = 4 \/ d = 5 \/ d = 6 \/ d = 7 \/ d = 8 \/ d = 9) by lia.
  repeat destruct C as [->|C]; try subst d; vm_compute; repeat split; reflexivity.
Qed.
Lemma takeDigits_app ds rest : Forall isDigit ds -> noDigit rest -> takeDigits (digitChars ds ++ rest) = (ds, rest).
Proof.
  intros H R. induction H as [|d ds Hd _ IH].
  - cbn [digitChars map app]. destruct rest as [|c rest]; [reflexivity|]. cbn [takeDigits]. cbn [noDigit] in R. rewrite R. reflexivity.
  - cbn [digitChars map app takeDigits]. destruct (digitChar_digit d Hd) as (E1 & E2 & _). rewrite E1. fold (digitChars ds). rewrite IH, E2. f_equal. f_equal. lia.
Qed.
Lemma digitsVal_gen ds : forall a, fold_left (fun a d => 10 * a + d) ds a = a * 10 ^ zlen ds + decimalValue ds.
Proof.
  induction ds as [|d ds IH]; intro a; cbn [fold_left decimalValue]; [cbn; lia|]. rewrite IH. unfold zlen. cbn [length]. rewrite Nat2Z.inj_succ, Z.pow_succ_r by lia. ring.
Qed.
Lemma digitsVal_eq ds : digitsVal ds = decimalValue ds.
Proof. unfold digitsVal. rewrite digitsVal_gen. lia. Qed.
Lemma dropSpaces_blank b s : blank b -> match s with c :: _ => isspace c = false | [] => True end -> dropSpaces (b ++ s) = s.
Proof. intros B H. induction B as [|c b E _ IH]; [destruct s as [|c s]; [reflexivity|cbn [app dropSpaces]; rewrite H; reflexivity]|]. cbn [app dropSpaces]. rewrite E. exact IH. Qed.
Definition isNeg (s : sign) : bool := match s with Minus => true | _ => false end.
Lemma signed_eq s v : signed (isNeg s) v = withSign s v.
Proof. destruct s; reflexivity. Qed.
Lemma takeSign_digits s ds rest : Forall isDigit ds -> ds <> [] -> takeSign (signText s ++ digitChars ds ++ rest) = (isNeg s, digitChars ds ++ rest).
Proof.
  intros H N. destruct ds as [|d ds]; [congruence|]. inversion H as [|? ? Hd _]; subst. destruct (digitChar_digit d Hd) as (_ & _ & _ & E1 & E2 & _).
  destruct s; cbn [signText app]; unfold takeSign; [|reflexivity|reflexivity]. cbn [digitChars map app]. rewrite E1, E2. reflexivity.
Qed.
Lemma sign_no_space s c rest : isspace c = false -> match signText s ++ c :: rest with x :: _ => isspace x = false | [] => True end.
Proof. intro H. destruct s; cbn [signText app]; [exact H|reflexivity|reflexivity]. Qed.
Lemma stoi_text b s ds rest : blank b -> Forall isDigit ds -> ds <> [] -> noDigit rest ->
  stoi (b ++ signText s ++ digitChars ds ++ rest) = let v := withSign s (decimalValue ds) in if (INT_MIN <=? v) && (v <=? INT_MAX) then Ok v else Err.
Proof.
  intros B H N R. unfold stoi. rewrite dropSpaces_blank; [|exact B|].
  2: { destruct ds as [|d ds]; [congruence|]. inversion H as [|? ? Hd _]; subst. cbn [digitChars map app]. apply sign_no_space. apply digitChar_digit. exact Hd. }
  rewrite takeSign_digits by assumption. rewrite takeDigits_app by assumption. rewrite signed_eq, digitsVal_eq. destruct ds; [congruence|reflexivity].
Qed.
Lemma takeSign_dot s r : takeSign (signText s ++ "."%char :: r) = (isNeg s, "."%char :: r).
Proof. destruct s; reflexivity. Qed.
Lemma takeDigits_dot r : takeDigits ("."%char :: r) = ([], "."%char :: r).
Proof. reflexivity. Qed.
Lemma exponent_text upper s ds rest : Forall isDigit ds -> ends rest -> takeExponent (((if upper : bool then "E"%char else "e"%char) :: signText s ++ digitChars ds) ++ rest) = withSign s (decimalValue ds).
Proof.
  intros H R. cbn [app takeExponent]. replace (isc "e"%char (if upper then "E"%char else "e"%char) || isc "E"%char (if upper then "E"%char else "e"%char)) with true by (destruct upper; reflexivity).
  assert (Nd : noDigit rest) by (destruct rest as [|c r]; [exact I|exact (proj1 R)]).
  assert (T : takeSign ((signText s ++ digitChars ds) ++ rest) = (isNeg s, digitChars ds ++ rest)).
  { rewrite <- app_assoc. destruct ds as [|d ds]; [|apply takeSign_digits; [exact H|discriminate]]. cbn [digitChars map app]. destruct s; cbn [signText app]; [|reflexivity|reflexivity].
    destruct rest as [|c r]; [reflexivity|]. cbn [ends] in R. unfold takeSign. destruct (isc "-"%char c) eqn:E1; [apply isc_eq in E1; exfalso; apply (proj2 R); subst c; cbn; tauto|]. destruct (isc "+"%char c) eqn:E2; [apply isc_eq in E2; exfalso; apply (proj2 R); subst c; cbn; tauto|]. reflexivity. }
  rewrite T, takeDigits_app by assumption. rewrite signed_eq, digitsVal_eq. reflexivity.
Qed.
Lemma no_exponent rest : ends rest -> takeExponent rest = 0.
Proof.
  destruct rest as [|c r]; [reflexivity|]. intros (_ & R). cbn [takeExponent]. destruct (isc "e"%char c) eqn:E1; [apply isc_eq in E1; exfalso; apply R; subst c; cbn; tauto|]. destruct (isc "E"%char c) eqn:E2; [apply isc_eq in E2; exfalso; apply R; subst c; cbn; tauto|]. reflexivity.
Qed.
Lemma stod_text b n rest : blank b -> goodNumber n -> ends rest -> stod (b ++ numberText n ++ rest) = Ok (numberValue n).
Proof.
  intros B (Hi & Hf & Hne & He) R. destruct n as [s ip fr ex]. unfold numberText, numberValue, fracDigits in *. cbn [nSign nInt nFrac nExp] in *.
  set (tail := (match ex with Some (upper, s, ds) => (if upper : bool then "E"%char else "e"%char) :: signText s ++ digitChars ds | None => [] end) ++ rest).
  set (fp := match fr with Some f => f | None => [] end) in *.
  set (frt := match fr with Some f => "."%char :: digitChars f | None => [] end).
  replace (b ++ (signText s ++ digitChars ip ++ frt ++ (match ex with Some (upper, s, ds) => (if upper : bool then "E"%char else "e"%char) :: signText s ++ digitChars ds | None => [] end)) ++ rest) with (b ++ signText s ++ digitChars ip ++ frt ++ tail) by (unfold tail; rewrite <- !app_assoc; reflexivity).
  assert (Tn : noDigit tail). { unfold tail. destruct ex as [[[u s'] ds]|]; [destruct u; reflexivity|]. destruct rest as [|c r]; [exact I|exact (proj1 R)]. }
  assert (Te : takeExponent tail = match ex with Some (_, s, ds) => withSign s (decimalValue ds) | None => 0 end).
  { unfold tail. destruct ex as [[[u s'] ds]|]; [apply exponent_text; assumption|apply no_exponent; exact R]. }
  assert (Td : match tail with c :: _ => isc "."%char c = false | [] => True end).
  { unfold tail. destruct ex as [[[u s'] ds]|]; [destruct u; reflexivity|]. destruct rest as [|c r]; [exact I|]. cbn [app]. apply isc_neq. intro F. apply (proj2 R). subst c. cbn. tauto. }
  assert (Ff : takeFraction (frt ++ tail) = (fp, tail)).
  { unfold frt, fp. destruct fr as [f|]; cbn [app takeFraction].
    - replace (isc "."%char "."%char) with true by reflexivity. apply takeDigits_app; [exact Hf|exact Tn].
    - destruct tail as [|c t]; [reflexivity|]. cbn [takeFraction]. rewrite Td. reflexivity. }
  assert (Nf : noDigit (frt ++ tail)) by (unfold frt; destruct fr; [reflexivity|exact Tn]).
  clearbody tail. unfold stod.
  assert (D : dropSpaces (b ++ signText s ++ digitChars ip ++ frt ++ tail) = signText s ++ digitChars ip ++ frt ++ tail /\ takeSign (signText s ++ digitChars ip ++ frt ++ tail) = (isNeg s, digitChars ip ++ frt ++ tail)).
  { destruct ip as [|d ip].
    - unfold fp in Hne. cbn [app] in Hne. destruct fr as [f|]; [|congruence]. cbn [digitChars map app]. unfold frt. cbn [app]. split; [|apply takeSign_dot]. apply dropSpaces_blank; [exact B|]. apply sign_no_space. reflexivity.
    - split; [|apply takeSign_digits; [exact Hi|discriminate]]. apply dropSpaces_blank; [exact B|]. cbn [digitChars map app]. apply sign_no_space. inversion Hi; subst. apply digitChar_digit. assumption. }
  destruct D as (-> & ->). rewrite takeDigits_app by assumption. rewrite Ff. rewrite Te. destruct (ip ++ fp); [congruence|]. rewrite signed_eq, digitsVal_eq. reflexivity.
Qed.
