(** C139: the description of the crystal in phono3py_disp.yaml is read as it was written *)
From Coq Require Import QArith Ascii String.
From Verif Require Import Base M_context M_yaml S_yaml L_yaml3 L_yaml4.
Open Scope Z_scope.

Theorem C139_read : forall d, goodDoc d -> exists y, readYaml (writeDoc d) = Ok y /\ readsDoc d y.
Proof. exact read_doc. Qed.
Print Assumptions C139_read.

Theorem C139_not_diagonal : forall pre key m rest, Forall quiet pre -> In key [str! "supercell_matrix:"; str! "phonon_supercell_matrix:"] ->
  Forall goodInteger (entries m) -> (exists n, In n (offDiagonal m) /\ zValue n <> 0) -> readYaml (pre ++ key :: fullLines m ++ rest) = Err.
Proof. exact not_diagonal. Qed.
Print Assumptions C139_not_diagonal.

(** GaAs with two supercells *)
Definition nu (s : str) (v : Q) : numeral := {| nText := s; nValue := v |}.
Definition ex0 := nu (str! "0.000000000000000") 0. Definition exh := nu (str! "0.500000000000000") (1 # 2). Definition exq := nu (str! "0.25") (1 # 4). Definition exl := nu (str! "-2.8") (-28 # 10).
Definition num (s : str) : numeral := {| nText := s; nValue := match stod s with Ok v => v | _ => 0%Q end |}.
Definition nat' (s : str) : natural := {| iText := s; iValue := match stoi s with Ok v => v | _ => 0 end |}.
Definition exLat (a : str) : n3 * n3 * n3 := ((num (str! "0.0"), num a, num a), (num a, num (str! "0.0"), num a), (num a, num a, num (str! "-0.0e+00"))).
Definition exPt (n k x : str) : point := {| pName := n; pNumber := nat' k; pAt := (num x, num x, num x); pMass := num (str! "28.0855") |}.
Definition exBlock (a : str) : block := {| bRows := exLat a; bPoints := [exPt (str! "Ga") (str! "1") (str! "0.000000000000000"); exPt (str! "As") (str! "2") (str! "0.25"); exPt (str! "Ga") (str! "3") (str! "-5E-1")] |}.
Definition exGrid (k : str) : g3 := (nat' k, nat' k, nat' k).
Definition exDoc : doc :=
  {| dPre := [str! "phono3py:"; str! "  version: 2.3"; str! "physical_unit:"; str! "  length: au"; []]; dGrid := exGrid (str! "2"); dPh := Some (exGrid (str! "4"), exBlock (str! "12.5"));
     dPrim := exBlock (str! "5.1"); dRecip := exLat (str! "0.098"); dUnit := exBlock (str! "5.1"); dSuper := exBlock (str! "10.2"); dPost := [str! "displacement_pairs:"; str! "- atom: 1"] |}.
Lemma goodNum s : (match s with [] => false | _ => forallb numChar s && match stod s with Ok _ => true | _ => false end end) = true -> goodNumeral (num s).
Proof.
  intro H. unfold goodNumeral, num. cbn [nText nValue]. destruct s as [|c s]; [discriminate|]. apply andb_true_iff in H as [A B]. split; [discriminate|]. split; [apply Forall_forall; apply forallb_forall; exact A|].
  destruct (stod (c :: s)); try discriminate. reflexivity.
Qed.
Lemma goodNat s : (match s with [] => false | _ => forallb isdigit s && match stoi s with Ok v => 0 <? v | _ => false end end) = true -> goodNatural (nat' s).
Proof.
  intro H. unfold goodNatural, nat'. cbn [iText iValue]. destruct s as [|c s]; [discriminate|]. apply andb_true_iff in H as [A B]. split; [discriminate|]. split; [apply Forall_forall; apply forallb_forall; exact A|].
  destruct (stoi (c :: s)); try discriminate. split; [reflexivity|apply Z.ltb_lt; exact B].
Qed.
Lemma goodPt n k x : In n [str! "Ga"; str! "As"] -> goodNatural (nat' k) -> goodNumeral (num x) -> goodPoint (exPt n k x).
Proof.
  intros N K X. unfold goodPoint, exPt. cbn [pName pNumber pAt pMass good3]. assert (M : goodNumeral (num (str! "28.0855"))) by (apply goodNum; reflexivity).
  destruct N as [<-|[<-|[]]]; (split; [discriminate|split; [cbn; lia|split; [repeat constructor|tauto]]]).
Qed.
Lemma goodBl a : goodNumeral (num a) -> goodBlock (exBlock a).
Proof.
  intro A. assert (Z0 : goodNumeral (num (str! "0.0"))) by (apply goodNum; reflexivity). assert (Z1 : goodNumeral (num (str! "-0.0e+00"))) by (apply goodNum; reflexivity).
  unfold goodBlock, exBlock, exLat. cbn [bRows bPoints good3]. split; [tauto|split; [tauto|split; [tauto|]]].
  repeat (apply Forall_cons; [apply goodPt; [cbn; tauto|apply goodNat; reflexivity|apply goodNum; reflexivity]|]). apply Forall_nil.
Qed.
Lemma quietB l : forallb (fun k => negb (patternInString l k)) words = true -> quiet l.
Proof. intros H k K. rewrite forallb_forall in H. apply H in K. apply negb_true_iff in K. exact K. Qed.
Example C139_ex : goodDoc exDoc /\ exists y, readYaml (writeDoc exDoc) = Ok y /\ yGrid y = (4, 4, 4) /\ yBohr y = true /\ yNames y = [str! "Ga"; str! "As"] /\ ySpecies y = [0; 1; 0].
Proof.
  split.
  - unfold goodDoc, exDoc. cbn [dPre dGrid dPh dPrim dRecip dUnit dSuper dPost].
    assert (Z0 : goodNumeral (num (str! "0.0"))) by (apply goodNum; reflexivity). assert (Z1 : goodNumeral (num (str! "-0.0e+00"))) by (apply goodNum; reflexivity). assert (Z2 : goodNumeral (num (str! "0.098"))) by (apply goodNum; reflexivity).
    assert (G : forall k, goodNatural (nat' k) -> goodGrid (exGrid k)) by (intros k K; cbn; tauto).
    split; [repeat (apply Forall_cons; [apply quietB; reflexivity|]); apply Forall_nil|]. split; [apply G, goodNat; reflexivity|]. split; [split; [apply G, goodNat; reflexivity|apply goodBl, goodNum; reflexivity]|].
    split; [apply goodBl, goodNum; reflexivity|]. split; [unfold exLat; cbn [good3]; tauto|]. split; [apply goodBl, goodNum; reflexivity|]. split; [apply goodBl, goodNum; reflexivity|].
    repeat (apply Forall_cons; [apply quietB; reflexivity|]). apply Forall_nil.
  - eexists. split; [vm_compute; reflexivity|]. repeat split.
Qed.
(** the rule of the column of the symbol: the same document with the list of atoms one level to the left loses letters *)
Theorem C139_indent_refuted : forall a b k, isalpha a = true -> isalpha b = true ->
  symbolOf (str! "  - symbol: " ++ [a; b] ++ str! " # " ++ k) = [a; b] /\ symbolOf (str! "- symbol: " ++ [a; b] ++ str! " # " ++ k) = [].
Proof. exact indent_symbols. Qed.
Print Assumptions C139_indent_refuted.
Definition zi (s : str) (v : Z) : integer := {| zText := s; zValue := v |}.
Definition exFull : z33 := ((zi (str! "-1") (-1), zi (str! "1") 1, zi (str! "1") 1), (zi (str! "1") 1, zi (str! "-1") (-1), zi (str! "1") 1), (zi (str! "1") 1, zi (str! "1") 1, zi (str! "-1") (-1))).
Example C139_ex_full : Forall goodInteger (entries exFull) /\ exists n, In n (offDiagonal exFull) /\ zValue n <> 0.
Proof.
  split; [|exists (zi (str! "1") 1); split; [cbn; tauto|discriminate]]. unfold exFull, entries.
  repeat (apply Forall_cons; [split; [discriminate|split; [repeat constructor|reflexivity]]|]). apply Forall_nil.
Qed.
