(** Model of the reading of the input file, src/context.cpp:14-770. Characters are [ascii]; a string is a list of them.
    C++ exceptions of stoi/stod/substr that nothing catches end the program: they are [Err], as Error(...). *)
From Coq Require Import QArith Ascii String.
From Verif Require Import Base.
Open Scope Z_scope.

Definition str : Type := list ascii.
Notation "'str!' s" := (list_ascii_of_string s) (at level 0, s at level 0).
Definition code (c : ascii) : Z := Z.of_N (N_of_ascii c).
(** <cctype>, "C" locale *)
Definition isspace (c : ascii) : bool := (code c =? 32) || ((9 <=? code c) && (code c <=? 13)).
Definition isdigit (c : ascii) : bool := (48 <=? code c) && (code c <=? 57).
Definition isupper (c : ascii) : bool := (65 <=? code c) && (code c <=? 90).
Definition islower (c : ascii) : bool := (97 <=? code c) && (code c <=? 122).
Definition isalpha (c : ascii) : bool := isupper c || islower c.
Definition tolower (c : ascii) : ascii := if isupper c then ascii_of_N (Z.to_N (code c + 32)) else c.
Fixpoint streq (a b : str) : bool :=
  match a, b with [], [] => true | x :: a, y :: b => Ascii.eqb x y && streq a b | _, _ => false end.
Definition isc (c : ascii) (x : ascii) : bool := Ascii.eqb x c.
(** std::string::find of one character; None = npos *)
Fixpoint findFirst (c : ascii) (s : str) : option nat :=
  match s with [] => None | x :: r => if isc c x then Some O else option_map S (findFirst c r) end.
Fixpoint findLast (c : ascii) (s : str) : option nat :=
  match s with [] => None | x :: r => match findLast c r with Some n => Some (S n) | None => if isc c x then Some O else None end end.
Definition has (c : ascii) (s : str) : bool := existsb (isc c) s.
(** substr(pos+1) for pos from find: npos + 1 = 0 *)
Definition substrAfter (p : option nat) (s : str) : str := match p with Some n => skipn (S n) s | None => s end.
Definition substrBefore (p : option nat) (s : str) : str := match p with Some n => firstn n s | None => s end.
Definition remove (f : ascii -> bool) (s : str) : str := filter (fun c => negb (f c)) s.
Fixpoint isPrefix (p s : str) : bool :=
  match p, s with [], _ => true | x :: p, y :: s => Ascii.eqb x y && isPrefix p s | _, [] => false end.
(** l.16-22 patternInString *)
Fixpoint patternInString (s p : str) : bool :=
  isPrefix p s || match s with [] => false | _ :: r => patternInString r p end.
(** position of the first occurrence *)
Fixpoint findPattern (s p : str) : option nat :=
  if isPrefix p s then Some O else match s with [] => None | _ :: r => option_map S (findPattern r p) end.

(** * Numbers *)
Fixpoint dropSpaces (s : str) : str := match s with c :: r => if isspace c then dropSpaces r else s | [] => [] end.
Definition takeSign (s : str) : bool * str :=
  match s with c :: r => if isc "-"%char c then (true, r) else if isc "+"%char c then (false, r) else (false, s) | [] => (false, []) end.
Fixpoint takeDigits (s : str) : list Z * str :=
  match s with c :: r => if isdigit c then let '(d, t) := takeDigits r in (code c - 48 :: d, t) else ([], s) | [] => ([], []) end.
Definition digitsVal (ds : list Z) : Z := fold_left (fun a d => 10 * a + d) ds 0.
Definition signed (neg : bool) (v : Z) : Z := if neg then - v else v.
(** std::stoi, base 10 *)
Definition stoi (s : str) : res Z :=
  let '(neg, s) := takeSign (dropSpaces s) in
  let '(ds, _) := takeDigits s in
  match ds with [] => Err | _ => let v := signed neg (digitsVal ds) in if (INT_MIN <=? v) && (v <=? INT_MAX) then Ok v else Err end.
(** std::stod: the exact decimal value. Simplified: no rounding to double, no range check, no hexadecimal numbers, no "inf"
    and "nan" (these are [Err] here). *)
Definition pow10 (e : Z) : Q := Qpower 10 e.
Definition takeFraction (s : str) : list Z * str := match s with c :: r => if isc "."%char c then takeDigits r else ([], s) | [] => ([], []) end.
Definition takeExponent (s : str) : Z :=
  match s with
  | c :: r => if isc "e"%char c || isc "E"%char c then let '(neg, r) := takeSign r in let '(ds, _) := takeDigits r in signed neg (digitsVal ds) else 0
  | [] => 0
  end.
Definition stod (s : str) : res Q :=
  let '(neg, s) := takeSign (dropSpaces s) in
  let '(ip, s1) := takeDigits s in
  let '(fp, s2) := takeFraction s1 in
  match ip ++ fp with [] => Err | ds => Ok (inject_Z (signed neg (digitsVal ds)) * pow10 (takeExponent s2 - zlen fp))%Q end.

(** * src/constants/constants.h:20-56. Simplified: rationals; [pi] as written in the source. *)
Definition cPi : Q := 314159265358979323846 # 100000000000000000000.
Definition rydbergSi : Q := (4359744650 # 1000000000000000000000000000) / 2.
Definition hBarSi : Q := (662607015 # 1) * pow10 (-42) / (2 * cPi).
Definition electronVoltSi : Q := (16021766208 # 1) * pow10 (-29).
Definition energyRyToEv : Q := rydbergSi / electronVoltSi.
Definition temperatureAuToSi : Q := 1 / ((138064852 # 1) * pow10 (-31) / rydbergSi).
Definition bohrRadiusSi : Q := (52917721067 # 1) * pow10 (-21).
Definition distanceBohrToMum : Q := bohrRadiusSi * 1000000.
Definition distanceBohrToAng : Q := bohrRadiusSi / pow10 (-10).
Definition timeAuToFs : Q := hBarSi / rydbergSi * pow10 15.
Definition massAmuToRy : Q := (1660538782 # 1) * pow10 (-36) / ((910938215 # 1) * pow10 (-39)) / 2.
Definition ryToTHz : Q := 1 / (hBarSi / (rydbergSi * 2) * pow10 12) / 2 / (2 * cPi).
Definition ryToCmm1 : Q := pow10 10 * ryToTHz / 299792458.

(** * Values of one line: [s] is what follows the "=" *)
(** l.26-48 *)
Definition parseBool (s : str) : res bool :=
  let s := substrAfter (findFirst "="%char s) s in
  let s := remove (fun c => negb (isalpha c)) (map tolower s) in
  if streq s (str! "false") then Ok false else if streq s (str! "true") then Ok true
  else if streq s (str! "0") then Ok false else if streq s (str! "1") then Ok true else Err.
(** l.52-57, 143-148 *)
Definition parseDouble (s : str) : res Q := stod (substrAfter (findFirst "="%char s) s).
Definition parseInt (s : str) : res Z := stoi (substrAfter (findFirst "="%char s) s).
(** l.62-94: every unit found in the text divides *)
Definition units : list (list str * Q) :=
  [([str! "eV"], energyRyToEv); ([str! "cmm1"], ryToCmm1); ([str! "ps"], (timeAuToFs * pow10 (-3))%Q); ([str! "fs"], timeAuToFs);
   ([str! "mum"], distanceBohrToMum); ([str! "ang"], distanceBohrToAng); ([str! "Bohr"; str! "bohr"], 1%Q)].
Definition parseDoubleWithUnits (s : str) : res Q :=
  do x <- stod (substrAfter (findFirst "="%char s) s) ;
  Ok (fold_left (fun x (u : list str * Q) => if existsb (patternInString s) (fst u) then (x / snd u)%Q else x) units x).
(** l.98-117: text between the first [open] and the last [close]; when they are swapped the length wraps around *)
Definition between (o c : ascii) (s : str) : res str :=
  match findFirst o s, findLast c s with
  | Some p1, Some p2 => Ok (if (p1 <? p2)%nat then firstn (p2 - p1 - 1) (skipn (S p1) s) else skipn (S p1) s)
  | _, _ => Err
  end.
(** l.112-120: split at each separator, empty pieces kept *)
Fixpoint splitAll (sep : ascii) (s : str) : list str :=
  match s with
  | [] => [[]]
  | c :: r => if isc sep c then [] :: splitAll sep r else match splitAll sep r with t :: ts => (c :: t) :: ts | [] => [[c]] end
  end.
Definition parseDoubleList (s : str) : res (list Q) := do t <- between "["%char "]"%char s ; mapM stod (splitAll ","%char t).
(** l.152-177 *)
Definition parseIntList (s : str) : res (list Z) := do t <- between "["%char "]"%char s ; mapM stoi (splitAll ","%char t).
(** l.181-201 *)
Definition squote : ascii := "'"%char.
Definition dquote : ascii := ascii_of_N 34.
Definition quoted (q : ascii) (s : str) : res str :=
  match findFirst q s, findLast q s with
  | Some p1, Some p2 => if (p1 =? p2)%nat then Err else Ok (firstn (p2 - p1 - 1) (skipn (S p1) s))
  | _, _ => Err
  end.
Definition parseString (s : str) : res str := if has squote s then quoted squote s else quoted dquote s.
(** l.205-236 *)
Definition parseStringList (s : str) : res (list str) :=
  do t <- between "["%char "]"%char (remove (isc " "%char) s) ; Ok (map (remove (isc dquote)) (splitAll ","%char t)).

(** * Blocks *)
(** istream_iterator<string>: maximal runs of non-space characters *)
Fixpoint words (s : str) : list str :=
  match s with
  | [] => []
  | c :: r => if isspace c then words r else
      match r with
      | [] => [[c]]
      | d :: _ => if isspace d then [c] :: words r else match words r with w :: ws => (c :: w) :: ws | [] => [[c]] end
      end
  end.
(** operator[] past the end *)
Definition atP {A} (l : list A) (i : Z) : res A := match zget l i with Some x => Ok x | None => UB end.
Fixpoint indexOf (x : str) (l : list str) : Z := match l with y :: r => if streq y x then 0 else 1 + indexOf x r | [] => 0 end.
(** l.246-286: (species index, coordinates) of the atoms, names of the species *)
Definition parseCrystal (lines : list str) : res (list (Z * (Q * Q * Q)) * list str) :=
  foldM (fun (st : list (Z * (Q * Q * Q)) * list str) line =>
    let '(atoms, names) := st in
    let w := words line in
    do el <- atP w 0 ;
    let names := if existsb (fun n => streq n el) names then names else names ++ [el] in
    do x <- (do t <- atP w 1 ; stod t) ; do y <- (do t <- atP w 2 ; stod t) ; do z <- (do t <- atP w 3 ; stod t) ;
    Ok (atoms ++ [(indexOf el names, (x / distanceBohrToAng, y / distanceBohrToAng, z / distanceBohrToAng)%Q)], names)) lines ([], []).
(** l.304-336: (label, coordinates) of both ends of each segment *)
Definition parsePathExtrema (lines : list str) : res (list ((str * (Q * Q * Q)) * (str * (Q * Q * Q)))) :=
  mapM (fun line =>
    let w := words line in
    do l0 <- atP w 0 ; do l1 <- atP w 4 ;
    do x <- (do t <- atP w 1 ; stod t) ; do y <- (do t <- atP w 2 ; stod t) ; do z <- (do t <- atP w 3 ; stod t) ;
    do x' <- (do t <- atP w 5 ; stod t) ; do y' <- (do t <- atP w 6 ; stod t) ; do z' <- (do t <- atP w 7 ; stod t) ;
    Ok ((l0, (x, y, z)), (l1, (x', y', z')))) lines.
(** l.343-365: [line] already without comment, [rest] = the lines after it, still with comments *)
Fixpoint untilEnd (rest : list str) : list str :=
  match rest with [] => [] | l :: r => if patternInString l (str! "end") then [] else l :: untilEnd r end.
Definition parseBlockNameValue (line : str) (rest : list str) : res (str * list str) :=
  match findPattern line (str! "begin") with
  | None => Ok ([], [])
  | Some p => if (length line <? p + 6)%nat then Err else Ok (skipn (p + 6) line, untilEnd rest)
  end.

(** * Lines *)
(** l.367-377: pieces between separators, empty ones dropped *)
Definition split (sep : ascii) (s : str) : list str := filter (fun t => match t with [] => false | _ => true end) (splitAll sep s).
(** l.389-396 *)
Definition lineHasParameter (s : str) : bool := has "="%char s.
(** l.402-420 *)
Definition parseParameterNameValue (line : str) : str * str :=
  let s := remove isspace (substrBefore (findFirst "="%char line) line) in
  let val := substrAfter (findFirst "="%char line) line in
  let s2 := remove isspace (substrBefore (findFirst "("%char line) s) in
  (s2, if streq s2 s then val else substrAfter (findFirst "("%char line) line).

(** * Settings *)
Inductive value :=
| VBool (b : bool) | VNum (x : Q) | VInt (z : Z) | VStr (s : str) | VNums (l : list Q) | VInts (l : list Z) | VStrs (l : list str)
| VCrystal (c : list (Z * (Q * Q * Q)) * list str) | VPath (p : list ((str * (Q * Q * Q)) * (str * (Q * Q * Q)))).
(** how the value of a key is read *)
Inductive kind :=
| KString | KStrings | KBool | KInt | KDouble | KDoubleOver (unit : Q) | KUnits | KNums (unit : Q) | KNumsTimes (unit : Q) | KInts (first : option Z)
| KPoint | KWindow | KSmearing | KOccupied | KCore.
(** first three (two) entries, without a check of the length *)
Definition firstOf {A} (n : Z) (l : list A) : res (list A) := mapM (atP l) (zrange 0 n).
Definition Qmin2 (x y : Q) : Q := if Qle_bool x y then x else y.
Definition Qmax2 (x y : Q) : Q := if Qle_bool x y then y else x.
(** setupFromInput l.452-745; [soc] = hasSpinOrbit as known so far (used by numOccupiedStates only, l.599-610) *)
Definition readValue (k : kind) (soc : bool) (s : str) : res value :=
  match k with
  | KString => do x <- parseString s ; Ok (VStr x)
  | KStrings => do x <- parseStringList s ; Ok (VStrs x)
  | KBool => do x <- parseBool s ; Ok (VBool x)
  | KInt => do x <- parseInt s ; Ok (VInt x)
  | KDouble => do x <- parseDouble s ; Ok (VNum x)
  | KDoubleOver u => do x <- parseDouble s ; Ok (VNum (x / u)%Q)
  | KUnits => do x <- parseDoubleWithUnits s ; Ok (VNum x)
  | KNums u => do x <- parseDoubleList s ; Ok (VNums (map (fun y => y / u)%Q x))
  | KNumsTimes u => do x <- parseDoubleList s ; Ok (VNums (map (fun y => y * u)%Q x))
  | KInts None => do x <- parseIntList s ; Ok (VInts x)
  | KInts (Some n) => do x <- parseIntList s ; do y <- firstOf n x ; Ok (VInts y)
  | KPoint => do x <- parseDoubleList s ; do y <- firstOf 3 x ; Ok (VNums y)
  | KWindow => do x <- parseDoubleList s ; do a <- atP x 0 ; do b <- atP x 1 ; Ok (VNums [(Qmin2 a b / energyRyToEv)%Q; (Qmax2 a b / energyRyToEv)%Q])
  | KSmearing => do x <- parseString s ; Ok (VInt (if streq x (str! "gaussian") then 0 else if streq x (str! "adaptiveGaussian") then 1 else if streq x (str! "tetrahedron") then 2 else -1))
  | KOccupied => do x <- parseDouble s ; Ok (VNum (if soc then x else x * 2)%Q)
  | KCore => do x <- parseIntList s ; if existsb (fun z => z <? 0) x then Err else Ok (VInts x)
  end.
Definition table : list (str * kind) :=
  map (fun n => (n, KString)) [str! "phFC2FileName"; str! "phFC3FileName"; str! "phonopyDispFileName"; str! "phonopyBORNFileName"; str! "sumRuleFC2"; str! "electronH0Name"; str! "wannier90Prefix"; str! "quantumEspressoPrefix"; str! "elPhInterpolation"; str! "elphFileName"; str! "windowType"; str! "appName"; str! "epaFileName"; str! "couplingPlotStyle"; str! "couplingMeshStyle"; str! "wsVecFileName"] ++
  map (fun n => (n, KDouble)) [str! "electronFourierCutoff"; str! "windowPopulationLimit"; str! "convergenceThresholdBTE"; str! "deltaPath"] ++
  map (fun n => (n, KInt)) [str! "maxIterationsBTE"; str! "dimensionality"; str! "numRelaxonsEigenvalues"; str! "epaNumBins"; str! "hdf5ElphFileFormat"] ++
  map (fun n => (n, KBool)) [str! "outputEigendisplacements"; str! "outputUNTimes"; str! "hasSpinOrbit"; str! "distributedElPhCoupling"; str! "scatteringMatrixInMemory"; str! "symmetrizeMatrix"; str! "checkNegativeRelaxons"; str! "useSymmetries"; str! "withIsotopeScattering"] ++
  map (fun n => (n, KUnits)) [str! "thickness"; str! "dosMinEnergy"; str! "dosMaxEnergy"; str! "dosDeltaEnergy"; str! "fermiLevel"; str! "smearingWidth"; str! "constantRelaxationTime"; str! "boundaryLength"; str! "minChemicalPotential"; str! "maxChemicalPotential"; str! "deltaChemicalPotential"; str! "eFermiRange"; str! "epaSmearingEnergy"; str! "epaDeltaEnergy"; str! "epaMinEnergy"; str! "epaMaxEnergy"; str! "epaEnergyRange"; str! "epaEnergyStep"] ++
  map (fun n => (n, KDoubleOver temperatureAuToSi)) [str! "minTemperature"; str! "maxTemperature"; str! "deltaTemperature"] ++
  map (fun n => (n, KInts (Some 3))) [str! "qMesh"; str! "kMesh"] ++
  map (fun n => (n, KInts (Some 2))) [str! "couplingPlotBandEl1"; str! "couplingPlotBandEl2"; str! "couplingPlotBandPh"] ++
  [(str! "windowEnergyLimit", KWindow); (str! "chemicalPotentials", KNums energyRyToEv); (str! "dopings", KNums 1); (str! "temperatures", KNums temperatureAuToSi);
   (str! "solverBTE", KStrings); (str! "numOccupiedStates", KOccupied); (str! "smearingMethod", KSmearing); (str! "masses", KNumsTimes massAmuToRy);
   (str! "isotopeCouplings", KNums 1); (str! "couplingFixedPoint", KPoint); (str! "numCoreElectrons", KCore)].
Definition kindOf (key : str) : option kind := option_map snd (find (fun e : str * kind => streq (fst e) key) table).

(** members of Context by the name of their key; None = never assigned, so the default of context.h *)
Definition settings : Type := str -> option value.
Definition defaults : settings := fun _ => None.
Definition assign (st : settings) (key : str) (v : value) : settings := fun k => if streq k key then Some v else st k.
(** default of hasSpinOrbit: false, context.h *)
Definition socOf (st : settings) : bool := match st (str! "hasSpinOrbit") with Some (VBool b) => b | _ => false end.

(** l.450-746; a key that is not known is passed over *)
Definition setParameter (st : settings) (line : str) : res settings :=
  let '(key, val) := parseParameterNameValue line in
  match kindOf key with None => Ok st | Some k => do v <- readValue k (socOf st) val ; Ok (assign st key v) end.
(** l.747-766 *)
Definition setBlock (st : settings) (line : str) (rest : list str) : res settings :=
  do b <- parseBlockNameValue line rest ;
  let '(name, lines) := b in
  if streq name (str! "crystal") then do c <- parseCrystal lines ; Ok (assign st (str! "crystal") (VCrystal c))
  else if streq name (str! "point path") then do p <- parsePathExtrema lines ; Ok (assign st (str! "point path") (VPath p))
  else Ok st.
(** l.438-440 *)
Definition stripComment (line : str) : str := substrBefore (findFirst "#"%char line) line.
(** l.436-769 *)
Fixpoint readLines (lines : list str) (st : settings) : res settings :=
  match lines with
  | [] => Ok st
  | l :: rest =>
      let line := stripComment l in
      do st <- (match line with [] => Ok st | _ => if lineHasParameter line then setParameter st line else setBlock st line rest end) ;
      readLines rest st
  end.
(** l.422-770; [file] = the lines of the file *)
Definition setupFromInput (file : list str) : res settings := readLines (flat_map (split ";"%char) file) defaults.
