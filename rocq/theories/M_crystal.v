(** Model of the construction of a crystal, src/crystal.cpp:11-316 (the search of Wigner-Seitz vectors, l.352-640, is in M_wigner), and of
    src/constants/periodic_table.{h,cpp}. Lengths are real numbers, masses and couplings rationals (they are only compared with 0). spglib is an
    oracle. *)
From Coq Require Import Reals QArith String Ascii.
From Verif Require Import Base M_points M_particle M_context.
Open Scope Z_scope.

(** * periodic table *)
(** periodic_table.h:7-12 *)
Record element := Elt { symbol : str; atomicNumber : Z; eMass : Q; eVariance : Q }.
(** periodic_table.h:20-128; the decimal literals are exact fractions here *)
Definition elements : list element := [
  Elt (str! "H") 1 (1008 # 1000) (2789062238058872 # 10000000000000000000);
  Elt (str! "He") 2 (4002602 # 1000000) (1215076833998857 # 10000000000000000000000);
  Elt (str! "Li") 3 (694 # 100) (1496682231674627 # 1000000000000000000);
  Elt (str! "Be") 4 (90121831 # 10000000) (0 # 1);
  Elt (str! "B") 5 (1081 # 100) (13805405232090412 # 10000000000000000000);
  Elt (str! "C") 6 (12011 # 1000) (8000097592094282 # 100000000000000000000);
  Elt (str! "N") 7 (14007 # 1000) (21290646750606633 # 1000000000000000000000);
  Elt (str! "O") 8 (15999 # 1000) (36319747512798014 # 1000000000000000000000);
  Elt (str! "F") 9 (18998403163 # 1000000000) (0 # 1);
  Elt (str! "Ne") 10 (201797 # 10000) (8278312013487067 # 10000000000000000000);
  Elt (str! "Na") 11 (2298976928 # 100000000) (0 # 1);
  Elt (str! "Mg") 12 (24305 # 1000) (7435878422415102 # 10000000000000000000);
  Elt (str! "Al") 13 (269815385 # 10000000) (0 # 1);
  Elt (str! "Si") 14 (28085 # 1000) (20164270215294942 # 100000000000000000000);
  Elt (str! "P") 15 (30973761998 # 1000000000) (0 # 1);
  Elt (str! "S") 16 (3206 # 100) (18482784294313574 # 100000000000000000000);
  Elt (str! "Cl") 17 (3545 # 100) (619333162756516 # 1000000000000000000);
  Elt (str! "Ar") 18 (39948 # 1000) (34803742792164614 # 1000000000000000000000);
  Elt (str! "K") 19 (390983 # 10000) (16400010165430582 # 100000000000000000000);
  Elt (str! "Ca") 20 (40078 # 1000) (2975638195255614 # 10000000000000000000);
  Elt (str! "Sc") 21 (44955908 # 1000000) (0 # 1);
  Elt (str! "Ti") 22 (47867 # 1000) (28645554052913216 # 100000000000000000000);
  Elt (str! "V") 23 (509415 # 10000) (954832036799122 # 1000000000000000000000);
  Elt (str! "Cr") 24 (519961 # 10000) (13287039947669415 # 100000000000000000000);
  Elt (str! "Mn") 25 (54938044 # 1000000) (0 # 1);
  Elt (str! "Fe") 26 (55845 # 1000) (824441020198494 # 10000000000000000000);
  Elt (str! "Co") 27 (58933194 # 1000000) (0 # 1);
  Elt (str! "Ni") 28 (586934 # 10000) (43070969156679167 # 100000000000000000000);
  Elt (str! "Cu") 29 (63546 # 1000) (21093313034487347 # 100000000000000000000);
  Elt (str! "Zn") 30 (6538 # 100) (5931534544256652 # 10000000000000000000);
  Elt (str! "Ga") 31 (69723 # 1000) (19712729693874742 # 100000000000000000000);
  Elt (str! "Ge") 32 (7263 # 100) (5867117795429008 # 10000000000000000000);
  Elt (str! "As") 33 (74921595 # 1000000) (0 # 1);
  Elt (str! "Se") 34 (78971 # 1000) (46053781437921013 # 100000000000000000000);
  Elt (str! "Br") 35 (79904 # 1000) (16577469277381828 # 100000000000000000000);
  Elt (str! "Kr") 36 (83798 # 1000) (24880741715297897 # 100000000000000000000);
  Elt (str! "Rb") 37 (854678 # 10000) (10969638953101122 # 100000000000000000000);
  Elt (str! "Sr") 38 (8762 # 100) (6099700710365833 # 100000000000000000000);
  Elt (str! "Y") 39 (8890584 # 100000) (0 # 1);
  Elt (str! "Zr") 40 (91224 # 1000) (34262838409586854 # 100000000000000000000);
  Elt (str! "Nb") 41 (9290637 # 100000) (0 # 1);
  Elt (str! "Mo") 42 (9595 # 100) (5968578764839594 # 10000000000000000000);
  Elt (str! "Tc") 43 (9790721 # 100000) (0 # 1);
  Elt (str! "Ru") 44 (10107 # 100) (40666639101881745 # 100000000000000000000);
  Elt (str! "Rh") 45 (1029055 # 10000) (0 # 1);
  Elt (str! "Pd") 46 (10642 # 100) (3094784331573286 # 10000000000000000000);
  Elt (str! "Ag") 47 (1078682 # 10000) (8579859015398756 # 100000000000000000000);
  Elt (str! "Cd") 48 (112414 # 1000) (27153582954249383 # 100000000000000000000);
  Elt (str! "In") 49 (114818 # 1000) (12430878582037971 # 1000000000000000000000);
  Elt (str! "Sn") 50 (11871 # 100) (33408521010159045 # 100000000000000000000);
  Elt (str! "Sb") 51 (12176 # 100) (6607546197957849 # 100000000000000000000);
  Elt (str! "Te") 52 (1276 # 10) (2839333322460794 # 10000000000000000000);
  Elt (str! "I") 53 (12690447 # 100000) (0 # 1);
  Elt (str! "Xe") 54 (131293 # 1000) (2675478178911911 # 10000000000000000000);
  Elt (str! "Cs") 55 (13290545196 # 100000000) (0 # 1);
  Elt (str! "Ba") 56 (137327 # 1000) (6247983393130228 # 100000000000000000000);
  Elt (str! "La") 57 (13890547 # 100000) (45917359997528195 # 1000000000000000000000000);
  Elt (str! "Ce") 58 (140116 # 1000) (22504655383416496 # 1000000000000000000000);
  Elt (str! "Pr") 59 (14090766 # 100000) (0 # 1);
  Elt (str! "Nd") 60 (144242 # 1000) (23237352095226282 # 100000000000000000000);
  Elt (str! "Pm") 61 (14491276 # 100000) (0 # 1);
  Elt (str! "Sm") 62 (15036 # 100) (3348898354048051 # 10000000000000000000);
  Elt (str! "Eu") 63 (151964 # 1000) (4327943128302847 # 100000000000000000000);
  Elt (str! "Gd") 64 (15725 # 100) (12767481945965138 # 100000000000000000000);
  Elt (str! "Tb") 65 (15892535 # 100000) (0 # 1);
  Elt (str! "Dy") 66 (1625 # 10) (51980645724531205 # 1000000000000000000000);
  Elt (str! "Ho") 67 (16493033 # 100000) (0 # 1);
  Elt (str! "Er") 68 (167259 # 1000) (7232484216696818 # 100000000000000000000);
  Elt (str! "Tm") 69 (16893422 # 100000) (0 # 1);
  Elt (str! "Yb") 70 (173045 # 1000) (8560802725546705 # 100000000000000000000);
  Elt (str! "Lu") 71 (1749668 # 10000) (8300719193988442 # 10000000000000000000000);
  Elt (str! "Hf") 72 (17849 # 100) (5253848527005391 # 100000000000000000000);
  Elt (str! "Ta") 73 (18094788 # 100000) (3671578002866865 # 1000000000000000000000000);
  Elt (str! "W") 74 (18384 # 100) (696679689149215 # 10000000000000000000);
  Elt (str! "Re") 75 (186207 # 1000) (2708496655430222 # 100000000000000000000);
  Elt (str! "Os") 76 (19023 # 100) (7452361349988645 # 100000000000000000000);
  Elt (str! "Ir") 77 (192217 # 1000) (2537864205006749 # 100000000000000000000);
  Elt (str! "Pt") 78 (195084 # 1000) (3428660338142578 # 100000000000000000000);
  Elt (str! "Au") 79 (196966569 # 1000000) (0 # 1);
  Elt (str! "Hg") 80 (200592 # 1000) (652279806399407 # 10000000000000000000);
  Elt (str! "Tl") 81 (20438 # 100) (22233484775588543 # 1000000000000000000000);
  Elt (str! "Pb") 82 (2072 # 10) (19437786146643996 # 1000000000000000000000);
  Elt (str! "Bi") 83 (2089804 # 10000) (0 # 1);
  Elt (str! "Po") 84 (209 # 1) (0 # 1);
  Elt (str! "At") 85 (210 # 1) (0 # 1);
  Elt (str! "Rn") 86 (222 # 1) (0 # 1);
  Elt (str! "Fr") 87 (223 # 1) (0 # 1);
  Elt (str! "Ra") 88 (226 # 1) (0 # 1);
  Elt (str! "Ac") 89 (227 # 1) (0 # 1);
  Elt (str! "Th") 90 (2320377 # 10000) (1492878990056669 # 100000000000000000000000);
  Elt (str! "Pa") 91 (23103588 # 100000) (0 # 1);
  Elt (str! "U") 92 (23802891 # 100000) (11564605377712275 # 10000000000000000000000);
  Elt (str! "Np") 93 (237 # 1) (0 # 1);
  Elt (str! "Pu") 94 (244 # 1) (0 # 1);
  Elt (str! "Am") 95 (243 # 1) (0 # 1);
  Elt (str! "Cm") 96 (247 # 1) (0 # 1);
  Elt (str! "Bk") 97 (247 # 1) (0 # 1);
  Elt (str! "Cf") 98 (251 # 1) (0 # 1);
  Elt (str! "Es") 99 (252 # 1) (0 # 1);
  Elt (str! "Fm") 100 (257 # 1) (0 # 1);
  Elt (str! "Md") 101 (258 # 1) (0 # 1);
  Elt (str! "No") 102 (259 # 1) (0 # 1);
  Elt (str! "Lr") 103 (262 # 1) (0 # 1);
  Elt (str! "Rf") 104 (267 # 1) (0 # 1);
  Elt (str! "Db") 105 (268 # 1) (0 # 1);
  Elt (str! "Sg") 106 (271 # 1) (0 # 1);
  Elt (str! "Bh") 107 (274 # 1) (0 # 1);
  Elt (str! "Hs") 108 (269 # 1) (0 # 1);
  Elt (str! "Mt") 109 (276 # 1) (0 # 1)].
(** periodic_table.cpp:5-13 *)
Fixpoint findElement (l : list element) (s : str) : res Z :=
  match l with
  | [] => Err
  | e :: r => if streq (symbol e) s then Ok (atomicNumber e - 1) else findElement r s
  end.
(** elements[i]: outside of the array undefined *)
Definition eltAt (t : list element) (i : Z) : res element := match zget t i with Some e => Ok e | None => UB end.
(** periodic_table.cpp:15-19 *)
Definition setMass (t : list element) (s : str) (x : Q) : res (list element) :=
  do i <- findElement t s ; do e <- eltAt t i ; Ok (zupd t i (Elt (symbol e) (atomicNumber e) x (eVariance e))).
(** periodic_table.cpp:21-24 *)
Definition getMass (t : list element) (s : str) : res Q := do i <- findElement t s ; do e <- eltAt t i ; Ok (eMass e).
(** periodic_table.cpp:26-30 *)
Definition setMassVariance (t : list element) (s : str) (x : Q) : res (list element) :=
  do i <- findElement t s ; do e <- eltAt t i ; Ok (zupd t i (Elt (symbol e) (atomicNumber e) (eMass e) x)).
(** periodic_table.cpp:32-36 *)
Definition getMassVariance (t : list element) (s : str) : res Q := do i <- findElement t s ; do e <- eltAt t i ; Ok (eVariance e).
(** periodic_table.cpp:38-41 *)
Definition getIonicCharge (t : list element) (s : str) : res Z := do i <- findElement t s ; do e <- eltAt t i ; Ok (atomicNumber e).

(** * 3 x 3 matrices of Eigen *)
Record rvec := RV { vx : R; vy : R; vz : R }.
(** rows *)
Record rmat := RM { m0 : rvec; m1 : rvec; m2 : rvec }.
Local Open Scope R_scope.
Definition rdot (a b : rvec) : R := vx a * vx b + vy a * vy b + vz a * vz b.
Definition rcross (a b : rvec) : rvec := RV (vy a * vz b - vz a * vy b) (vz a * vx b - vx a * vz b) (vx a * vy b - vy a * vx b).
Definition rapp (A : rmat) (v : rvec) : rvec := RV (rdot (m0 A) v) (rdot (m1 A) v) (rdot (m2 A) v).
Definition rtrans (A : rmat) : rmat :=
  RM (RV (vx (m0 A)) (vx (m1 A)) (vx (m2 A))) (RV (vy (m0 A)) (vy (m1 A)) (vy (m2 A))) (RV (vz (m0 A)) (vz (m1 A)) (vz (m2 A))).
Definition rscale (c : R) (v : rvec) : rvec := RV (c * vx v) (c * vy v) (c * vz v).
Definition rmscale (c : R) (A : rmat) : rmat := RM (rscale c (m0 A)) (rscale c (m1 A)) (rscale c (m2 A)).
Definition rmul (A B : rmat) : rmat :=
  let C := rtrans B in
  RM (RV (rdot (m0 A) (m0 C)) (rdot (m0 A) (m1 C)) (rdot (m0 A) (m2 C))) (RV (rdot (m1 A) (m0 C)) (rdot (m1 A) (m1 C)) (rdot (m1 A) (m2 C)))
     (RV (rdot (m2 A) (m0 C)) (rdot (m2 A) (m1 C)) (rdot (m2 A) (m2 C))).
Definition rdet (A : rmat) : R := rdot (m0 A) (rcross (m1 A) (m2 A)).
(** Eigen inverts 3 x 3 matrices by cofactors: the columns of the inverse are the cross products of the rows over the determinant *)
Definition rinv (A : rmat) : rmat :=
  rmscale (/ rdet A) (rtrans (RM (rcross (m1 A) (m2 A)) (rcross (m2 A) (m0 A)) (rcross (m0 A) (m1 A)))).

(** * unit cell *)
(** crystal.cpp:11-22 *)
Definition calcVolume (A : rmat) : R :=
  (Rabs (rdot (m0 A) (rcross (m1 A) (m2 A))) + Rabs (rdot (m1 A) (rcross (m2 A) (m0 A))) + Rabs (rdot (m2 A) (rcross (m0 A) (m1 A)))) / 3.
(** l.287-291 *)
Definition calcReciprocalCell (A : rmat) : rmat := rmscale (2 * PI) (rtrans (rinv A)).
(** l.310-321 getVolumeUnitCell *)
Definition getVolumeUnitCell (A : rmat) (dim : Z) : R :=
  if (dim =? 3)%Z then calcVolume A
  else if (dim =? 2)%Z then Rabs (vx (m0 A) * vy (m1 A) - vy (m0 A) * vx (m1 A))
  else vz (m2 A).
Local Close Scope R_scope.

(** * crystal *)
(** a symmetry operation as spglib returns it: integer rotation (rows) and translation, both on fractional coordinates *)
Record zrot := ZR { z00 : Z; z01 : Z; z02 : Z; z10 : Z; z11 : Z; z12 : Z; z20 : Z; z21 : Z; z22 : Z }.
Definition rotR (W : zrot) : rmat :=
  RM (RV (IZR (z00 W)) (IZR (z01 W)) (IZR (z02 W))) (RV (IZR (z10 W)) (IZR (z11 W)) (IZR (z12 W))) (RV (IZR (z20 W)) (IZR (z21 W)) (IZR (z22 W))).
Definition zid : zrot := ZR 1 0 0 0 1 0 0 0 1.
(** what the constructor is given: cell, positions, species of the atoms, names and masses of the species; from the context: dimensionality,
    name of the application, masses and isotope couplings chosen by the user, whether to use symmetries. Positions have three columns by type:
    the test of l.41-43 always succeeds *)
Record crystalIn := CrystalIn {
  iCell : rmat; iPositions : list rvec; iSpecies : list Z; iNames : list str; iMasses : list Q;
  iDim : Z; iApp : str; iCustomMasses : list Q; iCustomCouplings : list Q; iUseSym : bool }.
Record crystal := Crystal {
  cCell : rmat; cRec : rmat; cVolume : R; cDim : Z; cPositions : list rvec; cSpecies : list Z;
  cSpeciesNames : list str; cSpeciesMasses : list Q; cSpeciesCouplings : list Q;
  cMasses : list Q; cNames : list str; cCouplings : list Q;
  cSyms : list (rmat * rvec); cUseSym : bool }.
(** l.80: s1.find(s2) == npos *)
Fixpoint startsWith (p s : str) : bool :=
  match p, s with [], _ => true | _, [] => false | a :: p', b :: s' => Ascii.eqb a b && startsWith p' s' end.
Fixpoint containsStr (p s : str) : bool := startsWith p s || match s with [] => false | _ :: s' => containsStr p s' end.
(** l.60-69: ionic charges are looked up and dropped *)
Definition naturalCouplings (names : list str) : res (list Q) :=
  mapM (fun s => do g <- getMassVariance elements s ; do z <- getIonicCharge elements s ; Ok g) names.
(** l.90-94, l.107-109: only positive values replace *)
Definition overrideWith (custom old : list Q) : list Q := map (fun p => if Qltb 0 (fst p) then fst p else snd p) (combine custom old).
(** l.73-95 *)
Definition customizeMasses (x : crystalIn) : res (list Q) :=
  match iCustomMasses x with
  | [] => Ok (iMasses x)
  | cs => if negb (containsStr (str! "phonon") (iApp x)) then Err
          else if negb (zlen cs =? zlen (iNames x)) then Err else Ok (overrideWith cs (iMasses x))
  end.
(** l.99-111: the test on the sizes is inside of the loop over species *)
Definition customizeCouplings (x : crystalIn) (g : list Q) : res (list Q) :=
  match iCustomCouplings x, iNames x with
  | [], _ | _, [] => Ok g
  | cs, _ => if negb (zlen cs =? zlen (iNames x)) then Err else Ok (overrideWith cs g)
  end.
Definition ofSpecies {A} (l : list A) (s : Z) : res A := match zget l s with Some a => Ok a | None => UB end.
(** l.24-217. [spg] cell positions types: what spg_get_symmetry returns, on fractional coordinates; the rows of its matrix are copied from the
    cell. The symmetries are not bounded by maxSize here: spglib returns 0 when there are more *)
Definition newCrystal (spg : rmat -> list rvec -> list Z -> list (zrot * rvec)) (x : crystalIn) : res crystal :=
  let A := iCell x in
  let V := calcVolume A in
  if rleb V 0 then Err else
  if negb (zlen (iSpecies x) =? zlen (iPositions x)) then Err else
  if negb (zlen (iMasses x) =? zlen (iNames x)) then Err else
  do g <- naturalCouplings (iNames x) ;
  do masses <- customizeMasses x ;
  do couplings <- customizeCouplings x g ;
  do am <- mapM (ofSpecies masses) (iSpecies x) ;
  do an <- mapM (ofSpecies (iNames x)) (iSpecies x) ;
  do ag <- mapM (ofSpecies couplings) (iSpecies x) ;
  do ops <- (if iUseSym x
             then match spg A (map (rapp (rinv A)) (iPositions x)) (map (fun s => s + 1) (iSpecies x)) with [] => Err | l => Ok l end
             else Ok [(zid, RV 0 0 0)]) ;
  Ok (Crystal A (calcReciprocalCell A) V (iDim x) (iPositions x) (iSpecies x) (iNames x) masses couplings am an ag
        (map (fun o => (rtrans (rotR (fst o)), snd o)) ops) (if zlen ops =? 1 then false else iUseSym x)).
(** points.cpp:711-718: rotations of wavevectors in Cartesian coordinates *)
Definition rotationCartesian (c : crystal) (S : rmat) : rmat := rmul (rmul (cRec c) S) (rinv (cRec c)).
