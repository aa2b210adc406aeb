(** Model of src/observable/onsager.cpp and of the sums of src/observable/phonon_thermal_cond.cpp and specific_heat.cpp.
    Values are rationals: no rounding. One calculation (the loops over iCalc repeat it). *)
From Coq Require Import QArith Qcanon Qcabs.
From Verif Require Import Base M_matrix M_vbte.
Open Scope Z_scope.

(** elements 0 <= i, j < dimensionality of an Eigen matrix *)
Definition mat : Type := Z -> Z -> Qc.
Definition mmul (d : Z) (a b : mat) : mat := fun i j => qsum (map (fun k => a i k * b k j)%Qc (zrange 0 d)).
Definition mneg (a : mat) : mat := fun i j => (- a i j)%Qc.
Definition msub (a b : mat) : mat := fun i j => (a i j - b i j)%Qc.
Record onsager := { LEE : mat; LET : mat; LTE : mat; LTT : mat }.

(** * onsager.cpp:277-319 calcTransportCoefficients; [inv]: Eigen's inverse of LEE (oracle); doping already in atomic units *)
Definition sigmaOf (o : onsager) : mat := LEE o.
Definition seebeckOf (d : Z) (inv : mat) (o : onsager) : mat := mneg (mmul d (mneg inv) (LET o)).
Definition kappaOf (d : Z) (inv : mat) (o : onsager) : mat := mneg (msub (LTT o) (mmul d (mmul d (LTE o) inv) (LET o))).
Definition mobilityOf (doping : Qc) (o : onsager) : mat :=
  let n := Qcabs doping in fun i j => if Qclt_le_dec 0%Qc n then (LEE o i j / n)%Qc else LEE o i j.

(** * l.150-275 calcFromPopulation *)
(** an irreducible state: energy, velocity, populations (nE, nT) of its BTE index, rotations of its star *)
Record irrState := { oEn : Qc; oVel : Z -> Qc; oNE : Z -> Qc; oNT : Z -> Qc; oRots : list mat }.
(** l.203-219: contributions of one rotation *)
Definition addRot (norm mu : Qc) (s : irrState) (t : onsager) (r : mat) : onsager :=
  let en := (oEn s - mu)%Qc in
  let nE := rotate r (oNE s) in let nT := rotate r (oNT s) in let v := rotate r (oVel s) in
  {| LEE := fun i j => (LEE t i j + nE i * v j * norm)%Qc; LET := fun i j => (LET t i j + nT i * v j * norm)%Qc;
     LTE := fun i j => (LTE t i j + nE i * v j * en * norm)%Qc; LTT := fun i j => (LTT t i j + nT i * v j * en * norm)%Qc |}.
Definition zeroOnsager : onsager := {| LEE := fun _ _ => 0%Qc; LET := fun _ _ => 0%Qc; LTE := fun _ _ => 0%Qc; LTT := fun _ _ => 0%Qc |}.
Definition addOnsager (a b : onsager) : onsager :=
  {| LEE := fun i j => (LEE a i j + LEE b i j)%Qc; LET := fun i j => (LET a i j + LET b i j)%Qc;
     LTE := fun i j => (LTE a i j + LTE b i j)%Qc; LTT := fun i j => (LTT a i j + LTT b i j)%Qc |}.
(** l.181-219: one thread goes through its chunk of the states of the process with its private copy, l.221-225: copies are added *)
Definition threadSum (norm mu : Qc) (chunk : list irrState) : onsager :=
  fold_left (fun t s => fold_left (addRot norm mu s) (oRots s) t) chunk zeroOnsager.
Definition processSum (norm mu : Qc) (chunks : list (list irrState)) : onsager := fold_left addOnsager (map (threadSum norm mu) chunks) zeroOnsager.
(** l.268-271: sum over processes *)
Definition fromPopulations (norm mu : Qc) (ranks : list (list (list irrState))) : onsager :=
  fold_left addOnsager (map (processSum norm mu) ranks) zeroOnsager.
(** l.162-169: the views are numCalculations x 3 x 3, left layout, on top of buffers of numCalculations x d x d numbers; element
    (iCalc, i, j) of the view is at this offset, and is written for all i, j in 0..2 (l.211-218) *)
Definition viewOffset (numCalc iCalc i j : Z) : Z := iCalc + numCalc * (i + 3 * j).
Definition bufferOffset (numCalc d iCalc i j : Z) : Z := iCalc + numCalc * (i + d * j).
Definition viewWrites (numCalc d : Z) : res (list Z) :=
  mapM (fun t => let o := viewOffset numCalc (fst t) (fst (snd t)) (snd (snd t)) in if o <? numCalc * d * d then Ok o else UB)
    (list_prod (zrange 0 numCalc) (list_prod (zrange 0 3) (zrange 0 3))).

(** * l.79-118 calcFromEPA: energy bins with velocity tensor, rate, population factor n(1-n), energy from the chemical potential *)
Record bin := { bVel : mat; bRate : Qc; bPop : Qc; bEn : Qc }.
Definition skipped (b : bin) : bool := Qle_bool (this (bRate b)) (1 # 10000000000) || Qle_bool (this (bPop b)) (1 # 100000000000000000000).
Definition addBin (factor step temp : Qc) (t : onsager) (b : bin) : onsager :=
  if skipped b then t else
  let term := fun i j => (bVel b i j / bRate b * factor * bPop b * step)%Qc in
  {| LEE := fun i j => (LEE t i j + term i j / temp)%Qc; LET := fun i j => (LET t i j - term i j * bEn b / (temp * temp))%Qc;
     LTE := fun i j => (LTE t i j - term i j * bEn b / temp)%Qc; LTT := fun i j => (LTT t i j - term i j * (bEn b * bEn b) / (temp * temp))%Qc |}.
Definition fromEPA (factor step temp : Qc) (bins : list bin) : onsager := fold_left (addBin factor step temp) bins zeroOnsager.

(** * l.548-640 outputToJSON: the lists; one entry of a calculation = doping and tensors *)
Record calcOut := { kDoping : Qc; kTemp : Qc; kSigma : mat; kMobility : mat; kKappa : mat; kSeebeck : mat }.
Definition jsonTemperatures (l : list calcOut) : list Qc := map kTemp l.
Definition jsonSigma (l : list calcOut) : list mat := map kSigma l.
Definition jsonMobility (l : list calcOut) : list mat :=
  fold_left (fun (out : list mat) (c : calcOut) => if Qclt_le_dec 0%Qc (Qcabs (kDoping c)) then out ++ (kMobility c :: nil) else out) l nil.

(** * phonon_thermal_cond.cpp:68-136: the same sum, for states not excluded *)
Definition addHeat (norm : Qc) (s : irrState) (t : mat) (r : mat) : mat :=
  let n := rotate r (oNT s) in let v := rotate r (oVel s) in fun i j => (t i j + n i * v j * oEn s * norm)%Qc.
Definition heatThread (norm : Qc) (chunk : list (bool * irrState)) : mat :=
  fold_left (fun (t : mat) (p : bool * irrState) => if fst p then t else fold_left (addHeat norm (snd p)) (oRots (snd p)) t) chunk (fun _ _ => 0%Qc).
Definition addMat (a b : mat) : mat := fun i j => (a i j + b i j)%Qc.
Definition heatConductivity (norm : Qc) (ranks : list (list (list (bool * irrState)))) : mat :=
  fold_left addMat (map (fun chunks => fold_left addMat (map (heatThread norm) chunks) (fun _ _ => 0%Qc)) ranks) (fun _ _ => 0%Qc).

(** * specific_heat.cpp:30-70: (energy, |dn/dT|) and size of the star of each irreducible state; every process does all states *)
Definition specificHeat (phonon : bool) (cutoff norm mu : Qc) (chunks : list (list (Qc * Qc * Z))) : Qc :=
  qsum (map (fun chunk => fold_left (fun sum s =>
    let '(en, dndt, star) := s in
    if phonon && (if Qclt_le_dec en cutoff then true else false) then sum
    else (sum + Qcabs dndt * Qcabs (en - mu) * norm * Q2Qc (inject_Z star))%Qc) chunk 0%Qc) chunks).

(** * l.321-383 calcFromRelaxons without symmetries: (state, relaxon) pairs held by each process, eigenvectors theta s a, eigenvalues
    list, right-hand side b = - drift; [alpha] is looked up in the eigenvalues before it is compared with their number (l.351) *)
Definition relaxonUsed (eigenvalues : list Qc) (alpha : Z) : res bool :=
  match zget eigenvalues alpha with
  | Some l => Ok (negb (if Qclt_le_dec 0%Qc l then false else true) && (alpha <? zlen eigenvalues))
  | None => UB
  end.
Definition relaxonPairs (eigenvalues : list Qc) (pairs : list (Z * Z)) : res (list (Z * Z)) :=
  do keep <- mapM (fun p => relaxonUsed eigenvalues (snd p)) pairs ;
  Ok (map fst (filter (fun q => snd q) (combine pairs keep))).
Definition eig (eigenvalues : list Qc) (alpha : Z) : Qc := match zget eigenvalues alpha with Some l => l | None => 0%Qc end.
(** l.343-365, 367-382 and the sums over processes *)
Definition relaxonAmplitude (theta : mat) (eigenvalues : list Qc) (b : Z -> Qc) (ranks : list (list (Z * Z))) (alpha : Z) : Qc :=
  qsum (map (fun pairs => qsum (map (fun p => (b (fst p) * theta (fst p) alpha / eig eigenvalues alpha)%Qc) (filter (fun p => snd p =? alpha) pairs))) ranks).
Definition relaxonPopulation (theta : mat) (eigenvalues : list Qc) (b : Z -> Qc) (ranks : list (list (Z * Z))) (s : Z) : Qc :=
  qsum (map (fun pairs => qsum (map (fun p => (relaxonAmplitude theta eigenvalues b ranks (snd p) * theta s (snd p))%Qc) (filter (fun p => fst p =? s) pairs))) ranks).
Definition fromRelaxons (theta : mat) (eigenvalues : list Qc) (b : Z -> Qc) (ranks : list (list (Z * Z))) : res (Z -> Qc) :=
  do kept <- mapM (relaxonPairs eigenvalues) ranks ;
  Ok (relaxonPopulation theta eigenvalues b kept).
