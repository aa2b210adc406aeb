(** Model of the electron-phonon-averaged (EPA) approximation: src/interaction/interaction_epa.cpp, src/apps/qe_to_phoebe_epa.cpp
    and src/apps/transport_epa_app.cpp. Values are rationals: no rounding; Gaussian weights, populations and tetrahedron weights
    are arbitrary functions given to the definitions. *)
From Coq Require Import QArith Qround Qabs.
From Verif Require Import Base M_mpi M_points M_wigner.
Open Scope Z_scope.

Definition getQ (l : list Q) (i : Z) : res Q := match zget l i with Some x => Ok x | None => UB end.
(** conversion of a double to int: truncation, undefined out of range *)
Definition qtrunc (x : Q) : Z := Z.quot (Qnum x) (Zpos (Qden x)).
(** quotient of doubles; a zero divisor gives infinity or NaN, whose conversion to an integer is undefined *)
Definition qdivI (x y : Q) : res Q := if Qeq_bool y 0 then UB else Ok (x / y)%Q.

(** * interaction_epa.cpp *)
(** l.16-19 *)
Definition binSize (en : list Q) : res Q :=
  if 1 <? zlen en then do a <- getQ en 1 ; do b <- getQ en 0 ; Ok (a - b)%Q else Ok 1%Q.
(** l.44-51: index of the bin of an energy *)
Definition binIndex (en : list Q) (x : Q) : res Z :=
  do b <- binSize en ;
  do e0 <- getQ en 0 ;
  do t <- qdivI (x - e0) b ;
  do j <- ck (cround t) ;
  Ok (Z.max 0 (Z.min (zlen en - 1) j)).
(** l.42-54; [g nu j k] = elPhMatAverage *)
Definition getCoupling (en : list Q) (g : Z -> Z -> Z -> Q) (nu : Z) (enI enF : Q) : res Q :=
  do j <- binIndex en enI ; do k <- binIndex en enF ; Ok (g nu j k).

(** the file, token by token (operator>> skips blanks and line breaks): integers and reals *)
Inductive token := TInt (z : Z) | TReal (x : Q).
Definition readInt (l : list token) : res (Z * list token) := match l with TInt z :: r => Ok (z, r) | _ => UB end.
Definition readReal (l : list token) : res (Q * list token) := match l with TReal x :: r => Ok (x, r) | TInt z :: r => Ok (inject_Z z, r) | [] => UB end.
Fixpoint readReals (n : nat) (l : list token) : res (list Q * list token) :=
  match n with O => Ok ([], l) | S m => do p <- readReal l ; do q <- readReals m (snd p) ; Ok (fst p :: fst q, snd q) end.
(** l.93-101: the tensor is set to zero first; when the stream ends the extraction fails, the element is 0 and there is no check *)
Fixpoint readOrZero (n : nat) (l : list token) : list Q * list token :=
  match n with
  | O => ([], l)
  | S m => let '(x, r) := match l with TReal x :: r => (x, r) | TInt z :: r => (inject_Z z, r) | [] => (0%Q, []) end in
           let '(xs, r') := readOrZero m r in (x :: xs, r')
  end.
Record epaFile := { efElectrons : Z; efModes : Z; efPh : list Q; efEnergies : Z; efEn : list Q; efG : list Q }.
(** l.56-105: parseEpaCoupling; a header that ends early leaves sizes undefined; negative sizes are undefined *)
Definition parseEpa (l : list token) : res epaFile :=
  do p <- readInt l ; let '(nel, l) := p in
  do p <- readInt l ; let '(nspin, l) := p in
  if negb (nspin =? 1) then Err else
  do p <- readInt l ; let '(nm, l) := p in
  if nm <? 0 then UB else
  do p <- readReals (Z.to_nat nm) l ; let '(ph, l) := p in
  do p <- readInt l ; let '(ne, l) := p in
  if ne <? 0 then UB else
  do p <- readReals (Z.to_nat ne) l ; let '(en, l) := p in
  let '(g, _) := readOrZero (Z.to_nat (nm * ne * ne)) l in
  Ok {| efElectrons := nel; efModes := nm; efPh := ph; efEnergies := ne; efEn := en; efG := g |}.
(** element (nu, j, k) of the tensor read in that order *)
Definition efCoupling (f : epaFile) (nu j k : Z) : Q := nth (Z.to_nat ((nu * efEnergies f + j) * efEnergies f + k)) (efG f) 0%Q.

(** qe_to_phoebe_epa.cpp:165-186: what is written; [pr] = the number that the printed text stands for (operator<< keeps six digits) *)
Definition writeEpa (pr : Q -> Q) (nel nspin : Z) (ph en : list Q) (g : Z -> Z -> Z -> Q) : list token :=
  [TInt nel; TInt nspin; TInt (zlen ph)] ++ map (fun x => TReal (pr x)) ph ++ [TInt (zlen en)] ++ map (fun x => TReal (pr x)) en ++
  flat_map (fun nu => flat_map (fun j => map (fun k => TReal (pr (g nu j k))) (zrange 0 (zlen en))) (zrange 0 (zlen en))) (zrange 0 (zlen ph)).

(** * qe_to_phoebe_epa.cpp *)
(** l.24-42: the energies of the bins; [delta] = None when the step is not given (NaN) *)
Definition epaBins (emin emax : Q) (delta : option Q) (numBins : Z) : res (list Q) :=
  if negb (Qle_bool emin emax) then Err else
  do p <- match delta with
          | None => do d <- qdivI (emax - emin) (inject_Z numBins) ; Ok (d, numBins)
          | Some d => do t <- qdivI (emax - emin) d ; do n <- ck (qtrunc t) ; do n1 <- ck (n + 1) ; Ok (d, n1)
          end ;
  let '(d, n) := p in
  if n <? 0 then UB else Ok (map (fun i => (inject_Z i * d + emin)%Q) (zrange 0 n)).

(** a point of the star of an irreducible q: frequencies of the modes, index of k+q, |g|^2(ib1, ib2, nu, ik) *)
Record epaQ := { qPh : Z -> Q; qKq : Z -> Z; qG2 : Z -> Z -> Z -> Z -> Q }.
Section Average.
(** number of bands, of k points, of modes; gaussian(i, band, k); l.80 phononCutoff *)
Variables (nB nK nM : Z) (gauss : Z -> Z -> Z -> Q) (cut : Q).
(** l.128-130 *)
Definition weightOf (q : epaQ) (i j ik ib2 ib1 : Z) : Q := (gauss i ib2 ik * gauss j ib1 (qKq q ik))%Q.
(** l.111-148: one star, sums over k, q of the star and bands *)
Definition sumStar (star : list epaQ) (f : epaQ -> Z -> Z -> Z -> Q) : Q :=
  sumQ (flat_map (fun ik => flat_map (fun q => flat_map (fun ib2 => map (fun ib1 => f q ik ib2 ib1) (zrange 0 nB)) (zrange 0 nB)) star) (zrange 0 nK)).
Definition normStar (i j : Z) (star : list epaQ) : Q := sumStar star (fun q ik ib2 ib1 => weightOf q i j ik ib2 ib1).
Definition g2Star (nu i j : Z) (star : list epaQ) : Q :=
  sumStar star (fun q ik ib2 ib1 => if Qle_bool (qPh q nu) cut then 0%Q else (qG2 q ib1 ib2 nu ik * weightOf q i j ik ib2 ib1 * (1 # 2) / qPh q nu)%Q).
(** l.104-106 *)
Definition phStar (nQ : Z) (nu : Z) (star : list epaQ) : Q := (sumQ (map (fun q => qPh q nu) star) / inject_Z nQ)%Q.
(** l.88-152: the irreducible points are divided between the processes and the results summed *)
Definition overProcesses (size : Z) (stars : list (list epaQ)) (f : list epaQ -> Q) : res Q :=
  do parts <- mapM (fun r =>
      do idx <- divideWorkIter (zlen stars) r size ;
      do vals <- mapM (fun iq => match zget stars iq with Some s => Ok (f s) | None => UB end) idx ;
      Ok (sumQ vals)) (zrange 0 size) ;
  Ok (sumQ parts).
(** l.155-163 *)
Definition epaAverage (size : Z) (stars : list (list epaQ)) (nu i j : Z) : res Q :=
  do n <- overProcesses size stars (normStar i j) ;
  do g <- overProcesses size stars (g2Star nu i j) ;
  Ok (if Qle_bool n (1 # 1000000000000) then g else (g / n)%Q).
Definition epaFrequency (size nQ : Z) (stars : list (list epaQ)) (nu : Z) : res Q := overProcesses size stars (phStar nQ nu).
End Average.

(** * transport_epa_app.cpp *)
(** l.28-40: centres of the energy steps; the conversion of a negative number to size_t is undefined *)
Definition epaGrid (fermi range step : Q) : res (list Q) :=
  let emin := (fermi - range)%Q in let emax := (fermi + range)%Q in
  do t <- qdivI (emax - emin) step ;
  if Qle_bool t (-1) then UB else
  Ok (map (fun i => ((inject_Z i + (1 # 2)) * step + emin)%Q) (zrange 0 (qtrunc t))).

(** l.136-174: energy projected velocities and density of states. A state of the irreducible wedge: its velocity,
    the rotations to the points of its star (3x3 matrices acting on velocities), its weight delta(E - e) at energy index iE *)
Record epaState := { sVel : Z -> Q; sRot : list (Z -> Z -> Q); sDelta : Z -> Q }.
Definition rotV (r : Z -> Z -> Q) (v : Z -> Q) (i : Z) : Q := (r i 0%Z * v 0%Z + r i 1%Z * v 1%Z + r i 2%Z * v 2%Z)%Q.
Definition projVelocity (norm : Q) (states : list epaState) (iE i j : Z) : Q :=
  sumQ (flat_map (fun s => map (fun r => (rotV r (sVel s) i * rotV r (sVel s) j * sDelta s iE * norm)%Q) (sRot s)) states).
Definition epaDos (norm : Q) (states : list epaState) (iE : Z) : Q :=
  sumQ (map (fun s => (sDelta s iE * inject_Z (zlen (sRot s)) * norm)%Q) states).
(** l.145-147, 173-174: the energies are divided between the processes, zero elsewhere, and all are summed *)
Definition overEnergies (size nE : Z) (f : Z -> res Q) : res (list Q) :=
  do tables <- mapM (fun r =>
      do idx <- divideWorkIter nE r size ;
      mapM (fun iE => if existsb (Z.eqb iE) idx then f iE else Ok 0%Q) (zrange 0 nE)) (zrange 0 size) ;
  Ok (map (fun iE => sumQ (map (fun t => nth (Z.to_nat iE) t 0%Q) tables)) (zrange 0 nE)).

(** l.249-265: density of states at the final energies (emission, absorption) *)
Definition dosFinal (dos : list Q) (iE : Z) (w step : Q) : res (Q * Q) :=
  do t <- qdivI w step ;
  do iJump <- ck (qtrunc t) ;
  let interp := (t - inject_Z iJump)%Q in
  do em <- (if 0 <=? iE - iJump - 1
            then do a <- getQ dos (iE - iJump - 1) ; do b <- getQ dos (iE - iJump) ; Ok (a * interp + b * (1 - interp))%Q else Ok 0%Q) ;
  do ab <- (if iE + iJump + 1 <? zlen dos
            then do a <- getQ dos (iE + iJump) ; do b <- getQ dos (iE + iJump + 1) ; Ok (a * (1 - interp) + b * interp)%Q else Ok 0%Q) ;
  Ok (em, ab).
(** l.269-296 for one calculation; [bose nu], [fermi e]: populations at its temperature and chemical potential *)
Definition epaRateAt (binEn : list Q) (g : Z -> Z -> Z -> Q) (ph energies dos : list Q) (step norm : Q) (bose : Z -> Q) (fermi : Q -> Q) (iE : Z) : res Q :=
  do terms <- mapM (fun nu =>
      do w <- getQ ph nu ;
      do d <- dosFinal dos iE w step ;
      do e <- getQ energies iE ;
      do gA <- getCoupling binEn g nu e (e + w) ;
      do gE <- getCoupling binEn g nu e (e - w) ;
      Ok (norm * (gA * (bose nu + fermi (e + w)) * snd d + gE * (bose nu + 1 - fermi (e - w)) * fst d))%Q) (zrange 0 (zlen ph)) ;
  Ok (sumQ terms).
Definition epaRates (size : Z) (binEn : list Q) (g : Z -> Z -> Z -> Q) (ph energies dos : list Q) (step norm : Q) (bose : Z -> Q) (fermi : Q -> Q) : res (list Q) :=
  overEnergies size (zlen energies) (epaRateAt binEn g ph energies dos step norm bose fermi).
