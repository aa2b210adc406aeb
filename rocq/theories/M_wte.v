(** Model of src/observable/wigner_phonon_thermal_cond.cpp and src/observable/wigner_electron.cpp: the interband terms of the
    Wigner transport equation. Real numbers: no rounding. One calculation (the loops over iCalc repeat it). A number divided by
    zero is [None]: infinity or not a number, which the following sums keep. *)
From Coq Require Import Reals.
From Verif Require Import Base M_complex M_phonon M_particle.
Open Scope Z_scope.

Definition fdiv (a b : R) : option R := if reqb b 0 then None else Some (a / b)%R.
Definition oadd (a b : option R) : option R := match a, b with Some x, Some y => Some (x + y)%R | _, _ => None end.
(** the sums of the loops, of the processes (mpi->allReduceSum, trusted) *)
Definition osum (l : list (option R)) : option R := fold_right oadd (Some 0%R) l.
Definition omap (f : R -> R) (a : option R) : option R := match a with Some x => Some (f x) | None => None end.

(** a wavevector: number of bands, energies, velocity operator (band, band, direction), inverse relaxation times 1/tau of its bands
    (0 for an infinite time), rotations of its star *)
Record wPoint := { wNb : Z; wEn : Z -> R; wVel : Z -> Z -> Z -> cplx; wRate : Z -> R; wRots : list (Z -> Z -> R) }.
(** pairs of different bands: wigner_phonon_thermal_cond.cpp:84-88, wigner_electron.cpp:60-64 and 90-93 *)
Definition bandPairs (p : wPoint) : list (Z * Z) := filter (fun b => negb (fst b =? snd b)) (list_prod (zrange 0 (wNb p)) (zrange 0 (wNb p))).

(** * wigner_phonon_thermal_cond.cpp *)
(** l.49-62; [cut] = 0.1 / ryToCmm1 *)
Definition boseOf (cut temp e : R) : R :=
  if rltb e cut then 0%R else match getPopulation phonon e temp 0 with Fin x => x | _ => 0%R end.
(** l.72-81 *)
Definition velRot (r : Z -> Z -> R) (v : Z -> Z -> Z -> cplx) (b1 b2 i : Z) : cplx :=
  cadd (cadd (cscale (r i 0) (v b1 b2 0)) (cscale (r i 1) (v b1 b2 1))) (cscale (r i 2) (v b1 b2 2)).
(** l.101-115 *)
Definition phTerm (cut temp norm : R) (p : wPoint) (r : Z -> Z -> R) (c1 c2 : Z) (b : Z * Z) : option R :=
  let '(b1, b2) := b in
  let e1 := wEn p b1 in let e2 := wEn p b2 in
  let n1 := boseOf cut temp e1 in let n2 := boseOf cut temp e2 in
  let num := (e1 * n1 * (n1 + 1) + e2 * n2 * (n2 + 1))%R in
  let vel := fst (cmul (velRot r (wVel p) b1 b2 c1) (velRot r (wVel p) b2 b1 c2)) in
  let den := (4 * ((e1 - e2) * (e1 - e2)) + (wRate p b1 + wRate p b2) * (wRate p b1 + wRate p b2))%R in
  omap (fun x => x * (wRate p b1 + wRate p b2) * norm)%R (fdiv ((e1 + e2) * vel * num) den).
(** l.70-121 *)
Definition phPoint (cut temp norm : R) (c1 c2 : Z) (p : wPoint) : option R :=
  osum (map (fun r => osum (map (phTerm cut temp norm p r c1 c2) (bandPairs p))) (wRots p)).
(** l.32-39: norm; l.41: irreducible points of each process; l.123 *)
Definition phNorm (numPoints volume temp : R) : R := (1 / numPoints / volume / temp / temp / 2)%R.
Definition phCorrection (cut temp numPoints volume : R) (ranks : list (list wPoint)) (c1 c2 : Z) : option R :=
  osum (map (fun points => osum (map (phPoint cut temp (phNorm numPoints volume temp) c1 c2) points)) ranks).

(** * wigner_electron.cpp *)
Definition cdiv (a b : cplx) : option cplx := if reqb (cnorm2 b) 0 then None else Some (cscale (/ cnorm2 b) (cmul a (cconj b))).
(** l.53-58 *)
Definition fermiOf (temp mu e : R) : R := match getPopulation electron e temp mu with Fin x => x | _ => 0%R end.
Definition dfdtOf (temp mu e : R) : R := match getDndt electron e temp mu false with Fin x => x | _ => 0%R end.
(** l.72-74 *)
Definition xC (p : wPoint) (b1 b2 : Z) : cplx := (wRate p b1 + wRate p b2, 2 * (wEn p b1 - wEn p b2))%R.
(** l.77-79: -2 v / xC * (f1 - f2) / (e1 - e2) *)
Definition fE (temp mu : R) (p : wPoint) (b1 b2 c : Z) : option cplx :=
  match cdiv (cscale (-2) (wVel p b1 b2 c)) (xC p b1 b2) with
  | None => None
  | Some x => if reqb (wEn p b1 - wEn p b2) 0 then None
              else Some (cscale (/ (wEn p b1 - wEn p b2)) (cscale (fermiOf temp mu (wEn p b1) - fermiOf temp mu (wEn p b2)) x))
  end.
(** l.80-81: 2 v / xC * (dfdt1 + dfdt2) *)
Definition fT (temp mu : R) (p : wPoint) (b1 b2 c : Z) : option cplx :=
  match cdiv (cscale 2 (wVel p b1 b2 c)) (xC p b1 b2) with
  | None => None | Some x => Some (cscale (dfdtOf temp mu (wEn p b1) + dfdtOf temp mu (wEn p b2)) x)
  end.
(** l.99-104: real part of the anticommutator with the velocity *)
Definition anti (f : wPoint -> Z -> Z -> Z -> option cplx) (p : wPoint) (c1 c2 : Z) (b : Z * Z) : option R :=
  let '(b1, b2) := b in
  match f p b2 b1 c2, f p b1 b2 c2 with
  | Some x, Some y => Some (fst (cadd (cmul (wVel p b1 b2 c1) x) (cmul (wVel p b2 b1 c1) y)))
  | _, _ => None
  end.
(** l.24-25; l.29: points of each process; l.105-110 with the weights of LEE, LET, LTE, LTT; l.117-120 *)
Definition elNorm (spin numPoints volume : R) : R := (spin / numPoints / volume / 2)%R.
Definition elSum (f : wPoint -> Z -> Z -> Z -> option cplx) (weight : wPoint -> Z * Z -> R) (ranks : list (list wPoint)) (c1 c2 : Z) : option R :=
  osum (map (fun points => osum (map (fun p => osum (map (fun b => omap (fun x => weight p b * x)%R (anti f p c1 c2 b)) (bandPairs p))) points)) ranks).
Definition corrLEE (temp mu norm : R) := elSum (fE temp mu) (fun _ _ => norm).
Definition corrLET (temp mu norm : R) := elSum (fT temp mu) (fun _ _ => (- norm)%R).
Definition corrLTE (temp mu norm : R) := elSum (fE temp mu) (fun p b => (- (norm * (wEn p (fst b) - mu)))%R).
Definition corrLTT (temp mu norm : R) := elSum (fT temp mu) (fun p b => (- (norm * (wEn p (fst b) - mu)))%R).
