(** Model of the solvers of the linear system A f = b in src/apps/phonon_transport_app.cpp:202-384 and
    src/apps/electron_wannier_transport_app.cpp:291-553, without symmetries (each Cartesian component by itself; the BTE index
    of a state is the state). Values are rationals: no rounding. *)
From Coq Require Import QArith Qcanon.
From Verif Require Import Base M_utilities M_points M_matrix M_vbte M_scattering.
Open Scope Z_scope.

(** component [i] of calculation [c] at state [s] *)
Definition field : Type := Z -> Z -> Z -> Qc.

(** [pN] states, [pExcl] excluded ones, [pM c s s'] collision matrix of calculation c, [pPop c s] = n(n+1) (the matrix of phonons
    acts on canonical populations) , [pDrift] = BulkTDrift, [pVel], [pEn] velocities and energies, [pTemp] temperatures,
    [pNorm] = 1 / points / volume, [pCalcs] calculations, [pDim] dimensionality *)
Record problem := { pN : Z; pExcl : list Z; pM : Z -> Z -> Z -> Qc; pPop : Z -> Z -> Qc; pDrift : field; pVel : Z -> Z -> Qc;
  pEn : Z -> Qc; pTemp : Z -> Qc; pNorm : Qc; pCalcs : Z; pDim : Z }.

Section Solver.
Variable P : problem.
Definition excluded (s : Z) : bool := isIn (pExcl P) s.
Definition states : list Z := filter (fun s => negb (excluded s)) (zrange 0 (pN P)).
(** vector_bte.cpp:113-175: component by component, excluded states get zero *)
Definition lift2 (op : Qc -> Qc -> Qc) (u v : field) : field := fun c i s => if excluded s then 0%Qc else op (u c i s) (v c i s).
(** l.191-206: times a matrix (calculation, component); l.66-111 dot *)
Definition scaled (u : field) (a : Z -> Z -> Qc) : field := fun c i s => (u c i s * a c i)%Qc.
Definition fdot (u v : field) (c i : Z) : Qc := qsum (map (fun s => u c i s * v c i s)%Qc states).
(** scattering.cpp:271-340 dot, 181-236 offDiagonalDot, 171-180 diagonal *)
Definition adot (u : field) : field := fun c i s => if excluded s then 0%Qc else qsum (map (fun s' => pM P c s s' * u c i s')%Qc states).
Definition offDiagonal (u : field) : field :=
  fun c i s => qsum (map (fun s' => pM P c s s' * u c i s')%Qc (filter (fun s' => negb (s' =? s)) (zrange 0 (pN P)))).
Definition diag : field := fun c _ s => pM P c s s.

(** * Relaxation time approximation, phonon_transport_app.cpp:115-117; times = n(n+1) / diagonal (scattering.cpp:484-512) *)
Definition times : field := fun c _ s => (pPop P c s / pM P c s s)%Qc.
Definition popRTA : field := lift2 Qcmult (pDrift P) times.
(** vector_bte.cpp:311-328 *)
Definition toCanonical (u : field) : field := fun c i s => (u c i s / pPop P c s)%Qc.
Definition fRTA : field := toCanonical popRTA.

(** * Conductivities, phonon_thermal_cond.cpp:59-136 and 138-236, one process and one thread (sums: see C31) *)
Definition sum3 (g : Z -> Qc) : Qc := qsum (map g states).
Definition fromPopulation (u : field) (c i j : Z) : Qc := sum3 (fun s => u c i s * pVel P j s * pEn P s * pNorm P)%Qc.
Definition toPopulation (u : field) : field := fun c i s => (u c i s * pPop P c s)%Qc.
Definition fromCanonical (u : field) : Z -> Z -> Z -> Qc := fromPopulation (toPopulation u).
Definition two : Qc := Q2Qc 2.
Definition variational (au u b : field) (c i j : Z) : Qc :=
  let norm2 := (pNorm P * pTemp P c * pTemp P c)%Qc in
  (two * sum3 (fun s => u c i s * b c j s * norm2) - sum3 (fun s => u c i s * au c j s * norm2))%Qc.
(** the tensor in the order of the loops of findMaxRelativeDifference *)
Definition tensor (k : Z -> Z -> Z -> Qc) : list Q :=
  map (fun t => this (k (fst (fst t)) (snd (fst t)) (snd t))) (list_prod (list_prod (zrange 0 (pCalcs P)) (zrange 0 (pDim P))) (zrange 0 (pDim P))).

(** * One iteration *)
(** Omini-Sparavigna, phonon_transport_app.cpp:228-229 *)
Definition ominiNext (fOld : field) : field := lift2 Qcminus fRTA (lift2 Qcdiv (offDiagonal fOld) diag).
(** electrons, electron_wannier_transport_app.cpp:499-503 and 516-520: [b] = minus the drift; times = 1 / linewidth, the matrix is
    already in the Omega representation *)
Definition timesOmega : field := fun c _ s => (1 / pM P c s s)%Qc.
Definition ominiNextOmega (b : field) (nOld : field) : field := lift2 Qcminus (lift2 Qcmult b timesOmega) (lift2 Qcdiv (offDiagonal nOld) diag).
(** conjugate gradient, phonon_transport_app.cpp:272-350, electron_wannier_transport_app.cpp:327-405 *)
Record cg := { cgF : field; cgR : field; cgD : field }.
Definition ratio (num den : Z -> Z -> Qc) (c i : Z) : Qc := if Qc_eq_dec (den c i) 0 then 0%Qc else (num c i / den c i)%Qc.
Definition cgStart (b guess : field) : cg :=
  let r := lift2 Qcminus b (adot guess) in {| cgF := guess; cgR := r; cgD := r |}.
Definition cgStep (st : cg) : cg :=
  let w := adot (cgD st) in
  let alpha := ratio (fdot (cgR st) (cgR st)) (fdot (cgD st) w) in
  let fNew := lift2 Qcplus (scaled (cgD st) alpha) (cgF st) in
  let rNew := lift2 Qcminus (cgR st) (scaled w alpha) in
  let beta := ratio (fdot rNew rNew) (fdot (cgR st) (cgR st)) in
  {| cgF := fNew; cgR := rNew; cgD := lift2 Qcplus (scaled (cgD st) beta) rNew |}.
(** the tensor shown after the step: l.353-355, from A fNew and from f before the step (phonons); electrons l.431-437 *)
Definition cgReported (b : field) (st : cg) : Z -> Z -> Z -> Qc := variational (adot (cgF (cgStep st))) (cgF st) b.
Definition cgReportedEl (b : field) (st : cg) : Z -> Z -> Z -> Qc := variational (adot (cgF (cgStep st))) (cgF (cgStep st)) b.
End Solver.

(** * The loops, phonon_transport_app.cpp:226-250, 271-375; electron_wannier_transport_app.cpp:327-462, 510-543 *)
(** [step]: new state and what is compared; [stop iter new old]; [left] iterations remain after this one. The value is what is
    compared at the exit. *)
Fixpoint iterateFrom {S T} (step : S -> S * T) (stop : Z -> T -> T -> res bool) (iter : Z) (left : nat) (s : S) (old : T) : res T :=
  let '(s', new) := step s in
  do c <- stop iter new old ;
  if c then Ok new else match left with O => Err | Datatypes.S k => iterateFrom step stop (iter + 1) k s' new end.
Definition runSolver {S T} (step : S -> S * T) (stop : Z -> T -> T -> res bool) (maxIterations : Z) (s : S) (old : T) : res T :=
  match Z.to_nat maxIterations with O => Ok old | Datatypes.S k => iterateFrom step stop 0 k s old end.
Definition stopPhonon (threshold : Q) (_ : Z) (new old : list Q) : res bool :=
  do diff <- findMaxRelativeDifference new old ; Ok (Qltb diff threshold).
(** electrical and thermal conductivity; [least]: no exit before iteration least + 1 (2 for the variational method, l.446) *)
Definition stopElectron (threshold : Q) (least : Z) (iter : Z) (new old : list Q * list Q) : res bool :=
  do dE <- findMaxRelativeDifference (fst new) (fst old) ;
  do dT <- findMaxRelativeDifference (snd new) (snd old) ;
  Ok (Qltb dE threshold && Qltb dT threshold && (least <? iter)).

(** phonons: the tensors returned by the two methods, l.202-252 and 260-377 *)
Definition solveIterative (P : problem) (threshold : Q) (maxIterations : Z) (kappa0 : list Q) : res (list Q) :=
  runSolver (fun f => let g := ominiNext P f in (g, tensor P (fromCanonical P g))) (stopPhonon threshold) maxIterations (fRTA P) kappa0.
Definition solveVariational (P : problem) (threshold : Q) (maxIterations : Z) (kappa0 : list Q) : res (list Q) :=
  runSolver (fun st => (cgStep P st, tensor P (cgReported P (pDrift P) st))) (stopPhonon threshold) maxIterations (cgStart P (pDrift P) (fRTA P)) kappa0.
