(** Model of how linewidths due to electrons are added to the collision operator of phonons, src/apps/phonon_transport_app.cpp:70-99,
    117, 202-231, with src/bte/scattering.cpp:181-254 (offDiagonalDot), 484-512, 529-637 (times, getLinewidths, setLinewidths). Without
    symmetries; rationals: no rounding. The linewidths [ph] themselves (phel_scattering.cpp) are an input. *)
From Coq Require Import QArith Qcanon.
From Verif Require Import Base M_matrix M_vbte M_scattering M_solver.
Open Scope Z_scope.

(** l.95-97: getLinewidths = diagonal / n(n+1), then the sum (zero at excluded states, vector_bte.cpp:171-173), then setLinewidths
    = times n(n+1) *)
Definition addedDiagonal (P : problem) (ph : Z -> Z -> Qc) (d : Z -> Z -> Qc) (c s : Z) : Qc :=
  ((if excluded P s then 0 else d c s / pPop P c s + ph c s) * pPop P c s)%Qc.

(** matrix in memory: setLinewidths also replaces the diagonal of the matrix, scattering.cpp:612-636; everything else is kept *)
Definition withRates (P : problem) (ph : Z -> Z -> Qc) : problem :=
  {| pN := pN P; pExcl := pExcl P;
     pM := fun c s s' => if s =? s' then addedDiagonal P ph (fun c s => pM P c s s) c s else pM P c s s';
     pPop := pPop P; pDrift := pDrift P; pVel := pVel P; pEn := pEn P; pTemp := pTemp P; pNorm := pNorm P; pCalcs := pCalcs P; pDim := pDim P |}.

Section OnTheFly.
(** matrix not in memory. [dotF] = ScatteringMatrix::dot (scattering.cpp:341-350): the builder computes the product again from the
    scattering events; [d] = internalDiagonal after setup *)
Variables (P : problem) (ph : Z -> Z -> Qc) (d : Z -> Z -> Qc) (dotF : field -> field).
(** l.97: only internalDiagonal is replaced *)
Definition flyDiagonal : Z -> Z -> Qc := addedDiagonal P ph d.
(** scattering.cpp:238-254 *)
Definition flyOff (u : field) : field := fun c i s => (dotF u c i s - flyDiagonal c s * u c i s)%Qc.
(** phonon_transport_app.cpp:116-117, 214-216 *)
Definition flyTimes : field := fun c _ s => (pPop P c s / flyDiagonal c s)%Qc.
Definition flyRTA : field := toCanonical P (lift2 P Qcmult (pDrift P) flyTimes).
(** l.228-229 *)
Definition flyNext (fOld : field) : field := lift2 P Qcminus flyRTA (lift2 P Qcdiv (flyOff fOld) (fun c _ s => flyDiagonal c s)).
End OnTheFly.
(** one calculation of the builder as a field *)
Definition builderDot (excl : list Z) (bnd : Z -> Qc) (evs : list (list event)) (u : field) : field := fun c => flyDot excl bnd evs (u c).

(** constant relaxation time [tau], matrix in memory: setup returns before the matrix is allocated (scattering.cpp:97-98), so that it has
    no elements and products with it are zero; single mode times are [tau] (l.489-490) *)
Definition withoutMatrix (P : problem) : problem :=
  {| pN := pN P; pExcl := pExcl P; pM := fun _ _ _ => 0%Qc; pPop := pPop P; pDrift := pDrift P; pVel := pVel P; pEn := pEn P; pTemp := pTemp P; pNorm := pNorm P; pCalcs := pCalcs P; pDim := pDim P |}.
Definition constantFRTA (P : problem) (tau : Qc) : field := toCanonical P (lift2 P Qcmult (pDrift P) (fun _ _ _ => tau)).
(** phonon_transport_app.cpp:272-355: what the variational solver shows after step k *)
Definition constantVariational (P : problem) (tau : Qc) (k : nat) : Z -> Z -> Z -> Qc :=
  cgReported (withoutMatrix P) (pDrift P) (Nat.iter k (cgStep (withoutMatrix P)) (cgStart (withoutMatrix P) (pDrift P) (constantFRTA P tau))).
