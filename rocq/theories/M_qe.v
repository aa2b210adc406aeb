(** Model of getQELattice (src/parser/qe_input_parser.cpp:18-363): lattice vectors of a Bravais index of Quantum ESPRESSO.
    Doubles are reals; the square root of a negative number (not a number in the code) is UB. *)
From Coq Require Import Reals.
From Verif Require Import Base M_particle.
Local Open Scope R_scope.

Definition r3 : Type := R * R * R.
(** the columns a1, a2, a3 *)
Definition cell3 : Type := r3 * r3 * r3.
(** celldm(0) ... celldm(5) *)
Record celldm := { cd0 : R; cd1 : R; cd2 : R; cd3 : R; cd4 : R; cd5 : R }.

(** l.51 *)
Definition sr2 : R := 1414213562373 / 1000000000000.
Definition sr3 : R := 1732050807569 / 1000000000000.
Definition rsqrt (x : R) : res R := if rltb x 0 then UB else Ok (sqrt x).
(** if (b) Error(...); a call with code 0 does nothing (exceptions.cpp:6-16), all codes are nonzero here *)
Definition stopIf (b : bool) {A} (k : res A) : res A := if b then Err else k.
(** abs(x) >= 1 *)
Definition abs1 (x : R) : bool := rleb 1 (Rabs x).
Definition norm0 (a : r3) : bool := let '(x, y, z) := a in reqb (sqrt (x * x + y * y + z * z)) 0.
Definition scale3 (s : R) (a : r3) : r3 := let '(x, y, z) := a in (x * s, y * s, z * s).

(** l.62-77 iBravais = 0: the given vectors, in units of celldm(0) if that is not zero; l.354 Error(..., 0) does nothing. celldm(0) is changed too when it is zero
    (second component) *)
Definition lattice0 (D : celldm) (A : cell3) : res (cell3 * R) :=
  let '(a1, a2, a3) := A in
  stopIf (norm0 a1 || norm0 a2 || norm0 a3)
    (let '(x, y, z) := a1 in let alat := if reqb (cd0 D) 0 then sqrt (x * x + y * y + z * z) else cd0 D in
     stopIf (rleb alat 0) (Ok (if reqb (cd0 D) 0 then A else (scale3 (cd0 D) a1, scale3 (cd0 D) a2, scale3 (cd0 D) a3), alat))).

(** l.90-352, one case for each index *)
Definition lattice (ib : Z) (D : celldm) : res cell3 :=
  let a := cd0 D in
  stopIf (rleb a 0)
  match ib with
  | 1%Z => Ok ((a, 0, 0), (0, a, 0), (0, 0, a))
  | 2%Z => let t := a / 2 in Ok ((- t, 0, t), (0, t, t), (- t, t, 0))
  | 3%Z => let t := a / 2 in Ok ((t, t, t), (- t, t, t), (- t, - t, t))
  | (-3)%Z => let t := a / 2 in Ok ((- t, t, t), (t, - t, t), (t, t, - t))
  | 4%Z => stopIf (rleb (cd2 D) 0) (Ok ((a, 0, 0), (- a / 2, a * sr3 / 2, 0), (0, 0, a * cd2 D)))
  | 5%Z => stopIf (rleb (cd3 D) (- (1 / 2)) || rleb 1 (cd3 D))
      (do t1 <- rsqrt (1 + 2 * cd3 D) ; do t2 <- rsqrt (1 - cd3 D) ;
       let x := a * t2 / sr2 in let h := a * t1 / sr3 in
       Ok ((x, - x / sr3, h), (0, sr2 * a * t2 / sr3, h), (- x, - x / sr3, h)))
  | (-5)%Z => stopIf (rleb (cd3 D) (- (1 / 2)) || rleb 1 (cd3 D))
      (do t1 <- rsqrt (1 + 2 * cd3 D) ; do t2 <- rsqrt (1 - cd3 D) ;
       let u := a * (t1 - 2 * t2) / 3 in let v := a * (t1 + t2) / 3 in
       Ok ((u, v, v), (v, u, v), (v, v, u)))
  | 6%Z => stopIf (rleb (cd2 D) 0) (Ok ((a, 0, 0), (0, a, 0), (0, 0, a * cd2 D)))
  | 7%Z => stopIf (rleb (cd2 D) 0)
      (let t := a / 2 in let h := cd2 D * a / 2 in Ok ((t, - t, h), (t, t, h), (- t, - t, h)))
  | 8%Z => stopIf (rleb (cd1 D) 0) (stopIf (rleb (cd2 D) 0) (Ok ((a, 0, 0), (0, a * cd1 D, 0), (0, 0, a * cd2 D))))
  | 9%Z => stopIf (rleb (cd1 D) 0) (stopIf (rleb (cd2 D) 0)
      (let t := 1 / 2 * a in Ok ((t, t * cd1 D, 0), (- t, t * cd1 D, 0), (0, 0, a * cd2 D))))
  | (-9)%Z => stopIf (rleb (cd1 D) 0) (stopIf (rleb (cd2 D) 0)
      (let t := 1 / 2 * a in Ok ((t, - t * cd1 D, 0), (t, - (- t * cd1 D), 0), (0, 0, a * cd2 D))))
  | 91%Z => stopIf (rleb (cd1 D) 0) (stopIf (rleb (cd2 D) 0)
      (let y := a * cd1 D * (1 / 2) in let z := - a * cd2 D * (1 / 2) in Ok ((a, 0, 0), (0, y, z), (0, y, - z))))
  | 10%Z => stopIf (rleb (cd1 D) 0) (stopIf (rleb (cd2 D) 0)
      (let t := 1 / 2 * a in Ok ((t, 0, t * cd2 D), (t, t * cd1 D, 0), (0, t * cd1 D, t * cd2 D))))
  | 11%Z => stopIf (rleb (cd1 D) 0) (stopIf (rleb (cd2 D) 0)
      (let t := 1 / 2 * a in Ok ((t, t * cd1 D, t * cd2 D), (- t, t * cd1 D, t * cd2 D), (- t, - (t * cd1 D), t * cd2 D))))
  | 12%Z => stopIf (rleb (cd1 D) 0) (stopIf (rleb (cd2 D) 0) (stopIf (abs1 (cd3 D))
      (do sen <- rsqrt (1 - cd3 D * cd3 D) ; Ok ((a, 0, 0), (a * cd1 D * cd3 D, a * cd1 D * sen, 0), (0, 0, a * cd2 D)))))
  | (-12)%Z => stopIf (rleb (cd1 D) 0) (stopIf (rleb (cd2 D) 0) (stopIf (abs1 (cd4 D))
      (do sen <- rsqrt (1 - cd4 D * cd4 D) ; Ok ((a, 0, 0), (0, a * cd1 D, 0), (a * cd2 D * cd4 D, 0, a * cd2 D * sen)))))
  | 13%Z => (* l.287-304: the angle tested is celldm(3), the sine is that of celldm(4), and celldm(2) takes the place of the cosine *)
      stopIf (rleb (cd1 D) 0) (stopIf (rleb (cd2 D) 0) (stopIf (abs1 (cd3 D))
      (do sen <- rsqrt (1 - cd4 D * cd4 D) ;
       let t := 1 / 2 * a in Ok ((t, 0, - t * cd2 D), (a * cd1 D * cd2 D, a * cd1 D * sen, 0), (t, 0, - (- t * cd2 D))))))
  | (-13)%Z => stopIf (rleb (cd1 D) 0) (stopIf (rleb (cd2 D) 0) (stopIf (abs1 (cd4 D))
      (do sen <- rsqrt (1 - cd4 D * cd4 D) ;
       let t := 1 / 2 * a in Ok ((t, - t * cd1 D, 0), (t, - (- t * cd1 D), 0), (a * cd2 D * cd4 D, 0, a * cd2 D * sen)))))
  | 14%Z => stopIf (rleb (cd1 D) 0) (stopIf (rleb (cd2 D) 0) (stopIf (abs1 (cd3 D)) (stopIf (abs1 (cd4 D)) (stopIf (abs1 (cd5 D))
      (do sigma <- rsqrt (1 - cd5 D * cd5 D) ;
       let term := 1 + 2 * cd3 D * cd4 D * cd5 D - cd3 D * cd3 D - cd4 D * cd4 D - cd5 D * cd5 D in
       stopIf (rltb term 0)
       (do t <- rsqrt (term / (1 - cd5 D * cd5 D)) ;
        Ok ((a, 0, 0), (a * cd1 D * cd5 D, a * cd1 D * sigma, 0), (a * cd2 D * cd4 D, a * cd2 D * (cd3 D - cd4 D * cd5 D) / sigma, a * cd2 D * t))))))))
  | _ => Err
  end.
(** l.18-363: cell, and celldm(0) as the caller finds it afterwards *)
Definition getQELattice (ib : Z) (D : celldm) (A : cell3) : res (cell3 * R) :=
  if (ib =? 0)%Z then lattice0 D A else do c <- lattice ib D ; Ok (c, cd0 D).
