(** Model of src/interaction/interaction_3ph.cpp, interaction_elph.cpp and of the ShengBTE reader of src/parser/ifc3_parser.cpp.
    Complex numbers are exact; Kokkos loops write each element once, so that their order does not matter. *)
From Coq Require Import Reals QArith Qreals.
From Verif Require Import Base M_utilities M_complex M_phonon.
Open Scope Z_scope.

(** * interaction_3ph.cpp *)
(** data of Interaction3Ph: [d3 i1 i2 i3 ir3 ir2] = D3_k, [pos2 ir], [pos3 ir] = columns of cellPositions2/3, [wt2 ir2 at1 at2], [wt3 ir3 at1 at3] *)
Record ifc3 := { cAt : Z; nr2 : Z; nr3 : Z; pos2 : Z -> vec; pos3 : Z -> vec; wt2 : Z -> Z -> Z -> R; wt3 : Z -> Z -> Z -> R; d3 : Z -> Z -> Z -> Z -> Z -> R }.
Definition cBands (T : ifc3) : Z := 3 * cAt T.
(** l.5-69: weights3_k is allocated with nr2 rows (l.20) and filled with nr3 rows (l.38-40) *)
Definition construct3 (T : ifc3) : res ifc3 := if (0 <? cAt T) && (nr2 T <? nr3 T) then UB else Ok T.

Section ThreePhonon.
Variable T : ifc3.
(** l.100-172 cacheD3 *)
Definition cachedPlus (q2 : vec) (i1 i2 i3 r3 : Z) : cplx :=
  csumTo (nr2 T) (fun r2 => cscale (wt3 T r3 (i1 / 3) (i3 / 3)) (cscale (wt2 T r2 (i1 / 3) (i2 / 3))
    (cmul (cscale (d3 T i1 i2 i3 r3 r2) (cexpi (dot3 q2 (pos2 T r2)))) (cexpi (dot3 (vopp q2) (pos3 T r3)))))).
Definition cachedMins (q2 : vec) (i1 i2 i3 r3 : Z) : cplx :=
  csumTo (nr2 T) (fun r2 => cscale (wt3 T r3 (i1 / 3) (i3 / 3)) (cscale (wt2 T r2 (i1 / 3) (i2 / 3))
    (cmul (cscale (d3 T i1 i2 i3 r3 r2) (cexpi (dot3 (vopp q2) (pos2 T r2)))) (cexpi (dot3 q2 (pos3 T r3)))))).
(** one element of the vectors given to getCouplingsSquared *)
Record point3 := { pQ : vec; pNb1 : Z; pEv1 : cmat; pNbP : Z; pEvP : cmat; pNbM : Z; pEvM : cmat }.
(** l.205-247: the eigenvectors are copied to padded views that start as zeros *)
Definition padded (nb : Z) (ev : cmat) (k j : Z) : cplx := if k <? nb then ev j k else c0.
(** int mask = ... ; tmp * mask *)
Definition masked (m : bool) (c : cplx) : cplx := if m then c else c0.
(** l.261-292; [cache] = D3PlusCached or D3MinsCached *)
Definition tmp0 (cache : Z -> Z -> Z -> Z -> cplx) (p : point3) (i1 i2 i3 : Z) : cplx :=
  csumTo (nr3 T) (fun r3 => cscale (wt3 T r3 (i1 / 3) (i3 / 3)) (cmul (cache i1 i2 i3 r3) (cexpi (dot3 (vopp (pQ p)) (pos3 T r3))))).
(** l.294-309 *)
Definition tmp1 (cache : Z -> Z -> Z -> Z -> cplx) (p : point3) (b1 i3 i2 : Z) : cplx :=
  masked (b1 <? pNb1 p) (csumTo (cBands T) (fun i1 => cmul (tmp0 cache p i1 i2 i3) (padded (pNb1 p) (pEv1 p) b1 i1))).
(** l.311-327; [e2 b2 i2] = ev2(ib2,iac2) or its conjugate *)
Definition tmp2 (cache : Z -> Z -> Z -> Z -> cplx) (e2 : Z -> Z -> cplx) (p : point3) (b1 b2 i3 : Z) : cplx :=
  masked (b1 <? pNb1 p) (csumTo (cBands T) (fun i2 => cmul (tmp1 cache p b1 i3 i2) (e2 b2 i2))).
(** l.329-355; [nb3], [ev3] of the third state *)
Definition vertex (cache : Z -> Z -> Z -> Z -> cplx) (e2 : Z -> Z -> cplx) (nb3 : Z) (ev3 : cmat) (p : point3) (b1 b2 b3 : Z) : cplx :=
  masked ((b1 <? pNb1 p) && (b3 <? nb3)) (csumTo (cBands T) (fun i3 => cmul (tmp2 cache e2 p b1 b2 i3) (cconj (padded nb3 ev3 b3 i3)))).
(** l.357-400: the two tensors of a point, with their dimensions *)
Record tensor3 := { tDims : Z * Z * Z; tVal : Z -> Z -> Z -> R }.
Definition couplingPlus (q2c : vec) (ev2 : cmat) (nb2 : Z) (p : point3) : tensor3 :=
  {| tDims := (pNb1 p, nb2, pNbP p); tVal := fun b1 b2 b3 => cnorm2 (vertex (cachedPlus q2c) (fun b i => ev2 i b) (pNbP p) (pEvP p) p b1 b2 b3) |}.
Definition couplingMins (q2c : vec) (ev2 : cmat) (nb2 : Z) (p : point3) : tensor3 :=
  {| tDims := (pNb1 p, nb2, pNbM p); tVal := fun b1 b2 b3 => cnorm2 (vertex (cachedMins q2c) (fun b i => cconj (ev2 i b)) (pNbM p) (pEvM p) p b1 b2 b3) |}.
(** l.174-400: [q2c] = wavevector of the last call of cacheD3 (the argument q2_e is not used); *max_element of an empty vector reads out of it *)
Definition getCouplingsSquared (q2c : vec) (ev2 : cmat) (nb2 : Z) (ps : list point3) : res (list (tensor3 * tensor3)) :=
  match ps with [] => UB | _ => Ok (map (fun p => (couplingPlus q2c ev2 nb2 p, couplingMins q2c ev2 nb2 p)) ps) end.
End ThreePhonon.

(** * ifc3_parser.cpp:648-840 parseFromShengBTE, after the text is read *)
Definition q3 : Type := Q * Q * Q.
Definition q3eqb (a b : q3) : bool := Qeq_bool (fst (fst a)) (fst (fst b)) && Qeq_bool (snd (fst a)) (snd (fst b)) && Qeq_bool (snd a) (snd b).
Definition q3vec (a : q3) : vec := fun i => Q2R (if i =? 0 then fst (fst a) else if i =? 1 then snd (fst a) else snd a).
(** positions of the second and third cell, atoms (from 0), force constants [tv a b c] *)
Record triplet := { tp2 : q3; tp3 : q3; ta1 : Z; ta2 : Z; ta3 : Z; tv : Z -> Z -> Z -> R }.
(** l.742-780: std::find with the exact comparison, push_back of new positions *)
Definition addPosition (l : list q3) (p : q3) : list q3 := if existsb (fun x => q3eqb x p) l then l else l ++ [p].
Definition positions (ps : list q3) : list q3 := fold_left addPosition ps [].
(** l.98-110: norm() < 1.e-12, on the squares *)
Definition closeTo (p x : q3) : bool :=
  let d1 := (fst (fst p) - fst (fst x))%Q in let d2 := (snd (fst p) - snd (fst x))%Q in let d3 := (snd p - snd x)%Q in
  negb (Qle_bool (1 # 1000000000000000000000000) (d1 * d1 + d2 * d2 + d3 * d3)%Q).
Fixpoint findFrom (i : Z) (l : list q3) (p : q3) : res Z := match l with [] => Err | x :: r => if closeTo p x then Ok i else findFrom (i + 1) r p end.
Definition findIndexRow (l : list q3) (p : q3) : res Z := findFrom 0 l p.
(** l.795: Eigen::Tensor (numBands, numBands, numBands, nr2, nr3), first index fastest, indices are not checked *)
Definition offset5 (nb n2 i1 i2 i3 a b : Z) : Z := i1 + nb * (i2 + nb * (i3 + nb * (a + n2 * b))).
Definition size5 (nb n2 n3 : Z) : Z := nb * (nb * (nb * (n2 * n3))).
Definition writeAt (size : Z) (m : Z -> R) (o : Z) (x : R) : res (Z -> R) := if (0 <=? o) && (o <? size) then Ok (fun k => if k =? o then x else m k) else UB.
Definition readAt (size : Z) (m : Z -> R) (o : Z) : res R := if (0 <=? o) && (o <? size) then Ok (m o) else UB.
Definition components : list (Z * Z * Z) := list_prod (list_prod (zrange 0 3) (zrange 0 3)) (zrange 0 3).
(** l.800-826 *)
Definition storeTriplet (nA n2 n3 : Z) (l2 l3 : list q3) (m : Z -> R) (t : triplet) : res (Z -> R) :=
  do ir2 <- findIndexRow l2 (tp2 t); do ir3 <- findIndexRow l3 (tp3 t);
  foldM (fun (m : Z -> R) c => writeAt (size5 (3 * nA) n2 n3) m
    (offset5 (3 * nA) n2 (3 * ta1 t + fst (fst c)) (3 * ta2 t + snd (fst c)) (3 * ta3 t + snd c) ir3 ir2) (tv t (fst (fst c)) (snd (fst c)) (snd c))) components m.
(** l.782-832; the copies of the constructor of Interaction3Ph (interaction_3ph.cpp:36-63): the tensors are read at nr3 weights and at the
    indices (i5 < nr3, i4 < nr2) of FC3; weights(nr2,numAtoms,numAtoms) is all ones *)
Definition readsInside (nA n2 n3 : Z) : bool :=
  forallb (fun x => let '(i1, i2, i3, a, b) := x in offset5 (3 * nA) n2 i1 i2 i3 a b <? size5 (3 * nA) n2 n3)
    (list_prod (list_prod (list_prod (list_prod (zrange 0 (3 * nA)) (zrange 0 (3 * nA))) (zrange 0 (3 * nA))) (zrange 0 n3)) (zrange 0 n2)) &&
  forallb (fun x => let '(i, j, k) := x in i + n2 * (j + nA * k) <? n2 * (nA * nA)) (list_prod (list_prod (zrange 0 n3) (zrange 0 nA)) (zrange 0 nA)).
Definition posOf (l : list q3) (i : Z) : vec := match zget l i with Some p => q3vec p | None => fun _ => 0%R end.
Definition parseSheng (nA : Z) (ts : list triplet) : res ifc3 :=
  let l2 := positions (map tp2 ts) in let l3 := positions (map tp3 ts) in let n2 := zlen l2 in let n3 := zlen l3 in
  do m <- foldM (storeTriplet nA n2 n3 l2 l3) ts (fun _ => 0%R);
  if readsInside nA n2 n3 then
    construct3 {| cAt := nA; nr2 := n2; nr3 := n3; pos2 := posOf l2; pos3 := posOf l3; wt2 := fun _ _ _ => 1%R; wt3 := fun _ _ _ => 1%R;
                  d3 := fun i1 i2 i3 a b => m (offset5 (3 * nA) n2 i1 i2 i3 a b) |}
  else UB.

(** * interaction_elph.cpp *)
(** one electronic lattice vector: vector, degeneracy, couplingWannier_k(irE, irP, nu, iw1, iw2) *)
Record elVector := { eR : vec; eDeg : R; eG : Z -> Z -> Z -> Z -> cplx }.
(** [nW] Wannier functions, [nPh] modes, phonon lattice vectors and their degeneracies, the parts of the tensor held by the processes of the pool *)
Record elph := { nW : Z; nPh : Z; nrP : Z; rP : Z -> vec; degP : Z -> R; parts : list (list elVector) }.

Section ElPh.
Variable E : elph.
(** l.553-600: Fourier transform on the vectors of one process *)
Definition g1 (part : list elVector) (k : vec) (irP nu iw1 iw2 : Z) : cplx :=
  csum (map (fun v => cmul (eG v irP nu iw1 iw2) (cscale (/ eDeg v) (cexpi (dot3 k (eR v))))) part).
(** l.630-663: rotation; [ev1 iw1 ib1] *)
Definition localCached (part : list elVector) (k : vec) (ev1 : cmat) (irP nu ib1 iw2 : Z) : cplx :=
  csumTo (nW E) (fun iw1 => cmul (g1 part k irP nu iw1 iw2) (ev1 iw1 ib1)).
(** l.490-700 cacheElPh: at step iPool every process works for process iPool, whose k and eigenvector have been broadcast; MPI_Reduce sums
    the results on process iPool. The value kept by the process whose arguments are [k], [ev1] *)
Definition cached (k : vec) (ev1 : cmat) (irP nu ib1 iw2 : Z) : cplx :=
  match parts E with [part] => localCached part k ev1 irP nu ib1 iw2 | ps => csum (map (fun part => localCached part k ev1 irP nu ib1 iw2) ps) end.
(** l.349-374 *)
Definition g3 (c : Z -> Z -> Z -> Z -> cplx) (q : vec) (nu ib1 iw2 : Z) : cplx :=
  csumTo (nrP E) (fun irP => cmul (cscale (/ degP E irP) (cexpi (dot3 q (rP E irP)))) (c irP nu ib1 iw2)).
(** l.376-388; [ev3 nu nu2] *)
Definition g4 (c : Z -> Z -> Z -> Z -> cplx) (q : vec) (ev3 : cmat) (nu2 ib1 iw2 : Z) : cplx :=
  csumTo (nPh E) (fun nu => cmul (g3 c q nu ib1 iw2) (ev3 nu nu2)).
(** l.390-402 *)
Definition gFinal (c : Z -> Z -> Z -> Z -> cplx) (q : vec) (ev2 ev3 : cmat) (nu ib1 ib2 : Z) : cplx :=
  csumTo (nW E) (fun iw2 => cmul (cconj (ev2 iw2 ib2)) (g4 c q ev3 nu ib1 iw2)).
(** l.207-229 polarCorrectionPart2 *)
Definition polarPart2 (ev1 ev2 : cmat) (x : Z -> cplx) (ib1 ib2 nu : Z) : cplx := cmul (x nu) (csumTo (nW E) (fun w => cmul (cconj (ev2 w ib2)) (ev1 w ib1))).
(** l.404-436; [polar] = usePolarCorrection; the test on the length is done on the square *)
Definition elphCoupling (polar : bool) (c : Z -> Z -> Z -> Z -> cplx) (q : vec) (ev1 ev2 ev3 : cmat) (x : Z -> cplx) (ib1 ib2 nu : Z) : R :=
  cnorm2 (cadd (gFinal c q ev2 ev3 nu ib1 ib2)
    (if polar then if Rlt_dec (1 / 100000000 * (1 / 100000000))%R (dot3 q q) then polarPart2 ev1 ev2 x ib1 ib2 nu else c0 else c0)).
(** l.231-458 after cacheElPh: couplings of a batch of final points *)
Record point4 := { fQ : vec; fEv2 : cmat; fEv3 : cmat; fX : Z -> cplx }.
Definition calcCouplingSquared (polar : bool) (k : vec) (ev1 : cmat) (ps : list point4) : list (Z -> Z -> Z -> R) :=
  map (fun p => elphCoupling polar (cached k ev1) (fQ p) ev1 (fEv2 p) (fEv3 p) (fX p)) ps.
End ElPh.

(** l.152-205 polarCorrectionPart1Static; [H] gives cell, dielectric tensor, charges, positions and coarse grid; constants.h:12 fourPi *)
Definition gPolar (H : phonon) (q : vec) : list vec :=
  map (fun n => fun i => (IZR (fst (fst n)) * recip H 0 i + IZR (snd (fst n)) * recip H 1 i + IZR (snd n) * recip H 2 i + q i)%R)
    (list_prod (list_prod (zrange (- grid H 0) (2 * grid H 0 + 1)) (zrange (- grid H 1) (2 * grid H 1 + 1))) (zrange (- grid H 2) (2 * grid H 2 + 1))).
Definition polarPart1 (H : phonon) (q : vec) (ev3 : cmat) (b3 : Z) : cplx :=
  csum (map (fun g => let qEq := quad (eps H) g in
    if Rlt_dec 0 qEq then if Rlt_dec (qEq / 4) 14 then
      csumTo (nAt H) (fun a => csumTo 3 (fun p => cmul (cscale (gZ H g p a)
        (cmul (cscale (exp (- qEq / 4) / qEq) (cscale (cppE2 * cppFourPi / vol H) cI)) (cexpi (- dot3 g (toR (tau H a)))))) (ev3 (3 * a + p) b3)))
    else c0 else c0) (gPolar H q)).
