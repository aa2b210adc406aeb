(** Model of the accounts of the memory of the device: DeviceManager of src/common_kokkos.cpp and the objects that report to it
    (harmonic/phonon_h0.cpp, harmonic/phonon_h0_kokkos.cpp, harmonic/electron_h0_wannier.cpp, interaction/interaction_3ph.cpp,
    interaction/interaction_elph.cpp).
    Simplified: the amounts are whole numbers of bytes, exact in the code's doubles below 2^53; a Kokkos::View is the name of an
    allocation, its number of elements and the bytes per element; the contents are left out; realloc always makes a new allocation. *)
From Verif Require Import Base.

(** A handle on an allocation; the default-constructed view (no allocation) has name -1 and no elements *)
Record view := { vId : Z; vElems : Z; vBytes : Z }.
Definition noView : view := {| vId := -1; vElems := 0; vBytes := 8 |}.
Inductive kind := KPhonon | KWannier | KThree | KElPh.
Definition kindEq (a b : kind) : bool :=
  match a, b with KPhonon, KPhonon | KWannier, KWannier | KThree, KThree | KElPh, KElPh => true | _, _ => false end.
(** An object with its views, in this order:
    phonon_h0.h:199-207 longRangeCorrection1, atomicMasses, gVectors, dielectricMatrix, bornCharges, atomicPositions, bravaisVectors, weights, mat2R;
    electron_h0_wannier.h:228-232 h0R, degeneracyShifts, vectorsShifts, vectorsDegeneracies, bravaisVectors;
    interaction_3ph.h:52-55 D3, D3PlusCached, D3MinsCached, cellPositions2, cellPositions3, weights2, weights3;
    interaction_elph.h:52-57 elPhCached, couplingWannier, phBravaisVectorsDegeneracies, phBravaisVectors, elBravaisVectors, elBravaisVectorsDegeneracies *)
Record object := { oKind : kind; oViews : list view }.
Definition elems (o : object) (k : nat) : Z := vElems (nth k (oViews o) noView).

(** phonon_h0_kokkos.cpp:221-228 getDeviceMemoryUsage *)
Definition usagePhonon (o : object) : Z :=
  16 * elems o 0 + 8 * (elems o 1 + elems o 2 + elems o 3 + elems o 4 + elems o 5 + elems o 6 + elems o 7 + elems o 8).
(** electron_h0_wannier.cpp:1001-1006 *)
Definition usageWannier (o : object) : Z := 16 * elems o 0 + 8 * (elems o 1 + elems o 2 + elems o 3 + elems o 4).
(** interaction_3ph.cpp:442-448: cellPositions2 twice, cellPositions3 never *)
Definition usageThree (o : object) : Z :=
  16 * (elems o 0 + elems o 1 + elems o 2) + 8 * (elems o 3 + elems o 3 + elems o 5 + elems o 6).
(** interaction_elph.cpp:703-707 *)
Definition usageElPh (o : object) : Z := 16 * (elems o 0 + elems o 1) + 8 * (elems o 2 + elems o 3 + elems o 4 + elems o 5).
Definition usage (o : object) : Z :=
  match oKind o with KPhonon => usagePhonon o | KWannier => usageWannier o | KThree => usageThree o | KElPh => usageElPh o end.

(** Numbers of elements and bytes per element of the views that the constructors allocate *)
Inductive shape :=
| SPhonon (numAtoms numVectors numG : Z) (hasDielectric : bool)
| SWannier (numWannier numVectors : Z)
| SThree (numAtoms nr2 nr3 : Z)
| SElPh (numEl numPh rEl rPh : Z).
Definition shapeKind (s : shape) : kind :=
  match s with SPhonon _ _ _ _ => KPhonon | SWannier _ _ => KWannier | SThree _ _ _ => KThree | SElPh _ _ _ _ => KElPh end.
(** phonon_h0.cpp:164-209, electron_h0_wannier.cpp:45-47, interaction_3ph.cpp:17-20, 49-51, interaction_elph.cpp:37-42 *)
Definition shapeViews (s : shape) : list (Z * Z) :=
  match s with
  | SPhonon na nr ng d =>
      let nb := 3 * na in
      let ifD n := if d then n else 0 in
      [(ifD (3 * 3 * na), 8); (nb, 8); (ifD (ng * 3), 8); (ifD (3 * 3), 8); (ifD (3 * 3 * na), 8); (ifD (na * 3), 8); (nr * 3, 8); (nr, 8);
       (nb * nb * nr, 8)]
  | SWannier nw nv => [(nw * nw * nv, 16); (0, 8); (0, 8); (nv, 8); (nv * 3, 8)]
  | SThree na nr2 nr3 =>
      let nb := 3 * na in
      [(nb * nb * nb * nr3 * nr2, 8); (nb * nb * nb * nr3, 16); (nb * nb * nb * nr3, 16); (nr2 * 3, 8); (nr3 * 3, 8);
       (nr2 * na * na, 8); (nr2 * na * na, 8)]
  | SElPh ne np rEl rPh => [(0, 16); (rEl * rPh * np * ne * ne, 16); (rPh, 8); (rPh * 3, 8); (rEl * 3, 8); (rEl, 8)]
  end.
(** sizes of arrays that were read before: at least one atom, band and lattice vector *)
Definition shapeOk (s : shape) : bool :=
  match s with
  | SPhonon na nr ng _ => (1 <=? na) && (1 <=? nr) && (0 <=? ng)
  | SWannier nw nv => (1 <=? nw) && (1 <=? nv)
  | SThree na nr2 nr3 => (1 <=? na) && (1 <=? nr2) && (1 <=? nr3)
  | SElPh ne np rEl rPh => (1 <=? ne) && (1 <=? np) && (1 <=? rEl) && (1 <=? rPh)
  end.

(** common_kokkos.cpp:102-131: the amounts of the manager. [objs]: the live objects by name; [next]: names not yet in use *)
Record device := { used : Z; total : Z; next : Z; objs : list (Z * object) }.
Definition device0 (total : Z) : device := {| used := 0; total := total; next := 0; objs := [] |}.
(** l.115-121 and 123-126; the warning of l.118-120 is left out *)
Definition addUsage (d : device) (bytes : Z) : device := {| used := used d + bytes; total := total d; next := next d; objs := objs d |}.
Definition removeUsage (d : device) (bytes : Z) : device := {| used := used d - bytes; total := total d; next := next d; objs := objs d |}.
(** l.128-130 *)
Definition getAvailableMemory (d : device) : Z := total d - used d.

Fixpoint lookup (i : Z) (l : list (Z * object)) : option object :=
  match l with [] => None | (j, o) :: r => if i =? j then Some o else lookup i r end.
Fixpoint replace (i : Z) (o : object) (l : list (Z * object)) : list (Z * object) :=
  match l with [] => [] | (j, p) :: r => if i =? j then (j, o) :: r else (j, p) :: replace i o r end.
Fixpoint remove (i : Z) (l : list (Z * object)) : list (Z * object) :=
  match l with [] => [] | (j, p) :: r => if i =? j then r else (j, p) :: remove i r end.
Definition setObjs (d : device) (n : Z) (l : list (Z * object)) : device := {| used := used d; total := total d; next := n; objs := l |}.

(** allocation of views with the names n, n+1, ... *)
Fixpoint mkViews (n : Z) (l : list (Z * Z)) : list view :=
  match l with [] => [] | (e, b) :: r => {| vId := n; vElems := e; vBytes := b |} :: mkViews (n + 1) r end.
(** the names in use by the couplings of the electron-phonon interactions *)
Definition couplingId (o : object) : list Z :=
  match oKind o with
  | KElPh => let i := vId (nth 1 (oViews o) noView) in if 0 <=? i then [i] else []
  | _ => []
  end.
(** Kokkos::View::use_count of the coupling of [o]; 0 when there is no allocation *)
Definition useCount (d : device) (o : object) : Z :=
  match couplingId o with
  | [] => 0
  | i :: _ => zlen (filter (fun j => j =? i) (flat_map (fun p => couplingId (snd p)) (objs d)))
  end.

(** What a program does with these objects; the name of a new object is [next] *)
Inductive op :=
| ONew (s : shape)              (* constructor *)
| ODummy                        (* InteractionElPhWan(crystal) *)
| OCopy (i : Z)                 (* copy constructor *)
| OAssign (i j : Z)             (* i = j *)
| ODestroy (i : Z)              (* destructor *)
| OShift (i : Z)                (* addShiftedVectors of ElectronH0Wannier *)
| OCache (i n : Z)              (* cacheElPh, n elements in the new tensor *)
| OParse (i : Z) (s : shape).   (* i = InteractionElPhWan::parse(...) *)

Definition newObject (d : device) (o : object) (n : Z) : device := setObjs d n (objs d ++ [(next d, o)]).
(** the constructors: phonon_h0.cpp:244-245, electron_h0_wannier.cpp:67-68, interaction_3ph.cpp:66-67, interaction_elph.cpp:59-60 *)
Definition construct (d : device) (s : shape) : res device :=
  if shapeOk s then
    let o := {| oKind := shapeKind s; oViews := mkViews (next d + 1) (shapeViews s) |} in
    Ok (addUsage (newObject d o (next d + 1 + zlen (shapeViews s))) (usage o))
  else Err.
(** interaction_elph.cpp:64 *)
Definition dummyElPh : object := {| oKind := KElPh; oViews := repeat noView 6 |}.
(** copy constructors: phonon_h0.cpp:252-273, electron_h0_wannier.cpp:73-92 (views shared, amount added), interaction_3ph.cpp:71-74 (no views),
    interaction_elph.cpp:67-79 (views shared, nothing added) *)
Definition copyConstruct (d : device) (i : Z) : res device :=
  match lookup i (objs d) with
  | None => UB
  | Some o =>
    match oKind o with
    | KPhonon | KWannier => Ok (addUsage (newObject d o (next d + 1)) (usage o))
    | KThree => Ok (newObject d {| oKind := KThree; oViews := repeat noView 7 |} (next d + 1))
    | KElPh => Ok (newObject d o (next d + 1))
    end
  end.
(** assignments: phonon_h0.cpp:276-309, electron_h0_wannier.cpp:95-117 (views replaced, amount added), interaction_3ph.cpp:77-86 (views kept),
    interaction_elph.cpp:82-100 (views replaced) *)
Definition assign (d : device) (i j : Z) : res device :=
  if i =? j then Ok d else
  match lookup i (objs d), lookup j (objs d) with
  | Some a, Some b =>
    if kindEq (oKind a) (oKind b) then
      match oKind b with
      | KPhonon | KWannier => Ok (addUsage (setObjs d (next d) (replace i b (objs d))) (usage b))
      | KThree => Ok d
      | KElPh => Ok (setObjs d (next d) (replace i b (objs d)))
      end
    else Err                     (* does not compile *)
  | _, _ => UB
  end.
(** destructors: phonon_h0.cpp:311-323, electron_h0_wannier.cpp:119-129, interaction_3ph.cpp:88-98, interaction_elph.cpp:102-108 *)
Definition destroy (d : device) (i : Z) : res device :=
  match lookup i (objs d) with
  | None => UB
  | Some o =>
    let d' := setObjs d (next d) (remove i (objs d)) in
    match oKind o with
    | KElPh => Ok (if useCount d o =? 1 then removeUsage d' (usage o) else d')
    | _ => Ok (removeUsage d' (usage o))
    end
  end.
(** electron_h0_wannier.cpp:594-622: the amount is removed, two views are allocated, the new amount is added *)
Definition addShiftedVectors (d : device) (i : Z) : res device :=
  match lookup i (objs d) with
  | Some o =>
    match oKind o, oViews o with
    | KWannier, [h; _; _; dg; br] =>
      let d1 := removeUsage d (usage o) in
      let n := vElems h in
      let o' := {| oKind := KWannier; oViews := [h; {| vId := next d; vElems := n; vBytes := 8 |};
                                                 {| vId := next d + 1; vElems := 3 * 8 * n; vBytes := 8 |}; dg; br] |} in
      Ok (addUsage (setObjs d1 (next d + 2) (replace i o' (objs d))) (usage o'))
    | _, _ => Err
    end
  | None => UB
  end.
(** interaction_elph.cpp:509-510, 633, 697-699; called on an interaction that holds a coupling *)
Definition cacheElPh (d : device) (i n : Z) : res device :=
  match lookup i (objs d) with
  | Some o =>
    match oKind o, couplingId o, oViews o with
    | KElPh, _ :: _, _ :: vs =>
      if 0 <=? n then
        let d1 := removeUsage d (usage o) in
        let o' := {| oKind := KElPh; oViews := {| vId := next d; vElems := n; vBytes := 16 |} :: vs |} in
        Ok (addUsage (setObjs d1 (next d + 1) (replace i o' (objs d))) (usage o'))
      else Err
    | _, _, _ => Err
    end
  | None => UB
  end.
(** apps/electron_wannier_transport_app.cpp:29-32: an interaction without coupling is assigned the result of parse, a temporary *)
Definition parseInto (d : device) (i : Z) (s : shape) : res device :=
  match lookup i (objs d) with
  | Some o =>
    match oKind o, couplingId o, shapeKind s with
    | KElPh, [], KElPh => let t := next d in do d1 <- construct d s ; do d2 <- assign d1 i t ; destroy d2 t
    | _, _, _ => Err
    end
  | None => UB
  end.

Definition step (d : device) (o : op) : res device :=
  match o with
  | ONew s => construct d s
  | ODummy => Ok (newObject d dummyElPh (next d + 1))
  | OCopy i => copyConstruct d i
  | OAssign i j => assign d i j
  | ODestroy i => destroy d i
  | OShift i => addShiftedVectors d i
  | OCache i n => cacheElPh d i n
  | OParse i s => parseInto d i s
  end.
Definition run (ops : list op) (d : device) : res device := foldM step ops d.
