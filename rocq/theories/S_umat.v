(** Specification for C148: the files Wannier90 writes *)
From Coq Require Import Reals QArith Qreals.
From Verif Require Import Base M_points M_complex M_umat.
Open Scope Z_scope.
(** a wavevector and its matrix *)
Definition rotation : Type := v3 * (Z -> Z -> Q * Q).
Definition cplxOf (z : Q * Q) : cplx := (Q2R (fst z), Q2R (snd z)).
(** the block of one wavevector: a blank line, the wavevector, then one line for every entry, the columns one after the other *)
Definition entryLines (nr nc : Z) (U : Z -> Z -> Q * Q) : stream := concat (map (fun j => map (fun i => [fst (U i j); snd (U i j)]) (zrange 0 nr)) (zrange 0 nc)).
Definition blockLines (nr nc : Z) (b : rotation) : stream := [] :: [M_points.c0 (fst b); M_points.c1 (fst b); M_points.c2 (fst b)] :: entryLines nr nc (snd b).
Definition matFile (title : list Q) (n x y nr nc : Z) (bs : list rotation) : stream :=
  title :: [inject_Z n; inject_Z x; inject_Z y] :: concat (map (blockLines nr nc) bs).
(** _u.mat and _u_dis.mat *)
Definition uMat (title : list Q) (nW : Z) (bs : list rotation) : stream := matFile title (zlen bs) nW nW nW nW bs.
Definition disMat (title : list Q) (nB nW : Z) (bs : list rotation) : stream := matFile title (zlen bs) nW nB nB nW bs.
