(** Property C154 (operations on distributed matrices). *)
From Coq Require Import QArith Qcanon.
From Verif Require Import Base BaseLemmas M_matrix S_matrix L_matrix M_pmatrix S_pmatrix L_pmatrix.
Open Scope Z_scope.

(** C154: sums, differences, multiples, quotients and negatives of distributed matrices act element by element, for every layout *)
Theorem C154_elementwise (T : Type) (f : T -> T -> T) (g : T -> T) L F G :
  pzip f (spread L F) (spread L G) = Ok (spread L (fun r c => f (F r c) (G r c))) /\
  pmap g (spread L F) = spread L (fun r c => g (F r c)).
Proof.
  split; [apply pzip_spread|]. unfold pmap, spread, distributed. cbn [pL pBufs]. f_equal. rewrite map_map. apply map_ext. intros p. rewrite map_map. reflexivity.
Qed.
(** matrices of different sizes are refused *)
Theorem C154_sizes (T : Type) (f : T -> T -> T) A B : (lRows (pL A), lCols (pL A)) <> (lRows (pL B), lCols (pL B)) -> pzip f A B = Err.
Proof.
  intros H. unfold pzip. destruct (lRows (pL A) =? lRows (pL B)) eqn:E1; [|reflexivity]. destruct (lCols (pL A) =? lCols (pL B)) eqn:E2; [|reflexivity].
  exfalso. apply H. apply Z.eqb_eq in E1, E2. congruence.
Qed.
(** finding (PMatrix.h:646-667): only the sizes are compared. Two 4 x 4 matrices on 4 processes, one in blocks of 2 x 2 and one in blocks of
    1 x 1, are added without complaint, and element (0, 1) of A - A' is -1 for equal matrices A and A' *)
Theorem C154_layouts_refuted : exists L1 L2 D, mkLayout 4 4 4 0 0 0 0 = Ok L1 /\ mkLayout 4 4 4 0 0 4 4 = Ok L2 /\
  let F := fun r c : Z => r * 4 + c in
  pzip Z.sub (spread L1 F) (spread L2 F) = Ok D /\ pelem 0 D 0 1 = Ok (-1).
Proof. do 3 eexists. split; [reflexivity|]. split; [reflexivity|]. cbv zeta. split; vm_compute; reflexivity. Qed.

Section Product.
Context (T : Type) (zero : T) (add mul : T -> T -> T) (conj : T -> T).

(** C154: the product of two square matrices, with any combination of transpositions and conjugations, whatever the three layouts *)
Theorem C154_product n t1 t2 LA LB LC FA FB : validLayout LA -> validLayout LB -> validLayout LC ->
  lRows LA = n -> lCols LA = n -> lRows LB = n -> lCols LB = n -> lRows LC = n -> lCols LC = n ->
  prodReal zero add mul conj (spread LA FA) (spread LB FB) t1 t2 =
    Ok (spread LB (productOf zero add mul n (opOf conj t1 FA) (opOf conj t2 FB))) /\
  prodComplex zero add mul conj LC (spread LA FA) (spread LB FB) t1 t2 =
    Ok (spread LC (productOf zero add mul n (opOf conj t1 FA) (opOf conj t2 FB))).
Proof.
  intros VA VB VC A1 A2 B1 B2 C1 C2.
  assert (Full : forall L FC, validLayout L -> lRows L = n -> lCols L = n ->
    prodInto zero add mul conj (spread L FC) (spread LA FA) (spread LB FB) t1 t2 = Ok (spread L (productOf zero add mul n (opOf conj t1 FA) (opOf conj t2 FB)))).
  { intros L FC VL L1 L2. unfold prodInto. cbn [spread pL]. rewrite A1, A2, B1, B2. rewrite Z.eqb_refl. cbn [negb].
    replace (negb ((match t1 with TransN => n | _ => n end) =? (match t2 with TransN => n | _ => n end))) with false by (destruct t1, t2; lia).
    replace (match t1 with TransN => n | _ => n end) with n by (destruct t1; reflexivity).
    replace (match t2 with TransN => n | _ => n end) with n by (destruct t2; reflexivity).
    change {| pL := LA; pBufs := distributed LA FA |} with (spread LA FA).
    change {| pL := LB; pBufs := distributed LB FB |} with (spread LB FB).
    change {| pL := L; pBufs := distributed L FC |} with (spread L FC).
    rewrite pgemm_spread; try assumption; try (destruct t1; lia); try (destruct t2; lia); try lia.
    f_equal. unfold spread. f_equal. unfold distributed. apply map_ext_in. intros p Hp. apply map_ext_in. intros [r c] Ht. cbn [fst snd].
    assert (Hp' : isProcess L p) by (apply in_grid; exact Hp). apply (states_In L VL p Hp') in Ht as [[Ir Ic] _].
    rewrite L1 in Ir. rewrite L2 in Ic. replace ((r <? n) && (c <? n)) with true by lia. reflexivity. }
  split.
  - unfold prodReal. rewrite pzeros_spread. apply Full; assumption.
  - unfold prodComplex. rewrite (pfill_spread LC _ (fun _ _ => zero)) by (try exact VC; reflexivity). cbn [bind]. apply Full; assumption.
Qed.

(** C154: what the real product of an m x k and a k x n matrix is. It is right exactly when m = k; for m < k it has k rows, the last ones zero,
    and for m > k the program stops. *)
Theorem C154_rectangular_partial m k n LA LB FA FB : validLayout LA -> validLayout LB ->
  lRows LA = m -> lCols LA = k -> lRows LB = k -> lCols LB = n ->
  (m <= k -> prodReal zero add mul conj (spread LA FA) (spread LB FB) TransN TransN =
     Ok (spread LB (fun r c => if r <? m then productOf zero add mul k FA FB r c else zero))) /\
  (k < m -> prodReal zero add mul conj (spread LA FA) (spread LB FB) TransN TransN = Err).
Proof.
  intros VA VB A1 A2 B1 B2. unfold prodReal. rewrite pzeros_spread. unfold prodInto. cbn [spread pL]. rewrite A1, A2, B1, B2, Z.eqb_refl. cbn [negb].
  change {| pL := LA; pBufs := distributed LA FA |} with (spread LA FA).
  change {| pL := LB; pBufs := distributed LB FB |} with (spread LB FB).
  split; intros H.
  - rewrite pgemm_spread; try assumption; try lia. f_equal. unfold spread. f_equal. unfold distributed. apply map_ext_in. intros p Hp. apply map_ext_in. intros [r c] Ht. cbn [fst snd].
    assert (Hp' : isProcess LB p) by (apply in_grid; exact Hp). apply (states_In LB VB p Hp') in Ht as [[Ir Ic] _].
    rewrite B2 in Ic. replace (c <? n) with true by lia. rewrite andb_true_r. reflexivity.
  - unfold pgemm. cbn [spread pL]. replace ((m <=? lRows LB) && (n <=? lCols LB)) with false by lia. rewrite andb_false_r. reflexivity.
Qed.
End Product.

(** finding (PMatrix.cpp:18-19, 57-58): the result of prod has the size of the second operand (real) or of the first one (complex), not the
    rows of the first and the columns of the second: the row (1 2) times the column (3 4) is a 2 x 1 matrix (real) or a 1 x 2 matrix (complex) instead of
    the number 11, and the column times the row stops the program *)
Theorem C154_product_shape_refuted : exists Lr Lc P Q, mkLayout 1 1 2 0 0 0 0 = Ok Lr /\ mkLayout 1 2 1 0 0 0 0 = Ok Lc /\
  let A := spread Lr (fun _ c : Z => c + 1) in let B := spread Lc (fun r _ : Z => r + 3) in
  prodReal 0 Z.add Z.mul (fun x => x) A B TransN TransN = Ok P /\ lRows (pL P) = 2 /\ pBufs P = [[11; 0]] /\
  prodComplex 0 Z.add Z.mul (fun x => x) Lr A B TransN TransN = Ok Q /\ lCols (pL Q) = 2 /\ pBufs Q = [[11; 0]] /\
  prodReal 0 Z.add Z.mul (fun x => x) B A TransN TransN = Err.
Proof. do 4 eexists. split; [reflexivity|]. split; [reflexivity|]. cbv zeta. repeat split; vm_compute; reflexivity. Qed.

(** C154: symmetrisation of a distributed matrix *)
Theorem C154_symmetrize L F : validLayout L -> lRows L = lCols L ->
  psymmetrize (spread L F) = Ok (spread L (fun r c => (F r c + F c r) / Q2Qc 2)%Qc) /\
  forall r c, ((F r c + F c r) / Q2Qc 2 = (F c r + F r c) / Q2Qc 2)%Qc.
Proof.
  intros V E. split; [|intros r c; f_equal; ring]. unfold psymmetrize. cbn [spread pL]. rewrite E, Z.eqb_refl. cbn [negb].
  apply pfill_spread; [exact V|]. intros r c I. change {| pL := L; pBufs := distributed L F |} with (spread L F).
  rewrite pelem_spread by assumption. cbn [bind]. rewrite pelem_spread by (try exact V; destruct I; split; lia). cbn [bind]. f_equal.
  unfold half, Qcdiv. replace (/ Q2Qc 2)%Qc with (Q2Qc (1 # 2)) by (apply Qc_is_canon; reflexivity). ring.
Qed.
Theorem C154_nonsquare_stops A : lRows (pL A) <> lCols (pL A) -> psymmetrize A = Err.
Proof. intros H. unfold psymmetrize. destruct (lRows (pL A) =? lCols (pL A)) eqn:E; [lia|reflexivity]. Qed.

(** a 3 x 3 matrix on 4 processes: A + A, A A^T and (A + A^T) / 2 *)
Example C154_ex : exists L, mkLayout 4 3 3 0 0 0 0 = Ok L /\ validLayout L /\ lRows L = 3 /\ lCols L = 3 /\
  let F := fun r c : Z => r * 3 + c in
  pBufs (spread L F) = [[0; 3; 1; 4]; [2; 5]; [6; 7]; [8]] /\
  (exists S, pzip Z.add (spread L F) (spread L F) = Ok S /\ pBufs S = [[0; 6; 2; 8]; [4; 10]; [12; 14]; [16]]) /\
  (exists P, prodReal 0 Z.add Z.mul (fun x => x) (spread L F) (spread L F) TransN TransT = Ok P /\ pBufs P = [[5; 14; 14; 50]; [23; 86]; [23; 86]; [149]]).
Proof.
  eexists. split; [reflexivity|]. unfold validLayout. cbn [lRows lCols bsRows bsCols npRows npCols].
  split; [repeat split; (lia || reflexivity)|]. split; [reflexivity|]. split; [reflexivity|]. cbv zeta. split; [vm_compute; reflexivity|].
  split; eexists; split; vm_compute; reflexivity.
Qed.

Print Assumptions C154_elementwise.
Print Assumptions C154_sizes.
Print Assumptions C154_layouts_refuted.
Print Assumptions C154_product.
Print Assumptions C154_rectangular_partial.
Print Assumptions C154_product_shape_refuted.
Print Assumptions C154_symmetrize.
Print Assumptions C154_nonsquare_stops.
