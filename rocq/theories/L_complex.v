(** Complex numbers: ring structure, conjugation, sums and phases. *)
From Coq Require Import Reals.
From Verif Require Import Base BaseLemmas M_complex.
From Coq Require Import Permutation Lia Lra.
Local Open Scope R_scope.

Lemma cplx_eq (a b : cplx) : fst a = fst b -> snd a = snd b -> a = b.
Proof. destruct a, b; cbn; intros -> ->; reflexivity. Qed.
Ltac cring := apply cplx_eq; cbn; ring.

Lemma cplx_ring : ring_theory c0 c1 cadd cmul csub copp eq.
Proof. constructor; intros; cring. Qed.
Add Ring cplxRing : cplx_ring.

Lemma conj_add a b : cconj (cadd a b) = cadd (cconj a) (cconj b). Proof. cring. Qed.
Lemma conj_mul a b : cconj (cmul a b) = cmul (cconj a) (cconj b). Proof. cring. Qed.
Lemma conj_sub a b : cconj (csub a b) = csub (cconj a) (cconj b). Proof. cring. Qed.
Lemma conj_conj a : cconj (cconj a) = a. Proof. cring. Qed.
Lemma conj_scale r a : cconj (cscale r a) = cscale r (cconj a). Proof. cring. Qed.
Lemma conj_0 : cconj c0 = c0. Proof. cring. Qed.
Lemma conj_expi x : cconj (cexpi x) = cexpi (- x).
Proof. apply cplx_eq; cbn; [now rewrite cos_neg|now rewrite sin_neg]. Qed.
Lemma expi_add x y : cexpi (x + y) = cmul (cexpi x) (cexpi y).
Proof. apply cplx_eq; cbn; [rewrite cos_plus|rewrite sin_plus]; ring. Qed.
Lemma expi_0 : cexpi 0 = c1.
Proof. apply cplx_eq; cbn; [apply cos_0|apply sin_0]. Qed.
Lemma cos_int (n : Z) : cos (2 * PI * IZR n) = 1.
Proof.
  destruct (Z_le_dec 0 n) as [h|h].
  - replace (2 * PI * IZR n) with (0 + 2 * INR (Z.to_nat n) * PI).
    + rewrite cos_period. apply cos_0.
    + rewrite INR_IZR_INZ, Z2Nat.id by lia. ring.
  - replace (2 * PI * IZR n) with (- (0 + 2 * INR (Z.to_nat (- n)) * PI)).
    + rewrite cos_neg, cos_period. apply cos_0.
    + rewrite INR_IZR_INZ, Z2Nat.id by lia. rewrite opp_IZR. ring.
Qed.
Lemma sin_int (n : Z) : sin (2 * PI * IZR n) = 0.
Proof.
  destruct (Z_le_dec 0 n) as [h|h].
  - replace (2 * PI * IZR n) with (0 + 2 * INR (Z.to_nat n) * PI).
    + rewrite sin_period. apply sin_0.
    + rewrite INR_IZR_INZ, Z2Nat.id by lia. ring.
  - replace (2 * PI * IZR n) with (- (0 + 2 * INR (Z.to_nat (- n)) * PI)).
    + rewrite sin_neg, sin_period, sin_0. ring.
    + rewrite INR_IZR_INZ, Z2Nat.id by lia. rewrite opp_IZR. ring.
Qed.
Lemma expi_period x (n : Z) : cexpi (x + 2 * PI * IZR n) = cexpi x.
Proof.
  rewrite expi_add. apply cplx_eq; cbn; rewrite cos_int, sin_int; ring.
Qed.
Lemma scale_mul_l r a b : cscale r (cmul a b) = cmul (cscale r a) b. Proof. cring. Qed.
Lemma scale_mul_r r a b : cscale r (cmul a b) = cmul a (cscale r b). Proof. cring. Qed.
Lemma scale_add r a b : cscale r (cadd a b) = cadd (cscale r a) (cscale r b). Proof. cring. Qed.
Lemma scale_scale r s a : cscale r (cscale s a) = cscale (r * s) a. Proof. cring. Qed.
Lemma scale_0 r : cscale r c0 = c0. Proof. cring. Qed.
Lemma scale_1 a : cscale 1 a = a. Proof. cring. Qed.
Lemma norm2_mul a b : cnorm2 (cmul a b) = cnorm2 a * cnorm2 b.
Proof. unfold cnorm2; cbn; ring. Qed.
Lemma norm2_conj a : cnorm2 (cconj a) = cnorm2 a.
Proof. unfold cnorm2; cbn; ring. Qed.
Lemma norm2_expi x : cnorm2 (cexpi x) = 1.
Proof. unfold cnorm2; cbn. pose proof (sin2_cos2 x) as h. unfold Rsqr in h. lra. Qed.
Lemma norm2_nonneg a : 0 <= cnorm2 a.
Proof. unfold cnorm2. pose proof (Rle_0_sqr (fst a)). pose proof (Rle_0_sqr (snd a)). unfold Rsqr in *. lra. Qed.
Lemma conj_mul_self a : cmul (cconj a) a = (cnorm2 a, 0).
Proof. unfold cnorm2. cring. Qed.

(** sums *)
Lemma csum_nil : csum [] = c0. Proof. reflexivity. Qed.
Lemma csum_cons a l : csum (a :: l) = cadd a (csum l). Proof. reflexivity. Qed.
Lemma csum_app l m : csum (l ++ m) = cadd (csum l) (csum m).
Proof. induction l as [|a l IH]; cbn [app]; [rewrite csum_nil; ring|rewrite !csum_cons, IH; ring]. Qed.
Lemma csum_perm l m : Permutation l m -> csum l = csum m.
Proof. induction 1; rewrite ?csum_cons; try congruence; ring. Qed.
Lemma csum_map_ext {A} (f g : A -> cplx) l : (forall x, In x l -> f x = g x) -> csum (map f l) = csum (map g l).
Proof. intros h. f_equal. apply map_ext_in, h. Qed.
Lemma csum_map_add {A} (f g : A -> cplx) l : csum (map (fun x => cadd (f x) (g x)) l) = cadd (csum (map f l)) (csum (map g l)).
Proof. induction l as [|a l IH]; cbn [map]; rewrite ?csum_nil, ?csum_cons, ?IH; ring. Qed.
Lemma csum_map_scale {A} r (f : A -> cplx) l : csum (map (fun x => cscale r (f x)) l) = cscale r (csum (map f l)).
Proof. induction l as [|a l IH]; cbn [map]; rewrite ?csum_nil, ?csum_cons, ?IH, ?scale_0, ?scale_add; reflexivity. Qed.
Lemma csum_map_mul_l {A} c (f : A -> cplx) l : csum (map (fun x => cmul c (f x)) l) = cmul c (csum (map f l)).
Proof. induction l as [|a l IH]; cbn [map]; rewrite ?csum_nil, ?csum_cons, ?IH; ring. Qed.
Lemma csum_map_mul_r {A} c (f : A -> cplx) l : csum (map (fun x => cmul (f x) c) l) = cmul (csum (map f l)) c.
Proof. induction l as [|a l IH]; cbn [map]; rewrite ?csum_nil, ?csum_cons, ?IH; ring. Qed.
Lemma csum_conj {A} (f : A -> cplx) l : cconj (csum (map f l)) = csum (map (fun x => cconj (f x)) l).
Proof. induction l as [|a l IH]; cbn [map]; rewrite ?csum_nil, ?csum_cons, ?conj_0, ?conj_add, ?IH; reflexivity. Qed.
Lemma csum_zero {A} (f : A -> cplx) l : (forall x, In x l -> f x = c0) -> csum (map f l) = c0.
Proof.
  induction l as [|a l IH]; intros h; cbn [map]; [reflexivity|].
  rewrite csum_cons, h by (now left). rewrite IH by (intros; apply h; now right). ring.
Qed.
Lemma csum_swap {A B} (f : A -> B -> cplx) l m :
  csum (map (fun x => csum (map (f x) m)) l) = csum (map (fun y => csum (map (fun x => f x y) l)) m).
Proof.
  induction l as [|a l IH]; cbn [map].
  - symmetry. apply csum_zero. reflexivity.
  - rewrite csum_cons, IH, <- csum_map_add. apply csum_map_ext. intros y _. now rewrite csum_cons.
Qed.
Lemma csum_flat_map {A B} (g : A -> list B) (f : B -> cplx) l :
  csum (map f (flat_map g l)) = csum (map (fun x => csum (map f (g x))) l).
Proof. induction l as [|a l IH]; cbn [flat_map map]; [reflexivity|]. now rewrite map_app, csum_app, IH, csum_cons. Qed.
Lemma csum_list_prod {A B} (f : A * B -> cplx) l m :
  csum (map f (list_prod l m)) = csum (map (fun x => csum (map (fun y => f (x, y)) m)) l).
Proof.
  induction l as [|a l IH]; cbn [list_prod map]; [reflexivity|].
  rewrite map_app, csum_app, IH, csum_cons. now rewrite map_map.
Qed.
Lemma csum_filter {A} (p : A -> bool) (f : A -> cplx) l :
  csum (map f (filter p l)) = csum (map (fun x => if p x then f x else c0) l).
Proof.
  induction l as [|a l IH]; cbn [filter map]; [reflexivity|].
  destruct (p a); cbn [map]; rewrite ?csum_cons, IH; ring.
Qed.
Lemma csum_snd_zero {A} (f : A -> cplx) l : (forall x, In x l -> snd (f x) = 0) -> snd (csum (map f l)) = 0.
Proof.
  induction l as [|a l IH]; intros h; cbn [map]; [reflexivity|]. rewrite csum_cons. cbn.
  rewrite h by (now left). rewrite IH; [ring|]. intros; apply h; now right.
Qed.
(** one term of a sum *)
Lemma csum_single {A} (eqb : A -> A -> bool) (f : A -> cplx) l a :
  (forall x y, eqb x y = true <-> x = y) -> NoDup l -> In a l ->
  csum (map (fun x => if eqb x a then f x else c0) l) = f a.
Proof.
  intros he hn hi. induction l as [|x l IH]; [easy|]. cbn [map]. rewrite csum_cons. inversion hn; subst.
  destruct hi as [->|hi].
  - replace (eqb a a) with true by (symmetry; now apply he).
    rewrite csum_zero; [ring|]. intros y hy. destruct (eqb y a) eqn:E; [|reflexivity].
    apply he in E; subst. easy.
  - destruct (eqb x a) eqn:E; [apply he in E; subst; easy|]. rewrite IH by easy. ring.
Qed.

Lemma csumTo_ext n f g : (forall i, (0 <= i < n)%Z -> f i = g i) -> csumTo n f = csumTo n g.
Proof. intros h. unfold csumTo. apply csum_map_ext. intros x hx. apply in_zrange in hx. apply h. lia. Qed.
Lemma csumTo_conj n f : cconj (csumTo n f) = csumTo n (fun i => cconj (f i)).
Proof. apply csum_conj. Qed.
Lemma csumTo_swap n m f : csumTo n (fun i => csumTo m (f i)) = csumTo m (fun j => csumTo n (fun i => f i j)).
Proof. apply csum_swap. Qed.
Lemma csumTo_mul_l n c f : csumTo n (fun i => cmul c (f i)) = cmul c (csumTo n f).
Proof. apply csum_map_mul_l. Qed.
Lemma csumTo_mul_r n c f : csumTo n (fun i => cmul (f i) c) = cmul (csumTo n f) c.
Proof. apply csum_map_mul_r. Qed.
Lemma csumTo_add n f g : csumTo n (fun i => cadd (f i) (g i)) = cadd (csumTo n f) (csumTo n g).
Proof. apply csum_map_add. Qed.
Lemma csumTo_scale n r f : csumTo n (fun i => cscale r (f i)) = cscale r (csumTo n f).
Proof. apply csum_map_scale. Qed.
Lemma csumTo_zero n f : (forall i, (0 <= i < n)%Z -> f i = c0) -> csumTo n f = c0.
Proof. intros h. apply csum_zero. intros x hx. apply in_zrange in hx. apply h. lia. Qed.
Lemma csumTo_single n f a : (0 <= a < n)%Z -> csumTo n (fun i => if (i =? a)%Z then f i else c0) = f a.
Proof.
  intros h. apply (csum_single Z.eqb); [apply Z.eqb_eq|apply NoDup_zrange|]. apply in_zrange. lia.
Qed.
Lemma NoDup_map_in {A B} (f : A -> B) l :
  NoDup l -> (forall x y, In x l -> In y l -> f x = f y -> x = y) -> NoDup (map f l).
Proof.
  induction l as [|a l IH]; intros hn h; cbn [map]; constructor; inversion hn; subst.
  - intros hi. apply in_map_iff in hi as (y & e & hy). apply h in e; [subst; easy|now right|now left].
  - apply IH; [easy|]. intros x y hx hy. apply h; now right.
Qed.
(** any order of the terms *)
Lemma csumTo_reindex n f (s : Z -> Z) :
  (forall i, (0 <= i < n)%Z -> (0 <= s i < n)%Z) -> (forall i, (0 <= i < n)%Z -> s (s i) = i) ->
  csumTo n (fun i => f (s i)) = csumTo n f.
Proof.
  intros hr hs. unfold csumTo. rewrite <- map_map with (f := s) (g := f). apply csum_perm, Permutation_map.
  apply NoDup_Permutation_bis.
  - apply NoDup_map_in; [apply NoDup_zrange|].
    intros x y hx hy h. apply in_zrange in hx, hy. rewrite <- (hs x), <- (hs y) by lia. now rewrite h.
  - rewrite map_length. lia.
  - intros x hx. apply in_map_iff in hx as (y & <- & hy). apply in_zrange in hy. apply in_zrange.
    specialize (hr y). lia.
Qed.
Lemma csumTo_fst n f : fst (csumTo n f) = fold_right Rplus 0 (map (fun i => fst (f i)) (zrange 0 n)).
Proof. unfold csumTo. induction (zrange 0 n) as [|a l IH]; cbn; [reflexivity|]. now rewrite <- IH. Qed.

(** matrices *)
Lemma matMul_assoc n A B D i j : matMul n (matMul n A B) D i j = matMul n A (matMul n B D) i j.
Proof.
  unfold matMul.
  transitivity (csumTo n (fun l => csumTo n (fun k => cmul (cmul (A i k) (B k l)) (D l j)))).
  - apply csumTo_ext. intros l _. now rewrite <- csumTo_mul_r.
  - rewrite csumTo_swap. apply csumTo_ext. intros k _. rewrite <- csumTo_mul_l. apply csumTo_ext. intros l _. ring.
Qed.
Lemma adjoint_mul n A B i j : adjoint (matMul n A B) i j = matMul n (adjoint B) (adjoint A) i j.
Proof. unfold adjoint, matMul. rewrite csumTo_conj. apply csumTo_ext. intros l _. rewrite conj_mul. ring. Qed.
Lemma matMul_ext n A A' B B' i j :
  (forall l, (0 <= l < n)%Z -> A i l = A' i l) -> (forall l, (0 <= l < n)%Z -> B l j = B' l j) ->
  matMul n A B i j = matMul n A' B' i j.
Proof. intros h1 h2. unfold matMul. apply csumTo_ext. intros l hl. now rewrite h1, h2. Qed.
