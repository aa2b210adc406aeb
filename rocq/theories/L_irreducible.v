From Coq Require Import QArith Lqa Permutation.
From Verif Require Import Base BaseLemmas M_utilities M_mpi S_mpi L_mpi M_points S_points L_points L_search L_points2 M_irreducible S_irreducible.
Open Scope Z_scope.

Lemma insertSet_In x l y : In y (insertSet x l) <-> y = x \/ In y l.
Proof.
  induction l as [|a l IH]; cbn [insertSet].
  - split; [intros [->|[]]; auto|intros [->|[]]; left; reflexivity].
  - destruct (Z.ltb_spec x a); [cbn; intuition congruence|].
    destruct (Z.eqb_spec x a) as [->|]; [cbn; intuition congruence|].
    cbn. rewrite IH. intuition congruence.
Qed.
Lemma increasing_cons x l : increasing (x :: l) <-> (forall y, In y l -> x < y) /\ increasing l.
Proof.
  revert x. induction l as [|a l IH]; intro x.
  - cbn. intuition.
  - split.
    + intros [H1 H2]. split; [|assumption]. apply IH in H2 as H3. destruct H3 as [H3 _].
      intros y [->|I]; [assumption|]. specialize (H3 y I). lia.
    + intros [H1 H2]. split; [apply H1; left; reflexivity|assumption].
Qed.
Lemma insertSet_increasing x l : increasing l -> increasing (insertSet x l).
Proof.
  induction l as [|a l IH]; intro H; cbn [insertSet]; [exact I|].
  destruct (Z.ltb_spec x a).
  - apply increasing_cons. split; [|assumption]. apply increasing_cons in H. intros y [->|I]; [assumption|].
    destruct H as [H _]. specialize (H y I). lia.
  - destruct (Z.eqb_spec x a); [assumption|]. apply increasing_cons in H. destruct H as [H1 H2].
    apply increasing_cons. split; [|auto]. intros y I. apply insertSet_In in I. destruct I as [->|I]; [lia|auto].
Qed.
Lemma increasing_NoDup l : increasing l -> NoDup l.
Proof.
  induction l as [|a l IH]; intro H; constructor; apply increasing_cons in H; destruct H as [H1 H2].
  - intro I. specialize (H1 a I). lia.
  - auto.
Qed.

Section Act.
Context {S : Type}.
Variable rot : S -> Z -> res Z.
Variable syms : list S.
Variable n : Z.
Hypothesis A : acts rot syms n.
Notation L := (linked rot syms).

Lemma acts_range s i : In s syms -> 0 <= i < n -> exists j, rot s i = Ok j /\ (j = -1 \/ 0 <= j < n).
Proof. apply A. Qed.
Lemma L_refl i : 0 <= i < n -> L i i.
Proof. apply A. Qed.
Lemma L_sym i j : 0 <= i < n -> 0 <= j < n -> L i j -> L j i.
Proof. apply A. Qed.
Lemma L_trans i j k : 0 <= i < n -> 0 <= j < n -> 0 <= k < n -> L i j -> L j k -> L i k.
Proof. apply A. Qed.

Lemma rep_unique i e e' : isRepresentative rot syms n i e -> isRepresentative rot syms n i e' -> e = e'.
Proof. intros (H1 & H2 & H3) (G1 & G2 & G3). specialize (H3 e' G1 G2). specialize (G3 e H1 H2). lia. Qed.

(** state after points 0..k-1 *)
Definition Inv (k : Z) (equiv : list Z) : Prop :=
  zlen equiv = n /\ forall i, 0 <= i < n -> exists e, zget equiv i = Some e /\
    ((e < k /\ isRepresentative rot syms n i e) \/ (e = i /\ forall j, 0 <= j < k -> ~ L j i)).

Lemma Inv_done k equiv i e : Inv k equiv -> 0 <= i < n -> i < k -> zget equiv i = Some e ->
  isRepresentative rot syms n i e.
Proof.
  intros (Hl & H) Hi Hk E. destruct (H i Hi) as (e' & E' & [[_ R]|[_ N]]).
  - rewrite E in E'. injection E' as <-. assumption.
  - exfalso. apply (N i); [lia|apply L_refl; assumption].
Qed.

Definition linkedBy (l : list S) (i j : Z) : Prop := exists s, In s l /\ rot s i = Ok j.

Lemma starFold k equiv : 0 <= k < n -> Inv k equiv -> zget equiv k = Some k ->
  forall l, incl l syms -> exists equiv' star,
    foldM (starStep rot k) l (equiv, []) = Ok (equiv', star) /\ zlen equiv' = n /\ increasing star /\
    (forall i, 0 <= i < n -> linkedBy l k i -> zget equiv' i = Some k) /\
    (forall i, 0 <= i < n -> ~ linkedBy l k i -> zget equiv' i = zget equiv i) /\
    (forall i, In i star <-> 0 <= i < n /\ linkedBy l k i).
Proof.
  intros Hk HI Ek.
  assert (NoLess : forall j, 0 <= j < k -> ~ L j k).
  { destruct HI as (_ & H). destruct (H k Hk) as (e & E & [[L1 _]|[_ N]]); [|assumption].
    rewrite Ek in E. injection E as <-. lia. }
  induction l as [|s l IH] using rev_ind; intro Hinc.
  - exists equiv, []. split; [reflexivity|]. split; [apply HI|]. split; [exact I|].
    split; [intros i _ (s & [] & _)|]. split; [reflexivity|].
    intro i. split; [intros []|]. intros [_ (s & [] & _)].
  - destruct IH as (eq' & st & E & Hl & Hinc' & H1 & H2 & H3).
    { intros x I. apply Hinc. apply in_or_app; left; assumption. }
    assert (Is : In s syms) by (apply Hinc; apply in_or_app; right; left; reflexivity).
    destruct (acts_range s k Is Hk) as (j & Ej & Hj).
    assert (X : forall i, linkedBy (l ++ [s]) k i <-> linkedBy l k i \/ i = j).
    { intro i. split.
      - intros (s' & I & E'). apply in_app_or in I. destruct I as [I|[<-|[]]]; [left; exists s'; split; assumption|].
        right. congruence.
      - intros [(s' & I & E')| ->]; [exists s'; split; [apply in_or_app; left; assumption|assumption]|].
        exists s. split; [apply in_or_app; right; left; reflexivity|assumption]. }
    rewrite foldM_app, E. cbn [bind foldM starStep]. rewrite Ej. cbn [bind].
    rewrite Z.geb_leb. destruct Hj as [->|Hj].
    + cbn [Z.leb]. exists eq', st. split; [reflexivity|]. split; [assumption|]. split; [assumption|].
      split; [|split].
      * intros i Hi LB. apply X in LB. destruct LB as [LB| ->]; [apply H1; assumption|lia].
      * intros i Hi NB. apply H2; [assumption|]. intro. apply NB, X. left; assumption.
      * intro i. rewrite H3. split.
        -- intros [Hi LB]. split; [assumption|]. apply X; left; assumption.
        -- intros [Hi LB]. split; [assumption|]. apply X in LB. destruct LB as [|]; [assumption|lia].
    + destruct (Z.leb_spec 0 j); [|lia].
      assert (Lkj : L k j) by (exists s; split; assumption).
      assert (Hkj : k <= j).
      { destruct (Z_lt_le_dec j k); [|assumption]. exfalso. apply (NoLess j); [lia|]. apply L_sym; assumption. }
      destruct (zget_inrange eq' j) as (e & Ee); [lia|]. rewrite Ee.
      destruct (Z.eqb_spec e j) as [->|Ne].
      * rewrite Z.geb_leb. destruct (Z.leb_spec k j); [|lia]. cbn [bind].
        exists (zupd eq' j k), (insertSet j st). split; [reflexivity|]. split; [rewrite zlen_zupd; assumption|].
        split; [apply insertSet_increasing; assumption|]. split; [|split].
        -- intros i Hi LB. destruct (Z.eq_dec i j) as [->|N]; [apply zget_zupd_eq; lia|].
           rewrite zget_zupd_ne by congruence. apply H1; [assumption|]. apply X in LB. destruct LB; [assumption|contradiction].
        -- intros i Hi NB. assert (i <> j) by (intros ->; apply NB, X; right; reflexivity).
           rewrite zget_zupd_ne by congruence. apply H2; [assumption|]. intro. apply NB, X. left; assumption.
        -- intro i. rewrite insertSet_In, H3. split.
           ++ intros [->|[Hi LB]]; [split; [assumption|apply X; right; reflexivity]|].
              split; [assumption|apply X; left; assumption].
           ++ intros [Hi LB]. apply X in LB. destruct LB as [LB| ->]; [right; split; assumption|left; reflexivity].
      * (* already assigned *)
        cbn [bind].
        assert (LBj : linkedBy l k j).
        { assert (Ej0 : zget equiv j = Some j).
          { destruct HI as (_ & H'). destruct (H' j Hj) as (e0 & E0 & [[L1 (R1 & R2 & R3)]|[-> _]]); [|assumption].
            exfalso. apply (NoLess e0); [lia|]. apply (L_trans e0 j k); [lia|lia|lia|assumption|]. apply L_sym; assumption. }
          destruct (in_dec Z.eq_dec j st) as [I|NI]; [apply H3; assumption|].
          exfalso. assert (~ linkedBy l k j) by (intro Q; apply NI, H3; split; assumption).
          rewrite (H2 j Hj H0), Ej0 in Ee. congruence. }
        exists eq', st. split; [reflexivity|]. split; [assumption|]. split; [assumption|]. split; [|split].
        -- intros i Hi LB. apply X in LB. destruct LB as [LB| ->]; apply H1; assumption.
        -- intros i Hi NB. apply H2; [assumption|]. intro. apply NB, X. left; assumption.
        -- intro i. rewrite H3. split; intros [Hi LB]; (split; [assumption|]).
           ++ apply X; left; assumption.
           ++ apply X in LB. destruct LB as [LB| ->]; assumption.
Qed.

Definition ownRep (equiv : list Z) (j : Z) : bool := match zget equiv j with Some e => e =? j | None => false end.
Definition goodStar (r : Z) (st : list Z) : Prop :=
  increasing st /\ forall i, In i st <-> 0 <= i < n /\ L r i.

Lemma filter_ext_in' {B} (f g : B -> bool) l : (forall x, In x l -> f x = g x) -> filter f l = filter g l.
Proof. intro H. apply filter_ext_in. assumption. Qed.

Lemma findStars_inv stars0 (k : nat) : Z.of_nat k <= n ->
  exists equiv stars, foldM (pointStep rot syms) (zrange 0 (Z.of_nat k)) (zrange 0 n, stars0) = Ok (equiv, stars0 ++ stars) /\
    Inv (Z.of_nat k) equiv /\ Forall2 goodStar (filter (ownRep equiv) (zrange 0 (Z.of_nat k))) stars.
Proof.
  induction k as [|k IH]; intro Hk.
  - exists (zrange 0 n), []. split; [cbn; rewrite app_nil_r; reflexivity|]. split; [|constructor].
    split; [apply zlen_zrange; lia|]. intros i Hi. exists i. split; [rewrite zget_zrange by lia; f_equal; lia|].
    right. split; [reflexivity|]. intros; lia.
  - destruct IH as (equiv & stars & E & HI & HF); [lia|].
    set (q := Z.of_nat k) in *. replace (Z.of_nat (Datatypes.S k)) with (q + 1) in * by lia.
    assert (Hq : 0 <= q < n) by lia.
    rewrite zrange_S by lia. rewrite foldM_app, E. cbn [bind foldM]. rewrite Z.add_0_l. unfold pointStep at 1.
    destruct (zget_inrange equiv q) as (e & Ee); [destruct HI; lia|]. rewrite Ee.
    destruct (Z.eqb_spec e q) as [->|Ne].
    + destruct (starFold q equiv Hq HI Ee syms (incl_refl _)) as (eq' & st & E' & Hl & Hinc & H1 & H2 & H3).
      rewrite E'. cbn [bind fst snd].
      assert (Rq : isRepresentative rot syms n q q).
      { split; [assumption|]. split; [apply L_refl; assumption|]. intros j Hj Lj.
        destruct (Z_lt_le_dec j q); [|lia]. exfalso. destruct HI as (_ & H).
        destruct (H q Hq) as (e & E0 & [[L1 _]|[_ N]]); [rewrite Ee in E0; injection E0 as <-; lia|]. apply (N j); [lia|assumption]. }
      exists eq', (stars ++ [st]). split; [rewrite app_assoc; reflexivity|].
      assert (HI' : Inv (q + 1) eq').
      { split; [assumption|]. intros i Hi.
        destruct (zget_inrange eq' i) as (e' & Ee'); [lia|].
        destruct (in_dec Z.eq_dec i st) as [I|NI].
        - apply H3 in I as I'. destruct I' as (_ & LB). rewrite (H1 i Hi LB) in Ee'. injection Ee' as <-.
          exists q. split; [rewrite (H1 i Hi LB); reflexivity|]. left. split; [lia|].
          split; [assumption|]. split; [exact LB|]. intros j Hj Lj.
          destruct Rq as (_ & _ & R). apply R; [assumption|]. apply (L_trans j i q); try assumption.
          apply L_sym; assumption.
        - assert (NB : ~ L q i) by (intro Q; apply NI, H3; split; assumption).
          rewrite (H2 i Hi NB) in Ee'. destruct HI as (_ & H). destruct (H i Hi) as (e0 & E0 & [[L1 R]|[Ei N]]).
          + exists e0. split; [rewrite (H2 i Hi NB); assumption|]. left. split; [lia|assumption].
          + exists e0. split; [rewrite (H2 i Hi NB); assumption|]. right. split; [assumption|].
            intros j Hj. destruct (Z.eq_dec j q) as [->|]; [assumption|]. apply N. lia. }
      split; [assumption|].
      rewrite filter_app. apply Forall2_app.
      * assert (EF : filter (ownRep eq') (zrange 0 q) = filter (ownRep equiv) (zrange 0 q)).
        { apply filter_ext_in. intros j Ij. apply in_zrange in Ij. unfold ownRep.
          destruct (zget_inrange eq' j) as (a & Ea); [lia|]. destruct (zget_inrange equiv j) as (b & Eb); [destruct HI; lia|].
          rewrite Ea, Eb. rewrite (rep_unique j a b); [reflexivity| |].
          - eapply Inv_done; [exact HI'| |lia|eassumption]; lia.
          - eapply Inv_done; [exact HI| |lia|eassumption]; lia. }
        rewrite EF. assumption.
      * cbn [filter]. assert (EO : ownRep eq' q = true).
        { unfold ownRep. destruct (zget_inrange eq' q) as (a & Ea); [lia|]. rewrite Ea.
          apply Z.eqb_eq. apply (rep_unique q); [|assumption]. eapply Inv_done; [exact HI'|assumption|lia|assumption]. }
        rewrite EO. constructor; [|constructor]. split; [assumption|]. intro i. rewrite H3. reflexivity.
    + exists equiv, stars. cbn [bind]. split; [reflexivity|].
      assert (Re : e < q /\ isRepresentative rot syms n q e).
      { destruct HI as (_ & H). destruct (H q Hq) as (e0 & E0 & [C|[-> _]]); rewrite Ee in E0; injection E0 as ->; [assumption|congruence]. }
      destruct Re as (Leq & Re1 & Re2 & Re3).
      split.
      * destruct HI as (Hl & H). split; [assumption|]. intros i Hi. destruct (H i Hi) as (e0 & E0 & [[L1 R]|[Ei N]]).
        -- exists e0. split; [assumption|]. left. split; [lia|assumption].
        -- exists e0. split; [assumption|]. right. split; [assumption|].
           intros j Hj. destruct (Z.eq_dec j q) as [->|]; [|apply N; lia].
           intro Q. apply (N e); [lia|]. apply (L_trans e q i); assumption.
      * rewrite filter_app. cbn [filter]. unfold ownRep at 2. rewrite Ee.
        destruct (Z.eqb_spec e q); [contradiction|]. rewrite app_nil_r. assumption.
Qed.

Lemma findStars_spec stars0 : 0 <= n ->
  exists equiv stars, findStars rot syms n stars0 = Ok (equiv, stars0 ++ stars) /\ zlen equiv = n /\
    (forall i, 0 <= i < n -> exists e, zget equiv i = Some e /\ isRepresentative rot syms n i e) /\
    Forall2 goodStar (irrList equiv) stars.
Proof.
  intro Hn. destruct (findStars_inv stars0 (Z.to_nat n)) as (equiv & stars & E & HI & HF); [lia|].
  rewrite Z2Nat.id in * by lia. exists equiv, stars. split; [assumption|]. split; [apply HI|]. split.
  - intros i Hi. destruct (zget_inrange equiv i) as (e & Ee); [destruct HI; lia|]. exists e. split; [assumption|].
    eapply Inv_done; [eassumption|assumption|lia|assumption].
  - unfold irrList. destruct HI as (-> & _). exact HF.
Qed.

(** the stars partition the points: joined, they are a permutation of 0..n-1 *)
Lemma goodStars_partition equiv stars : 0 <= n -> zlen equiv = n ->
  (forall i, 0 <= i < n -> exists e, zget equiv i = Some e /\ isRepresentative rot syms n i e) ->
  Forall2 goodStar (irrList equiv) stars -> Permutation (concat stars) (zrange 0 n).
Proof.
  intros Hn Hl HR HF.
  assert (Irr : forall r, In r (irrList equiv) <-> 0 <= r < n /\ isRepresentative rot syms n r r).
  { intro r. unfold irrList. rewrite filter_In, in_zrange, Hl. split.
    - intros [Hr E]. split; [lia|]. destruct (HR r) as (e & Ee & R); [lia|]. rewrite Ee in E. apply Z.eqb_eq in E. subst e. assumption.
    - intros [Hr R]. split; [lia|]. destruct (HR r Hr) as (e & Ee & R'). rewrite Ee. apply Z.eqb_eq. eapply rep_unique; eassumption. }
  assert (ND : NoDup (irrList equiv)) by (apply NoDup_filter, NoDup_zrange).
  apply NoDup_Permutation; [|apply NoDup_zrange|].
  - assert (Hdis : forall l st, Forall2 goodStar l st -> NoDup l -> (forall r, In r l -> 0 <= r < n /\ isRepresentative rot syms n r r) ->
      NoDup (concat st)).
    { clear HF ND. induction 1 as [|r x l st G HF IH]; intros ND HI; [constructor|].
      cbn [concat]. inversion ND; subst.
      assert (Hcat : forall i, In i (concat st) -> exists r', In r' l /\ 0 <= i < n /\ L r' i).
      { clear - HF. induction HF as [|r' y l st G HF IH]; intros i I; [destruct I|].
        cbn [concat] in I. apply in_app_or in I. destruct I as [I|I].
        - exists r'. split; [left; reflexivity|]. apply G; assumption.
        - destruct (IH i I) as (r2 & I2 & X). exists r2. split; [right; assumption|assumption]. }
      assert (HND : NoDup (concat st)) by (apply IH; [assumption|intros; apply HI; right; assumption]).
      clear IH.
      assert (NDx : NoDup x) by (apply increasing_NoDup; apply G).
      assert (D : forall i, In i x -> ~ In i (concat st)).
      { intros i Ix Ic. apply G in Ix. destruct Ix as (Hi & Lr).
        destruct (Hcat i Ic) as (r' & Ir' & _ & Lr').
        destruct (HI r ltac:(left; reflexivity)) as (Hr & Rr). destruct (HI r' ltac:(right; assumption)) as (Hr' & Rr').
        assert (r = r'); [|subst; contradiction].
        assert (L r r') by (apply (L_trans r i r'); [assumption..|apply L_sym; assumption]).
        assert (L r' r) by (apply L_sym; assumption).
        destruct Rr as (_ & _ & M1). destruct Rr' as (_ & _ & M2). specialize (M1 r' Hr' H0). specialize (M2 r Hr H). lia. }
      clear - NDx HND D. induction x as [|a x IHx]; [assumption|]. cbn. inversion NDx; subst. constructor.
      - intro I. apply in_app_or in I. destruct I as [I|I]; [contradiction|]. apply (D a); [left; reflexivity|assumption].
      - apply IHx; [assumption|]. intros i I. apply D. right; assumption. }
    apply (Hdis (irrList equiv)); [assumption..|]. intros r I. apply Irr; assumption.
  - intro i. rewrite in_zrange. split.
    + intro I. apply in_concat in I. destruct I as (x & Ix & Ii).
      assert (exists r, goodStar r x) as (r & G).
      { clear - HF Ix. induction HF; [destruct Ix|]. destruct Ix as [<-|Ix]; [exists x0; assumption|auto]. }
      apply G in Ii. lia.
    + intros Hi. destruct (HR i) as (e & Ee & R); [lia|].
      assert (Ie : In e (irrList equiv)).
      { apply Irr. destruct R as (R1 & R2 & R3). split; [assumption|]. split; [assumption|]. split; [apply L_refl; assumption|].
        intros j Hj Lj. apply R3; [assumption|]. apply (L_trans j e i); [assumption..|lia| |]; assumption. }
      assert (exists x, In x stars /\ goodStar e x) as (x & Ix & G).
      { clear - HF Ie. induction HF; [destruct Ie|]. destruct Ie as [->|Ie]; [exists y; split; [left; reflexivity|assumption]|].
        destruct (IHHF Ie) as (z & Iz & G). exists z. split; [right; assumption|assumption]. }
      apply in_concat. exists x. split; [assumption|]. apply G. split; [lia|]. apply R.
Qed.

(** * rotations *)
Lemma firstRotation_spec l : incl l syms -> forall is a b, 0 <= a < n -> 0 <= b < n -> 0 <= is ->
  linkedBy l a b -> exists j s, firstRotation rot l is a b = Ok (is + j) /\ zget l j = Some s /\ rot s a = Ok b.
Proof.
  induction l as [|s l IH]; intros Hinc is a b Ha Hb His (s' & I & E); [destruct I|].
  cbn [firstRotation]. destruct (acts_range s a) as (j & Ej & _); [apply Hinc; left; reflexivity|assumption|].
  rewrite Ej. cbn [bind]. destruct (Z.eqb_spec j b) as [->|N].
  - exists 0, s. split; [f_equal; lia|]. split; [reflexivity|assumption].
  - destruct (IH ltac:(intros x Ix; apply Hinc; right; assumption) (is + 1) a b Ha Hb ltac:(lia)) as (j' & s2 & E2 & G2 & R2).
    { exists s'. split; [|assumption]. destruct I as [->|I]; [congruence|assumption]. }
    exists (j' + 1), s2. destruct (zget_Some _ _ _ G2) as (Hj & _). split; [rewrite E2; f_equal; lia|].
    split; [|assumption]. rewrite zget_consS by lia. replace (j' + 1 - 1) with j' by lia. assumption.
Qed.

Lemma rotationIndex_spec equiv i e : zget equiv i = Some e -> 0 <= i < n -> isRepresentative rot syms n i e ->
  (exists E, zget syms 0 = Some E /\ forall j, 0 <= j < n -> rot E j = Ok j) ->
  exists ri s, rotationIndex rot syms equiv i = Ok ri /\ zget syms ri = Some s /\ rot s e = Ok i.
Proof.
  intros Ee Hi (R1 & R2 & R3) (E & E0 & HE). unfold rotationIndex. rewrite Ee.
  destruct (Z.eqb_spec e i) as [->|N].
  - exists 0, E. split; [reflexivity|]. split; [assumption|]. apply HE; assumption.
  - destruct (firstRotation_spec syms (incl_refl _) 0 e i R1 Hi ltac:(lia) R2) as (j & s & Ej & Gj & Rj).
    exists j, s. split; [rewrite Ej; f_equal|split; assumption].
Qed.

Lemma candidates_spec diff l : incl l syms -> forall is a b, 0 <= a < n ->
  exists c, candidates rot diff l is a b = Ok c /\
    forall j d, In (j, d) c <-> (exists s, zget l (j - is) = Some s /\ rot s a = Ok b) /\ d = diff j a b.
Proof.
  induction l as [|s l IH]; intros Hinc is a b Ha.
  - exists []. split; [reflexivity|]. intros j d. split; [intros []|]. intros [(s & E & _) _].
    apply zget_Some in E. unfold zlen in E; cbn in E. lia.
  - cbn [candidates]. destruct (acts_range s a) as (j0 & Ej & _); [apply Hinc; left; reflexivity|assumption|].
    destruct (IH ltac:(intros x Ix; apply Hinc; right; assumption) (is + 1) a b Ha) as (c & Ec & Hc).
    rewrite Ej, Ec. cbn [bind]. eexists. split; [reflexivity|]. intros j d.
    assert (X : (exists s', zget (s :: l) (j - is) = Some s' /\ rot s' a = Ok b) <->
                (j = is /\ j0 = b) \/ exists s', zget l (j - (is + 1)) = Some s' /\ rot s' a = Ok b).
    { split.
      - intros (s' & E & R). destruct (Z.eq_dec j is) as [->|N].
        + rewrite Z.sub_diag, zget_cons0 in E. injection E as <-. left. split; [reflexivity|congruence].
        + right. exists s'. split; [|assumption]. apply zget_Some in E as E'. destruct E' as (Hr & _).
          rewrite zget_consS in E by lia. replace (j - (is + 1)) with (j - is - 1) by lia. assumption.
      - intros [[-> ->]|(s' & E & R)].
        + exists s. rewrite Z.sub_diag. split; [reflexivity|assumption].
        + exists s'. split; [|assumption]. apply zget_Some in E as E'. destruct E' as (Hr & _).
          rewrite zget_consS by lia. replace (j - is - 1) with (j - (is + 1)) by lia. assumption. }
    rewrite X. destruct (Z.eqb_spec j0 b) as [E0|N0].
    + cbn [In]. rewrite Hc. split.
      * intros [E|[Y D]]; [injection E as <- <-; split; [left; split; congruence|reflexivity]|split; [right; assumption|assumption]].
      * intros [[[-> _]|Y] D]; [left; congruence|right; split; assumption].
    + rewrite Hc. split; [intros [Y D]; split; [right; assumption|assumption]|].
      intros [[[_ C]|Y] D]; [contradiction|split; assumption].
Qed.

Lemma minElement_spec l : forall best, In (minElement best l) (best :: l) /\
  forall x, In x (best :: l) -> (snd (minElement best l) <= snd x)%Q.
Proof.
  induction l as [|y l IH]; intro best; cbn [minElement].
  - split; [left; reflexivity|]. intros x [<-|[]]. lra.
  - destruct (Qltb_spec (snd y) (snd best)) as [C|C].
    + destruct (IH y) as [I1 I2]. split; [right; exact I1|].
      intros x [<-|I]; [|apply I2; assumption]. specialize (I2 y ltac:(left; reflexivity)). lra.
    + destruct (IH best) as [I1 I2]. split; [destruct I1 as [I1|I1]; [left; exact I1|right; right; assumption]|].
      intros x [<-|[<-|I]]; [apply I2; left; reflexivity| |apply I2; right; assumption].
      specialize (I2 best ltac:(left; reflexivity)). lra.
Qed.

Lemma rotationIndexVel_spec diff equiv i e : zget equiv i = Some e -> 0 <= i < n -> isRepresentative rot syms n i e ->
  (exists E, zget syms 0 = Some E /\ forall j, 0 <= j < n -> rot E j = Ok j) ->
  exists ri s, rotationIndexVel rot diff syms equiv i = Ok ri /\ zget syms ri = Some s /\ rot s e = Ok i /\
    (e <> i -> forall ri' s', zget syms ri' = Some s' -> rot s' e = Ok i -> (diff ri e i <= diff ri' e i)%Q).
Proof.
  intros Ee Hi (R1 & R2 & R3) (E & E0 & HE). unfold rotationIndexVel. rewrite Ee.
  destruct (Z.eqb_spec e i) as [->|N].
  - exists 0, E. split; [reflexivity|]. split; [assumption|]. split; [apply HE; assumption|congruence].
  - destruct (candidates_spec diff syms (incl_refl _) 0 e i R1) as (c & Ec & Hc). rewrite Ec. cbn [bind].
    destruct c as [|x c].
    + exfalso. destruct R2 as (s & Is & Es). apply In_nth_error in Is. destruct Is as (k & Ek).
      apply (Hc (Z.of_nat k) (diff (Z.of_nat k) e i)). split; [|reflexivity]. exists s. split; [|assumption].
      unfold zget. destruct (Z.ltb_spec (Z.of_nat k - 0) 0); [lia|].
      rewrite Z.sub_0_r, Nat2Z.id. assumption.
    + destruct (minElement_spec c x) as [I1 I2]. destruct (minElement x c) as [ri d] eqn:EM. cbn [fst snd] in *.
      apply Hc in I1 as I1'. destruct I1' as [(s & Gs & Rs) Dd]. rewrite Z.sub_0_r in Gs.
      exists ri, s. split; [reflexivity|]. split; [assumption|]. split; [assumption|].
      intros _ ri' s' G' R'. subst d. apply (I2 (ri', diff ri' e i)). apply Hc. split; [|reflexivity].
      exists s'. rewrite Z.sub_0_r. split; assumption.
Qed.
End Act.
