(** Property C133 *)
From Coq Require Import Reals.
From Verif Require Import Base M_particle L_particle M_qe S_qe L_qe.
From Coq Require Import Lia Lra.
Local Open Scope R_scope.

(** * C133: lattices of Quantum ESPRESSO *)
(** sensible parameters: the vectors have the lengths and angles of the manual and are right-handed *)
Theorem C133_lattice : forall ib D A, knownLattice ib -> ib <> 13%Z -> sensible ib D ->
  exists C, getQELattice ib D A = Ok (C, cd0 D) /\ Forall2 (close ib D) (gram C) (expected ib (ofCelldm ib D)) /\ (notFlat ib D -> 0 < det C).
Proof.
  intros ib D A HK H13 (H0 & H2 & H5 & H12 & H3 & H4 & H14).
  assert (K : described ib D).
  { unfold knownLattice in HK. cbn [In] in *. destruct HK as [<-|[<-|[<-|[<-|[<-|[<-|[<-|[<-|[<-|[<-|[<-|[<-|[<-|[<-|[<-|[<-|[<-|[<-|[<-|[<-|[]]]]]]]]]]]]]]]]]]]]].
    - now apply lat1. - now apply lat2. - now apply lat3. - now apply latm3. - apply lat4; tauto. - apply lat5; tauto. - apply latm5; tauto. - apply lat6; tauto. - apply lat7; tauto.
    - apply lat8; tauto. - apply lat9; tauto. - apply latm9; tauto. - apply lat91; tauto. - apply lat10; tauto. - apply lat11; tauto. - apply lat12; tauto. - apply latm12; tauto. - congruence. - apply latm13; tauto. - apply lat14; tauto. }
  destruct K as (C & E & G). exists C. split; [|exact G]. unfold getQELattice. destruct (Z.eqb_spec ib 0) as [Hz|_]; [|now rewrite E].
  subst ib. unfold knownLattice in HK. cbn [In] in HK. exfalso. intuition discriminate.
Qed.
(** parameters that describe no lattice, and unknown indices, are rejected *)
Lemma rejected_pos x (k : res cell3) : ~ 0 < x -> stopIf (rleb x 0) k = Err.
Proof. intro. apply stopIf_yes. now apply pos_yes. Qed.
Lemma rejected_two D (k : res cell3) : ~ (0 < cd1 D /\ 0 < cd2 D) \/ k = Err -> stopIf (rleb (cd1 D) 0) (stopIf (rleb (cd2 D) 0) k) = Err.
Proof.
  intros H. destruct (Rlt_dec 0 (cd1 D)) as [H1|H1]; [|now apply rejected_pos]. rewrite (stopIf_no _ _ (pos_no _ H1)). destruct (Rlt_dec 0 (cd2 D)) as [H2|H2]; [|now apply rejected_pos]. rewrite (stopIf_no _ _ (pos_no _ H2)). tauto.
Qed.
Lemma rejected_angle x (k : res cell3) : ~ angle x \/ k = Err -> stopIf (abs1 x) k = Err.
Proof. intros H. destruct (angle_dec x) as [Hx|Hx]; [|apply stopIf_yes; now apply abs1_yes]. rewrite (stopIf_no _ _ (abs1_no _ Hx)). tauto. Qed.
Lemma rejected_five c (k : res cell3) : ~ (- (1 / 2) < c < 1) -> stopIf (rleb c (- (1 / 2)) || rleb 1 c) k = Err.
Proof. intro H. apply stopIf_yes. apply Bool.orb_true_iff. rewrite !rleb_le. lra. Qed.
Theorem C133_rejected : forall ib D A, ib <> 0%Z -> ~ (knownLattice ib /\ sensible ib D) -> getQELattice ib D A = Err.
Proof.
  intros ib D A Hz H. unfold getQELattice. destruct (Z.eqb_spec ib 0) as [|_]; [contradiction|]. cut (lattice ib D = Err); [now intros ->|]. unfold lattice.
  destruct (Rlt_dec 0 (cd0 D)) as [HA|HA]; [|now apply rejected_pos]. rewrite (stopIf_no _ _ (pos_no _ HA)).
  destruct (in_dec Z.eq_dec ib [1; 2; 3; -3; 4; 5; -5; 6; 7; 8; 9; -9; 91; 10; 11; 12; -12; 13; -13; 14]%Z) as [HK|HK].
  - assert (HS : ~ sensible ib D) by tauto. clear H. unfold sensible in HS. cbn [In] in *.
    destruct HK as [<-|[<-|[<-|[<-|[<-|[<-|[<-|[<-|[<-|[<-|[<-|[<-|[<-|[<-|[<-|[<-|[<-|[<-|[<-|[<-|[]]]]]]]]]]]]]]]]]]]]].
    1-4: exfalso; apply HS; repeat split; try assumption; intros; exfalso; intuition discriminate.
    all: try (apply rejected_pos; intro; apply HS; repeat split; try assumption; intros; exfalso; intuition discriminate).
    all: try (apply rejected_five; intro; apply HS; repeat split; try tauto; intros; exfalso; intuition discriminate).
    all: try (apply rejected_two; left; intro; apply HS; repeat split; try tauto; intros; exfalso; intuition discriminate).
    all: destruct (Rlt_dec 0 (cd1 D)) as [H1|H1]; [|apply rejected_two; left; tauto]; destruct (Rlt_dec 0 (cd2 D)) as [H2|H2]; [|apply rejected_two; left; tauto]; apply rejected_two; right.
    1-4: apply rejected_angle; left; intro; apply HS; repeat split; try tauto; try (intros; exfalso; intuition discriminate); unfold angle in *; lra.
    apply rejected_angle. destruct (angle_dec (cd3 D)) as [H3|H3]; [right|now left]. apply rejected_angle. destruct (angle_dec (cd4 D)) as [H4|H4]; [right|now left]. apply rejected_angle. destruct (angle_dec (cd5 D)) as [H5|H5]; [right|now left].
    rewrite rsqrt_ok by (pose proof (sin2 _ H5); lra). cbn [bind]. cbv zeta. apply stopIf_yes. apply rltb_lt. apply Rnot_le_lt. intro HT. apply HS. repeat split; try tauto; try (intros; exfalso; intuition discriminate); unfold angle in *; try lra; exact HT.
  - clear H. cbn [In] in HK. assert (forall l, In ib l -> In ib l) as _ by auto.
    destruct ib as [|p|p]; [contradiction| |]; repeat (destruct p as [p|p|]; try reflexivity; try (exfalso; apply HK; tauto)).
Qed.
(** free cells (index 0): the vectors of the file, in units of celldm(0) when this is given *)
Theorem C133_free : forall D a1 a2 a3, (dot a1 a1 <> 0 /\ dot a2 a2 <> 0 /\ dot a3 a3 <> 0) -> 0 <= cd0 D ->
  getQELattice 0 D (a1, a2, a3) = Ok (if reqb (cd0 D) 0 then (a1, a2, a3) else (scale3 (cd0 D) a1, scale3 (cd0 D) a2, scale3 (cd0 D) a3), if reqb (cd0 D) 0 then sqrt (dot a1 a1) else cd0 D).
Proof.
  intros D a1 a2 a3 (N1 & N2 & N3) H0. unfold getQELattice. cbn [Z.eqb]. unfold lattice0.
  assert (S : forall a, dot a a <> 0 -> 0 < dot a a /\ norm0 a = false).
  { intros [[x y] z] N. cbn [dot] in *. assert (0 < x * x + y * y + z * z) by nra. split; [assumption|]. unfold norm0. destruct (reqb _ 0) eqn:E; [|reflexivity]. apply reqb_eq in E. pose proof (sqrt_lt_R0 _ H). lra. }
  destruct (S a1 N1) as [P1 ->]. destruct (S a2 N2) as [_ ->]. destruct (S a3 N3) as [_ ->]. cbn [orb]. cbv beta iota delta [stopIf]. destruct a1 as [[x y] z]. cbn [dot] in *. destruct (reqb (cd0 D) 0) eqn:E.
  - pose proof (sqrt_lt_R0 _ P1). rewrite (pos_no _ H). reflexivity.
  - rewrite pos_no; [reflexivity|]. destruct H0 as [H0|H0]; [exact H0|]. exfalso. assert (E' : reqb (cd0 D) 0 = true) by now apply reqb_eq. congruence.
Qed.
(** base-centred monoclinic (13): with all edges 1 and right angles the edge b of the cell has length sqrt 2 *)
Definition cubeCell : celldm := {| cd0 := 1; cd1 := 1; cd2 := 1; cd3 := 0; cd4 := 0; cd5 := 0 |}.
Theorem C133_monoclinic_refuted : sensible 13 cubeCell /\ nth 1 (expected 13 (ofCelldm 13 cubeCell)) 0 = 1 /\ forall A, exists C, getQELattice 13 cubeCell A = Ok (C, 1) /\ nth 1 (gram C) 0 = 2.
Proof.
  split; [|split].
  - unfold sensible, cubeCell, angle. cbn [cd0 cd1 cd2 cd3 cd4 cd5 In]. repeat split; intros; try lra.
  - cbn. lra.
  - intro A. unfold getQELattice, lattice. cbn [Z.eqb]. rewrite (stopIf_no (rleb _ 0)) by (apply pos_no; cbn; lra). rewrite (stopIf_no (rleb _ 0)) by (apply pos_no; cbn; lra). rewrite (stopIf_no (rleb _ 0)) by (apply pos_no; cbn; lra).
    rewrite (stopIf_no (abs1 _)) by (apply abs1_no; unfold angle; cbn; lra). rewrite rsqrt_ok by (cbn; lra). eexists. split; [reflexivity|]. cbn. replace (1 - 0 * 0) with 1 by ring. rewrite sqrt_1. ring.
Qed.
(** a flat triclinic cell is accepted: the three edges are in a plane *)
Definition flatCell : celldm := {| cd0 := 1; cd1 := 1; cd2 := 1; cd3 := - (1 / 2); cd4 := - (1 / 2); cd5 := - (1 / 2) |}.
Theorem C133_flat_refuted : forall A, exists C, getQELattice 14 flatCell A = Ok (C, 1) /\ det C = 0.
Proof.
  intro A. assert (HS : sensible 14 flatCell). { unfold sensible, flatCell, angle. cbn [cd0 cd1 cd2 cd3 cd4 cd5 In]. repeat split; intros; try lra; exfalso; intuition discriminate. }
  destruct HS as (H0 & _ & _ & H12 & H3 & H4 & H14). cbn [In] in *. destruct (H14 eq_refl) as [H5 HT]. pose proof (sin2 _ H5) as S0.
  unfold getQELattice, lattice. cbn [Z.eqb]. repeat first [rewrite (stopIf_no (rleb _ 0)) by (apply pos_no; cbn; lra) | rewrite (stopIf_no (abs1 _)) by (apply abs1_no; unfold angle; cbn; lra)].
  rewrite rsqrt_ok by lra. cbn [bind]. cbv zeta. rewrite stopIf_no by (apply rltb_ge; exact HT). rewrite rsqrt_ok; [|cbn [flatCell cd3 cd4 cd5]; right; field]. cbn [bind]. eexists. split; [reflexivity|].
  cbn [flatCell cd0 cd1 cd2 cd3 cd4 cd5]. replace ((1 + 2 * - (1 / 2) * - (1 / 2) * - (1 / 2) - - (1 / 2) * - (1 / 2) - - (1 / 2) * - (1 / 2) - - (1 / 2) * - (1 / 2)) / (1 - - (1 / 2) * - (1 / 2))) with 0 by field. rewrite sqrt_0. cbn [det]. ring.
Qed.
Example C133_ex : knownLattice 14 /\ sensible 14 {| cd0 := 10; cd1 := 11 / 10; cd2 := 12 / 10; cd3 := 1 / 10; cd4 := 2 / 10; cd5 := 3 / 10 |} /\
  notFlat 14 {| cd0 := 10; cd1 := 11 / 10; cd2 := 12 / 10; cd3 := 1 / 10; cd4 := 2 / 10; cd5 := 3 / 10 |} /\ ~ knownLattice 15.
Proof.
  split; [cbn; tauto|]. split; [|split].
  - unfold sensible, angle. cbn [cd0 cd1 cd2 cd3 cd4 cd5 In]. repeat split; intros; try lra.
  - intros _. cbn [cd3 cd4 cd5]. lra.
  - cbn. intuition discriminate.
Qed.
Print Assumptions C133_lattice. Print Assumptions C133_rejected. Print Assumptions C133_free. Print Assumptions C133_monoclinic_refuted. Print Assumptions C133_flat_refuted.
