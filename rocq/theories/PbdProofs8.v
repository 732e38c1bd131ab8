(** A triangle whose strain has been removed to first order has its rest lengths to first order. *)
From Coq Require Import List Arith Bool Reals Lra Lia.
Import ListNotations.
From Verif Require Import Imp PrModel QuatModel ProxModel IsecModel GjkProofs1 MeasSpec MeasProofs1 MeasProofs2 EditModel EditProofs1 EnerModel EnerSpec EnerProofs1 EnerProofs4 EnerProofs5 PbdModel PbdSpec PbdProofs1 PbdProofs2 PbdProofs3 PbdProofs4.
Open Scope R_scope.

Lemma quad_form_zero : forall X0 X1 Y0 Y1 z0 z1 z2, X0 * Y1 - Y0 * X1 <> 0 -> z0 * (X0 * X0) + z1 * (X1 * X1) + z2 * (X0 * X1) = 0 -> z0 * (Y0 * Y0) + z1 * (Y1 * Y1) + z2 * (Y0 * Y1) = 0 ->
  z0 * (2 * X0 * Y0) + z1 * (2 * X1 * Y1) + z2 * (X0 * Y1 + Y0 * X1) = 0 -> z0 = 0 /\ z1 = 0 /\ z2 = 0.
Proof.
  intros X0 X1 Y0 Y1 z0 z1 z2 D E0 E1 E2. assert (D' : X0 * Y1 - X1 * Y0 <> 0) by (intro Q; apply D; lra).
  destruct (det2_zero X0 X1 Y0 Y1 (2 * z0 * X0 + z2 * X1) (z2 * X0 + 2 * z1 * X1) D') as (A & B); [rewrite <- (Rmult_0_r 2), <- E0; ring|rewrite <- E2; ring|].
  destruct (det2_zero X0 X1 Y0 Y1 (2 * z0 * Y0 + z2 * Y1) (z2 * Y0 + 2 * z1 * Y1) D') as (A' & B'); [rewrite <- E2; ring|rewrite <- (Rmult_0_r 2), <- E1; ring|].
  destruct (det2_zero X0 X1 Y0 Y1 (2 * z0) z2 D') as (F & G); [rewrite <- A; ring|rewrite <- A'; ring|].
  destruct (det2_zero X0 X1 Y0 Y1 z2 (2 * z1) D') as (_ & H); [rewrite <- B; ring|rewrite <- B'; ring|]. repeat split; lra.
Qed.
Definition rsq (P : conf) (i j : nat) : R := (P i 0%nat - P j 0%nat) ^ 2 + (P i 1%nat - P j 1%nat) ^ 2.
Definition slope (p D : conf) (i j : nat) : R := dot (diff (p i) (p j)) (diff (p i) (p j)) + 2 * dot (diff (p i) (p j)) (diff (D i) (D j)).
Lemma stvk_lin : forall P p D, tiny < Rabs (rest_det P) -> (forall k, (k < 3)%nat -> power 3 3 (snd (CdC_StVK P p) k) D = - fst (CdC_StVK P p) k) ->
  slope p D 0 1 = rsq P 0 1 /\ slope p D 0 2 = rsq P 0 2 /\ slope p D 1 2 = rsq P 1 2.
Proof.
  intros P p D T H. pose proof (flat_metric P T) as F. cbv zeta in F. unfold CdC_StVK in H. destruct (flat_rest P) as [[[[Area Gd0] Gd1] Gu0] Gu1]. destruct F as (_ & F0 & F1 & U00 & U01 & _ & U10 & U11 & _).
  cbn [fst snd] in H. set (u := vsub (p 1%nat) (p 0%nat)) in *. set (v := vsub (p 2%nat) (p 0%nat)) in *.
  assert (ND' : rest_det P <> 0) by (intro Q; rewrite Q, Rabs_R0 in T; unfold tiny in T; pose proof near_pos; unfold NEARLY_ZERO in *; lra). unfold rest_det in ND'.
  pose proof (H 0%nat ltac:(lia)) as H0. pose proof (H 1%nat ltac:(lia)) as H1. pose proof (H 2%nat ltac:(lia)) as H2. clear H. cbn [nth] in H0, H1, H2.
  revert U00 U01 U10 U11 H0 H1 H2. generalize (Gu0 0%nat) (Gu0 1%nat) (Gu1 0%nat) (Gu1 1%nat). intros X0 Y0 X1 Y1 U00 U01 U10 U11 H0 H1 H2.
  assert (DT : X0 * Y1 - Y0 * X1 <> 0).
  { intro Q. rewrite U00, U01, U10, U11 in Q. enough (1 = 0) by lra. rewrite <- (Rmult_0_r ((P 1%nat 0%nat - P 0%nat 0%nat) * (P 2%nat 1%nat - P 0%nat 1%nat) - (P 2%nat 0%nat - P 0%nat 0%nat) * (P 1%nat 1%nat - P 0%nat 1%nat))), <- Q. field. auto. }
  clear U00 U01 U10 U11 T ND'. unfold strain2 in H0, H1, H2. cbn [nth] in H0, H1, H2.
  assert (Q0 : Dot3 Gd0 Gd0 = rsq P 0 1) by (rewrite F0; unfold Dot3, rsq; cbn [nth]; ring). assert (Q1 : Dot3 Gd1 Gd1 = rsq P 0 2) by (rewrite F1; unfold Dot3, rsq; cbn [nth]; ring).
  assert (Q2 : 2 * Dot3 Gd0 Gd1 = rsq P 0 1 + rsq P 0 2 - rsq P 1 2) by (rewrite F0, F1; unfold Dot3, rsq; cbn [nth]; ring). clear F0 F1.
  revert H0 H1 H2. set (c0 := Dot3 Gd0 Gd0) in *. set (c1 := Dot3 Gd1 Gd1) in *. set (c2 := Dot3 Gd0 Gd1) in *. clearbody c0 c1 c2. intros H0 H1 H2.
  set (e0 := dot u (diff (D 1%nat) (D 0%nat))). set (e1 := dot v (diff (D 2%nat) (D 0%nat))). set (e2 := dot u (diff (D 2%nat) (D 0%nat)) + dot v (diff (D 1%nat) (D 0%nat))).
  assert (PW : forall a b c, power 3 3 (fun i d => nth i [- (a + c) * u d - (b + c) * v d; a * u d + c * v d; b * v d + c * u d] 0) D = a * e0 + b * e1 + c * e2).
  { intros a b c. unfold power, e0, e1, e2, dot, diff. rewrite !sum_3. cbn [nth]. ring. }
  pose proof (PW (X0 * X0) (X1 * X1) (X0 * X1)) as W0. pose proof (PW (Y0 * Y0) (Y1 * Y1) (Y0 * Y1)) as W1. pose proof (PW (2 * X0 * Y0) (2 * X1 * Y1) (X0 * Y1 + Y0 * X1)) as W2.
  apply (eq_trans (eq_sym W0)) in H0. apply (eq_trans (eq_sym W1)) in H1. apply (eq_trans (eq_sym W2)) in H2. clear PW W0 W1 W2.
  destruct (quad_form_zero X0 X1 Y0 Y1 (e0 + 1 / 2 * (Dot3 u u - c0)) (e1 + 1 / 2 * (Dot3 v v - c1)) (e2 + 1 * (Dot3 u v - c2)) DT) as (Z0 & Z1 & Z2); [lra|lra|lra|].
  assert (S0 : slope p D 0 1 = Dot3 u u + 2 * e0) by (unfold slope, dot, diff, e0, dot, diff, u, vsub, Dot3; rewrite !sum_3; ring).
  assert (S1 : slope p D 0 2 = Dot3 v v + 2 * e1) by (unfold slope, dot, diff, e1, dot, diff, v, vsub, Dot3; rewrite !sum_3; ring).
  assert (S2 : slope p D 1 2 = Dot3 u u + Dot3 v v - 2 * Dot3 u v + 2 * (e0 + e1 - e2)) by (unfold slope, dot, diff, e0, e1, e2, dot, diff, u, v, vsub, Dot3; rewrite !sum_3; ring).
  rewrite S0, S1, S2. repeat split; lra.
Qed.
(** To first order in the displacement, the squared distance of two points after a move. *)
Lemma strain1_lin : forall a v i0 i1 i2, NoDup [i0; i1; i2] -> tri_rest a v i0 i1 i2 -> 
  let u d := coord a i1 d - coord a i0 d in let w d := coord a i2 d - coord a i0 d in dot u u * dot w w - dot u w * dot u w <> 0 ->
  exists a', PBD_TriStrain a [(i0, i1, i2)] v = Some a' /\ kept a a' /\ (forall j d, (d < 3)%nat -> ~ In j [i0; i1; i2] -> coord a' j d = coord a j d) /\
  (forall i j, In i [i0; i1; i2] -> In j [i0; i1; i2] -> sq3 a i j + 2 * sum 3 (fun d => (coord a i d - coord a j d) * ((coord a' i d - coord a i d) - (coord a' j d - coord a j d))) = sq2 v i j) /\
  (forall d, (d < 3)%nat -> sum 3 (fun k => crossp (fun d => coord a (nth k [i0; i1; i2] 0%nat) d) (moved a a' [i0; i1; i2] k) d) = 0).
Proof.
  intros a v i0 i1 i2 ND TR u w NZ. destruct (strain1_pre a v i0 i1 i2 TR) as (P & p & EP & Ep & RD & Hp & HP). destruct TR as (A0 & A1 & A2 & _ & _ & _ & TT).
  assert (HAS : forall i, In i [i0; i1; i2] -> has a i) by (intros i [<-|[<-|[<-|[]]]]; auto).
  assert (TR : tiny < Rabs (rest_det P)) by (rewrite RD; auto).
  assert (IN : independent 3 (snd (CdC_StVK P p))).
  { apply stvk_indep; auto. intro Q. apply NZ. rewrite <- Q. unfold dot, diff, u, w. rewrite !sum_3, !Hp by lia. cbn [nth]. ring. }
  destruct (update_run a 3 (fun _ => 1) (fst (CdC_StVK P p)) (snd (CdC_StVK P p)) [i0; i1; i2] 1) as (lmd & a' & HL & R & L & HC); auto; [intros; lra|].
  assert (RUN : TriStrain1 v (i0, i1, i2) a = Some a') by (unfold TriStrain1; rewrite EP; cbn [bind]; rewrite Ep; cbn [bind]; exact R).
  exists a'. split; [unfold PBD_TriStrain; cbn [foldM]; rewrite RUN; reflexivity|]. destruct (strain1_keeps v i0 i1 i2 a a' RUN) as (K & O). split; [auto|].
  split. { intros j d Hd Hj. apply O; auto; intro; apply Hj; subst; cbn [In]; auto. }
  destruct (update_shift a a' 3 [i0; i1; i2] (fun i d => sum 3 (fun k => 1 * (snd (CdC_StVK P p) k i d * (1 / 1)) * lmd k)) eq_refl ND HC) as (MV & _). cbv beta in MV.
  set (D := moved a a' [i0; i1; i2]) in *.
  assert (LIN : forall k, (k < 3)%nat -> power 3 3 (snd (CdC_StVK P p) k) D = - fst (CdC_StVK P p) k).
  { intros k Kk. rewrite (lin 3 (fun _ => 1) (snd (CdC_StVK P p)) 1 lmd D MV (fst (CdC_StVK P p)) HL k Kk). ring. }
  destruct (stvk_lin P p D TR LIN) as (S01 & S02 & S12).
  assert (GEN : forall k l, (k < 3)%nat -> (l < 3)%nat -> slope p D k l = rsq P k l ->
    sq3 a (nth k [i0; i1; i2] 0%nat) (nth l [i0; i1; i2] 0%nat) + 2 * sum 3 (fun d => (coord a (nth k [i0; i1; i2] 0%nat) d - coord a (nth l [i0; i1; i2] 0%nat) d) * ((coord a' (nth k [i0; i1; i2] 0%nat) d - coord a (nth k [i0; i1; i2] 0%nat) d) - (coord a' (nth l [i0; i1; i2] 0%nat) d - coord a (nth l [i0; i1; i2] 0%nat) d))) =
    sq2 v (nth k [i0; i1; i2] 0%nat) (nth l [i0; i1; i2] 0%nat)).
  { intros k l Kk Kl S. destruct (HP k Kk) as (X & Y & _). destruct (HP l Kl) as (X' & Y' & _). unfold rsq in S. rewrite X, Y, X', Y' in S. unfold sq2. rewrite <- S. unfold slope, dot, diff, sq3, D, moved. rewrite !sum_3, !Hp by lia. ring. }
  assert (SLS : forall k l, slope p D k l = rsq P k l -> slope p D l k = rsq P l k).
  { intros k l E. transitivity (slope p D k l); [unfold slope, dot, diff; rewrite !sum_3; ring|]. rewrite E. unfold rsq. ring. }
  assert (SS : forall k, slope p D k k = rsq P k k) by (intro k; unfold slope, rsq, dot, diff; rewrite !sum_3; ring).
  split.
  - intros i j Hi Hj. destruct Hi as [<-|[<-|[<-|[]]]]; destruct Hj as [<-|[<-|[<-|[]]]].
    + apply (GEN 0%nat 0%nat); try lia; auto.
    + apply (GEN 0%nat 1%nat); try lia; auto.
    + apply (GEN 0%nat 2%nat); try lia; auto.
    + apply (GEN 1%nat 0%nat); try lia; auto.
    + apply (GEN 1%nat 1%nat); try lia; auto.
    + apply (GEN 1%nat 2%nat); try lia; auto.
    + apply (GEN 2%nat 0%nat); try lia; auto.
    + apply (GEN 2%nat 1%nat); try lia; auto.
    + apply (GEN 2%nat 2%nat); try lia; auto.
  - intros d Hd. transitivity (sum 3 (fun i => 1 * crossp (p i) (D i) d)).
    + apply sum_ext. intros i Hi. rewrite Rmult_1_l. unfold crossp. rewrite !Hp by lia. reflexivity.
    + apply (angular 3 (fun _ => 1) (snd (CdC_StVK P p)) ltac:(intros; lra) 1 lmd D MV p); auto. intros. apply stvk_angular; auto.
Qed.
