(** Membranes: Saint Venant and Kirchhoff, and the most isometric parameterization. *)
From Coq Require Import List Arith Bool Reals Lra Lia.
Import ListNotations.
From Verif Require Import PrModel MeasSpec EnerModel EnerSpec EnerProofs1 EnerProofs2 EnerProofs3 EnerProofs4.
Open Scope R_scope.

(** The contravariant metric of a triangle with the edges (x1, y1) and (x2, y2). *)
Definition metric (x1 y1 x2 y2 : R) : vec :=
  fun k => nth k [(x2 * x2 + y2 * y2) / ((x1 * y2 - x2 * y1) * (x1 * y2 - x2 * y1)); (x1 * x1 + y1 * y1) / ((x1 * y2 - x2 * y1) * (x1 * y2 - x2 * y1));
    - (x1 * x2 + y1 * y2) / ((x1 * y2 - x2 * y1) * (x1 * y2 - x2 * y1))] 0.
Definition has_metric (Gu0 Gu1 g : vec) : Prop := Dot3 Gu0 Gu0 = g 0%nat /\ Dot3 Gu1 Gu1 = g 1%nat /\ Dot3 Gu1 Gu0 = g 2%nat.
Lemma stvk_value : forall A Gu0 Gu1 lambda myu Gd0 Gd1 gd0 gd1 fa fb x1 y1 x2 y2, x1 * y2 - x2 * y1 <> 0 -> has_metric Gu0 Gu1 (metric x1 y1 x2 y2) ->
  Dot3 Gd0 Gd0 = x1 * x1 + y1 * y1 -> Dot3 Gd1 Gd1 = x2 * x2 + y2 * y2 -> Dot3 Gd0 Gd1 = x1 * x2 + y1 * y2 ->
  (forall d, (d < 3)%nat -> gd0 d = x1 * fa d + y1 * fb d) -> (forall d, (d < 3)%nat -> gd1 d = x2 * fa d + y2 * fb d) ->
  snd (fst (stvk_W A (constit Gu0 Gu1 lambda myu) Gd0 Gd1 gd0 gd1)) = stvk_energy A lambda myu fa fb.
Proof.
  intros A Gu0 Gu1 lambda myu Gd0 Gd1 gd0 gd1 fa fb x1 y1 x2 y2 N (G0 & G1 & G2) D0 D1 D2 E0 E1.
  assert (F0 : Dot3 gd0 gd0 = x1 * x1 * dot fa fa + 2 * x1 * y1 * dot fa fb + y1 * y1 * dot fb fb) by (unfold dot, Dot3; rewrite !sum_3, !E0 by lia; ring).
  assert (F1 : Dot3 gd1 gd1 = x2 * x2 * dot fa fa + 2 * x2 * y2 * dot fa fb + y2 * y2 * dot fb fb) by (unfold dot, Dot3; rewrite !sum_3, !E1 by lia; ring).
  assert (F2 : Dot3 gd0 gd1 = x1 * x2 * dot fa fa + (x1 * y2 + x2 * y1) * dot fa fb + y1 * y2 * dot fb fb) by (unfold dot, Dot3; rewrite !sum_3, !E0, !E1 by lia; ring).
  unfold stvk_W, strain2, constit, stvk_energy, strain_aa, strain_bb, strain_ab. cbn [fst snd nth]. rewrite G0, G1, G2, D0, D1, D2, F0, F1, F2. unfold metric. cbn [nth].
  set (p := dot fa fa). set (q := dot fa fb). set (r := dot fb fb). clearbody p q r. clear - N. field. auto.
Qed.
Lemma flat_metric : forall P, NEARLY_ZERO < Rabs ((P 1%nat 0%nat - P 0%nat 0%nat) * (P 2%nat 1%nat - P 0%nat 1%nat) - (P 2%nat 0%nat - P 0%nat 0%nat) * (P 1%nat 1%nat - P 0%nat 1%nat)) ->
  let x1 := P 1%nat 0%nat - P 0%nat 0%nat in let y1 := P 1%nat 1%nat - P 0%nat 1%nat in let x2 := P 2%nat 0%nat - P 0%nat 0%nat in let y2 := P 2%nat 1%nat - P 0%nat 1%nat in
  let D := x1 * y2 - x2 * y1 in let '(Area, Gd0, Gd1, Gu0, Gu1) := flat_rest P in
  Area = Rabs D / 2 /\ Gd0 = (fun d => nth d [x1; y1; 0] 0) /\ Gd1 = (fun d => nth d [x2; y2; 0] 0) /\
  Gu0 0%nat = y2 / D /\ Gu0 1%nat = - x2 / D /\ Gu0 2%nat = 0 /\ Gu1 0%nat = - y1 / D /\ Gu1 1%nat = x1 / D /\ Gu1 2%nat = 0.
Proof.
  intros P NZ x1 y1 x2 y2 D. pose proof near_pos as NP. unfold flat_rest. fold x1 y1 x2 y2 in NZ |- *. fold D in NZ.
  assert (LN : Length3 (Cross (fun d => nth d [x1; y1; 0] 0) (fun d => nth d [x2; y2; 0] 0)) = Rabs D).
  { unfold Length3, Cross. cbn [nth]. rewrite <- sqrt_Rsqr_abs. f_equal. unfold Rsqr, D. ring. }
  rewrite LN. assert (ND : D <> 0) by (intro Z; rewrite Z, Rabs_R0 in NZ; lra).
  assert (SQ : Rabs D * Rabs D = D * D) by (rewrite <- Rabs_mult; apply Rabs_right; apply Rle_ge; apply Rle_0_sqr).
  clear LN. set (r := Rabs D) in *. clearbody r.
  split; [field|]. do 2 (split; [reflexivity|]).
  assert (SG : forall d, (d < 3)%nat -> sdivi (Cross (fun d => nth d [x1; y1; 0] 0) (fun d => nth d [x2; y2; 0] 0) d) (r * (1 / 2) * 2) = nth d [0; 0; D / r] 0).
  { intros d I. rewrite sdivi_big by lra. unfold Cross, D. cases3 d I; cbn [nth]; field; lra. }
  set (Gd2 := fun d => sdivi _ _). assert (S0 : Gd2 0%nat = 0) by apply (SG 0%nat ltac:(lia)). assert (S1 : Gd2 1%nat = 0) by apply (SG 1%nat ltac:(lia)). assert (S2 : Gd2 2%nat = D / r) by apply (SG 2%nat ltac:(lia)).
  clearbody Gd2.
  assert (E0 : Dot3 (Cross (fun d => nth d [x2; y2; 0] 0) Gd2) (fun d => nth d [x1; y1; 0] 0) = r).
  { unfold Dot3, Cross. cbn [nth]. rewrite S0, S1, S2. transitivity (D * D / r); [unfold D; field; lra|]. rewrite <- SQ. field. lra. }
  assert (E1 : Dot3 (Cross Gd2 (fun d => nth d [x1; y1; 0] 0)) (fun d => nth d [x2; y2; 0] 0) = r).
  { unfold Dot3, Cross. cbn [nth]. rewrite S0, S1, S2. transitivity (D * D / r); [unfold D; field; lra|]. rewrite <- SQ. field. lra. }
  rewrite E0, E1.
  assert (KK : forall z, z * (D / r) / r = z / D). { intro z. transitivity (z * D / (r * r)); [field; lra|rewrite SQ; field; auto]. }
  rewrite !sdivi_big by auto. unfold Cross. cbn [nth]. rewrite S0, S1, S2. clearbody D.
  repeat split.
  - rewrite <- KK. field. lra.
  - rewrite <- KK. field. lra.
  - field. lra.
  - rewrite <- KK. field. lra.
  - rewrite <- KK. field. lra.
  - field. lra.
Qed.
(** The strains of a triangle that is flat at rest. *)
Lemma stvk_v : forall P p fa fb, NEARLY_ZERO < Rabs ((P 1%nat 0%nat - P 0%nat 0%nat) * (P 2%nat 1%nat - P 0%nat 1%nat) - (P 2%nat 0%nat - P 0%nat 0%nat) * (P 1%nat 1%nat - P 0%nat 1%nat)) ->
  deforms p fa fb (P 1%nat 0%nat - P 0%nat 0%nat) (P 1%nat 1%nat - P 0%nat 1%nat) (P 2%nat 0%nat - P 0%nat 0%nat) (P 2%nat 1%nat - P 0%nat 1%nat) ->
  fst (CdC_StVK P p) 0%nat = strain_aa fa fb /\ fst (CdC_StVK P p) 1%nat = strain_bb fa fb /\ fst (CdC_StVK P p) 2%nat = 2 * strain_ab fa fb.
Proof.
  intros P p fa fb NZ (E0 & E1). pose proof near_pos as NP. pose proof (flat_metric P NZ) as F. cbv zeta in F. unfold CdC_StVK. destruct (flat_rest P) as [[[[Area Gd0] Gd1] Gu0] Gu1].
  set (x1 := P 1%nat 0%nat - P 0%nat 0%nat) in *. set (y1 := P 1%nat 1%nat - P 0%nat 1%nat) in *. set (x2 := P 2%nat 0%nat - P 0%nat 0%nat) in *. set (y2 := P 2%nat 1%nat - P 0%nat 1%nat) in *.
  destruct F as (_ & D0 & D1 & U0 & U1 & _ & V0 & V1 & _). assert (N : x1 * y2 - x2 * y1 <> 0) by (intro Z; rewrite Z, Rabs_R0 in NZ; lra).
  cbn [fst nth]. rewrite U0, U1, V0, V1, D0, D1. unfold strain2. cbn [nth].
  assert (F0 : Dot3 (vsub (p 1%nat) (p 0%nat)) (vsub (p 1%nat) (p 0%nat)) = x1 * x1 * dot fa fa + 2 * x1 * y1 * dot fa fb + y1 * y1 * dot fb fb) by (unfold dot, Dot3, vsub; rewrite !sum_3, !E0 by lia; ring).
  assert (F1 : Dot3 (vsub (p 2%nat) (p 0%nat)) (vsub (p 2%nat) (p 0%nat)) = x2 * x2 * dot fa fa + 2 * x2 * y2 * dot fa fb + y2 * y2 * dot fb fb) by (unfold dot, Dot3, vsub; rewrite !sum_3, !E1 by lia; ring).
  assert (F2 : Dot3 (vsub (p 1%nat) (p 0%nat)) (vsub (p 2%nat) (p 0%nat)) = x1 * x2 * dot fa fa + (x1 * y2 + x2 * y1) * dot fa fb + y1 * y2 * dot fb fb) by (unfold dot, Dot3, vsub; rewrite !sum_3, !E0, !E1 by lia; ring).
  rewrite F0, F1, F2. unfold strain_aa, strain_bb, strain_ab. set (a := dot fa fa). set (b := dot fa fb). set (c := dot fb fb). clearbody a b c x1 y1 x2 y2. unfold Dot3. cbn [nth].
  clear - N. repeat split; field; auto.
Qed.
Lemma stvk_cg : forall P p k, (k < 3)%nat -> is_gradient 3 3 (fun q => fst (CdC_StVK P q) k) p (snd (CdC_StVK P p) k).
Proof.
  intros P p k K c x v E M. subst p. unfold CdC_StVK. destruct (flat_rest P) as [[[[Area Gd0] Gd1] Gu0] Gu1]. cbn [fst snd]. rewrite power_3_3.
  three (fun d => M 0%nat d ltac:(lia)). three (fun d => M 1%nat d ltac:(lia)). three (fun d => M 2%nat d ltac:(lia)).
  set (G := nth k _ _). clearbody G. unfold strain2, Dot3, vsub. cbn [nth]. eapply rate_eq; [rt|]. field.
Qed.
(** The energy, its gradient and its Hessian. *)
Definition csym (K : mat) : Prop := K 0%nat 1%nat = K 1%nat 0%nat /\ K 0%nat 2%nat = K 2%nat 0%nat /\ K 1%nat 2%nat = K 2%nat 1%nat.
Lemma constit_sym : forall Gu0 Gu1 l m, csym (constit Gu0 Gu1 l m).
Proof. intros. unfold csym, constit. cbn [nth]. repeat split; ring. Qed.
Lemma W_g : forall A K Gd0 Gd1 p, csym K ->
  is_gradient 3 3 (fun q => snd (fst (stvk_W A K Gd0 Gd1 (vsub (q 1%nat) (q 0%nat)) (vsub (q 2%nat) (q 0%nat))))) p
    (snd (stvk_W A K Gd0 Gd1 (vsub (p 1%nat) (p 0%nat)) (vsub (p 2%nat) (p 0%nat)))).
Proof.
  intros A K Gd0 Gd1 p (S0 & S1 & S2) c x v E M. subst p. unfold stvk_W, strain2. cbn [fst snd]. rewrite power_3_3. cbn [nth dNdr].
  three (fun d => M 0%nat d ltac:(lia)). three (fun d => M 1%nat d ltac:(lia)). three (fun d => M 2%nat d ltac:(lia)). rewrite S0, S1, S2.
  set (a0 := Dot3 Gd0 Gd0). set (a1 := Dot3 Gd1 Gd1). set (a2 := Dot3 Gd0 Gd1). clearbody a0 a1 a2. unfold Dot3, vsub. eapply rate_eq; [rt|]. field.
Qed.
Lemma W_h : forall A K Gd0 Gd1 p, csym K ->
  is_jacobian 3 3 (fun q => snd (stvk_W A K Gd0 Gd1 (vsub (q 1%nat) (q 0%nat)) (vsub (q 2%nat) (q 0%nat)))) p
    (stvk_ddW A K (fst (fst (stvk_W A K Gd0 Gd1 (vsub (p 1%nat) (p 0%nat)) (vsub (p 2%nat) (p 0%nat))))) (vsub (p 1%nat) (p 0%nat)) (vsub (p 2%nat) (p 0%nat))).
Proof.
  intros A K Gd0 Gd1 p (S0 & S1 & S2) i d I D c x v E M. subst p. unfold stvk_W, stvk_ddW, strain2. cbn [fst snd]. rewrite power_3_3.
  three (fun d => M 0%nat d ltac:(lia)). three (fun d => M 1%nat d ltac:(lia)). three (fun d => M 2%nat d ltac:(lia)). rewrite ?S0, ?S1, ?S2.
  set (a0 := Dot3 Gd0 Gd0). set (a1 := Dot3 Gd1 Gd1). set (a2 := Dot3 Gd0 Gd1). clearbody a0 a1 a2.
  set (n0 := dNdr i 0%nat). set (n1 := dNdr i 1%nat). clearbody n0 n1. unfold Dot3, vsub. cbn [nth dNdr].
  cases3 d D; cbn [Nat.eqb]; (eapply rate_eq; [rt|]; field).
Qed.
