(** The membrane with a rest shape in space, and the most isometric parameterization. *)
From Coq Require Import List Arith Bool Reals Lra Lia.
Import ListNotations.
From Verif Require Import PrModel MeasSpec GjkProofs1 EnerModel EnerSpec EnerProofs1 EnerProofs2 EnerProofs3 EnerProofs4 EnerProofs5.
Open Scope R_scope.

Lemma energy_v : forall P p fa fb lambda myu, NEARLY_ZERO < Rabs ((P 1%nat 0%nat - P 0%nat 0%nat) * (P 2%nat 1%nat - P 0%nat 1%nat) - (P 2%nat 0%nat - P 0%nat 0%nat) * (P 1%nat 1%nat - P 0%nat 1%nat)) ->
  deforms p fa fb (P 1%nat 0%nat - P 0%nat 0%nat) (P 1%nat 1%nat - P 0%nat 1%nat) (P 2%nat 0%nat - P 0%nat 0%nat) (P 2%nat 1%nat - P 0%nat 1%nat) ->
  fst (CdC_EnergyStVK P p lambda myu) =
  stvk_energy (Rabs ((P 1%nat 0%nat - P 0%nat 0%nat) * (P 2%nat 1%nat - P 0%nat 1%nat) - (P 2%nat 0%nat - P 0%nat 0%nat) * (P 1%nat 1%nat - P 0%nat 1%nat)) / 2) lambda myu fa fb.
Proof.
  intros P p fa fb lambda myu NZ (E0 & E1). pose proof near_pos as NP. pose proof (flat_metric P NZ) as F. cbv zeta in F. unfold CdC_EnergyStVK. destruct (flat_rest P) as [[[[Area Gd0] Gd1] Gu0] Gu1].
  set (x1 := P 1%nat 0%nat - P 0%nat 0%nat) in *. set (y1 := P 1%nat 1%nat - P 0%nat 1%nat) in *. set (x2 := P 2%nat 0%nat - P 0%nat 0%nat) in *. set (y2 := P 2%nat 1%nat - P 0%nat 1%nat) in *.
  destruct F as (EA & D0 & D1 & U0 & U1 & U2 & V0 & V1 & V2). assert (N : x1 * y2 - x2 * y1 <> 0) by (intro Z; rewrite Z, Rabs_R0 in NZ; lra).
  rewrite <- EA.
  assert (HM : has_metric Gu0 Gu1 (metric x1 y1 x2 y2)) by (unfold has_metric, metric, Dot3; cbn [nth]; rewrite U0, U1, U2, V0, V1, V2; repeat split; field; auto).
  pose proof (stvk_value Area Gu0 Gu1 lambda myu Gd0 Gd1 (vsub (p 1%nat) (p 0%nat)) (vsub (p 2%nat) (p 0%nat)) fa fb x1 y1 x2 y2 N HM) as V.
  destruct (stvk_W _ _ _ _ _ _) as [[S2 W] dW]. cbn [fst snd] in *. apply V; auto; rewrite ?D0, ?D1; unfold Dot3; cbn [nth]; ring.
Qed.
Lemma energy_g : forall P p lambda myu, is_gradient 3 3 (fun q => fst (CdC_EnergyStVK P q lambda myu)) p (snd (CdC_EnergyStVK P p lambda myu)).
Proof.
  intros P p lambda myu. unfold CdC_EnergyStVK. destruct (flat_rest P) as [[[[Area Gd0] Gd1] Gu0] Gu1].
  pose proof (W_g Area (constit Gu0 Gu1 lambda myu) Gd0 Gd1 p (constit_sym _ _ _ _)) as G.
  intros c x v E M. specialize (G c x v E M). unfold stvk_W in *. exact G.
Qed.

Lemma gram : forall C a b x1 y1 x2 y2, in_frame C a b x1 y1 x2 y2 ->
  let Gd0 := vsub (C 1%nat) (C 0%nat) in let Gd1 := vsub (C 2%nat) (C 0%nat) in
  Dot3 Gd0 Gd0 = x1 * x1 + y1 * y1 /\ Dot3 Gd1 Gd1 = x2 * x2 + y2 * y2 /\ Dot3 Gd0 Gd1 = x1 * x2 + y1 * y2 /\ Length3 (Cross Gd0 Gd1) = Rabs (x1 * y2 - x2 * y1).
Proof.
  intros C a b x1 y1 x2 y2 (AA & BB & AB & E0 & E1) Gd0 Gd1.
  assert (F0 : Dot3 Gd0 Gd0 = x1 * x1 + y1 * y1).
  { transitivity (x1 * x1 * dot a a + 2 * x1 * y1 * dot a b + y1 * y1 * dot b b); [|rewrite AA, BB, AB; ring]. unfold dot, Dot3, Gd0, vsub. rewrite !sum_3, !E0 by lia. ring. }
  assert (F1 : Dot3 Gd1 Gd1 = x2 * x2 + y2 * y2).
  { transitivity (x2 * x2 * dot a a + 2 * x2 * y2 * dot a b + y2 * y2 * dot b b); [|rewrite AA, BB, AB; ring]. unfold dot, Dot3, Gd1, vsub. rewrite !sum_3, !E1 by lia. ring. }
  assert (F2 : Dot3 Gd0 Gd1 = x1 * x2 + y1 * y2).
  { transitivity (x1 * x2 * dot a a + (x1 * y2 + x2 * y1) * dot a b + y1 * y2 * dot b b); [|rewrite AA, BB, AB; ring]. unfold dot, Dot3, Gd0, Gd1, vsub. rewrite !sum_3, !E0, !E1 by lia. ring. }
  do 3 (split; [assumption|]). rewrite <- sqrt_Rsqr_abs. unfold Length3. f_equal.
  transitivity (Dot3 Gd0 Gd0 * Dot3 Gd1 Gd1 - Dot3 Gd0 Gd1 * Dot3 Gd0 Gd1); [unfold Dot3, Cross; cbn [nth]; ring|]. rewrite F0, F1, F2. unfold Rsqr. ring.
Qed.
Lemma space_metric : forall C a b x1 y1 x2 y2, in_frame C a b x1 y1 x2 y2 -> x1 * y2 - x2 * y1 <> 0 ->
  let '(Area, Gd0, Gd1, Gu0, Gu1) := space_rest C in
  Area = Rabs (x1 * y2 - x2 * y1) / 2 /\ Gd0 = vsub (C 1%nat) (C 0%nat) /\ Gd1 = vsub (C 2%nat) (C 0%nat) /\ has_metric Gu0 Gu1 (metric x1 y1 x2 y2).
Proof.
  intros C a b x1 y1 x2 y2 F N. destruct (gram C a b x1 y1 x2 y2 F) as (G0 & G1 & G2 & L).
  unfold space_rest, UnitNormalAreaTri3. set (Gd0 := vsub (C 1%nat) (C 0%nat)) in *. set (Gd1 := vsub (C 2%nat) (C 0%nat)) in *. rewrite L. split; [reflexivity|]. do 2 (split; [reflexivity|]).
  assert (R0 : 0 < Rabs (x1 * y2 - x2 * y1)) by (apply Rabs_pos_lt; auto).
  assert (SQ : Rabs (x1 * y2 - x2 * y1) * Rabs (x1 * y2 - x2 * y1) = (x1 * y2 - x2 * y1) * (x1 * y2 - x2 * y1)) by (rewrite <- Rabs_mult; apply Rabs_right; apply Rle_ge; apply Rle_0_sqr).
  clear L. set (r := Rabs _) in *. clearbody r. clearbody Gd0 Gd1. set (n := Cross Gd0 Gd1).
  assert (NN : forall u w : vec, Dot3 (Cross (fun d => n d * (1 / (r / 2 * 2))) u) w = Dot3 (Cross n u) w / r) by (intros; unfold Dot3, Cross; cbn [nth]; field; lra).
  assert (LA : Dot3 Gd0 Gd0 * Dot3 Gd1 Gd1 - Dot3 Gd0 Gd1 * Dot3 Gd0 Gd1 = r * r) by (rewrite G0, G1, G2, SQ; ring).
  assert (P0 : Dot3 (Cross Gd1 (fun d => n d * (1 / (r / 2 * 2)))) Gd0 = r).
  { transitivity ((Dot3 Gd0 Gd0 * Dot3 Gd1 Gd1 - Dot3 Gd0 Gd1 * Dot3 Gd0 Gd1) / r); [unfold n, Dot3, Cross; cbn [nth]; field; lra|rewrite LA; field; lra]. }
  assert (P1 : Dot3 (Cross (fun d => n d * (1 / (r / 2 * 2))) Gd0) Gd1 = r).
  { transitivity ((Dot3 Gd0 Gd0 * Dot3 Gd1 Gd1 - Dot3 Gd0 Gd1 * Dot3 Gd0 Gd1) / r); [unfold n, Dot3, Cross; cbn [nth]; field; lra|rewrite LA; field; lra]. }
  rewrite P0, P1. unfold has_metric, metric. cbn [nth]. rewrite <- SQ.
  assert (Q : forall u w z : vec, u = Gd0 \/ u = Gd1 -> w = Gd0 \/ w = Gd1 -> Dot3 (Cross n u) (Cross n w) = (Dot3 Gd0 Gd0 * Dot3 Gd1 Gd1 - Dot3 Gd0 Gd1 * Dot3 Gd0 Gd1) * Dot3 u w).
  { intros u w z [-> | ->] [-> | ->]; unfold n, Dot3, Cross; cbn [nth]; ring. }
  repeat split.
  - transitivity (Dot3 (Cross n Gd1) (Cross n Gd1) / (r * r * (r * r))); [unfold Dot3, Cross; cbn [nth]; field; lra|]. rewrite (Q Gd1 Gd1 n) by auto. rewrite LA, G1. field. lra.
  - transitivity (Dot3 (Cross n Gd0) (Cross n Gd0) / (r * r * (r * r))); [unfold Dot3, Cross; cbn [nth]; field; lra|]. rewrite (Q Gd0 Gd0 n) by auto. rewrite LA, G0. field. lra.
  - transitivity (- Dot3 (Cross n Gd0) (Cross n Gd1) / (r * r * (r * r))); [unfold Dot3, Cross; cbn [nth]; field; lra|]. rewrite (Q Gd0 Gd1 n) by auto. rewrite LA, G2. field. lra.
Qed.
Lemma cst_v : forall C c lambda myu a b x1 y1 x2 y2 fa fb, in_frame C a b x1 y1 x2 y2 -> x1 * y2 - x2 * y1 <> 0 -> deforms c fa fb x1 y1 x2 y2 ->
  fst (fst (WdWddW_CST C c lambda myu)) = stvk_energy (Rabs (x1 * y2 - x2 * y1) / 2) lambda myu fa fb.
Proof.
  intros C c lambda myu a b x1 y1 x2 y2 fa fb F N (E0 & E1). pose proof (space_metric C a b x1 y1 x2 y2 F N) as S. destruct (gram C a b x1 y1 x2 y2 F) as (G0 & G1 & G2 & _).
  unfold WdWddW_CST. destruct (space_rest C) as [[[[Area Gd0] Gd1] Gu0] Gu1]. destruct S as (EA & D0 & D1 & HM). rewrite <- EA.
  pose proof (stvk_value Area Gu0 Gu1 lambda myu Gd0 Gd1 (vsub (c 1%nat) (c 0%nat)) (vsub (c 2%nat) (c 0%nat)) fa fb x1 y1 x2 y2 N HM) as V.
  destruct (stvk_W _ _ _ _ _ _) as [[S2 W] dW]. cbn [fst snd] in *. rewrite D0, D1 in V. auto.
Qed.
Lemma cst_g : forall C c lambda myu, is_gradient 3 3 (fun q => fst (fst (WdWddW_CST C q lambda myu))) c (snd (fst (WdWddW_CST C c lambda myu))).
Proof.
  intros C p lambda myu. unfold WdWddW_CST. destruct (space_rest C) as [[[[Area Gd0] Gd1] Gu0] Gu1].
  pose proof (W_g Area (constit Gu0 Gu1 lambda myu) Gd0 Gd1 p (constit_sym _ _ _ _)) as G.
  intros c x v E M. specialize (G c x v E M). unfold stvk_W in *. exact G.
Qed.
(** MakePositiveDefinite_Sim22 *)
Definition form22 (s : vec) (x y : R) : R := s 0%nat * x * x + 2 * s 2%nat * x * y + s 1%nat * y * y.
Lemma mpd_same : forall s, 0 < s 0%nat - / 100000000000000000000 -> s 2%nat * s 2%nat < (s 0%nat - / 100000000000000000000) * (s 1%nat - / 100000000000000000000) -> MakePositiveDefinite_Sim22 s = s.
Proof.
  intros s P Q. unfold MakePositiveDefinite_Sim22. set (e0 := / _) in *. assert (0 < e0) by (unfold e0; lra). clearbody e0.
  set (d := _ + _ * s 2%nat). set (b := (s 0%nat + s 1%nat) * (1 / 2)).
  assert (B : e0 < b) by (unfold b; nra). assert (D : d < (b - e0) * (b - e0)) by (unfold d, b; nra).
  assert (D0 : 0 <= d) by (unfold d; pose proof (Rle_0_sqr (s 0%nat - s 1%nat)) as Q0; pose proof (Rle_0_sqr (s 2%nat)) as Q1; unfold Rsqr in Q0, Q1; lra).
  assert (sqrt d < b - e0) by (rewrite <- (sqrt_square (b - e0)) by lra; apply sqrt_lt_1; nra).
  pose proof (ltRs e0 (b - sqrt d)) as L. destruct (ltR e0 (b - sqrt d)); auto. lra.
Qed.
Lemma mpd_psd : forall s x y, 0 <= form22 (MakePositiveDefinite_Sim22 s) x y.
Proof.
  intros s x y. unfold MakePositiveDefinite_Sim22. set (e0 := / _) in *. assert (0 < e0) by (unfold e0; lra). clearbody e0.
  set (d := _ + _ * s 2%nat). set (b := (s 0%nat + s 1%nat) * (1 / 2)). assert (D0 : 0 <= d) by (unfold d; pose proof (Rle_0_sqr (s 0%nat - s 1%nat)) as Q0; pose proof (Rle_0_sqr (s 2%nat)) as Q1; unfold Rsqr in Q0, Q1; lra). pose proof (sqrt_sqrt d D0) as SS. pose proof (sqrt_pos d) as SP.
  pose proof (ltRs e0 (b - sqrt d)) as L. destruct (ltR e0 (b - sqrt d)).
  - assert (d < b * b) by nra. unfold form22. assert (0 < s 0%nat * s 1%nat - s 2%nat * s 2%nat) by (unfold d, b in *; nra). assert (0 < s 0%nat + s 1%nat) by (unfold b in *; lra).
    assert (0 < s 0%nat) by nra. 
    assert (0 <= s 0%nat * (s 0%nat * x * x + 2 * s 2%nat * x * y + s 1%nat * y * y)).
    { replace (s 0%nat * (s 0%nat * x * x + 2 * s 2%nat * x * y + s 1%nat * y * y)) with (Rsqr (s 0%nat * x + s 2%nat * y) + (s 0%nat * s 1%nat - s 2%nat * s 2%nat) * Rsqr y) by (unfold Rsqr; ring).
      apply Rplus_le_le_0_compat; [apply Rle_0_sqr|apply Rmult_le_pos; [lra|apply Rle_0_sqr]]. }
    nra.
  - pose proof (ltRs (b + sqrt d) 0) as M. destruct (ltR (b + sqrt d) 0); [unfold form22; lra|].
    assert (Z : forall X Y, 0 <= form22 (fun k => nth k [(b + sqrt d) * X * X; (b + sqrt d) * Y * Y; (b + sqrt d) * X * Y] 0) x y).
    { intros X Y. unfold form22. cbn [nth]. replace (_ + _ + _) with ((b + sqrt d) * Rsqr (X * x + Y * y)) by (unfold Rsqr; ring). apply Rmult_le_pos; [auto|apply Rle_0_sqr]. }
    repeat match goal with |- context [if ?c then _ else _] => destruct c end; try apply Z; unfold form22; lra.
Qed.
Lemma ddW_form : forall A K S gd0 gd1 v, csym K -> let d0 := vsub (v 1%nat) (v 0%nat) in let d1 := vsub (v 2%nat) (v 0%nat) in
  let e := fun k => nth k [Dot3 gd0 d0; Dot3 gd1 d1; Dot3 gd0 d1 + Dot3 gd1 d0] 0 in
  form 3 3 (stvk_ddW A K S gd0 gd1) v = A * (sum 3 (fun i => sum 3 (fun j => e i * K i j * e j)) + sum 3 (fun d => form22 S (d0 d) (d1 d))).
Proof.
  intros A K S gd0 gd1 v (K0 & K1 & K2) d0 d1 e. unfold form. rewrite !sum_3. unfold stvk_ddW. cbn [Nat.eqb dNdr nth]. unfold form22, e, d0, d1, vsub, Dot3. cbn [nth]. ring.
Qed.
Lemma constit_psd : forall Gu0 Gu1 l m e, 0 <= l -> 0 <= m -> 0 <= sum 3 (fun i => sum 3 (fun j => e i * constit Gu0 Gu1 l m i j * e j)).
Proof.
  intros Gu0 Gu1 l m e L M. rewrite !sum_3. unfold constit. cbn [nth].
  set (q := fun i j => e 0%nat * Gu0 i * Gu0 j + e 1%nat * Gu1 i * Gu1 j + 1 / 2 * e 2%nat * (Gu0 i * Gu1 j + Gu1 i * Gu0 j)).
  replace (_ + _) with (l * Rsqr (e 0%nat * Dot3 Gu0 Gu0 + e 1%nat * Dot3 Gu1 Gu1 + e 2%nat * Dot3 Gu1 Gu0) + 2 * m *
    (Rsqr (q 0%nat 0%nat) + Rsqr (q 0%nat 1%nat) + Rsqr (q 0%nat 2%nat) + Rsqr (q 1%nat 0%nat) + Rsqr (q 1%nat 1%nat) + Rsqr (q 1%nat 2%nat) + Rsqr (q 2%nat 0%nat) + Rsqr (q 2%nat 1%nat) + Rsqr (q 2%nat 2%nat)));
    [|unfold Rsqr, q, Dot3; field].
  apply Rplus_le_le_0_compat; [apply Rmult_le_pos; [auto|apply Rle_0_sqr]|]. apply Rmult_le_pos; [lra|]. repeat apply Rplus_le_le_0_compat; apply Rle_0_sqr.
Qed.
Lemma cst_h : forall C c lambda myu, 0 <= lambda -> 0 <= myu -> semidefinite 3 3 (snd (WdWddW_CST C c lambda myu)) /\ symmetric 3 3 (snd (WdWddW_CST C c lambda myu)).
Proof.
  intros C c lambda myu L M. unfold WdWddW_CST. assert (AP : 0 <= let '(Area, _, _, _, _) := space_rest C in Area).
  { unfold space_rest, UnitNormalAreaTri3. pose proof (Length3_ge (Cross (vsub (C 1%nat) (C 0%nat)) (vsub (C 2%nat) (C 0%nat)))). lra. }
  destruct (space_rest C) as [[[[Area Gd0] Gd1] Gu0] Gu1]. unfold stvk_W. cbn [snd]. set (S := MakePositiveDefinite_Sim22 _).
  assert (SP : forall x y, 0 <= form22 S x y) by (intros; apply mpd_psd). clearbody S. split.
  - intros v. rewrite ddW_form by apply constit_sym. cbv zeta. apply Rmult_le_pos; [auto|]. apply Rplus_le_le_0_compat; [apply constit_psd; auto|]. rewrite sum_3. apply Rplus_le_le_0_compat; [apply Rplus_le_le_0_compat|]; apply SP.
  - intros i j d e I J D E. destruct (constit_sym Gu0 Gu1 lambda myu) as (K0 & K1 & K2). unfold stvk_ddW. rewrite K0, K1, K2. rewrite (Nat.eqb_sym d e). destruct (Nat.eqb e d); ring.
Qed.
Lemma stress_value : forall A Gu0 Gu1 lambda myu Gd0 Gd1 gd0 gd1 fa fb x1 y1 x2 y2, x1 * y2 - x2 * y1 <> 0 -> has_metric Gu0 Gu1 (metric x1 y1 x2 y2) ->
  Dot3 Gd0 Gd0 = x1 * x1 + y1 * y1 -> Dot3 Gd1 Gd1 = x2 * x2 + y2 * y2 -> Dot3 Gd0 Gd1 = x1 * x2 + y1 * y2 ->
  (forall d, (d < 3)%nat -> gd0 d = x1 * fa d + y1 * fb d) -> (forall d, (d < 3)%nat -> gd1 d = x2 * fa d + y2 * fb d) ->
  let S := fst (fst (stvk_W A (constit Gu0 Gu1 lambda myu) Gd0 Gd1 gd0 gd1)) in
  S 0%nat = stress lambda myu fa fb (y2 / (x1 * y2 - x2 * y1)) (- x2 / (x1 * y2 - x2 * y1)) (y2 / (x1 * y2 - x2 * y1)) (- x2 / (x1 * y2 - x2 * y1)) /\
  S 1%nat = stress lambda myu fa fb (- y1 / (x1 * y2 - x2 * y1)) (x1 / (x1 * y2 - x2 * y1)) (- y1 / (x1 * y2 - x2 * y1)) (x1 / (x1 * y2 - x2 * y1)) /\
  S 2%nat = stress lambda myu fa fb (y2 / (x1 * y2 - x2 * y1)) (- x2 / (x1 * y2 - x2 * y1)) (- y1 / (x1 * y2 - x2 * y1)) (x1 / (x1 * y2 - x2 * y1)).
Proof.
  intros A Gu0 Gu1 lambda myu Gd0 Gd1 gd0 gd1 fa fb x1 y1 x2 y2 N (G0 & G1 & G2) D0 D1 D2 E0 E1 S.
  assert (F0 : Dot3 gd0 gd0 = x1 * x1 * dot fa fa + 2 * x1 * y1 * dot fa fb + y1 * y1 * dot fb fb) by (unfold dot, Dot3; rewrite !sum_3, !E0 by lia; ring).
  assert (F1 : Dot3 gd1 gd1 = x2 * x2 * dot fa fa + 2 * x2 * y2 * dot fa fb + y2 * y2 * dot fb fb) by (unfold dot, Dot3; rewrite !sum_3, !E1 by lia; ring).
  assert (F2 : Dot3 gd0 gd1 = x1 * x2 * dot fa fa + (x1 * y2 + x2 * y1) * dot fa fb + y1 * y2 * dot fb fb) by (unfold dot, Dot3; rewrite !sum_3, !E0, !E1 by lia; ring).
  unfold S, stvk_W, strain2, constit, stress, strain_aa, strain_bb, strain_ab. cbn [fst snd nth]. rewrite G0, G1, G2, D0, D1, D2, F0, F1, F2. unfold metric. cbn [nth].
  set (p := dot fa fa). set (q := dot fa fb). set (r := dot fb fb). clearbody p q r. clear - N. repeat split; field; auto.
Qed.
Lemma cst_exact : forall C c lambda myu a b x1 y1 x2 y2 fa fb, in_frame C a b x1 y1 x2 y2 -> x1 * y2 - x2 * y1 <> 0 -> deforms c fa fb x1 y1 x2 y2 ->
  let D := x1 * y2 - x2 * y1 in
  let s00 := stress lambda myu fa fb (y2 / D) (- x2 / D) (y2 / D) (- x2 / D) in let s11 := stress lambda myu fa fb (- y1 / D) (x1 / D) (- y1 / D) (x1 / D) in
  let s01 := stress lambda myu fa fb (y2 / D) (- x2 / D) (- y1 / D) (x1 / D) in
  0 < s00 - / 100000000000000000000 -> s01 * s01 < (s00 - / 100000000000000000000) * (s11 - / 100000000000000000000) ->
  is_jacobian 3 3 (fun q => snd (fst (WdWddW_CST C q lambda myu))) c (snd (WdWddW_CST C c lambda myu)).
Proof.
  intros C c lambda myu a b x1 y1 x2 y2 fa fb F N (E0 & E1) D s00 s11 s01 P Q. pose proof (space_metric C a b x1 y1 x2 y2 F N) as S. destruct (gram C a b x1 y1 x2 y2 F) as (G0 & G1 & G2 & _).
  unfold WdWddW_CST. destruct (space_rest C) as [[[[Area Gd0] Gd1] Gu0] Gu1]. destruct S as (EA & D0 & D1 & HM). rewrite <- D0, <- D1 in *.
  destruct (stress_value Area Gu0 Gu1 lambda myu Gd0 Gd1 (vsub (c 1%nat) (c 0%nat)) (vsub (c 2%nat) (c 0%nat)) fa fb x1 y1 x2 y2 N HM G0 G1 G2 E0 E1) as (V0 & V1 & V2).
  fold D in V0, V1, V2. fold s00 in V0. fold s11 in V1. fold s01 in V2. rewrite <- V0, <- V1, <- V2 in *.
  pose proof (W_h Area (constit Gu0 Gu1 lambda myu) Gd0 Gd1 c (constit_sym _ _ _ _)) as H.
  assert (MS : MakePositiveDefinite_Sim22 (fst (fst (stvk_W Area (constit Gu0 Gu1 lambda myu) Gd0 Gd1 (vsub (c 1%nat) (c 0%nat)) (vsub (c 2%nat) (c 0%nat))))) =
    fst (fst (stvk_W Area (constit Gu0 Gu1 lambda myu) Gd0 Gd1 (vsub (c 1%nat) (c 0%nat)) (vsub (c 2%nat) (c 0%nat))))) by (apply mpd_same; auto).
  rewrite <- MS in H. clear MS. unfold stvk_W in *. cbn [fst snd] in *. exact H.
Qed.

(** The most isometric parameterization. *)
Definition marea (p : conf) : R := Length3 (Cross (vsub (p 1%nat) (p 0%nat)) (vsub (p 0%nat) (p 2%nat))) * (1 / 2).
Lemma marea_area : forall p, marea p = area (p 0%nat) (p 1%nat) (p 2%nat).
Proof.
  intros p. unfold marea, area. rewrite len_cross. unfold Length3. replace (1 / 2) with (/ 2) by field. unfold Rdiv. f_equal. f_equal. unfold Cross, vsub, diff. cbn [nth]. ring.
Qed.
Lemma mips_EC : forall C p a b x1 y1 x2 y2 fa fb, in_frame C a b x1 y1 x2 y2 -> x1 * y2 - x2 * y1 <> 0 -> deforms p fa fb x1 y1 x2 y2 -> 0 < area (p 0%nat) (p 1%nat) (p 2%nat) ->
  let A := Rabs (x1 * y2 - x2 * y1) / 2 in let J := area (p 0%nat) (p 1%nat) (p 2%nat) / A in
  fst (fst (WdWddW_MIPS p C)) = A * (dot fa fa + dot fb fb) * (J + / J).
Proof.
  intros C p a b x1 y1 x2 y2 fa fb F N (E0 & E1) AP A J. destruct (gram C a b x1 y1 x2 y2 F) as (G0 & G1 & G2 & L).
  unfold WdWddW_MIPS, mips_rest. cbn [fst]. change (Length3 (Cross (vsub (p 1%nat) (p 0%nat)) (vsub (p 0%nat) (p 2%nat))) * (1 / 2)) with (marea p). rewrite marea_area.
  unfold mips_E. cbv zeta. cbn [fst]. rewrite L.
  assert (R0 : 0 < Rabs (x1 * y2 - x2 * y1)) by (apply Rabs_pos_lt; auto).
  assert (SQ : Rabs (x1 * y2 - x2 * y1) * Rabs (x1 * y2 - x2 * y1) = (x1 * y2 - x2 * y1) * (x1 * y2 - x2 * y1)) by (rewrite <- Rabs_mult; apply Rabs_right; apply Rle_ge; apply Rle_0_sqr).
  unfold J, A in *. set (r := Rabs _) in *. clearbody r. set (ar := area _ _ _) in *. clearbody ar.
  assert (F0 : Dot3 (vsub (p 1%nat) (p 0%nat)) (vsub (p 1%nat) (p 0%nat)) = x1 * x1 * dot fa fa + 2 * x1 * y1 * dot fa fb + y1 * y1 * dot fb fb) by (unfold dot, Dot3, vsub; rewrite !sum_3, !E0 by lia; ring).
  assert (F1 : Dot3 (vsub (p 2%nat) (p 0%nat)) (vsub (p 2%nat) (p 0%nat)) = x2 * x2 * dot fa fa + 2 * x2 * y2 * dot fa fb + y2 * y2 * dot fb fb) by (unfold dot, Dot3, vsub; rewrite !sum_3, !E1 by lia; ring).
  assert (F2 : Dot3 (vsub (p 1%nat) (p 0%nat)) (vsub (p 2%nat) (p 0%nat)) = x1 * x2 * dot fa fa + (x1 * y2 + x2 * y1) * dot fa fb + y1 * y2 * dot fb fb) by (unfold dot, Dot3, vsub; rewrite !sum_3, !E0, !E1 by lia; ring).
  assert (T : forall q : conf, Dot3 (vsub (q 1%nat) (q 2%nat)) (vsub (q 1%nat) (q 2%nat)) = Dot3 (vsub (q 1%nat) (q 0%nat)) (vsub (q 1%nat) (q 0%nat)) + Dot3 (vsub (q 2%nat) (q 0%nat)) (vsub (q 2%nat) (q 0%nat)) - 2 * Dot3 (vsub (q 1%nat) (q 0%nat)) (vsub (q 2%nat) (q 0%nat)))
    by (intros q; unfold Dot3, vsub; ring).
  assert (T1 : forall q : conf, Dot3 (vsub (q 0%nat) (q 1%nat)) (vsub (q 0%nat) (q 1%nat)) = Dot3 (vsub (q 1%nat) (q 0%nat)) (vsub (q 1%nat) (q 0%nat))) by (intros q; unfold Dot3, vsub; ring).
  rewrite (T p), (T C), (T1 p), (T1 C), F0, F1, F2, G0, G1, G2.
  set (u := dot fa fa). set (w := dot fa fb). set (z := dot fb fb). clearbody u w z.
  transitivity ((x1 * y2 - x2 * y1) * (x1 * y2 - x2 * y1) * (u + z) / (2 * r) * (r / 2 / ar + ar / (r / 2))); [field; lra|]. rewrite <- SQ. field. lra.
Qed.
Definition mEC (lA lB lC A : R) (p : conf) : R :=
  let la := Dot3 (vsub (p 1%nat) (p 2%nat)) (vsub (p 1%nat) (p 2%nat)) in let lb := Dot3 (vsub (p 2%nat) (p 0%nat)) (vsub (p 2%nat) (p 0%nat)) in
  let lc := Dot3 (vsub (p 0%nat) (p 1%nat)) (vsub (p 0%nat) (p 1%nat)) in ((- la + lb + lc) * lA + (la - lb + lc) * lB + (la + lb - lc) * lC) * (1 / (8 * A)).
Definition mT (lA lB lC A : R) (i j : nat) : R :=
  let tmp0 := 1 / (8 * A) in let t01 := (- 2 * lA - 2 * lB + 2 * lC) * tmp0 in let t02 := (- 2 * lA + 2 * lB - 2 * lC) * tmp0 in let t12 := (2 * lA - 2 * lB - 2 * lC) * tmp0 in
  nth j (nth i [[4 * lA * tmp0; t01; t02]; [t01; 4 * lB * tmp0; t12]; [t02; t12; 4 * lC * tmp0]] []) 0.
Definition mdEC (lA lB lC A : R) (p : conf) : conf := fun i d => mT lA lB lC A i 0%nat * p 0%nat d + mT lA lB lC A i 1%nat * p 1%nat d + mT lA lB lC A i 2%nat * p 2%nat d.
Definition mdad (ar : R) (p : conf) : conf :=
  let v01 := vsub (p 1%nat) (p 0%nat) in let v12 := vsub (p 2%nat) (p 1%nat) in let v20 := vsub (p 0%nat) (p 2%nat) in let tmp1 := 1 / 4 / ar in
  fun i d => nth i [(Dot3 v20 v12 * v01 d - Dot3 v01 v12 * v20 d) * tmp1; (Dot3 v01 v20 * v12 d - Dot3 v12 v20 * v01 d) * tmp1; (Dot3 v12 v01 * v20 d - Dot3 v20 v01 * v12 d) * tmp1] 0.
Lemma mips_W_eq : forall lA lB lC A ar p, fst (fst (mips_E lA lB lC A ar p)) = mEC lA lB lC A p * (A / ar + ar / A).
Proof. reflexivity. Qed.
Lemma mips_dW_eq : forall lA lB lC A ar p, snd (fst (mips_E lA lB lC A ar p)) =
  fun i d => mEC lA lB lC A p * (1 / A - A / (ar * ar)) * mdad ar p i d + (A / ar + ar / A) * mdEC lA lB lC A p i d.
Proof. reflexivity. Qed.
Lemma rate_mEC : forall lA lB lC A c x v, A <> 0 -> moves 3 3 c x v -> derivable_pt_lim (fun s => mEC lA lB lC A (c s)) x (power 3 3 (mdEC lA lB lC A (c x)) v).
Proof.
  intros lA lB lC A c x v N M. three (fun d => M 0%nat d ltac:(lia)). three (fun d => M 1%nat d ltac:(lia)). three (fun d => M 2%nat d ltac:(lia)).
  rewrite power_3_3. unfold mEC, mdEC, mT, Dot3, vsub. cbv zeta. cbn [nth]. eapply rate_eq; [rt|]. ring.
Qed.
Lemma rate_marea : forall c x v, 0 < marea (c x) -> moves 3 3 c x v -> derivable_pt_lim (fun s => marea (c s)) x (power 3 3 (mdad (marea (c x)) (c x)) v).
Proof.
  intros c x v P M.
  pose proof (rate_cross _ _ _ _ _ (rate_vsub 3 c x v 0 1 M ltac:(lia) ltac:(lia)) (rate_vsub 3 c x v 2 0 M ltac:(lia) ltac:(lia))) as RC.
  assert (LP : 0 < Length3 (Cross (vsub (c x 1%nat) (c x 0%nat)) (vsub (c x 0%nat) (c x 2%nat)))) by (unfold marea in P; lra).
  pose proof (rate_len _ _ _ RC LP) as RL. pose proof (rate_mult _ _ _ _ _ RL (rate_const (1 / 2) x)) as G.
  eapply rate_eq; [exact G|]. clear RC RL G. cbv beta. rewrite power_3_3. unfold mdad. cbv zeta. cbn [nth].
  replace (marea (c x)) with (Length3 (Cross (vsub (c x 1%nat) (c x 0%nat)) (vsub (c x 0%nat) (c x 2%nat))) * (1 / 2)) by reflexivity.
  set (l := Length3 _) in *. clearbody l. unfold Dot3, Cross, vsub. cbn [nth]. field. lra.
Qed.
Lemma mips_g : forall C p, 0 < area (p 0%nat) (p 1%nat) (p 2%nat) -> 0 < area (C 0%nat) (C 1%nat) (C 2%nat) ->
  is_gradient 3 3 (fun q => fst (fst (WdWddW_MIPS q C))) p (snd (fst (WdWddW_MIPS p C))).
Proof.
  intros C p AP AC c x v E M. subst p. rewrite <- marea_area in AP. unfold WdWddW_MIPS.
  destruct (mips_rest C) as [[[lA lB] lC] A] eqn:EM.
  assert (PA : 0 < A).
  { unfold mips_rest in EM. injection EM as _ _ _ EA. rewrite <- EA. unfold area in AC. rewrite len_cross in AC. change (diff ?a ?b) with (vsub a b) in AC. lra. }
  clear EM AC. cbv zeta. fold (marea (c x)).
  pose proof (rate_marea c x v AP M) as RA. pose proof (rate_mEC lA lB lC A c x v ltac:(lra) M) as RE.
  rewrite mips_dW_eq. apply (rate_ext (fun s => mEC lA lB lC A (c s) * (A / marea (c s) + marea (c s) / A))); [reflexivity|].
  rewrite power_3_3 in *. eapply rate_eq; [rt; lra|]. set (ar := marea (c x)) in *. clearbody ar.
  set (e := mEC _ _ _ _ _). set (g := mdad ar (c x)). set (h := mdEC _ _ _ _ _). clearbody e g h. field. lra.
Qed.
