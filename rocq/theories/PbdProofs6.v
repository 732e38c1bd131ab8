(** The rotational component of a matrix with two rows. *)
From Coq Require Import List Arith Bool Reals Lra Lia.
Import ListNotations.
From Verif Require Import Imp PrModel GjkProofs1 PbdModel PbdSpec.
Open Scope R_scope.

Section Polar.
Variables (a0 a1 a2 a3 l0 l1 p q x y i0 i1 : R).
Let g0 := a0 * a0 + a2 * a2.
Let g1 := a0 * a1 + a2 * a3.
Let g3 := a1 * a1 + a3 * a3.
Hypothesis U0 : p * p + q * q = 1.
Hypothesis U1 : x * x + y * y = 1.
Hypothesis OR : p * x + q * y = 0.
Hypothesis E0 : g0 * p + g1 * q = l0 * p.
Hypothesis E1 : g1 * p + g3 * q = l0 * q.
Hypothesis TR : g0 + g3 = l0 + l1.
Hypothesis I0 : i0 * i0 * l0 = 1.
Hypothesis I1 : i1 * i1 * l1 = 1.
Hypothesis P0 : 0 < i0.
Hypothesis P1 : 0 < i1.
Hypothesis DA : 0 < a0 * a3 - a1 * a2.
Let S := VLVt2 i0 i1 (p, x, q, y).
Lemma polar : exists c s t, MatMat2 (a0, a1, a2, a3) S = (c, - s, s, c) /\ c * c + s * s = 1 /\ 0 < t /\ a0 + a3 = t * c /\ a2 - a1 = t * s.
Proof.
  assert (XX : x * x = q * q). { transitivity (x * x * (p * p + q * q)); [rewrite U0; ring|]. transitivity ((p * x + q * y) * (p * x - q * y) + q * q * (x * x + y * y)); [ring|rewrite OR, U1; ring]. }
  assert (YY : y * y = p * p) by lra.
  assert (XY : x * y = - (p * q)). { transitivity (x * y * (p * p + q * q)); [rewrite U0; ring|]. transitivity (p * y * (p * x + q * y) + q * x * (p * x + q * y) - p * q * (x * x + y * y)); [ring|rewrite OR, U1; ring]. }
  assert (G0 : g0 = l0 * (p * p) + l1 * (q * q)). { transitivity (g0 * (p * p + q * q)); [rewrite U0; ring|]. transitivity (p * (g0 * p + g1 * q) - q * (g1 * p + g3 * q) + q * q * (g0 + g3)); [ring|rewrite E0, E1, TR; ring]. }
  assert (G3 : g3 = l0 * (q * q) + l1 * (p * p)). { apply (Rplus_eq_reg_l g0). rewrite TR, G0. transitivity ((l0 + l1) * (p * p + q * q)); [rewrite U0; ring|ring]. }
  assert (G1 : g1 = (l0 - l1) * (p * q)). { transitivity (g1 * (p * p + q * q)); [rewrite U0; ring|]. transitivity (q * (g0 * p + g1 * q) + p * (g1 * p + g3 * q) - p * q * (g0 + g3)); [ring|rewrite E0, E1, TR; ring]. }
  assert (HS : S = (i0 * (p * p) + i1 * (q * q), (i0 - i1) * (p * q), (i0 - i1) * (p * q), i0 * (q * q) + i1 * (p * p))).
  { unfold S, VLVt2. f_equal; [f_equal; [f_equal|]|].
    - transitivity (i0 * (p * p) + i1 * (x * x)); [ring|rewrite XX; ring].
    - transitivity (i0 * (p * q) + i1 * (x * y)); [ring|rewrite XY; ring].
    - transitivity (i0 * (p * q) + i1 * (x * y)); [ring|rewrite XY; ring].
    - transitivity (i0 * (q * q) + i1 * (y * y)); [ring|rewrite YY; ring]. }
  rewrite HS. unfold MatMat2. set (s0 := i0 * (p * p) + i1 * (q * q)). set (s1 := (i0 - i1) * (p * q)). set (s3 := i0 * (q * q) + i1 * (p * p)).
  set (r0 := a0 * s0 + a1 * s1). set (r1 := a0 * s1 + a1 * s3). set (r2 := a2 * s0 + a3 * s1). set (r3 := a2 * s1 + a3 * s3).
  assert (R00 : r0 * r0 + r2 * r2 = 1).
  { transitivity (g0 * s0 * s0 + 2 * g1 * s0 * s1 + g3 * s1 * s1); [unfold r0, r2, g0, g1, g3; ring|]. rewrite G0, G1, G3. transitivity ((i0 * i0 * l0 * (p * p) + i1 * i1 * l1 * (q * q)) * (p * p + q * q) ^ 2); [unfold s0, s1; ring|]. rewrite I0, I1, U0. lra. }
  assert (R11 : r1 * r1 + r3 * r3 = 1).
  { transitivity (g0 * s1 * s1 + 2 * g1 * s1 * s3 + g3 * s3 * s3); [unfold r1, r3, g0, g1, g3; ring|]. rewrite G0, G1, G3. transitivity ((i0 * i0 * l0 * (q * q) + i1 * i1 * l1 * (p * p)) * (p * p + q * q) ^ 2); [unfold s1, s3; ring|]. rewrite I0, I1, U0. lra. }
  assert (R01 : r0 * r1 + r2 * r3 = 0).
  { transitivity (g0 * s0 * s1 + g1 * (s0 * s3 + s1 * s1) + g3 * s1 * s3); [unfold r0, r1, r2, r3, g0, g1, g3; ring|]. rewrite G0, G1, G3. transitivity ((i0 * i0 * l0 - i1 * i1 * l1) * (p * q) * (p * p + q * q) ^ 2); [unfold s0, s1, s3; ring|]. rewrite I0, I1. ring. }
  assert (DR : r0 * r3 - r1 * r2 = (a0 * a3 - a1 * a2) * (i0 * i1)).
  { transitivity ((a0 * a3 - a1 * a2) * (i0 * i1) * (p * p + q * q) ^ 2); [unfold r0, r1, r2, r3, s0, s1, s3; ring|]. rewrite U0. ring. }
  assert (DP : 0 < r0 * r3 - r1 * r2) by (rewrite DR; repeat apply Rmult_lt_0_compat; auto).
  assert (D1 : r0 * r3 - r1 * r2 = 1).
  { assert (Q : (r0 * r3 - r1 * r2) * (r0 * r3 - r1 * r2) = 1). { transitivity ((r0 * r0 + r2 * r2) * (r1 * r1 + r3 * r3) - (r0 * r1 + r2 * r3) * (r0 * r1 + r2 * r3)); [ring|rewrite R00, R11, R01; ring]. }
    assert (F : (r0 * r3 - r1 * r2 - 1) * (r0 * r3 - r1 * r2 + 1) = 0) by lra. apply Rmult_integral in F. destruct F; lra. }
  assert (Z : (r0 - r3) * (r0 - r3) + (r1 + r2) * (r1 + r2) = 0) by lra.
  pose proof (Rle_0_sqr (r0 - r3)) as Q0. pose proof (Rle_0_sqr (r1 + r2)) as Q1. unfold Rsqr in Q0, Q1.
  assert (R3 : r3 = r0). { assert (F : (r0 - r3) * (r0 - r3) = 0) by lra. apply Rmult_integral in F. destruct F; lra. }
  assert (R1 : r1 = - r2). { assert (F : (r1 + r2) * (r1 + r2) = 0) by lra. apply Rmult_integral in F. destruct F; lra. }
  exists r0, r2, (i0 * l0 + i1 * l1).
  assert (L0 : 0 < l0). { destruct (Rle_lt_dec l0 0); auto. assert (0 < i0 * i0) by (apply Rmult_lt_0_compat; auto). nra. }
  assert (L1 : 0 < l1). { destruct (Rle_lt_dec l1 0); auto. assert (0 < i1 * i1) by (apply Rmult_lt_0_compat; auto). nra. }
  assert (TT : r0 * (a0 + a3) + r2 * (a2 - a1) = i0 * l0 + i1 * l1).
  { transitivity (r0 * a0 + r2 * a2 + (r1 * a1 + r3 * a3)); [rewrite R1, R3; ring|]. transitivity (g0 * s0 + 2 * g1 * s1 + g3 * s3); [unfold r0, r1, r2, r3, g0, g1, g3; ring|]. rewrite G0, G1, G3.
    transitivity ((i0 * l0 + i1 * l1) * (p * p + q * q) ^ 2); [unfold s0, s1, s3; ring|rewrite U0; ring]. }
  assert (SY : r0 * (a2 - a1) - r2 * (a0 + a3) = 0).
  { transitivity (r3 * a2 + r1 * a0 - (r0 * a1 + r2 * a3)); [rewrite R1, R3; ring|]. transitivity (g0 * s1 + g1 * s3 - (g1 * s0 + g3 * s1)); [unfold r0, r1, r2, r3, g0, g1, g3; ring|]. rewrite G0, G1, G3. unfold s0, s1, s3. ring. }
  split; [rewrite R1, R3; reflexivity|]. split; [exact R00|]. split; [apply Rplus_lt_0_compat; apply Rmult_lt_0_compat; auto|]. split.
  - transitivity ((a0 + a3) * (r0 * r0 + r2 * r2)); [rewrite R00; ring|]. transitivity ((r0 * (a0 + a3) + r2 * (a2 - a1)) * r0 - r2 * (r0 * (a2 - a1) - r2 * (a0 + a3))); [ring|rewrite TT, SY; ring].
  - transitivity ((a2 - a1) * (r0 * r0 + r2 * r2)); [rewrite R00; ring|]. transitivity ((r0 * (a0 + a3) + r2 * (a2 - a1)) * r2 + r0 * (r0 * (a2 - a1) - r2 * (a0 + a3))); [ring|rewrite TT, SY; ring].
Qed.
End Polar.

Lemma normal2_unit : forall x y, eps20 < x * x + y * y -> exists n, 0 < n /\ normal2 x y = (x * n, y * n) /\ (x * n) * (x * n) + (y * n) * (y * n) = 1.
Proof.
  intros x y H. assert (E : 0 < eps20) by (apply Rinv_0_lt_compat; lra). unfold normal2. pose proof (ltRs eps20 (x * x + y * y)) as C. destruct (ltR eps20 (x * x + y * y)); [|lra].
  assert (S : 0 < sqrt (x * x + y * y)) by (apply sqrt_lt_R0; lra). exists (1 / sqrt (x * x + y * y)). split; [apply Rdiv_lt_0_compat; lra|]. split; [reflexivity|].
  transitivity ((x * x + y * y) / (sqrt (x * x + y * y) * sqrt (x * x + y * y))); [field; lra|]. rewrite sqrt_sqrt by lra. field. lra.
Qed.
Lemma sq_sum : forall a b c d, a * a + b * b + (c * c + d * d) <= (Rabs a + Rabs b + Rabs c + Rabs d) * (Rabs a + Rabs b + Rabs c + Rabs d).
Proof.
  intros. assert (Q : forall t, t * t = Rabs t * Rabs t) by (intro t; rewrite <- Rabs_mult; symmetry; apply Rabs_right, Rle_ge, Rle_0_sqr). rewrite (Q a), (Q b), (Q c), (Q d).
  pose proof (Rabs_pos a). pose proof (Rabs_pos b). pose proof (Rabs_pos c). pose proof (Rabs_pos d).
  assert (0 <= Rabs a * Rabs b) by (apply Rmult_le_pos; auto). assert (0 <= Rabs a * Rabs c) by (apply Rmult_le_pos; auto). assert (0 <= Rabs a * Rabs d) by (apply Rmult_le_pos; auto).
  assert (0 <= Rabs b * Rabs c) by (apply Rmult_le_pos; auto). assert (0 <= Rabs b * Rabs d) by (apply Rmult_le_pos; auto). assert (0 <= Rabs c * Rabs d) by (apply Rmult_le_pos; auto). lra.
Qed.
Lemma rotational : forall m0 m1 m2 m3, regular m0 m1 m2 m3 -> exists c s t, RotationalComponentOfMatrix2 (m0, m1, m2, m3) = (c, - s, s, c) /\ c * c + s * s = 1 /\ 0 < t /\ m0 + m3 = t * c /\ m2 - m1 = t * s.
Proof.
  intros m0 m1 m2 m3 (H0 & H1 & H2). unfold size4 in *. unfold RotationalComponentOfMatrix2. cbn [gramian2 fst snd]. set (s := Rabs m0 + Rabs m1 + Rabs m2 + Rabs m3) in *.
  assert (SP : 0 < s) by (assert (0 < / 10000000000) by (apply Rinv_0_lt_compat; lra); lra). pose proof (ltRs s (/ 10000000000)) as C. destruct (ltR s (/ 10000000000)); [lra|]. clear C.
  pose proof (sq_sum m0 m1 m2 m3) as SQ. fold s in SQ. clearbody s.
  set (e := / 10000000000) in *. assert (EE : eps20 = e * e) by (unfold eps20, e; rewrite <- Rinv_mult; f_equal; ring). assert (EP : 0 < e) by (apply Rinv_0_lt_compat; lra). assert (E1 : e < 1) by (unfold e; apply Rinv_1_lt_contravar || (rewrite <- Rinv_1; apply Rinv_lt_contravar; lra); lra).
  rewrite EE in *. 
  set (a0 := 1 / s * m0). set (a1 := 1 / s * m1). set (a2 := 1 / s * m2). set (a3 := 1 / s * m3).
  assert (M0 : m0 = s * a0) by (unfold a0; field; lra). assert (M1 : m1 = s * a1) by (unfold a1; field; lra). assert (M2 : m2 = s * a2) by (unfold a2; field; lra). assert (M3 : m3 = s * a3) by (unfold a3; field; lra).
  clearbody a0 a1 a2 a3. subst m0 m1 m2 m3. assert (SS : 0 < s * s) by (apply Rmult_lt_0_compat; auto).
  assert (DA : e <= a0 * a3 - a1 * a2) by (apply (Rmult_le_reg_l (s * s)); [auto|]; lra).
  assert (B1 : a0 * a0 + a1 * a1 + (a2 * a2 + a3 * a3) <= 1) by (apply (Rmult_le_reg_l (s * s)); [auto|]; lra).
  set (g0 := a0 * a0 + a2 * a2) in *. set (g1 := a0 * a1 + a2 * a3) in *. set (g3 := a1 * a1 + a3 * a3) in *.
  assert (RG : e < Rabs g1 \/ g0 + e < g3).
  { destruct H2 as [H2|H2]; [left|right].
    - apply (Rmult_lt_reg_l (s * s)); [auto|]. replace (s * s * Rabs g1) with (Rabs (s * s * g1)) by (rewrite Rabs_mult, (Rabs_right (s * s)); lra). replace (s * s * g1) with (s * a0 * (s * a1) + s * a2 * (s * a3)) by (unfold g1; ring). lra.
    - apply (Rmult_lt_reg_l (s * s)); [auto|]. unfold g0, g3. lra. }
  clear H0 H1 H2 SQ.
  set (b := g0 + g3). set (c := g0 * g3 - g1 * g1). set (d := b * b - 4 * c).
  assert (DC : c = (a0 * a3 - a1 * a2) * (a0 * a3 - a1 * a2)) by (unfold c, g0, g1, g3; ring). assert (CP : e * e <= c) by (rewrite DC; apply Rmult_le_compat; lra).
  assert (DD : d = (g0 - g3) * (g0 - g3) + 4 * (g1 * g1)) by (unfold d, b, c; ring).
  assert (GA : g1 * g1 = Rabs g1 * Rabs g1) by (rewrite <- Rabs_mult; symmetry; apply Rabs_right, Rle_ge, Rle_0_sqr).
  pose proof (Rle_0_sqr (g0 - g3)) as N0. pose proof (Rle_0_sqr g1) as N1. unfold Rsqr in N0, N1.
  assert (EQ : forall z, e < Rabs z -> e * e < z * z) by (intros z Hz; replace (z * z) with (Rabs z * Rabs z) by (rewrite <- Rabs_mult; apply Rabs_right, Rle_ge, Rle_0_sqr); apply Rmult_gt_0_lt_compat; lra).
  assert (DG : e * e < d). { rewrite DD. destruct RG as [H|H]; [apply EQ in H; lra|]. assert (Q : e < Rabs (g0 - g3)) by (rewrite Rabs_minus_sym, Rabs_right; lra). apply EQ in Q. lra. }
  pose proof (ltRs d (e * e)) as CC. destruct (ltR d (e * e)); [lra|]. clear CC. cbn [fst snd].
  assert (DP : 0 < d) by (assert (0 < e * e) by (apply Rmult_lt_0_compat; auto); lra).
  set (r := sqrt d). assert (RP : 0 < r) by (apply sqrt_lt_R0; auto). assert (RR : r * r = d) by (apply sqrt_sqrt; lra). clearbody r.
  assert (BP : 0 <= b) by (unfold b, g0, g3; pose proof (Rle_0_sqr a0); pose proof (Rle_0_sqr a1); pose proof (Rle_0_sqr a2); pose proof (Rle_0_sqr a3); unfold Rsqr in *; lra).
  set (l0 := 1 / 2 * (b + r)). set (l1 := 1 / 2 * (b - r)). assert (LL : l0 * l1 = c) by (unfold l0, l1; transitivity ((b * b - r * r) / 4); [field|rewrite RR; unfold d; field]). assert (LS : g0 + g3 = l0 + l1) by (unfold l0, l1; fold b; field).
  assert (EE0 : 0 < e * e) by (apply Rmult_lt_0_compat; auto).
  assert (L0P : 0 < l0) by (unfold l0; lra). assert (L1P : 0 < l1). { apply (Rmult_lt_reg_l l0); [auto|]. rewrite LL. lra. }
  assert (L0B : l0 <= 1). { fold b in LS. unfold b, g0, g3 in LS. lra. }
  assert (L1E : e * e <= l1). { apply Rle_trans with c; [auto|]. rewrite <- LL. transitivity (1 * l1) || idtac. nra. }
  assert (L0E : e * e <= l0) by (unfold l0, l1 in *; lra).
  assert (RG3 : g3 - g0 <= r). { destruct (Rle_lt_dec (g3 - g0) r); auto. assert (r * r < (g3 - g0) * (g3 - g0)) by (apply Rmult_gt_0_lt_compat; lra). lra. }
  assert (V0 : e * e < g1 * g1 + (g3 - l1) * (g3 - l1)).
  { pose proof (Rle_0_sqr (g3 - l1)) as N2. unfold Rsqr in N2. destruct RG as [H|H]; [apply EQ in H; lra|]. assert (Q : e < Rabs (g3 - l1)). { rewrite Rabs_right; unfold l1, b; lra. } apply EQ in Q. lra. }
  assert (V1 : e * e < (g0 - l0) * (g0 - l0) + g1 * g1).
  { pose proof (Rle_0_sqr (g0 - l0)) as N2. unfold Rsqr in N2. destruct RG as [H|H]; [apply EQ in H; lra|]. assert (Q : e < Rabs (g0 - l0)). { rewrite Rabs_minus_sym, Rabs_right; unfold l0, b; lra. } apply EQ in Q. lra. }
  destruct (normal2_unit g1 (g3 - l1)) as (n0 & NP0 & NE0 & NU0); [rewrite EE; auto|]. destruct (normal2_unit (g0 - l0) g1) as (n1 & NP1 & NE1 & NU1); [rewrite EE; auto|]. rewrite NE0, NE1. cbn [fst snd].
  pose proof (ltRs l0 (e * e)) as C0. destruct (ltR l0 (e * e)); [lra|]. pose proof (ltRs l1 (e * e)) as C1. destruct (ltR l1 (e * e)); [lra|]. clear C0 C1.
  assert (S0 : 0 < sqrt l0) by (apply sqrt_lt_R0; auto). assert (S1 : 0 < sqrt l1) by (apply sqrt_lt_R0; auto).
  assert (CE : g0 * g3 - g1 * g1 = l0 * l1) by (rewrite LL; reflexivity). 
  destruct (polar a0 a1 a2 a3 l0 l1 (g1 * n0) ((g3 - l1) * n0) ((g0 - l0) * n1) (g1 * n1) (1 / sqrt l0) (1 / sqrt l1)) as (k & z & t & K1 & K2 & K3 & K4 & K5); auto; fold g0 g1 g3.
  - transitivity (g1 * n0 * n1 * (g0 + g3 - (l0 + l1))); [ring|rewrite LS; ring].
  - replace l1 with (g0 + g3 - l0) by lra. ring.
  - assert (G3E : g3 = l0 + l1 - g0) by lra. transitivity (n0 * (g1 * g1 - g0 * g3 + l0 * l1 + l0 * (g3 - l1) + (g0 + g3 - (l0 + l1)) * g3)); [rewrite G3E; ring|]. rewrite <- CE, LS. ring.
  - transitivity (l0 / (sqrt l0 * sqrt l0)); [field; lra|]. rewrite sqrt_sqrt by lra. field. lra.
  - transitivity (l1 / (sqrt l1 * sqrt l1)); [field; lra|]. rewrite sqrt_sqrt by lra. field. lra.
  - apply Rdiv_lt_0_compat; lra.
  - apply Rdiv_lt_0_compat; lra.
  - lra.
  - exists k, z, (s * t). split; [exact K1|]. split; [exact K2|]. split; [apply Rmult_lt_0_compat; auto|]. split; [rewrite Rmult_assoc, <- K4|rewrite Rmult_assoc, <- K5]; ring.
Qed.
