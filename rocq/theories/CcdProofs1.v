(** Roots of cubic functions between 0 and 1. *)
From Coq Require Import List Arith Bool Reals Lra Lia.
Import ListNotations.
From Verif Require Import Imp PrModel GjkProofs1 PlnProofs1 QuatModel ProxModel CcdModel CcdSpec.
Open Scope R_scope.

Definition P (k0 k1 k2 k3 t : R) : R := EvaluateCubic t k0 k1 k2 k3.
Lemma P_lim : forall k0 k1 k2 k3 t, derivable_pt_lim (P k0 k1 k2 k3) t (k1 + 2 * k2 * t + 3 * k3 * t * t).
Proof.
  intros k0 k1 k2 k3 t. unfold P, EvaluateCubic. intros eps E.
  set (M := Rabs k2 + 3 * Rabs (k3 * t) + Rabs k3 + 1). assert (MP : 0 < M) by (unfold M; pose proof (Rabs_pos k2); pose proof (Rabs_pos (k3 * t)); pose proof (Rabs_pos k3); lra).
  assert (DP : 0 < Rmin 1 (eps / M)) by (apply Rmin_pos; [lra|apply Rdiv_lt_0_compat; lra]). exists (mkposreal _ DP). intros h H Hd. change (Rabs h < Rmin 1 (eps / M)) in Hd. assert (H1 : Rabs h < 1) by (eapply Rlt_le_trans; [exact Hd|apply Rmin_l]). assert (H2 : Rabs h < eps / M) by (eapply Rlt_le_trans; [exact Hd|apply Rmin_r]).
  replace ((k0 + k1 * (t + h) + k2 * (t + h) * (t + h) + k3 * (t + h) * (t + h) * (t + h) - (k0 + k1 * t + k2 * t * t + k3 * t * t * t)) / h - (k1 + 2 * k2 * t + 3 * k3 * t * t)) with (h * (k2 + 3 * (k3 * t) + k3 * h)) by (field; auto).
  rewrite Rabs_mult. assert (B : Rabs (k2 + 3 * (k3 * t) + k3 * h) <= M).
  { eapply Rle_trans; [apply Rabs_triang|]. assert (Rabs (k2 + 3 * (k3 * t)) <= Rabs k2 + 3 * Rabs (k3 * t)) by (eapply Rle_trans; [apply Rabs_triang|]; rewrite (Rabs_mult 3), (Rabs_pos_eq 3) by lra; lra). assert (Rabs (k3 * h) <= Rabs k3 * 1) by (rewrite Rabs_mult; apply Rmult_le_compat_l; [apply Rabs_pos|lra]). unfold M. lra. }
  apply Rle_lt_trans with (Rabs h * M); [apply Rmult_le_compat_l; [apply Rabs_pos|auto]|]. apply Rmult_lt_reg_r with (/ M); [apply Rinv_0_lt_compat; auto|]. rewrite Rmult_assoc, Rinv_r, Rmult_1_r by lra. exact H2.
Qed.
Lemma P_cont : forall k0 k1 k2 k3, continuity (P k0 k1 k2 k3).
Proof. intros k0 k1 k2 k3 t. apply derivable_continuous_pt. exists (k1 + 2 * k2 * t + 3 * k3 * t * t). apply P_lim. Qed.
Lemma root_between : forall k0 k1 k2 k3 a b, a <= b -> P k0 k1 k2 k3 a * P k0 k1 k2 k3 b <= 0 -> exists z, a <= z <= b /\ P k0 k1 k2 k3 z = 0.
Proof. intros k0 k1 k2 k3 a b H S. destruct (IVT_cor (P k0 k1 k2 k3) a b (P_cont _ _ _ _) H S) as (z & Z). exists z. auto. Qed.
Lemma bisect_ok : forall k0 k1 k2 k3 n a b, a <= b -> P k0 k1 k2 k3 a * P k0 k1 k2 k3 b < 0 ->
  let r := bisect_loop n a b (P k0 k1 k2 k3 a) (P k0 k1 k2 k3 b) k0 k1 k2 k3 in a <= r <= b /\ exists z, a <= z <= b /\ P k0 k1 k2 k3 z = 0 /\ Rabs (r - z) <= (b - a) / 2 ^ (S n).
Proof.
  intros k0 k1 k2 k3. induction n as [|n IH]; intros a b H Sg r.
  - unfold r. cbn [bisect_loop]. destruct (root_between k0 k1 k2 k3 a b H ltac:(lra)) as (z & Z & E). split; [lra|]. exists z. split; [auto|]. split; [auto|]. cbn [pow]. apply Rabs_le. lra.
  - unfold r. cbn [bisect_loop]. cbv zeta. set (m := 1 / 2 * (a + b)). change (EvaluateCubic m k0 k1 k2 k3) with (P k0 k1 k2 k3 m). assert (M : a <= m <= b) by (unfold m; lra). assert (W : 0 <= (b - a) / 2 ^ (S (S n))) by (apply Rmult_le_pos; [lra|left; apply Rinv_0_lt_compat, pow_lt; lra]).
    assert (HW : forall w, w = (b - a) / 2 -> w / 2 ^ (S n) = (b - a) / 2 ^ (S (S n))) by (intros w ->; cbn [pow]; field; apply pow_nonzero; lra).
    pose proof (eqRs (P k0 k1 k2 k3 m) 0) as Q. destruct (eqR (P k0 k1 k2 k3 m) 0).
    + split; [auto|]. exists m. split; [auto|]. split; [auto|]. rewrite Rminus_diag_eq, Rabs_R0 by auto. auto.
    + pose proof (ltRs (P k0 k1 k2 k3 a * P k0 k1 k2 k3 m) 0) as Q1. destruct (ltR (P k0 k1 k2 k3 a * P k0 k1 k2 k3 m) 0).
      * destruct (IH a m ltac:(lra) Q1) as (A & z & Z & E & B). split; [lra|]. exists z. split; [lra|]. split; [auto|]. rewrite (HW (m - a)) in B by (unfold m; lra). exact B.
      * assert (Sg' : P k0 k1 k2 k3 m * P k0 k1 k2 k3 b < 0).
        { set (x := P k0 k1 k2 k3 a) in *. set (y := P k0 k1 k2 k3 m) in *. set (w := P k0 k1 k2 k3 b) in *. assert (x <> 0) by (intros E; rewrite E in Sg; lra). assert (0 < x * y). { destruct Q1 as [Q1|Q1]; [auto|]. exfalso. symmetry in Q1. apply Rmult_integral in Q1. destruct Q1; contradiction. } assert (0 < y * y) by (apply Rsqr_pos_lt; auto). apply Rnot_le_lt. intros N. assert (0 <= (x * y) * (y * w)) by (apply Rmult_le_pos; lra). assert ((y * y) * (x * w) < 0) by (rewrite <- (Rmult_0_r (y * y)); apply Rmult_lt_compat_l; auto). lra. }
        destruct (IH m b ltac:(lra) Sg') as (A & z & Z & E & B). split; [lra|]. exists z. split; [lra|]. split; [auto|]. rewrite (HW (b - m)) in B by (unfold m; lra). exact B.
Qed.
Lemma find_ok : forall k0 k1 k2 k3 b, 0 <= b <= 1 -> P k0 k1 k2 k3 0 * P k0 k1 k2 k3 b <= 0 ->
  exists r, FindRootCubic_Bisect 0 b (P k0 k1 k2 k3 0) (P k0 k1 k2 k3 b) k0 k1 k2 k3 = Some r /\ 0 <= r <= 1 /\ exists z, 0 <= z <= 1 /\ P k0 k1 k2 k3 z = 0 /\ Rabs (r - z) <= 1 / 2 ^ 16.
Proof.
  intros k0 k1 k2 k3 b B S. unfold FindRootCubic_Bisect. rewrite ltRf by lra. cbn [negb assertb bind]. assert (T : 0 <= 1 / 2 ^ 16) by (apply Rmult_le_pos; [lra|left; apply Rinv_0_lt_compat, pow_lt; lra]).
  assert (G : forall r, 0 <= r <= 1 -> P k0 k1 k2 k3 r = 0 -> 0 <= r <= 1 /\ exists z, 0 <= z <= 1 /\ P k0 k1 k2 k3 z = 0 /\ Rabs (r - z) <= 1 / 2 ^ 16). { intros r Hr Z. split; [auto|]. exists r. split; [auto|]. split; [auto|]. rewrite Rminus_diag_eq, Rabs_R0 by auto. auto. }
  pose proof (eqRs (P k0 k1 k2 k3 0 * P k0 k1 k2 k3 b) 0) as Q. destruct (eqR (P k0 k1 k2 k3 0 * P k0 k1 k2 k3 b) 0).
  - pose proof (eqRs (P k0 k1 k2 k3 0) 0) as Q0. destruct (eqR (P k0 k1 k2 k3 0) 0); eexists; (split; [reflexivity|]); apply G; auto; try lra. apply Rmult_integral in Q. destruct Q; [contradiction|auto].
  - eexists. split; [reflexivity|]. destruct (bisect_ok k0 k1 k2 k3 15 0 b ltac:(lra)) as (A & z & Z & E & W). { destruct S; [auto|contradiction]. } split; [lra|]. exists z. split; [lra|]. split; [auto|]. eapply Rle_trans; [exact W|]. apply Rmult_le_compat_r; [left; apply Rinv_0_lt_compat, pow_lt; lra|lra].
Qed.
(** Where a function without a change of sign between 0 and 1 has a root, it has an extreme value that is not on its side. *)
Lemma dip : forall k0 k1 k2 k3 z, 0 < P k0 k1 k2 k3 0 * P k0 k1 k2 k3 1 -> 0 <= z <= 1 -> P k0 k1 k2 k3 0 * P k0 k1 k2 k3 z <= 0 -> exists m, 0 < m < 1 /\ P k0 k1 k2 k3 0 * P k0 k1 k2 k3 m <= P k0 k1 k2 k3 0 * P k0 k1 k2 k3 z /\ k1 + 2 * k2 * m + 3 * k3 * m * m = 0.
Proof.
  intros k0 k1 k2 k3 z S Z E. set (c := P k0 k1 k2 k3 0) in *. set (g := mult_real_fct c (P k0 k1 k2 k3)).
  assert (L : forall t, derivable_pt_lim g t (c * (k1 + 2 * k2 * t + 3 * k3 * t * t))) by (intros t; apply derivable_pt_lim_scal, P_lim).
  destruct (continuity_ab_min g 0 1) as (m & M & Mi); [lra|intros t _; apply derivable_continuous_pt; eexists; apply L|]. change (forall t, 0 <= t <= 1 -> c * P k0 k1 k2 k3 m <= c * P k0 k1 k2 k3 t) in M. pose proof (M z Z) as Mz.
  assert (C : c <> 0) by (intros E0; rewrite E0 in S; lra). assert (CC : 0 < c * c) by (apply Rsqr_pos_lt; auto).
  assert (m <> 0) by (intros ->; fold c in Mz; lra). assert (m <> 1) by (intros ->; lra). exists m. split; [lra|]. split; [auto|].
  pose proof (deriv_minimum g 0 1 m (exist _ _ (L m)) ltac:(lra) ltac:(lra)) as D. assert (D0 : c * (k1 + 2 * k2 * m + 3 * k3 * m * m) = 0). { rewrite <- D; [reflexivity|]. intros x X0 X1. apply M. lra. } apply Rmult_integral in D0. destruct D0; [contradiction|auto].
Qed.
Lemma cubic_unique : forall f a0 a1 a2 a3 b0 b1 b2 b3, cubic f a0 a1 a2 a3 -> cubic f b0 b1 b2 b3 -> a0 = b0 /\ a1 = b1 /\ a2 = b2 /\ a3 = b3.
Proof. intros f a0 a1 a2 a3 b0 b1 b2 b3 A B. pose proof (A 0) as A0. pose proof (A 1) as A1. pose proof (A (-1)) as A2. pose proof (A 2) as A3. rewrite B in A0, A1, A2, A3. lra. Qed.
Lemma crit : forall k1 k2 k3 m, k3 <> 0 -> k1 + 2 * k2 * m + 3 * k3 * m * m = 0 -> 0 <= k2 * k2 - 3 * k1 * k3 /\ (m = (- k2 - sqrt (k2 * k2 - 3 * k1 * k3)) / (3 * k3) \/ m = (- k2 + sqrt (k2 * k2 - 3 * k1 * k3)) / (3 * k3)).
Proof.
  intros k1 k2 k3 m N E. assert (D : k2 * k2 - 3 * k1 * k3 = Rsqr (3 * k3 * m + k2)) by (unfold Rsqr; replace k1 with (- (2 * k2 * m + 3 * k3 * m * m)) by lra; ring). rewrite D. split; [apply Rle_0_sqr|]. rewrite sqrt_Rsqr_abs. unfold Rabs. destruct (Rcase_abs (3 * k3 * m + k2)); [left|right]; field; auto.
Qed.
