(** Kernels on grids and images. *)
From Coq Require Import List Arith Bool ZArith Reals Lra Lia.
Import ListNotations.
From Verif Require Import Imp PrModel GjkProofs1 MeasSpec MeasProofs2 MeasProofs3 BspProofs1 PlnProofs1 KernModel.
Open Scope R_scope.

(** *** Powers that are cut off at 0 *)
Definition cutp (t : R) : R := Rmax 0 t.
Lemma pos_ge : forall t, 0 <= t -> cutp t = t. Proof. intros. apply Rmax_right. auto. Qed.
Lemma pos_le : forall t, t <= 0 -> cutp t = 0. Proof. intros. apply Rmax_left. auto. Qed.
Lemma cube_lim : forall t, derivable_pt_lim (fun s => cutp s ^ 3) t (3 * cutp t ^ 2).
Proof.
  intros t. assert (B : forall h, Rabs (cutp (t + h) ^ 3 - cutp t ^ 3 - h * (3 * cutp t ^ 2)) <= h * h * (3 * cutp t + Rabs h)).
  { intros h. destruct (Rle_dec 0 t) as [T|T]; destruct (Rle_dec 0 (t + h)) as [S|S].
    - rewrite !pos_ge by auto. replace ((t + h) ^ 3 - t ^ 3 - h * (3 * t ^ 2)) with (h * h * (3 * t + h)) by ring. rewrite Rabs_mult, (Rabs_pos_eq (h * h)) by nra. apply Rmult_le_compat_l; [nra|]. eapply Rle_trans; [apply Rabs_triang|]. rewrite (Rabs_pos_eq (3 * t)) by lra. lra.
    - rewrite (pos_le (t + h)) by lra. rewrite pos_ge by auto. rewrite (Rabs_left h) by lra. set (k := - h). replace h with (- k) in * by (unfold k; ring). replace (0 ^ 3 - t ^ 3 - - k * (3 * t ^ 2)) with (t * t * (3 * k - t)) by ring. assert (A0 : 0 <= t * t) by nra. assert (A1 : t * t <= t * k) by (apply Rmult_le_compat_l; lra).
      assert (A2 : 0 <= t * t * (3 * k - t)) by (apply Rmult_le_pos; lra). rewrite Rabs_pos_eq by auto. assert (A3 : t * t * (3 * k - t) <= t * t * (3 * k)) by (apply Rmult_le_compat_l; lra). assert (A4 : t * t * (3 * k) <= t * k * (3 * k)) by (apply Rmult_le_compat_r; lra). assert (A5 : 0 <= k * k * k) by (apply Rmult_le_pos; [apply Rmult_le_pos; lra|lra]). replace (- k * - k * (3 * t + k)) with (t * k * (3 * k) + k * k * k) by ring. lra.
    - rewrite (pos_le t) by lra. rewrite pos_ge by auto. rewrite (Rabs_pos_eq h) by lra. assert (0 <= (t + h) ^ 3 <= h ^ 3) by (split; [apply pow_le; auto|apply pow_incr; lra]). replace ((t + h) ^ 3 - 0 ^ 3 - h * (3 * 0 ^ 2)) with ((t + h) ^ 3) by ring. replace (h * h * (3 * 0 + h)) with (h ^ 3) by ring. rewrite Rabs_pos_eq; lra.
    - rewrite !pos_le by lra. replace (0 ^ 3 - 0 ^ 3 - h * (3 * 0 ^ 2)) with 0 by ring. rewrite Rabs_R0. apply Rmult_le_pos; [nra|]. pose proof (Rabs_pos h). lra. }
  intros eps E. assert (P0 : 0 <= cutp t) by apply Rmax_l. assert (DP : 0 < Rmin 1 (eps / (3 * cutp t + 2))) by (apply Rmin_pos; [lra|apply Rdiv_lt_0_compat; lra]). exists (mkposreal _ DP). intros h H Hd. change (Rabs h < Rmin 1 (eps / (3 * cutp t + 2))) in Hd.
  assert (H1 : Rabs h < 1) by (eapply Rlt_le_trans; [exact Hd|apply Rmin_l]). assert (H2 : Rabs h < eps / (3 * cutp t + 2)) by (eapply Rlt_le_trans; [exact Hd|apply Rmin_r]).
  replace ((cutp (t + h) ^ 3 - cutp t ^ 3) / h - 3 * cutp t ^ 2) with ((cutp (t + h) ^ 3 - cutp t ^ 3 - h * (3 * cutp t ^ 2)) * / h) by (field; auto). rewrite Rabs_mult, Rabs_inv. assert (HP : 0 < Rabs h) by (apply Rabs_pos_lt; auto).
  apply Rmult_lt_reg_r with (Rabs h); auto. rewrite Rmult_assoc, Rinv_l, Rmult_1_r by lra. eapply Rle_lt_trans; [apply B|]. replace (h * h) with (Rabs h * Rabs h) by (rewrite <- Rabs_mult; apply Rabs_pos_eq; nra).
  assert (H3 : Rabs h * (3 * cutp t + 2) < eps). { apply Rmult_lt_reg_r with (/ (3 * cutp t + 2)); [apply Rinv_0_lt_compat; lra|]. rewrite Rmult_assoc, Rinv_r, Rmult_1_r by lra. exact H2. }
  rewrite (Rmult_comm eps), Rmult_assoc. apply Rmult_lt_compat_l; auto. eapply Rle_lt_trans; [|exact H3]. apply Rmult_le_compat_l; lra.
Qed.
Lemma pos_cases : forall t, (0 <= t /\ cutp t = t) \/ (t < 0 /\ cutp t = 0).
Proof. intros t. destruct (Rle_dec 0 t); [left; split; auto; apply pos_ge; auto|right; split; [lra|apply pos_le; lra]]. Qed.
Ltac cut t := destruct (pos_cases t) as [(? & ->)|(? & ->)].
Lemma W_cut : forall x, WGrid1Cubic x = (cutp (x + 2) ^ 3 - 4 * cutp (x + 1) ^ 3 + 6 * cutp x ^ 3 - 4 * cutp (x - 1) ^ 3 + cutp (x - 2) ^ 3) / 6.
Proof.
  intros x. unfold WGrid1Cubic. cbv zeta. pose proof (ltRs (Rabs x) 1) as Q1. pose proof (ltRs (Rabs x) 2) as Q2. destruct (ltR (Rabs x) 1); [|destruct (ltR (Rabs x) 2)]; unfold Rabs in *; destruct (Rcase_abs x); cut (x + 2); cut (x + 1); cut x; cut (x - 1); cut (x - 2); try lra; try (exfalso; lra); try field; try (assert (x = 0) by lra; subst x; field); try (assert (x = -1) by lra; subst x; field); try (assert (x = 1) by lra; subst x; field); try (assert (x = -2) by lra; subst x; field).
Qed.
Lemma dW_cut : forall x, dWGrid1Cubic x = (3 * cutp (x + 2) ^ 2 - 4 * (3 * cutp (x + 1) ^ 2) + 6 * (3 * cutp x ^ 2) - 4 * (3 * cutp (x - 1) ^ 2) + 3 * cutp (x - 2) ^ 2) / 6.
Proof.
  intros x. unfold dWGrid1Cubic. cbv zeta. pose proof (ltRs (Rabs x) 1) as Q1. pose proof (ltRs (Rabs x) 2) as Q2. destruct (ltR (Rabs x) 1); [|destruct (ltR (Rabs x) 2)]; unfold Rabs in *; destruct (Rcase_abs x); cut (x + 2); cut (x + 1); cut x; cut (x - 1); cut (x - 2); try lra; try (exfalso; lra); try (field; lra); try (assert (x = 0) by lra; subst x; field; lra); try (assert (x = -1) by lra; subst x; field; lra); try (assert (x = 1) by lra; subst x; field; lra); try (assert (x = -2) by lra; subst x; field; lra).
Qed.
Lemma shift_lim : forall c x, derivable_pt_lim (fun s => cutp (s + c) ^ 3) x (3 * cutp (x + c) ^ 2).
Proof.
  intros c x. replace (3 * cutp (x + c) ^ 2) with (3 * cutp (x + c) ^ 2 * 1) by ring. apply (derivable_pt_lim_comp (fun s => s + c) (fun s => cutp s ^ 3) x 1 (3 * cutp (x + c) ^ 2)); [|apply cube_lim].
  replace 1 with (1 + 0) by ring. apply (derivable_pt_lim_plus id (fct_cte c) x 1 0); [apply derivable_pt_lim_id|apply derivable_pt_lim_const].
Qed.
Lemma lim_ext : forall f g x l, (forall s, f s = g s) -> derivable_pt_lim f x l -> derivable_pt_lim g x l.
Proof. intros f g x l E H eps P. destruct (H eps P) as (d & D). exists d. intros h H0 H1. rewrite <- !E. auto. Qed.
Lemma W_lim : forall x, derivable_pt_lim WGrid1Cubic x (dWGrid1Cubic x).
Proof.
  intros x. rewrite dW_cut. set (p := fun c s => cutp (s + c) ^ 3).
  apply lim_ext with (f := mult_real_fct (/ 6) (plus_fct (minus_fct (plus_fct (minus_fct (p 2) (mult_real_fct 4 (p 1))) (mult_real_fct 6 (p 0))) (mult_real_fct 4 (p (-1)))) (p (-2)))).
  - intros s. rewrite W_cut. unfold mult_real_fct, plus_fct, minus_fct, p. replace (s + 0) with s by ring. replace (s + -1) with (s - 1) by ring. replace (s + -2) with (s - 2) by ring. field.
  - replace ((3 * cutp (x + 2) ^ 2 - 4 * (3 * cutp (x + 1) ^ 2) + 6 * (3 * cutp x ^ 2) - 4 * (3 * cutp (x - 1) ^ 2) + 3 * cutp (x - 2) ^ 2) / 6) with (/ 6 * (3 * cutp (x + 2) ^ 2 - 4 * (3 * cutp (x + 1) ^ 2) + 6 * (3 * cutp (x + 0) ^ 2) - 4 * (3 * cutp (x + -1) ^ 2) + 3 * cutp (x + -2) ^ 2)) by (replace (x + 0) with x by ring; replace (x + -1) with (x - 1) by ring; replace (x + -2) with (x - 2) by ring; field).
    apply derivable_pt_lim_scal. apply derivable_pt_lim_plus; [|apply shift_lim]. apply derivable_pt_lim_minus; [|apply derivable_pt_lim_scal, shift_lim]. apply derivable_pt_lim_plus; [|apply derivable_pt_lim_scal, shift_lim]. apply derivable_pt_lim_minus; [apply shift_lim|apply derivable_pt_lim_scal, shift_lim].
Qed.
Lemma W_out : forall x, 2 <= Rabs x -> WGrid1Cubic x = 0 /\ dWGrid1Cubic x = 0.
Proof. intros x H. unfold WGrid1Cubic, dWGrid1Cubic. cbv zeta. rewrite !ltRf by lra. auto. Qed.
Lemma W_even : forall x, WGrid1Cubic (- x) = WGrid1Cubic x. Proof. intros x. unfold WGrid1Cubic. rewrite Rabs_Ropp. auto. Qed.
Lemma W_range : forall x, 0 <= WGrid1Cubic x <= 2 / 3 /\ (Rabs x < 2 -> 0 < WGrid1Cubic x).
Proof.
  intros x. unfold WGrid1Cubic. cbv zeta. pose proof (Rabs_pos x) as P. set (a := Rabs x) in *. pose proof (ltRs a 1) as Q1. pose proof (ltRs a 2) as Q2. destruct (ltR a 1); [|destruct (ltR a 2)].
  - assert (0 <= a ^ 2 * (1 - a / 2)) by (apply Rmult_le_pos; [nra|lra]). assert (B : a * a <= 1 * a) by (apply Rmult_le_compat_r; lra). assert (C : 0 <= (1 - a) * (1 + a - a * a)) by (apply Rmult_le_pos; lra). replace (a ^ 3 / 2 - a ^ 2 + 2 / 3) with (2 / 3 - a ^ 2 * (1 - a / 2)) by field. replace (a ^ 2 * (1 - a / 2)) with (1 / 2 - (1 - a) * (1 + a - a * a) / 2) in * by field. split; [split|intros _]; lra.
  - replace (- a ^ 3 / 6 + a ^ 2 - 2 * a + 4 / 3) with ((2 - a) ^ 3 / 6) by field. assert (0 < (2 - a) ^ 3 <= 1 ^ 3) by (split; [apply pow_lt; lra|apply pow_incr; lra]). lra.
  - split; [lra|intros; lra].
Qed.
Lemma W_four : forall f, 0 <= f < 1 -> WGrid1Cubic (f + 1) + WGrid1Cubic f + WGrid1Cubic (f - 1) + WGrid1Cubic (f - 2) = 1 /\
  (f + 1) * WGrid1Cubic (f + 1) + f * WGrid1Cubic f + (f - 1) * WGrid1Cubic (f - 1) + (f - 2) * WGrid1Cubic (f - 2) = 0 /\
  (f + 1) ^ 2 * WGrid1Cubic (f + 1) + f ^ 2 * WGrid1Cubic f + (f - 1) ^ 2 * WGrid1Cubic (f - 1) + (f - 2) ^ 2 * WGrid1Cubic (f - 2) = 1 / 3 /\
  dWGrid1Cubic (f + 1) + dWGrid1Cubic f + dWGrid1Cubic (f - 1) + dWGrid1Cubic (f - 2) = 0.
Proof.
  intros f F. rewrite !W_cut, !dW_cut. 
  repeat match goal with |- context [cutp ?t] => first [rewrite (pos_ge t) by lra | rewrite (pos_le t) by lra] end. repeat split; field.
Qed.
Lemma cover : forall g c, (forall y, 2 <= Rabs y -> g y = 0) -> (forall f, 0 <= f < 1 -> g (f + 1) + g f + g (f - 1) + g (f - 2) = c) -> forall x lo n, IZR lo + 1 <= x <= IZR lo + INR n - 2 -> sum n (fun i => g (x - (IZR lo + INR i))) = c.
Proof.
  intros g c Z0 F x lo n H. pose proof (floor_ok (x - IZR lo) ltac:(lra)) as K. set (k := Z.to_nat (Int_part (x - IZR lo))) in *.
  assert (K1 : (1 <= k)%nat). { assert (0 < k)%nat; [|lia]. apply INR_lt. cbn [INR]. lra. } assert (K2 : (k + 2 <= n)%nat). { assert (k < S (n - 2))%nat. { apply INR_lt. rewrite S_INR, minus_INR. - cbn [INR]. lra. - assert (1 < n)%nat; [|lia]. apply INR_lt. cbn [INR]. lra. } assert (1 < n)%nat by (apply INR_lt; cbn [INR]; lra). lia. }
  destruct (Nat.eq_dec (k + 2) n) as [E|E].
  - assert (X : x - IZR lo = INR k). { assert (INR n = INR k + 2) by (rewrite <- E, plus_INR; cbn [INR]; lra). lra. }
    replace n with ((k - 1) + 3)%nat by lia. rewrite sum_cat, sum_nil. 2:{ intros i I. apply Z0. rewrite Rabs_pos_eq; assert (INR i + 2 <= INR k) by (replace 2 with (INR 2) by reflexivity; rewrite <- plus_INR; apply le_INR; lia); lra. }
    cbn [sum]. pose proof (F 0 ltac:(lra)) as F0. rewrite (Z0 (0 - 2)) in F0 by (rewrite Rabs_left; lra). rewrite <- F0.
    assert (A : forall j, x - (IZR lo + INR (k - 1 + j)) = 1 - INR j). { intros j. rewrite plus_INR, minus_INR by auto. cbn [INR]. lra. } rewrite !A. cbn [INR]. replace (1 - 0) with (0 + 1) by ring. replace (1 - 1) with 0 by ring. replace (1 - (1 + 1)) with (0 - 1) by ring. ring.
  - replace n with ((k - 1) + (4 + (n - k - 3)))%nat by lia. rewrite sum_cat, sum_nil. 2:{ intros i I. apply Z0. rewrite Rabs_pos_eq; assert (INR i + 2 <= INR k) by (replace 2 with (INR 2) by reflexivity; rewrite <- plus_INR; apply le_INR; lia); lra. }
    rewrite sum_cat, (sum_nil (n - k - 3)). 2:{ intros i I. apply Z0. assert (A : INR k + 3 <= INR (k - 1 + (4 + i))) by (replace 3 with (INR 3) by (cbn [INR]; ring); rewrite <- plus_INR; apply le_INR; lia). rewrite Rabs_left1; lra. }
    cbn [sum]. rewrite <- (F (x - IZR lo - INR k) ltac:(lra)).
    assert (A : forall j, x - (IZR lo + INR (k - 1 + j)) = x - IZR lo - INR k + 1 - INR j). { intros j. rewrite plus_INR, minus_INR by auto. cbn [INR]. lra. } rewrite !A. cbn [INR]. set (f := x - IZR lo - INR k).
    replace (f + 1 - 0) with (f + 1) by ring. replace (f + 1 - 1) with f by ring. replace (f + 1 - (1 + 1)) with (f - 1) by ring. replace (f + 1 - (1 + 1 + 1)) with (f - 2) by ring. ring.
Qed.
Lemma sum_prod3 : forall l m n (f g h : nat -> R), sum l (fun i => sum m (fun j => sum n (fun k => f i * g j * h k))) = sum l f * sum m g * sum n h.
Proof.
  intros. rewrite (sum_ext l _ (fun i => sum m g * sum n h * f i)). { rewrite sum_scale. ring. } intros i _. rewrite (sum_ext m _ (fun j => f i * sum n h * g j)). { rewrite sum_scale. ring. } intros j _. rewrite sum_scale. ring.
Qed.
