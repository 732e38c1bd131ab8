(** Interpolation in images. *)
From Coq Require Import List Arith Bool ZArith Reals Lra Lia.
Import ListNotations.
From Verif Require Import Imp PrModel GjkProofs1 MeasSpec MeasProofs2 MeasProofs3 BspProofs1 PlnProofs1 KernModel KernSpec KernProofs1.
Open Scope R_scope.

Lemma part_nat : forall x k, INR k <= x < INR k + 1 -> Int_part x = Z.of_nat k.
Proof. intros x k H. destruct (base_Int_part x) as (A & B). rewrite INR_IZR_INZ in H. assert (Int_part x < Z.of_nat k + 1)%Z by (apply lt_IZR; rewrite plus_IZR; lra). assert (Z.of_nat k < Int_part x + 1)%Z by (apply lt_IZR; rewrite plus_IZR; lra). lia. Qed.
Lemma part_ex : forall x n, 0 <= x < INR n -> exists k, (k < n)%nat /\ INR k <= x < INR k + 1.
Proof.
  intros x n H. destruct (base_Int_part x) as (A & B). assert (P : (0 <= Int_part x)%Z). { assert (-1 < Int_part x)%Z; [|lia]. apply lt_IZR. lra. }
  exists (Z.to_nat (Int_part x)). assert (E : INR (Z.to_nat (Int_part x)) = IZR (Int_part x)) by (rewrite INR_IZR_INZ, Z2Nat.id; auto). split; [apply INR_lt|]; rewrite ?E; lra.
Qed.
Lemma part_range : forall x n, (0 <= Int_part x < Z.of_nat n)%Z -> 0 <= x < INR n.
Proof. intros x n H. destruct (base_Int_part x) as (A & B). rewrite INR_IZR_INZ. assert (0 <= IZR (Int_part x)) by (apply IZR_le; lia). assert (IZR (Int_part x) + 1 <= IZR (Z.of_nat n)) by (rewrite <- plus_IZR; apply IZR_le; lia). lra. Qed.
Lemma next_ok : forall n k, (k < n)%nat -> (if (Z.of_nat k + 1 =? Z.of_nat n)%Z then (Z.of_nat n - 1)%Z else (Z.of_nat k + 1)%Z) = Z.of_nat (next n k) /\ (next n k < n)%nat.
Proof. intros n k H. unfold next. destruct (Nat.ltb_spec (k + 1) n); destruct (Z.eqb_spec (Z.of_nat k + 1) (Z.of_nat n)); lia. Qed.
Lemma image_eq : forall w h img x y ix iy, length img = (w * h * 3)%nat -> (ix < w)%nat -> (iy < h)%nat -> INR ix <= x < INR ix + 1 -> INR iy <= y < INR iy + 1 ->
  exists c, ImageInterpolation_Bilinear (Z.of_nat w) (Z.of_nat h) img x y = Some c /\ length c = 3%nat /\ forall i, (i < 3)%nat ->
    nth i c 0 = mix (y - INR iy) (mix (x - INR ix) (pixel w img ix iy i) (pixel w img (next w ix) iy i)) (mix (x - INR ix) (pixel w img ix (next h iy) i) (pixel w img (next w ix) (next h iy) i)).
Proof.
  intros w h img x y ix iy L X Y Hx Hy. unfold ImageInterpolation_Bilinear. rewrite (part_nat x ix Hx), (part_nat y iy Hy). cbv zeta. destruct (next_ok w ix X) as (-> & NX). destruct (next_ok h iy Y) as (-> & NY).
  replace ((0 <=? Z.of_nat ix) && (Z.of_nat ix <? Z.of_nat w))%Z with true by (symmetry; apply andb_true_intro; split; [apply Z.leb_le|apply Z.ltb_lt]; lia).
  replace ((0 <=? Z.of_nat iy) && (Z.of_nat iy <? Z.of_nat h))%Z with true by (symmetry; apply andb_true_intro; split; [apply Z.leb_le|apply Z.ltb_lt]; lia).
  replace ((0 <=? Z.of_nat (next w ix)) && (Z.of_nat (next w ix) <? Z.of_nat w))%Z with true by (symmetry; apply andb_true_intro; split; [apply Z.leb_le|apply Z.ltb_lt]; lia).
  cbn [assertb bind].
  assert (G : forall a b i, (a < w)%nat -> (b < h)%nat -> (i < 3)%nat -> vget img (Z.to_nat ((Z.of_nat a + Z.of_nat b * Z.of_nat w) * 3) + i) = Some (nth ((a + b * w) * 3 + i) img 0%nat)).
  { intros a b i A B I. replace (Z.to_nat ((Z.of_nat a + Z.of_nat b * Z.of_nat w) * 3)) with ((a + b * w) * 3)%nat by lia. apply (vget_nth _ 0%nat). rewrite L. assert (b * w + w <= h * w)%nat by nia. nia. }
  eexists. split; [|split].
  - unfold forn. cbn [Nat.sub forn_]. rewrite !G by (auto; lia). cbn [bind app]. reflexivity.
  - reflexivity.
  - intros i I. rewrite <- !INR_IZR_INZ. unfold mix, pixel. destruct i as [|[|[|i]]]; [| | |lia]; cbn [nth]; field.
Qed.
Lemma mix_range : forall r a b, 0 <= r <= 1 -> 0 <= a <= 1 -> 0 <= b <= 1 -> 0 <= mix r a b <= 1.
Proof. intros r a b H A B. unfold mix. assert (0 <= (1 - r) * a <= (1 - r) * 1) by (split; [apply Rmult_le_pos; lra|apply Rmult_le_compat_l; lra]). assert (0 <= r * b <= r * 1) by (split; [apply Rmult_le_pos; lra|apply Rmult_le_compat_l; lra]). lra. Qed.
Lemma pixel_range : forall w img, (forall p, In p img -> (p <= 255)%nat) -> forall ix iy i, 0 <= pixel w img ix iy i <= 1.
Proof.
  intros w img P ix iy i. unfold pixel. assert (Q : (nth ((ix + iy * w) * 3 + i) img 0 <= 255)%nat). { destruct (nth_in_or_default ((ix + iy * w) * 3 + i) img 0%nat) as [I| ->]; [auto|lia]. }
  apply le_INR in Q. rewrite (INR_IZR_INZ 255) in Q. change (IZR (Z.of_nat 255)) with 255 in Q. pose proof (pos_INR (nth ((ix + iy * w) * 3 + i) img 0%nat)). lra.
Qed.
Lemma image_none : forall w h img x y, ~ (0 <= x < INR w /\ 0 <= y < INR h) -> ImageInterpolation_Bilinear (Z.of_nat w) (Z.of_nat h) img x y = None.
Proof.
  intros w h img x y H. unfold ImageInterpolation_Bilinear. cbv zeta. destruct ((0 <=? Int_part x) && (Int_part x <? Z.of_nat w))%Z eqn:A; [|reflexivity]. destruct ((0 <=? Int_part y) && (Int_part y <? Z.of_nat h))%Z eqn:B; [|reflexivity].
  exfalso. apply H. apply andb_prop in A, B. destruct A as (A & A'), B as (B & B'). apply Z.leb_le in A, B. apply Z.ltb_lt in A', B'. split; apply part_range; lia.
Qed.
(** *** Sums in space *)
Lemma grid_sum : forall g c, (forall y, 2 <= Rabs y -> g y = 0) -> (forall f, 0 <= f < 1 -> g (f + 1) + g f + g (f - 1) + g (f - 2) = c) -> forall h lo n p, h <> 0 -> reach h lo n p -> sum n (fun i => g (1 / h * (p - node h lo i))) = c.
Proof.
  intros g c Z0 F h lo n p H Rc. rewrite <- (cover g c Z0 F (p / h) lo n Rc). apply sum_ext. intros i _. f_equal. unfold node. field. auto.
Qed.
Lemma sum_W : forall h lo n p, h <> 0 -> reach h lo n p -> sum n (fun i => WGrid1Cubic (1 / h * (p - node h lo i))) = 1 /\ sum n (fun i => (p - node h lo i) * WGrid1Cubic (1 / h * (p - node h lo i))) = 0 /\ sum n (fun i => (p - node h lo i) ^ 2 * WGrid1Cubic (1 / h * (p - node h lo i))) = h ^ 2 / 3 /\ sum n (fun i => dWGrid1Cubic (1 / h * (p - node h lo i))) = 0.
Proof.
  intros h lo n p H Rc. split; [|split; [|split]].
  - apply (grid_sum WGrid1Cubic 1); auto; [intros; apply W_out; auto|intros; apply W_four; auto].
  - rewrite (sum_ext n _ (fun i => h * ((fun t => t * WGrid1Cubic t) (1 / h * (p - node h lo i))))) by (intros; field; auto). rewrite sum_scale. rewrite (grid_sum (fun t => t * WGrid1Cubic t) 0); auto; [ring|intros y Y; destruct (W_out y Y) as (-> & _); ring|intros; apply W_four; auto].
  - rewrite (sum_ext n _ (fun i => h ^ 2 * ((fun t => t ^ 2 * WGrid1Cubic t) (1 / h * (p - node h lo i))))) by (intros; field; auto). rewrite sum_scale. rewrite (grid_sum (fun t => t ^ 2 * WGrid1Cubic t) (1 / 3)); auto; [field|intros y Y; destruct (W_out y Y) as (-> & _); ring|intros; apply W_four; auto].
  - apply (grid_sum dWGrid1Cubic 0); auto; [intros; apply W_out; auto|intros; apply W_four; auto].
Qed.
Lemma W3_lim : forall a x y z, derivable_pt_lim (fun s => WGrid3Cubic a s y z) x (dWGrid3Cubic a x y z).
Proof.
  intros a x y z. unfold WGrid3Cubic, dWGrid3Cubic. apply lim_ext with (f := mult_real_fct (WGrid1Cubic (a * y) * WGrid1Cubic (a * z)) (comp WGrid1Cubic (mult_real_fct a id))).
  - intros s. unfold mult_real_fct, comp, id. ring.
  - replace (dWGrid1Cubic (a * x) * WGrid1Cubic (a * y) * WGrid1Cubic (a * z) * a) with (WGrid1Cubic (a * y) * WGrid1Cubic (a * z) * (dWGrid1Cubic (a * x) * (a * 1))) by ring. apply derivable_pt_lim_scal. apply derivable_pt_lim_comp; [apply derivable_pt_lim_scal, derivable_pt_lim_id|]. exact (W_lim (a * x)).
Qed.
