(** C83: kernels of particles on grids, and interpolation in images. *)
From Coq Require Import List Arith Bool ZArith Reals Lra Lia.
Import ListNotations.
From Verif Require Import Imp PrModel MeasSpec MeasProofs2 BspProofs1 KernModel KernSpec KernProofs1 KernProofs2.
Open Scope R_scope.

(** The kernel is even, positive within two cells and 0 elsewhere, and its greatest value is 2/3, at 0; the derivative answered is the derivative, everywhere. *)
Theorem C83_kernel : forall x, WGrid1Cubic (- x) = WGrid1Cubic x /\ (Rabs x < 2 -> 0 < WGrid1Cubic x) /\ (2 <= Rabs x -> WGrid1Cubic x = 0 /\ dWGrid1Cubic x = 0) /\
  WGrid1Cubic x <= WGrid1Cubic 0 /\ WGrid1Cubic 0 = 2 / 3 /\ derivable_pt_lim WGrid1Cubic x (dWGrid1Cubic x).
Proof.
  intros x. assert (Z0 : WGrid1Cubic 0 = 2 / 3). { destruct (W_four 0 ltac:(lra)) as (A & _ & B & _). replace (0 + 1) with 1 in * by ring. replace (0 - 1) with (- (1)) in * by ring. rewrite W_even in A, B. rewrite (proj1 (W_out (0 - 2) ltac:(rewrite Rabs_left; lra))) in A, B. lra. }
  destruct (W_range x) as ((A & B) & C). split; [apply W_even|]. split; [auto|]. split; [apply W_out|]. split; [lra|]. split; [auto|]. apply W_lim.
Qed.
(** For every point of space: over the nodes around it the weights sum to 1, their first moments to 0 (the weighted mean of the nodes is the point) and their second moments to a third of the square of the size of a cell ... *)
Theorem C83_partition : forall h lx ly lz l m n px py pz, h <> 0 -> reach h lx l px -> reach h ly m py -> reach h lz n pz ->
  let ox := fun i => px - node h lx i in let oy := fun j => py - node h ly j in let oz := fun k => pz - node h lz k in
  box_sum l m n (fun i j k => WGrid3Cubic (1 / h) (ox i) (oy j) (oz k)) = 1 /\
  box_sum l m n (fun i j k => ox i * WGrid3Cubic (1 / h) (ox i) (oy j) (oz k)) = 0 /\
  box_sum l m n (fun i j k => oy j * WGrid3Cubic (1 / h) (ox i) (oy j) (oz k)) = 0 /\
  box_sum l m n (fun i j k => oz k * WGrid3Cubic (1 / h) (ox i) (oy j) (oz k)) = 0 /\
  box_sum l m n (fun i j k => ox i * ox i * WGrid3Cubic (1 / h) (ox i) (oy j) (oz k)) = h * h / 3 /\
  box_sum l m n (fun i j k => ox i * oy j * WGrid3Cubic (1 / h) (ox i) (oy j) (oz k)) = 0.
Proof.
  intros h lx ly lz l m n px py pz H X Y Z ox oy oz. destruct (sum_W h lx l px H X) as (X0 & X1 & X2 & _). destruct (sum_W h ly m py H Y) as (Y0 & Y1 & _). destruct (sum_W h lz n pz H Z) as (Z0 & Z1 & _).
  assert (G : forall f g k, sum l (fun i => f i * WGrid1Cubic (1 / h * ox i)) * sum m (fun i => g i * WGrid1Cubic (1 / h * oy i)) * sum n (fun i => k i * WGrid1Cubic (1 / h * oz i)) = box_sum l m n (fun i j q => f i * g j * k q * WGrid3Cubic (1 / h) (ox i) (oy j) (oz q))).
  { intros f g k. rewrite <- sum_prod3. unfold box_sum. apply sum_ext; intros i _. apply sum_ext; intros j _. apply sum_ext; intros q _. unfold WGrid3Cubic. ring. }
  assert (E : forall f g, (forall i j k, f i j k = g i j k) -> box_sum l m n f = box_sum l m n g). { intros f g Q. unfold box_sum. apply sum_ext; intros i _. apply sum_ext; intros j _. apply sum_ext; intros q _. auto. }
  assert (U : forall q f, sum q (fun i => 1 * f i) = sum q f) by (intros; apply sum_ext; intros; ring).
  assert (X2' : sum l (fun i => ox i * ox i * WGrid1Cubic (1 / h * ox i)) = h ^ 2 / 3) by (rewrite <- X2; apply sum_ext; intros; unfold ox; ring).
  repeat split.
  - rewrite (E _ (fun i j k => 1 * 1 * 1 * WGrid3Cubic (1 / h) (ox i) (oy j) (oz k))) by (intros; ring). rewrite <- (G (fun _ => 1) (fun _ => 1) (fun _ => 1)), !U. unfold ox, oy, oz. rewrite X0, Y0, Z0. ring.
  - rewrite (E _ (fun i j k => ox i * 1 * 1 * WGrid3Cubic (1 / h) (ox i) (oy j) (oz k))) by (intros; ring). rewrite <- (G ox (fun _ => 1) (fun _ => 1)), !U. unfold ox, oy, oz. rewrite X1. ring.
  - rewrite (E _ (fun i j k => 1 * oy j * 1 * WGrid3Cubic (1 / h) (ox i) (oy j) (oz k))) by (intros; ring). rewrite <- (G (fun _ => 1) oy (fun _ => 1)), !U. unfold ox, oy, oz. rewrite Y1. ring.
  - rewrite (E _ (fun i j k => 1 * 1 * oz k * WGrid3Cubic (1 / h) (ox i) (oy j) (oz k))) by (intros; ring). rewrite <- (G (fun _ => 1) (fun _ => 1) oz), !U. unfold ox, oy, oz. rewrite Z1. ring.
  - rewrite (E _ (fun i j k => ox i * ox i * 1 * 1 * WGrid3Cubic (1 / h) (ox i) (oy j) (oz k))) by (intros; ring). rewrite <- (G (fun i => ox i * ox i) (fun _ => 1) (fun _ => 1)), !U, X2'. unfold oy, oz. rewrite Y0, Z0. field.
  - rewrite (E _ (fun i j k => ox i * oy j * 1 * WGrid3Cubic (1 / h) (ox i) (oy j) (oz k))) by (intros; ring). rewrite <- (G ox oy (fun _ => 1)), !U. unfold ox, oy, oz. rewrite X1. ring.
Qed.
(** ... and the derivatives of the weights, which are the partial derivatives, sum to 0. *)
Theorem C83_derivative : forall h lx ly lz l m n px py pz, h <> 0 -> reach h lx l px ->
  (forall a ox oy oz, derivable_pt_lim (fun s => WGrid3Cubic a s oy oz) ox (dWGrid3Cubic a ox oy oz) /\ derivable_pt_lim (fun s => WGrid3Cubic a ox s oz) oy (dWGrid3Cubic a oy oz ox) /\ derivable_pt_lim (fun s => WGrid3Cubic a ox oy s) oz (dWGrid3Cubic a oz ox oy)) /\
  box_sum l m n (fun i j k => dWGrid3Cubic (1 / h) (px - node h lx i) (py - node h ly j) (pz - node h lz k)) = 0.
Proof.
  intros h lx ly lz l m n px py pz H X. split.
  - intros a ox oy oz. split; [apply W3_lim|]. split; (eapply lim_ext; [|apply W3_lim]); intros s; unfold WGrid3Cubic; ring.
  - destruct (sum_W h lx l px H X) as (_ & _ & _ & D). transitivity (sum l (fun i => dWGrid1Cubic (1 / h * (px - node h lx i))) * sum m (fun j => WGrid1Cubic (1 / h * (py - node h ly j))) * sum n (fun k => 1 / h * WGrid1Cubic (1 / h * (pz - node h lz k)))).
    + rewrite <- sum_prod3. unfold box_sum. apply sum_ext; intros i _. apply sum_ext; intros j _. apply sum_ext; intros k _. unfold dWGrid3Cubic. ring.
    + rewrite D. ring.
Qed.
(** Interpolation in an image: an answer exactly for the points from 0 to less than the width and the height, and each colour is the mix of the mixes of the four pixels around, with the last column and row repeated ... *)
Theorem C83_image : forall w h img x y, length img = (w * h * 3)%nat ->
  ((exists c, ImageInterpolation_Bilinear (Z.of_nat w) (Z.of_nat h) img x y = Some c) <-> (0 <= x < INR w /\ 0 <= y < INR h)) /\
  forall c, ImageInterpolation_Bilinear (Z.of_nat w) (Z.of_nat h) img x y = Some c -> length c = 3%nat /\ forall ix iy i, INR ix <= x < INR ix + 1 -> INR iy <= y < INR iy + 1 -> (i < 3)%nat ->
    nth i c 0 = mix (y - INR iy) (mix (x - INR ix) (pixel w img ix iy i) (pixel w img (next w ix) iy i)) (mix (x - INR ix) (pixel w img ix (next h iy) i) (pixel w img (next w ix) (next h iy) i)).
Proof.
  intros w h img x y L.
  assert (IN : forall c, ImageInterpolation_Bilinear (Z.of_nat w) (Z.of_nat h) img x y = Some c -> 0 <= x < INR w /\ 0 <= y < INR h).
  { intros c E. destruct (Rle_dec 0 x); [destruct (Rlt_dec x (INR w)); [destruct (Rle_dec 0 y); [destruct (Rlt_dec y (INR h)); [lra|]|]|]|]; rewrite image_none in E by lra; discriminate. }
  split; [split|].
  - intros (c & E). eauto.
  - intros (X & Y). destruct (part_ex x w X) as (ix & A & A'). destruct (part_ex y h Y) as (iy & B & B'). destruct (image_eq w h img x y ix iy L A B A' B') as (c & E & _). eauto.
  - intros c E. destruct (IN c E) as (X & Y). destruct (part_ex x w X) as (ix & A & A'). destruct (part_ex y h Y) as (iy & B & B'). destruct (image_eq w h img x y ix iy L A B A' B') as (c' & E' & Lc & V). rewrite E in E'. injection E' as <-. split; [auto|].
    intros jx jy i J J' I. assert (jx = ix). { apply Nat2Z.inj. rewrite <- (part_nat x jx J), <- (part_nat x ix A'). auto. } assert (jy = iy). { apply Nat2Z.inj. rewrite <- (part_nat y jy J'), <- (part_nat y iy B'). auto. } subst jx jy. auto.
Qed.
(** ... so it is from 0 to 1, and at the places of the pixels it is the pixel. *)
Theorem C83_image_range : forall w h img x y c, length img = (w * h * 3)%nat -> (forall p, In p img -> (p <= 255)%nat) -> ImageInterpolation_Bilinear (Z.of_nat w) (Z.of_nat h) img x y = Some c ->
  (forall i, (i < 3)%nat -> 0 <= nth i c 0 <= 1) /\ (forall ix iy i, x = INR ix -> y = INR iy -> (i < 3)%nat -> nth i c 0 = INR (nth ((ix + iy * w) * 3 + i) img 0%nat) / 255).
Proof.
  intros w h img x y c L P E. destruct (C83_image w h img x y L) as (D & F). destruct (proj1 D ltac:(eauto)) as (X & Y). destruct (F c E) as (Lc & V). split.
  - intros i I. destruct (part_ex x w X) as (ix & A & A'). destruct (part_ex y h Y) as (iy & B & B'). rewrite (V ix iy i A' B' I). apply mix_range; [lra| |]; apply mix_range; try lra; apply pixel_range; auto.
  - intros ix iy i EX EY I. rewrite (V ix iy i) by (auto; lra). rewrite EX, EY. unfold mix, pixel. field.
Qed.

(** *** Cases *)
Example ex_reach : reach 2 (-3) 5 (-2.5) /\ box_sum 5 5 5 (fun i j k => WGrid3Cubic (1 / 2) (-2.5 - node 2 (-3) i) (-2.5 - node 2 (-3) j) (-2.5 - node 2 (-3) k)) = 1.
Proof. assert (A : reach 2 (-3) 5 (-2.5)) by (unfold reach; cbn [INR]; lra). split; [exact A|]. apply (C83_partition 2 (-3) (-3) (-3) 5 5 5 (-2.5) (-2.5) (-2.5)); auto; lra. Qed.
Example ex_image : exists c, ImageInterpolation_Bilinear 2 1 [0; 255; 51; 255; 255; 51]%nat (1 / 2) 0 = Some c /\ nth 0 c 0 = 1 / 2 /\ nth 1 c 0 = 1 /\ nth 2 c 0 = 1 / 5.
Proof.
  destruct (C83_image 2 1 [0; 255; 51; 255; 255; 51]%nat (1 / 2) 0 eq_refl) as (D & F). destruct (proj2 D) as (c & E); [cbn [INR]; lra|]. exists c. split; [exact E|]. destruct (F c E) as (_ & V). rewrite !(V 0%nat 0%nat) by (cbn [INR]; lra || lia).
  assert (N : INR 255 = 255 /\ INR 51 = 51) by (split; rewrite INR_IZR_INZ; reflexivity). destruct N as (N & N'). unfold mix, pixel, next. cbn [Nat.ltb Nat.leb Nat.add Nat.mul nth]. rewrite ?N, ?N'. cbn [INR]. repeat split; field.
Qed.

Print Assumptions C83_kernel.
Print Assumptions C83_partition.
Print Assumptions C83_derivative.
Print Assumptions C83_image.
Print Assumptions C83_image_range.
