(** C76: 4x4 matrices. *)
From Coq Require Import List Arith Bool Lia ZArith Reals Lra.
Import ListNotations.
From Verif Require Import Imp PrModel QuatModel ProxModel ProxSpec MeasSpec MeasProofs2 EnerProofs1 GjkProofs1 PbdProofs1 Mat4Model Mat4Spec Mat4Proofs1 Mat4Proofs2 Mat4Proofs3 Mat4Proofs4 Mat4Proofs5.
Open Scope R_scope.

(** Elimination without exchange of rows, for any size: the array ends as the two-sided inverse unless info is 1. *)
Theorem C76_gauss : forall n m, length m = (n * n)%nat -> exists b info, CalcInvMat m n = Some (b, info) /\ (info <> 1%Z -> inverse_of n m b).
Proof.
  intros n m L. destruct (wp_ex _ _ _ (CalcInvMat_ok m n L)) as ((b & info) & E & Lb & H). exists b, info. split; [auto|]. intros Hi.
  apply acts_inverse; auto. intros x y. rewrite <- sys_n, <- sys_0. auto.
Qed.
Print Assumptions C76_gauss.
Lemma id_inverse : forall n m b, length b = (n * n)%nat -> (forall i j, (i < n)%nat -> (j < n)%nat -> sum n (fun k => ent n m i k * ent n b k j) = if (i =? j)%nat then 1 else 0) ->
  (forall i j, (i < n)%nat -> (j < n)%nat -> sum n (fun k => ent n b i k * ent n m k j) = if (i =? j)%nat then 1 else 0) -> inverse_of n m b.
Proof. intros. repeat split; auto. Qed.
Lemma two : forall P : nat -> nat -> Prop, P 0%nat 0%nat -> P 0%nat 1%nat -> P 1%nat 0%nat -> P 1%nat 1%nat -> forall i j, (i < 2)%nat -> (j < 2)%nat -> P i j.
Proof. intros P H0 H1 H2 H3 i j Hi Hj. destruct i as [|[|]]; try lia; destruct j as [|[|]]; try lia; auto. Qed.
Lemma swap2_inverse : inverse_of 2 [0; 1; 1; 0] [0; 1; 1; 0].
Proof. apply id_inverse; [reflexivity| |]; apply two; cbn; ring. Qed.
(** The flag 1 does not mean that there is no inverse. *)
Theorem C76_gauss_refuted : exists m b, length m = 4%nat /\ CalcInvMat m 2 = Some (b, 1%Z) /\ invertible 2 m.
Proof.
  exists [0; 1; 1; 0], [0; 1; 1; 0]. split; [reflexivity|]. split; [|exists [0; 1; 1; 0]; apply swap2_inverse].
  assert (L : ltR (Rabs 0) (/ 10 ^ 30) = true).
  { pose proof (ltRs (Rabs 0) (/ 10 ^ 30)) as L. destruct (ltR (Rabs 0) (/ 10 ^ 30)); [reflexivity|]. rewrite Rabs_R0 in L. assert (0 < / 10 ^ 30) by (apply Rinv_0_lt_compat; apply pow_lt; lra). lra. }
  unfold CalcInvMat, forb. cbn [Nat.sub forb_ Nat.mul Nat.add]. rewrite (vget_nth _ 0 [0; 1; 1; 0] 0) by (cbn; lia). cbn [bind nth]. rewrite L. reflexivity.
Qed.
Print Assumptions C76_gauss_refuted.

(** Elimination with exchange of rows, for any size: every invertible matrix is inverted, and every other matrix ends in a division by zero. *)
Theorem C76_pivot : forall n m tmp, length m = (n * n)%nat -> length tmp = n ->
  (invertible n m -> exists b row, CalcInvMatPivot m n tmp = Some (b, row, true) /\ inverse_of n m b) /\
  (~ invertible n m -> CalcInvMatPivot m n tmp = None).
Proof.
  intros n m tmp L Lt. pose proof (CalcInvMatPivot_ok m n tmp L Lt) as H. destruct (CalcInvMatPivot m n tmp) as [((b & row) & ok)|]; cbn [wq] in H.
  - destruct H as (-> & H). split; [intros _; exists b, row; auto|]. intros C. exfalso. apply C. exists b. auto.
  - destruct H as (x & i & Hi & Hx & H). split; [|auto]. intros C. exfalso. exact (singular n m x i Hi Hx H C).
Qed.
Print Assumptions C76_pivot.
(** The flag that it returns is never false. *)
Theorem C76_pivot_refuted : forall n m tmp b row ok, length m = (n * n)%nat -> length tmp = n -> CalcInvMatPivot m n tmp = Some (b, row, ok) -> ok = true.
Proof. intros n m tmp b row ok L Lt E. pose proof (CalcInvMatPivot_ok m n tmp L Lt) as H. rewrite E in H. cbn [wq] in H. tauto. Qed.
Print Assumptions C76_pivot_refuted.
Example ex_pivot : exists b row, CalcInvMatPivot [0; 1; 1; 0] 2 [7; 7]%nat = Some (b, row, true) /\ inverse_of 2 [0; 1; 1; 0] b.
Proof. apply (C76_pivot 2 [0; 1; 1; 0] [7; 7]%nat); auto. exists [0; 1; 1; 0]. apply swap2_inverse. Qed.
Example ex_singular : CalcInvMatPivot [1; 2; 2; 4] 2 [7; 7]%nat = None.
Proof.
  apply (C76_pivot 2 [1; 2; 2; 4] [7; 7]%nat); auto. intros (B & _ & _ & H). pose proof (H 0%nat 0%nat ltac:(lia) ltac:(lia)) as H0. pose proof (H 0%nat 1%nat ltac:(lia) ltac:(lia)) as H1.
  unfold ent in *. cbn in *. lra.
Qed.

(** The inverse of a 4x4 matrix. *)
Theorem C76_inverse : forall m tmp, length m = 16%nat -> length tmp = 4%nat ->
  (invertible 4 m -> exists b, Inverse_Mat4 m tmp = Some b /\ inverse_of 4 m b) /\
  (~ invertible 4 m -> Inverse_Mat4 m tmp = None).
Proof.
  intros m tmp L Lt. destruct (C76_gauss 4 m L) as (b & info & E & H). destruct (C76_pivot 4 m tmp L Lt) as (P1 & P2). unfold Inverse_Mat4. rewrite E. cbn [bind]. destruct (Z.eqb_spec info 0) as [->|Hn].
  - assert (HI : inverse_of 4 m b) by (apply H; lia). split; [intros _; exists b; auto|]. intros C. exfalso. apply C. exists b. auto.
  - split.
    + intros HI. destruct (P1 HI) as (b' & row & E' & H'). rewrite E'. cbn [bind]. exists b'. auto.
    + intros HI. rewrite (P2 HI). reflexivity.
Qed.
Print Assumptions C76_inverse.
Lemma four : forall P : nat -> nat -> Prop, (forall j, (j < 4)%nat -> P 0%nat j) -> (forall j, (j < 4)%nat -> P 1%nat j) -> (forall j, (j < 4)%nat -> P 2%nat j) -> (forall j, (j < 4)%nat -> P 3%nat j) -> forall i j, (i < 4)%nat -> (j < 4)%nat -> P i j.
Proof. intros P H0 H1 H2 H3 i j Hi Hj. destruct i as [|[|[|[|]]]]; try lia; auto. Qed.
Lemma scale_inverse : forall s, s <> 0 -> inverse_of 4 (Mat4_AffineScale s) (Mat4_AffineScale (1 / s)).
Proof.
  intros s Hs. apply id_inverse; [reflexivity| |]; apply four; intros j Hj; destruct j as [|[|[|[|]]]]; try lia; cbn; field; auto.
Qed.
Example ex_inverse : exists b, Inverse_Mat4 (Mat4_AffineScale (-2)) [9; 9; 9; 9]%nat = Some b /\ inverse_of 4 (Mat4_AffineScale (-2)) b.
Proof. apply (C76_inverse (Mat4_AffineScale (-2)) [9; 9; 9; 9]%nat); auto. exists (Mat4_AffineScale (1 / -2)). apply scale_inverse. lra. Qed.

(** Products act one after the other, and transposes from the other side. *)
Theorem C76_product : forall A B,
  (forall i j, (i < 4)%nat -> (j < 4)%nat -> ent 4 (MatMat4 A B) i j = sum 4 (fun k => ent 4 A i k * ent 4 B k j) /\ ent 4 (Transpose_Mat4 A) i j = ent 4 A j i) /\
  (forall p q r, maps B p q -> maps A q r -> maps (MatMat4 A B) p r) /\
  (forall x, MatVec4 (MatMat4 A B) x = MatVec4 A (MatVec4 B x)) /\
  (forall x, VecMat4 x A = MatVec4 (Transpose_Mat4 A) x) /\ (forall x, Vec3Mat4 x A = Mat4Vec3 (Transpose_Mat4 A) x).
Proof.
  intros A B. split.
  { intros i j Hi Hj. rewrite sum_4. change (ent 4) with e. unfold MatMat4, Transpose_Mat4. rewrite !e_mk4 by auto. auto. }
  split; [apply maps_prod|]. split; [apply vec_prod|]. split; [apply vec_transp|apply vec3_transp].
Qed.
Print Assumptions C76_product.
Example ex_product : maps (MatMat4 (Mat4_AffineScale 2) (Mat4_AffineTranslation 1 2 3)) (V3 1 1 1) (V3 4 6 8).
Proof.
  apply (proj1 (proj2 (C76_product (Mat4_AffineScale 2) (Mat4_AffineTranslation 1 2 3))) _ (V3 2 3 4)).
  - exists 1. unfold Mat4_AffineScale, Mat4_AffineTranslation. mat. repeat split; lra.
  - exists 1. unfold Mat4_AffineScale, Mat4_AffineTranslation. mat. repeat split; lra.
Qed.

(** The image of a point. *)
Theorem C76_homography : forall A p,
  (row4 A 3 p <> 0 -> maps A p (Vec3_Mat4Vec3_Homography A p)) /\ (forall q, maps A p q -> Vec3_Mat4Vec3_Homography A p = q) /\
  Vec2_Mat4Vec3_Homography A p = (vx (Vec3_Mat4Vec3_Homography A p), vy (Vec3_Mat4Vec3_Homography A p)) /\
  Vec3_Vec3Mat4_Homography p A = Vec3_Mat4Vec3_Homography (Transpose_Mat4 A) p /\
  (forall f, is_affine A f -> Vec3_Mat4Vec3_Affine A p = f p /\ Vec3_Mat4Vec3_Homography A p = f p /\ forall q, Mat4Vec3 A (sub3 q p) = sub3 (f q) (f p)).
Proof.
  intros A p. split; [apply hom_maps|]. split; [apply maps_hom|]. split; [reflexivity|]. split.
  { unfold Vec3_Vec3Mat4_Homography, Vec3_Mat4Vec3_Homography. rewrite vec_transp. reflexivity. }
  intros f Hf. split; [|split; [apply maps_hom; apply affine_maps; auto|]].
  - destruct Hf as (_ & _ & H). rewrite H. unfold Vec3_Mat4Vec3_Affine. rewrite hom_rows. reflexivity.
  - intros q. destruct Hf as (_ & _ & H). rewrite !H. unfold Mat4Vec3, row4, sub3. cbv zeta. change (ent 4) with e. cbn [vx vy vz]. f_equal; ring.
Qed.
Print Assumptions C76_homography.
Example ex_homography : Vec3_Mat4Vec3_Homography (Mat4_AffineProjectionFrustum (PI / 2) 1 (-3) (-1)) (V3 0 0 (-3)) = V3 0 0 (-1).
Proof. apply C76_homography. exists 3. unfold Mat4_AffineProjectionFrustum. mat. repeat split; lra. Qed.

(** Matrices of affine maps. *)
Theorem C76_affine :
  (forall dx dy dz, is_affine (Mat4_AffineTranslation dx dy dz) (fun p => add3 p (V3 dx dy dz))) /\
  (forall s, is_affine (Mat4_AffineScale s) (fun p => sc3 s p)) /\
  (forall sx sy sz, is_affine (ScaleXYZ sx sy sz) (fun p => V3 (sx * vx p) (sy * vy p) (sz * vz p))) /\
  is_affine Mat4_Identity (fun p => p) /\
  (forall v, is_affine (Skew v) (fun p => cross3 v p)) /\
  (forall K, length K = 9%nat -> is_affine (Mat4_Mat3 K) (app3 K)) /\
  (forall K t, length K = 9%nat -> length t = 3%nat -> is_affine (Transpose_Mat4 (Mat4_AffineTrans_RotTransl K t)) (fun p => add3 (app3 K p) (pnt t 0))).
Proof.
  split; [apply translation_ok|]. split; [apply scale_ok|]. split; [apply scalexyz_ok|]. split; [apply identity_ok|]. split; [apply skew_ok|]. split; [apply mat3_ok|apply rottransl_ok].
Qed.
Print Assumptions C76_affine.
Theorem C76_affine_then :
  (forall A B f g, is_affine A f -> is_affine B g -> is_affine (MatMat4 A B) (fun p => f (g p))) /\
  (forall A f V, is_affine A f -> exists A', Translate_Mat4Affine A V = Some A' /\ is_affine A' (fun p => add3 (f p) V)) /\
  (forall A f V g, is_affine A f -> is_affine (Mat4_AffineRotationRodriguez (vx V) (vy V) (vz V)) g -> is_affine (Rotate_Mat4AffineRodriguez A V) (fun p => g (f p))).
Proof.
  split; [apply affine_prod|]. split; [apply affine_translate|]. intros A f V g Hf Hg. apply affine_prod; auto.
Qed.
Print Assumptions C76_affine_then.
Example ex_affine : exists A', Translate_Mat4Affine (Mat4_AffineScale 2) (V3 1 0 0) = Some A' /\ is_affine A' (fun p => add3 (sc3 2 p) (V3 1 0 0)).
Proof. apply C76_affine_then. apply C76_affine. Qed.

(** Rotations. *)
Theorem C76_rodriguez : forall dx dy dz, exists f, is_affine (Mat4_AffineRotationRodriguez dx dy dz) f /\ rigid f /\ f origin3 = origin3 /\
  forall n t, dot3 n n = 1 -> cos (t / 2) <> 0 -> V3 dx dy dz = sc3 (2 * tan (t / 2)) n -> turns n t f.
Proof.
  intros dx dy dz. exists (img (Mat4_AffineRotationRodriguez dx dy dz)). split; [apply rod_affine|]. split; [apply rod_rigid|]. split; [apply rod_origin|].
  intros n t Hn Hc E. pose proof (rod_turns n t Hn Hc) as H. cbv zeta in H. rewrite <- E in H. exact H.
Qed.
Print Assumptions C76_rodriguez.
Theorem C76_cartesian : forall n t, dot3 n n = 1 -> 0 < t -> / 10 ^ 20 <= t * t -> exists f, is_affine (Mat4_AffineRotationCartesian (sc3 t n)) f /\ rigid f /\ turns n t f.
Proof.
  intros n t Hn Ht Hl. rewrite cartesian_is by auto. destruct n as [n0 n1 n2]. eexists. apply cart_ok. exact Hn.
Qed.
Print Assumptions C76_cartesian.
Lemma affine_img : forall A f, is_affine A f -> forall p, f p = img A p.
Proof. intros A f (_ & _ & H) p. apply H. Qed.
(** Vectors shorter than 1e-10 do not give a rotation. *)
Theorem C76_cartesian_refuted : forall v f, v <> origin3 -> dot3 v v < / 10 ^ 20 -> is_affine (Mat4_AffineRotationCartesian v) f -> ~ rigid f.
Proof.
  intros [a b c] f Hv Hs Hf (Hr & _). pose proof (sq_nz _ Hv) as Hp. unfold dot3 in Hs, Hp. cbn [vx vy vz] in Hs, Hp.
  assert (E : forall p, f p = V3 (vx p - c * vy p + b * vz p) (c * vx p + vy p - a * vz p) (- b * vx p + a * vy p + vz p)).
  { intros [x y z]. rewrite (affine_img _ _ Hf). unfold Mat4_AffineRotationCartesian. cbn [vx vy vz]. pose proof (ltRs (a * a + b * b + c * c) (/ 10 ^ 20)) as L. destruct (ltR (a * a + b * b + c * c) (/ 10 ^ 20)); [|lra].
    unfold img. mat. f_equal; ring. }
  pose proof (Hr (V3 1 0 0) (V3 1 0 0) (V3 0 0 0)) as H1. pose proof (Hr (V3 0 1 0) (V3 0 1 0) (V3 0 0 0)) as H2. pose proof (Hr (V3 0 0 1) (V3 0 0 1) (V3 0 0 0)) as H3.
  rewrite !E in *. vec. lra.
Qed.
Print Assumptions C76_cartesian_refuted.
Example ex_rodriguez : exists f, is_affine (Mat4_AffineRotationRodriguez 0 0 2) f /\ rigid f /\ turns (V3 0 0 1) (PI / 2) f.
Proof.
  destruct (C76_rodriguez 0 0 2) as (f & A & Rg & _ & H). exists f. split; [auto|]. split; [auto|]. replace (PI / 2) with (2 * (PI / 4)) by field. apply H.
  - unfold dot3. cbn. ring.
  - replace (2 * (PI / 4) / 2) with (PI / 4) by field. rewrite cos_PI4. assert (0 < 1 / sqrt 2) by (apply Rdiv_lt_0_compat; [lra|apply sqrt_lt_R0; lra]). lra.
  - replace (2 * (PI / 4) / 2) with (PI / 4) by field. rewrite tan_PI4. unfold sc3, comb, origin3. cbn. f_equal; ring.
Qed.
Example ex_cartesian : exists f, is_affine (Mat4_AffineRotationCartesian (sc3 (PI / 2) (V3 0 0 1))) f /\ rigid f /\ turns (V3 0 0 1) (PI / 2) f.
Proof.
  pose proof PI_RGT_0. pose proof PI2_1. apply C76_cartesian; [unfold dot3; cbn; ring|lra|]. apply Rle_trans with 1; [|pose proof (Rmult_le_compat 1 (PI / 2) 1 (PI / 2)); lra].
  rewrite <- Rinv_1. apply Rinv_le_contravar; [lra|]. apply pow_R1_Rle. lra.
Qed.

(** The view from the point eye to the point cnt with the direction up on top. *)
Theorem C76_lookat : forall eye cnt up, cross3 (sub3 cnt eye) up <> origin3 ->
  exists f, is_affine (Mat4_AffineLookAt eye cnt up) f /\ rigid f /\ f eye = origin3 /\ f cnt = V3 0 0 (- dist3 cnt eye) /\ vx (f (add3 eye up)) = 0 /\ 0 < vy (f (add3 eye up)).
Proof. intros eye cnt up H. exists (img (Mat4_AffineLookAt eye cnt up)). apply lookat_ok. auto. Qed.
Print Assumptions C76_lookat.
Example ex_lookat : cross3 (sub3 (V3 0 0 0) (V3 0 0 5)) (V3 0 1 0) <> origin3.
Proof. unfold cross3, sub3, origin3. cbn. intros C. injection C as C _ _. lra. Qed.

(** The orthographic projection takes the box to the cube. *)
Theorem C76_ortho : forall xmin xmax ymin ymax zmin zmax, xmin < xmax -> ymin < ymax -> zmin < zmax ->
  exists f, is_affine (Mat4_AffineProjectionOrtho xmin xmax ymin ymax zmin zmax) f /\
  (forall p, f p = V3 (2 * ((vx p - xmin) / (xmax - xmin)) - 1) (2 * ((vy p - ymin) / (ymax - ymin)) - 1) (2 * ((vz p - zmin) / (zmax - zmin)) - 1)) /\
  (forall p, inside (V3 (-1) (-1) (-1)) (V3 1 1 1) (f p) <-> inside (V3 xmin ymin zmin) (V3 xmax ymax zmax) p).
Proof.
  intros xmin xmax ymin ymax zmin zmax Hx Hy Hz. exists (img (Mat4_AffineProjectionOrtho xmin xmax ymin ymax zmin zmax)). split; [apply ortho_affine|].
  split; [intros; apply ortho_img; auto|]. intros p. rewrite ortho_img by auto. unfold inside. cbn [vx vy vz]. rewrite !unit_iff by auto. tauto.
Qed.
Print Assumptions C76_ortho.
(** The perspective projection takes the frustum to the cube. *)
Theorem C76_frustum : forall fovy aspect zmin zmax p, 0 < fovy < PI -> 0 < aspect -> zmin < zmax < 0 -> vz p < 0 ->
  let h := - vz p * tan (fovy / 2) in exists q, maps (Mat4_AffineProjectionFrustum fovy aspect zmin zmax) p q /\
  vx q = vx p / (aspect * h) /\ vy q = vy p / h /\ (vz p = zmin -> vz q = -1) /\ (vz p = zmax -> vz q = 1) /\
  (inside (V3 (-1) (-1) (-1)) (V3 1 1 1) q <-> Rabs (vx p) <= aspect * h /\ Rabs (vy p) <= h /\ zmin <= vz p <= zmax).
Proof.
  intros fovy aspect zmin zmax p Hf Ha Hz Hp h. destruct (frustum_ok fovy aspect zmin zmax p Hf Ha Hz Hp) as (q & M & Ex & Ey & Ez & Hh). fold h in Ex, Ey, Hh. exists q.
  split; [auto|]. split; [auto|]. split; [auto|]. split; [intros E; rewrite Ez, E; field; lra|]. split; [intros E; rewrite Ez, E; field; lra|].
  unfold inside. cbn [vx vy vz]. rewrite Ex, Ey, Ez. rewrite (abs_iff (vx p)) by (apply Rmult_lt_0_compat; lra). rewrite (abs_iff (vy p)) by lra. rewrite frustum_z by auto. tauto.
Qed.
Print Assumptions C76_frustum.
Example ex_frustum : 0 < PI / 2 < PI /\ (0 < 16 / 9) /\ (-100 < -1 < 0). Proof. pose proof PI_RGT_0. lra. Qed.

(** The ray of a pixel: M takes its points to points over the centre of the pixel. *)
Theorem C76_ray : forall M Mi iw ih nw nh, inverse_of 4 M Mi -> (0 < nw)%nat -> (0 < nh)%nat ->
  let px := 2 * (IZR iw + 1 / 2) / INR nw - 1 in let py := 2 * (IZR ih + 1 / 2) / INR nh - 1 in
  row4 Mi 3 (V3 px py 1) <> 0 -> row4 Mi 3 (V3 px py (-1)) <> 0 ->
  let (s, d) := RayFromInverseMvpMatrix Mi iw ih nw nh in
  norm3 d = 1 /\ maps M s (V3 px py 1) /\ (exists t, 0 < t /\ maps M (add3 s (sc3 t d)) (V3 px py (-1))) /\
  forall t, row4 M 3 (add3 s (sc3 t d)) <> 0 -> exists z, maps M (add3 s (sc3 t d)) (V3 px py z).
Proof.
  intros M Mi iw ih nw nh HI Hw Hh px py Hs He. unfold RayFromInverseMvpMatrix.
  assert (Nw : INR nw <> 0) by (apply not_0_INR; lia). assert (Nh : INR nh <> 0) by (apply not_0_INR; lia).
  replace (-1 + 2 / INR nw * (IZR iw + 1 / 2)) with px by (unfold px; field; auto). replace (-1 + 2 / INR nh * (IZR ih + 1 / 2)) with py by (unfold py; field; auto). cbv zeta.
  pose proof (maps_inv _ _ _ _ HI (hom_maps _ _ Hs)) as Ms. pose proof (maps_inv _ _ _ _ HI (hom_maps _ _ He)) as Me.
  set (qs := Vec3_Mat4Vec3_Homography Mi (V3 px py 1)) in *. set (qe := Vec3_Mat4Vec3_Homography Mi (V3 px py (-1))) in *.
  change (V3 (vx qe - vx qs) (vy qe - vy qs) (vz qe - vz qs)) with (sub3 qe qs). change (sqrt (vx (sub3 qe qs) * vx (sub3 qe qs) + vy (sub3 qe qs) * vy (sub3 qe qs) + vz (sub3 qe qs) * vz (sub3 qe qs))) with (norm3 (sub3 qe qs)).
  assert (Hd : sub3 qe qs <> origin3).
  { intros C. assert (Eq : qe = qs). { destruct qe as [x y z], qs as [x' y' z']. vec. injection C as C1 C2 C3. f_equal; lra. }
    rewrite Eq in Me. pose proof (maps_unique _ _ _ _ Ms Me) as U. injection U as U. lra. }
  destruct (normalize_is _ Hd) as (_ & Nl & Nl2). set (l := norm3 (sub3 qe qs)) in *.
  set (d := V3 (vx (sub3 qe qs) / l) (vy (sub3 qe qs) / l) (vz (sub3 qe qs) / l)).
  assert (El : forall t, sc3 t d = sc3 (t / l) (sub3 qe qs)). { intros t. unfold d, sc3, comb, origin3. cbn [vx vy vz]. f_equal; field; lra. }
  split.
  { unfold norm3. replace (dot3 d d) with (dot3 (sub3 qe qs) (sub3 qe qs) / (l * l)) by (unfold d, dot3; cbn [vx vy vz]; field; lra). rewrite <- Nl2. replace (l * l / (l * l)) with 1 by (field; lra). apply sqrt_1. }
  split; [auto|]. split.
  - exists l. split; [auto|]. rewrite El. replace (add3 qs (sc3 (l / l) (sub3 qe qs))) with qe; [auto|]. destruct qe as [x y z], qs as [x' y' z']. unfold add3, sc3, comb, sub3, origin3. cbn [vx vy vz]. f_equal; field; lra.
  - intros t Ht. rewrite El in *. eapply maps_line; eauto.
Qed.
Print Assumptions C76_ray.
Example ex_ray : inverse_of 4 (Mat4_AffineScale 2) (Mat4_AffineScale (1 / 2)) /\ row4 (Mat4_AffineScale (1 / 2)) 3 (V3 5 6 1) <> 0.
Proof. split; [apply scale_inverse; lra|]. unfold Mat4_AffineScale. mat. lra. Qed.
