(** C47: quaternion algebra is rotation algebra. *)
From Coq Require Import List Arith Bool Reals Lra Lia Nsatz.
Import ListNotations.
From Verif Require Import Imp PrModel QuatModel QuatSpec QuatProofs.
Open Scope R_scope.

Theorem C47_QuatQuat : forall p q r,
  QuatQuat p q = hamilton p q /\ QuatQuat (QuatQuat p q) r = QuatQuat p (QuatQuat q r) /\ QuatQuat Quat_Identity p = p /\ QuatQuat p Quat_Identity = p /\
  norm2 (QuatQuat p q) = norm2 p * norm2 q /\ Length_Quat (QuatQuat p q) = Length_Quat p * Length_Quat q /\
  conjugate (QuatQuat p q) = QuatQuat (conjugate q) (conjugate p) /\ QuatQuat p (conjugate p) = quat_scale Quat_Identity (norm2 p) /\
  QuatQuat p (quat_add q r) = quat_add (QuatQuat p q) (QuatQuat p r) /\ QuatQuat (quat_add p q) r = quat_add (QuatQuat p r) (QuatQuat q r) /\ quat_add (quat_sub p q) q = p.
Proof.
  intros p q r. split; [apply hamilton_ok|]. split; [apply assoc|]. split; [destruct p; unfold Quat_Identity; unf; apply q4_eq; ring|]. split; [destruct p; unfold Quat_Identity; unf; apply q4_eq; ring|]. split; [apply norm_mul|].
  assert (L : forall p, Length_Quat p = sqrt (norm2 p)) by (intros []; unfold Length_Quat; unf; f_equal; ring).
  assert (NN : forall p, 0 <= norm2 p). { intros [a b c d]. unf. assert (A := Rle_0_sqr a). assert (B := Rle_0_sqr b). assert (C := Rle_0_sqr c). assert (D := Rle_0_sqr d). unfold Rsqr in *. lra. }
  split; [rewrite !L, norm_mul; apply sqrt_mult; apply NN|]. split; [apply conj_mul|]. split; [destruct p; unfold Quat_Identity; unf; apply q4_eq; ring|].
  split; [destruct p, q, r; unf; apply q4_eq; ring|]. split; [destruct p, q, r; unf; apply q4_eq; ring|]. destruct p, q; unfold quat_sub; unf; apply q4_eq; ring.
Qed.

Theorem C47_QuatVec : forall p q u v, unit p -> unit q ->
  QuatVec (QuatQuat p q) v = QuatVec p (QuatVec q v) /\ mk 0 (QuatVec q v) = hamilton (hamilton q (mk 0 v)) (conjugate q) /\
  vdot (QuatVec q u) (QuatVec q v) = vdot u v /\ vcross (QuatVec q u) (QuatVec q v) = QuatVec q (vcross u v) /\
  QuatConjVec q (QuatVec q v) = v /\ QuatVec q (QuatConjVec q v) = v /\ QuatConjVec q v = QuatVec (conjugate q) v /\
  QuatVec (SetSmallerRotation q) v = QuatVec q v /\ 0 <= qw (SetSmallerRotation q).
Proof.
  intros p q u v P Q0. split; [apply vec_comp; auto|]. split; [apply vec_conj; auto|]. split; [apply vec_dot; auto|]. split; [apply vec_cross; auto|]. split; [apply conj_inv; auto|]. split; [apply conj_inv; auto|]. split; [apply conj_conj|].
  unfold SetSmallerRotation. assert (T := ltR_spec 0 (qw q)). destruct (ltR 0 (qw q)); [split; [auto|lra]|]. destruct q as [a b c d], v as [x y z]. unf. split; [apply v3_eq; ring|lra].
Qed.

(** Matrices of quaternions. *)
Theorem C47_matrices : forall q v,
  matvec (Mat3_Quat q) v = QuatVec q v /\ mat4_apply (Mat4_AffineQuaternion q) v = hom (QuatVec q v) /\ mat4_apply (Mat4_AffineQuaternionConjugate q) v = hom (QuatConjVec q v) /\
  (unit q -> rotation (Mat3_Quat q)) /\
  (forall scale tr, exists m, Mat4_ScaleRotTrans scale q tr = Some m /\ length m = 16%nat /\ mat4_apply m v = hom (vadd (vscale scale (QuatVec q v)) tr)).
Proof.
  intros q v. split; [apply mat_vec|]. unfold mat4_apply, hom, Mat4_AffineQuaternion, Mat4_AffineQuaternionConjugate. cbn [map seq List.nth Nat.mul Nat.add]. unfold QuatVec, QuatConjVec. cbn [vx vy vz].
  split; [|split; [|split; [apply mat_rot|]]]; try (apply (f_equal2 cons); [ring|]; apply (f_equal2 cons); [ring|]; apply (f_equal2 cons); [ring|]; apply (f_equal2 cons); [ring|reflexivity]).
  intros sc [a b c]. unfold Mat4_ScaleRotTrans, Mat4_AffineQuaternion. unfold forn. cbn [Nat.sub forn_ Nat.mul Nat.add bind vmod vget nth_error vset]. eexists. split; [reflexivity|]. split; [reflexivity|]. unfold vadd, vscale. cbn [List.nth map vx vy vz].
  apply (f_equal2 cons); [ring|]; apply (f_equal2 cons); [ring|]; apply (f_equal2 cons); [ring|]; apply (f_equal2 cons); [ring|reflexivity].
Qed.
(** Quat_Mat3 recovers the rotation from any rotation matrix, and the quaternion up to sign. *)
Theorem C47_Quat_Mat3 : (forall m, rotation m -> exists q, Quat_Mat3 m = Some q /\ unit q /\ Mat3_Quat q = m /\ (forall v, QuatVec q v = matvec m v)) /\
  (forall p, unit p -> exists q, Quat_Mat3 (Mat3_Quat p) = Some q /\ (q = p \/ q = quat_scale p (-1))).
Proof.
  split.
  - intros m Rm. destruct (Quat_Mat3_ok m Rm) as (q & E & U & M). exists q. split; auto. split; auto. split; auto. intros v. rewrite <- mat_vec, M. auto.
  - intros p U. destruct (Quat_Mat3_ok _ (mat_rot p U)) as (q & E & V & M). exists q. split; auto. apply mat_inj; auto.
Qed.

Theorem C47_Normalize : forall q, q <> Q4 0 0 0 0 -> exists q' s, Normalize_Quat q = Some q' /\ 0 < s /\ quat_scale q s = q' /\ unit q'.
Proof.
  intros [a b c d] N. unfold Normalize_Quat. cbn [qx qy qz qw].
  assert (A := Rle_0_sqr a). assert (B := Rle_0_sqr b). assert (C := Rle_0_sqr c). assert (D := Rle_0_sqr d). unfold Rsqr in *.
  assert (P : 0 < a * a + b * b + c * c + d * d). { destruct (Rtotal_order 0 (a * a + b * b + c * c + d * d)) as [H|[H|H]]; auto; [|lra]. exfalso. apply N. assert (Z0 : forall x, x * x = 0 -> x = 0) by (intros x H0; apply Rmult_integral in H0; tauto). f_equal; apply Z0; lra. }
  assert (L := sqrt_lt_R0 _ P). assert (Q0 := sqrt_sqrt _ (Rlt_le _ _ P)). set (r := sqrt (a * a + b * b + c * c + d * d)) in *. unfold div. assert (T := eqR_spec r 0). destruct (eqR r 0); [lra|]. cbn [bind]. eexists. exists (1 / r). split; [reflexivity|]. split; [apply Rdiv_lt_0_compat; lra|]. split; [reflexivity|].
  unf. transitivity ((a * a + b * b + c * c + d * d) / (r * r)); [field; lra|]. rewrite Q0. field. lra.
Qed.

(** Quat_CartesianAngle a rotates by the angle |a| about the axis a / |a|. *)
Theorem C47_CartesianAngle : forall a, (1 / 10 ^ 10 <= vdot a a -> exists q, Quat_CartesianAngle a = Some q /\ unit q /\ forall v, QuatVec q v = rodrigues (vscale (1 / sqrt (vdot a a)) a) (sqrt (vdot a a)) v) /\
  (vdot a a < 1 / 10 ^ 10 -> exists q, Quat_CartesianAngle a = Some q /\ norm2 q = 1 + vdot a a * vdot a a / 64).
Proof.
  intros [x y z]. unfold Quat_CartesianAngle. cbn [vx vy vz]. assert (T := ltR_spec (x * x + y * y + z * z) (1 / 10 ^ 10)). rewrite !(eq_refl : vdot (V3 x y z) (V3 x y z) = x * x + y * y + z * z). split; intros H.
  - destruct (ltR _ _); [lra|]. assert (P : 0 < x * x + y * y + z * z). { assert (0 < 1 / 10 ^ 10) by (apply Rdiv_lt_0_compat; [lra|apply pow_lt; lra]). lra. }
    assert (L := sqrt_lt_R0 _ P). assert (Q0 := sqrt_sqrt _ (Rlt_le _ _ P)). set (r := sqrt (x * x + y * y + z * z)) in *. unfold div. assert (T2 := eqR_spec r 0). destruct (eqR r 0); [lra|]. cbn [bind].
    assert (N : vdot (vscale (1 / r) (V3 x y z)) (vscale (1 / r) (V3 x y z)) = 1) by (unf; transitivity ((x * x + y * y + z * z) / (r * r)); [field; lra|rewrite Q0; field; lra]).
    eexists. split; [reflexivity|].
    assert (E : Q4 (sin (r * (1 / 2)) * x / r) (sin (r * (1 / 2)) * y / r) (sin (r * (1 / 2)) * z / r) (cos (r * (1 / 2))) = mk (cos (r / 2)) (vscale (sin (r / 2)) (vscale (1 / r) (V3 x y z)))) by (unfold mk, vscale; cbn [vx vy vz]; rewrite half_eq; apply q4_eq; field; lra).
    rewrite E. split; [apply axis_unit; auto|]. intros v. apply axis_angle. auto.
  - destruct (ltR _ _); [|lra]. eexists. split; [reflexivity|]. unf. field.
Qed.
(** So a small rotation vector other than 0 never gives a unit quaternion. *)
Theorem C47_small_angle_refuted : exists a q, Quat_CartesianAngle a = Some q /\ ~ unit q /\ exists v, vdot (QuatVec q v) (QuatVec q v) <> vdot v v.
Proof.
  exists (V3 (1 / 10 ^ 6) 0 0). destruct (C47_CartesianAngle (V3 (1 / 10 ^ 6) 0 0)) as (_ & H). destruct H as (q & E & N); [unf; lra|]. exists q. split; auto. split; [unfold unit; rewrite N; unf; lra|]. exists (V3 0 1 0). unfold Quat_CartesianAngle in E. cbn [vx vy vz] in E. assert (T := ltR_spec (1 / 10 ^ 6 * (1 / 10 ^ 6) + 0 * 0 + 0 * 0) (1 / 10 ^ 10)). destruct (ltR _ _); [|lra]. injection E as <-. unf. lra.
Qed.

Theorem C47_Bryant : forall x y z, unit (Quat_Bryant x y z) /\ forall v, QuatVec (Quat_Bryant x y z) v = rodrigues (V3 0 0 1) z (rodrigues (V3 0 1 0) y (rodrigues (V3 1 0 0) x v)).
Proof.
  intros x y z. unfold Quat_Bryant. cbv zeta. rewrite !half_eq.
  assert (A : forall i th, unit (mk (cos (th / 2)) (vscale (sin (th / 2)) (axis i)))) by (intros; apply axis_unit, axis_norm).
  assert (B : forall i th v, QuatVec (mk (cos (th / 2)) (vscale (sin (th / 2)) (axis i))) v = rodrigues (axis i) th v) by (intros; apply axis_angle, axis_norm).
  replace (Q4 (sin (x / 2)) 0 0 (cos (x / 2))) with (mk (cos (x / 2)) (vscale (sin (x / 2)) (axis 0))) by (unfold mk, vscale, axis; cbn [vx vy vz]; apply q4_eq; ring).
  replace (Q4 0 (sin (y / 2)) 0 (cos (y / 2))) with (mk (cos (y / 2)) (vscale (sin (y / 2)) (axis 1))) by (unfold mk, vscale, axis; cbn [vx vy vz]; apply q4_eq; ring).
  replace (Q4 0 0 (sin (z / 2)) (cos (z / 2))) with (mk (cos (z / 2)) (vscale (sin (z / 2)) (axis 2))) by (unfold mk, vscale, axis; cbn [vx vy vz]; apply q4_eq; ring).
  split; [repeat apply unit_mul; auto|]. intros v. rewrite !vec_comp by (repeat apply unit_mul; auto). rewrite !B. reflexivity.
Qed.
Theorem C47_EulerAngle : forall r0 r1 r2 a0 a1 a2, (a0 < 3)%nat -> (a1 < 3)%nat -> (a2 < 3)%nat ->
  exists q, Quaternion_EulerAngle [r0; r1; r2] [a0; a1; a2] = Some q /\ unit q /\ forall v, QuatVec q v = rodrigues (axis a0) r0 (rodrigues (axis a1) r1 (rodrigues (axis a2) r2 v)).
Proof.
  intros r0 r1 r2 a0 a1 a2 H0 H1 H2.
  assert (A : forall i th, unit (mk (cos (th / 2)) (vscale (sin (th / 2)) (axis i)))) by (intros; apply axis_unit, axis_norm).
  assert (B : forall i th v, QuatVec (mk (cos (th / 2)) (vscale (sin (th / 2)) (axis i))) v = rodrigues (axis i) th v) by (intros; apply axis_angle, axis_norm).
  assert (ST : forall q ia th, (ia < 3)%nat -> (v0 <- vset [0; 0; 0] ia 1 ;; a <- vget v0 0 ;; b <- vget v0 1 ;; c <- vget v0 2 ;; Some (QuatQuat q (Q4 (sin (th / 2) * a) (sin (th / 2) * b) (sin (th / 2) * c) (cos (th / 2))))) = Some (QuatQuat q (mk (cos (th / 2)) (vscale (sin (th / 2)) (axis ia))))) by (intros q [|[|[|]]] th K; try (exfalso; lia); reflexivity).
  unfold Quaternion_EulerAngle, forn. cbn [Nat.sub forn_ vget nth_error bind]. rewrite (ST _ a0) by auto. cbn [bind]. rewrite (ST _ a1) by auto. cbn [bind]. rewrite (ST _ a2) by auto. cbn [bind]. eexists. split; [reflexivity|].
  assert (U1 : unit (Q4 0 0 0 1)) by (unf; ring). split; [repeat apply unit_mul; auto|]. intros v. rewrite !vec_comp by (repeat apply unit_mul; auto). rewrite !B. destruct (rodrigues (axis a0) _ _) as [x y z]. unf. apply v3_eq; ring.
Qed.

(** Spherical interpolation between unit quaternions moves on the great arc at constant speed. *)
Theorem C47_slerp : forall q0 q1 t, unit q0 -> unit q1 -> exists q, SphericalLinearInterp q0 q1 t = Some q /\ unit q /\
  (Dot_Quat q0 q1 * Dot_Quat q0 q1 <> 1 -> Dot_Quat q0 q = cos (t * acos (Dot_Quat q0 q1)) /\ Dot_Quat q1 q = cos ((1 - t) * acos (Dot_Quat q0 q1)) /\ (exists a b, q = quat_add (quat_scale q0 a) (quat_scale q1 b)) /\ (t = 0 -> q = q0) /\ (t = 1 -> q = q1)) /\
  (Dot_Quat q0 q1 * Dot_Quat q0 q1 = 1 -> q = q0 /\ (q1 = q0 \/ q1 = quat_scale q0 (-1))).
Proof.
  intros q0 q1 t U V. set (c := Dot_Quat q0 q1).
  assert (CS : -1 <= c <= 1). { unfold c. destruct q0 as [a b e d], q1 as [a' b' e' d']. unf. assert (A := Rle_0_sqr (a - a')). assert (B := Rle_0_sqr (b - b')). assert (C := Rle_0_sqr (e - e')). assert (D := Rle_0_sqr (d - d')). assert (A1 := Rle_0_sqr (a + a')). assert (B1 := Rle_0_sqr (b + b')). assert (C1 := Rle_0_sqr (e + e')). assert (D1 := Rle_0_sqr (d + d')). unfold Rsqr in *. lra. }
  unfold SphericalLinearInterp. fold c. assert (T := eqR_spec (1 - c * c) 0). destruct (eqR _ 0).
  - exists q0. split; auto. split; auto. split; [lra|]. intros _. split; auto. assert (G : c = 1 \/ c = -1). { assert (G : (c - 1) * (c + 1) = 0) by lra. apply Rmult_integral in G. destruct G; [left|right]; lra. }
    destruct q0 as [a b e d], q1 as [a' b' e' d']. unfold c in *. unf. assert (SQ : forall x, 0 <= x * x) by (intros x; apply Rle_0_sqr). assert (Z0 : forall x, x * x = 0 -> x = 0) by (intros x H0; apply Rmult_integral in H0; tauto).
    destruct G as [G|G]; [left|right].
    + assert (SS : (a - a') * (a - a') + (b - b') * (b - b') + (e - e') * (e - e') + (d - d') * (d - d') = 0) by lra. assert (A := SQ (a - a')). assert (B := SQ (b - b')). assert (C := SQ (e - e')). assert (D := SQ (d - d')). apply q4_eq; [assert (a - a' = 0)|assert (b - b' = 0)|assert (e - e' = 0)|assert (d - d' = 0)]; try lra; apply Z0; lra.
    + assert (SS : (a + a') * (a + a') + (b + b') * (b + b') + (e + e') * (e + e') + (d + d') * (d + d') = 0) by lra. assert (A := SQ (a + a')). assert (B := SQ (b + b')). assert (C := SQ (e + e')). assert (D := SQ (d + d')). apply q4_eq; [assert (a + a' = 0)|assert (b + b' = 0)|assert (e + e' = 0)|assert (d + d' = 0)]; try lra; apply Z0; lra.
  - assert (PS : 0 < 1 - c * c) by nra. unfold csqrt, cacos. assert (T1 := ltR_spec (1 - c * c) 0). destruct (ltR (1 - c * c) 0); [lra|]. cbn [bind]. assert (T2 := ltR_spec c (-1)). destruct (ltR c (-1)); [lra|]. assert (T3 := ltR_spec 1 c). destruct (ltR 1 c); [lra|]. cbn [orb bind].
    assert (SP := sqrt_lt_R0 _ PS). assert (SN : sin (acos c) = sqrt (1 - c * c)) by (rewrite sin_acos by auto; reflexivity). assert (CN : cos (acos c) = c) by (apply cos_acos; auto). rewrite <- SN in *. set (ph := acos c) in *. unfold div. assert (T4 := eqR_spec (sin ph) 0). destruct (eqR (sin ph) 0); [lra|]. cbn [bind]. eexists. split; [reflexivity|].
    rewrite (Rmult_comm t ph). replace ((1 - t) * ph) with (ph - ph * t) by ring. assert (S1 := sin2_cos2 ph). assert (S2 := sin2_cos2 (ph * t)). unfold Rsqr in *. rewrite (sin_minus ph (ph * t)), (cos_minus ph (ph * t)) in *. rewrite CN in *.
    set (f := ph * t) in *.
    assert (UN : forall x y, norm2 (Q4 (x * qx q0 + y * qx q1) (x * qy q0 + y * qy q1) (x * qz q0 + y * qz q1) (x * qw q0 + y * qw q1)) = x * x + y * y + 2 * x * y * c). { intros x y. unfold c. clear -U V. destruct q0 as [a b e d], q1 as [a' b' e' d']. unf. transitivity (x * x * (d * d + (a * a + b * b + e * e)) + y * y * (d' * d' + (a' * a' + b' * b' + e' * e')) + 2 * x * y * (a * a' + b * b' + e * e' + d * d')); [ring|]. rewrite U, V. ring. }
    assert (D0 : forall x y, Dot_Quat q0 (Q4 (x * qx q0 + y * qx q1) (x * qy q0 + y * qy q1) (x * qz q0 + y * qz q1) (x * qw q0 + y * qw q1)) = x + y * c). { intros x y. unfold c. clear -U. destruct q0 as [a b e d], q1 as [a' b' e' d']. unf. transitivity (x * (d * d + (a * a + b * b + e * e)) + y * (a * a' + b * b' + e * e' + d * d')); [ring|]. rewrite U. ring. }
    assert (D1 : forall x y, Dot_Quat q1 (Q4 (x * qx q0 + y * qx q1) (x * qy q0 + y * qy q1) (x * qz q0 + y * qz q1) (x * qw q0 + y * qw q1)) = x * c + y). { intros x y. unfold c. clear -V. destruct q0 as [a b e d], q1 as [a' b' e' d']. unf. transitivity (y * (d' * d' + (a' * a' + b' * b' + e' * e')) + x * (a * a' + b * b' + e * e' + d * d')); [ring|]. rewrite V. ring. }
    clear SN T1 T2 T3. split; [|split; [|lra]].
    + unfold unit. rewrite UN. set (S := sin ph) in *. assert (SS : S * S = 1 - c * c) by lra. clearbody S f. clear -S2 SS T4 SP. transitivity (((S * cos f - c * sin f) * (S * cos f - c * sin f) + sin f * sin f + 2 * (S * cos f - c * sin f) * sin f * c) / (S * S)); [field; lra|]. replace ((S * cos f - c * sin f) * (S * cos f - c * sin f) + sin f * sin f + 2 * (S * cos f - c * sin f) * sin f * c) with (S * S); [field; lra|]. assert (CF : cos f * cos f = 1 - sin f * sin f) by lra. transitivity (S * S * (cos f * cos f) + sin f * sin f * (1 - c * c)); [rewrite CF; rewrite SS; ring|ring].
    + intros _. rewrite D0, D1. set (S := sin ph) in *. assert (SS : S * S = 1 - c * c) by lra. split; [field; lra|]. split; [apply (Rmult_eq_reg_r S); [|lra]; replace (((S * cos f - c * sin f) / S * c + sin f / S) * S) with (S * cos f * c + sin f * (1 - c * c)) by (field; lra); rewrite <- SS; ring|]. split; [exists ((S * cos f - c * sin f) / S), (sin f / S); unfold quat_add, quat_scale; cbn [qx qy qz qw]; apply q4_eq; ring|].
      split; intros ->; unfold f.
      * rewrite Rmult_0_r, sin_0, cos_0. destruct q0 as [a b e d]. cbn [qx qy qz qw]. apply q4_eq; field; lra.
      * rewrite Rmult_1_r. fold S. rewrite CN. destruct q1 as [a b e d]. cbn [qx qy qz qw]. apply q4_eq; field; lra.
Qed.

(** Concrete cases. *)
Example C47_unit_example : unit (Q4 (1 / 2) (1 / 2) (1 / 2) (1 / 2)) /\ QuatVec (Q4 (1 / 2) (1 / 2) (1 / 2) (1 / 2)) (V3 1 2 3) = V3 3 1 2.
Proof. split; [unf; lra|]. unf. apply v3_eq; lra. Qed.
Example C47_rotation_example : rotation (M3 0 0 1 1 0 0 0 1 0) /\ ~ rotation (M3 0 0 1 1 0 0 0 (-1) 0). Proof. unfold rotation. unf. split; [repeat split; lra|]. intros (_ & _ & _ & _ & _ & _ & H). lra. Qed.
Example C47_slerp_example : unit (Q4 0 0 (3 / 5) (4 / 5)) /\ Dot_Quat (Q4 0 0 0 1) (Q4 0 0 (3 / 5) (4 / 5)) * Dot_Quat (Q4 0 0 0 1) (Q4 0 0 (3 / 5) (4 / 5)) <> 1. Proof. unf. split; lra. Qed.

Print Assumptions C47_QuatQuat.
Print Assumptions C47_QuatVec.
Print Assumptions C47_matrices.
Print Assumptions C47_Quat_Mat3.
Print Assumptions C47_Normalize.
Print Assumptions C47_CartesianAngle.
Print Assumptions C47_small_angle_refuted.
Print Assumptions C47_Bryant.
Print Assumptions C47_EulerAngle.
Print Assumptions C47_slerp.
