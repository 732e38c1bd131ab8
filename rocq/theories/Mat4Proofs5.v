(** Proofs for Mat4Props.v: rotations, projections, the camera and rays. *)
From Coq Require Import List Arith Bool Lia ZArith Reals Lra.
Import ListNotations.
From Verif Require Import Imp PrModel QuatModel ProxModel ProxSpec MeasSpec MeasProofs2 EnerProofs1 GjkProofs1 Mat4Model Mat4Spec Mat4Proofs4.
Open Scope R_scope.

Ltac vec := unfold turns, add3, sc3, sub3, comb, origin3, cross3, dot3 in *; cbn [vx vy vz] in *.
(** The map whose columns are the vectors of the matrix. *)
Definition img (A : list R) (p : vec3) : vec3 := V3 (row4 A 0 p) (row4 A 1 p) (row4 A 2 p).
Definition colv (A : list R) (j : nat) : vec3 := V3 (e A 0 j) (e A 1 j) (e A 2 j).
Lemma img_lin : forall A p, img A p = add3 (lin (colv A 0) (colv A 1) (colv A 2) p) (colv A 3).
Proof. intros A [x y z]. unfold img, row4, lin, colv. change (ent 4) with e. vec. f_equal; ring. Qed.
Lemma img_rigid : forall A, dot3 (colv A 0) (colv A 0) = 1 -> dot3 (colv A 1) (colv A 1) = 1 -> dot3 (colv A 0) (colv A 1) = 0 -> colv A 2 = cross3 (colv A 0) (colv A 1) -> rigid (img A).
Proof. intros. eapply rigid_ext; [intros p; symmetry; apply img_lin|]. apply lin_rigid; auto. Qed.
Lemma img_affine : forall A, length A = 16%nat -> e A 3 0 = 0 -> e A 3 1 = 0 -> e A 3 2 = 0 -> e A 3 3 = 1 -> is_affine A (img A).
Proof. intros A L H0 H1 H2 H3. split; [auto|]. split; [|auto]. intros p. unfold row4. change (ent 4) with e. rewrite H0, H1, H2, H3. ring. Qed.

(** Rodriguez *)
Lemma rod_pos : forall dx dy dz, 1 + 1 / 4 * (dx * dx + dy * dy + dz * dz) <> 0.
Proof. intros. pose proof (Rle_0_sqr dx). pose proof (Rle_0_sqr dy). pose proof (Rle_0_sqr dz). unfold Rsqr in *. lra. Qed.
Lemma rod_img : forall dx dy dz p, let k := 1 / (1 + 1 / 4 * (dx * dx + dy * dy + dz * dz)) in let d := V3 dx dy dz in
  img (Mat4_AffineRotationRodriguez dx dy dz) p = comb 1 k (1 / 2 * k) p (cross3 d p) (cross3 d (cross3 d p)).
Proof. intros dx dy dz [x y z] k d. unfold img, Mat4_AffineRotationRodriguez. cbv zeta. fold k. unfold d. mat. vec. f_equal; field. Qed.
Lemma rod_rigid : forall dx dy dz, rigid (img (Mat4_AffineRotationRodriguez dx dy dz)).
Proof.
  intros. pose proof (rod_pos dx dy dz) as H. assert (H' : 4 + (dx * dx + dy * dy + dz * dz) <> 0) by lra.
  apply img_rigid; unfold colv, Mat4_AffineRotationRodriguez, e; cbn [Nat.mul Nat.add nth]; vec; try (apply f_equal3); field; auto.
Qed.
Lemma rod_turns : forall n t, dot3 n n = 1 -> cos (t / 2) <> 0 -> let d := sc3 (2 * tan (t / 2)) n in turns n t (img (Mat4_AffineRotationRodriguez (vx d) (vy d) (vz d))).
Proof.
  intros n t Hn Hc d. set (T := tan (t / 2)) in *.
  assert (HT : 1 + T * T <> 0) by (pose proof (Rle_0_sqr T); unfold Rsqr in *; lra).
  assert (HsT : sin (t / 2) = T * cos (t / 2)) by (unfold T, tan; field; auto).
  assert (Hcc : cos (t / 2) * cos (t / 2) = 1 / (1 + T * T)).
  { pose proof (sin2_cos2 (t / 2)) as E. unfold Rsqr in E. rewrite HsT in E. apply (Rmult_eq_reg_r (1 + T * T)); [|auto]. replace (1 / (1 + T * T) * (1 + T * T)) with 1 by (field; auto). lra. }
  assert (Ct : cos t = (1 - T * T) / (1 + T * T)).
  { replace t with (2 * (t / 2)) at 1 by field. rewrite cos_2a. rewrite HsT. transitivity ((1 - T * T) * (cos (t / 2) * cos (t / 2))); [ring|]. rewrite Hcc. field; auto. }
  assert (St : sin t = 2 * T / (1 + T * T)).
  { replace t with (2 * (t / 2)) at 1 by field. rewrite sin_2a. rewrite HsT. transitivity (2 * T * (cos (t / 2) * cos (t / 2))); [ring|]. rewrite Hcc. field; auto. }
  set (k := 1 / (1 + 1 / 4 * (vx d * vx d + vy d * vy d + vz d * vz d))).
  assert (Hk : k = 1 / (1 + T * T)).
  { unfold k. f_equal. replace (1 / 4 * (vx d * vx d + vy d * vy d + vz d * vz d)) with (T * T * dot3 n n) by (unfold d; vec; field). rewrite Hn. ring. }
  destruct n as [n0 n1 n2]. assert (Hnn : n0 * n0 + n1 * n1 + n2 * n2 = 1) by exact Hn.
  split; [exact Hn|]. split; [|split].
  - intros s. rewrite rod_img. fold k. unfold d. vec. f_equal; ring.
  - intros [x y z] Hp. rewrite rod_img. fold k. rewrite Hk, Ct, St. change (V3 (vx d) (vy d) (vz d)) with d.
    assert (XX : cross3 d (cross3 d (V3 x y z)) = sc3 (- 4 * (T * T)) (V3 x y z)).
    { assert (X : forall ni pi Q, Q = 4 * (T * T) * (ni * (n0 * x + n1 * y + n2 * z) - pi * (n0 * n0 + n1 * n1 + n2 * n2)) -> Q = - 4 * (T * T) * pi + 0 * 0 + 0 * 0) by (intros ni pi Q ->; vec; rewrite Hp, Hnn; ring).
      unfold d. vec. f_equal; [apply (X n0 x)|apply (X n1 y)|apply (X n2 z)]; ring. }
    rewrite XX. unfold d. vec. f_equal; field; auto.
  - intros p q. rewrite !rod_img. fold k. unfold d. vec. f_equal; ring.
Qed.
Lemma rod_affine : forall dx dy dz, is_affine (Mat4_AffineRotationRodriguez dx dy dz) (img (Mat4_AffineRotationRodriguez dx dy dz)).
Proof. intros. apply img_affine; reflexivity. Qed.
Lemma rod_origin : forall dx dy dz, img (Mat4_AffineRotationRodriguez dx dy dz) origin3 = origin3.
Proof. intros. rewrite rod_img. vec. f_equal; ring. Qed.

(** Cartesian *)
Definition cart (n0 n1 n2 c0 s0 : R) : list R :=
  [c0 + (1 - c0) * n0 * n0; - n2 * s0 + (1 - c0) * n0 * n1; n1 * s0 + (1 - c0) * n0 * n2; 0;
   n2 * s0 + (1 - c0) * n1 * n0; c0 + (1 - c0) * n1 * n1; - n0 * s0 + (1 - c0) * n1 * n2; 0;
   - n1 * s0 + (1 - c0) * n2 * n0; n0 * s0 + (1 - c0) * n2 * n1; c0 + (1 - c0) * n2 * n2; 0;
   0; 0; 0; 1].
Lemma cart_ok : forall n0 n1 n2 t, n0 * n0 + n1 * n1 + n2 * n2 = 1 -> let A := cart n0 n1 n2 (cos t) (sin t) in is_affine A (img A) /\ rigid (img A) /\ turns (V3 n0 n1 n2) t (img A).
Proof.
  intros n0 n1 n2 t Hn A. pose proof (sin2_cos2 t) as Hs. unfold Rsqr in Hs. unfold A. clear A. set (c := cos t) in *. set (s := sin t) in *.
  assert (H2 : n2 * n2 = 1 - n0 * n0 - n1 * n1) by lra. assert (H3 : s * s = 1 - c * c) by lra.
  split; [apply img_affine; reflexivity|]. split.
  - apply img_rigid; unfold colv, cart, e; cbn [Nat.mul Nat.add nth]; vec; try (apply f_equal3); ring [H2 H3].
  - split; [exact Hn|]. split; [|split].
    + intros a. unfold img, cart. mat. vec. f_equal; ring [H2].
    + intros [x y z] Hp. unfold img, cart. fold c s. mat. vec. f_equal.
      * transitivity (c * x + s * (n1 * z - n2 * y) + (1 - c) * n0 * (n0 * x + n1 * y + n2 * z)); [ring|]. rewrite Hp. ring.
      * transitivity (c * y + s * (n2 * x - n0 * z) + (1 - c) * n1 * (n0 * x + n1 * y + n2 * z)); [ring|]. rewrite Hp. ring.
      * transitivity (c * z + s * (n0 * y - n1 * x) + (1 - c) * n2 * (n0 * x + n1 * y + n2 * z)); [ring|]. rewrite Hp. ring.
    + intros [x y z] [x' y' z']. unfold img, cart. mat. vec. f_equal; ring.
Qed.
Lemma cartesian_is : forall n t, dot3 n n = 1 -> 0 < t -> / 10 ^ 20 <= t * t -> Mat4_AffineRotationCartesian (sc3 t n) = cart (vx n) (vy n) (vz n) (cos t) (sin t).
Proof.
  intros [n0 n1 n2] t Hn Ht Hl. unfold Mat4_AffineRotationCartesian. vec.
  assert (E : (t * n0 + 0 * 0 + 0 * 0) * (t * n0 + 0 * 0 + 0 * 0) + (t * n1 + 0 * 0 + 0 * 0) * (t * n1 + 0 * 0 + 0 * 0) + (t * n2 + 0 * 0 + 0 * 0) * (t * n2 + 0 * 0 + 0 * 0) = t * t).
  { transitivity (t * t * (n0 * n0 + n1 * n1 + n2 * n2)); [ring|]. rewrite Hn. ring. }
  rewrite E. pose proof (ltRs (t * t) (/ 10 ^ 20)) as L. destruct (ltR (t * t) (/ 10 ^ 20)); [lra|]. cbv zeta. rewrite sqrt_square by lra.
  assert (F : forall m, (t * m + 0 * 0 + 0 * 0) * (1 / t) = m) by (intros; field; lra). rewrite !F. reflexivity.
Qed.

(** Rows that are orthonormal *)
Lemma rows_rigid : forall A a0 a1 a2 b0 b1 b2 c0 c1 c2, a0 * a0 + a1 * a1 + a2 * a2 = 1 -> b0 * b0 + b1 * b1 + b2 * b2 = 1 -> a0 * b0 + a1 * b1 + a2 * b2 = 0 ->
  c0 = a1 * b2 - a2 * b1 -> c1 = a2 * b0 - a0 * b2 -> c2 = a0 * b1 - a1 * b0 ->
  colv A 0 = V3 a0 b0 c0 -> colv A 1 = V3 a1 b1 c1 -> colv A 2 = V3 a2 b2 c2 -> rigid (img A).
Proof.
  intros A a0 a1 a2 b0 b1 b2 c0 c1 c2 Ha Hb Hab Hc0 Hc1 Hc2 E0 E1 E2.
  assert (D : forall x0 x1 x2 y0 y1 y2 w, x0 * x0 + x1 * x1 + x2 * x2 = 1 -> y0 * y0 + y1 * y1 + y2 * y2 = 1 -> x0 * y0 + x1 * y1 + x2 * y2 = 0 -> w * w = (x1 * y2 - x2 * y1) * (x1 * y2 - x2 * y1) -> x0 * x0 + y0 * y0 + w * w = 1).
  { intros x0 x1 x2 y0 y1 y2 w Hx Hy Hxy ->. transitivity (x0 * x0 + y0 * y0 + ((x1 * x1 + x2 * x2) * (y1 * y1 + y2 * y2) - (x1 * y1 + x2 * y2) * (x1 * y1 + x2 * y2))); [ring|].
    replace (x1 * x1 + x2 * x2) with (1 - x0 * x0) by lra. replace (y1 * y1 + y2 * y2) with (1 - y0 * y0) by lra. replace (x1 * y1 + x2 * y2) with (- (x0 * y0)) by lra. ring. }
  apply img_rigid; rewrite ?E0, ?E1, ?E2; vec.
  - apply (D a0 a1 a2 b0 b1 b2); auto. rewrite Hc0. ring.
  - apply (D a1 a2 a0 b1 b2 b0); try lra. rewrite Hc1. ring.
  - rewrite Hc0, Hc1. transitivity (a0 * a1 + b0 * b1 + ((a1 * b0 + a0 * b1) * (a2 * b2) - a0 * a1 * (b2 * b2) - b0 * b1 * (a2 * a2))); [ring|].
    replace (a2 * a2) with (1 - a0 * a0 - a1 * a1) by lra. replace (b2 * b2) with (1 - b0 * b0 - b1 * b1) by lra. replace (a2 * b2) with (- a0 * b0 - a1 * b1) by lra. ring.
  - apply f_equal3.
    + transitivity (a2 * 1 - b2 * 0); [ring|]. rewrite <- Hb, <- Hab, Hc0, Hc1. ring.
    + transitivity (b2 * 1 - a2 * 0); [ring|]. rewrite <- Ha, <- Hab, Hc0, Hc1. ring.
    + rewrite Hc2. ring.
Qed.
Lemma sq_nz : forall v, v <> origin3 -> 0 < dot3 v v.
Proof.
  intros [x y z] H. vec. pose proof (Rle_0_sqr x). pose proof (Rle_0_sqr y). pose proof (Rle_0_sqr z). unfold Rsqr in *.
  destruct (Req_dec x 0) as [->|Hx]; [|pose proof (Rsqr_pos_lt x Hx); unfold Rsqr in *; lra].
  destruct (Req_dec y 0) as [->|Hy]; [|pose proof (Rsqr_pos_lt y Hy); unfold Rsqr in *; lra].
  destruct (Req_dec z 0) as [->|Hz]; [|pose proof (Rsqr_pos_lt z Hz); unfold Rsqr in *; lra].
  exfalso. apply H. auto.
Qed.
Lemma normalize_is : forall v, v <> origin3 -> Normalize3D v = sc3 (/ norm3 v) v /\ 0 < norm3 v /\ norm3 v * norm3 v = dot3 v v.
Proof.
  intros v H. pose proof (sq_nz v H) as P. assert (N : 0 < norm3 v) by (apply sqrt_lt_R0; auto). split; [|split; auto].
  - unfold Normalize3D. change (sqrt (vx v * vx v + vy v * vy v + vz v * vz v)) with (norm3 v). cbv zeta. unfold sc3, comb, origin3. cbn [vx vy vz]. f_equal; field; lra.
  - apply sqrt_sqrt. lra.
Qed.
Lemma lookat_ok : forall eye cnt up, cross3 (sub3 cnt eye) up <> origin3 -> let A := Mat4_AffineLookAt eye cnt up in
  is_affine A (img A) /\ rigid (img A) /\ img A eye = origin3 /\ img A cnt = V3 0 0 (- dist3 cnt eye) /\
  vx (img A (add3 eye up)) = 0 /\ 0 < vy (img A (add3 eye up)).
Proof.
  intros eye cnt up H A.
  assert (Hd : sub3 cnt eye <> origin3). { intros C. apply H. rewrite C. vec. f_equal; ring. }
  destruct (normalize_is _ Hd) as (EF & Nd & Nd2). set (d := norm3 (sub3 cnt eye)) in *.
  set (F := Normalize3D (sub3 cnt eye)) in *.
  assert (Hdd : sub3 cnt eye = sc3 d F). { rewrite EF. vec. f_equal; field; lra. }
  assert (HFF : dot3 F F = 1). { rewrite EF. apply (Rmult_eq_reg_l (d * d)); [|apply Rgt_not_eq; apply Rmult_lt_0_compat; lra]. rewrite Rmult_1_r. transitivity (dot3 (sub3 cnt eye) (sub3 cnt eye)); [|auto]. vec. field. lra. }
  set (g := cross3 F up). assert (Hg : g <> origin3). { intros C. apply H. rewrite Hdd. replace (cross3 (sc3 d F) up) with (sc3 d g) by (unfold g; vec; f_equal; ring). rewrite C. vec. f_equal; ring. }
  destruct (normalize_is _ Hg) as (ES & Ng & Ng2). set (S := Normalize3D g) in *. set (m := norm3 g) in *.
  assert (HSS : dot3 S S = 1). { rewrite ES. apply (Rmult_eq_reg_l (m * m)); [|apply Rgt_not_eq; apply Rmult_lt_0_compat; lra]. rewrite Rmult_1_r. transitivity (dot3 g g); [|auto]. vec. field. lra. }
  assert (HSF : dot3 S F = 0). { rewrite ES. unfold g. vec. ring. }
  assert (HSu : dot3 S up = 0). { rewrite ES. unfold g. vec. ring. }
  assert (HSg : dot3 S g = m). { rewrite ES. transitivity (/ m * dot3 g g); [vec; ring|]. rewrite <- Ng2. field. lra. }
  assert (EA : A = MatMat4 [vx S; vy S; vz S; 0; vx (cross3 S F); vy (cross3 S F); vz (cross3 S F); 0; - vx F; - vy F; - vz F; 0; 0; 0; 0; 1] (Mat4_AffineTranslation (- vx eye) (- vy eye) (- vz eye))).
  { unfold A, Mat4_AffineLookAt. change (V3 (vx cnt - vx eye) (vy cnt - vy eye) (vz cnt - vz eye)) with (sub3 cnt eye). fold F.
    assert (EC : forall u v, Cross3D u v = cross3 u v) by (intros; unfold Cross3D, cross3; f_equal; ring). rewrite !EC. fold g. fold S. reflexivity. }
  clearbody A S F. clear EF ES.
  assert (EI : forall p, img A p = V3 (dot3 S (sub3 p eye)) (dot3 (cross3 S F) (sub3 p eye)) (- dot3 F (sub3 p eye))).
  { intros [p0 p1 p2]. rewrite EA. clear. destruct S as [s0 s1 s2], F as [f0 f1 f2], eye as [y0 y1 y2]. unfold img, Mat4_AffineTranslation. vec. mat. f_equal; ring. }
  assert (D : dist3 cnt eye = d). { unfold d, norm3, dist3. f_equal. vec. ring. }
  split; [rewrite EA; clear; destruct S as [s0 s1 s2], F as [f0 f1 f2], eye as [y0 y1 y2]; apply img_affine; unfold Mat4_AffineTranslation; vec; mat; reflexivity || ring|]. split.
  { destruct S as [s0 s1 s2], F as [f0 f1 f2]. vec.
    apply (rows_rigid A s0 s1 s2 (s1 * f2 - s2 * f1) (s2 * f0 - s0 * f2) (s0 * f1 - s1 * f0) (- f0) (- f1) (- f2)).
    - auto.
    - transitivity ((s0 * s0 + s1 * s1 + s2 * s2) * (f0 * f0 + f1 * f1 + f2 * f2) - (s0 * f0 + s1 * f1 + s2 * f2) * (s0 * f0 + s1 * f1 + s2 * f2)); [ring|]. rewrite HSS, HFF, HSF. ring.
    - ring.
    - transitivity (s0 * 0 - f0 * 1); [ring|]. rewrite <- HSS, <- HSF. ring.
    - transitivity (s1 * 0 - f1 * 1); [ring|]. rewrite <- HSS, <- HSF. ring.
    - transitivity (s2 * 0 - f2 * 1); [ring|]. rewrite <- HSS, <- HSF. ring.
    - rewrite EA. clear. destruct eye as [y0 y1 y2]. unfold colv, Mat4_AffineTranslation. vec. mat. f_equal; ring.
    - rewrite EA. clear. destruct eye as [y0 y1 y2]. unfold colv, Mat4_AffineTranslation. vec. mat. f_equal; ring.
    - rewrite EA. clear. destruct eye as [y0 y1 y2]. unfold colv, Mat4_AffineTranslation. vec. mat. f_equal; ring. }
  split; [rewrite EI; vec; f_equal; ring|]. split.
  { rewrite EI, Hdd, D. f_equal.
    - transitivity (d * dot3 S F); [vec; ring|]. rewrite HSF. ring.
    - vec. ring.
    - transitivity (- (d * dot3 F F)); [vec; ring|]. rewrite HFF. ring. }
  assert (Eu : sub3 (add3 eye up) eye = up) by (destruct up; vec; f_equal; ring). rewrite EI, Eu. cbn [vx vy]. split; [auto|]. replace (dot3 (cross3 S F) up) with (dot3 S g) by (unfold g; vec; ring). rewrite HSg. auto.
Qed.

(** Projections *)
Lemma ortho_affine : forall xmin xmax ymin ymax zmin zmax, let A := Mat4_AffineProjectionOrtho xmin xmax ymin ymax zmin zmax in is_affine A (img A).
Proof. intros. apply img_affine; reflexivity. Qed.
Lemma ortho_img : forall xmin xmax ymin ymax zmin zmax p, xmin < xmax -> ymin < ymax -> zmin < zmax -> img (Mat4_AffineProjectionOrtho xmin xmax ymin ymax zmin zmax) p =
  V3 (2 * ((vx p - xmin) / (xmax - xmin)) - 1) (2 * ((vy p - ymin) / (ymax - ymin)) - 1) (2 * ((vz p - zmin) / (zmax - zmin)) - 1).
Proof. intros xmin xmax ymin ymax zmin zmax [x y z] Hx Hy Hz. unfold img, Mat4_AffineProjectionOrtho. mat. f_equal; field; lra. Qed.
Lemma unit_iff : forall a b x, a < b -> (-1 <= 2 * ((x - a) / (b - a)) - 1 <= 1 <-> a <= x <= b).
Proof.
  intros a b x H. assert (E : x = a + (x - a) / (b - a) * (b - a)) by (field; lra). set (s := (x - a) / (b - a)) in *. split; intros G.
  - assert (0 <= s <= 1) by lra. assert (0 <= s * (b - a)) by (apply Rmult_le_pos; lra). assert (0 <= (1 - s) * (b - a)) by (apply Rmult_le_pos; lra). lra.
  - assert (0 <= s). { unfold s. apply Rmult_le_pos; [lra|]. left. apply Rinv_0_lt_compat. lra. }
    assert (0 <= 1 - s). { replace (1 - s) with ((b - x) / (b - a)) by (unfold s; field; lra). apply Rmult_le_pos; [lra|]. left. apply Rinv_0_lt_compat. lra. }
    lra.
Qed.
Lemma abs_iff : forall u v, 0 < v -> (-1 <= u / v <= 1 <-> Rabs u <= v).
Proof.
  intros u v Hv. assert (E : u = u / v * v) by (field; lra). set (s := u / v) in *. split; intros G.
  - apply Rabs_le. assert (0 <= (1 - s) * v) by (apply Rmult_le_pos; lra). assert (0 <= (1 + s) * v) by (apply Rmult_le_pos; lra). lra.
  - assert (G1 : - v <= u <= v) by (unfold Rabs in G; destruct (Rcase_abs u); lra). unfold s. split.
    + apply (Rmult_le_reg_r v); auto. unfold Rdiv. rewrite Rmult_assoc, Rinv_l by lra. lra.
    + apply (Rmult_le_reg_r v); auto. unfold Rdiv. rewrite Rmult_assoc, Rinv_l by lra. lra.
Qed.
Lemma frustum_ok : forall fovy aspect zmin zmax p, 0 < fovy < PI -> 0 < aspect -> zmin < zmax < 0 -> vz p < 0 ->
  let h := - vz p * tan (fovy / 2) in exists q, maps (Mat4_AffineProjectionFrustum fovy aspect zmin zmax) p q /\
  vx q = vx p / (aspect * h) /\ vy q = vy p / h /\ vz q = ((zmin + zmax) - 2 * zmin * zmax / vz p) / (zmax - zmin) /\
  0 < h.
Proof.
  intros fovy aspect zmin zmax [x y z] Hf Ha Hz Hp h. cbn [vx vy vz] in *.
  assert (Ht : 0 < tan (fovy / 2)) by (apply tan_gt_0; lra). assert (Hh : 0 < h) by (unfold h; apply Rmult_lt_0_compat; lra).
  exists (V3 (x / (aspect * h)) (y / h) (((zmin + zmax) - 2 * zmin * zmax / z) / (zmax - zmin))). cbn [vx vy vz]. repeat split; auto.
  exists (- z). split; [lra|]. unfold Mat4_AffineProjectionFrustum. mat. unfold h. repeat split; field; lra.
Qed.
Lemma frustum_z : forall zmin zmax z, zmin < zmax < 0 -> z < 0 -> (-1 <= ((zmin + zmax) - 2 * zmin * zmax / z) / (zmax - zmin) <= 1 <-> zmin <= z <= zmax).
Proof.
  intros a b z H Hz. set (v := ((a + b) - 2 * a * b / z) / (b - a)).
  assert (E1 : (v + 1) * ((b - a) * - z) = 2 * - b * (z - a)) by (unfold v; field; lra).
  assert (E2 : (1 - v) * ((b - a) * - z) = 2 * - a * (b - z)) by (unfold v; field; lra).
  assert (P : 0 < (b - a) * - z) by (apply Rmult_lt_0_compat; lra). split; intros G.
  - assert (G1 : 0 <= 2 * - b * (z - a)) by (rewrite <- E1; apply Rmult_le_pos; lra). assert (G2 : 0 <= 2 * - a * (b - z)) by (rewrite <- E2; apply Rmult_le_pos; lra).
    split.
    + destruct (Rle_dec a z); auto. assert (0 < 2 * - b * (a - z)) by (apply Rmult_lt_0_compat; lra). lra.
    + destruct (Rle_dec z b); auto. assert (0 < 2 * - a * (z - b)) by (apply Rmult_lt_0_compat; lra). lra.
  - assert (G1 : 0 <= (v + 1) * ((b - a) * - z)) by (rewrite E1; apply Rmult_le_pos; lra). assert (G2 : 0 <= (1 - v) * ((b - a) * - z)) by (rewrite E2; apply Rmult_le_pos; lra).
    split.
    + destruct (Rle_dec (-1) v); auto. assert (0 < (- 1 - v) * ((b - a) * - z)) by (apply Rmult_lt_0_compat; lra). lra.
    + destruct (Rle_dec v 1); auto. assert (0 < (v - 1) * ((b - a) * - z)) by (apply Rmult_lt_0_compat; lra). lra.
Qed.

(** Rays *)
Lemma maps_inv : forall M Mi p q, inverse_of 4 M Mi -> maps Mi p q -> maps M q p.
Proof.
  intros M Mi p q (_ & HI & _) (w & Hw & H0 & H1 & H2 & H3).
  assert (G : forall i, (i < 4)%nat -> w * row4 M i q = (if (i =? 0)%nat then vx p else 0) + (if (i =? 1)%nat then vy p else 0) + (if (i =? 2)%nat then vz p else 0) + (if (i =? 3)%nat then 1 else 0)).
  { intros i Hi. transitivity (ent 4 M i 0 * (w * vx q) + ent 4 M i 1 * (w * vy q) + ent 4 M i 2 * (w * vz q) + ent 4 M i 3 * w); [unfold row4; ring|].
    rewrite <- H0, <- H1, <- H2. rewrite <- H3 at 1. unfold row4.
    pose proof (HI i 0%nat Hi ltac:(lia)) as I0. pose proof (HI i 1%nat Hi ltac:(lia)) as I1. pose proof (HI i 2%nat Hi ltac:(lia)) as I2. pose proof (HI i 3%nat Hi ltac:(lia)) as I3. rewrite sum_4 in *.
    transitivity (vx p * (ent 4 M i 0 * ent 4 Mi 0 0 + ent 4 M i 1 * ent 4 Mi 1 0 + ent 4 M i 2 * ent 4 Mi 2 0 + ent 4 M i 3 * ent 4 Mi 3 0)
      + vy p * (ent 4 M i 0 * ent 4 Mi 0 1 + ent 4 M i 1 * ent 4 Mi 1 1 + ent 4 M i 2 * ent 4 Mi 2 1 + ent 4 M i 3 * ent 4 Mi 3 1)
      + vz p * (ent 4 M i 0 * ent 4 Mi 0 2 + ent 4 M i 1 * ent 4 Mi 1 2 + ent 4 M i 2 * ent 4 Mi 2 2 + ent 4 M i 3 * ent 4 Mi 3 2)
      + (ent 4 M i 0 * ent 4 Mi 0 3 + ent 4 M i 1 * ent 4 Mi 1 3 + ent 4 M i 2 * ent 4 Mi 2 3 + ent 4 M i 3 * ent 4 Mi 3 3)); [ring|].
    rewrite I0, I1, I2, I3. destruct (i =? 0)%nat, (i =? 1)%nat, (i =? 2)%nat, (i =? 3)%nat; ring. }
  exists (/ w). pose proof (G 0%nat ltac:(lia)) as G0. pose proof (G 1%nat ltac:(lia)) as G1. pose proof (G 2%nat ltac:(lia)) as G2. pose proof (G 3%nat ltac:(lia)) as G3. cbn [Nat.eqb] in *.
  split; [apply Rinv_neq_0_compat; auto|].
  assert (T : forall u v, w * u = v -> u = / w * v) by (intros u v <-; field; auto). repeat split; try (apply T; lra). transitivity (/ w * 1); [apply T; lra|ring].
Qed.
Lemma maps_unique : forall A p q q', maps A p q -> maps A p q' -> q = q'.
Proof. intros A p q q' H H'. rewrite <- (maps_hom _ _ _ H). apply maps_hom. auto. Qed.
Lemma maps_line : forall M a b x y z z' s, maps M a (V3 x y z) -> maps M b (V3 x y z') -> let q := add3 a (sc3 s (sub3 b a)) in row4 M 3 q <> 0 -> exists z'', maps M q (V3 x y z'').
Proof.
  intros M a b x y z z' s (w & Hw & H0 & H1 & H2 & H3) (w' & Hw' & G0 & G1 & G2 & G3) q Hq.
  assert (E : forall i, row4 M i q = (1 - s) * row4 M i a + s * row4 M i b) by (intros; unfold q, row4; vec; ring).
  exists (row4 M 2 q / row4 M 3 q). exists (row4 M 3 q). split; [auto|]. cbn [vx vy vz] in *. rewrite (E 0%nat), (E 1%nat). split; [|split; [|split; [field; auto|auto]]]; rewrite E, H3, G3, ?H0, ?G0, ?H1, ?G1; ring.
Qed.
