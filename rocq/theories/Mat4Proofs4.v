(** Proofs for Mat4Props.v: products, homographies and affine maps. *)
From Coq Require Import List Arith Bool Lia ZArith Reals Lra.
Import ListNotations.
From Verif Require Import Imp PrModel QuatModel ProxModel ProxSpec MeasSpec MeasProofs2 EnerProofs1 GjkProofs1 Mat4Model Mat4Spec.
Open Scope R_scope.

Lemma v3_eq : forall p q, vx p = vx q -> vy p = vy q -> vz p = vz q -> p = q.
Proof. intros [] [] H1 H2 H3. cbn in *. congruence. Qed.
Ltac mat := cbv [row4 ent e mk4 MatMat4 Transpose_Mat4 MatVec4 VecMat4 Mat4Vec3 Vec3Mat4 nth Nat.mul Nat.add qx qy qz qw vx vy vz] in *.
Lemma ent_e : forall A i j, ent 4 A i j = e A i j. Proof. reflexivity. Qed.
Lemma e_mk4 : forall f i j, (i < 4)%nat -> (j < 4)%nat -> e (mk4 f) i j = f i j.
Proof. intros f i j Hi Hj. do 4 (destruct i as [|i]; [do 4 (destruct j as [|j]; [reflexivity|]); lia|]). lia. Qed.

Lemma prod_row : forall A B i p, (i < 4)%nat -> row4 (MatMat4 A B) i p = e A i 0 * row4 B 0 p + e A i 1 * row4 B 1 p + e A i 2 * row4 B 2 p + e A i 3 * row4 B 3 p.
Proof. intros A B i p Hi. unfold row4. change (ent 4) with e. unfold MatMat4. rewrite !e_mk4 by lia. cbv beta. ring. Qed.
Lemma maps_prod : forall A B p q r, maps B p q -> maps A q r -> maps (MatMat4 A B) p r.
Proof.
  intros A B p q r (w & Hw & H0 & H1 & H2 & H3) (v & Hv & G0 & G1 & G2 & G3). exists (w * v). split; [apply Rmult_integral_contrapositive; auto|].
  rewrite !prod_row by lia. rewrite H0, H1, H2, H3.
  assert (E : forall i, e A i 0 * (w * vx q) + e A i 1 * (w * vy q) + e A i 2 * (w * vz q) + e A i 3 * w = w * row4 A i q) by (intros; unfold row4; change (ent 4) with e; ring).
  rewrite !E, G0, G1, G2, G3. repeat split; ring.
Qed.
Lemma vec_prod : forall A B x, MatVec4 (MatMat4 A B) x = MatVec4 A (MatVec4 B x).
Proof. intros A B x. unfold MatVec4, MatMat4. cbv zeta. cbn [qx qy qz qw]. rewrite !e_mk4 by lia. cbv beta. f_equal; ring. Qed.
Lemma vec_transp : forall A x, VecMat4 x A = MatVec4 (Transpose_Mat4 A) x.
Proof. intros A x. unfold MatVec4, VecMat4, Transpose_Mat4. cbv zeta. rewrite !e_mk4 by lia. cbv beta. reflexivity. Qed.
Lemma vec3_transp : forall A x, Vec3Mat4 x A = Mat4Vec3 (Transpose_Mat4 A) x.
Proof. intros A x. unfold Mat4Vec3, Vec3Mat4, Transpose_Mat4. cbv zeta. rewrite !e_mk4 by lia. cbv beta. f_equal; ring. Qed.
Lemma hom_rows : forall A p, MatVec4 A (Q4 (vx p) (vy p) (vz p) 1) = Q4 (row4 A 0 p) (row4 A 1 p) (row4 A 2 p) (row4 A 3 p).
Proof. intros A p. unfold MatVec4, row4. cbv zeta. cbn [qx qy qz qw]. change (ent 4) with e. f_equal; ring. Qed.
Lemma hom_maps : forall A p, row4 A 3 p <> 0 -> maps A p (Vec3_Mat4Vec3_Homography A p).
Proof.
  intros A p H. exists (row4 A 3 p). split; auto. unfold Vec3_Mat4Vec3_Homography. rewrite hom_rows. cbv zeta. cbn [qx qy qz qw vx vy vz]. repeat split; field; auto.
Qed.
Lemma maps_hom : forall A p q, maps A p q -> Vec3_Mat4Vec3_Homography A p = q.
Proof.
  intros A p q (w & Hw & H0 & H1 & H2 & H3). unfold Vec3_Mat4Vec3_Homography. rewrite hom_rows. cbv zeta. cbn [qx qy qz qw]. rewrite H0, H1, H2, H3. apply v3_eq; cbn [vx vy vz]; field; auto.
Qed.
Lemma affine_maps : forall A f p, is_affine A f -> maps A p (f p).
Proof. intros A f p (_ & H3 & H). exists 1. rewrite H3, H. cbn [vx vy vz]. repeat split; try lra. Qed.
Lemma affine_row3 : forall A, (forall p, row4 A 3 p = 1) -> e A 3 0 = 0 /\ e A 3 1 = 0 /\ e A 3 2 = 0 /\ e A 3 3 = 1.
Proof.
  intros A H. pose proof (H (V3 0 0 0)) as H0. pose proof (H (V3 1 0 0)) as H1. pose proof (H (V3 0 1 0)) as H2. pose proof (H (V3 0 0 1)) as H3.
  unfold row4 in *. change (ent 4) with e in *. cbn [vx vy vz] in *. lra.
Qed.
Lemma affine_prod : forall A B f g, is_affine A f -> is_affine B g -> is_affine (MatMat4 A B) (fun p => f (g p)).
Proof.
  intros A B f g (LA & A3 & HA) (LB & B3 & HB). destruct (affine_row3 A A3) as (E0 & E1 & E2 & E3). split; [reflexivity|]. split.
  - intros p. rewrite prod_row by lia. rewrite E0, E1, E2, E3, B3. ring.
  - intros p. rewrite HA, HB. rewrite !prod_row by lia. rewrite B3. apply v3_eq; cbn [vx vy vz]; unfold row4 at 1; change (ent 4) with e; cbn [vx vy vz]; ring.
Qed.
Lemma affine_translate : forall A f V, is_affine A f -> exists A', Translate_Mat4Affine A V = Some A' /\ is_affine A' (fun p => add3 (f p) V).
Proof.
  intros A f V (LA & A3 & HA). do 16 (destruct A as [|? A]; [discriminate|]). destruct A; [|discriminate].
  eexists. split; [reflexivity|]. split; [reflexivity|]. split.
  - intros p. rewrite <- (A3 p). reflexivity.
  - intros p. rewrite HA. unfold add3, comb, origin3. mat. f_equal; ring.
Qed.
Lemma is_affine_intro : forall A f, length A = 16%nat -> (forall p, row4 A 3 p = 1) -> (forall p, f p = V3 (row4 A 0 p) (row4 A 1 p) (row4 A 2 p)) -> is_affine A f.
Proof. intros. split; auto. Qed.
Ltac aff := apply is_affine_intro; [reflexivity|intros [px py pz]; mat; ring|intros [px py pz]; unfold add3, sc3, comb, origin3; mat; f_equal; ring].
Lemma translation_ok : forall dx dy dz, is_affine (Mat4_AffineTranslation dx dy dz) (fun p => add3 p (V3 dx dy dz)).
Proof. intros. unfold Mat4_AffineTranslation. aff. Qed.
Lemma scale_ok : forall s, is_affine (Mat4_AffineScale s) (fun p => sc3 s p).
Proof. intros. unfold Mat4_AffineScale. aff. Qed.
Lemma scalexyz_ok : forall sx sy sz, is_affine (ScaleXYZ sx sy sz) (fun p => V3 (sx * vx p) (sy * vy p) (sz * vz p)).
Proof. intros. unfold ScaleXYZ. aff. Qed.
Lemma identity_ok : is_affine Mat4_Identity (fun p => p).
Proof. intros. unfold Mat4_Identity. aff. Qed.
Lemma skew_ok : forall v, is_affine (Skew v) (fun p => cross3 v p).
Proof. intros [a b c]. unfold Skew, cross3. aff. Qed.
Lemma mat3_ok : forall K, length K = 9%nat -> is_affine (Mat4_Mat3 K) (app3 K).
Proof. intros K L. do 9 (destruct K as [|? K]; [discriminate|]). destruct K; [|discriminate]. unfold Mat4_Mat3, app3. aff. Qed.
Lemma rottransl_ok : forall K t, length K = 9%nat -> length t = 3%nat -> is_affine (Transpose_Mat4 (Mat4_AffineTrans_RotTransl K t)) (fun p => add3 (app3 K p) (pnt t 0)).
Proof.
  intros K t L Lt. do 9 (destruct K as [|? K]; [discriminate|]). destruct K; [|discriminate]. do 3 (destruct t as [|? t]; [discriminate|]). destruct t; [|discriminate].
  unfold Mat4_AffineTrans_RotTransl, app3, pnt. aff.
Qed.

Lemma rigid_linear : forall f, (forall p q, f (add3 p q) = add3 (f p) (f q)) -> (forall s p, f (sc3 s p) = sc3 s (f p)) ->
  (forall p q, dot3 (f p) (f q) = dot3 p q) -> (forall p q, f (cross3 p q) = cross3 (f p) (f q)) -> forall c, rigid (fun p => add3 (f p) c).
Proof.
  intros f Ha Hs Hd Hc c.
  assert (E : forall p q, sub3 (add3 (f p) c) (add3 (f q) c) = f (sub3 p q)).
  { intros p q. assert (T : sub3 p q = add3 p (sc3 (-1) q)) by (unfold sub3, add3, sc3, comb, origin3; cbn [vx vy vz]; f_equal; ring). rewrite T, Ha, Hs.
    unfold sub3, add3, sc3, comb, origin3. cbn [vx vy vz]. f_equal; ring. }
  split.
  - intros. rewrite !E. apply Hd.
  - intros p q r s H. rewrite !E, H. apply Hc.
Qed.
Lemma rigid_ext : forall f g, (forall p, f p = g p) -> rigid f -> rigid g.
Proof. intros f g H (A & B). split; intros; rewrite <- !H; auto. Qed.
(** Maps with orthonormal columns. *)
Definition lin (a b c p : vec3) : vec3 := comb (vx p) (vy p) (vz p) a b c.
Lemma lin_rigid : forall a b c d, dot3 a a = 1 -> dot3 b b = 1 -> dot3 a b = 0 -> c = cross3 a b -> rigid (fun p => add3 (lin a b c p) d).
Proof.
  intros [a0 a1 a2] [b0 b1 b2] c d Haa Hbb Hab ->. unfold dot3 in *. cbn [vx vy vz] in *. apply rigid_linear.
  - intros [p0 p1 p2] [q0 q1 q2]. unfold lin, add3, comb, origin3, cross3. cbn [vx vy vz]. f_equal; ring.
  - intros s [p0 p1 p2]. unfold lin, sc3, comb, origin3, cross3. cbn [vx vy vz]. f_equal; ring.
  - intros [p0 p1 p2] [q0 q1 q2]. unfold lin, comb, cross3, dot3. cbn [vx vy vz].
    assert (Hcc : (a1 * b2 - a2 * b1) * (a1 * b2 - a2 * b1) + (a2 * b0 - a0 * b2) * (a2 * b0 - a0 * b2) + (a0 * b1 - a1 * b0) * (a0 * b1 - a1 * b0) = 1).
    { transitivity ((a0 * a0 + a1 * a1 + a2 * a2) * (b0 * b0 + b1 * b1 + b2 * b2) - (a0 * b0 + a1 * b1 + a2 * b2) * (a0 * b0 + a1 * b1 + a2 * b2)); [ring|]. rewrite Haa, Hbb, Hab. ring. }
    transitivity (p0 * q0 * (a0 * a0 + a1 * a1 + a2 * a2) + p1 * q1 * (b0 * b0 + b1 * b1 + b2 * b2) + (p0 * q1 + p1 * q0) * (a0 * b0 + a1 * b1 + a2 * b2)
      + p2 * q2 * ((a1 * b2 - a2 * b1) * (a1 * b2 - a2 * b1) + (a2 * b0 - a0 * b2) * (a2 * b0 - a0 * b2) + (a0 * b1 - a1 * b0) * (a0 * b1 - a1 * b0))); [ring|]. rewrite Haa, Hbb, Hab, Hcc. ring.
  - intros [p0 p1 p2] [q0 q1 q2].
    set (c0 := a1 * b2 - a2 * b1). set (c1 := a2 * b0 - a0 * b2). set (c2 := a0 * b1 - a1 * b0).
    assert (B0 : b1 * c2 - b2 * c1 = a0) by (transitivity (a0 * (b0 * b0 + b1 * b1 + b2 * b2) - b0 * (a0 * b0 + a1 * b1 + a2 * b2)); [unfold c1, c2; ring|rewrite Hbb, Hab; ring]).
    assert (B1 : b2 * c0 - b0 * c2 = a1) by (transitivity (a1 * (b0 * b0 + b1 * b1 + b2 * b2) - b1 * (a0 * b0 + a1 * b1 + a2 * b2)); [unfold c0, c2; ring|rewrite Hbb, Hab; ring]).
    assert (B2 : b0 * c1 - b1 * c0 = a2) by (transitivity (a2 * (b0 * b0 + b1 * b1 + b2 * b2) - b2 * (a0 * b0 + a1 * b1 + a2 * b2)); [unfold c0, c1; ring|rewrite Hbb, Hab; ring]).
    assert (A0 : c1 * a2 - c2 * a1 = b0) by (transitivity (b0 * (a0 * a0 + a1 * a1 + a2 * a2) - a0 * (a0 * b0 + a1 * b1 + a2 * b2)); [unfold c1, c2; ring|rewrite Haa, Hab; ring]).
    assert (A1 : c2 * a0 - c0 * a2 = b1) by (transitivity (b1 * (a0 * a0 + a1 * a1 + a2 * a2) - a1 * (a0 * b0 + a1 * b1 + a2 * b2)); [unfold c0, c2; ring|rewrite Haa, Hab; ring]).
    assert (A2 : c0 * a1 - c1 * a0 = b2) by (transitivity (b2 * (a0 * a0 + a1 * a1 + a2 * a2) - a2 * (a0 * b0 + a1 * b1 + a2 * b2)); [unfold c0, c1; ring|rewrite Haa, Hab; ring]).
    assert (C0 : a1 * b2 - a2 * b1 = c0) by reflexivity. assert (C1 : a2 * b0 - a0 * b2 = c1) by reflexivity. assert (C2 : a0 * b1 - a1 * b0 = c2) by reflexivity.
    unfold lin, comb, cross3. cbn [vx vy vz]. fold c0 c1 c2. clearbody c0 c1 c2. f_equal.
    + rewrite <- B0 at 1. rewrite <- A0 at 1. rewrite <- C0 at 1. ring.
    + rewrite <- B1 at 1. rewrite <- A1 at 1. rewrite <- C1 at 1. ring.
    + rewrite <- B2 at 1. rewrite <- A2 at 1. rewrite <- C2 at 1. ring.
Qed.
