(** Lines, rays, planes, triangles and tetrahedra. *)
From Coq Require Import List Arith Bool Reals Lra Lia.
Import ListNotations.
From Verif Require Import Imp PrModel PolyModel QuatModel ProxModel ProxSpec IsecModel IsecSpec GjkProofs1 ProxProofs1 ProxProofs3.
Open Scope R_scope.

Lemma nrm_tn : forall p q r, nrm p q r = tn p q r. Proof. reflexivity. Qed.
Lemma inner_dot : forall u v, inner u v = dot3 u v. Proof. reflexivity. Qed.
Lemma bary_zero : forall a b d q0 q1 q2, a + b + d = 0 -> comb a b d q0 q1 q2 = origin3 -> dot3 (tn q0 q1 q2) (tn q0 q1 q2) <> 0 -> a = 0 /\ b = 0 /\ d = 0.
Proof.
  intros a b d q0 q1 q2 S E N.
  assert (Z : forall k, mul3 k (tn q0 q1 q2) = origin3 -> k = 0). { intros k K. apply Rsqr_0_uniq. unfold Rsqr. apply Rmult_eq_reg_r with (dot3 (tn q0 q1 q2) (tn q0 q1 q2)); auto. replace (k * k * dot3 (tn q0 q1 q2) (tn q0 q1 q2)) with (dot3 (mul3 k (tn q0 q1 q2)) (mul3 k (tn q0 q1 q2))) by (set (c := tn q0 q1 q2); clearbody c; u3; ring). rewrite K. u3. ring. }
  split; [|split]; apply Z.
  - replace (mul3 a (tn q0 q1 q2)) with (cross3 (sub3 q2 q1) (comb a b d q0 q1 q2)) by (replace b with (- a - d) by lra; unfold tn; veq). rewrite E. veq.
  - replace (mul3 b (tn q0 q1 q2)) with (cross3 (sub3 q0 q2) (comb a b d q0 q1 q2)) by (replace d with (- a - b) by lra; unfold tn; veq). rewrite E. veq.
  - replace (mul3 d (tn q0 q1 q2)) with (cross3 (sub3 q1 q0) (comb a b d q0 q1 q2)) by (replace a with (- b - d) by lra; unfold tn; veq). rewrite E. veq.
Qed.
Lemma bary_unique : forall a b d a' b' d' q0 q1 q2, a + b + d = 1 -> a' + b' + d' = 1 -> comb a b d q0 q1 q2 = comb a' b' d' q0 q1 q2 -> dot3 (tn q0 q1 q2) (tn q0 q1 q2) <> 0 -> a = a' /\ b = b' /\ d = d'.
Proof.
  intros a b d a' b' d' q0 q1 q2 S S' E N. destruct (bary_zero (a - a') (b - b') (d - d') q0 q1 q2) as (A & B & C); auto; [lra| |repeat split; lra].
  replace (comb (a - a') (b - b') (d - d') q0 q1 q2) with (sub3 (comb a b d q0 q1 q2) (comb a' b' d' q0 q1 q2)) by veq. rewrite E. veq.
Qed.
Lemma dn_ne : forall d n, dot3 d n <> 0 -> dot3 n n <> 0.
Proof. intros d n H E. apply dot_zero in E. apply H. rewrite E. u3. ring. Qed.
(** The point of a line in the plane of a triangle. *)
Definition rc (o d p0 p1 p2 : vec3) (i : nat) : R :=
  let q0 := sub3 p0 o in let q1 := sub3 p1 o in let q2 := sub3 p2 o in match i with 0%nat => dot3 d (cross3 q1 q2) | 1%nat => dot3 d (cross3 q2 q0) | _ => dot3 d (cross3 q0 q1) end / dot3 d (tn p0 p1 p2).
Lemma rc_sum : forall o d p0 p1 p2, dot3 d (tn p0 p1 p2) <> 0 -> rc o d p0 p1 p2 0 + rc o d p0 p1 p2 1 + rc o d p0 p1 p2 2 = 1.
Proof.
  intros o d p0 p1 p2 N. unfold rc. cbv zeta. assert (E : dot3 d (cross3 (sub3 p1 o) (sub3 p2 o)) + dot3 d (cross3 (sub3 p2 o) (sub3 p0 o)) + dot3 d (cross3 (sub3 p0 o) (sub3 p1 o)) = dot3 d (tn p0 p1 p2)) by (unfold tn; u3; ring).
  set (k := dot3 d (tn p0 p1 p2)) in *. replace 1 with (k / k) by (field; auto). rewrite <- E at 4. field. auto.
Qed.
Lemma rc_point : forall o d p0 p1 p2, dot3 d (tn p0 p1 p2) <> 0 -> comb (rc o d p0 p1 p2 0) (rc o d p0 p1 p2 1) (rc o d p0 p1 p2 2) p0 p1 p2 = comb 1 (dot3 (sub3 p0 o) (tn p0 p1 p2) / dot3 d (tn p0 p1 p2)) 0 o d origin3.
Proof.
  intros o d p0 p1 p2 N. pose proof (rc_sum o d p0 p1 p2 N) as S. pose proof (comb_shift (rc o d p0 p1 p2 0) (rc o d p0 p1 p2 1) (rc o d p0 p1 p2 2) o p0 p1 p2 S) as C.
  assert (E : comb (rc o d p0 p1 p2 0) (rc o d p0 p1 p2 1) (rc o d p0 p1 p2 2) (sub3 p0 o) (sub3 p1 o) (sub3 p2 o) = mul3 (dot3 (sub3 p0 o) (tn p0 p1 p2) / dot3 d (tn p0 p1 p2)) d).
  { unfold rc. cbv zeta. assert (D : dot3 (sub3 p0 o) (tn p0 p1 p2) = dot3 (sub3 p0 o) (cross3 (sub3 p1 o) (sub3 p2 o))) by (unfold tn; u3; ring). rewrite D. set (k := dot3 d (tn p0 p1 p2)) in *. clearbody k. clear D S C. set (q0 := sub3 p0 o). set (q1 := sub3 p1 o). set (q2 := sub3 p2 o). clearbody q0 q1 q2.
    apply v3_eq; unfold comb, mul3; cbn [vx vy vz]; u3; field; auto. }
  rewrite E in C. set (x := comb (rc o d p0 p1 p2 0) _ _ _ _ _) in *. set (t := dot3 (sub3 p0 o) _ / _) in *. clearbody x t.
  apply v3_eq; [apply (f_equal vx) in C|apply (f_equal vy) in C|apply (f_equal vz) in C]; u3; lra.
Qed.
(** It is the only one. *)
Lemma rc_unique : forall o d p0 p1 p2 a b c t, dot3 d (tn p0 p1 p2) <> 0 -> a + b + c = 1 -> comb a b c p0 p1 p2 = comb 1 t 0 o d origin3 -> a = rc o d p0 p1 p2 0 /\ b = rc o d p0 p1 p2 1 /\ c = rc o d p0 p1 p2 2 /\ t = dot3 (sub3 p0 o) (tn p0 p1 p2) / dot3 d (tn p0 p1 p2).
Proof.
  intros o d p0 p1 p2 a b c t N S E.
  assert (T : t = dot3 (sub3 p0 o) (tn p0 p1 p2) / dot3 d (tn p0 p1 p2)).
  { assert (E1 : dot3 (sub3 (comb a b c p0 p1 p2) o) (tn p0 p1 p2) = dot3 (sub3 p0 o) (tn p0 p1 p2)) by (replace a with (1 - b - c) by lra; unfold tn; u3; ring). rewrite E in E1.
    assert (E2 : dot3 (sub3 (comb 1 t 0 o d origin3) o) (tn p0 p1 p2) = t * dot3 d (tn p0 p1 p2)) by (set (n := tn p0 p1 p2); clearbody n; u3; ring). rewrite E2 in E1. rewrite <- E1. field. auto. }
  pose proof (rc_point o d p0 p1 p2 N) as P. rewrite <- T, <- E in P. destruct (bary_unique _ _ _ _ _ _ _ _ _ (rc_sum o d p0 p1 p2 N) S P (dn_ne _ _ N)) as (A & B & C). auto.
Qed.
Lemma vol_ray : forall o d a b, Volume_Tet3 a b o (add3 o d) = dot3 d (cross3 (sub3 a o) (sub3 b o)) / 6. Proof. intros. u3. field. Qed.
Lemma vol_ray2 : forall o d a b, Volume_Tet o (add3 o d) a b = dot3 d (cross3 (sub3 a o) (sub3 b o)) / 6. Proof. intros. unfold Volume_Tet. u3. field. Qed.
Lemma vol_ray_sum : forall o d p0 p1 p2, dot3 d (cross3 (sub3 p1 o) (sub3 p2 o)) / 6 + dot3 d (cross3 (sub3 p2 o) (sub3 p0 o)) / 6 + dot3 d (cross3 (sub3 p0 o) (sub3 p1 o)) / 6 = dot3 d (tn p0 p1 p2) / 6.
Proof. intros. unfold tn. u3. field. Qed.
Lemma IntersectRay_par : forall o d p0 p1 p2 eps, dot3 d (tn p0 p1 p2) = 0 -> IntersectRay_Tri3 o d p0 p1 p2 eps = (false, None).
Proof. intros o d p0 p1 p2 eps H. unfold IntersectRay_Tri3. cbv zeta. rewrite !vol_ray, vol_ray_sum, H. pose proof (eqRs (0 / 6) 0) as Q. destruct (eqR (0 / 6) 0); [auto|lra]. Qed.
Lemma IntersectRay_ok : forall o d p0 p1 p2 eps, dot3 d (tn p0 p1 p2) <> 0 -> let r := rc o d p0 p1 p2 in exists b, IntersectRay_Tri3 o d p0 p1 p2 eps = (b, Some (r 0%nat, r 1%nat)) /\ (b = true <-> - eps <= r 0%nat /\ - eps <= r 1%nat /\ - eps <= r 2%nat).
Proof.
  intros o d p0 p1 p2 eps N r. unfold IntersectRay_Tri3. cbv zeta. rewrite !vol_ray, vol_ray_sum. pose proof (eqRs (dot3 d (tn p0 p1 p2) / 6) 0) as Q. destruct (eqR (dot3 d (tn p0 p1 p2) / 6) 0); [lra|].
  assert (F : forall x, x / 6 / (dot3 d (tn p0 p1 p2) / 6) = x / dot3 d (tn p0 p1 p2)) by (intros; field; auto). rewrite !F.
  change (dot3 d (cross3 (sub3 p1 o) (sub3 p2 o)) / dot3 d (tn p0 p1 p2)) with (r 0%nat). change (dot3 d (cross3 (sub3 p2 o) (sub3 p0 o)) / dot3 d (tn p0 p1 p2)) with (r 1%nat). change (dot3 d (cross3 (sub3 p0 o) (sub3 p1 o)) / dot3 d (tn p0 p1 p2)) with (r 2%nat).
  eexists. split; [reflexivity|]. pose proof (ltRs (r 0%nat) (- eps)) as Q0. pose proof (ltRs (r 1%nat) (- eps)) as Q1. pose proof (ltRs (r 2%nat) (- eps)) as Q2.
  destruct (ltR (r 0%nat) (- eps)), (ltR (r 1%nat) (- eps)), (ltR (r 2%nat) (- eps)); cbn; split; intros; try discriminate; auto; exfalso; lra.
Qed.
Lemma Plane3_Line3_par : forall eps o d p0 p1 p2, dot3 d (tn p0 p1 p2) = 0 -> Intersection_Plane3_Line3 eps o d p0 p1 p2 = (false, None).
Proof. intros eps o d p0 p1 p2 H. unfold Intersection_Plane3_Line3. cbv zeta. rewrite !vol_ray2, vol_ray_sum, H. pose proof (eqRs (0 / 6) 0) as Q. destruct (eqR (0 / 6) 0); [auto|lra]. Qed.
Lemma Plane3_Line3_ok : forall eps o d p0 p1 p2, dot3 d (tn p0 p1 p2) <> 0 -> let r := rc o d p0 p1 p2 in
  exists b, Intersection_Plane3_Line3 eps o d p0 p1 p2 = (b, Some (comb (r 0%nat) (r 1%nat) (r 2%nat) p0 p1 p2, r 0%nat, r 1%nat, r 2%nat)) /\ (b = true <-> eps < r 0%nat /\ eps < r 1%nat /\ eps < r 2%nat).
Proof.
  intros eps o d p0 p1 p2 N r. unfold Intersection_Plane3_Line3. cbv zeta. rewrite !vol_ray2, vol_ray_sum. pose proof (eqRs (dot3 d (tn p0 p1 p2) / 6) 0) as Q. destruct (eqR (dot3 d (tn p0 p1 p2) / 6) 0); [lra|].
  assert (F : forall x, x / 6 * (1 / (dot3 d (tn p0 p1 p2) / 6)) = x / dot3 d (tn p0 p1 p2)) by (intros; field; auto). rewrite !F.
  change (dot3 d (cross3 (sub3 p1 o) (sub3 p2 o)) / dot3 d (tn p0 p1 p2)) with (r 0%nat). change (dot3 d (cross3 (sub3 p2 o) (sub3 p0 o)) / dot3 d (tn p0 p1 p2)) with (r 1%nat). change (dot3 d (cross3 (sub3 p0 o) (sub3 p1 o)) / dot3 d (tn p0 p1 p2)) with (r 2%nat).
  eexists. split; [reflexivity|]. pose proof (ltRs eps (r 0%nat)) as Q0. pose proof (ltRs eps (r 1%nat)) as Q1. pose proof (ltRs eps (r 2%nat)) as Q2.
  destruct (ltR eps (r 0%nat)), (ltR eps (r 1%nat)), (ltR eps (r 2%nat)); cbn; split; intros; try discriminate; auto; exfalso; lra.
Qed.

(** A point and the prism over a triangle. *)
Lemma prism : forall q0 q1 q2 p, dot3 (tn q0 q1 q2) (tn q0 q1 q2) <> 0 -> exists a b c k, a + b + c = 1 /\ p = add3 (comb a b c q0 q1 q2) (mul3 k (tn q0 q1 q2)).
Proof.
  intros q0 q1 q2 p N. assert (N' : dot3 (tn (sub3 q0 p) (sub3 q1 p) (sub3 q2 p)) (tn (sub3 q0 p) (sub3 q1 p) (sub3 q2 p)) <> 0) by (rewrite tn_shift; auto).
  pose proof (bar_sum _ _ _ N') as S. pose proof (foot _ _ _ N') as F. rewrite tn_shift in F. rewrite <- comb_shift in F by auto. set (a := bar _ _ _ 0) in *. set (b := bar _ _ _ 1) in *. set (c := bar _ _ _ 2) in *. set (k := dot3 _ _ / _) in F.
  exists a, b, c, (- k). split; auto. clearbody k a b c. set (n := tn q0 q1 q2) in *. clearbody n. set (x := comb a b c q0 q1 q2) in *. clearbody x. apply v3_eq; [apply (f_equal vx) in F|apply (f_equal vy) in F|apply (f_equal vz) in F]; u3; lra.
Qed.
Lemma same_side_gen : forall e u a c k, dot3 (cross3 e (add3 (add3 (mul3 a u) (mul3 c e)) (mul3 k (cross3 e u)))) (cross3 e u) = a * dot3 (cross3 e u) (cross3 e u).
Proof. intros. u3. ring. Qed.
Lemma same_side : forall p0 q l0 l1 a c k, sub3 p0 l0 = add3 (add3 (mul3 a (sub3 q l0)) (mul3 c (sub3 l1 l0))) (mul3 k (cross3 (sub3 l1 l0) (sub3 q l0))) -> dot3 (cross3 (sub3 l1 l0) (sub3 q l0)) (cross3 (sub3 l1 l0) (sub3 q l0)) > 0 -> isPointSameSide p0 q l0 l1 = true <-> 0 <= a.
Proof.
  intros p0 q l0 l1 a c k E P. unfold isPointSameSide. cbv zeta. rewrite E, same_side_gen. set (K := dot3 _ _) in *. clearbody K. pose proof (ltRs (a * K) 0) as Q. destruct (ltR (a * K) 0); cbn; split; intros; auto; try discriminate.
  - exfalso. assert (0 <= a * K) by (apply Rmult_le_pos; lra). lra.
  - apply Rmult_le_reg_r with K; lra.
Qed.
Lemma inside_ok : forall p q0 q1 q2 a b c k, dot3 (tn q0 q1 q2) (tn q0 q1 q2) <> 0 -> a + b + c = 1 -> p = add3 (comb a b c q0 q1 q2) (mul3 k (tn q0 q1 q2)) -> isPointInsideTriangle p q0 q1 q2 = true <-> 0 <= a /\ 0 <= b /\ 0 <= c.
Proof.
  intros p q0 q1 q2 a b c k N S E. unfold isPointInsideTriangle. pose proof (dot_pos (tn q0 q1 q2)) as P.
  assert (T0 : tn q0 q1 q2 = cross3 (sub3 q2 q1) (sub3 q0 q1)) by (unfold tn; veq). assert (T1 : tn q0 q1 q2 = mul3 (-1) (cross3 (sub3 q2 q0) (sub3 q1 q0))) by (unfold tn; veq). assert (T2 : tn q0 q1 q2 = cross3 (sub3 q1 q0) (sub3 q2 q0)) by reflexivity.
  assert (A : isPointSameSide p q0 q1 q2 = true <-> 0 <= a). { apply same_side with (c := c) (k := k); [|rewrite <- T0; lra]. rewrite <- T0, E. set (n := tn q0 q1 q2). clearbody n. replace b with (1 - a - c) by lra. veq. }
  assert (B : isPointSameSide p q1 q0 q2 = true <-> 0 <= b). { apply same_side with (c := c) (k := - k). - replace (mul3 (- k) (cross3 (sub3 q2 q0) (sub3 q1 q0))) with (mul3 k (tn q0 q1 q2)) by (rewrite T1; set (n := cross3 _ _); clearbody n; veq). rewrite E. set (n := tn q0 q1 q2). clearbody n. replace a with (1 - b - c) by lra. veq. - replace (dot3 (cross3 (sub3 q2 q0) (sub3 q1 q0)) (cross3 (sub3 q2 q0) (sub3 q1 q0))) with (dot3 (tn q0 q1 q2) (tn q0 q1 q2)) by (rewrite T1; set (n := cross3 _ _); clearbody n; u3; ring). lra. }
  assert (C : isPointSameSide p q2 q0 q1 = true <-> 0 <= c). { apply same_side with (c := b) (k := k); [|rewrite <- T2; lra]. rewrite <- T2, E. set (n := tn q0 q1 q2). clearbody n. replace a with (1 - b - c) by lra. veq. }
  rewrite !andb_true_iff, A, B, C. tauto.
Qed.
Lemma Ray_ok : forall l0 l1 q0 q1 q2 x, dot3 (sub3 l1 l0) (tn q0 q1 q2) <> 0 -> isRayIntersectingTriangle l0 l1 q0 q1 q2 = Some x <-> ray l0 (sub3 l1 l0) x /\ triangle q0 q1 q2 x.
Proof.
  intros l0 l1 q0 q1 q2 x N. unfold isRayIntersectingTriangle. fold (tn q0 q1 q2). cbv zeta. set (d := sub3 l1 l0) in *. rewrite (dot_comm (tn q0 q1 q2) d), (dot_comm (tn q0 q1 q2) (sub3 q0 l0)). pose proof (eqRs (dot3 d (tn q0 q1 q2)) 0) as Q. destruct (eqR (dot3 d (tn q0 q1 q2)) 0); [lra|].
  pose proof (rc_point l0 d q0 q1 q2 N) as P. pose proof (rc_sum l0 d q0 q1 q2 N) as S. pose proof (rc_unique l0 d q0 q1 q2) as U. set (t := dot3 (sub3 q0 l0) (tn q0 q1 q2) / dot3 d (tn q0 q1 q2)) in *. pose proof (ltRs t 0) as Q0.
  assert (XE : add3 l0 (mul3 t d) = comb 1 t 0 l0 d origin3) by (clearbody d t; veq).
  destruct (ltR t 0).
  - split; [discriminate|]. intros ((s & Hs & X) & (a & b & c & A & B & C & SS & Y)). exfalso. destruct (U a b c s N SS) as (_ & _ & _ & TT); [rewrite <- Y; auto|]. lra.
  - rewrite XE. pose proof (inside_ok (comb 1 t 0 l0 d origin3) q0 q1 q2 (rc l0 d q0 q1 q2 0) (rc l0 d q0 q1 q2 1) (rc l0 d q0 q1 q2 2) 0 (dn_ne _ _ N) S) as I. specialize (I ltac:(rewrite P; set (n := tn q0 q1 q2); clearbody n d t; veq)).
    destruct (isPointInsideTriangle (comb 1 t 0 l0 d origin3) q0 q1 q2); cbn [negb]; split; try discriminate.
    + intros H. injection H. intros <-. destruct I as (I & _). destruct (I eq_refl) as (A & B & C). split; [exists t; split; auto|]. rewrite <- P. exists (rc l0 d q0 q1 q2 0), (rc l0 d q0 q1 q2 1), (rc l0 d q0 q1 q2 2). auto.
    + intros ((s & Hs & X) & (a & b & c & A & B & C & SS & Y)). destruct (U a b c s N SS) as (_ & _ & _ & TT); [rewrite <- Y; auto|]. f_equal. rewrite X, TT. auto.
    + intros ((s & Hs & X) & (a & b & c & A & B & C & SS & Y)). exfalso. destruct (U a b c s N SS) as (EA & EB & EC & TT); [rewrite <- Y; auto|]. destruct I as (_ & I). rewrite <- EA, <- EB, <- EC in I. specialize (I ltac:(auto)). discriminate.
Qed.
Lemma Ray_par : forall l0 l1 q0 q1 q2, dot3 (sub3 l1 l0) (tn q0 q1 q2) = 0 -> isRayIntersectingTriangle l0 l1 q0 q1 q2 = None.
Proof. intros l0 l1 q0 q1 q2 H. unfold isRayIntersectingTriangle. fold (tn q0 q1 q2). cbv zeta. rewrite (dot_comm (tn q0 q1 q2)), H. pose proof (eqRs 0 0) as Q. destruct (eqR 0 0); [auto|lra]. Qed.
Lemma Plane3_Line3_n_ok : forall o n s d x, dot3 d n <> 0 -> Intersection_Plane3_Line3_n o n s d = Some x <-> line s d x /\ dot3 (sub3 x o) n = 0.
Proof.
  intros o n s d x N. unfold Intersection_Plane3_Line3_n, ndiv. pose proof (eqRs (dot3 d n) 0) as Q. destruct (eqR (dot3 d n) 0); [lra|]. cbn [bind]. set (t := dot3 (sub3 o s) n / dot3 d n).
  assert (V : forall k, dot3 (sub3 (comb 1 k 0 s d origin3) o) n = k * dot3 d n - dot3 (sub3 o s) n) by (intros; u3; ring). assert (XE : add3 s (mul3 t d) = comb 1 t 0 s d origin3) by (clearbody t; veq). rewrite XE. split.
  - intros H. injection H. intros <-. split; [exists t; auto|]. rewrite V. unfold t. field. auto.
  - intros ((k & ->) & E). rewrite V in E. replace k with t; auto. unfold t. apply Rmult_eq_reg_r with (dot3 d n); auto. unfold Rdiv. rewrite Rmult_assoc, Rinv_l by auto. lra.
Qed.
(** Tetrahedra. *)
Definition comb4 (a b c d : R) (p q r s : vec3) : vec3 := add3 (comb a b c p q r) (mul3 d s).
Lemma org_total : forall p0 p1 p2 p3, Volume_OrgTet p1 p2 p3 + Volume_OrgTet p2 p0 p3 + Volume_OrgTet p1 p3 p0 + Volume_OrgTet p1 p0 p2 = volume6 p0 p1 p2 p3 / 6.
Proof. intros. unfold volume6. u3. field. Qed.
Lemma bary_tet_ok : forall p0 p1 p2 p3, volume6 p0 p1 p2 p3 <> 0 -> exists r0 r1 r2, barycentricCoord_Origin_Tet p0 p1 p2 p3 = Some (r0, r1, r2) /\ comb4 r0 r1 r2 (1 - r0 - r1 - r2) p0 p1 p2 p3 = origin3 /\
  forall s0 s1 s2 s3, s0 + s1 + s2 + s3 = 1 -> comb4 s0 s1 s2 s3 p0 p1 p2 p3 = origin3 -> s0 = r0 /\ s1 = r1 /\ s2 = r2 /\ s3 = 1 - r0 - r1 - r2.
Proof.
  intros p0 p1 p2 p3 N. unfold barycentricCoord_Origin_Tet, ndiv. cbv zeta. pose proof (org_total p0 p1 p2 p3) as T. set (v0 := Volume_OrgTet p1 p2 p3) in *. set (v1 := Volume_OrgTet p2 p0 p3) in *. set (v2 := Volume_OrgTet p1 p3 p0) in *. set (v3 := Volume_OrgTet p1 p0 p2) in *. set (vt := v0 + v1 + v2 + v3) in *.
  assert (NV : vt <> 0) by lra. pose proof (eqRs vt 0) as Q. destruct (eqR vt 0); [lra|]. cbn [bind]. eexists _, _, _. split; [reflexivity|].
  assert (R3 : 1 - v0 * (1 / vt) - v1 * (1 / vt) - v2 * (1 / vt) = v3 / vt) by (unfold vt in *; clearbody v0 v1 v2 v3; field; auto).
  rewrite R3. split.
  - assert (Z : comb4 v0 v1 v2 v3 p0 p1 p2 p3 = origin3) by (unfold comb4, v0, v1, v2, v3; veq). clearbody vt v0 v1 v2 v3. unfold comb4 in *. apply v3_eq; [apply (f_equal vx) in Z|apply (f_equal vy) in Z|apply (f_equal vz) in Z]; u3;
    match goal with |- ?a * (1 / vt) * ?x + ?b * (1 / vt) * ?y + ?c * (1 / vt) * ?z + ?d / vt * ?w = 0 => transitivity ((a * x + b * y + c * z + d * w) / vt); [field; auto|rewrite Z; field; auto] end.
  - intros s0 s1 s2 s3 S E.
    assert (G : mul3 s0 p0 = mul3 (-1) (comb s1 s2 s3 p1 p2 p3)) by (unfold comb4 in E; apply v3_eq; [apply (f_equal vx) in E|apply (f_equal vy) in E|apply (f_equal vz) in E]; u3; lra).
    assert (E1 : v1 * s0 = s1 * v0) by (transitivity (Volume_OrgTet p2 (mul3 s0 p0) p3); [unfold v1; u3; ring|rewrite G; unfold v0; u3; ring]).
    assert (E2 : v2 * s0 = s2 * v0) by (transitivity (Volume_OrgTet p1 p3 (mul3 s0 p0)); [unfold v2; u3; ring|rewrite G; unfold v0; u3; ring]).
    assert (E3 : v3 * s0 = s3 * v0) by (transitivity (Volume_OrgTet p1 (mul3 s0 p0) p2); [unfold v3; u3; ring|rewrite G; unfold v0; u3; ring]).
    assert (E0 : vt * s0 = v0) by (unfold vt; transitivity (v0 * (s0 + s1 + s2 + s3)); [rewrite !Rmult_plus_distr_r, E1, E2, E3; ring|rewrite S; ring]).
    assert (G1 : mul3 s1 p1 = mul3 (-1) (comb s0 s2 s3 p0 p2 p3)) by (unfold comb4 in E; apply v3_eq; [apply (f_equal vx) in E|apply (f_equal vy) in E|apply (f_equal vz) in E]; u3; lra).
    assert (F0 : v0 * s1 = s0 * v1) by (transitivity (Volume_OrgTet (mul3 s1 p1) p2 p3); [unfold v0; u3; ring|rewrite G1; unfold v1; u3; ring]).
    assert (F2 : v2 * s1 = s2 * v1) by (transitivity (Volume_OrgTet (mul3 s1 p1) p3 p0); [unfold v2; u3; ring|rewrite G1; unfold v1; u3; ring]).
    assert (F3 : v3 * s1 = s3 * v1) by (transitivity (Volume_OrgTet (mul3 s1 p1) p0 p2); [unfold v3; u3; ring|rewrite G1; unfold v1; u3; ring]).
    assert (F1 : vt * s1 = v1) by (unfold vt; transitivity (v1 * (s0 + s1 + s2 + s3)); [rewrite !Rmult_plus_distr_r, F0, F2, F3; ring|rewrite S; ring]).
    assert (G2 : mul3 s2 p2 = mul3 (-1) (comb s0 s1 s3 p0 p1 p3)) by (unfold comb4 in E; apply v3_eq; [apply (f_equal vx) in E|apply (f_equal vy) in E|apply (f_equal vz) in E]; u3; lra).
    assert (H0 : v0 * s2 = s0 * v2) by (transitivity (Volume_OrgTet p1 (mul3 s2 p2) p3); [unfold v0; u3; ring|rewrite G2; unfold v2; u3; ring]).
    assert (H1 : v1 * s2 = s1 * v2) by (transitivity (Volume_OrgTet (mul3 s2 p2) p0 p3); [unfold v1; u3; ring|rewrite G2; unfold v2; u3; ring]).
    assert (H3 : v3 * s2 = s3 * v2) by (transitivity (Volume_OrgTet p1 p0 (mul3 s2 p2)); [unfold v3; u3; ring|rewrite G2; unfold v2; u3; ring]).
    assert (H2 : vt * s2 = v2) by (unfold vt; transitivity (v2 * (s0 + s1 + s2 + s3)); [rewrite !Rmult_plus_distr_r, H0, H1, H3; ring|rewrite S; ring]).
    clearbody vt. assert (K : forall s v, vt * s = v -> s = v * (1 / vt)) by (intros s v <-; field; auto). rewrite <- R3. rewrite <- (K _ _ E0), <- (K _ _ F1), <- (K _ _ H2). repeat split; lra.
Qed.
