(** C71: intersections of edges, boxes, lines, rays, planes, triangles and tetrahedra. *)
From Coq Require Import List Arith Bool Reals Lra Lia.
Import ListNotations.
From Verif Require Import Imp PrModel PolyModel QuatModel ProxModel ProxSpec IsecModel IsecSpec GjkProofs1 ProxProofs1 ProxProofs2 ProxProofs3 IsecProofs1 IsecProofs2 IsecProofs3.
Open Scope R_scope.

(** *** The plane *)
(** Two edges with a common point are reported by both tests; a report is right unless the four ends are on one line. *)
Theorem C71_edges_in_the_plane : forall s0 e0 s1 e1,
  ((exists x, seg2 s0 e0 x /\ seg2 s1 e1 x) -> IsIntersect_Edge2_Edge2 s0 e0 s1 e1 = true /\ IsCrossLines s0 e0 s1 e1 = true) /\
  (not_on_a_line s0 e0 s1 e1 -> IsIntersect_Edge2_Edge2 s0 e0 s1 e1 = true \/ IsCrossLines s0 e0 s1 e1 = true -> exists x, seg2 s0 e0 x /\ seg2 s1 e1 x).
Proof.
  intros s0 e0 s1 e1. split.
  - intros (x & A & B). split; [apply Edge2_Edge2_complete with x; auto|]. apply IsCrossLines_ok. split; eapply isec_sign; eauto.
  - intros N [H|H]; [apply Edge2_Edge2_sound in H|apply IsCrossLines_ok in H]; destruct H; apply isec_exists; auto.
Qed.
Print Assumptions C71_edges_in_the_plane.
(** Two edges on one line that are a little apart are reported, with any gap below a ten-thousandth of the lengths. *)
Theorem C71_edges_apart_refuted : exists s0 e0 s1 e1, IsIntersect_Edge2_Edge2 s0 e0 s1 e1 = true /\ forall x, seg2 s0 e0 x -> seg2 s1 e1 x -> False.
Proof.
  exists (0, 0), (1, 0), (1 + 1 / 10000, 0), (2, 0). split.
  - unfold IsIntersect_Edge2_Edge2. cbn [fst snd]. unfold Area_Tri2. cbn [fst snd]. repeat match goal with |- context[ltR ?a ?b] => lazymatch a with context[ltR _ _] => fail | _ => lazymatch b with context[ltR _ _] => fail | _ => let Q := fresh "Q" in pose proof (ltRs a b) as Q; destruct (ltR a b); try (exfalso; lra); clear Q end end end; auto.
  - intros x (t & T & ->) (s & S & E). apply (f_equal fst) in E. cbn [fst snd] in E. lra.
Qed.
(** A box and an edge: a report is right; an edge with two different ends that is not reported does not meet the inside of the box. *)
Theorem C71_box_and_edge : forall pmin pmax p0 p1, fst pmin <= fst pmax -> snd pmin <= snd pmax ->
  (IsIntersect_AABB2_Edge2 pmin pmax p0 p1 = Some true -> exists x, box2 pmin pmax x /\ seg2 p0 p1 x) /\
  (p0 <> p1 -> IsIntersect_AABB2_Edge2 pmin pmax p0 p1 <> Some true -> IsIntersect_AABB2_Edge2 pmin pmax p0 p1 = Some false /\ forall x, seg2 p0 p1 x -> ~ inner2 pmin pmax x).
Proof. intros pmin pmax p0 p1 A B. split; [apply AABB2_sound|]. intros N H. apply AABB2_complete; auto. Qed.
Print Assumptions C71_box_and_edge.
(** An edge that is a single point inside the box is not reported, and an edge that runs along the border of the box is reported in one
    direction only. *)
Theorem C71_box_and_edge_refuted : (exists pmin pmax p0 p1, IsIntersect_AABB2_Edge2 pmin pmax p0 p1 = Some false /\ exists x, inner2 pmin pmax x /\ seg2 p0 p1 x) /\
  (exists pmin pmax p0 p1, IsIntersect_AABB2_Edge2 pmin pmax p0 p1 = Some true /\ IsIntersect_AABB2_Edge2 pmin pmax p1 p0 = Some false).
Proof.
  split.
  - exists (0, 0), (2, 2), (1, 1), (1, 1). split; [|exists (1, 1); split; [unfold inner2; cbn; lra|exists 0; cbn; split; [lra|f_equal; ring]]].
    unfold IsIntersect_AABB2_Edge2. cbn [fst snd existsb]. unfold dotp, subp. cbn [fst snd].
    repeat match goal with |- context[ltR ?a ?b] => let Q := fresh "Q" in pose proof (ltRs a b) as Q; destruct (ltR a b); try (exfalso; lra) end. auto.
  - exists (0, 0), (2, 2), (0, 0), (0, 2). split; unfold IsIntersect_AABB2_Edge2; cbn [fst snd existsb]; unfold dotp, subp; cbn [fst snd];
    repeat match goal with |- context[ltR ?a ?b] => let Q := fresh "Q" in pose proof (ltRs a b) as Q; destruct (ltR a b); try (exfalso; lra) end; auto.
Qed.

(** *** Lines and rays *)
(** A line that is not parallel to the triangle: r0 and r1 are the weights of its only point in the plane of the triangle; with no tolerance the answer tells
    whether the line meets the triangle.  A parallel line is not reported. *)
Theorem C71_line_and_triangle : forall org dir p0 p1 p2 eps,
  (inner dir (nrm p0 p1 p2) = 0 -> IntersectRay_Tri3 org dir p0 p1 p2 eps = (false, None)) /\
  (inner dir (nrm p0 p1 p2) <> 0 -> exists b r0 r1, IntersectRay_Tri3 org dir p0 p1 p2 eps = (b, Some (r0, r1)) /\
    (forall x, line org dir x /\ plane p0 p1 p2 x <-> x = comb r0 r1 (1 - r0 - r1) p0 p1 p2) /\
    (b = true <-> - eps <= r0 /\ - eps <= r1 /\ - eps <= 1 - r0 - r1) /\
    (eps = 0 -> b = true <-> exists x, line org dir x /\ triangle p0 p1 p2 x)).
Proof.
  intros o d p0 p1 p2 eps. rewrite inner_dot, nrm_tn. split; [apply IntersectRay_par|]. intros N. destruct (IntersectRay_ok o d p0 p1 p2 eps N) as (b & E & B). exists b, (rc o d p0 p1 p2 0), (rc o d p0 p1 p2 1).
  pose proof (rc_sum o d p0 p1 p2 N) as S. pose proof (rc_point o d p0 p1 p2 N) as P. pose proof (rc_unique o d p0 p1 p2) as U. assert (E2 : 1 - rc o d p0 p1 p2 0 - rc o d p0 p1 p2 1 = rc o d p0 p1 p2 2) by lra. rewrite E2. split; [auto|split; [|split; [auto|]]].
  - intros x. split; [intros ((t & ->) & a & b' & c & SS & X); rewrite X; symmetry in X; destruct (U a b' c t N SS X) as (-> & -> & -> & _); auto|]. intros ->. split; [rewrite P; eexists; reflexivity|]. eexists _, _, _. split; [exact S|reflexivity].
  - intros ->. rewrite B. split.
    + intros (A1 & A2 & A3). exists (comb (rc o d p0 p1 p2 0) (rc o d p0 p1 p2 1) (rc o d p0 p1 p2 2) p0 p1 p2). split; [rewrite P; eexists; reflexivity|]. eexists _, _, _. repeat split; [| | |exact S]; lra.
    + intros (x & (t & ->) & (a & b' & c & A1 & A2 & A3 & SS & X)). symmetry in X. destruct (U a b' c t N SS X) as (<- & <- & <- & _). lra.
Qed.
Print Assumptions C71_line_and_triangle.
(** Despite its name the test does not look at the direction: a triangle behind the ray is reported. *)
Theorem C71_triangle_behind_the_ray_refuted : exists org dir p0 p1 p2, fst (IntersectRay_Tri3 org dir p0 p1 p2 0) = true /\ forall x, ray org dir x -> triangle p0 p1 p2 x -> False.
Proof.
  exists (V3 0 0 0), (V3 0 0 1), (V3 (-1) (-1) (-1)), (V3 1 (-1) (-1)), (V3 0 1 (-1)). split.
  - destruct (C71_line_and_triangle (V3 0 0 0) (V3 0 0 1) (V3 (-1) (-1) (-1)) (V3 1 (-1) (-1)) (V3 0 1 (-1)) 0) as (_ & H). destruct H as (b & r0 & r1 & -> & _ & _ & H); [unfold inner, nrm; cbn; lra|]. cbn [fst]. apply (H eq_refl). exists (V3 0 0 (-1)). split; [exists (-1); veq|]. exists (1 / 4), (1 / 4), (1 / 2). repeat split; try lra. apply v3_eq; u3; lra.
  - intros x (t & T & ->) (a & b & c & A & B & C & S & E). apply (f_equal vz) in E. cbn in E. lra.
Qed.
(** A point is inside the triangle for the second test if it is straight above or below it. *)
Theorem C71_point_above_triangle : forall p q0 q1 q2, ~ flat q0 q1 q2 ->
  isPointInsideTriangle p q0 q1 q2 = true <-> exists x k, triangle q0 q1 q2 x /\ p = comb 1 k 0 x (nrm q0 q1 q2) origin3.
Proof.
  intros p q0 q1 q2 F. rewrite nrm_tn. assert (N : dot3 (tn q0 q1 q2) (tn q0 q1 q2) <> 0). { intros E. apply F. unfold flat. rewrite area2_norm. unfold norm3. rewrite E. apply sqrt_0. }
  assert (EQ : forall a b c k, comb 1 k 0 (comb a b c q0 q1 q2) (tn q0 q1 q2) origin3 = add3 (comb a b c q0 q1 q2) (mul3 k (tn q0 q1 q2))) by (intros; set (n := tn q0 q1 q2); clearbody n; veq). split.
  - intros H. destruct (prism q0 q1 q2 p N) as (a & b & c & k & S & E). apply (inside_ok p q0 q1 q2 a b c k N S E) in H. exists (comb a b c q0 q1 q2), k. split; [exists a, b, c; tauto|]. rewrite EQ. auto.
  - intros (x & k & (a & b & c & A & B & C & S & ->) & E). rewrite EQ in E. apply (inside_ok p q0 q1 q2 a b c k N S E). auto.
Qed.
Print Assumptions C71_point_above_triangle.
(** The ray test: the answer is the common point of the ray and the triangle, if the ray is not parallel to the triangle. *)
Theorem C71_ray_and_triangle : forall line0 line1 t0 t1 t2, inner (V3 (vx line1 - vx line0) (vy line1 - vy line0) (vz line1 - vz line0)) (nrm t0 t1 t2) <> 0 ->
  (forall x, isRayIntersectingTriangle line0 line1 t0 t1 t2 = Some x <-> ray line0 (V3 (vx line1 - vx line0) (vy line1 - vy line0) (vz line1 - vz line0)) x /\ triangle t0 t1 t2 x) /\
  (isRayIntersectingTriangle line0 line1 t0 t1 t2 = None <-> forall x, ray line0 (V3 (vx line1 - vx line0) (vy line1 - vy line0) (vz line1 - vz line0)) x -> triangle t0 t1 t2 x -> False).
Proof.
  intros l0 l1 t0 t1 t2 N. rewrite inner_dot, nrm_tn in N. assert (K : forall x, isRayIntersectingTriangle l0 l1 t0 t1 t2 = Some x <-> ray l0 (V3 (vx l1 - vx l0) (vy l1 - vy l0) (vz l1 - vz l0)) x /\ triangle t0 t1 t2 x) by (intros; apply Ray_ok; auto). split; [auto|].
  destruct (isRayIntersectingTriangle l0 l1 t0 t1 t2) as [y|]; split; intros H; try discriminate; auto.
  - exfalso. destruct (K y) as (Y & _). destruct (Y eq_refl) as (A & B). apply (H y); auto.
  - intros x A B. destruct (K x) as (_ & Y). specialize (Y (conj A B)). discriminate.
Qed.
Print Assumptions C71_ray_and_triangle.
(** A ray in the plane of the triangle is not reported even if it runs through the triangle. *)
Theorem C71_ray_in_the_plane_refuted : exists l0 l1 t0 t1 t2, isRayIntersectingTriangle l0 l1 t0 t1 t2 = None /\ exists x, ray l0 (V3 (vx l1 - vx l0) (vy l1 - vy l0) (vz l1 - vz l0)) x /\ triangle t0 t1 t2 x.
Proof.
  exists (V3 (-1) (1/4) 0), (V3 0 (1/4) 0), (V3 0 0 0), (V3 1 0 0), (V3 0 1 0). split; [apply Ray_par; unfold tn; u3; lra|]. exists (V3 (1/4) (1/4) 0). split; [exists (5/4); split; [lra|apply v3_eq; u3; lra]|]. exists (1/2), (1/4), (1/4). repeat split; try lra. apply v3_eq; u3; lra.
Qed.

(** *** Planes *)
(** The point of a line in the plane of three points, with its weights, and the same for a plane with a normal. *)
Theorem C71_plane_and_line : forall eps src dir q0 q1 q2,
  (inner dir (nrm q0 q1 q2) = 0 -> Intersection_Plane3_Line3 eps src dir q0 q1 q2 = (false, None)) /\
  (inner dir (nrm q0 q1 q2) <> 0 -> exists b p r0 r1 r2, Intersection_Plane3_Line3 eps src dir q0 q1 q2 = (b, Some (p, r0, r1, r2)) /\
    (forall x, line src dir x /\ plane q0 q1 q2 x <-> x = p) /\ p = comb r0 r1 r2 q0 q1 q2 /\ r0 + r1 + r2 = 1 /\ (b = true <-> eps < r0 /\ eps < r1 /\ eps < r2)).
Proof.
  intros eps o d p0 p1 p2. rewrite inner_dot, nrm_tn. split; [apply Plane3_Line3_par|]. intros N. destruct (Plane3_Line3_ok eps o d p0 p1 p2 N) as (b & E & B). eexists b, _, _, _, _. split; [exact E|].
  pose proof (rc_sum o d p0 p1 p2 N) as S. pose proof (rc_point o d p0 p1 p2 N) as P. pose proof (rc_unique o d p0 p1 p2) as U. split; [|auto].
  intros x. split; [intros ((t & ->) & a & b' & c & SS & X); rewrite X; symmetry in X; destruct (U a b' c t N SS X) as (-> & -> & -> & _); auto|]. intros ->. split; [rewrite P; eexists; reflexivity|]. eexists _, _, _. split; [exact S|reflexivity].
Qed.
Print Assumptions C71_plane_and_line.
Theorem C71_plane_with_normal_and_line : forall o n s d x, inner d n <> 0 -> Intersection_Plane3_Line3_n o n s d = Some x <-> line s d x /\ inner (V3 (vx x - vx o) (vy x - vy o) (vz x - vz o)) n = 0.
Proof. intros. apply Plane3_Line3_n_ok. auto. Qed.
Print Assumptions C71_plane_with_normal_and_line.

(** *** Tetrahedra *)
(** The weights of the origin in a tetrahedron that is not flat: they and the rest to 1 give the origin, and no others do. *)
Theorem C71_origin_in_tetrahedron : forall p0 p1 p2 p3, volume6 p0 p1 p2 p3 <> 0 -> exists r0 r1 r2, barycentricCoord_Origin_Tet p0 p1 p2 p3 = Some (r0, r1, r2) /\
  forall s0 s1 s2 s3, s0 + s1 + s2 + s3 = 1 -> comb 1 s3 0 (comb s0 s1 s2 p0 p1 p2) p3 origin3 = origin3 <-> s0 = r0 /\ s1 = r1 /\ s2 = r2.
Proof.
  intros p0 p1 p2 p3 N. destruct (bary_tet_ok p0 p1 p2 p3 N) as (r0 & r1 & r2 & E & Z & U). exists r0, r1, r2. split; auto. intros s0 s1 s2 s3 S.
  assert (EQ : comb 1 s3 0 (comb s0 s1 s2 p0 p1 p2) p3 origin3 = comb4 s0 s1 s2 s3 p0 p1 p2 p3) by (unfold comb4; veq). rewrite EQ. split; [intros C; destruct (U _ _ _ _ S C) as (A & B & D & _); auto|]. intros (-> & -> & ->). replace s3 with (1 - r0 - r1 - r2) by lra. auto.
Qed.
Print Assumptions C71_origin_in_tetrahedron.

(** *** Pairs of triangles of a mesh *)
(** The points reported for two triangles are in both of them, and so is the edge between them. *)
Theorem C71_triangle_pair_sound : forall aTri aXYZ t u i0 i1 i2 j0 j1 j2 p0 p1 p2 q0 q1 q2 P0 P1,
  corners_of aTri aXYZ t i0 i1 i2 p0 p1 p2 -> corners_of aTri aXYZ u j0 j1 j2 q0 q1 q2 -> isIntersectTriPair t u aTri aXYZ = Some (Some (P0, P1)) ->
  forall x, segment P0 P1 x -> triangle p0 p1 p2 x /\ triangle q0 q1 q2 x.
Proof.
  intros aTri aXYZ t u i0 i1 i2 j0 j1 j2 p0 p1 p2 q0 q1 q2 P0 P1 T U H x X. destruct (triPair_read aTri aXYZ t u i0 i1 i2 j0 j1 j2 p0 p1 p2 q0 q1 q2 T U) as (A & B).
  destruct (existsb (fun k => existsb (Nat.eqb k) [j0; j1; j2]) [i0; i1; i2]) eqn:E.
  - exfalso. rewrite A in H; [discriminate|]. apply existsb_exists in E. destruct E as (k & K1 & K2). apply existsb_exists in K2. destruct K2 as (k' & K2 & K3). apply Nat.eqb_eq in K3. subst k'. eauto.
  - rewrite B in H. + destruct (tri_pair_sound _ _ _ _ _ _ _ _ H) as ((A1 & A2) & (A3 & A4)). split; apply tri_seg with P0 P1; auto.
    + intros k K1 K2. assert (existsb (fun k => existsb (Nat.eqb k) [j0; j1; j2]) [i0; i1; i2] = true); [|congruence]. apply existsb_exists. exists k. split; auto. apply existsb_exists. exists k. split; auto. apply Nat.eqb_refl.
Qed.
Print Assumptions C71_triangle_pair_sound.
(** Triangles in general position without a common corner: the answer is false if they have no common point, and otherwise the common points are the edge
    between the two reported points. *)
Theorem C71_triangle_pair_exact : forall aTri aXYZ t u i0 i1 i2 j0 j1 j2 p0 p1 p2 q0 q1 q2,
  corners_of aTri aXYZ t i0 i1 i2 p0 p1 p2 -> corners_of aTri aXYZ u j0 j1 j2 q0 q1 q2 -> (forall k, In k [i0; i1; i2] -> ~ In k [j0; j1; j2]) -> general_position p0 p1 p2 q0 q1 q2 ->
  (isIntersectTriPair t u aTri aXYZ = Some None /\ forall x, triangle p0 p1 p2 x -> triangle q0 q1 q2 x -> False) \/
  (exists P0 P1, isIntersectTriPair t u aTri aXYZ = Some (Some (P0, P1)) /\ forall x, triangle p0 p1 p2 x /\ triangle q0 q1 q2 x <-> segment P0 P1 x).
Proof. intros aTri aXYZ t u i0 i1 i2 j0 j1 j2 p0 p1 p2 q0 q1 q2 T U N G. destruct (triPair_read aTri aXYZ t u i0 i1 i2 j0 j1 j2 p0 p1 p2 q0 q1 q2 T U) as (_ & B). rewrite B by auto. apply tri_pair_complete. auto. Qed.
Print Assumptions C71_triangle_pair_exact.
(** Triangles with a common corner are never reported. *)
Theorem C71_triangle_pair_common_corner : forall aTri aXYZ t u i0 i1 i2 j0 j1 j2 p0 p1 p2 q0 q1 q2,
  corners_of aTri aXYZ t i0 i1 i2 p0 p1 p2 -> corners_of aTri aXYZ u j0 j1 j2 q0 q1 q2 -> (exists k, In k [i0; i1; i2] /\ In k [j0; j1; j2]) -> isIntersectTriPair t u aTri aXYZ = Some None.
Proof. intros aTri aXYZ t u i0 i1 i2 j0 j1 j2 p0 p1 p2 q0 q1 q2 T U N. destruct (triPair_read aTri aXYZ t u i0 i1 i2 j0 j1 j2 p0 p1 p2 q0 q1 q2 T U) as (B & _). auto. Qed.
Print Assumptions C71_triangle_pair_common_corner.
Ltac evR := repeat match goal with |- context[ltR ?a ?b] => let Q := fresh "Q" in pose proof (ltRs a b) as Q; destruct (ltR a b); try (exfalso; unfold dot3, cross3, sub3 in Q; cbn [vx vy vz] in Q; lra); clear Q; cbn [Bool.eqb andb orb negb assertb bind app] end.
Lemma cut_at : forall d0 d1 p0 p1 x, d0 <> d1 -> mul3 (d0 - d1) x = sub3 (mul3 d0 p1) (mul3 d1 p0) -> cut d0 d1 p0 p1 = Some x.
Proof. intros d0 d1 p0 p1 x N E. rewrite cut_ne by auto. f_equal. unfold cutp. rewrite <- E. apply v3_eq; u3; field; lra. Qed.
(** Outside of general position: triangles that cross are not reported if the second corner of one is in the plane of the other, between the other two,
    and an edge of one in the plane of the other makes the assertion fail. *)
Theorem C71_triangle_pair_refuted :
  (exists p0 p1 p2 q0 q1 q2, tri_pair p0 p1 p2 q0 q1 q2 = Some None /\ exists x y, x <> y /\ (triangle p0 p1 p2 x /\ triangle q0 q1 q2 x) /\ (triangle p0 p1 p2 y /\ triangle q0 q1 q2 y)) /\
  (exists p0 p1 p2 q0 q1 q2, tri_pair p0 p1 p2 q0 q1 q2 = None).
Proof.
  split.
  - exists (V3 0 0 1), (V3 10 0 0), (V3 0 0 (-1)), (V3 (-5) (-5) 0), (V3 5 (-5) 0), (V3 0 5 0). split.
    + unfold tri_pair. cbv zeta.
      replace (Normal_Tri3 (V3 (-5) (-5) 0) (V3 5 (-5) 0) (V3 0 5 0)) with (V3 0 0 100) by (unfold Normal_Tri3; apply v3_eq; u3; lra). replace (Normal_Tri3 (V3 0 0 1) (V3 10 0 0) (V3 0 0 (-1))) with (V3 0 20 0) by (unfold Normal_Tri3; apply v3_eq; u3; lra).
      set (dp0 := dot3 (sub3 (V3 0 0 1) _) _). set (dp1 := dot3 (sub3 (V3 10 0 0) _) _). set (dp2 := dot3 (sub3 (V3 0 0 (-1)) _) _). set (dq0 := dot3 (sub3 (V3 (-5) (-5) 0) _) _). set (dq1 := dot3 (sub3 (V3 5 (-5) 0) _) _). set (dq2 := dot3 (sub3 (V3 0 5 0) _) _).
      assert (E1 : dp0 = 100) by (unfold dp0; u3; lra). assert (E2 : dp1 = 0) by (unfold dp1; u3; lra). assert (E3 : dp2 = -100) by (unfold dp2; u3; lra). assert (E4 : dq0 = -100) by (unfold dq0; u3; lra). assert (E5 : dq1 = -100) by (unfold dq1; u3; lra). assert (E6 : dq2 = 100) by (unfold dq2; u3; lra).
      rewrite E1, E2, E3, E4, E5, E6. clear. unfold section. cbv zeta.
      rewrite (cut_at 0 (-100) (V3 10 0 0) (V3 0 0 (-1)) (V3 10 0 0)) by (lra || veq). rewrite (cut_at 100 0 (V3 0 0 1) (V3 10 0 0) (V3 10 0 0)) by (lra || veq).
      rewrite (cut_at (-100) 100 (V3 5 (-5) 0) (V3 0 5 0) (V3 (5/2) 0 0)) by (lra || (apply v3_eq; u3; lra)). rewrite (cut_at 100 (-100) (V3 0 5 0) (V3 (-5) (-5) 0) (V3 (-5/2) 0 0)) by (lra || (apply v3_eq; u3; lra)).
      evR. auto.
    + exists (V3 0 0 0), (V3 1 0 0). split; [intros E; apply (f_equal vx) in E; cbn in E; lra|]. split; split.
      * exists (1/2), 0, (1/2). repeat split; try lra. apply v3_eq; u3; lra.
      * exists (1/4), (1/4), (1/2). repeat split; try lra. apply v3_eq; u3; lra.
      * exists (9/20), (1/10), (9/20). repeat split; try lra. apply v3_eq; u3; lra.
      * exists (3/20), (7/20), (1/2). repeat split; try lra. apply v3_eq; u3; lra.
  - exists (V3 0 0 0), (V3 1 0 0), (V3 0 0 1), (V3 (-5) (-5) 0), (V3 5 (-5) 0), (V3 0 5 0). unfold tri_pair. cbv zeta.
    replace (Normal_Tri3 (V3 (-5) (-5) 0) (V3 5 (-5) 0) (V3 0 5 0)) with (V3 0 0 100) by (unfold Normal_Tri3; apply v3_eq; u3; lra). replace (Normal_Tri3 (V3 0 0 0) (V3 1 0 0) (V3 0 0 1)) with (V3 0 (-1) 0) by (unfold Normal_Tri3; apply v3_eq; u3; lra).
    set (dp0 := dot3 (sub3 (V3 0 0 0) _) _). set (dp1 := dot3 (sub3 (V3 1 0 0) _) _). set (dp2 := dot3 (sub3 (V3 0 0 1) _) _). set (dq0 := dot3 (sub3 (V3 (-5) (-5) 0) _) _). set (dq1 := dot3 (sub3 (V3 5 (-5) 0) _) _). set (dq2 := dot3 (sub3 (V3 0 5 0) _) _).
    assert (E1 : dp0 = 0) by (unfold dp0; u3; lra). assert (E2 : dp1 = 0) by (unfold dp1; u3; lra). assert (E3 : dp2 = 100) by (unfold dp2; u3; lra). assert (E4 : dq0 = 5) by (unfold dq0; u3; lra). assert (E5 : dq1 = 5) by (unfold dq1; u3; lra). assert (E6 : dq2 = -5) by (unfold dq2; u3; lra).
    rewrite E1, E2, E3, E4, E5, E6. clear. unfold section. cbv zeta. rewrite (cut_ok 0 0 (V3 0 0 0)). pose proof (eqRs (0 - 0) 0) as Q. destruct (eqR (0 - 0) 0); [|lra]. rewrite (cut_ne 0 100) by lra.
    repeat match goal with |- context[ltR 0 ?b] => let Q := fresh "Q" in pose proof (ltRs 0 b) as Q; destruct (ltR 0 b); try (exfalso; lra); clear Q; cbn [Bool.eqb andb orb negb assertb bind app] end. auto.
Qed.

(** *** Concrete cases *)
Example ex_edges : IsIntersect_Edge2_Edge2 (0, 0) (2, 2) (0, 2) (2, 0) = true /\ not_on_a_line (0, 0) (2, 2) (0, 2) (2, 0).
Proof. split; [apply (proj1 (C71_edges_in_the_plane (0, 0) (2, 2) (0, 2) (2, 0))); exists (1, 1); split; exists (1/2); cbn; (split; [lra|f_equal; lra])|]. left. unfold turn. cbn. lra. Qed.
Example ex_ray : isRayIntersectingTriangle (V3 (1/4) (1/4) (-1)) (V3 (1/4) (1/4) 0) (V3 0 0 0) (V3 1 0 0) (V3 0 1 0) = Some (V3 (1/4) (1/4) 0).
Proof. apply C71_ray_and_triangle; [unfold inner, nrm; cbn; lra|]. split; [exists 1; split; [lra|apply v3_eq; u3; lra]|]. exists (1/2), (1/4), (1/4). repeat split; try lra. apply v3_eq; u3; lra. Qed.
Example ex_origin_in_tet : volume6 (V3 1 1 1) (V3 1 (-1) (-1)) (V3 (-1) 1 (-1)) (V3 (-1) (-1) 1) <> 0 /\ barycentricCoord_Origin_Tet (V3 1 1 1) (V3 1 (-1) (-1)) (V3 (-1) 1 (-1)) (V3 (-1) (-1) 1) = Some (1/4, 1/4, 1/4).
Proof.
  assert (N : volume6 (V3 1 1 1) (V3 1 (-1) (-1)) (V3 (-1) 1 (-1)) (V3 (-1) (-1) 1) <> 0) by (unfold volume6; cbn; lra). split; auto. destruct (C71_origin_in_tetrahedron _ _ _ _ N) as (r0 & r1 & r2 & -> & H). destruct (H (1/4) (1/4) (1/4) (1/4)) as (G & _); [lra|]. destruct G as (<- & <- & <-); auto. apply v3_eq; u3; lra.
Qed.
Definition ex_tri : list nat := [0; 1; 2; 3; 4; 5]%nat.
Definition ex_xyz : list R := [0; 0; 1; 1; 0; -1; -1; 0; -1; -5; -5; 0; 5; -5; 0; 0; 5; 0].
Example ex_pair_hyp : corners_of ex_tri ex_xyz 0 0 1 2 (V3 0 0 1) (V3 1 0 (-1)) (V3 (-1) 0 (-1)) /\ corners_of ex_tri ex_xyz 1 3 4 5 (V3 (-5) (-5) 0) (V3 5 (-5) 0) (V3 0 5 0) /\
  (forall k, In k [0; 1; 2]%nat -> ~ In k [3; 4; 5]%nat) /\ general_position (V3 0 0 1) (V3 1 0 (-1)) (V3 (-1) 0 (-1)) (V3 (-5) (-5) 0) (V3 5 (-5) 0) (V3 0 5 0).
Proof.
  split; [repeat split|]. split; [repeat split|]. split; [cbn; lia|]. unfold general_position, off_plane, volume6. cbn [vx vy vz]. repeat (split; [lra|]).
  intros x A B. assert (A' : vy x = 0 /\ (vz x = 0 -> -1 <= vx x <= 1)) by (destruct A as [(t & T & ->)|[(t & T & ->)|(t & T & ->)]]; cbn; split; intros; lra).
  destruct A' as (Y & A'). destruct B as [(t & T & ->)|[(t & T & ->)|(t & T & ->)]]; cbn in *; specialize (A' ltac:(lra)); lra.
Qed.
Example ex_pair : exists P0 P1, isIntersectTriPair 0 1 ex_tri ex_xyz = Some (Some (P0, P1)).
Proof.
  destruct ex_pair_hyp as (A & B & C & D). destruct (C71_triangle_pair_exact _ _ _ _ _ _ _ _ _ _ _ _ _ _ _ _ A B C D) as [(_ & H)|(P0 & P1 & H & _)]; [|eauto]. exfalso. apply (H (V3 0 0 0)).
  - exists (1/2), (1/4), (1/4). repeat split; try lra. apply v3_eq; u3; lra.
  - exists (1/4), (1/4), (1/2). repeat split; try lra. apply v3_eq; u3; lra.
Qed.
