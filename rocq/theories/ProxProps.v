(** C70: nearest points of segments, lines and triangles. *)
From Coq Require Import List Arith Bool Reals Lra Lia.
Import ListNotations.
From Verif Require Import Imp PrModel QuatModel ProxModel ProxSpec GjkProofs1 ProxProofs1 ProxProofs2 ProxProofs3.
Open Scope R_scope.

(** The tolerance 1e-10 of the code. *)
Notation tol10 := (/ 10 ^ 10).
Lemma norm_gt : forall k v, 0 <= k -> k * k < dot3 v v -> k < norm3 v.
Proof. intros k v K H. rewrite <- (sqrt_square k K). apply sqrt_lt_1; auto; [apply Rmult_le_pos; auto|apply dot_pos]. Qed.
Lemma e20_norm : forall u v, e10 <= dist3 u v <-> e20 <= d2 u v.
Proof. intros. rewrite dist_norm, e20_sq. unfold d2. rewrite <- norm_sq. pose proof e10_pos. pose proof (norm_pos (sub3 u v)). split; intros; [apply Rmult_le_compat; lra|]. apply Rsqr_incr_0; unfold Rsqr; lra. Qed.
Lemma e20_norm_lt : forall u v, e10 < dist3 u v <-> e20 < d2 u v.
Proof. intros. rewrite dist_norm, e20_sq. unfold d2. rewrite <- norm_sq. pose proof e10_pos. pose proof (norm_pos (sub3 u v)). split; intros; [apply Rmult_le_0_lt_compat; lra|]. apply Rsqr_incrst_0; unfold Rsqr; lra. Qed.

(** The point of an edge nearest to a point, with its parameter, and the distance: exact for edges of length 1e-10 or more, and in all cases on the edge
    and not further than the nearest point by more than half of 1e-10. *)
Theorem C70_nearest_point_of_an_edge : forall p s e, exists x t, Nearest_Edge_Point p s e = (x, t) /\ 0 <= t <= 1 /\ x = comb (1 - t) t 0 s e origin3 /\
  (tol10 <= dist3 s e -> closest (segment s e) p x) /\
  (forall y, segment s e y -> dist3 x p <= dist3 y p + tol10 / 2) /\
  Distance_Edge_Point p s e = dist3 x p.
Proof. intros p s e. destruct (Nearest_Edge_Point_ok p s e) as (x & t & E & T & X & C & A & D). exists x, t. repeat split; auto; try lra; apply C; apply e20_norm; auto. Qed.
Print Assumptions C70_nearest_point_of_an_edge.
(** The other function for the same question. *)
Theorem C70_nearest_point_of_an_edge_2 : forall p s e, exists t, Nearest_Edge3_Point3 p s e = comb (1 - t) t 0 s e origin3 /\ 0 <= t <= 1 /\
  (tol10 < dist3 s e -> closest (segment s e) p (Nearest_Edge3_Point3 p s e)) /\
  (forall y, segment s e y -> dist3 (Nearest_Edge3_Point3 p s e) p <= dist3 y p + tol10 / 2).
Proof. intros p s e. destruct (Nearest_Edge3_Point3_ok p s e) as (t & E & T & C & A). exists t. rewrite E. repeat split; auto; try lra; apply C; apply e20_norm_lt; auto. Qed.
Print Assumptions C70_nearest_point_of_an_edge_2.
(** The point of an edge nearest to the origin. *)
Theorem C70_nearest_point_of_an_edge_to_the_origin : forall p0 p1, exists x t, Nearest_Origin_Edge p0 p1 = (x, t) /\ 0 <= t <= 1 /\ x = comb (1 - t) t 0 p0 p1 origin3 /\
  (tol10 <= dist3 p0 p1 -> closest (segment p0 p1) origin3 x) /\ (forall y, segment p0 p1 y -> dist3 x origin3 <= dist3 y origin3 + tol10 / 2).
Proof.
  intros p0 p1. pose proof (Nearest_Origin_Edge_near p0 p1) as NR. destruct (Nearest_Origin_Edge_ok p0 p1) as (t & E & T & G & _). rewrite E in *. cbn [fst] in NR. eexists _, t. split; [reflexivity|]. split; auto. split; auto. split.
  - intros H. split; [exists t; auto|]. intros y (s & Hs & ->). rewrite !dist_o. apply norm_le. apply G; auto. rewrite d2_comm. apply e20_norm. auto.
  - intros y (s & Hs & ->). rewrite !dist_o. auto.
Qed.
Print Assumptions C70_nearest_point_of_an_edge_to_the_origin.

(** The point of a line nearest to a point. *)
Theorem C70_nearest_point_of_a_line : forall p o d, tol10 < dist3 d origin3 ->
  (exists x, Nearest_Line3_Point3 p o d = Some x /\ closest (line o d) p x) /\
  (exists x t, Nearest_Line3_Point3_t p o d = (x, t) /\ x = comb 1 t 0 o d origin3 /\ closest (line o d) p x).
Proof.
  intros p o d H. apply e20_norm_lt in H. assert (H' : e20 < dot3 d d) by (replace (dot3 d d) with (d2 d origin3) by (unfold d2; u3; ring); auto). split; [apply Nearest_Line3_Point3_ok; auto|apply Nearest_Line3_Point3_t_ok; lra].
Qed.
Print Assumptions C70_nearest_point_of_a_line.
(** The nearest points of two lines: the five results are multiplied by the common denominator D, the squared length of the cross product. *)
Theorem C70_nearest_points_of_two_lines : forall pa va pb vb, cross3 va vb <> origin3 -> exists D Da Db Dta Dtb, Nearest_Line3_Line3 pa va pb vb = (D, Da, Db, Dta, Dtb) /\
  0 < D /\ D = dist3 (cross3 va vb) origin3 ^ 2 /\ mul3 (/ D) Da = comb 1 (Dta / D) 0 pa va origin3 /\ mul3 (/ D) Db = comb 1 (Dtb / D) 0 pb vb origin3 /\
  closest_pair (line pa va) (line pb vb) (mul3 (/ D) Da) (mul3 (/ D) Db).
Proof.
  intros pa va pb vb H. assert (N : dot3 (cross3 va vb) (cross3 va vb) <> 0) by (intros E; apply H; apply dot_zero; auto). destruct (Nearest_Line3_Line3_ok pa va pb vb N) as (D & Da & Db & Dta & Dtb & E & HD & A & B & C).
  exists D, Da, Db, Dta, Dtb. split; auto. split; [pose proof (dot_pos (cross3 va vb)); rewrite HD; lra|]. split; [rewrite HD, dist_o, <- norm_sq; ring|]. auto.
Qed.
Print Assumptions C70_nearest_points_of_two_lines.
(** The nearest points of an edge and a line that are parallel, or not nearly so. *)
Theorem C70_nearest_points_of_an_edge_and_a_line : forall s e o v, tol10 < dist3 v origin3 ->
  cross3 (sub3 e s) v = origin3 \/ tol10 <= dist3 (cross3 (sub3 e s) v) origin3 ^ 2 ->
  exists x y, Nearest_Edge3_Line3 s e o v = Some (x, y) /\ closest_pair (segment s e) (line o v) x y.
Proof.
  intros s e o v H HD. apply e20_norm_lt in H. apply Nearest_Edge3_Line3_ok.
  - replace (dot3 v v) with (d2 v origin3) by (unfold d2; u3; ring). auto.
  - cbv zeta. destruct HD as [->|HD]; [left; u3; ring|right]. rewrite <- norm_sq, <- dist_o. replace (dist3 (cross3 (sub3 e s) v) origin3 * dist3 (cross3 (sub3 e s) v) origin3) with (dist3 (cross3 (sub3 e s) v) origin3 ^ 2) by ring. exact HD.
Qed.
Print Assumptions C70_nearest_points_of_an_edge_and_a_line.

(** Contact of two edges: reported only if they share no vertex and come within delta. *)
Theorem C70_reported_contact_is_near : forall i0 i1 j0 j1 p0 p1 q0 q1 delta, IsContact_Edge3_Edge3_Proximity i0 i1 j0 j1 p0 p1 q0 q1 delta = true ->
  i0 <> j0 /\ i0 <> j1 /\ i1 <> j0 /\ i1 <> j1 /\ exists x y, segment p0 p1 x /\ segment q0 q1 y /\ dist3 x y <= delta.
Proof. intros i0 i1 j0 j1 p0 p1 q0 q1 delta H. destruct (contact_sound _ _ _ _ _ _ _ _ _ H) as ((A & B & C & D) & E). auto. Qed.
Print Assumptions C70_reported_contact_is_near.
(** It is reported if the nearest points of the two lines are on the edges and within delta, for edges that are not parallel. *)
Theorem C70_near_edges_are_in_contact : forall i0 i1 j0 j1 p0 p1 q0 q1 delta x y, i0 <> j0 -> i0 <> j1 -> i1 <> j0 -> i1 <> j1 -> tol10 <= dist3 (cross3 (sub3 p1 p0) (sub3 q1 q0)) origin3 ->
  segment p0 p1 x -> segment q0 q1 y -> closest_pair (line p0 (sub3 p1 p0)) (line q0 (sub3 q1 q0)) x y -> dist3 x y <= delta ->
  IsContact_Edge3_Edge3_Proximity i0 i1 j0 j1 p0 p1 q0 q1 delta = true.
Proof. intros i0 i1 j0 j1 p0 p1 q0 q1 delta x y ? ? ? ? H ? ? ? ?. rewrite dist_o in H. eapply contact_complete; eauto. Qed.
Print Assumptions C70_near_edges_are_in_contact.
(** The distance of two edges is that of their lines, with the parameters of the nearest points, for edges that are not parallel. *)
Theorem C70_distance_of_edges_is_that_of_their_lines : forall p0 p1 q0 q1, tol10 <= dist3 (cross3 (sub3 p1 p0) (sub3 q1 q0)) origin3 ->
  exists d rp rq, Distance_Edge3_Edge3 p0 p1 q0 q1 = (Some d, Some rp, Some rq) /\ d = dist3 (comb (1 - rp) rp 0 p0 p1 origin3) (comb (1 - rq) rq 0 q0 q1 origin3) /\
  closest_pair (line p0 (sub3 p1 p0)) (line q0 (sub3 q1 q0)) (comb (1 - rp) rp 0 p0 p1 origin3) (comb (1 - rq) rq 0 q0 q1 origin3).
Proof. intros p0 p1 q0 q1 H. rewrite dist_o in H. destruct (Distance_Edge3_Edge3_ok p0 p1 q0 q1 H) as (d & rp & rq & E & D & C & _). exists d, rp, rq. auto. Qed.
Print Assumptions C70_distance_of_edges_is_that_of_their_lines.

(** The point of a triangle nearest to the origin, with its barycentric coordinates. *)
Theorem C70_nearest_point_of_a_triangle_to_the_origin : forall q0 q1 q2, tol10 < dist3 q1 q0 -> tol10 < dist3 q2 q0 -> tol10 < dist3 q1 q2 -> 6 * tol10 < area2 q0 q1 q2 ->
  exists x r0 r1, Nearest_Origin3_Tri3 q0 q1 q2 = Some (x, r0, r1) /\ 0 <= r0 /\ 0 <= r1 /\ r0 + r1 <= 1 /\ x = comb r0 r1 (1 - r0 - r1) q0 q1 q2 /\ closest (triangle q0 q1 q2) origin3 x.
Proof.
  intros q0 q1 q2 A B C D. rewrite dist_norm in A, B, C. rewrite area2_norm in D. destruct (Nearest_Origin3_Tri3_ok q0 q1 q2 A B C D) as (x & r0 & r1 & E & R0 & R1 & RS & X & M). exists x, r0, r1. repeat (split; [auto; fail|]). split; [exists r0, r1, (1 - r0 - r1); repeat split; auto; lra|]. intros y Hy. rewrite !dist_o. auto.
Qed.
Print Assumptions C70_nearest_point_of_a_triangle_to_the_origin.
(** A point off the plane of a triangle: the answer is at most as far as every point of the triangle; it is a combination of the corners with coefficients that add up to 1
    and are above -0.0001 (the code accepts the foot of the perpendicular a little outside of the triangle). *)
Theorem C70_nearest_point_of_a_triangle : forall p q0 q1 q2, tol10 < dist3 q0 q1 -> tol10 < dist3 q1 q2 -> tol10 < dist3 q2 q0 -> 6 * tol10 < area2 q0 q1 q2 -> 6 * tol10 < Rabs (volume6 p q0 q1 q2) ->
  exists x r0 r1, Nearest_Triangle3_Point3 p q0 q1 q2 = Some (x, r0, r1) /\ x = comb r0 r1 (1 - r0 - r1) q0 q1 q2 /\ - / 10 ^ 4 < r0 /\ - / 10 ^ 4 < r1 /\ - / 10 ^ 4 < 1 - r0 - r1 /\
  forall y, triangle q0 q1 q2 y -> dist3 x p <= dist3 y p.
Proof. intros p q0 q1 q2 A B C D V. rewrite dist_norm in A, B, C. rewrite area2_norm in D. exact (Triangle3_Point3_ok p q0 q1 q2 A B C D V). Qed.
Print Assumptions C70_nearest_point_of_a_triangle.
(** A point in the plane of a triangle: the answer is the nearest point of the border. *)
Theorem C70_nearest_point_of_the_border : forall p q0 q1 q2, tol10 < dist3 q0 q1 -> tol10 < dist3 q1 q2 -> tol10 < dist3 q2 q0 -> Rabs (volume6 p q0 q1 q2) <= 6 * tol10 ->
  exists x r0 r1, Nearest_Triangle3_Point3 p q0 q1 q2 = Some (x, r0, r1) /\ 0 <= r0 /\ 0 <= r1 /\ r0 + r1 <= 1 /\ x = comb r0 r1 (1 - r0 - r1) q0 q1 q2 /\
  closest (fun x => segment q0 q1 x \/ segment q1 q2 x \/ segment q2 q0 x) p x.
Proof. intros p q0 q1 q2 A B C V. rewrite dist_norm in A, B, C. rewrite (Triangle3_Point3_flat p q0 q1 q2 V). exact (edge_stage_ok p q0 q1 q2 A B C). Qed.
Print Assumptions C70_nearest_point_of_the_border.
(** So it is wrong for every point inside the triangle and its plane: that point is its own nearest point, and the answer is another one. *)
Lemma bary_zero : forall a b d q0 q1 q2, a + b + d = 0 -> comb a b d q0 q1 q2 = origin3 -> 0 < norm3 (tn q0 q1 q2) -> a = 0 /\ b = 0 /\ d = 0.
Proof.
  intros a b d q0 q1 q2 S E N. apply norm_dot_ne in N.
  assert (Z : forall k, mul3 k (tn q0 q1 q2) = origin3 -> k = 0). { intros k K. apply Rsqr_0_uniq. unfold Rsqr. apply Rmult_eq_reg_r with (dot3 (tn q0 q1 q2) (tn q0 q1 q2)); auto. replace (k * k * dot3 (tn q0 q1 q2) (tn q0 q1 q2)) with (dot3 (mul3 k (tn q0 q1 q2)) (mul3 k (tn q0 q1 q2))) by (set (c := tn q0 q1 q2); clearbody c; u3; ring). rewrite K. u3. ring. }
  split; [|split]; apply Z.
  - replace (mul3 a (tn q0 q1 q2)) with (cross3 (sub3 q2 q1) (comb a b d q0 q1 q2)) by (replace b with (- a - d) by lra; unfold tn; veq). rewrite E. veq.
  - replace (mul3 b (tn q0 q1 q2)) with (cross3 (sub3 q0 q2) (comb a b d q0 q1 q2)) by (replace d with (- a - b) by lra; unfold tn; veq). rewrite E. veq.
  - replace (mul3 d (tn q0 q1 q2)) with (cross3 (sub3 q1 q0) (comb a b d q0 q1 q2)) by (replace a with (- b - d) by lra; unfold tn; veq). rewrite E. veq.
Qed.
Theorem C70_point_inside_its_triangle_is_moved : forall q0 q1 q2 a b c, tol10 < dist3 q0 q1 -> tol10 < dist3 q1 q2 -> tol10 < dist3 q2 q0 -> 0 < area2 q0 q1 q2 -> 0 < a -> 0 < b -> 0 < c -> a + b + c = 1 ->
  let p := comb a b c q0 q1 q2 in triangle q0 q1 q2 p /\ exists x r0 r1, Nearest_Triangle3_Point3 p q0 q1 q2 = Some (x, r0, r1) /\ x <> p /\ ~ closest (triangle q0 q1 q2) p x.
Proof.
  intros q0 q1 q2 a b c A B C D Ha Hb Hc S p. assert (TP : triangle q0 q1 q2 p) by (exists a, b, c; repeat split; auto; lra). split; auto.
  assert (V : Rabs (volume6 p q0 q1 q2) <= 6 * tol10). { replace (volume6 p q0 q1 q2) with 0; [rewrite Rabs_R0; pose proof e10_pos; unfold e10 in *; lra|]. unfold p, volume6. replace a with (1 - b - c) by lra. u3. ring. }
  destruct (C70_nearest_point_of_the_border p q0 q1 q2 A B C V) as (x & r0 & r1 & E & _ & _ & _ & _ & BX & _). exists x, r0, r1. split; auto. rewrite area2_norm in D.
  assert (NE : x <> p).
  { intros ->. destruct BX as [(t & T & X)|[(t & T & X)|(t & T & X)]].
    - destruct (bary_zero (a - (1 - t)) (b - t) c q0 q1 q2) as (_ & _ & ?); auto; try lra. replace (comb (a - (1 - t)) (b - t) c q0 q1 q2) with (sub3 p (comb (1 - t) t 0 q0 q1 origin3)) by (unfold p; veq). rewrite <- X. veq.
    - destruct (bary_zero a (b - (1 - t)) (c - t) q0 q1 q2) as (? & _ & _); auto; try lra. replace (comb a (b - (1 - t)) (c - t) q0 q1 q2) with (sub3 p (comb (1 - t) t 0 q1 q2 origin3)) by (unfold p; veq). rewrite <- X. veq.
    - destruct (bary_zero (a - t) b (c - (1 - t)) q0 q1 q2) as (_ & ? & _); auto; try lra. replace (comb (a - t) b (c - (1 - t)) q0 q1 q2) with (sub3 p (comb (1 - t) t 0 q2 q0 origin3)) by (unfold p; veq). rewrite <- X. veq. }
  split; auto. intros (_ & CL). apply NE. specialize (CL p TP). assert (Z : dist3 p p = 0) by (rewrite dist_norm; replace (sub3 p p) with origin3 by veq; unfold norm3; replace (dot3 origin3 origin3) with 0 by (u3; ring); apply sqrt_0). rewrite Z in CL.
  rewrite dist_norm in CL. assert (N0 : norm3 (sub3 x p) = 0) by (pose proof (norm_pos (sub3 x p)); lra). assert (D0 : dot3 (sub3 x p) (sub3 x p) = 0) by (rewrite <- norm_sq, N0; ring). apply dot_zero in D0. clear - D0. clearbody p. unfold sub3, origin3 in D0. injection D0. intros. apply v3_eq; lra.
Qed.
Print Assumptions C70_point_inside_its_triangle_is_moved.
(** Small triangles fail an assertion: of twice their area up to 6e-10, for the origin if it is above 1e-10, for a point if its tetrahedron has a volume above 1e-10. *)
Theorem C70_small_triangles_fail_an_assertion : forall p q0 q1 q2, tol10 < dist3 q1 q0 -> tol10 < dist3 q2 q0 -> tol10 < dist3 q1 q2 -> 0 < area2 q0 q1 q2 <= 6 * tol10 ->
  (tol10 < area2 q0 q1 q2 -> Nearest_Origin3_Tri3 q0 q1 q2 = None) /\ (6 * tol10 < Rabs (volume6 p q0 q1 q2) -> Nearest_Triangle3_Point3 p q0 q1 q2 = None).
Proof.
  intros p q0 q1 q2 A B C D. rewrite dist_norm in A, B, C. rewrite area2_norm in *. split.
  - intros H. apply Origin3_Tri3_assert; auto; unfold e10; lra.
  - intros V. pose proof (Triangle3_Point3_off p q0 q1 q2 V ltac:(lra)) as E. cbv zeta in E. rewrite E. pose proof (ltRs e10 (norm3 (tn q0 q1 q2) / 6)) as Q. destruct (ltR e10 (norm3 (tn q0 q1 q2) / 6)); [|auto]. unfold e10 in Q. lra.
Qed.
Print Assumptions C70_small_triangles_fail_an_assertion.

(** The foot of the perpendicular in the plane of a triangle, two functions. *)
Theorem C70_nearest_point_of_the_plane : forall p q0 q1 q2, p <> q0 -> 0 < area2 q0 q1 q2 -> exists x, ProjectPointOnTriangle p q0 q1 q2 = Some x /\ closest (plane q0 q1 q2) p x.
Proof. intros p q0 q1 q2 H A. rewrite area2_norm in A. apply ProjectPointOnTriangle_ok; auto. Qed.
Print Assumptions C70_nearest_point_of_the_plane.
Theorem C70_distance_of_the_plane : forall p q0 q1 q2, 0 < area2 q0 q1 q2 -> exists d w0 w1, DistanceFaceVertex q0 q1 q2 p = Some (d, w0, w1) /\
  let x := comb w0 w1 (1 - w0 - w1) q0 q1 q2 in d = dist3 x p /\ closest (plane q0 q1 q2) p x.
Proof. intros p q0 q1 q2 A. rewrite area2_norm in A. apply DistanceFaceVertex_ok; auto. Qed.
Print Assumptions C70_distance_of_the_plane.
(** The projection of the first corner is undefined (0/0 in the code), although it is its own nearest point. *)
Theorem C70_projection_of_the_first_corner_refuted : forall q0 q1 q2, ProjectPointOnTriangle q0 q0 q1 q2 = None /\ closest (plane q0 q1 q2) q0 q0.
Proof.
  intros q0 q1 q2. assert (Z : norm3 (sub3 q0 q0) = 0) by (replace (sub3 q0 q0) with origin3 by veq; unfold norm3; replace (dot3 origin3 origin3) with 0 by (u3; ring); apply sqrt_0). split.
  - unfold ProjectPointOnTriangle, ndiv. cbv zeta. rewrite Z, Rmult_0_l. pose proof (eqRs 0 0) as Q. destruct (eqR 0 0); [reflexivity|lra].
  - split; [exists 1, 0, 0; split; [ring|veq]|]. intros y _. rewrite !dist_norm, Z. apply norm_pos.
Qed.
Print Assumptions C70_projection_of_the_first_corner_refuted.

(** Concrete cases. *)
Lemma e10_small : 0 < tol10 < / 1000.
Proof. split; [apply e10_pos|]. apply Rinv_lt_contravar; lra. Qed.
Definition ex_q0 := V3 0 0 0. Definition ex_q1 := V3 1 0 0. Definition ex_q2 := V3 0 1 0.
Lemma ex_tri : tol10 < dist3 ex_q0 ex_q1 /\ tol10 < dist3 ex_q1 ex_q2 /\ tol10 < dist3 ex_q2 ex_q0 /\ 6 * tol10 < area2 ex_q0 ex_q1 ex_q2.
Proof. pose proof e10_small as (E0 & E1). rewrite !dist_norm, area2_norm. set (k := tol10) in *. clearbody k. assert (k * k < 1/36) by (assert (k * k <= / 1000 * / 1000) by (apply Rmult_le_compat; lra); lra). unfold ex_q0, ex_q1, ex_q2. repeat split; apply norm_gt; try lra; unfold tn; u3; lra. Qed.
Example ex_edge : exists x t, Nearest_Edge_Point (V3 (1/4) 3 0) ex_q0 ex_q1 = (x, t) /\ closest (segment ex_q0 ex_q1) (V3 (1/4) 3 0) x.
Proof. destruct (C70_nearest_point_of_an_edge (V3 (1/4) 3 0) ex_q0 ex_q1) as (x & t & E & _ & _ & C & _). exists x, t. split; auto. apply C. destruct ex_tri as (A & _). lra. Qed.
Example ex_line : exists x, Nearest_Line3_Point3 (V3 5 3 1) ex_q2 ex_q1 = Some x /\ closest (line ex_q2 ex_q1) (V3 5 3 1) x.
Proof. apply C70_nearest_point_of_a_line. pose proof e10_small. rewrite dist_o. apply norm_gt; [lra|]. unfold ex_q1. u3. assert (tol10 * tol10 <= / 1000 * / 1000) by (apply Rmult_le_compat; lra). lra. Qed.
Example ex_lines : cross3 ex_q1 ex_q2 <> origin3. Proof. unfold ex_q1, ex_q2, cross3, origin3. cbn. intros E. injection E. intros. lra. Qed.
Example ex_edge_line : exists x y, Nearest_Edge3_Line3 ex_q0 ex_q1 (V3 3 0 1) ex_q2 = Some (x, y) /\ closest_pair (segment ex_q0 ex_q1) (line (V3 3 0 1) ex_q2) x y.
Proof.
  pose proof e10_small as (E0 & E1). assert (tol10 * tol10 <= / 1000 * / 1000) by (apply Rmult_le_compat; lra). apply C70_nearest_points_of_an_edge_and_a_line; [rewrite dist_o; apply norm_gt; [lra|unfold ex_q2; u3; lra]|]. right. rewrite dist_o. replace (norm3 _ ^ 2) with (norm3 (cross3 (sub3 ex_q1 ex_q0) ex_q2) * norm3 (cross3 (sub3 ex_q1 ex_q0) ex_q2)) by ring. rewrite norm_sq. unfold ex_q0, ex_q1, ex_q2. u3. lra.
Qed.
(** Two crossing edges one tenth apart. *)
Example ex_contact : IsContact_Edge3_Edge3_Proximity 0 1 2 3 (V3 (-1) 0 0) (V3 1 0 0) (V3 0 (-1) (1/10)) (V3 0 1 (1/10)) (1/5) = true.
Proof.
  pose proof e10_small as (E0 & E1). apply C70_near_edges_are_in_contact with (x := V3 0 0 0) (y := V3 0 0 (1/10)); try lia.
  - left. rewrite dist_o. apply norm_gt; [lra|]. u3. assert (tol10 * tol10 <= / 1000 * / 1000) by (apply Rmult_le_compat; lra). lra.
  - exists (1/2). split; [lra|]. veq; field.
  - exists (1/2). split; [lra|]. veq; field.
  - split; [exists (1/2); veq; field|]. split; [exists (1/2); veq; field|]. intros x' y' (s & ->) (t & ->). apply dist_le. unfold d2. u3. match goal with |- _ <= ?a * ?a + ?b * ?b + _ => pose proof (Rle_0_sqr a); pose proof (Rle_0_sqr b) end. unfold Rsqr in *. lra.
  - unfold dist3. cbn [vx vy vz]. replace (1/5) with (sqrt (1/25)) by (replace (1/25) with ((1/5) * (1/5)) by field; apply sqrt_square; lra). apply sqrt_le_1; lra.
Qed.
(** Parallel edges, one beside the middle of the other, at distance 1/2: they are within delta = 1, and the code says that they are not in contact. *)
Theorem C70_nested_parallel_edges_refuted : let p0 := V3 10 0 0 in let p1 := V3 11 0 0 in let q0 := V3 0 (1/2) 0 in let q1 := V3 12 (1/2) 0 in
  (exists x y, segment p0 p1 x /\ segment q0 q1 y /\ dist3 x y < 1) /\ IsContact_Edge3_Edge3_Proximity 0 1 2 3 p0 p1 q0 q1 1 = false.
Proof.
  cbv zeta. split.
  - exists (V3 10 0 0), (V3 10 (1/2) 0). split; [exists 0; split; [lra|veq]|]. split; [exists (10/12); split; [lra|veq; field]|]. unfold dist3. cbn [vx vy vz]. apply Rlt_le_trans with (sqrt 1); [apply sqrt_lt_1; lra|rewrite sqrt_1; lra].
  - unfold IsContact_Edge3_Edge3_Proximity. cbn [Nat.eqb orb]. destruct (_ || _ || _); [reflexivity|].
    assert (C : norm3 (cross3 (sub3 (V3 11 0 0) (V3 10 0 0)) (sub3 (V3 12 (1/2) 0) (V3 0 (1/2) 0))) = 0) by (transitivity (sqrt 0); [unfold norm3; f_equal; u3; field|apply sqrt_0]).
    assert (N : norm3 (sub3 (V3 11 0 0) (V3 10 0 0)) = 1) by (transitivity (sqrt 1); [unfold norm3; f_equal; u3; field|apply sqrt_1]).
    unfold Distance_Edge3_Edge3. cbv zeta. rewrite C, N. pose proof (ltRs 0 e10) as Q0. pose proof e10_pos. destruct (ltR 0 e10); [|lra]. pose proof (eqRs 1 0) as Q1. destruct (eqR 1 0); [lra|].
    set (n := mul3 (/ 1) (sub3 (V3 11 0 0) (V3 10 0 0))). assert (NE : n = V3 1 0 0) by (unfold n; veq; field). rewrite NE. clear n NE.
    assert (A0 : dot3 (V3 10 0 0) (V3 1 0 0) = 10) by (u3; ring). assert (A1 : dot3 (V3 11 0 0) (V3 1 0 0) = 11) by (u3; ring). assert (A2 : dot3 (V3 0 (1/2) 0) (V3 1 0 0) = 0) by (u3; ring). assert (A3 : dot3 (V3 12 (1/2) 0) (V3 1 0 0) = 12) by (u3; ring). rewrite A0, A1, A2, A3.
    assert (M0 : minR 10 11 = 10) by (unfold minR; pose proof (ltRs 10 11) as Q; destruct (ltR 10 11); lra). assert (M1 : maxR 10 11 = 11) by (unfold maxR; pose proof (ltRs 11 10) as Q; destruct (ltR 11 10); lra).
    assert (M2 : minR 0 12 = 0) by (unfold minR; pose proof (ltRs 0 12) as Q; destruct (ltR 0 12); lra). assert (M3 : maxR 0 12 = 12) by (unfold maxR; pose proof (ltRs 12 0) as Q; destruct (ltR 12 0); lra). rewrite M0, M1, M2, M3.
    pose proof (ltRs 11 0) as Q2. destruct (ltR 11 0); [lra|]. pose proof (ltRs 12 10) as Q3. destruct (ltR 12 10); [lra|]. pose proof (ltRs 11 12) as Q4. destruct (ltR 11 12); [|lra].
    destruct (ltR 1 _); [reflexivity|]. unfold ndiv. pose proof (eqRs (11 - 10) 0) as Q5. destruct (eqR (11 - 10) 0); [lra|]. pose proof (eqRs (12 - 0) 0) as Q6. destruct (eqR (12 - 0) 0); [lra|].
    pose proof (ltRs (((11 + 0) * (1 / 2) - 10) / (11 - 10)) 0) as Q7. destruct (ltR (((11 + 0) * (1 / 2) - 10) / (11 - 10)) 0); [reflexivity|]. lra.
Qed.
Print Assumptions C70_nested_parallel_edges_refuted.
Example ex_triangle : exists x r0 r1, Nearest_Triangle3_Point3 (V3 (1/4) (1/4) 1) ex_q0 ex_q1 ex_q2 = Some (x, r0, r1) /\ forall y, triangle ex_q0 ex_q1 ex_q2 y -> dist3 x (V3 (1/4) (1/4) 1) <= dist3 y (V3 (1/4) (1/4) 1).
Proof.
  destruct ex_tri as (A & B & C & D). pose proof e10_small as (E0 & E1). destruct (C70_nearest_point_of_a_triangle (V3 (1/4) (1/4) 1) ex_q0 ex_q1 ex_q2 A B C D) as (x & r0 & r1 & E & _ & _ & _ & _ & H); [|exists x, r0, r1; auto].
  replace (volume6 (V3 (1/4) (1/4) 1) ex_q0 ex_q1 ex_q2) with (-1) by (unfold volume6, ex_q0, ex_q1, ex_q2; cbn; field). rewrite Rabs_left; lra.
Qed.
Example ex_inside : exists x r0 r1, Nearest_Triangle3_Point3 (comb (1/3) (1/3) (1/3) ex_q0 ex_q1 ex_q2) ex_q0 ex_q1 ex_q2 = Some (x, r0, r1) /\ x <> comb (1/3) (1/3) (1/3) ex_q0 ex_q1 ex_q2.
Proof. destruct ex_tri as (A & B & C & D). pose proof e10_small. destruct (C70_point_inside_its_triangle_is_moved ex_q0 ex_q1 ex_q2 (1/3) (1/3) (1/3) A B C) as (_ & x & r0 & r1 & E & N & _); try lra. exists x, r0, r1. auto. Qed.
Example ex_origin_triangle : exists x r0 r1, Nearest_Origin3_Tri3 (V3 0 0 1) (V3 1 0 1) (V3 0 1 1) = Some (x, r0, r1) /\ closest (triangle (V3 0 0 1) (V3 1 0 1) (V3 0 1 1)) origin3 x.
Proof.
  pose proof e10_small as (E0 & E1). destruct (C70_nearest_point_of_a_triangle_to_the_origin (V3 0 0 1) (V3 1 0 1) (V3 0 1 1)) as (x & r0 & r1 & E & _ & _ & _ & _ & C); [..|exists x, r0, r1; auto]; rewrite ?dist_norm, ?area2_norm; set (k := tol10) in *; clearbody k; assert (k * k < 1/36) by (assert (k * k <= / 1000 * / 1000) by (apply Rmult_le_compat; lra); lra); apply norm_gt; try lra; unfold tn; u3; lra.
Qed.
(** A small triangle: sides of about 2e-5, twice the area 4e-10. *)
Example ex_small : Nearest_Origin3_Tri3 (V3 0 0 0) (V3 (2 / 10 ^ 5) 0 0) (V3 0 (2 / 10 ^ 5) 0) = None.
Proof.
  assert (EA : area2 (V3 0 0 0) (V3 (2 / 10 ^ 5) 0 0) (V3 0 (2 / 10 ^ 5) 0) = 4 * tol10). { rewrite area2_norm. unfold norm3. rewrite <- (sqrt_square (4 * tol10)) by (pose proof e10_small; lra). f_equal. unfold tn. u3. field. }
  assert (K : (2 / 10 ^ 5) * (2 / 10 ^ 5) = 4 * tol10) by field. pose proof e10_small as (E0 & E1). set (s := 2 / 10 ^ 5) in *. set (k := tol10) in *. clearbody s. assert (KK : k * k < k) by (assert (k * k <= / 1000 * k) by (apply Rmult_le_compat_r; lra); lra).
  apply (C70_small_triangles_fail_an_assertion origin3); rewrite ?EA; try (fold k; lra); rewrite dist_norm; apply norm_gt; try (fold k; lra); fold k; clearbody k; u3; lra.
Qed.
Example ex_project : exists x, ProjectPointOnTriangle (V3 3 4 5) ex_q0 ex_q1 ex_q2 = Some x /\ closest (plane ex_q0 ex_q1 ex_q2) (V3 3 4 5) x.
Proof. apply C70_nearest_point_of_the_plane. - unfold ex_q0. intros E. injection E. intros. lra. - destruct ex_tri as (_ & _ & _ & D). pose proof e10_small. lra. Qed.
