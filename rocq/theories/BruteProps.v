(** C77: searches on meshes: nearest points, signed distances, hits of lines and rays, points in tetrahedra, triangles around a point. *)
From Coq Require Import List Arith Bool ZArith Reals Lra Lia Sorted.
Import ListNotations.
From Verif Require Import Imp PrModel GjkProofs1 PbdProofs1 QuatModel ProxModel ProxSpec ProxProofs1 ProxProofs3 IsecModel IsecSpec IsecProofs2 MeasModel MeasSpec EditModel BruteModel BruteSpec BruteProofs1 BruteProofs2 BruteProofs3 BruteProofs4.
Open Scope R_scope.

(** *** Points on meshes *)
Theorem C77_points_on_meshes : forall l tri t r0 r1 eps, valid tri l -> (t < count 3 tri)%nat ->
  PositionOnMeshTri3 (t, r0, r1) l tri = Some (tri_point l tri (t, r0, r1)) /\
  (Check (t, r0, r1) tri eps = true <-> - eps <= r0 <= 1 + eps /\ - eps <= r1 <= 1 + eps /\ - eps <= 1 - r0 - r1 <= 1 + eps) /\
  (Check (t, r0, r1) tri 0 = true <-> weights r0 r1) /\ (forall u, (count 3 tri <= u)%nat -> Check (u, r0, r1) tri eps = false).
Proof.
  intros l tri t r0 r1 eps V T. split; [apply pos_ok; auto|]. split; [rewrite Check_ok; tauto|]. split.
  - rewrite Check_ok. unfold weights. split; [intros (_ & ?); lra|intros ?; split; [auto|lra]].
  - intros u U. destruct (Check (u, r0, r1) tri eps) eqn:E; auto. apply Check_ok in E. lia.
Qed.
Print Assumptions C77_points_on_meshes.
Theorem C77_points_on_faces : forall l tet face i r0 r1, valid tet l -> face_ok tet face -> (i < count 2 face)%nat ->
  PositionOnFaceOfMeshTet (i, r0, r1) l tet face = Some (comb r0 r1 (1 - r0 - r1) (face_point l tet face i 0) (face_point l tet face i 1) (face_point l tet face i 2)).
Proof. exact FacePos_ok. Qed.
Print Assumptions C77_points_on_faces.
(** The unit normal at a point is the combination of the normals of the corners, made to length 1. *)
Theorem C77_normals_on_meshes : forall nv tri t r0 r1, valid tri nv -> (t < count 3 tri)%nat -> let n := tri_point nv tri (t, r0, r1) in
  (dist3 n origin3 = 0 -> UnitNormalOnMeshTri3 (t, r0, r1) nv tri = None) /\
  (dist3 n origin3 <> 0 -> exists u, UnitNormalOnMeshTri3 (t, r0, r1) nv tri = Some u /\ dist3 u origin3 = 1 /\ n = comb (dist3 n origin3) 0 0 u origin3 origin3).
Proof.
  intros nv tri t r0 r1 V T n. unfold UnitNormalOnMeshTri3. rewrite (proj2 (Nat.ltb_lt t (length tri / 3)) T). cbn [assertb bind]. rewrite (MeasProofs2.tri3_ok nv tri t V T). cbn [bind]. change (add3 (add3 (mul3 r0 (at_corner nv 3 tri t 0)) (mul3 r1 (at_corner nv 3 tri t 1))) (mul3 (1 - r0 - r1) (at_corner nv 3 tri t 2))) with n.
  rewrite dist_o. split; [apply norm_zero_div|]. intros N. destruct (normalized_ok n N) as (u & E & U & X). exists u. rewrite dist_o. split; [auto|split; [auto|]]. rewrite X at 1. veq.
Qed.
Print Assumptions C77_normals_on_meshes.

(** *** Nearest points *)
(** The nearest point of a mesh of triangles that are not too small. *)
Theorem C77_nearest_point : forall p l tri, valid tri l -> (0 < count 3 tri)%nat -> (forall t, (t < count 3 tri)%nat -> large l tri t) ->
  exists t r0 r1, Nearest_Point_MeshTri3D p l tri = Some (t, r0, r1) /\ (t < count 3 tri)%nat /\ weights r0 r1 /\ closest (surface l tri) p (tri_point l tri (t, r0, r1)).
Proof. intros p l tri V N L. destruct (wp_ex _ _ _ (Nearest_ok p l tri V N L)) as ([[t r0] r1] & E & H). exists t, r0, r1. auto. Qed.
Print Assumptions C77_nearest_point.
(** The same for some of the triangles; without triangles there is no answer. *)
Theorem C77_nearest_point_of_part : forall p l tri ts, valid tri l -> (forall t, In t ts -> (t < count 3 tri)%nat /\ large l tri t) ->
  (ts = [] -> Nearest_Point_MeshTri3DPart p l tri ts = Some None) /\
  (ts <> [] -> exists t r0 r1, Nearest_Point_MeshTri3DPart p l tri ts = Some (Some (t, r0, r1)) /\ In t ts /\ weights r0 r1 /\ closest (part l tri ts) p (tri_point l tri (t, r0, r1))).
Proof.
  intros p l tri ts V L. destruct (wp_ex _ _ _ (NearestPart_ok p l tri ts V L)) as (r & E & H). split.
  - intros ->. reflexivity.
  - intros N. destruct r as [[[t r0] r1]|]; [|contradiction]. exists t, r0, r1. auto.
Qed.
Print Assumptions C77_nearest_point_of_part.
Theorem C77_distance_to_triangle : forall p t l tri, valid tri l -> (t < count 3 tri)%nat -> large l tri t ->
  exists d r0 r1, DistanceToTri p t l tri = Some (d, (t, r0, r1)) /\ weights r0 r1 /\ d = dist3 (tri_point l tri (t, r0, r1)) p /\ closest (tri_points l tri t) p (tri_point l tri (t, r0, r1)).
Proof. intros p t l tri V T L. destruct (wp_ex _ _ _ (DistanceToTri_ok p t l tri V T L)) as ([d [[t' r0] r1]] & E & -> & H). exists d, r0, r1. auto. Qed.
Print Assumptions C77_distance_to_triangle.
(** The signed distance to a point of the mesh: not negative behind the surface and not positive in front of it, for the normals given at the corners.
    The direction has length 1.  It leads over the distance from p to the point of the mesh, if this is not too near. *)
Theorem C77_signed_distance : forall p t r0 r1 l tri nv, valid tri l -> valid tri nv -> (t < count 3 tri)%nat ->
  let n := tri_point nv tri (t, r0, r1) in let x := tri_point l tri (t, r0, r1) in let s := inner (V3 (vx x - vx p) (vy x - vy p) (vz x - vz p)) n in n <> origin3 ->
  exists d u, SDFNormal_NearestPoint p (t, r0, r1) l tri nv = Some (d, u) /\ dist3 u origin3 = 1 /\ Rabs d = dist3 x p /\ (0 < s -> 0 <= d) /\ (s <= 0 -> d <= 0) /\
  (/ 10 ^ 6 <= dist3 x p -> x = along p u d) /\ (dist3 x p < / 10 ^ 6 -> n = comb (dist3 n origin3) 0 0 u origin3 origin3).
Proof.
  intros p t r0 r1 l tri nv V Vn T n x s N. assert (N' : norm3 n <> 0). { intros E. apply N. apply dot_zero. apply sqrt_eq_0; [apply dot_pos|exact E]. }
  destruct (wp_ex _ _ _ (SDF_ok p t r0 r1 l tri nv n V Vn T eq_refl N')) as ([d u] & E & U & D & S1 & S2 & X1 & X2). exists d, u. rewrite dist_o. fold x in D, S1, S2, X1. rewrite D in X1, X2.
  split; [auto|]. split; [auto|]. split; [auto|]. split; [exact S1|]. split; [exact S2|]. split; [auto|]. intros H. rewrite dist_o. rewrite (X2 H) at 1. veq.
Qed.
Print Assumptions C77_signed_distance.

(** *** Lines and rays *)
(** All hits of a line, in the order of the triangles. *)
Theorem C77_line_and_mesh : forall org dir tri l eps, valid tri l -> exists a, IntersectionLine_MeshTri3 org dir tri l eps = Some a /\
  StronglySorted (fun p q => (fst (fst p) < fst (fst q))%nat) a /\ forall p, In p a <-> (fst (fst p) < count 3 tri)%nat /\ hit_tri org dir eps l tri p.
Proof. intros. apply wp_ex. apply Line_ok. auto. Qed.
Print Assumptions C77_line_and_mesh.
(** The hits of a ray, by distance: the keys increase; every entry is a hit in front of the start, of the first triangle with this key; the key is the distance along the
    ray, in multiples of the direction, times the squared length of the direction; every hit in front has its key. *)
Theorem C77_ray_and_mesh : forall org dir tri l eps, valid tri l -> exists m, IntersectionRay_MeshTri3 org dir tri l eps = Some m /\ StronglySorted (fun a b => fst a < fst b) m /\
  (forall d p, In (d, p) m -> (fst (fst p) < count 3 tri)%nat /\ hit_tri org dir eps l tri p /\ exists s, 0 <= s /\ tri_point l tri p = along org dir s /\ d = s * inner dir dir /\
    forall q, (fst (fst q) < count 3 tri)%nat -> hit_tri org dir eps l tri q -> tri_point l tri q = along org dir s -> (fst (fst p) <= fst (fst q))%nat) /\
  (forall p s, (fst (fst p) < count 3 tri)%nat -> hit_tri org dir eps l tri p -> 0 <= s -> tri_point l tri p = along org dir s -> exists q, In (s * inner dir dir, q) m).
Proof.
  intros org dir tri l eps V. destruct (wp_ex _ _ _ (Ray_ok org dir tri l eps V)) as (m & E & a & (O & A) & (I1 & I2 & I3) & G). exists m. split; [auto|]. split; [exact I1|]. split.
  - intros d p Hp. destruct (I2 d p Hp) as (Pa & D & Dn). pose proof (proj1 (A p) Pa) as (T & H). split; [auto|]. split; [auto|]. destruct (hit_along _ _ _ _ _ _ H) as (s & S). exists s. pose proof (dir_pos _ _ _ _ _ _ H) as P. unfold depth_of in D. rewrite S, depth_along in D.
    split; [rewrite D in Dn; apply (Rmult_le_reg_r (inner dir dir)); lra|]. split; [auto|]. split; [auto|]. intros q Tq Hq Sq. apply (G d p q Hp); [apply A; auto|]. unfold depth_of. rewrite Sq, depth_along. auto.
  - intros p s T H Hs S. pose proof (dir_pos _ _ _ _ _ _ H) as P. assert (D : depth_of org dir l tri p = s * inner dir dir) by (unfold depth_of; rewrite S, depth_along; auto). rewrite <- D. apply I3; [apply A; auto|]. rewrite D. apply Rmult_le_pos; lra.
Qed.
Print Assumptions C77_ray_and_mesh.
Lemma dist_along : forall org dir s, 0 <= s -> dist3 (along org dir s) org = s * sqrt (inner dir dir).
Proof.
  intros. rewrite dist_norm. unfold norm3. replace (dot3 (sub3 (along org dir s) org) (sub3 (along org dir s) org)) with (s * s * inner dir dir) by (unfold along, inner; u3; ring).
  rewrite sqrt_mult by (try nra; rewrite inner_dot; apply dot_pos). rewrite sqrt_square by auto. auto.
Qed.
(** Without tolerance the first entry is the first point where the ray meets the mesh, parallel triangles left out; there is no entry if there is no such point. *)
Theorem C77_first_hit : forall org dir tri l, valid tri l -> let S := fun x => ray org dir x /\ exists t, (t < count 3 tri)%nat /\ tri_points l tri t x /\
    inner dir (nrm (at_corner l 3 tri t 0) (at_corner l 3 tri t 1) (at_corner l 3 tri t 2)) <> 0 in
  exists m, IntersectionRay_MeshTri3 org dir tri l 0 = Some m /\ match m with [] => forall x, ~ S x | (_, p) :: _ => closest S org (tri_point l tri p) end.
Proof.
  intros org dir tri l V S. destruct (C77_ray_and_mesh org dir tri l 0 V) as (m & E & O & A & B). exists m. split; [auto|].
  assert (SH : forall x, S x -> exists p s, (fst (fst p) < count 3 tri)%nat /\ hit_tri org dir 0 l tri p /\ 0 <= s /\ tri_point l tri p = along org dir s /\ x = along org dir s).
  { intros x ((s & Hs & X) & t & T & (a & b & c & Ha & Hb & Hc & Hsum & Y) & N). exists (t, a, b), s. cbn [fst hit_tri tri_point]. replace (1 - a - b) with c by lra. rewrite <- Y. split; [auto|]. split; [|auto]. unfold hit. replace (1 - a - b) with c by lra. rewrite <- Y. split; [auto|]. split; [exists s; auto|]. lra. }
  destruct m as [|[d p] m].
  - intros x X. destruct (SH x X) as (p & s & T & H & Hs & P & _). destruct (B p s T H Hs P) as (q & []).
  - destruct (A d p (or_introl eq_refl)) as (T & H & s & Hs & P & D & _). pose proof (dir_pos _ _ _ _ _ _ H) as DP. split.
    + split; [exists s; split; [auto|exact P]|]. destruct p as [[t r0] r1]. exists t. cbn [fst] in T. split; [auto|]. destruct H as (N & _ & W0 & W1 & W2). split; [|auto]. exists r0, r1, (1 - r0 - r1). repeat split; auto; lra.
    + intros x X. destruct (SH x X) as (q & s' & Tq & Hq & Hs' & Pq & ->). rewrite P, !dist_along by auto. destruct (B q s' Tq Hq Hs' Pq) as (q' & Hq'). apply Rmult_le_compat_r; [apply sqrt_pos|].
      inversion O as [|? ? _ O2]; subst. destruct Hq' as [Eq|Hq']; [injection Eq; intros; apply (Rmult_le_reg_r (inner dir dir)); lra|]. rewrite Forall_forall in O2. specialize (O2 _ Hq'). cbn [fst] in O2. apply (Rmult_le_reg_r (inner dir dir)); lra.
Qed.
Print Assumptions C77_first_hit.
(** For some of the triangles: here the key is the distance along the ray in multiples of the direction. *)
Theorem C77_ray_and_part : forall org dir tri l ts eps, valid tri l -> (forall t, In t ts -> (t < count 3 tri)%nat) -> exists m, IntersectionRay_MeshTri3DPart org dir tri l ts eps = Some m /\ StronglySorted (fun a b => fst a < fst b) m /\
  (forall d p, In (d, p) m -> In (fst (fst p)) ts /\ hit_tri org dir eps l tri p /\ 0 <= d /\ tri_point l tri p = along org dir d) /\
  (forall p s, In (fst (fst p)) ts -> hit_tri org dir eps l tri p -> 0 <= s -> tri_point l tri p = along org dir s -> exists q, In (s, q) m).
Proof.
  intros org dir tri l ts eps V T. destruct (wp_ex _ _ _ (RayPart_ok org dir tri l ts eps V T)) as (m & E & a & A & (I1 & I2 & I3)). exists m. split; [auto|]. split; [exact I1|].
  assert (K : forall p s, hit_tri org dir eps l tri p -> tri_point l tri p = along org dir s -> depth_q org dir l tri p = s). { intros p s H S. pose proof (dir_pos _ _ _ _ _ _ H) as P. unfold depth_q, depth_of. rewrite S, depth_along, inner_dot in *. field. lra. }
  split.
  - intros d p Hp. destruct (I2 d p Hp) as (Pa & D & Dn). pose proof (proj1 (A p) Pa) as (Ti & H). split; [auto|]. split; [auto|]. split; [auto|]. destruct (hit_along _ _ _ _ _ _ H) as (s & S). rewrite D, (K p s H S). auto.
  - intros p s Ti H Hs S. rewrite <- (K p s H S). apply I3; [apply A; auto|]. rewrite (K p s H S). auto.
Qed.
Print Assumptions C77_ray_and_part.
(** A line against a height field: the hits of all its triangles are added, with a tolerance of 0.001 for the weights; the index gives the cell and the half of the cell, and the
    position on the grid is the point that was hit. *)
Theorem C77_height_field : forall a0 src dir nx ny aH, length aH = (nx * ny)%nat -> (0 < nx)%nat -> (0 < ny)%nat ->
  exists a, IntersectionLine_Hightfield a0 src dir nx ny aH = Some a /\ forall e r0 r1, In (e, r0, r1) a <-> In (e, r0, r1) a0 \/
    exists i j b, ((i + 1 < nx)%nat /\ (j + 1 < ny)%nat) /\ e = height_index nx i j b /\ hit src dir (/ 10 ^ 3) (height_corner 1 nx aH i j b 0) (height_corner 1 nx aH i j b 1) (height_corner 1 nx aH i j b 2) r0 r1.
Proof. intros. apply wp_ex. apply Hight_ok; auto. Qed.
Print Assumptions C77_height_field.
Theorem C77_points_on_height_fields : forall el nx ny aH i j b r0 r1, length aH = (nx * ny)%nat -> (i + 1 < nx)%nat -> (j + 1 < ny)%nat ->
  PositionOnGrid2 (height_index nx i j b, r0, r1) nx el aH = Some (comb r0 r1 (1 - r0 - r1) (height_corner el nx aH i j b 0) (height_corner el nx aH i j b 1) (height_corner el nx aH i j b 2)).
Proof. exact Grid_ok. Qed.
Print Assumptions C77_points_on_height_fields.

(** *** Tetrahedra *)
(** The weights of a point in a tetrahedron: they exist and are unique unless the tetrahedron is flat, and give the point back. *)
Theorem C77_weights_in_tetrahedra : forall t q l tet, valid tet l -> (t < count 4 tet)%nat ->
  (tet_volume l tet t = 0 -> setPos_Tet t q l tet = Some None) /\
  (tet_volume l tet t <> 0 -> exists p, setPos_Tet t q l tet = Some (Some p) /\ fst (fst (fst p)) = t /\ getPos_Tet p l tet = Some q /\ forall r0 r1 r2, tet_point l tet (t, r0, r1, r2) = q <-> (t, r0, r1, r2) = p) /\
  (forall r0 r1 r2, getPos_Tet (t, r0, r1, r2) l tet = Some (tet_point l tet (t, r0, r1, r2))) /\
  (forall r0 r1 r2 eps, isInside (t, r0, r1, r2) eps = true <-> nearly_in (- eps) (t, r0, r1, r2)).
Proof.
  intros t q l tet V T. rewrite setPos_ok by auto. pose proof (eqRs (tet_volume l tet t) 0) as Z. destruct (eqR (tet_volume l tet t) 0).
  - split; [auto|]. split; [intros; contradiction|]. split; [intros; apply getPos_ok; auto|]. intros. rewrite <- (Ropp_involutive eps) at 1. apply inside_iff.
  - split; [intros; contradiction|]. split; [|split; [intros; apply getPos_ok; auto|intros; rewrite <- (Ropp_involutive eps) at 1; apply inside_iff]].
    intros _. exists (tw l tet q t). split; [auto|]. split; [reflexivity|]. split; [|intros; apply tw_iff; auto]. pose proof (tw_iff l tet q t) as TI. destruct (tw l tet q t) as [[[t' s0] s1] s2] eqn:E. assert (t' = t) by (unfold tw in E; injection E; auto). subst t'. rewrite getPos_ok by auto. f_equal. apply TI; auto.
Qed.
Print Assumptions C77_weights_in_tetrahedra.
(** The face of a tetrahedron that a point is on: its weight is almost 0 and the others are not. *)
Theorem C77_face_of_a_point : forall t r0 r1 r2 eps k, let w := fun i => match i with 0%nat => r0 | 1%nat => r1 | 2%nat => r2 | _ => 1 - r0 - r1 - r2 end in
  indFace (t, r0, r1, r2) eps = Some k <-> (k < 4)%nat /\ Rabs (w k) < eps /\ forall i, (i < 4)%nat -> i <> k -> eps < Rabs (w i).
Proof.
  intros t r0 r1 r2 eps k w. unfold indFace. pose proof (ltRs (Rabs r0) eps) as A0. pose proof (ltRs (Rabs r1) eps) as A1. pose proof (ltRs (Rabs r2) eps) as A2. pose proof (ltRs (Rabs (1 - r0 - r1 - r2)) eps) as A3.
  pose proof (ltRs eps (Rabs r0)) as B0. pose proof (ltRs eps (Rabs r1)) as B1. pose proof (ltRs eps (Rabs r2)) as B2. pose proof (ltRs eps (Rabs (1 - r0 - r1 - r2))) as B3.
  assert (G : (k < 4)%nat /\ Rabs (w k) < eps /\ (forall i, (i < 4)%nat -> i <> k -> eps < Rabs (w i)) <->
    k = 0%nat /\ (Rabs r0 < eps /\ eps < Rabs r1 /\ eps < Rabs r2 /\ eps < Rabs (1 - r0 - r1 - r2)) \/ k = 1%nat /\ (eps < Rabs r0 /\ Rabs r1 < eps /\ eps < Rabs r2 /\ eps < Rabs (1 - r0 - r1 - r2)) \/
    k = 2%nat /\ (eps < Rabs r0 /\ eps < Rabs r1 /\ Rabs r2 < eps /\ eps < Rabs (1 - r0 - r1 - r2)) \/ k = 3%nat /\ (eps < Rabs r0 /\ eps < Rabs r1 /\ eps < Rabs r2 /\ Rabs (1 - r0 - r1 - r2) < eps)).
  { split.
    - intros (K & H & O). pose proof (O 0%nat) as O0. pose proof (O 1%nat) as O1. pose proof (O 2%nat) as O2. pose proof (O 3%nat) as O3. unfold w in *. destruct k as [|[|[|[|]]]]; [left|right; left|right; right; left|right; right; right|lia]; (split; [auto|]); repeat split; auto; first [apply O0; lia|apply O1; lia|apply O2; lia|apply O3; lia].
    - intros [(-> & H)|[(-> & H)|[(-> & H)|(-> & H)]]]; (split; [lia|]); unfold w; (split; [tauto|]); intros [|[|[|[|]]]] I N; try lia; tauto. }
  rewrite G. clear G.
  destruct (ltR (Rabs r0) eps), (ltR eps (Rabs r0)); try (exfalso; lra); destruct (ltR (Rabs r1) eps), (ltR eps (Rabs r1)); try (exfalso; lra); destruct (ltR (Rabs r2) eps), (ltR eps (Rabs r2)); try (exfalso; lra); destruct (ltR (Rabs (1 - r0 - r1 - r2)) eps), (ltR eps (Rabs (1 - r0 - r1 - r2))); try (exfalso; lra); cbn [andb];
  (split; [intros H; try discriminate; injection H as <-; tauto|intros [(-> & H)|[(-> & H)|[(-> & H)|(-> & H)]]]; auto; exfalso; lra]).
Qed.
Print Assumptions C77_face_of_a_point.
(** The first tetrahedron that has the point, up to a tolerance of 0.0001 for the weights; no answer if there is none. *)
Theorem C77_tetrahedron_of_a_point : forall q l tet, valid tet l -> let has := fun p => tet_volume l tet (fst (fst (fst p))) <> 0 /\ tet_point l tet p = q /\ nearly_in (/ 10 ^ 4) p in
  exists r, Nearest_Point_MeshTet3D q l tet = Some r /\ match r with
    | Some p => (fst (fst (fst p)) < count 4 tet)%nat /\ has p /\ forall u r0 r1 r2, (u < fst (fst (fst p)))%nat -> ~ has (u, r0, r1, r2)
    | None => forall u r0 r1 r2, (u < count 4 tet)%nat -> ~ has (u, r0, r1, r2) end.
Proof. intros. apply wp_ex. apply Search_ok. auto. Qed.
Print Assumptions C77_tetrahedron_of_a_point.
(** The walk from a first guess: an answer has the point and was reached in less than 50 steps; without an answer the guess is no tetrahedron, or the walk has left the mesh, or
    has made 50 steps. *)
Theorem C77_walk_to_a_point : forall p start l tet rel, valid tet l -> rel_ok tet rel -> let w := walk l tet rel (/ 10 ^ 4) p start in
  exists r, Nearest_Point_MeshTet3D_walk p start l tet rel = Some r /\ match r with
    | Some a => exists n, (n < 50)%nat /\ (fst (fst (fst a)) < count 4 tet)%nat /\ w n (Z.of_nat (fst (fst (fst a)))) /\ tet_has l tet (/ 10 ^ 4) p a
    | None => (start < 0 \/ Z.of_nat (count 4 tet) <= start)%Z \/ (exists n, (n < 50)%nat /\ w n (-1)%Z) \/ exists t, w 50%nat t end.
Proof. intros. apply wp_ex. apply Walk_ok; auto. Qed.
Print Assumptions C77_walk_to_a_point.
(** The faces of a mesh of tetrahedra: the answer is the face with the nearest point.  The weights are those of the nearest point if the given point is the origin. *)
Theorem C77_nearest_face : forall p l tet face, valid tet l -> face_ok tet face -> (0 < count 2 face)%nat ->
  (forall i, (i < count 2 face)%nat -> large3 (face_point l tet face i 0) (face_point l tet face i 1) (face_point l tet face i 2)) ->
  exists i r0 r1 x, Nearest_Point_MeshTetFace3D p l tet face = Some (i, r0, r1) /\ (i < count 2 face)%nat /\ closest (boundary l tet face) p x /\ face_points l tet face i x /\
    (p = origin3 -> x = comb r0 r1 (1 - r0 - r1) (face_point l tet face i 0) (face_point l tet face i 1) (face_point l tet face i 2)).
Proof. intros p l tet face V F N L. destruct (wp_ex _ _ _ (TetFace_ok p l tet face V F N L)) as ([[i r0] r1] & E & I & x & C & Fx & O & _). exists i, r0, r1, x. auto. Qed.
Print Assumptions C77_nearest_face.

(** *** Triangles around a point *)
Theorem C77_triangles_around_a_point : forall p rad t0 l tri adj, valid tri l -> adj_ok tri adj -> (t0 < count 3 tri)%nat -> (forall t, (t < count 3 tri)%nat -> large l tri t) ->
  exists res near, IndexesOfConnectedTriangleInSphere p rad t0 l tri adj = Some res /\ near_spec p rad l tri near /\ NoDup res /\ (forall t, In t res -> (t < count 3 tri)%nat) /\ forall t, In t res <-> linked near adj t0 t.
Proof. intros p rad t0 l tri adj V A T L. destruct (wp_ex _ _ _ (Sphere_ok p rad t0 l tri adj V A T L)) as (res & E & H). exists res, (near_by p rad l tri). split; [auto|]. split; [apply near_by_spec; auto|auto]. Qed.
Print Assumptions C77_triangles_around_a_point.
Theorem C77_samples_around_a_sample : forall smpl rad samples els l tri adj, valid tri l -> adj_ok tri adj -> (fst (fst smpl) < count 3 tri)%nat -> (forall t, (t < count 3 tri)%nat -> large l tri t) ->
  (forall e, In e els -> (snd e < length samples)%nat) -> (forall s, In s samples -> (fst (fst s) < count 3 tri)%nat) ->
  exists b near, IsTherePointOnMeshInsideSphere smpl rad samples els l tri adj = Some b /\ near_spec (tri_point l tri smpl) rad l tri near /\
    (b = true <-> exists t j s, linked near adj (fst (fst smpl)) t /\ In (t, j) els /\ nth_error samples j = Some s /\ dist3 (tri_point l tri smpl) (tri_point l tri s) < rad).
Proof.
  intros smpl rad samples els l tri adj V A T L E S. destruct (wp_ex _ _ _ (There_ok smpl rad samples els l tri adj V A T L E S)) as (b & Eb & H). exists b, (near_by (tri_point l tri smpl) rad l tri). split; [auto|]. split; [apply near_by_spec; auto|auto].
Qed.
Print Assumptions C77_samples_around_a_sample.

(** *** Cases *)
Lemma sqrt_big : forall x, 1 <= x -> / 10 ^ 10 < sqrt x /\ 6 * / 10 ^ 10 < sqrt x.
Proof. intros x X. assert (1 <= sqrt x) by (rewrite <- sqrt_1; apply sqrt_le_1; lra). assert (/ 10 ^ 10 <= / 10 ^ 1) by (apply Rinv_le_contravar; [lra|apply Rle_pow; [lra|lia]]). rewrite pow_1 in *. lra. Qed.
Ltac big := unfold large, large3, face_point, face_corner, at_corner, pnt, cor, dist3, area2; cbn [nth Nat.mul Nat.add vx vy vz]; repeat split; apply sqrt_big; lra.
Definition ex_l : list R := [0; 0; 0; 3; 0; 0; 0; 3; 0].
Definition ex_tri : list nat := [0; 1; 2]%nat.
Lemma ex_valid : valid ex_tri ex_l. Proof. intros i [<-|[<-|[<-|[]]]]; cbn; lia. Qed.
Lemma ex_large : forall t, (t < count 3 ex_tri)%nat -> large ex_l ex_tri t.
Proof. intros t T. cbn in T. assert (t = 0%nat) by lia. subst t. unfold ex_l, ex_tri. big. Qed.
Example ex_nearest : exists t r0 r1, Nearest_Point_MeshTri3D (V3 1 1 5) ex_l ex_tri = Some (t, r0, r1) /\ t = 0%nat /\ r0 = 1/3 /\ r1 = 1/3.
Proof.
  destruct (C77_nearest_point (V3 1 1 5) ex_l ex_tri ex_valid ltac:(cbn; lia) ex_large) as (t & r0 & r1 & E & T & W & _ & C). exists t, r0, r1. split; [auto|]. cbn in T. assert (t = 0%nat) by lia. subst t. split; [auto|].
  assert (H : surface ex_l ex_tri (V3 1 1 0)). { exists 0%nat. split; [cbn; lia|]. exists (1/3), (1/3), (1/3). repeat split; try lra. unfold at_corner, pnt, cor, ex_l, ex_tri. cbn. veq; lra. }
  specialize (C _ H). unfold tri_point, at_corner, pnt, cor, ex_l, ex_tri, dist3, comb in C. cbn [nth Nat.mul Nat.add vx vy vz] in C. apply sqrt_le_0 in C; [| |]. 2:{ match goal with |- 0 <= ?a ^ 2 + ?b ^ 2 + ?c ^ 2 => pose proof (pow2_ge_0 a); pose proof (pow2_ge_0 b); pose proof (pow2_ge_0 c); lra end. } 2:{ lra. }
  assert (X : r1 * 3 - 1 = 0 /\ (1 - r0 - r1) * 3 - 1 = 0). { pose proof (pow2_ge_0 (r1 * 3 - 1)). pose proof (pow2_ge_0 ((1 - r0 - r1) * 3 - 1)). split; apply Rsqr_0_uniq; unfold Rsqr; nra. } lra.
Qed.
(** Two triangles with a common edge: a ray through the edge meets both, but the answer has only the first one. *)
Theorem C77_hits_on_edges_refuted : exists org dir l tri, valid tri l /\ hit_tri org dir 0 l tri (0%nat, 1/2, 0) /\ hit_tri org dir 0 l tri (1%nat, 1/2, 1/2) /\
  exists m, IntersectionRay_MeshTri3 org dir tri l 0 = Some m /\ forall d r0 r1, ~ In (d, (1%nat, r0, r1)) m.
Proof.
  set (l := [0; 0; 0; 1; 0; 0; 0; 1; 0; -1; 0; 0]). set (tri := [0; 1; 2; 0; 2; 3]%nat). exists (V3 0 (1/2) 1), (V3 0 0 (-1)), l, tri. assert (V : valid tri l) by (intros i H; cbn in H; cbn; lia). split; [auto|].
  assert (H0 : hit_tri (V3 0 (1/2) 1) (V3 0 0 (-1)) 0 l tri (0%nat, 1/2, 0)). { unfold hit_tri, hit, at_corner, pnt, cor, l, tri, inner, nrm. cbn [nth Nat.mul Nat.add vx vy vz]. split; [lra|]. split; [|lra]. exists 1. veq; lra. }
  assert (H1 : hit_tri (V3 0 (1/2) 1) (V3 0 0 (-1)) 0 l tri (1%nat, 1/2, 1/2)). { unfold hit_tri, hit, at_corner, pnt, cor, l, tri, inner, nrm. cbn [nth Nat.mul Nat.add vx vy vz]. split; [lra|]. split; [|lra]. exists 1. veq; lra. }
  split; [auto|]. split; [auto|]. destruct (C77_ray_and_mesh (V3 0 (1/2) 1) (V3 0 0 (-1)) tri l 0 V) as (m & E & _ & A & _). exists m. split; [auto|]. intros d r0 r1 H. destruct (A _ _ H) as (_ & Hh & s & Hs & P & _ & F).
  assert (S1 : s = 1). { apply (f_equal vz) in P. unfold tri_point, at_corner, pnt, cor, l, tri, along in P. cbn in P. lra. } subst s.
  specialize (F (0%nat, 1/2, 0) ltac:(cbn; lia) H0). cbn [fst] in F. assert (1 <= 0)%nat; [|lia]. apply F. unfold tri_point, at_corner, pnt, cor, l, tri, along. cbn [nth Nat.mul Nat.add]. veq; lra.
Qed.
Print Assumptions C77_hits_on_edges_refuted.
(** The keys are not distances along the ray if the direction does not have length 1: here the point is at half the key. *)
Theorem C77_keys_are_distances_refuted : exists org dir l tri m d p, valid tri l /\ IntersectionRay_MeshTri3 org dir tri l 0 = Some m /\ In (d, p) m /\ tri_point l tri p <> along org dir d /\ dist3 (tri_point l tri p) org < d.
Proof.
  destruct (C77_ray_and_mesh (V3 1 1 2) (V3 0 0 (-2)) ex_tri ex_l 0 ex_valid) as (m & E & _ & A & B).
  destruct (B (0%nat, 1/3, 1/3) 1) as (q & Q); [cbn; lia| |lra| |].
  - unfold hit_tri, hit, at_corner, pnt, cor, ex_l, ex_tri, inner, nrm. cbn [nth Nat.mul Nat.add vx vy vz]. split; [lra|]. split; [|lra]. exists 1. veq; lra.
  - unfold tri_point, at_corner, pnt, cor, ex_l, ex_tri, along. cbn [nth Nat.mul Nat.add]. veq; lra.
  - exists (V3 1 1 2), (V3 0 0 (-2)), ex_l, ex_tri, m, (1 * inner (V3 0 0 (-2)) (V3 0 0 (-2))), q. split; [apply ex_valid|]. split; [auto|]. split; [auto|]. destruct (A _ _ Q) as (_ & _ & s & Hs & P & D & _). rewrite P. unfold inner in *. cbn [vx vy vz] in *. assert (s = 1) by lra. subst s. split.
    + intros X. apply (f_equal vz) in X. unfold along in X. cbn in X. lra.
    + rewrite dist_along by lra. unfold inner. cbn [vx vy vz]. replace (0 * 0 + 0 * 0 + -2 * -2) with (2 * 2) by ring. rewrite sqrt_square by lra. lra.
Qed.
Print Assumptions C77_keys_are_distances_refuted.
Example ex_first_hit : exists d p m, IntersectionRay_MeshTri3 (V3 1 1 2) (V3 0 0 (-1)) ex_tri ex_l 0 = Some ((d, p) :: m) /\ closest (fun x => ray (V3 1 1 2) (V3 0 0 (-1)) x /\ exists t, (t < count 3 ex_tri)%nat /\ tri_points ex_l ex_tri t x /\
    inner (V3 0 0 (-1)) (nrm (at_corner ex_l 3 ex_tri t 0) (at_corner ex_l 3 ex_tri t 1) (at_corner ex_l 3 ex_tri t 2)) <> 0) (V3 1 1 2) (tri_point ex_l ex_tri p).
Proof.
  destruct (C77_first_hit (V3 1 1 2) (V3 0 0 (-1)) ex_tri ex_l ex_valid) as (m & E & H). destruct m as [|[d p] m].
  - exfalso. apply (H (V3 1 1 0)). split; [exists 2; split; [lra|veq]|]. exists 0%nat. split; [cbn; lia|]. split; [exists (1/3), (1/3), (1/3); repeat split; try lra|]; unfold at_corner, pnt, cor, ex_l, ex_tri, inner, nrm; cbn [nth Nat.mul Nat.add vx vy vz]; [veq; lra|lra].
  - exists d, p, m. auto.
Qed.
(** A height field of four points and a vertical line through one half of the cell. *)
Example ex_height_field : exists a, IntersectionLine_Hightfield [] (V3 (3/4) (1/4) 9) (V3 0 0 (-1)) 2 2 [0; 1; 2; 3] = Some a /\ In (0%nat, 1/4, 1/2) a /\ PositionOnGrid2 (0%nat, 1/4, 1/2) 2 1 [0; 1; 2; 3] = Some (V3 (3/4) (1/4) (5/4)).
Proof.
  destruct (C77_height_field [] (V3 (3/4) (1/4) 9) (V3 0 0 (-1)) 2 2 [0; 1; 2; 3] eq_refl ltac:(lia) ltac:(lia)) as (a & E & A). exists a. split; [auto|].
  assert (e3 : 0 < / 10 ^ 3) by (apply Rinv_0_lt_compat; apply pow_lt; lra). split.
  - apply A. right. exists 0%nat, 0%nat, false. split; [lia|]. split; [reflexivity|]. unfold hit, height_corner, height_point, inner, nrm. cbn [nth Nat.mul Nat.add vx vy vz INR]. split; [lra|]. split; [|lra]. exists (31/4). veq; lra.
  - change (0%nat, 1/4, 1/2) with (height_index 2 0 0 false, 1/4, 1/2). rewrite (C77_points_on_height_fields 1 2 2) by (cbn; lia). f_equal. unfold height_corner, height_point. cbn [nth Nat.mul Nat.add INR]. veq; lra.
Qed.

(** Two tetrahedra O X Y Z and A O Y Z, and a point of the second that is beyond two faces of the first with the same volume. *)
Definition ex_t : list R := [0; 0; 0; 1; 0; 0; 0; 1; 0; 0; 0; 1; -1; -3/2; 0].
Definition ex_tet : list nat := [0; 1; 2; 3; 4; 0; 2; 3]%nat.
Definition ex_rel : list Z := [-1; 0; 1; 0; -1; 0; -1; 0; 0; 0; -1; 0; -1; 0; -1; 0]%Z.
Lemma ex_tvalid : valid ex_tet ex_t. Proof. intros i H. cbn in H. cbn. lia. Qed.
Lemma ex_relok : rel_ok ex_tet ex_rel.
Proof. split; [reflexivity|]. intros t k T K. change (count 4 ex_tet) with 2%nat in *. destruct t as [|[|]]; [| |lia]; (destruct k as [|[|[|[|]]]]; [| | | |lia]); cbn; lia. Qed.
Theorem C77_walk_finds_the_tetrahedron_refuted : exists p r0 r1 r2, tet_has ex_t ex_tet (/ 10 ^ 4) p (1%nat, r0, r1, r2) /\ 0 < r0 /\ 0 < r1 /\ 0 < r2 /\ r0 + r1 + r2 < 1 /\
  nth (8 * 0 + 2 * 1) ex_rel (-1)%Z = 1%Z /\ Nearest_Point_MeshTet3D_walk p 0 ex_t ex_tet ex_rel = Some None.
Proof.
  assert (e4 : 0 < / 10 ^ 4) by (apply Rinv_0_lt_compat; apply pow_lt; lra). assert (e4' : / 10 ^ 4 < 1 / 100) by (replace (1 / 100) with (/ 100) by field; apply Rinv_lt_contravar; lra).
  set (p := V3 (-1/4) (-1/4) (1/2)). exists p, (1/4), (1/8), (1/8). split.
  { split; [unfold tet_volume, at_corner, pnt, cor, ex_t, ex_tet, volume6; cbn [fst nth Nat.mul Nat.add vx vy vz]; lra|]. split; [unfold tet_point, comb4, at_corner, pnt, cor, ex_t, ex_tet, p; cbn [nth Nat.mul Nat.add]; veq; lra|]. cbn [nearly_in]. lra. }
  do 4 (split; [lra|]). split; [reflexivity|]. destruct (C77_walk_to_a_point p 0 ex_t ex_tet ex_rel ex_tvalid ex_relok) as (r & E & H). rewrite E. destruct r as [a|]; auto. exfalso.
  assert (NH : forall r0 r1 r2, ~ tet_has ex_t ex_tet (/ 10 ^ 4) p (0%nat, r0, r1, r2)). { intros r0 r1 r2 (_ & X & N). apply (f_equal vx) in X. unfold tet_point, comb4, comb, at_corner, pnt, cor, ex_t, ex_tet, p, origin3 in X. cbn [nth Nat.mul Nat.add vx] in X. cbn [nearly_in] in N. lra. }
  destruct H as (n & _ & _ & W & Ha).
  assert (MV : moved_volume ex_t ex_tet p 0 0 = 1 /\ moved_volume ex_t ex_tet p 0 1 = -1/4 /\ moved_volume ex_t ex_tet p 0 2 = -1/4 /\ moved_volume ex_t ex_tet p 0 3 = 1/2) by (unfold moved_volume, at_corner, pnt, cor, ex_t, ex_tet, p, volume6; cbn [Nat.eqb nth Nat.mul Nat.add vx vy vz]; repeat split; lra).
  assert (K : forall n u, walk ex_t ex_tet ex_rel (/ 10 ^ 4) p 0 n u -> u = 0%Z \/ u = (-1)%Z).
  { induction 1 as [|n0 t k W' IH T NT KK]; [auto|]. right. destruct IH as [IH|IH]; [|lia]. assert (t = 0%nat) by lia. subst t. assert (k = 3%nat); [|subst k; reflexivity]. destruct MV as (M0 & M1 & M2 & M3). destruct KK as [(K4 & Kl)|(? & _)]; [|auto].
    destruct k as [|[|[|[|]]]]; try lia; exfalso; [specialize (Kl 1%nat ltac:(lia) ltac:(lia))|specialize (Kl 2%nat ltac:(lia) ltac:(lia))|specialize (Kl 1%nat ltac:(lia) ltac:(lia))]; lra. }
  destruct (K _ _ W) as [Z|Z]; [|lia]. destruct a as [[[t r0] r1] r2]. cbn [fst] in Z. assert (t = 0%nat) by lia. subst t. exact (NH _ _ _ Ha).
Qed.
Print Assumptions C77_walk_finds_the_tetrahedron_refuted.
Example ex_search : exists p, Nearest_Point_MeshTet3D (V3 (-1/4) (-1/4) (1/2)) ex_t ex_tet = Some (Some p) /\ tet_point ex_t ex_tet p = V3 (-1/4) (-1/4) (1/2).
Proof.
  destruct (C77_tetrahedron_of_a_point (V3 (-1/4) (-1/4) (1/2)) ex_t ex_tet ex_tvalid) as (r & E & H). destruct r as [p|]; [exists p; split; [auto|apply H]|]. exfalso. assert (e4 : 0 < / 10 ^ 4) by (apply Rinv_0_lt_compat; apply pow_lt; lra).
  apply (H 1%nat (1/4) (1/8) (1/8)); [cbn; lia|]. split; [unfold tet_volume, at_corner, pnt, cor, ex_t, ex_tet, volume6; cbn [fst nth Nat.mul Nat.add vx vy vz]; lra|]. split; [unfold tet_point, comb4, at_corner, pnt, cor, ex_t, ex_tet; cbn [nth Nat.mul Nat.add]; veq; lra|]. cbn [nearly_in]. lra.
Qed.
(** The weights of the nearest point of the faces are wrong for other points than the origin: the face O Y X and a point below it. *)
Theorem C77_weights_of_nearest_face_refuted : exists p l tet face r0 r1, valid tet l /\ face_ok tet face /\ Nearest_Point_MeshTetFace3D p l tet face = Some (0%nat, r0, r1) /\
  ~ closest (boundary l tet face) p (comb r0 r1 (1 - r0 - r1) (face_point l tet face 0 0) (face_point l tet face 0 1) (face_point l tet face 0 2)).
Proof.
  set (face := [0; 3]%nat). set (p := V3 (1/4) (1/4) (-1)). assert (F : face_ok ex_tet face). { intros i I. change (count 2 face) with 1%nat in I. assert (i = 0%nat) by lia. subst i. cbn. lia. }
  assert (L : forall i, (i < count 2 face)%nat -> face_large ex_t ex_tet face i). { intros i I. change (count 2 face) with 1%nat in I. assert (i = 0%nat) by lia. subst i. unfold face_large, face, ex_t, ex_tet. big. }
  destruct (wp_ex _ _ _ (TetFace_ok p ex_t ex_tet face ex_tvalid F ltac:(cbn; lia) L)) as ([[i r0] r1] & E & I & x & C & _ & _ & R0). change (count 2 face) with 1%nat in I. assert (i = 0%nat) by lia. subst i.
  exists p, ex_t, ex_tet, face, r0, r1. split; [apply ex_tvalid|]. split; [auto|]. split; [auto|]. intros C'.
  assert (Q : face_point ex_t ex_tet face 0 0 = V3 0 0 0 /\ face_point ex_t ex_tet face 0 1 = V3 0 1 0 /\ face_point ex_t ex_tet face 0 2 = V3 1 0 0) by (repeat split; reflexivity). destruct Q as (Q0 & Q1 & Q2).
  assert (B : forall y, boundary ex_t ex_tet face y -> vz y = 0). { intros y (j & J & (a & b & c & _ & _ & _ & _ & Y)). change (count 2 face) with 1%nat in J. assert (j = 0%nat) by lia. subst j. rewrite Y, Q0, Q1, Q2. cbn. ring. }
  assert (U : forall y, closest (boundary ex_t ex_tet face) p y -> y = V3 (1/4) (1/4) 0).
  { intros y (Y & M). specialize (B y Y). assert (H : boundary ex_t ex_tet face (V3 (1/4) (1/4) 0)). { exists 0%nat. split; [cbn; lia|]. unfold face_points. rewrite Q0, Q1, Q2. exists (1/2), (1/4), (1/4). repeat split; try lra. veq; lra. }
    specialize (M _ H). unfold dist3, p in M. cbn [vx vy vz] in M. rewrite B in M. apply sqrt_le_0 in M; [| |lra]. 2:{ pose proof (pow2_ge_0 (vx y - 1/4)). pose proof (pow2_ge_0 (vy y - 1/4)). lra. }
    pose proof (pow2_ge_0 (vx y - 1/4)). pose proof (pow2_ge_0 (vy y - 1/4)). apply v3_eq; cbn [vx vy vz]; auto; apply Rminus_diag_uniq; apply Rsqr_0_uniq; unfold Rsqr; nra. }
  apply U in C. apply U in C'. rewrite C, Q0, Q1, Q2 in R0. rewrite Q0, Q1, Q2 in C'. assert (H : r0 = 1/2). { pose proof (f_equal vx C') as X. pose proof (f_equal vy C') as Y. cbn in X, Y. lra. }
  unfold Area_Tri_3, norm3, p in R0. unfold cross3, sub3, dot3 in R0. cbn [vx vy vz] in R0.
  match type of R0 with _ = sqrt ?a / 2 / (sqrt _ / 2 + sqrt ?b / 2 + sqrt ?c / 2) => replace a with 3 in R0 by field; replace b with 1 in R0 by field; replace c with 1 in R0 by field end. rewrite sqrt_1 in R0.
  pose proof (sqrt_lt_R0 3 ltac:(lra)) as P3. pose proof (sqrt_sqrt 3 ltac:(lra)) as S3. assert (X : sqrt 3 = 2). { rewrite H in R0. apply (f_equal (fun z => z * (sqrt 3 / 2 + 1 / 2 + 1 / 2))) in R0. replace (sqrt 3 / 2 / (sqrt 3 / 2 + 1 / 2 + 1 / 2) * (sqrt 3 / 2 + 1 / 2 + 1 / 2)) with (sqrt 3 / 2) in R0 by (field; lra). lra. }
  rewrite X in S3. lra.
Qed.
Print Assumptions C77_weights_of_nearest_face_refuted.
(** A sample in the middle of a triangle does not even find itself: the triangle is taken to be as far as its edges. *)
Theorem C77_samples_near_refuted : exists smpl rad l tri adj, valid tri l /\ adj_ok tri adj /\ (fst (fst smpl) < count 3 tri)%nat /\ weights (snd (fst smpl)) (snd smpl) /\ 0 < rad /\
  IsTherePointOnMeshInsideSphere smpl rad [smpl] [(fst (fst smpl), 0%nat)] l tri adj = Some false /\ IndexesOfConnectedTriangleInSphere (tri_point l tri smpl) rad (fst (fst smpl)) l tri adj = Some [].
Proof.
  set (adj := [None; None; None] : list (option nat)). assert (A : adj_ok ex_tri adj) by (split; [reflexivity|intros u H; cbn in H; destruct H as [H|[H|[H|[]]]]; discriminate]).
  exists (0%nat, 1/3, 1/3), (1/2), ex_l, ex_tri, adj. split; [apply ex_valid|]. split; [auto|]. cbn [fst snd]. split; [cbn; lia|]. split; [unfold weights; lra|]. split; [lra|].
  assert (P : tri_point ex_l ex_tri (0%nat, 1/3, 1/3) = V3 1 1 0) by (unfold tri_point, at_corner, pnt, cor, ex_l, ex_tri; cbn [nth Nat.mul Nat.add]; veq; lra).
  assert (NN : forall near, near_spec (V3 1 1 0) (1/2) ex_l ex_tri near -> ~ near 0%nat).
  { intros near H. specialize (H 0%nat ltac:(cbn; lia)). cbv zeta in H. destruct H as (_ & H). unfold at_corner, pnt, cor, ex_l, ex_tri in H. cbn [nth Nat.mul Nat.add] in H. rewrite H; [|unfold volume6; cbn [vx vy vz]; match goal with |- Rabs ?a <= _ => replace a with 0 by ring end; rewrite Rabs_R0; apply Rmult_le_pos; [lra|]; left; apply Rinv_0_lt_compat; apply pow_lt; lra].
    intros (y & Y & D). assert (Dy : (vx y - 1) ^ 2 + (vy y - 1) ^ 2 + (vz y - 0) ^ 2 <= 1/4). { unfold dist3 in D. cbn [vx vy vz] in D. set (q := (vx y - 1) ^ 2 + (vy y - 1) ^ 2 + (vz y - 0) ^ 2) in *. assert (Q : 0 <= q) by (unfold q; pose proof (pow2_ge_0 (vx y - 1)); pose proof (pow2_ge_0 (vy y - 1)); pose proof (pow2_ge_0 (vz y - 0)); lra). pose proof (sqrt_sqrt q Q). pose proof (sqrt_pos q). nra. }
    assert (G : vx y <= 0 \/ vy y <= 0 \/ vx y + vy y = 3) by (destruct Y as [(t & T & ->)|[(t & T & ->)|(t & T & ->)]]; unfold comb, origin3; cbn [vx vy vz]; lra).
    pose proof (pow2_ge_0 (vx y - 1)). pose proof (pow2_ge_0 (vy y - 1)). pose proof (pow2_ge_0 (vz y - 0)). destruct G as [G|[G|G]]; [nra|nra|]. replace (vy y) with (3 - vx y) in Dy by lra. pose proof (pow2_ge_0 (vx y - 3/2)). nra. }
  destruct (C77_triangles_around_a_point (V3 1 1 0) (1/2) 0 ex_l ex_tri adj ex_valid A ltac:(cbn; lia) ex_large) as (res & near & E & N & _ & Rg & Lk).
  assert (NL : forall near t, near_spec (V3 1 1 0) (1/2) ex_l ex_tri near -> ~ linked near adj 0 t). { intros nr t Hn H. assert (Z : forall t, linked nr adj 0 t -> nr 0%nat) by (induction 1; auto). exact (NN nr Hn (Z t H)). }
  split.
  - destruct (C77_samples_around_a_sample (0%nat, 1/3, 1/3) (1/2) [(0%nat, 1/3, 1/3)] [(0%nat, 0%nat)] ex_l ex_tri adj ex_valid A ltac:(cbn; lia) ex_large) as (b & nr & Eb & Nr & B); [intros e [<-|[]]; cbn; lia|intros s [<-|[]]; cbn; lia|]. rewrite P in Nr, B. rewrite Eb. destruct b; auto. destruct (proj1 B eq_refl) as (t & j & s & H & _). destruct (NL nr t Nr H).
  - rewrite P, E. f_equal. destruct res as [|t res]; auto. exfalso. apply (NL near t N). apply Lk. left. auto.
Qed.
Print Assumptions C77_samples_near_refuted.
(** Seen from above its middle the same triangle is found. *)
Example ex_around : exists res, IndexesOfConnectedTriangleInSphere (V3 1 1 1) 2 0 ex_l ex_tri [None; None; None] = Some res /\ In 0%nat res.
Proof.
  assert (A : adj_ok ex_tri [None; None; None]) by (split; [reflexivity|intros u H; cbn in H; destruct H as [H|[H|[H|[]]]]; discriminate]).
  destruct (C77_triangles_around_a_point (V3 1 1 1) 2 0 ex_l ex_tri _ ex_valid A ltac:(cbn; lia) ex_large) as (res & near & E & N & _ & _ & Lk). exists res. split; [auto|]. apply Lk. constructor. destruct (N 0%nat ltac:(cbn; lia)) as (H & _). apply H.
  - unfold at_corner, pnt, cor, ex_l, ex_tri, volume6. cbn [nth Nat.mul Nat.add vx vy vz]. match goal with |- _ < Rabs ?a => replace a with (-9) by ring end. rewrite Rabs_left by lra. assert (/ 10 ^ 10 <= / 10 ^ 1) by (apply Rinv_le_contravar; [lra|apply Rle_pow; [lra|lia]]). rewrite pow_1 in *. lra.
  - exists (V3 1 1 0). split; [exists (1/3), (1/3), (1/3); repeat split; try lra; unfold at_corner, pnt, cor, ex_l, ex_tri; cbn [nth Nat.mul Nat.add]; veq; lra|]. unfold dist3. cbn [vx vy vz]. replace ((1 - 1) ^ 2 + (1 - 1) ^ 2 + (0 - 1) ^ 2) with 1 by ring. rewrite sqrt_1. lra.
Qed.
Example ex_signed_distance : exists d u, SDFNormal_NearestPoint (V3 1 1 5) (0%nat, 1/3, 1/3) ex_l ex_tri [0; 0; 1; 0; 0; 1; 0; 0; 1] = Some (d, u) /\ d = -5.
Proof.
  assert (Vn : valid ex_tri [0; 0; 1; 0; 0; 1; 0; 0; 1]) by (intros i [<-|[<-|[<-|[]]]]; cbn; lia).
  destruct (C77_signed_distance (V3 1 1 5) 0 (1/3) (1/3) ex_l ex_tri [0; 0; 1; 0; 0; 1; 0; 0; 1] ex_valid Vn ltac:(cbn; lia)) as (d & u & E & _ & D & _ & S & _).
  - intros H. apply (f_equal vz) in H. unfold tri_point, at_corner, pnt, cor, ex_tri in H. cbn in H. lra.
  - exists d, u. split; [auto|]. unfold tri_point, at_corner, pnt, cor, ex_l, ex_tri, dist3, inner, comb in *. cbn [nth Nat.mul Nat.add vx vy vz] in *. specialize (S ltac:(lra)).
    match type of D with _ = sqrt ?a => replace a with (5 * 5) in D by field end. rewrite sqrt_square in D by lra. rewrite Rabs_left1 in D by auto. lra.
Qed.
