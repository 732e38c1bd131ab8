(** C72: boxes, centres, areas and masses of meshes. *)
From Coq Require Import List Arith Bool ZArith Reals Lra Lia.
Import ListNotations.
From Verif Require Import Imp PrModel PolyModel QuatModel ProxModel IsecModel GjkProofs1 ProxSpec ProxProofs1 MeasModel MeasSpec MeasProofs1 MeasProofs2 MeasProofs3.
Open Scope R_scope.

(** The bounding box of n points is the smallest box around them, whatever was in the output before. *)
Theorem C72_bounding_box : forall ini xyz n, (0 < n)%nat -> (3 * n <= length xyz)%nat ->
  exists lo hi, BoundingBox3_Points3 ini xyz n = Some (lo, hi) /\ box_of (fun q => exists i, (i < n)%nat /\ q = pnt xyz i) lo hi.
Proof. exact bbox_proof. Qed.
Print Assumptions C72_bounding_box.

(** Centre and widths are those of this box; without points they are zero and one. *)
Theorem C72_center_and_width : forall xyz,
  (length xyz < 3 -> CenterWidth_Points3 xyz = Some (V3 0 0 0, V3 1 1 1))%nat /\
  ((3 <= length xyz)%nat -> exists c w, CenterWidth_Points3 xyz = Some (c, w) /\ box_of_cw (points xyz) c w).
Proof. exact cws_proof. Qed.
Print Assumptions C72_center_and_width.

(** The same in the coordinates along three given directions. *)
Theorem C72_center_and_width_local : forall xyz ex ey ez,
  (length xyz < 3 -> GetCenterWidthLocal xyz ex ey ez = Some (V3 0 0 0, V3 1 1 1))%nat /\
  ((3 <= length xyz)%nat -> exists c w, GetCenterWidthLocal xyz ex ey ez = Some (c, w) /\
     box_of_cw (fun q => exists p, points xyz p /\
       q = V3 (vx p * vx ex + vy p * vy ex + vz p * vz ex) (vx p * vx ey + vy p * vy ey + vz p * vz ey) (vx p * vx ez + vy p * vy ez + vz p * vz ez)) c w).
Proof. exact local_proof. Qed.
Print Assumptions C72_center_and_width_local.

(** Centre and widths of a group of triangles: exactly the corners of the triangles of the group count. *)
Theorem C72_group_of_triangles : forall xyz tri g grp, length tri = (3 * length grp)%nat -> valid tri xyz ->
  exists c w, GetCenterWidthGroup xyz tri 3 g grp = Some (c, w) /\
    ((exists q, in_group 3 xyz tri g grp q) -> box_of_cw (in_group 3 xyz tri g grp) c w) /\
    ((forall q, ~ in_group 3 xyz tri g grp q) -> (c, w) = (V3 0 0 0, V3 1 1 1)).
Proof. exact group3_proof. Qed.
Print Assumptions C72_group_of_triangles.

(** Centre and widths of a group of elements given by ranges. *)
Theorem C72_group_of_ranges : forall xyz ind elem g grp, length ind = (length grp + 1)%nat -> (forall i, In i ind -> (i <= length elem)%nat) -> valid elem xyz ->
  exists c w, GetCenterWidthGroup_jag xyz ind elem g grp = Some (c, w) /\
    ((exists q, in_group_jag xyz ind elem g grp q) -> box_of_cw (in_group_jag xyz ind elem g grp) c w) /\
    ((forall q, ~ in_group_jag xyz ind elem g grp q) -> (c, w) = (V3 0 0 0, V3 1 1 1)).
Proof. exact group_jag_proof. Qed.
Print Assumptions C72_group_of_ranges.

(** The same is false for tetrahedra: the function steps three corners per element whatever the number of corners.  Two tetrahedra with corners
    0..7; the box returned for the second one misses its last corner. *)
Definition line8 : list R := [0;0;0; 1;0;0; 2;0;0; 3;0;0; 4;0;0; 5;0;0; 6;0;0; 7;0;0].
Ltac cmp := repeat match goal with |- context [ltR ?a ?b] => lazymatch a with context [ltR _ _] => fail | _ => lazymatch b with context [ltR _ _] => fail | _ => pose proof (ltRs a b) as Qc; destruct (ltR a b); cbn [vx vy vz] in Qc; [try (exfalso; lra)|try (exfalso; lra)]; clear Qc; cbn [vx vy vz] end end end.
Theorem C72_group_of_tetrahedra_refuted : exists xyz tet g grp c w, length tet = (4 * length grp)%nat /\ valid tet xyz /\
  GetCenterWidthGroup xyz tet 4 g grp = Some (c, w) /\ (exists q, in_group 4 xyz tet g grp q) /\ ~ box_of_cw (in_group 4 xyz tet g grp) c w.
Proof.
  exists line8, [0;1;2;3;4;5;6;7]%nat, 1%Z, [0;1]%Z, (V3 ((3 + 6) / 2) ((0 + 0) / 2) ((0 + 0) / 2)), (V3 (6 - 3) (0 - 0) (0 - 0)).
  assert (G : in_group 4 line8 [0;1;2;3;4;5;6;7]%nat 1%Z [0;1]%Z (V3 7 0 0)) by (exists 1%nat, 3%nat; cbn; repeat split; lia).
  split; [reflexivity|]. split; [intros i [<-|[<-|[<-|[<-|[<-|[<-|[<-|[<-|[]]]]]]]]]; cbn; lia|]. split; [|split].
  - cbn -[updateMinMaxXYZ CenterWidth_MinMaxXYZ]. unfold updateMinMaxXYZ. cbn [vx vy vz]. cmp. reflexivity.
  - eexists. exact G.
  - intros (H & _). pose proof (H _ G) as K. cbn [vx vy vz] in K. lra.
Qed.
Print Assumptions C72_group_of_tetrahedra_refuted.

(** The size of a set of points: the largest difference of two of them in one coordinate. *)
Theorem C72_longest_edge : forall xyz, (3 <= length xyz)%nat -> exists s, Size_Points3D_LongestAABBEdge xyz = Some s /\
  (forall p q, points xyz p -> points xyz q -> Rabs (vx p - vx q) <= s /\ Rabs (vy p - vy q) <= s /\ Rabs (vz p - vz q) <= s) /\
  (exists p q, points xyz p /\ points xyz q /\ (s = vx p - vx q \/ s = vy p - vy q \/ s = vz p - vz q)).
Proof. exact size_proof. Qed.
Print Assumptions C72_longest_edge.

(** Centres of gravity: of points, of segments by length, of triangles by area, of chosen triangles, of tetrahedra by signed volume.  If the
    total weight is zero the quotient is not a number. *)
Theorem C72_centre_of_points : forall xyz, (3 <= length xyz)%nat -> exists c, CG_Point3 xyz = Some c /\ centre_of (length xyz / 3) (fun _ => 1) (pnt xyz) c.
Proof. exact cg_points_proof. Qed.
Print Assumptions C72_centre_of_points.
Theorem C72_centre_of_segments : forall xyz line, valid line xyz -> let n := (length line / 2)%nat in let w := seg_len xyz line in
  (sum n w <> 0 -> exists c, CG_MeshLine3 xyz line = Some (sum n w, c) /\ centre_of n w (seg_mid xyz line) c) /\ (sum n w = 0 -> CG_MeshLine3 xyz line = None).
Proof. exact cg_line_proof. Qed.
Print Assumptions C72_centre_of_segments.
Theorem C72_centre_of_triangles : forall xyz tri, valid tri xyz -> let n := (length tri / 3)%nat in let w := tri_area xyz tri in
  (sum n w <> 0 -> exists c, CG_MeshTri3_Shell xyz tri = Some c /\ centre_of n w (tri_mid xyz tri) c) /\ (sum n w = 0 -> CG_MeshTri3_Shell xyz tri = None).
Proof. exact cg_shell_proof. Qed.
Print Assumptions C72_centre_of_triangles.
Theorem C72_centre_of_chosen_triangles : forall xyz tri f flg, valid tri xyz -> (length tri / 3 <= length flg)%nat ->
  let n := (length tri / 3)%nat in let w := chosen_area xyz tri (fun t => Z.eqb (nth t flg 0%Z) f) in
  (sum n w <> 0 -> exists c, CG_TriMsh3Flg_Shell xyz tri f flg = Some (c, sum n w) /\ centre_of n w (tri_mid xyz tri) c) /\ (sum n w = 0 -> CG_TriMsh3Flg_Shell xyz tri f flg = None).
Proof. exact cg_flag_proof. Qed.
Print Assumptions C72_centre_of_chosen_triangles.
Theorem C72_centre_of_tetrahedra : forall xyz tet, valid tet xyz -> let n := (length tet / 4)%nat in let w := tet_vol xyz tet in
  (sum n w <> 0 -> exists c, CG_MeshTet3 xyz tet = Some (sum n w, c) /\ centre_of n w (tet_mid xyz tet) c) /\ (sum n w = 0 -> CG_MeshTet3 xyz tet = None).
Proof. exact cg_tet_proof. Qed.
Print Assumptions C72_centre_of_tetrahedra.
Theorem C72_area_of_chosen_triangles : forall xyz tri fl, valid tri xyz -> Area_MeshTri3 xyz tri fl = Some (sum (length tri / 3) (chosen_area xyz tri fl)).
Proof. exact area_proof. Qed.
Print Assumptions C72_area_of_chosen_triangles.

(** The centres of points, segments and triangles are in the bounding box. *)
Lemma valid_points : forall xyz m elem e k, valid elem xyz -> (m * e + k < length elem)%nat -> points xyz (at_corner xyz m elem e k).
Proof.
  intros xyz m elem e k V H. exists (cor m elem e k). split; [|reflexivity]. assert (L : (3 * cor m elem e k + 2 < length xyz)%nat) by (apply V; unfold cor; apply nth_In; exact H).
  apply Nat.div_le_lower_bound; lia.
Qed.
Theorem C72_centres_in_box : forall xyz lo hi, box_of (points xyz) lo hi ->
  (forall c, CG_Point3 xyz = Some c -> inside lo hi c) /\
  (forall line len c, valid line xyz -> CG_MeshLine3 xyz line = Some (len, c) -> inside lo hi c) /\
  (forall tri c, valid tri xyz -> CG_MeshTri3_Shell xyz tri = Some c -> inside lo hi c).
Proof.
  intros xyz lo hi (B & (p0 & (i0 & Hi0 & _) & _) & _). split; [|split].
  - intros c E. destruct (cg_points_proof xyz) as (c' & E' & Hc); [pose proof (div3_lt xyz i0 Hi0); lia|]. rewrite E in E'. injection E'. intros <-.
    apply (centre_box _ _ _ _ lo hi) with (2 := Hc); [intros; lra|]. intros i Hi. right. apply B. exists i. auto.
  - intros line len c V E. destruct (cg_line_proof xyz line V) as (P & N). destruct (Req_dec (sum (length line / 2) (seg_len xyz line)) 0) as [Z|Z]; [rewrite (N Z) in E; discriminate|].
    destruct (P Z) as (c' & E' & Hc). rewrite E in E'. injection E'. intros <- _.
    apply (centre_box _ _ _ _ lo hi) with (2 := Hc); [intros; apply dist3_nonneg|]. intros i Hi. right. pose proof (Nat.div_mod (length line) 2 ltac:(lia)).
    pose proof (B _ (valid_points xyz 2 line i 0 V ltac:(lia))). pose proof (B _ (valid_points xyz 2 line i 1 V ltac:(lia))).
    unfold seg_mid, mid2, comb, origin3. cbn [vx vy vz]. repeat split; lra.
  - intros tri c V E. destruct (cg_shell_proof xyz tri V) as (P & N). destruct (Req_dec (sum (length tri / 3) (tri_area xyz tri)) 0) as [Z|Z]; [rewrite (N Z) in E; discriminate|].
    destruct (P Z) as (c' & E' & Hc). rewrite E in E'. injection E'. intros <-.
    apply (centre_box _ _ _ _ lo hi) with (2 := Hc); [intros; unfold tri_area; pose proof (area2_nonneg (at_corner xyz 3 tri i 0) (at_corner xyz 3 tri i 1) (at_corner xyz 3 tri i 2)); lra|]. intros i Hi. right. pose proof (Nat.div_mod (length tri) 3 ltac:(lia)).
    pose proof (B _ (valid_points xyz 3 tri i 0 V ltac:(lia))). pose proof (B _ (valid_points xyz 3 tri i 1 V ltac:(lia))). pose proof (B _ (valid_points xyz 3 tri i 2 V ltac:(lia))).
    unfold tri_mid, mid3, comb, origin3. cbn [vx vy vz]. repeat split; lra.
Qed.
Print Assumptions C72_centres_in_box.

(** The centre of one triangle is 0.999999 times its middle, not the middle. *)
Theorem C72_centre_of_one_triangle : forall xyz tri t, valid tri xyz -> (t < length tri / 3)%nat ->
  CG_Tri t xyz tri = Some (comb (999999 / 1000000) 0 0 (tri_mid xyz tri t) origin3 origin3).
Proof. exact cg_tri_proof. Qed.
Print Assumptions C72_centre_of_one_triangle.
Theorem C72_centre_of_one_triangle_refuted : exists xyz tri t, valid tri xyz /\ (t < length tri / 3)%nat /\ CG_Tri t xyz tri <> Some (tri_mid xyz tri t).
Proof.
  assert (V : valid [0;1;2]%nat [1;0;0; 1;1;0; 1;0;1]) by (intros i [<-|[<-|[<-|[]]]]; cbn; lia).
  exists [1;0;0; 1;1;0; 1;0;1], [0;1;2]%nat, 0%nat. split; [exact V|]. split; [cbn; lia|]. rewrite cg_tri_proof by (exact V || (cbn; lia)). intros E. injection E. intros _ _ K.
  cbn in K. lra.
Qed.
Print Assumptions C72_centre_of_one_triangle_refuted.

(** Centres of all triangles and the largest distance of a corner from the centre of its triangle; -1 without triangles. *)
Theorem C72_centres_and_radius : forall xyz tri, valid tri xyz -> let n := (length tri / 3)%nat in
  exists r, CentsMaxRad_MeshTri3 xyz tri = Some (map (tri_mid xyz tri) (seq 0 n), r) /\ (n = 0%nat -> r = -1) /\
    (forall t k, (t < n)%nat -> (k < 3)%nat -> dist3 (tri_mid xyz tri t) (at_corner xyz 3 tri t k) <= r) /\
    ((0 < n)%nat -> exists t k, (t < n)%nat /\ (k < 3)%nat /\ r = dist3 (tri_mid xyz tri t) (at_corner xyz 3 tri t k)).
Proof. exact rad_proof. Qed.
Print Assumptions C72_centres_and_radius.

(** The centre of the solid inside of a surface is the weighted mean of the tetrahedra of the origin and the triangles. *)
Theorem C72_centre_of_solid : forall xyz tri, valid tri xyz -> let n := (length tri / 3)%nat in let w := solid_w xyz tri in
  (sum n w <> 0 -> exists c, CG_MeshTri3_Solid xyz tri = Some c /\ centre_of n w (solid_p xyz tri) c) /\ (sum n w = 0 -> CG_MeshTri3_Solid xyz tri = None).
Proof. exact cg_solid_proof. Qed.
Print Assumptions C72_centre_of_solid.

(** For a closed surface it does not depend on where the origin is: it moves with the points. *)
Theorem C72_centre_of_closed_solid_moves : forall xyz xyz' tri t c, valid tri xyz -> valid tri xyz' -> closed tri ->
  (forall i, In i tri -> pnt xyz' i = V3 (vx (pnt xyz i) + vx t) (vy (pnt xyz i) + vy t) (vz (pnt xyz i) + vz t)) ->
  CG_MeshTri3_Solid xyz tri = Some c -> CG_MeshTri3_Solid xyz' tri = Some (V3 (vx c + vx t) (vy c + vy t) (vz c + vz t)).
Proof. exact translate_cg. Qed.
Print Assumptions C72_centre_of_closed_solid_moves.

(** For the boundary of tetrahedra it is the centre of gravity of the tetrahedra. *)
Theorem C72_centre_of_boundary : forall xyz tri tet c, valid tri xyz -> valid tet xyz -> boundary tri tet -> CG_MeshTri3_Solid xyz tri = Some c ->
  CG_MeshTet3 xyz tet = Some (sum (length tet / 4) (tet_vol xyz tet), c).
Proof. exact boundary_cg. Qed.
Print Assumptions C72_centre_of_boundary.

(** Masses of points: every tetrahedron or triangle gives an equal part of its mass to each of its corners. *)
Theorem C72_masses_of_tetrahedra : forall rho xyz np tet n, (3 * np <= length xyz)%nat -> (4 * n <= length tet)%nat -> (forall i, In i tet -> (i < np)%nat) ->
  exists m, MassPoint_Tet3D rho xyz np tet n = Some m /\ masses 4 np tet (fun t => rho * tet_vol xyz tet t) n m.
Proof. exact mass_tet_proof. Qed.
Print Assumptions C72_masses_of_tetrahedra.
Theorem C72_masses_of_triangles : forall rho xyz np tri n, (3 * np <= length xyz)%nat -> (3 * n <= length tri)%nat -> (forall i, In i tri -> (i < np)%nat) ->
  exists m, MassPoint_Tri3D rho xyz np tri n = Some m /\ masses 3 np tri (fun t => rho * tri_area xyz tri t) n m.
Proof. exact mass_tri_proof. Qed.
Print Assumptions C72_masses_of_triangles.
Theorem C72_masses_of_plane_triangles : forall rho xy np tri n, (2 * np <= length xy)%nat -> (3 * n <= length tri)%nat -> (forall i, In i tri -> (i < np)%nat) ->
  exists m, MassPoint_Tri2D rho xy np tri n = Some m /\ masses 3 np tri (fun t => rho * tri_area2 xy tri t) n m.
Proof. exact mass_tri2_proof. Qed.
Print Assumptions C72_masses_of_plane_triangles.

(** Concrete cases: two tetrahedra with a common face and their boundary. *)
Definition pts5 : list R := [0;0;0; 1;0;0; 0;1;0; 0;0;1; 1;1;1].
Definition tets : list nat := [0;1;2;3; 1;2;3;4]%nat.
Definition surf : list nat := [0;3;2; 0;1;3; 0;2;1; 2;3;4; 1;4;3; 1;2;4]%nat.
Example ex_valid : valid tets pts5 /\ valid surf pts5.
Proof.
  assert (G : forall i, In i (tets ++ surf) -> (i <= 4)%nat). { apply Forall_forall. unfold tets, surf. cbn [app]. repeat constructor; lia. }
  split; intros i Hi; pose proof (G i ltac:(apply in_or_app; auto)); cbn [length pts5]; lia.
Qed.
Example ex_closed : closed surf.
Proof. intros a b. do 5 (destruct a as [|a]; [do 5 (destruct b as [|b]; [reflexivity|]); reflexivity|]). do 5 (destruct b as [|b]; [reflexivity|]). reflexivity. Qed.
Example ex_solid : CG_MeshTri3_Solid pts5 surf <> None.
Proof.
  intros E. destruct (cg_solid_proof pts5 surf (proj2 ex_valid)) as (P & _). destruct P as (c & E' & _); [|rewrite E in E'; discriminate].
  rewrite solid_sum_w. cbn. unfold det, pnt. cbn. lra.
Qed.
Ltac d5 x := destruct x as [|x]; [|destruct x as [|x]; [|destruct x as [|x]; [|destruct x as [|x]; [|destruct x as [|x]]]]].
Example ex_boundary : boundary surf tets.
Proof. intros a b c. d5 a; d5 b; d5 c; reflexivity. Qed.
