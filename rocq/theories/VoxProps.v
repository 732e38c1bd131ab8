(** Property C43: voxel grids. *)
From Coq Require Import List Arith Bool ZArith Lia Permutation.
Import ListNotations.
From Verif Require Import Imp VoxModel VoxSpec VoxProofs1 VoxProofs2 VoxProofs3 VoxProofs4.
Open Scope nat_scope.

(** The neighbour of a voxel across a face: the index of the voxel one step in that direction, -1 outside of the grid. *)
Theorem C43_Adj_Grid : forall nx ny nz x y z f d, x < nx -> y < ny -> z < nz -> nth_error dirs f = Some d ->
  exists r, Adj_Grid (Z.of_nat (x * (ny * nz) + y * nz + z)) f (Z.of_nat nx) (Z.of_nat ny) (Z.of_nat nz) = Some r /\
    ((exists x' y' z', x' < nx /\ y' < ny /\ z' < nz /\ VoxSpec.step (x, y, z) d = (Z.of_nat x', Z.of_nat y', Z.of_nat z') /\ r = Z.of_nat (x' * (ny * nz) + y' * nz + z')) \/
     (~ inside nx ny nz (VoxSpec.step (x, y, z) d) /\ r = (-1)%Z)).
Proof.
  intros nx ny nz x y z f d X Y Zl F. assert (L : f < 6) by (apply (nth_error_Some dirs f); rewrite F; discriminate). eexists. split; [apply Adj_ok; auto|]. unfold dir. rewrite (nth_error_nth _ _ _ F).
  destruct (look_cases nx ny nz (fun x y z => Z.of_nat (x * (ny * nz) + y * nz + z)) (-1)%Z (VoxSpec.step (x, y, z) d)) as [(x' & y' & z' & A & B & C & D & E)|H]; [left; exists x', y', z'; auto|right; auto].
Qed.

(** The surface mesh of a voxel set: one quad per face between a set voxel and an empty or outside one, outward-oriented unit squares on the grid points. *)
Theorem C43_MeshQuad : forall nx ny nz a, length a = nx * ny * nz -> Forall (fun v => v = 0%Z \/ v = 1%Z) a ->
  exists aXYZ aQuad quads faces, MeshQuad3D_VoxelGrid nx ny nz a = Some (aXYZ, aQuad) /\ groups 4 aQuad quads /\ length aXYZ = 3 * ((nx + 1) * (ny + 1) * (nz + 1)) /\
    NoDup faces /\ (forall x y z d, In ((x, y, z), d) faces <-> x < nx /\ y < ny /\ z < nz /\ In d dirs /\ at_xyz ny nz a x y z = 1%Z /\ look nx ny nz (at_xyz ny nz a) 0%Z (VoxSpec.step (x, y, z) d) = 0%Z) /\
    Forall2 (fun '(p, d) q => outward_face p d (map (point aXYZ) q)) faces quads /\ (forall i, In i aQuad -> i < (nx + 1) * (ny + 1) * (nz + 1)) /\
    (forall u v, uses quads u v = uses quads v u).
Proof.
  intros nx ny nz a L B. set (ex := exposed nx ny nz a).
  exists (pts (nx + 1) (ny + 1) (nz + 1)), (concat (map (fun '(p, f) => quad (ny + 1) (nz + 1) p f) ex)), (map (fun '(p, f) => quad (ny + 1) (nz + 1) p f) ex), (map (fun '(p, f) => (p, dir f)) ex).
  assert (EX : forall x y z f, In ((x, y, z), f) ex <-> x < nx /\ y < ny /\ z < nz /\ f < 6 /\ at_xyz ny nz a x y z = 1%Z /\ look nx ny nz (at_xyz ny nz a) 0%Z (VoxSpec.step (x, y, z) (dir f)) = 0%Z).
  { intros x y z f. unfold ex, exposed. rewrite in_flat_map. split.
    - intros ([[x' y'] z'] & I & J). unfold cell_faces in J. destruct (Z.eqb_spec (at_xyz ny nz a x' y' z') 0); [destruct J|]. apply in_map_iff in J. destruct J as (f' & E & J). injection E as <- <- <- <-. apply filter_In in J. destruct J as (J & S). apply in_seq in J. apply cells_in in I. destruct (at_01 ny nz a B x' y' z'); [contradiction|].
      unfold shown, val in S. assert (Q : look nx ny nz (at_xyz ny nz a) 0%Z (VoxSpec.step (x', y', z') (dir f')) = 0%Z \/ look nx ny nz (at_xyz ny nz a) 0%Z (VoxSpec.step (x', y', z') (dir f')) = 1%Z) by (destruct (look_cases nx ny nz (at_xyz ny nz a) 0%Z (VoxSpec.step (x', y', z') (dir f'))) as [(x2 & y2 & z2 & _ & _ & _ & _ & ->)|(_ & ->)]; [apply at_01; auto|auto]).
      destruct Q as [Q|Q]; [|rewrite Q in S; discriminate]. repeat split; auto; lia.
    - intros (X & Y & Zl & F & E & S). exists (x, y, z). split; [apply cells_in; auto|]. unfold cell_faces. rewrite E. cbn [Z.eqb]. apply in_map_iff. exists f. split; auto. apply filter_In. split; [apply in_seq; lia|]. unfold shown, val. rewrite S. reflexivity. }
  assert (F6 : forall p f, In (p, f) ex -> f < 6) by (intros [[x y] z] f I; apply EX in I; lia).
  assert (ND : NoDup ex).
  { unfold ex, exposed. assert (G : forall l, NoDup l -> NoDup (flat_map (cell_faces nx ny nz a) l)).
    { induction l as [|p l IH]; intros H; cbn [flat_map]; [constructor|]. inversion H; subst. assert (A : NoDup (cell_faces nx ny nz a p)).
      { unfold cell_faces. destruct p as [[x y] z]. destruct (_ =? _)%Z; [constructor|]. apply FinFun.Injective_map_NoDup; [intros f g E; injection E; auto|]. apply NoDup_filter, seq_NoDup. }
      assert (F : forall q f, In (q, f) (flat_map (cell_faces nx ny nz a) l) -> In q l).
      { intros q f I. apply in_flat_map in I. destruct I as ([[x y] z] & I & J). unfold cell_faces in J. destruct (_ =? _)%Z; [destruct J|]. apply in_map_iff in J. destruct J as (g & E & _). injection E as <- _. auto. }
      specialize (IH H3). assert (P : forall q f, In (q, f) (cell_faces nx ny nz a p) -> q = p).
      { intros q f I. unfold cell_faces in I. destruct p as [[x y] z]. destruct (_ =? _)%Z; [destruct I|]. apply in_map_iff in I. destruct I as (g & E & _). injection E as <- _. auto. }
      revert A P. generalize (cell_faces nx ny nz a p) as m. induction m as [|[q f] m IHm]; intros A P; cbn [app]; auto. inversion A; subst. constructor; [|apply IHm; auto; intros; eapply P; right; eauto]. intros I. apply in_app_or in I. destruct I as [I|I]; [contradiction|]. rewrite (P q f (or_introl eq_refl)) in I. apply F in I. contradiction. }
    apply G. clear. assert (I : forall i j, i < length (cells nx ny nz) -> nth_error (cells nx ny nz) i = nth_error (cells nx ny nz) j -> i = j).
    { intros i j Li E. destruct (nth_error (cells nx ny nz) i) as [[[x y] z]|] eqn:EI; [|apply nth_error_None in EI; lia].
      assert (U : forall k, nth_error (cells nx ny nz) k = Some (x, y, z) -> k = x * (ny * nz) + y * nz + z).
      { intros k K. assert (LK : k < nx * (ny * nz)) by (rewrite <- (cells_length nx ny nz); apply nth_error_Some; rewrite K; discriminate). assert (nz <> 0 /\ ny <> 0) by nia.
        set (x1 := k / (ny * nz)). set (r := k mod (ny * nz)). assert (K1 : k = (ny * nz) * x1 + r) by (apply Nat.div_mod; nia). assert (r < ny * nz) by (apply Nat.mod_upper_bound; nia). set (y1 := r / nz). set (z1 := r mod nz). assert (K2 : r = nz * y1 + z1) by (apply Nat.div_mod; lia). assert (z1 < nz) by (apply Nat.mod_upper_bound; lia).
        assert (y1 < ny) by nia. assert (x1 < nx) by nia. assert (C := cells_nth nx ny nz x1 y1 z1 ltac:(auto) ltac:(auto) ltac:(auto)). replace (x1 * (ny * nz) + y1 * nz + z1) with k in C by nia. rewrite K in C. injection C as -> -> ->. lia. }
      rewrite (U i EI). symmetry in E. rewrite (U j E). auto. }
    apply NoDup_nth_error. auto. }
  split; [apply MeshQuad_ok; auto|]. split; [split; auto; apply Forall_map, Forall_forall; intros [p f] _; unfold quad, face_corners; destruct p as [[x y] z]; destruct f as [|[|[|[|[|f]]]]]; reflexivity|]. split; [apply pts_length|].
  split; [|split; [|split; [|split]]].
  - apply NoDup_map_in; auto. intros [p f] [p' f'] I I' E. injection E as -> E. assert (f < 6) by (apply (F6 p'); auto). assert (f' < 6) by (apply (F6 p'); auto). f_equal. unfold dir, dirs in E; destruct f as [|[|[|[|[|[|]]]]]]; try lia; destruct f' as [|[|[|[|[|[|]]]]]]; try lia; auto; discriminate.
  - intros x y z d. rewrite in_map_iff. split.
    + intros ([p f] & E & I). injection E as -> <-. apply EX in I. destruct I as (X & Y & Zl & F & I). repeat split; auto; try tauto. unfold dir. apply nth_In. exact F.
    + intros (X & Y & Zl & D & E & S). destruct (In_nth dirs d (0, 0, 0)%Z D) as (f & F & <-). exists ((x, y, z), f). split; auto. apply EX. repeat split; auto.
  - assert (FA : Forall (fun '(p, f) => let '(x, y, z) := p in x < nx /\ y < ny /\ z < nz /\ f < 6) ex) by (apply Forall_forall; intros [[[x y] z] f] I; apply EX in I; tauto).
    clear - FA. induction ex as [|[[[x y] z] f] e IH]; cbn [map]; constructor; inversion FA; subst; auto. rewrite quad_points by tauto. apply face_corners_ok. tauto.
  - intros i I. apply in_concat in I. destruct I as (q & Q & I). apply in_map_iff in Q. destruct Q as ([[[x y] z] f] & <- & Q). apply EX in Q. unfold quad, face_corners in I. apply in_map_iff in I. destruct I as ([[x' y'] z'] & <- & I). apply corner_lt; destruct f as [|[|[|[|[|f]]]]]; repeat (destruct I as [I|I]; [injection I as <- <- <-; lia|]); destruct I.
  - apply closed; auto.
Qed.

(** The hexahedral mesh: one hexahedron per set voxel, on the eight corners of that voxel. *)
Theorem C43_MeshHex : forall nx ny nz a, length a = nx * ny * nz ->
  exists aXYZ aHex hexs, MeshHex3D_VoxelGrid nx ny nz a = Some (aXYZ, aHex) /\ groups 8 aHex hexs /\ length aXYZ = 3 * ((nx + 1) * (ny + 1) * (nz + 1)) /\
    Forall2 (fun p h => map (point aXYZ) h = hex_corners p) (set_cells nx ny nz a) hexs /\ (forall i, In i aHex -> i < (nx + 1) * (ny + 1) * (nz + 1)).
Proof.
  intros nx ny nz a L. assert (FA : forall x y z, In (x, y, z) (set_cells nx ny nz a) -> x < nx /\ y < ny /\ z < nz) by apply set_cells_in.
  exists (pts (nx + 1) (ny + 1) (nz + 1)), (concat (map (hexidx (ny + 1) (nz + 1)) (set_cells nx ny nz a))), (map (hexidx (ny + 1) (nz + 1)) (set_cells nx ny nz a)).
  split; [apply MeshHex_ok; auto|]. split; [split; auto; apply Forall_map, Forall_forall; auto|]. split; [apply pts_length|]. split.
  - revert FA. generalize (set_cells nx ny nz a) as l. induction l as [|[[x y] z] l IH]; intros FA; cbn [map]; constructor; [|apply IH; intros; apply FA; right; auto]. apply hex_points; apply (FA x y z); left; auto.
  - intros i I. apply in_concat in I. destruct I as (q & Q & I). apply in_map_iff in Q. destruct Q as ([[x y] z] & <- & Q). apply FA in Q. unfold hexidx, hex_corners, shift in I. cbn [map] in I. repeat (destruct I as [<-|I]; [apply corner_lt; lia|]). destruct I.
Qed.

(** The tetrahedral mesh: six tetrahedra per set voxel, the six monotone walks between two opposite corners, each positively oriented and of volume 1/6. *)
Theorem C43_MeshTet : forall nx ny nz a, length a = nx * ny * nz ->
  exists aXYZ aTet tets, MeshTet3D_VoxelGrid nx ny nz a = Some (aXYZ, aTet) /\ groups 4 aTet (concat tets) /\ length aXYZ = 3 * ((nx + 1) * (ny + 1) * (nz + 1)) /\
    Forall2 (fun p ts => Forall2 (fun t o => Permutation (map (point aXYZ) t) (walk p o) /\ vol6 (map (point aXYZ) t) = 1%Z) ts axis_orders) (set_cells nx ny nz a) tets /\
    (forall i, In i aTet -> i < (nx + 1) * (ny + 1) * (nz + 1)).
Proof.
  intros nx ny nz a L. assert (FA : forall x y z, In (x, y, z) (set_cells nx ny nz a) -> x < nx /\ y < ny /\ z < nz) by apply set_cells_in.
  exists (pts (nx + 1) (ny + 1) (nz + 1)), (concat (flat_map (tetidx (ny + 1) (nz + 1)) (set_cells nx ny nz a))), (map (tetidx (ny + 1) (nz + 1)) (set_cells nx ny nz a)).
  split; [apply MeshTet_ok; auto|]. split; [split; [rewrite flat_map_concat_map; auto|]|split; [apply pts_length|split]].
  - rewrite <- flat_map_concat_map. apply Forall_forall. intros t T. apply in_flat_map in T. destruct T as (p & _ & T). unfold tetidx, tet_tab in T. cbn [map] in T. repeat (destruct T as [<-|T]; [reflexivity|]). destruct T.
  - revert FA. generalize (set_cells nx ny nz a) as l. induction l as [|[[x y] z] l IH]; intros FA; cbn [map]; constructor; [|apply IH; intros; apply FA; right; auto].
    assert (P : x < nx /\ y < ny /\ z < nz) by (apply FA; left; auto). assert (W := tet_walks (x, y, z)). rewrite <- (tet_points nx ny nz) in W by tauto. revert W. generalize (tetidx (ny + 1) (nz + 1) (x, y, z)) as ts. generalize axis_orders as os. induction os as [|o os IHo]; intros ts W; destruct ts as [|t ts]; cbn [map] in W; inversion W; subst; constructor; auto.
  - intros i I. apply in_concat in I. destruct I as (q & Q & I). apply in_flat_map in Q. destruct Q as ([[x y] z] & Q1 & Q). apply FA in Q1.
    assert (HX : forall j, j < 8 -> nth j (hexidx (ny + 1) (nz + 1) (x, y, z)) 0 < (nx + 1) * (ny + 1) * (nz + 1)).
    { intros j J. unfold hexidx, hex_corners, shift. cbn [map]. do 8 (destruct j as [|j]; [apply corner_lt; lia|]). lia. }
    unfold tetidx in Q. apply in_map_iff in Q. destruct Q as (r & <- & R). apply in_map_iff in I. destruct I as (j & <- & J). apply HX. unfold tet_tab in R. repeat (destruct R as [<-|R]; [cbn [In] in J; lia|]). destruct R.
Qed.

(** Dilation and erosion of a 0/1 grid (in the z-major order that these two functions use): a voxel is set after dilation iff it or one of its six neighbours was, and after erosion iff it and its six neighbours were, outside counting as empty. *)
Theorem C43_Dilation : forall nx ny nz a, length a = nx * ny * nz -> Forall (fun v => v = 0%Z \/ v = 1%Z) a ->
  exists b, Grid3Voxel_Dilation (Grid3 nx ny nz a) = Some (Grid3 nx ny nz b) /\ length b = nx * ny * nz /\ Forall (fun v => v = 0%Z \/ v = 1%Z) b /\
    forall x y z, x < nx -> y < ny -> z < nz -> at_zyx nx ny b x y z = 1%Z <-> at_zyx nx ny a x y z = 1%Z \/ exists d, In d dirs /\ look nx ny nz (at_zyx nx ny a) 0%Z (VoxSpec.step (x, y, z) d) = 1%Z.
Proof.
  intros nx ny nz a L B. destruct (Dilation_ok nx ny nz a L B) as (b & E & LB & V). exists b. split; auto. split; auto. split.
  - apply (all_cells nx ny nz); auto. intros x y z X Y Zl. rewrite V by auto. destruct (_ || _); auto.
  - intros x y z X Y Zl. rewrite V by auto. destruct (Z.eqb_spec (at_zyx nx ny a x y z) 1); cbn [orb]; [tauto|]. destruct (existsb _ dirs) eqn:Q.
    + apply existsb_exists in Q. destruct Q as (d & D & Q). apply Z.eqb_eq in Q. split; auto. intros _. right. eauto.
    + split; [discriminate|]. intros [H|(d & D & H)]; [contradiction|]. assert (existsb (fun d => look nx ny nz (at_zyx nx ny a) 0 (VoxSpec.step (x, y, z) d) =? 1)%Z dirs = true) by (apply existsb_exists; exists d; split; auto; apply Z.eqb_eq; auto). congruence.
Qed.
Theorem C43_Erosion : forall nx ny nz a, length a = nx * ny * nz -> Forall (fun v => v = 0%Z \/ v = 1%Z) a ->
  exists b, Grid3Voxel_Erosion (Grid3 nx ny nz a) = Some (Grid3 nx ny nz b) /\ length b = nx * ny * nz /\ Forall (fun v => v = 0%Z \/ v = 1%Z) b /\
    forall x y z, x < nx -> y < ny -> z < nz -> at_zyx nx ny b x y z = 1%Z <-> at_zyx nx ny a x y z = 1%Z /\ forall d, In d dirs -> look nx ny nz (at_zyx nx ny a) 0%Z (VoxSpec.step (x, y, z) d) = 1%Z.
Proof.
  intros nx ny nz a L B. destruct (Erosion_ok nx ny nz a L B) as (b & E & LB & V). exists b. split; auto. split; auto. split.
  - apply (all_cells nx ny nz); auto. intros x y z X Y Zl. rewrite V by auto. destruct (_ && _); auto.
  - intros x y z X Y Zl. rewrite V by auto. destruct (Z.eqb_spec (at_zyx nx ny a x y z) 1); cbn [andb]; [|split; [discriminate|tauto]]. destruct (forallb _ dirs) eqn:Q.
    + rewrite forallb_forall in Q. split; auto. intros _. split; auto. intros d D. apply Z.eqb_eq. auto.
    + split; [discriminate|]. intros (_ & H). assert (forallb (fun d => look nx ny nz (at_zyx nx ny a) 0 (VoxSpec.step (x, y, z) d) =? 1)%Z dirs = true) by (apply forallb_forall; intros; apply Z.eqb_eq; auto). congruence.
Qed.

(** Adding cells to an empty box gives the smallest box that has them all. *)
Theorem C43_AABB : forall p l b0 b1 b2 b3 b4 b5, (b1 < b0)%Z -> exists c0 c1 c2 c3 c4 c5,
  foldM (fun '(x, y, z) b => Add_AABB b x y z) (p :: l) [b0; b1; b2; b3; b4; b5] = Some [c0; c1; c2; c3; c4; c5] /\ tight (p :: l) c0 c1 c2 c3 c4 c5 /\
  forall x y z, exists r, IsInclude_AABB [c0; c1; c2; c3; c4; c5] x y z = Some r /\ (r = true <-> (c0 <= x < c1 /\ c2 <= y < c3 /\ c4 <= z < c5)%Z).
Proof.
  intros p l b0 b1 b2 b3 b4 b5 H. destruct (AABB_all p l b0 b1 b2 b3 b4 b5 H) as (c0 & c1 & c2 & c3 & c4 & c5 & E & T). exists c0, c1, c2, c3, c4, c5. split; auto. split; auto. intros. apply IsInclude_ok.
Qed.

(** Setting a voxel through the grid's own setter and then dilating does not set its neighbours when the grid is not a cube: the setter counts x-major, the dilation z-major. *)
Theorem C43_set_order_refuted : exists g g', Set_ (Initialize 3 1 2 0) 0 0 1 1 = Some g /\ Grid3Voxel_Dilation g = Some g' /\
  at_xyz 1 2 (aVal g) 0 0 1 = 1%Z /\ at_xyz 1 2 (aVal g') 1 0 1 = 0%Z /\ at_xyz 1 2 (aVal g') 2 0 0 = 1%Z.
Proof. do 2 eexists. split; [reflexivity|]. split; [vm_compute; reflexivity|]. repeat split. Qed.

Example C43_quad_example : exists xyz q, MeshQuad3D_VoxelGrid 2 1 1 [1; 1]%Z = Some (xyz, q) /\ length q = 40 /\ length xyz = 36.
Proof. do 2 eexists. split; [vm_compute; reflexivity|split; reflexivity]. Qed.
Example C43_tet_example : exists xyz q, MeshTet3D_VoxelGrid 2 1 1 [0; 1]%Z = Some (xyz, q) /\ length q = 24.
Proof. do 2 eexists. split; [vm_compute; reflexivity|reflexivity]. Qed.
Example C43_dilation_example : Grid3Voxel_Dilation (Grid3 3 1 2 [0; 1; 0; 0; 0; 0]%Z) = Some (Grid3 3 1 2 [1; 1; 1; 0; 1; 0]%Z).
Proof. reflexivity. Qed.
Example C43_erosion_example : Grid3Voxel_Erosion (Grid3 3 3 3 (repeat 1%Z 27)) = Some (Grid3 3 3 3 (repeat 0%Z 13 ++ [1%Z] ++ repeat 0%Z 13)).
Proof. reflexivity. Qed.
Example C43_box_example : foldM (fun '(x, y, z) b => Add_AABB b x y z) [(1, 2, 3); (0, 5, 3)]%Z [1; -1; 0; 0; 0; 0]%Z = Some [0; 2; 2; 6; 3; 4]%Z.
Proof. reflexivity. Qed.

Print Assumptions C43_Adj_Grid.
Print Assumptions C43_MeshQuad.
Print Assumptions C43_MeshHex.
Print Assumptions C43_MeshTet.
Print Assumptions C43_Dilation.
Print Assumptions C43_Erosion.
Print Assumptions C43_AABB.
Print Assumptions C43_set_order_refuted.
