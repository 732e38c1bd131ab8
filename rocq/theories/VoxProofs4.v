From Coq Require Import List Arith Bool ZArith Lia Psatz Permutation.
Import ListNotations.
From Verif Require Import Imp VoxModel VoxSpec VoxProofs1.
Open Scope nat_scope.

Definition pts (mx my mz : nat) : list nat := flat_map (fun '(x, y, z) => [x; y; z]) (cells mx my mz).
Lemma flat3_nth : forall (l : list (nat * nat * nat)) i p, nth_error l i = Some p -> point (flat_map (fun '(x, y, z) => [x; y; z]) l) i = p.
Proof.
  induction l as [|[[x y] z] l IH]; intros [|i] p H; cbn [nth_error] in H; try discriminate.
  - injection H as <-. reflexivity.
  - cbn [flat_map app]. rewrite <- (IH i p H). unfold point. replace (3 * S i) with (S (S (S (3 * i)))) by lia. reflexivity.
Qed.
Lemma corner_point : forall mx my mz x y z, x < mx -> y < my -> z < mz -> point (pts mx my mz) (corner my mz (x, y, z)) = (x, y, z).
Proof. intros. apply flat3_nth. apply cells_nth; auto. Qed.
Lemma pts_length : forall mx my mz, length (pts mx my mz) = 3 * (mx * my * mz).
Proof.
  intros. unfold pts. assert (G : forall l : list (nat * nat * nat), length (flat_map (fun '(x, y, z) => [x; y; z]) l) = 3 * length l).
  { induction l as [|[[x y] z] l IH]; auto. cbn [flat_map length app]. rewrite IH. lia. }
  rewrite G, cells_length. lia.
Qed.
Lemma flat_map_if : forall {A B} (p : A -> bool) (g : A -> list B) l, flat_map (fun x => if p x then [] else g x) l = flat_map g (filter (fun x => negb (p x)) l).
Proof. intros. induction l as [|x l IH]; cbn [flat_map filter]; auto. rewrite IH. destruct (p x); auto. Qed.
Definition zero (nx ny nz : nat) (a : list Z) (p : nat * nat * nat) : bool := let '(x, y, z) := p in (at_xyz ny nz a x y z =? 0)%Z.
Lemma set_cells_zero : forall nx ny nz a, set_cells nx ny nz a = filter (fun p => negb (zero nx ny nz a p)) (cells nx ny nz).
Proof. intros. unfold set_cells. apply filter_ext. intros [[x y] z]. auto. Qed.
Lemma set_cells_in : forall nx ny nz a x y z, In (x, y, z) (set_cells nx ny nz a) -> x < nx /\ y < ny /\ z < nz.
Proof. intros. unfold set_cells in H. apply filter_In in H. destruct H as (H & _). apply cells_in in H. auto. Qed.
Definition hexidx (my mz : nat) (p : nat * nat * nat) : list nat := map (corner my mz) (hex_corners p).
Lemma aIGP_Hex_ok : forall my mz x y z, aIGP_Hex my mz x y z = hexidx my mz (x, y, z).
Proof. intros. unfold aIGP_Hex, hexidx, hex_corners, shift, corner. cbn [map]. rewrite !Nat.add_0_r. reflexivity. Qed.
Lemma fold_push : forall (p : list nat) l s, (forall i, In i l -> i < length p) -> foldM (fun i s => a <- vget p i ;; Some (s ++ [a])) l s = Some (s ++ map (fun i => nth i p 0) l).
Proof.
  intros p. induction l as [|i l IH]; intros s H; cbn [foldM map]; [rewrite app_nil_r; auto|]. rewrite (vget_nth _ 0) by (apply H; left; auto). cbn [bind]. rewrite IH by (intros; apply H; right; auto). rewrite <- app_assoc. auto.
Qed.
Lemma MeshHex_ok : forall nx ny nz a, length a = nx * ny * nz ->
  MeshHex3D_VoxelGrid nx ny nz a = Some (pts (nx + 1) (ny + 1) (nz + 1), concat (map (hexidx (ny + 1) (nz + 1)) (set_cells nx ny nz a))).
Proof.
  intros nx ny nz a L. unfold MeshHex3D_VoxelGrid. rewrite GridPoints_ok. cbn [bind]. rewrite L, Nat.eqb_refl. cbn [assertb bind].
  rewrite (for3_app (fun p => if zero nx ny nz a p then [] else hexidx (ny + 1) (nz + 1) p)).
  - cbn [bind app]. rewrite flat_map_if, <- flat_map_concat_map, set_cells_zero. auto.
  - intros x y z s X Y Zl. rewrite (at_vget nx) by auto. cbn [bind zero]. destruct (at_xyz ny nz a x y z =? 0)%Z; [rewrite app_nil_r; auto|]. cbv zeta. rewrite aIGP_Hex_ok. rewrite fold_push; [reflexivity|]. intros i I. cbn in I |- *. lia.
Qed.
Definition tet_tab : list (list nat) := [[0; 1; 2; 6]; [0; 1; 6; 5]; [0; 4; 5; 6]; [0; 2; 3; 6]; [0; 3; 7; 6]; [0; 4; 6; 7]].
Definition tetidx (my mz : nat) (p : nat * nat * nat) : list (list nat) := map (map (fun i => nth i (hexidx my mz p) 0)) tet_tab.
Lemma MeshTet_ok : forall nx ny nz a, length a = nx * ny * nz ->
  MeshTet3D_VoxelGrid nx ny nz a = Some (pts (nx + 1) (ny + 1) (nz + 1), concat (flat_map (tetidx (ny + 1) (nz + 1)) (set_cells nx ny nz a))).
Proof.
  intros nx ny nz a L. unfold MeshTet3D_VoxelGrid. rewrite GridPoints_ok. cbn [bind]. rewrite L, Nat.eqb_refl. cbn [assertb bind].
  rewrite (for3_app (fun p => if zero nx ny nz a p then [] else concat (tetidx (ny + 1) (nz + 1) p))).
  - cbn [bind app]. rewrite flat_map_if, set_cells_zero. do 2 f_equal. generalize (filter (fun p => negb (zero nx ny nz a p)) (cells nx ny nz)) as l. induction l as [|p l IH]; auto. cbn [flat_map]. rewrite concat_app, IH. auto.
  - intros x y z s X Y Zl. rewrite (at_vget nx) by auto. cbn [bind zero]. destruct (at_xyz ny nz a x y z =? 0)%Z; [rewrite app_nil_r; auto|]. cbv zeta. rewrite aIGP_Hex_ok. rewrite fold_push; [reflexivity|]. intros i I. cbn in I |- *. lia.
Qed.
Lemma hex_points : forall nx ny nz x y z, x < nx -> y < ny -> z < nz -> map (point (pts (nx + 1) (ny + 1) (nz + 1))) (hexidx (ny + 1) (nz + 1) (x, y, z)) = hex_corners (x, y, z).
Proof. intros. unfold hexidx, hex_corners, shift. cbn [map]. rewrite !corner_point by lia. reflexivity. Qed.
Lemma tet_points : forall nx ny nz x y z, x < nx -> y < ny -> z < nz -> map (map (point (pts (nx + 1) (ny + 1) (nz + 1)))) (tetidx (ny + 1) (nz + 1) (x, y, z)) = map (map (fun i => nth i (hex_corners (x, y, z)) (0, 0, 0))) tet_tab.
Proof. intros. unfold tetidx, hexidx, tet_tab, hex_corners, shift. cbn [map nth]. rewrite !corner_point by lia. reflexivity. Qed.
Lemma tet_walks : forall p, Forall2 (fun t o => Permutation t (walk p o) /\ vol6 t = 1%Z) (map (map (fun i => nth i (hex_corners p) (0, 0, 0))) tet_tab) axis_orders.
Proof.
  intros [[x y] z]. unfold tet_tab, axis_orders. cbn [map nth hex_corners shift].
  assert (P1 : forall T (a b c d : T), Permutation [a; b; c; d] [a; b; d; c]) by (intros; do 2 apply perm_skip; apply perm_swap).
  assert (P2 : forall T (a b c d : T), Permutation [a; b; c; d] [a; c; b; d]) by (intros; apply perm_skip; apply perm_swap).
  repeat (apply Forall2_cons; [split; [unfold walk, shift; rewrite ?Nat.add_0_r; first [apply Permutation_refl|apply P1|apply P2]|unfold vol6, ofnat, minus, cross, inner; cbn [map]; rewrite !Nat2Z.inj_add; cbn [Z.of_nat Pos.of_succ_nat]; ring]|]). apply Forall2_nil.
Qed.
Lemma quad_points : forall nx ny nz x y z f, x < nx -> y < ny -> z < nz -> map (point (pts (nx + 1) (ny + 1) (nz + 1))) (quad (ny + 1) (nz + 1) (x, y, z) f) = face_corners (x, y, z) f.
Proof. intros. unfold quad, face_corners. destruct f as [|[|[|[|[|f]]]]]; cbn [map]; rewrite !corner_point by lia; reflexivity. Qed.
Lemma corner_lt : forall mx my mz x y z, x < mx -> y < my -> z < mz -> corner my mz (x, y, z) < mx * my * mz.
Proof. intros. unfold corner. apply idx_lt; auto. Qed.

(** AABB *)
Lemma Add_ok : forall a0 a1 a2 a3 a4 a5 x y z, Add_AABB [a0; a1; a2; a3; a4; a5] x y z = Some (if (a1 <? a0)%Z then [x; x + 1; y; y + 1; z; z + 1] else [Z.min a0 x; Z.max a1 (x + 1); Z.min a2 y; Z.max a3 (y + 1); Z.min a4 z; Z.max a5 (z + 1)])%Z.
Proof.
  intros. unfold Add_AABB. cbn [vget nth_error bind]. destruct (a1 <? a0)%Z; [cbn [vset bind]; rewrite !Z.add_0_r; auto|]. cbv zeta. rewrite !Z.add_0_r.
  cbn [vget nth_error bind].
  destruct (Z.ltb_spec x a0); cbn [vset bind vget nth_error]; (destruct (Z.ltb_spec a1 (x + 1)); cbn [vset bind vget nth_error]; (destruct (Z.ltb_spec y a2); cbn [vset bind vget nth_error]; (destruct (Z.ltb_spec a3 (y + 1)); cbn [vset bind vget nth_error]; (destruct (Z.ltb_spec z a4); cbn [vset bind vget nth_error]; (destruct (Z.ltb_spec a5 (z + 1)); cbn [vset bind vget nth_error]; f_equal; repeat (f_equal; [lia|]); f_equal; lia))))).
Qed.
Lemma AABB_fold : forall l l0 b0 b1 b2 b3 b4 b5, tight l0 b0 b1 b2 b3 b4 b5 -> exists c0 c1 c2 c3 c4 c5,
  foldM (fun '(x, y, z) b => Add_AABB b x y z) l [b0; b1; b2; b3; b4; b5] = Some [c0; c1; c2; c3; c4; c5] /\ tight (l0 ++ l) c0 c1 c2 c3 c4 c5.
Proof.
  induction l as [|[[x y] z] l IH]; intros l0 b0 b1 b2 b3 b4 b5 T; cbn [foldM].
  - do 6 eexists. split; [reflexivity|]. rewrite app_nil_r. auto.
  - rewrite Add_ok. cbn [bind]. destruct T as (T0 & (y1 & z1 & T1) & (y2 & z2 & T2) & (x3 & z3 & T3) & (x4 & z4 & T4) & (x5 & y5 & T5) & (x6 & y6 & T6)).
    assert (B := T0 _ _ _ T1). destruct (Z.ltb_spec b1 b0); [lia|].
    destruct (IH (l0 ++ [(x, y, z)]) (Z.min b0 x) (Z.max b1 (x + 1)) (Z.min b2 y) (Z.max b3 (y + 1)) (Z.min b4 z) (Z.max b5 (z + 1))) as (c0 & c1 & c2 & c3 & c4 & c5 & E & G); [|exists c0, c1, c2, c3, c4, c5; split; auto; rewrite <- app_assoc in G; exact G].
    split; [|repeat split].
    + intros x' y' z' I. apply in_app_or in I. destruct I as [I|[I|[]]]; [specialize (T0 _ _ _ I); lia|injection I as <- <- <-; lia].
    + destruct (Z.min_spec b0 x) as [(_ & ->)|(_ & ->)]; [exists y1, z1|exists y, z]; apply in_or_app; [left; auto|right; left; auto].
    + destruct (Z.max_spec b1 (x + 1)) as [(_ & ->)|(_ & ->)]; [exists y, z|exists y2, z2]; apply in_or_app; [right; left; rewrite Z.add_simpl_r; auto|left; auto].
    + destruct (Z.min_spec b2 y) as [(_ & ->)|(_ & ->)]; [exists x3, z3|exists x, z]; apply in_or_app; [left; auto|right; left; auto].
    + destruct (Z.max_spec b3 (y + 1)) as [(_ & ->)|(_ & ->)]; [exists x, z|exists x4, z4]; apply in_or_app; [right; left; rewrite Z.add_simpl_r; auto|left; auto].
    + destruct (Z.min_spec b4 z) as [(_ & ->)|(_ & ->)]; [exists x5, y5|exists x, y]; apply in_or_app; [left; auto|right; left; auto].
    + destruct (Z.max_spec b5 (z + 1)) as [(_ & ->)|(_ & ->)]; [exists x, y|exists x6, y6]; apply in_or_app; [right; left; rewrite Z.add_simpl_r; auto|left; auto].
Qed.
Lemma AABB_all : forall p l b0 b1 b2 b3 b4 b5, (b1 < b0)%Z -> exists c0 c1 c2 c3 c4 c5,
  foldM (fun '(x, y, z) b => Add_AABB b x y z) (p :: l) [b0; b1; b2; b3; b4; b5] = Some [c0; c1; c2; c3; c4; c5] /\ tight (p :: l) c0 c1 c2 c3 c4 c5.
Proof.
  intros [[x y] z] l b0 b1 b2 b3 b4 b5 H. cbn [foldM]. rewrite Add_ok, (proj2 (Z.ltb_lt _ _) H). cbn [bind]. change ((x, y, z) :: l) with ([(x, y, z)] ++ l). apply AABB_fold. split.
  - intros x' y' z' [I|[]]. injection I as <- <- <-. lia.
  - repeat split; do 2 eexists; left; rewrite ?Z.add_simpl_r; reflexivity.
Qed.
Lemma IsInclude_ok : forall b0 b1 b2 b3 b4 b5 x y z, exists r, IsInclude_AABB [b0; b1; b2; b3; b4; b5] x y z = Some r /\ (r = true <-> (b0 <= x < b1 /\ b2 <= y < b3 /\ b4 <= z < b5)%Z).
Proof.
  intros. unfold IsInclude_AABB. cbn [vget nth_error bind]. destruct (Z.ltb_spec x b0), (Z.leb_spec b1 x); cbn [orb]; try (eexists; split; [reflexivity|split; [discriminate|lia]]).
  destruct (Z.ltb_spec y b2), (Z.leb_spec b3 y); cbn [orb]; try (eexists; split; [reflexivity|split; [discriminate|lia]]).
  destruct (Z.ltb_spec z b4), (Z.leb_spec b5 z); cbn [orb]; try (eexists; split; [reflexivity|split; [discriminate|lia]]).
  eexists; split; [reflexivity|split; [lia|auto]].
Qed.
Lemma NoDup_map_in : forall {A B} (f : A -> B) l, (forall x y, In x l -> In y l -> f x = f y -> x = y) -> NoDup l -> NoDup (map f l).
Proof.
  intros A B f. induction l as [|x l IH]; intros H N; cbn [map]; constructor; inversion N; subst.
  - intros I. apply in_map_iff in I. destruct I as (y & E & I). assert (y = x) by (apply H; auto; [right; auto|left; auto]). subst. contradiction.
  - apply IH; auto. intros; apply H; auto; right; auto.
Qed.
Lemma all_cells : forall nx ny nz (P : Z -> Prop) b, length b = nx * ny * nz -> (forall x y z, x < nx -> y < ny -> z < nz -> P (at_zyx nx ny b x y z)) -> Forall P b.
Proof.
  intros nx ny nz P b L H. apply Forall_forall. intros v I. destruct (In_nth b v 0%Z I) as (k & K & <-). rewrite L in K.
  assert (nx <> 0 /\ ny <> 0) by nia. set (z := k / (ny * nx)). set (r := k mod (ny * nx)). assert (K1 : k = (ny * nx) * z + r) by (apply Nat.div_mod; nia). assert (r < ny * nx) by (apply Nat.mod_upper_bound; nia).
  set (y := r / nx). set (x := r mod nx). assert (K2 : r = nx * y + x) by (apply Nat.div_mod; lia). assert (x < nx) by (apply Nat.mod_upper_bound; lia). assert (y < ny) by nia. assert (z < nz) by nia.
  replace k with (z * (ny * nx) + y * nx + x) by nia. apply H; auto.
Qed.
