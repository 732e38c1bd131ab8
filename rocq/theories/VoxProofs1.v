From Coq Require Import List Arith Bool ZArith Lia Psatz.
Import ListNotations.
From Verif Require Import Imp VoxModel VoxSpec.
Open Scope nat_scope.

Lemma forn_app : forall {T} (g : nat -> list T) (f : nat -> list T -> option (list T)) n lo s, (forall i s, lo <= i < lo + n -> f i s = Some (s ++ g i)) -> forn_ n lo f s = Some (s ++ flat_map g (seq lo n)).
Proof.
  intros T g f. induction n as [|n IH]; intros lo s H; cbn [forn_ seq flat_map]; [rewrite app_nil_r; auto|]. rewrite H by lia. cbn [bind]. rewrite IH by (intros; apply H; lia). rewrite <- app_assoc. auto.
Qed.
Lemma forn0_app : forall {T} (g : nat -> list T) (f : nat -> list T -> option (list T)) n s, (forall i s, i < n -> f i s = Some (s ++ g i)) -> forn 0 n f s = Some (s ++ flat_map g (seq 0 n)).
Proof. intros. unfold forn. rewrite Nat.sub_0_r. apply forn_app. intros; apply H; lia. Qed.
Lemma flat_map_flat_map : forall {A B D} (f : B -> list D) (g : A -> list B) l, flat_map f (flat_map g l) = flat_map (fun x => flat_map f (g x)) l.
Proof. intros. induction l as [|x l IH]; cbn [flat_map]; auto. rewrite flat_map_app, IH. auto. Qed.
Lemma flat_map_map : forall {A B D} (f : B -> list D) (g : A -> B) l, flat_map f (map g l) = flat_map (fun x => f (g x)) l.
Proof. intros. induction l as [|x l IH]; cbn [flat_map map]; auto. rewrite IH. auto. Qed.
Lemma for3_app : forall {T} (g : nat * nat * nat -> list T) body n1 n2 n3 s, (forall a b c s, a < n1 -> b < n2 -> c < n3 -> body a b c s = Some (s ++ g (a, b, c))) -> for3 n1 n2 n3 body s = Some (s ++ flat_map g (cells n1 n2 n3)).
Proof.
  intros T g body n1 n2 n3 s H. unfold for3, cells. rewrite flat_map_flat_map. apply forn0_app. intros a s1 A. rewrite flat_map_flat_map. apply forn0_app. intros b s2 B. rewrite flat_map_map. apply forn0_app. intros c s3 C. auto.
Qed.
Lemma nth_flat : forall {T} (g : nat -> list T) n m a r, (forall i, i < n -> length (g i) = m) -> a < n -> r < m -> nth_error (flat_map g (seq 0 n)) (a * m + r) = nth_error (g a) r.
Proof.
  intros T g n m a r. assert (G : forall k lo, (forall i, lo <= i < lo + k -> length (g i) = m) -> forall j, j < k -> r < m -> nth_error (flat_map g (seq lo k)) (j * m + r) = nth_error (g (lo + j)) r).
  { induction k as [|k IH]; intros lo H j J R; [lia|]. cbn [seq flat_map]. destruct j as [|j].
    - cbn [Nat.mul Nat.add]. rewrite Nat.add_0_r. apply nth_error_app1. rewrite H by lia. auto.
    - rewrite nth_error_app2 by (rewrite H by lia; lia). rewrite H by lia. replace (S j * m + r - m) with (j * m + r) by lia. rewrite IH by (auto; try lia; intros; apply H; lia). f_equal. f_equal. lia. }
  intros H A R. rewrite (G n 0) by (auto; intros; apply H; lia). auto.
Qed.
Lemma flat_len : forall {T} (g : nat -> list T) n m, (forall i, i < n -> length (g i) = m) -> length (flat_map g (seq 0 n)) = n * m.
Proof. intros T g n m H. induction n as [|n IH]; auto. rewrite seq_S, flat_map_app, app_length, IH by (intros; apply H; lia). cbn [Nat.add flat_map]. rewrite app_nil_r, H by lia. lia. Qed.
Lemma cells_nth : forall n1 n2 n3 a b c, a < n1 -> b < n2 -> c < n3 -> nth_error (cells n1 n2 n3) (a * (n2 * n3) + b * n3 + c) = Some (a, b, c).
Proof.
  intros n1 n2 n3 a b c A B C. unfold cells. rewrite <- Nat.add_assoc. assert (L3 : forall a i : nat, length (map (fun c => (a, i, c)) (seq 0 n3)) = n3) by (intros; rewrite map_length, seq_length; auto).
  assert (R : b * n3 + c < n2 * n3) by nia. rewrite (nth_flat _ n1 (n2 * n3)); auto.
  - rewrite (nth_flat _ n2 n3); auto. rewrite nth_error_map. rewrite (nth_error_nth' _ 0) by (rewrite seq_length; auto). rewrite seq_nth by auto. auto.
  - intros i _. apply flat_len. intros; auto.
Qed.
Lemma cells_length : forall n1 n2 n3, length (cells n1 n2 n3) = n1 * (n2 * n3).
Proof. intros. unfold cells. apply flat_len. intros i _. apply flat_len. intros. rewrite map_length, seq_length. auto. Qed.
Lemma cells_in : forall n1 n2 n3 a b c, In (a, b, c) (cells n1 n2 n3) <-> a < n1 /\ b < n2 /\ c < n3.
Proof.
  intros. unfold cells. rewrite in_flat_map. split.
  - intros (x & X & Y). apply in_flat_map in Y. destruct Y as (y & Y1 & Y2). apply in_map_iff in Y2. destruct Y2 as (z & E & Z). injection E as -> -> ->. apply in_seq in X, Y1, Z. lia.
  - intros (A & B & C). exists a. split; [apply in_seq; lia|]. apply in_flat_map. exists b. split; [apply in_seq; lia|]. apply in_map. apply in_seq; lia.
Qed.
Lemma idx_lt : forall n1 n2 n3 a b c, a < n1 -> b < n2 -> c < n3 -> a * (n2 * n3) + b * n3 + c < n1 * n2 * n3.
Proof. intros. assert (b * n3 + c < n2 * n3) by nia. assert ((a + 1) * (n2 * n3) <= n1 * (n2 * n3)) by (apply Nat.mul_le_mono_r; lia). lia. Qed.

(** Adj_Grid *)
Lemma quots : forall nx ny nz x y z, x < nx -> y < ny -> z < nz -> let i := Z.of_nat (x * (ny * nz) + y * nz + z) in
  Z.quot i (Z.of_nat ny * Z.of_nat nz) = Z.of_nat x /\ Z.quot (i - Z.of_nat x * (Z.of_nat ny * Z.of_nat nz)) (Z.of_nat nz) = Z.of_nat y /\ (i - Z.of_nat x * (Z.of_nat ny * Z.of_nat nz) - Z.of_nat y * Z.of_nat nz)%Z = Z.of_nat z.
Proof.
  intros nx ny nz x y z X Y Z. cbv zeta. rewrite !Nat2Z.inj_add, !Nat2Z.inj_mul. assert (R : (0 <= Z.of_nat y * Z.of_nat nz + Z.of_nat z < Z.of_nat ny * Z.of_nat nz)%Z) by nia. split; [|split].
  - rewrite Z.quot_div_nonneg by nia. symmetry. apply (Z.div_unique _ _ _ (Z.of_nat y * Z.of_nat nz + Z.of_nat z)); [left; auto|ring].
  - replace (Z.of_nat x * (Z.of_nat ny * Z.of_nat nz) + Z.of_nat y * Z.of_nat nz + Z.of_nat z - Z.of_nat x * (Z.of_nat ny * Z.of_nat nz))%Z with (Z.of_nat y * Z.of_nat nz + Z.of_nat z)%Z by ring. rewrite Z.quot_div_nonneg by nia. symmetry. apply (Z.div_unique _ _ _ (Z.of_nat z)); [left; lia|ring].
  - ring.
Qed.
Definition dir (f : nat) : Z * Z * Z := nth f dirs (0, 0, 0)%Z.
Lemma Adj_ok : forall nx ny nz x y z f, x < nx -> y < ny -> z < nz -> f < 6 ->
  Adj_Grid (Z.of_nat (x * (ny * nz) + y * nz + z)) f (Z.of_nat nx) (Z.of_nat ny) (Z.of_nat nz) = Some (look nx ny nz (fun x y z => Z.of_nat (x * (ny * nz) + y * nz + z)) (-1)%Z (VoxSpec.step (x, y, z) (dir f))).
Proof.
  intros nx ny nz x y z f X Y Zl F. destruct (quots nx ny nz x y z X Y Zl) as (Q1 & Q2 & Q3). unfold Adj_Grid. cbv zeta. rewrite Q1, Q2, Q3.
  destruct (Z.eqb_spec (Z.of_nat ny * Z.of_nat nz) 0); [nia|]. destruct (Z.eqb_spec (Z.of_nat nz) 0); [lia|]. cbn [negb assertb bind].
  assert (A : forall (u v w : Z), (0 <= u < Z.of_nat nx)%Z -> (0 <= v < Z.of_nat ny)%Z -> (0 <= w < Z.of_nat nz)%Z -> (u * (Z.of_nat ny * Z.of_nat nz) + v * Z.of_nat nz + w)%Z = Z.of_nat (Z.to_nat u * (ny * nz) + Z.to_nat v * nz + Z.to_nat w) /\ ((0 <=? u * (Z.of_nat ny * Z.of_nat nz) + v * Z.of_nat nz + w)%Z && (u * (Z.of_nat ny * Z.of_nat nz) + v * Z.of_nat nz + w <? Z.of_nat nx * Z.of_nat ny * Z.of_nat nz)%Z = true)).
  { intros u v w U V W. assert (E : (u * (Z.of_nat ny * Z.of_nat nz) + v * Z.of_nat nz + w)%Z = Z.of_nat (Z.to_nat u * (ny * nz) + Z.to_nat v * nz + Z.to_nat w)) by (rewrite !Nat2Z.inj_add, !Nat2Z.inj_mul, !Z2Nat.id by lia; ring). split; auto. rewrite E. assert (L := idx_lt nx ny nz (Z.to_nat u) (Z.to_nat v) (Z.to_nat w) ltac:(lia) ltac:(lia) ltac:(lia)). apply andb_true_intro. split; [apply Z.leb_le; lia|apply Z.ltb_lt; lia]. }
  assert (B : forall u v w : Z, (if (u <? 0) || (Z.of_nat nx <=? u) then Some (-1) else if (v <? 0) || (Z.of_nat ny <=? v) then Some (-1) else if (w <? 0) || (Z.of_nat nz <=? w) then Some (-1) else
     assertb ((0 <=? u * (Z.of_nat ny * Z.of_nat nz) + v * Z.of_nat nz + w) && (u * (Z.of_nat ny * Z.of_nat nz) + v * Z.of_nat nz + w <? Z.of_nat nx * Z.of_nat ny * Z.of_nat nz));;; Some (u * (Z.of_nat ny * Z.of_nat nz) + v * Z.of_nat nz + w))%Z
     = Some (look nx ny nz (fun x y z => Z.of_nat (x * (ny * nz) + y * nz + z)) (-1)%Z (u, v, w))).
  { intros u v w. unfold look. rewrite <- !andb_assoc. destruct (Z.ltb_spec u 0) as [a|a]; [rewrite (proj2 (Z.leb_gt 0 u)) by auto; auto|]. destruct (Z.leb_spec (Z.of_nat nx) u) as [b|b]; [rewrite (proj2 (Z.ltb_ge u (Z.of_nat nx))) by auto; rewrite andb_false_r; auto|]. rewrite (proj2 (Z.leb_le 0 u)), (proj2 (Z.ltb_lt u (Z.of_nat nx))) by auto. cbn [orb andb].
    destruct (Z.ltb_spec v 0) as [c|c]; [rewrite (proj2 (Z.leb_gt 0 v)) by auto; auto|]. destruct (Z.leb_spec (Z.of_nat ny) v) as [d|d]; [rewrite (proj2 (Z.ltb_ge v (Z.of_nat ny))) by auto; rewrite andb_false_r; auto|]. rewrite (proj2 (Z.leb_le 0 v)), (proj2 (Z.ltb_lt v (Z.of_nat ny))) by auto. cbn [orb andb].
    destruct (Z.ltb_spec w 0) as [e|e]; [rewrite (proj2 (Z.leb_gt 0 w)) by auto; auto|]. destruct (Z.leb_spec (Z.of_nat nz) w) as [g|g]; [rewrite (proj2 (Z.ltb_ge w (Z.of_nat nz))) by auto; rewrite andb_false_r; auto|]. rewrite (proj2 (Z.leb_le 0 w)), (proj2 (Z.ltb_lt w (Z.of_nat nz))) by auto. cbn [orb andb].
    destruct (A u v w ltac:(lia) ltac:(lia) ltac:(lia)) as (A1 & A2). rewrite A2. cbn [assertb bind]. rewrite A1. auto. }
  assert (P0 : forall u, (u + 0)%Z = u) by (intros; ring).
  destruct f as [|[|[|[|[|[|f]]]]]]; try lia; cbn [Nat.eqb]; unfold VoxSpec.step, dir, dirs; cbn [nth]; rewrite ?P0; apply B.
Qed.

(** Quads *)
Definition corner (my mz : nat) (p : nat * nat * nat) : nat := let '(x, y, z) := p in x * (my * mz) + y * mz + z.
Definition face_corners (p : nat * nat * nat) (f : nat) : list (nat * nat * nat) :=
  let '(x, y, z) := p in
  match f with
  | 0 => [(x, y, z); (x, y, z + 1); (x, y + 1, z + 1); (x, y + 1, z)]
  | 1 => [(x + 1, y, z); (x + 1, y + 1, z); (x + 1, y + 1, z + 1); (x + 1, y, z + 1)]
  | 2 => [(x, y, z); (x + 1, y, z); (x + 1, y, z + 1); (x, y, z + 1)]
  | 3 => [(x, y + 1, z); (x, y + 1, z + 1); (x + 1, y + 1, z + 1); (x + 1, y + 1, z)]
  | 4 => [(x, y, z); (x, y + 1, z); (x + 1, y + 1, z); (x + 1, y, z)]
  | _ => [(x, y, z + 1); (x + 1, y, z + 1); (x + 1, y + 1, z + 1); (x, y + 1, z + 1)]
  end.
Definition quad (my mz : nat) (p : nat * nat * nat) (f : nat) : list nat := map (corner my mz) (face_corners p f).
Definition val (nx ny nz : nat) (a : list Z) : Z * Z * Z -> Z := look nx ny nz (at_xyz ny nz a) 0%Z.
Definition shown (nx ny nz : nat) (a : list Z) (p : nat * nat * nat) (f : nat) : bool := negb (val nx ny nz a (VoxSpec.step p (dir f)) =? 1)%Z.
Definition cell_faces (nx ny nz : nat) (a : list Z) (p : nat * nat * nat) : list (nat * nat * nat * nat) :=
  let '(x, y, z) := p in if (at_xyz ny nz a x y z =? 0)%Z then [] else map (fun f => (p, f)) (filter (shown nx ny nz a p) (seq 0 6)).
Definition exposed (nx ny nz : nat) (a : list Z) : list (nat * nat * nat * nat) := flat_map (cell_faces nx ny nz a) (cells nx ny nz).
Lemma GridPoints_ok : forall mx my mz, GridPoints mx my mz = Some (flat_map (fun '(x, y, z) => [x; y; z]) (cells mx my mz)).
Proof. intros. unfold GridPoints. rewrite (for3_app (fun '(x, y, z) => [x; y; z])); auto. Qed.
Lemma look_cases : forall {T} n1 n2 n3 (f : nat -> nat -> nat -> T) out p, (exists x y z, x < n1 /\ y < n2 /\ z < n3 /\ p = (Z.of_nat x, Z.of_nat y, Z.of_nat z) /\ look n1 n2 n3 f out p = f x y z) \/ (~ inside n1 n2 n3 p /\ look n1 n2 n3 f out p = out).
Proof.
  intros T n1 n2 n3 f out [[x y] z]. unfold look, inside. destruct (((0 <=? x) && (x <? Z.of_nat n1) && (0 <=? y) && (y <? Z.of_nat n2) && (0 <=? z) && (z <? Z.of_nat n3))%Z) eqn:E.
  - left. rewrite !andb_true_iff, !Z.leb_le, !Z.ltb_lt in E. exists (Z.to_nat x), (Z.to_nat y), (Z.to_nat z). repeat split; try lia. rewrite !Z2Nat.id by lia. auto.
  - right. split; auto. intros ((A1 & A2) & (B1 & B2) & C1 & C2). rewrite (proj2 (Z.leb_le _ _) A1), (proj2 (Z.leb_le _ _) B1), (proj2 (Z.leb_le _ _) C1), (proj2 (Z.ltb_lt _ _) A2), (proj2 (Z.ltb_lt _ _) B2), (proj2 (Z.ltb_lt _ _) C2) in E. discriminate.
Qed.
Lemma at_vget : forall nx ny nz a x y z, length a = nx * ny * nz -> x < nx -> y < ny -> z < nz -> vget a (x * (ny * nz) + y * nz + z) = Some (at_xyz ny nz a x y z).
Proof. intros. unfold at_xyz. apply vget_nth. rewrite H. apply idx_lt; auto. Qed.
Lemma flat_map_singles : forall {A B} (g : A -> list B) l p, flat_map (fun f => if p f : bool then g f else []) l = flat_map g (filter p l).
Proof. intros. induction l as [|x l IH]; cbn [flat_map filter]; auto. rewrite IH. destruct (p x); auto. Qed.
Lemma MeshQuad_ok : forall nx ny nz a, length a = nx * ny * nz ->
  MeshQuad3D_VoxelGrid nx ny nz a = Some (flat_map (fun '(x, y, z) => [x; y; z]) (cells (nx + 1) (ny + 1) (nz + 1)), concat (map (fun '(p, f) => quad (ny + 1) (nz + 1) p f) (exposed nx ny nz a))).
Proof.
  intros nx ny nz a L. unfold MeshQuad3D_VoxelGrid. rewrite GridPoints_ok. cbn [bind]. rewrite L, Nat.eqb_refl. cbn [assertb bind].
  rewrite (for3_app (fun p => concat (map (fun '(p, f) => quad (ny + 1) (nz + 1) p f) (cell_faces nx ny nz a p)))).
  - cbn [bind app]. do 2 f_equal. unfold exposed. generalize (cells nx ny nz) as l. intros l. induction l as [|p l IH]; cbn [flat_map]; auto. rewrite map_app, concat_app, IH. auto.
  - intros x y z s X Y Zl. cbv zeta. rewrite (at_vget nx) by auto. cbn [bind cell_faces]. destruct (at_xyz ny nz a x y z =? 0)%Z; [cbn; rewrite app_nil_r; auto|].
    rewrite (forn0_app (fun f => if shown nx ny nz a (x, y, z) f then quad (ny + 1) (nz + 1) (x, y, z) f else [])).
    + rewrite flat_map_singles. rewrite map_map. rewrite <- flat_map_concat_map. auto.
    + intros f s1 F. rewrite Adj_ok by auto. cbn [bind]. unfold shown, val.
      assert (HH : (if (0 <=? look nx ny nz (fun x0 y0 z0 => Z.of_nat (x0 * (ny * nz) + y0 * nz + z0)) (-1) (VoxSpec.step (x, y, z) (dir f)))%Z then w <- vget a (Z.to_nat (look nx ny nz (fun x0 y0 z0 => Z.of_nat (x0 * (ny * nz) + y0 * nz + z0)) (-1) (VoxSpec.step (x, y, z) (dir f)))%Z);; Some (w =? 1)%Z else Some false) = Some (look nx ny nz (at_xyz ny nz a) 0 (VoxSpec.step (x, y, z) (dir f)) =? 1)%Z).
      { generalize (VoxSpec.step (x, y, z) (dir f)) as p. intros p. destruct (look_cases nx ny nz (fun x0 y0 z0 => Z.of_nat (x0 * (ny * nz) + y0 * nz + z0)) (-1)%Z p) as [(x1 & y1 & z1 & X1 & Y1 & Z1 & -> & ->)|(NI & ->)].
        - rewrite (proj2 (Z.leb_le _ _)) by lia. rewrite Nat2Z.id, (at_vget nx) by auto. cbn [bind]. do 2 f_equal. destruct (look_cases nx ny nz (at_xyz ny nz a) 0%Z (Z.of_nat x1, Z.of_nat y1, Z.of_nat z1)) as [(x2 & y2 & z2 & _ & _ & _ & E & ->)|(NI & _)]; [injection E as E1 E2 E3; f_equal; lia|]. exfalso. apply NI. cbn. lia.
        - destruct (look_cases nx ny nz (at_xyz ny nz a) 0%Z p) as [(x2 & y2 & z2 & H1 & H2 & H3 & -> & _)|(_ & ->)]; [|reflexivity]. exfalso. apply NI. cbn. lia. }
      etransitivity; [apply f_equal2; [exact HH|reflexivity]|]. cbn [bind]. destruct (look nx ny nz (at_xyz ny nz a) 0 (VoxSpec.step (x, y, z) (dir f)) =? 1)%Z; cbn [negb]; [rewrite app_nil_r; auto|].
      destruct f as [|[|[|[|[|[|f]]]]]]; try lia; cbn [vget nth_error noelElemFace_Vox bind aIGP_Vox]; unfold quad, face_corners, corner; cbn [map]; rewrite !Nat.add_0_r; reflexivity.
Qed.
