(** Proofs of the centres of gravity, areas and masses of MeasModel. *)
From Coq Require Import List Arith Bool ZArith Reals Lra Lia.
Import ListNotations.
From Verif Require Import Imp PrModel PolyModel QuatModel ProxModel IsecModel GjkProofs1 ProxSpec ProxProofs1 MeasModel MeasSpec MeasProofs1.
Open Scope R_scope.

Lemma sum_ext : forall n f g, (forall i, (i < n)%nat -> f i = g i) -> sum n f = sum n g.
Proof. induction n; intros; cbn [sum]; [reflexivity|]. rewrite (IHn f g), (H n) by (intros; try apply H; lia). reflexivity. Qed.
Lemma sum_plus : forall n f g, sum n (fun i => f i + g i) = sum n f + sum n g.
Proof. induction n; intros; cbn [sum]; [ring|]. rewrite IHn. ring. Qed.
Lemma sum_scale : forall n a f, sum n (fun i => a * f i) = a * sum n f.
Proof. induction n; intros; cbn [sum]; [ring|]. rewrite IHn. ring. Qed.
Lemma sum_ge : forall n f g, (forall i, (i < n)%nat -> f i <= g i) -> sum n f <= sum n g.
Proof. induction n; intros; cbn [sum]; [lra|]. pose proof (IHn f g ltac:(intros; apply H; lia)). pose proof (H n ltac:(lia)). lra. Qed.
Lemma sum_const : forall n a, sum n (fun _ => a) = INR n * a.
Proof. induction n; intros; cbn [sum]; [cbn [INR]; ring|]. rewrite IHn, S_INR. ring. Qed.

(** sums of weighted points in a loop *)
Lemma loop_sum : forall n w p f, (forall i cg tw, (i < n)%nat -> f i (cg, tw) = Some (V3 (vx cg + w i * vx (p i)) (vy cg + w i * vy (p i)) (vz cg + w i * vz (p i)), tw + w i)) ->
  forn 0 n f (V3 0 0 0, 0) = Some (wsum n w p, sum n w).
Proof.
  intros n w p f H. apply (forn_eq _ (fun k => (wsum k w p, sum k w)) 0 n f (Nat.le_0_l n)). intros i Hi. rewrite H by lia. unfold wsum. cbn [vx vy vz sum]. reflexivity.
Qed.
Lemma divide_ok : forall n w p, (sum n w <> 0 -> exists c, divide (wsum n w p) (sum n w) = Some c /\ centre_of n w p c) /\ (sum n w = 0 -> divide (wsum n w p) (sum n w) = None).
Proof.
  intros n w p. unfold divide. pose proof (eqRs (sum n w) 0) as Q. split; intros H; destruct (eqR (sum n w) 0); try contradiction; [|reflexivity].
  eexists. split; [reflexivity|]. split; [exact H|]. unfold comb, origin3. apply v3_eq; cbn [vx vy vz]; field; exact H.
Qed.
Lemma centre_unique : forall n w p c d, centre_of n w p c -> centre_of n w p d -> c = d.
Proof.
  intros n w p c d (Hw & Hc) (_ & Hd). rewrite <- Hd in Hc. unfold comb, origin3 in Hc. cbn [vx vy vz] in Hc. injection Hc. intros.
  apply v3_eq; apply (Rmult_eq_reg_l (sum n w)); [lra|exact Hw|lra|exact Hw|lra|exact Hw].
Qed.
Lemma centre_box : forall n w p c lo hi, (forall i, (i < n)%nat -> 0 <= w i) -> centre_of n w p c ->
  (forall i, (i < n)%nat -> w i = 0 \/ (vx lo <= vx (p i) <= vx hi /\ vy lo <= vy (p i) <= vy hi /\ vz lo <= vz (p i) <= vz hi)) ->
  vx lo <= vx c <= vx hi /\ vy lo <= vy c <= vy hi /\ vz lo <= vz c <= vz hi.
Proof.
  intros n w p c lo hi Hw (Hn & Hc) Hb.
  assert (P : 0 < sum n w). { assert (K : 0 <= sum n w). { replace 0 with (sum n (fun _ => 0)) by (rewrite sum_const; ring). apply sum_ge. exact Hw. } lra. }
  unfold comb, origin3, wsum in Hc. cbn [vx vy vz] in Hc. injection Hc. intros Ez Ey Ex. clear Hc.
  assert (G : forall (f : vec3 -> R) a b m, (forall i, (i < n)%nat -> w i = 0 \/ a <= f (p i) <= b) -> sum n w * m + 0 * 0 + 0 * 0 = sum n (fun i => w i * f (p i)) -> a <= m <= b).
  { intros f a b m Hf E.
    assert (L1 : a * sum n w <= sum n (fun i => w i * f (p i))). { rewrite <- sum_scale. apply sum_ge. intros i Hi. destruct (Hf i Hi) as [->|K]; [lra|]. pose proof (Rmult_le_compat_l (w i) a (f (p i)) (Hw i Hi) (proj1 K)). lra. }
    assert (L2 : sum n (fun i => w i * f (p i)) <= b * sum n w). { rewrite <- sum_scale. apply sum_ge. intros i Hi. destruct (Hf i Hi) as [->|K]; [lra|]. pose proof (Rmult_le_compat_l (w i) (f (p i)) b (Hw i Hi) (proj2 K)). lra. }
    split; apply (Rmult_le_reg_l (sum n w)); lra. }
  split; [|split]; [apply (G vx)|apply (G vy)|apply (G vz)]; try assumption; intros i Hi; destruct (Hb i Hi) as [K|(K1 & K2 & K3)]; auto.
Qed.

(** reading the corners *)
Lemma valid_cor : forall l m elem e k, valid elem l -> (m * e + k < length elem)%nat -> vget elem (e * m + k) = Some (cor m elem e k) /\ xyz l (cor m elem e k) = Some (at_corner l m elem e k).
Proof.
  intros l m elem e k V H. split; [rewrite (vgetn nat 0%nat) by lia; unfold cor; do 2 f_equal; lia|]. apply xyz_pnt. apply V. unfold cor. apply nth_In. exact H.
Qed.
Lemma tri3_ok : forall l tri t, valid tri l -> (t < length tri / 3)%nat -> tri3 tri l t = Some (at_corner l 3 tri t 0, at_corner l 3 tri t 1, at_corner l 3 tri t 2).
Proof.
  intros l tri t V Ht. pose proof (Nat.div_mod (length tri) 3 ltac:(lia)). unfold tri3.
  destruct (valid_cor l 3 tri t 0 V ltac:(lia)) as (-> & E0). destruct (valid_cor l 3 tri t 1 V ltac:(lia)) as (-> & E1). destruct (valid_cor l 3 tri t 2 V ltac:(lia)) as (-> & E2).
  cbn [bind]. rewrite E0. cbn [bind]. rewrite E1. cbn [bind]. rewrite E2. reflexivity.
Qed.

Lemma area_eq : forall p q r, TriArea3D p q r = area2 p q r / 2.
Proof. intros. unfold TriArea3D, area2. cbn [vx vy vz]. f_equal. f_equal. ring. Qed.
Lemma vol_eq : forall p q r s, TetVolume3D p q r s = volume p q r s.
Proof. intros. unfold TetVolume3D, volume, volume6. cbn [vx vy vz]. field. Qed.
Lemma dist_eq : forall p q, Distance3 p q = dist3 p q.
Proof. intros. unfold Distance3, norm3, dist3, sub3, dot3. cbn [vx vy vz]. f_equal. ring. Qed.
Lemma area2_nonneg : forall p q r, 0 <= area2 p q r.
Proof. intros. apply sqrt_pos. Qed.
Lemma dist3_nonneg : forall p q, 0 <= dist3 p q.
Proof. intros. apply sqrt_pos. Qed.

Lemma cg_points_proof : forall l, (3 <= length l)%nat -> exists c, CG_Point3 l = Some c /\ centre_of (length l / 3) (fun _ => 1) (pnt l) c.
Proof.
  intros l H. set (n := (length l / 3)%nat). assert (G : (0 < n)%nat) by (apply Nat.div_str_pos; lia).
  assert (N : sum n (fun _ => 1) = INR n) by (rewrite sum_const; ring).
  assert (E : forn 0 n (fun ixyz cg => p <- xyz l ixyz ;; Some (add3 cg p)) (V3 0 0 0) = Some (wsum n (fun _ => 1) (pnt l))).
  { apply (forn_eq _ (fun k => wsum k (fun _ => 1) (pnt l)) 0 n _ (Nat.le_0_l n)). intros i Hi. rewrite xyz_pnt by (apply div3_lt; exact (proj2 Hi)). cbn [bind]. f_equal. unfold wsum, add3. cbn [sum vx vy vz]. f_equal; ring. }
  destruct (proj1 (divide_ok n (fun _ => 1) (pnt l))) as (c & E' & Hc); [rewrite N; apply not_0_INR; lia|].
  exists c. unfold CG_Point3. fold n. rewrite E. cbn [bind]. rewrite <- N. split; [exact E'|exact Hc].
Qed.
Lemma cg_solid_proof : forall l tri, valid tri l -> let n := (length tri / 3)%nat in let w := solid_w l tri in
  (sum n w <> 0 -> exists c, CG_MeshTri3_Solid l tri = Some c /\ centre_of n w (solid_p l tri) c) /\ (sum n w = 0 -> CG_MeshTri3_Solid l tri = None).
Proof.
  intros l tri V n w. unfold CG_MeshTri3_Solid. erewrite (loop_sum n w (solid_p l tri)).
  - cbn [bind]. apply divide_ok.
  - intros i cg tw Hi. rewrite tri3_ok by (exact V || exact Hi). cbn [bind]. rewrite vol_eq. change (V3 0 0 0) with origin3. fold (solid_w l tri i). fold w. f_equal. f_equal.
    unfold solid_p, mid4, comb. apply v3_eq; cbn [vx vy vz]; unfold origin3; cbn [vx vy vz]; field.
Qed.
Lemma shell_proof : forall l tri ch cf, valid tri l -> (forall t, (t < length tri / 3)%nat -> cf t = Some (ch t)) ->
  shell_sums l tri cf = Some (wsum (length tri / 3) (chosen_area l tri ch) (tri_mid l tri), sum (length tri / 3) (chosen_area l tri ch)).
Proof.
  intros l tri ch cf V Hf. unfold shell_sums. apply loop_sum. intros i cg tw Hi. rewrite Hf by exact Hi. cbn [bind]. unfold chosen_area. destruct (ch i); cbn [negb].
  - rewrite tri3_ok by (exact V || exact Hi). cbn [bind]. rewrite area_eq. fold (tri_area l tri i). f_equal. f_equal. unfold tri_mid, mid3, comb. apply v3_eq; cbn [vx vy vz]; field.
  - f_equal. f_equal; [|ring]. apply v3_eq; cbn [vx vy vz]; ring.
Qed.
Lemma cg_shell_proof : forall l tri, valid tri l -> let n := (length tri / 3)%nat in let w := tri_area l tri in
  (sum n w <> 0 -> exists c, CG_MeshTri3_Shell l tri = Some c /\ centre_of n w (tri_mid l tri) c) /\ (sum n w = 0 -> CG_MeshTri3_Shell l tri = None).
Proof. intros l tri V n w. unfold CG_MeshTri3_Shell. rewrite (shell_proof l tri (fun _ => true) _ V) by reflexivity. cbn [bind]. apply (divide_ok n w (tri_mid l tri)). Qed.
Lemma cg_flag_proof : forall l tri f flg, valid tri l -> (length tri / 3 <= length flg)%nat -> let n := (length tri / 3)%nat in let w := chosen_area l tri (fun t => Z.eqb (nth t flg 0%Z) f) in
  (sum n w <> 0 -> exists c, CG_TriMsh3Flg_Shell l tri f flg = Some (c, sum n w) /\ centre_of n w (tri_mid l tri) c) /\ (sum n w = 0 -> CG_TriMsh3Flg_Shell l tri f flg = None).
Proof.
  intros l tri f flg V Hl n w. unfold CG_TriMsh3Flg_Shell. rewrite (shell_proof l tri (fun t => Z.eqb (nth t flg 0%Z) f) _ V) by (intros t Ht; rewrite (vgetn Z 0%Z) by lia; reflexivity). cbn [bind].
  fold n. fold w. destruct (divide_ok n w (tri_mid l tri)) as (A & B). split; intros H.
  - destruct (A H) as (c & E & Hc). rewrite E. cbn [bind]. exists c. split; [reflexivity|exact Hc].
  - rewrite B by exact H. reflexivity.
Qed.
Lemma area_proof : forall l tri fl, valid tri l -> Area_MeshTri3 l tri fl = Some (sum (length tri / 3) (chosen_area l tri fl)).
Proof.
  intros l tri fl V. unfold Area_MeshTri3. apply (forn_eq _ (fun k => sum k (chosen_area l tri fl)) 0 _ _ (Nat.le_0_l _)). intros i Hi. cbn [sum]. unfold chosen_area at 2. unfold chosen_area at 3. destruct (fl i); cbn [negb].
  - rewrite tri3_ok by (exact V || exact (proj2 Hi)). cbn [bind]. rewrite area_eq. reflexivity.
  - f_equal. ring.
Qed.
Lemma cg_tet_proof : forall l tet, valid tet l -> let n := (length tet / 4)%nat in let w := tet_vol l tet in
  (sum n w <> 0 -> exists c, CG_MeshTet3 l tet = Some (sum n w, c) /\ centre_of n w (tet_mid l tet) c) /\ (sum n w = 0 -> CG_MeshTet3 l tet = None).
Proof.
  intros l tet V n w. unfold CG_MeshTet3. erewrite (loop_sum n w (tet_mid l tet)).
  - cbn [bind]. destruct (divide_ok n w (tet_mid l tet)) as (A & B). split; intros H.
    + destruct (A H) as (c & E & Hc). rewrite E. cbn [bind]. exists c. split; [reflexivity|exact Hc].
    + rewrite B by exact H. reflexivity.
  - intros i cg tw Hi. pose proof (Nat.div_mod (length tet) 4 ltac:(lia)). fold n in H.
    destruct (valid_cor l 4 tet i 0 V ltac:(lia)) as (-> & E0). destruct (valid_cor l 4 tet i 1 V ltac:(lia)) as (-> & E1). destruct (valid_cor l 4 tet i 2 V ltac:(lia)) as (-> & E2). destruct (valid_cor l 4 tet i 3 V ltac:(lia)) as (-> & E3).
    cbn [bind]. rewrite E0. cbn [bind]. rewrite E1. cbn [bind]. rewrite E2. cbn [bind]. rewrite E3. cbn [bind]. rewrite vol_eq. fold (tet_vol l tet i). fold w. f_equal. f_equal.
    unfold tet_mid, mid4, comb. apply v3_eq; cbn [vx vy vz]; unfold origin3; cbn [vx vy vz]; field.
Qed.
Lemma cg_line_proof : forall l line, valid line l -> let n := (length line / 2)%nat in let w := seg_len l line in
  (sum n w <> 0 -> exists c, CG_MeshLine3 l line = Some (sum n w, c) /\ centre_of n w (seg_mid l line) c) /\ (sum n w = 0 -> CG_MeshLine3 l line = None).
Proof.
  intros l line V n w. unfold CG_MeshLine3. erewrite (loop_sum n w (seg_mid l line)).
  - cbn [bind]. destruct (divide_ok n w (seg_mid l line)) as (A & B). split; intros H.
    + destruct (A H) as (c & E & Hc). rewrite E. cbn [bind]. exists c. split; [reflexivity|exact Hc].
    + rewrite B by exact H. reflexivity.
  - intros i cg tw Hi. pose proof (Nat.div_mod (length line) 2 ltac:(lia)). fold n in H.
    destruct (valid_cor l 2 line i 0 V ltac:(lia)) as (-> & E0). destruct (valid_cor l 2 line i 1 V ltac:(lia)) as (-> & E1).
    cbn [bind]. rewrite E0. cbn [bind]. rewrite E1. cbn [bind]. rewrite dist_eq. fold (seg_len l line i). fold w. f_equal. f_equal.
    unfold seg_mid, mid2, comb. apply v3_eq; cbn [vx vy vz]; unfold origin3; cbn [vx vy vz]; field.
Qed.
Lemma cg_tri_proof : forall l tri t, valid tri l -> (t < length tri / 3)%nat -> CG_Tri t l tri = Some (comb (999999 / 1000000) 0 0 (tri_mid l tri t) origin3 origin3).
Proof.
  intros l tri t V Ht. unfold CG_Tri. replace (t <? length tri / 3)%nat with true by (symmetry; apply Nat.ltb_lt; exact Ht). cbn [assertb bind]. rewrite tri3_ok by assumption. cbn [bind]. f_equal.
  unfold tri_mid, mid3, third_sum, comb, origin3. apply v3_eq; cbn [vx vy vz]; field.
Qed.
Lemma rad_proof : forall l tri, valid tri l -> let n := (length tri / 3)%nat in
  exists r, CentsMaxRad_MeshTri3 l tri = Some (map (tri_mid l tri) (seq 0 n), r) /\ (n = 0%nat -> r = -1) /\
    (forall t k, (t < n)%nat -> (k < 3)%nat -> dist3 (tri_mid l tri t) (at_corner l 3 tri t k) <= r) /\
    ((0 < n)%nat -> exists t k, (t < n)%nat /\ (k < 3)%nat /\ r = dist3 (tri_mid l tri t) (at_corner l 3 tri t k)).
Proof.
  intros l tri V n.
  assert (W : wp (CentsMaxRad_MeshTri3 l tri) (fun st => fst st = map (tri_mid l tri) (seq 0 n) /\ (n = 0%nat -> snd st = -1) /\
    (forall t k, (t < n)%nat -> (k < 3)%nat -> dist3 (tri_mid l tri t) (at_corner l 3 tri t k) <= snd st) /\
    ((0 < n)%nat -> exists t k, (t < n)%nat /\ (k < 3)%nat /\ snd st = dist3 (tri_mid l tri t) (at_corner l 3 tri t k)))).
  { unfold CentsMaxRad_MeshTri3. fold n.
    apply (wp_forn _ (fun m st => fst st = map (tri_mid l tri) (seq 0 m) /\ (m = 0%nat -> snd st = -1) /\
      (forall t k, (t < m)%nat -> (k < 3)%nat -> dist3 (tri_mid l tri t) (at_corner l 3 tri t k) <= snd st) /\
      ((0 < m)%nat -> exists t k, (t < m)%nat /\ (k < 3)%nat /\ snd st = dist3 (tri_mid l tri t) (at_corner l 3 tri t k)))); [lia| | |auto].
    - cbn [fst snd]. repeat split; intros; try lia.
    - intros i [cs r] Hi (Hc & H0 & Hle & Hex). cbn [fst snd] in *. rewrite tri3_ok by (exact V || exact (proj2 Hi)). cbn [bind].
      set (pc := V3 _ _ _). assert (Epc : pc = tri_mid l tri i). { unfold pc, tri_mid, mid3, comb. apply v3_eq; cbn [vx vy vz]; field. } clearbody pc. subst pc. rewrite !dist_eq.
      assert (S0 : r = -1 \/ 0 <= r). { destruct (Nat.eq_dec i 0); [left; auto|]. right. destruct Hex as (t & k & _ & _ & ->); [lia|]. apply dist3_nonneg. }
      assert (S1 : r = -1 -> i = 0%nat). { intros E. destruct (Nat.eq_dec i 0); [auto|]. destruct Hex as (t & k & _ & _ & E2); [lia|]. pose proof (dist3_nonneg (tri_mid l tri t) (at_corner l 3 tri t k)). lra. }
      pose proof (dist3_nonneg (tri_mid l tri i) (at_corner l 3 tri i 0)) as N0. pose proof (dist3_nonneg (tri_mid l tri i) (at_corner l 3 tri i 1)) as N1. pose proof (dist3_nonneg (tri_mid l tri i) (at_corner l 3 tri i 2)) as N2.
      set (d0 := dist3 (tri_mid l tri i) (at_corner l 3 tri i 0)) in *. set (d1 := dist3 (tri_mid l tri i) (at_corner l 3 tri i 1)) in *. set (d2 := dist3 (tri_mid l tri i) (at_corner l 3 tri i 2)) in *.
      assert (M : forall a d, (a < 0 \/ 0 <= a) -> 0 <= d -> let b := (if ltR a 0 || ltR a d then d else a) in a <= b /\ d <= b /\ 0 <= b /\ (b = a \/ b = d)).
      { intros a d Ha Hd. pose proof (ltRs a 0) as Q. pose proof (ltRs a d) as Q'. destruct (ltR a 0), (ltR a d); cbn [orb]; repeat split; try lra; auto. }
      destruct (M r d0 ltac:(lra) N0) as (A1 & A2 & A3 & A4). set (r0 := if ltR r 0 || ltR r d0 then d0 else r) in *. clearbody r0.
      destruct (M r0 d1 ltac:(lra) N1) as (B1 & B2 & B3 & B4). set (r1 := if ltR r0 0 || ltR r0 d1 then d1 else r0) in *. clearbody r1.
      destruct (M r1 d2 ltac:(lra) N2) as (C1 & C2 & C3 & C4). set (r2 := if ltR r1 0 || ltR r1 d2 then d2 else r1) in *. clearbody r2.
      cbn [wp fst snd]. split; [rewrite Hc, seq_S, map_app; reflexivity|]. split; [lia|]. split.
      + intros t k Ht Hk. destruct (Nat.eq_dec t i) as [->|Nt]; [|pose proof (Hle t k ltac:(lia) Hk); lra].
        destruct k as [|[|[|k]]]; [fold d0; lra|fold d1; lra|fold d2; lra|lia].
      + intros _. destruct C4 as [C4|C4]; [|exists i, 2%nat; fold d2; repeat split; [lia|lia|exact C4]]. destruct B4 as [B4|B4]; [|exists i, 1%nat; fold d1; repeat split; [lia|lia|lra]].
        destruct A4 as [A4|A4]; [|exists i, 0%nat; fold d0; repeat split; [lia|lia|lra]].
        assert (I0 : (0 < i)%nat). { destruct (Nat.eq_dec i 0); [|lia]. pose proof (H0 e). lra. }
        destruct (Hex I0) as (t & k & Ht & Hk & E). exists t, k. repeat split; [lia|exact Hk|lra]. }
  apply wp_iff in W. destruct W as ([cs r] & E & H1 & H). cbn [fst snd] in *. exists r. rewrite E, H1. split; [reflexivity|exact H].
Qed.

(** masses *)
Lemma total_upd : forall m i x, (i < length m)%nat -> total (upd m i (nth i m 0 + x)) = total m + x.
Proof.
  induction m as [|a m IH]; intros i x H; cbn [length] in H; [lia|]. destruct i as [|i]; [cbn; ring|].
  change (upd (a :: m) (S i) (nth (S i) (a :: m) 0 + x)) with (a :: upd m i (nth i m 0 + x)). cbn [total fold_right]. fold (total (upd m i (nth i m 0 + x))). rewrite IH by lia. fold (total m). ring.
Qed.
Lemma total_repeat : forall n, total (repeat 0 n) = 0.
Proof. induction n; cbn [repeat total fold_right]; [reflexivity|]. fold (total (repeat 0 n)). rewrite IHn. ring. Qed.

Lemma wp_add : forall m i x (P : list R -> Prop), (i < length m)%nat ->
  (forall m', length m' = length m -> (forall j, nth j m' 0 = nth j m 0 + (if (i =? j)%nat then x else 0)) -> total m' = total m + x -> P m') -> wp (vmod m i (fun y => y + x)) P.
Proof.
  intros m i x P Hi H. apply (wp_vmod _ 0); [exact Hi|]. apply H; [apply upd_length| |apply total_upd; exact Hi]. intros j. destruct (Nat.eqb_spec i j) as [->|N]; [apply nth_upd_same; exact Hi|]. rewrite nth_upd_other by exact N. ring.
Qed.
Lemma repeat_nth0 : forall n i, nth i (repeat 0 n) 0 = 0.
Proof. induction n; destruct i; cbn [repeat nth]; auto. Qed.
Lemma share3 : forall elem i t x, share 3 elem i t x = (if (cor 3 elem t 0 =? i)%nat then x else 0) + (if (cor 3 elem t 1 =? i)%nat then x else 0) + (if (cor 3 elem t 2 =? i)%nat then x else 0).
Proof. intros. unfold share. cbn [sum]. ring. Qed.
Lemma share4 : forall elem i t x, share 4 elem i t x = (if (cor 4 elem t 0 =? i)%nat then x else 0) + (if (cor 4 elem t 1 =? i)%nat then x else 0) + (if (cor 4 elem t 2 =? i)%nat then x else 0) + (if (cor 4 elem t 3 =? i)%nat then x else 0).
Proof. intros. unfold share. cbn [sum]. ring. Qed.
Lemma mass_init : forall k np elem w, masses k np elem w 0 (repeat 0 np).
Proof. intros. unfold masses. rewrite repeat_length, total_repeat. cbn [sum]. split; [reflexivity|split; [intros; apply repeat_nth0|reflexivity]]. Qed.
Lemma mass_tet_proof : forall rho l np tet n, (3 * np <= length l)%nat -> (4 * n <= length tet)%nat -> (forall i, In i tet -> (i < np)%nat) ->
  exists m, MassPoint_Tet3D rho l np tet n = Some m /\ masses 4 np tet (fun t => rho * tet_vol l tet t) n m.
Proof.
  intros rho l np tet n Hl Hn Hv. apply wp_iff. unfold MassPoint_Tet3D.
  apply (wp_forn _ (masses 4 np tet (fun t => rho * tet_vol l tet t))); [lia|apply mass_init| |auto].
  intros t m Ht (Lm & Pm & Tm).
  assert (V : valid tet l) by (intros i Hi; pose proof (Hv i Hi); lia).
  assert (C : forall k, (k < 4)%nat -> vget tet (t * 4 + k) = Some (cor 4 tet t k) /\ xyz l (cor 4 tet t k) = Some (at_corner l 4 tet t k) /\ (cor 4 tet t k < np)%nat).
  { intros k Hk. destruct (valid_cor l 4 tet t k V ltac:(lia)) as (A & B). repeat split; [exact A|exact B|]. apply Hv. unfold cor. apply nth_In. lia. }
  destruct (C 0%nat ltac:(lia)) as (-> & E0 & L0). cbn [bind]. apply wp_bind, wp_assertb; [apply Nat.ltb_lt; exact L0|].
  destruct (C 1%nat ltac:(lia)) as (-> & E1 & L1). cbn [bind]. apply wp_bind, wp_assertb; [apply Nat.ltb_lt; exact L1|].
  destruct (C 2%nat ltac:(lia)) as (-> & E2 & L2). cbn [bind]. apply wp_bind, wp_assertb; [apply Nat.ltb_lt; exact L2|].
  destruct (C 3%nat ltac:(lia)) as (-> & E3 & L3). cbn [bind]. apply wp_bind, wp_assertb; [apply Nat.ltb_lt; exact L3|].
  rewrite E0. cbn [bind]. rewrite E1. cbn [bind]. rewrite E2. cbn [bind]. rewrite E3. cbn [bind]. rewrite vol_eq. fold (tet_vol l tet t). set (x := 1 / 4 * rho * tet_vol l tet t).
  apply wp_bind, wp_add; [lia|]. intros m0 Hl0 Hp0 Ht0. apply wp_bind, wp_add; [lia|]. intros m1 Hl1 Hp1 Ht1. apply wp_bind, wp_add; [lia|]. intros m2 Hl2 Hp2 Ht2. apply wp_add; [lia|]. intros m3 Hl3 Hp3 Ht3.
  assert (Ex : rho * tet_vol l tet t / INR 4 = x) by (unfold x; cbn [INR]; field).
  split; [lia|]. split.
  - intros i. cbn [sum]. rewrite share4, Ex, Hp3, Hp2, Hp1, Hp0, Pm. ring.
  - cbn [sum]. rewrite Ht3, Ht2, Ht1, Ht0, Tm. unfold x. field.
Qed.
Lemma mass_tri_proof : forall rho l np tri n, (3 * np <= length l)%nat -> (3 * n <= length tri)%nat -> (forall i, In i tri -> (i < np)%nat) ->
  exists m, MassPoint_Tri3D rho l np tri n = Some m /\ masses 3 np tri (fun t => rho * tri_area l tri t) n m.
Proof.
  intros rho l np tri n Hl Hn Hv. apply wp_iff. unfold MassPoint_Tri3D.
  apply (wp_forn _ (masses 3 np tri (fun t => rho * tri_area l tri t))); [lia|apply mass_init| |auto].
  intros t m Ht (Lm & Pm & Tm).
  assert (V : valid tri l) by (intros i Hi; pose proof (Hv i Hi); lia).
  assert (C : forall k, (k < 3)%nat -> vget tri (t * 3 + k) = Some (cor 3 tri t k) /\ xyz l (cor 3 tri t k) = Some (at_corner l 3 tri t k) /\ (cor 3 tri t k < np)%nat).
  { intros k Hk. destruct (valid_cor l 3 tri t k V ltac:(lia)) as (A & B). repeat split; [exact A|exact B|]. apply Hv. unfold cor. apply nth_In. lia. }
  destruct (C 0%nat ltac:(lia)) as (-> & E0 & L0). destruct (C 1%nat ltac:(lia)) as (-> & E1 & L1). destruct (C 2%nat ltac:(lia)) as (-> & E2 & L2). cbn [bind].
  rewrite E0. cbn [bind]. rewrite E1. cbn [bind]. rewrite E2. cbn [bind]. rewrite area_eq. fold (tri_area l tri t). set (x := rho * tri_area l tri t / 3).
  apply wp_bind, wp_add; [lia|]. intros m0 Hl0 Hp0 Ht0. apply wp_bind, wp_add; [lia|]. intros m1 Hl1 Hp1 Ht1. apply wp_add; [lia|]. intros m2 Hl2 Hp2 Ht2.
  assert (Ex : rho * tri_area l tri t / INR 3 = x) by (unfold x; cbn [INR]; field).
  split; [lia|]. split.
  - intros i. cbn [sum]. rewrite share3, Ex, Hp2, Hp1, Hp0, Pm. ring.
  - cbn [sum]. rewrite Ht2, Ht1, Ht0, Tm. unfold x. field.
Qed.
Lemma mass_tri2_proof : forall rho l np tri n, (2 * np <= length l)%nat -> (3 * n <= length tri)%nat -> (forall i, In i tri -> (i < np)%nat) ->
  exists m, MassPoint_Tri2D rho l np tri n = Some m /\ masses 3 np tri (fun t => rho * tri_area2 l tri t) n m.
Proof.
  intros rho l np tri n Hl Hn Hv. apply wp_iff. unfold MassPoint_Tri2D.
  apply (wp_forn _ (masses 3 np tri (fun t => rho * tri_area2 l tri t))); [lia|apply mass_init| |auto].
  intros t m Ht (Lm & Pm & Tm).
  assert (C : forall k, (k < 3)%nat -> vget tri (t * 3 + k) = Some (cor 3 tri t k) /\ (cor 3 tri t k < np)%nat).
  { intros k Hk. split; [rewrite (vgetn nat 0%nat) by lia; unfold cor; do 2 f_equal; lia|]. apply Hv. unfold cor. apply nth_In. lia. }
  destruct (C 0%nat ltac:(lia)) as (-> & L0). destruct (C 1%nat ltac:(lia)) as (-> & L1). destruct (C 2%nat ltac:(lia)) as (-> & L2). cbn [bind].
  apply wp_bind, wp_assertb; [apply Nat.ltb_lt; exact L0|]. apply wp_bind, wp_assertb; [apply Nat.ltb_lt; exact L1|]. apply wp_bind, wp_assertb; [apply Nat.ltb_lt; exact L2|].
  rewrite !(vgetn R 0 l) by lia. cbn [bind].
  assert (Ea : Area_Tri2 (nth (cor 3 tri t 0 * 2 + 0) l 0, nth (cor 3 tri t 0 * 2 + 1) l 0) (nth (cor 3 tri t 1 * 2 + 0) l 0, nth (cor 3 tri t 1 * 2 + 1) l 0) (nth (cor 3 tri t 2 * 2 + 0) l 0, nth (cor 3 tri t 2 * 2 + 1) l 0) = tri_area2 l tri t).
  { unfold Area_Tri2, tri_area2. cbn [fst snd]. rewrite !Nat.add_0_r, !(Nat.mul_comm _ 2). field. }
  rewrite Ea. set (x := rho * tri_area2 l tri t / 3).
  apply wp_bind, wp_add; [lia|]. intros m0 Hl0 Hp0 Ht0. apply wp_bind, wp_add; [lia|]. intros m1 Hl1 Hp1 Ht1. apply wp_add; [lia|]. intros m2 Hl2 Hp2 Ht2.
  assert (Ex : rho * tri_area2 l tri t / INR 3 = x) by (unfold x; cbn [INR]; field).
  split; [lia|]. split.
  - intros i. cbn [sum]. rewrite share3, Ex, Hp2, Hp1, Hp0, Pm. ring.
  - cbn [sum]. rewrite Ht2, Ht1, Ht0, Tm. unfold x. field.
Qed.
