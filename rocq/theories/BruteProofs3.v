(** Height fields and meshes of tetrahedra. *)
From Coq Require Import List Arith Bool ZArith Reals Lra Lia.
Import ListNotations.
From Verif Require Import Imp PrModel GjkProofs1 PbdProofs1 QuatModel ProxModel ProxSpec ProxProofs1 IsecModel IsecSpec MeasModel MeasSpec MeasProofs1 MeasProofs2 BruteModel BruteSpec BruteProofs1 BruteProofs2.
Open Scope R_scope.

Lemma cell_in : forall nx ny i j, (i < nx)%nat -> (j < ny)%nat -> (j * nx + i < nx * ny)%nat.
Proof. intros. nia. Qed.
Lemma field_reads : forall (aH : list R) nx ny i j, length aH = (nx * ny)%nat -> (i < nx - 1)%nat -> (j < ny - 1)%nat ->
  vget aH ((j + 0) * nx + (i + 0)) = Some (nth (j * nx + i) aH 0) /\ vget aH ((j + 0) * nx + (i + 1)) = Some (nth (j * nx + (i + 1)) aH 0) /\
  vget aH ((j + 1) * nx + (i + 0)) = Some (nth ((j + 1) * nx + i) aH 0) /\ vget aH ((j + 1) * nx + (i + 1)) = Some (nth ((j + 1) * nx + (i + 1)) aH 0).
Proof.
  intros aH nx ny i j L Hi Hj. rewrite !Nat.add_0_r. repeat split; apply (vget_nth _ 0); rewrite L; apply cell_in; lia.
Qed.
Definition field_hit (src dir : vec3) (nx : nat) (aH : list R) (i j : nat) (b : bool) (r0 r1 : R) : Prop :=
  hit src dir (/ 10 ^ 3) (height_corner 1 nx aH i j b 0) (height_corner 1 nx aH i j b 1) (height_corner 1 nx aH i j b 2) r0 r1.
Definition field_found (src dir : vec3) (nx : nat) (aH : list R) (cell : nat -> nat -> Prop) (e : nat) (r0 r1 : R) : Prop :=
  exists i j b, cell i j /\ e = height_index nx i j b /\ field_hit src dir nx aH i j b r0 r1.
Lemma field_add : forall src dir p q r eps (a : list pes) k e s0 s1, In (e, s0, s1) (match IntersectRay_Tri3 src dir p q r eps with (true, Some (r0, r1)) => a ++ [(k, r0, r1)] | _ => a end) <-> In (e, s0, s1) a \/ e = k /\ hit src dir eps p q r s0 s1.
Proof.
  intros src dir p q r eps a k e s0 s1. destruct (ray_cases src dir p q r eps) as [(r0 & r1 & E)|(E & NH)].
  - rewrite E, in_app_iff. cbn [In]. split.
    + intros [H|[H|[]]]; auto. injection H as <- <- <-. right. split; auto. apply ray_hit. auto.
    + intros [H|(-> & H)]; auto. apply ray_hit in H. rewrite E in H. injection H as -> ->. auto.
  - rewrite E. split; auto. intros [H|(_ & H)]; auto. destruct (NH _ _ H).
Qed.
Lemma Hight_ok : forall a0 src dir nx ny aH, length aH = (nx * ny)%nat -> (0 < nx)%nat -> (0 < ny)%nat ->
  wp (IntersectionLine_Hightfield a0 src dir nx ny aH) (fun a => forall e r0 r1, In (e, r0, r1) a <-> In (e, r0, r1) a0 \/ field_found src dir nx aH (fun i j => (i + 1 < nx)%nat /\ (j + 1 < ny)%nat) e r0 r1).
Proof.
  intros a0 src dir nx ny aH L Nx Ny. unfold IntersectionLine_Hightfield. rewrite (proj2 (Nat.eqb_eq _ _) L). cbn [assertb bind]. rewrite (proj2 (Nat.ltb_lt _ _) Nx), (proj2 (Nat.ltb_lt _ _) Ny). cbn [andb assertb bind].
  apply (wp_forn _ (fun j0 a => forall e r0 r1, In (e, r0, r1) a <-> In (e, r0, r1) a0 \/ field_found src dir nx aH (fun i j => (i + 1 < nx)%nat /\ (j < j0)%nat) e r0 r1)); [lia| | |].
  - intros e r0 r1. split; [auto|]. intros [H|(i & j & b & (_ & H) & _)]; [auto|lia].
  - intros j0 a Hj A.
    apply (wp_forn _ (fun i0 a => forall e r0 r1, In (e, r0, r1) a <-> In (e, r0, r1) a0 \/ field_found src dir nx aH (fun i j => (i + 1 < nx)%nat /\ ((j < j0)%nat \/ j = j0 /\ (i < i0)%nat)) e r0 r1)); [lia| | |].
    + intros e r0 r1. rewrite A. split; (intros [H|(i & j & b & (C1 & C2) & H)]; [auto|right; exists i, j, b; split; [|auto]; lia]).
    + intros i0 a1 Hi A1. destruct (field_reads aH nx ny i0 j0 L ltac:(lia) ltac:(lia)) as (-> & -> & -> & ->). cbn [bind wp]. intros e r0 r1. rewrite field_add, field_add, A1.
      assert (H1 : hit src dir (/ 10 ^ 3) (V3 (INR (i0 + 0)) (INR (j0 + 0)) (nth (j0 * nx + i0) aH 0)) (V3 (INR (i0 + 1)) (INR (j0 + 0)) (nth (j0 * nx + (i0 + 1)) aH 0)) (V3 (INR (i0 + 1)) (INR (j0 + 1)) (nth ((j0 + 1) * nx + (i0 + 1)) aH 0)) r0 r1 <-> field_hit src dir nx aH i0 j0 false r0 r1) by (unfold field_hit, height_corner, height_point; rewrite !Rmult_1_r, !Nat.add_0_r; reflexivity).
      assert (H2 : hit src dir (/ 10 ^ 3) (V3 (INR (i0 + 0)) (INR (j0 + 0)) (nth (j0 * nx + i0) aH 0)) (V3 (INR (i0 + 1)) (INR (j0 + 1)) (nth ((j0 + 1) * nx + (i0 + 1)) aH 0)) (V3 (INR (i0 + 0)) (INR (j0 + 1)) (nth ((j0 + 1) * nx + i0) aH 0)) r0 r1 <-> field_hit src dir nx aH i0 j0 true r0 r1) by (unfold field_hit, height_corner, height_point; rewrite !Rmult_1_r, !Nat.add_0_r; reflexivity).
      rewrite H1, H2. split.
      * intros [[[H|(i & j & b & (C1 & C2) & H)]|(E & H)]|(E & H)]; auto; right.
        -- exists i, j, b. split; [lia|auto].
        -- exists i0, j0, false. split; [lia|auto].
        -- exists i0, j0, true. split; [lia|auto].
      * intros [H|(i & j & b & (C1 & C2) & E & H)]; auto. assert (K : (j < j0 \/ j = j0 /\ i < i0)%nat \/ (j = j0 /\ i = i0)) by lia. destruct K as [K|(-> & ->)].
        -- left. left. right. exists i, j, b. split; [lia|auto].
        -- destruct b; [right|left; right]; auto.
    + intros a1 A1 e r0 r1. rewrite A1. split; (intros [H|(i & j & b & (C1 & C2) & H)]; [auto|right; exists i, j, b; split; [|auto]; lia]).
  - intros a A e r0 r1. rewrite A. split; (intros [H|(i & j & b & (C1 & C2) & H)]; [auto|right; exists i, j, b; split; [|auto]; lia]).
Qed.
Lemma Grid_ok : forall el nx ny aH i j b r0 r1, length aH = (nx * ny)%nat -> (i + 1 < nx)%nat -> (j + 1 < ny)%nat ->
  PositionOnGrid2 (height_index nx i j b, r0, r1) nx el aH = Some (comb r0 r1 (1 - r0 - r1) (height_corner el nx aH i j b 0) (height_corner el nx aH i j b 1) (height_corner el nx aH i j b 2)).
Proof.
  intros el nx ny aH i j b r0 r1 L Hi Hj. unfold PositionOnGrid2. assert (Q : (height_index nx i j b / 2)%nat = (j * nx + i)%nat). { unfold height_index. destruct b; [|rewrite Nat.add_0_r, Nat.div_mul; auto]. rewrite Nat.add_comm, Nat.div_add by auto. reflexivity. }
  rewrite Q. assert (Qy : ((j * nx + i) / nx)%nat = j) by (rewrite Nat.div_add_l, (Nat.div_small i nx) by lia; lia). rewrite Qy. replace (j * nx + i - nx * j)%nat with i by lia.
  destruct (field_reads aH nx ny i j L ltac:(lia) ltac:(lia)) as (-> & -> & -> & ->). cbn [bind]. f_equal.
  assert (P : (height_index nx i j b mod 2 =? 0)%nat = negb b). { unfold height_index. rewrite Nat.add_comm, Nat.mod_add by auto. destruct b; reflexivity. }
  rewrite P. unfold height_corner, height_point. rewrite !Nat.add_0_r. destruct b; cbn [negb]; veq.
Qed.

(** tetrahedra *)
Lemma vol_eq : forall a b c d, Volume_Tet a b c d = volume6 a b c d / 6.
Proof. intros. unfold Volume_Tet, volume6. cbn [vx vy vz]. field. Qed.
Lemma tet4_ok : forall l tet t, valid tet l -> (t < count 4 tet)%nat -> tet4 l tet t = Some (at_corner l 4 tet t 0, at_corner l 4 tet t 1, at_corner l 4 tet t 2, at_corner l 4 tet t 3).
Proof.
  intros l tet t V Ht. unfold count in Ht. pose proof (Nat.div_mod (length tet) 4 ltac:(lia)). unfold tet4.
  destruct (valid_cor l 4 tet t 0 V ltac:(lia)) as (-> & E0). destruct (valid_cor l 4 tet t 1 V ltac:(lia)) as (-> & E1). destruct (valid_cor l 4 tet t 2 V ltac:(lia)) as (-> & E2). destruct (valid_cor l 4 tet t 3 V ltac:(lia)) as (-> & E3).
  cbn [bind]. rewrite E0. cbn [bind]. rewrite E1. cbn [bind]. rewrite E2. cbn [bind]. rewrite E3. reflexivity.
Qed.
Lemma cramer : forall q p0 p1 p2 p3, let v := volume6 p0 p1 p2 p3 in v <> 0 ->
  comb4 (volume6 q p1 p2 p3 / v) (volume6 p0 q p2 p3 / v) (volume6 p0 p1 q p3 / v) (1 - volume6 q p1 p2 p3 / v - volume6 p0 q p2 p3 / v - volume6 p0 p1 q p3 / v) p0 p1 p2 p3 = q.
Proof.
  intros q p0 p1 p2 p3 v N. apply v3_eq; unfold comb4, comb, origin3; cbn [vx vy vz]; apply (Rmult_eq_reg_r v); auto;
  match goal with |- ?L * v = ?Rr * v => transitivity (volume6 q p1 p2 p3 * 0 + (L * v)); [ring|] end.
  - transitivity (volume6 q p1 p2 p3 * vx p0 + volume6 p0 q p2 p3 * vx p1 + volume6 p0 p1 q p3 * vx p2 + (v - volume6 q p1 p2 p3 - volume6 p0 q p2 p3 - volume6 p0 p1 q p3) * vx p3); [field; auto|]. unfold v, volume6; cbn [vx vy vz]; ring.
  - transitivity (volume6 q p1 p2 p3 * vy p0 + volume6 p0 q p2 p3 * vy p1 + volume6 p0 p1 q p3 * vy p2 + (v - volume6 q p1 p2 p3 - volume6 p0 q p2 p3 - volume6 p0 p1 q p3) * vy p3); [field; auto|]. unfold v, volume6; cbn [vx vy vz]; ring.
  - transitivity (volume6 q p1 p2 p3 * vz p0 + volume6 p0 q p2 p3 * vz p1 + volume6 p0 p1 q p3 * vz p2 + (v - volume6 q p1 p2 p3 - volume6 p0 q p2 p3 - volume6 p0 p1 q p3) * vz p3); [field; auto|]. unfold v, volume6; cbn [vx vy vz]; ring.
Qed.
Lemma cramer_inv : forall a b c p0 p1 p2 p3, let q := comb4 a b c (1 - a - b - c) p0 p1 p2 p3 in let v := volume6 p0 p1 p2 p3 in
  volume6 q p1 p2 p3 = a * v /\ volume6 p0 q p2 p3 = b * v /\ volume6 p0 p1 q p3 = c * v /\ volume6 p0 p1 p2 q = (1 - a - b - c) * v.
Proof. intros. unfold q, v, comb4, comb, volume6, origin3. cbn [vx vy vz]. repeat split; ring. Qed.
Lemma vol_sum : forall q p0 p1 p2 p3, volume6 q p1 p2 p3 + volume6 p0 q p2 p3 + volume6 p0 p1 q p3 + volume6 p0 p1 p2 q = volume6 p0 p1 p2 p3.
Proof. intros. unfold volume6. cbn [vx vy vz]. ring. Qed.

Lemma pis_eq : forall (t : nat) (a b c a' b' c' : R), a = a' -> b = b' -> c = c' -> (t, a, b, c) = (t, a', b', c').
Proof. intros. subst. auto. Qed.
Definition tw (l : list R) (tet : list nat) (q : vec3) (t : nat) : pis :=
  let v := tet_volume l tet t in (t, moved_volume l tet q t 0 / v, moved_volume l tet q t 1 / v, moved_volume l tet q t 2 / v).
Lemma tw_iff : forall l tet q t r0 r1 r2, tet_volume l tet t <> 0 -> tet_point l tet (t, r0, r1, r2) = q <-> (t, r0, r1, r2) = tw l tet q t.
Proof.
  intros l tet q t r0 r1 r2 N. unfold tw, moved_volume. cbn [Nat.eqb]. cbv zeta. split.
  - intros E. cbn [tet_point] in E. subst q. unfold tet_volume in *. destruct (cramer_inv r0 r1 r2 (at_corner l 4 tet t 0) (at_corner l 4 tet t 1) (at_corner l 4 tet t 2) (at_corner l 4 tet t 3)) as (-> & -> & -> & _).
    repeat f_equal; field; auto.
  - intros E. injection E as -> -> ->. cbn [tet_point]. apply cramer. exact N.
Qed.
Lemma setPos_ok : forall t q l tet, valid tet l -> (t < count 4 tet)%nat -> setPos_Tet t q l tet = Some (if eqR (tet_volume l tet t) 0 then None else Some (tw l tet q t)).
Proof.
  intros t q l tet V T. unfold setPos_Tet. rewrite (proj2 (Nat.ltb_lt t (length tet / 4)) T). cbn [assertb bind]. rewrite tet4_ok by auto. cbn [bind]. cbv zeta. rewrite !vol_eq. f_equal. fold (tet_volume l tet t).
  pose proof (eqRs (tet_volume l tet t) 0) as A. pose proof (eqRs (tet_volume l tet t / 6) 0) as B. destruct (eqR (tet_volume l tet t) 0), (eqR (tet_volume l tet t / 6) 0); auto; try (exfalso; lra).
  refine (f_equal (fun x : pis => Some (Some x)) _). unfold tw, moved_volume. cbn [Nat.eqb]. cbv zeta. unfold tet_volume in *. apply pis_eq; field; auto.
Qed.
Lemma getPos_ok : forall t r0 r1 r2 l tet, valid tet l -> (t < count 4 tet)%nat -> getPos_Tet (t, r0, r1, r2) l tet = Some (tet_point l tet (t, r0, r1, r2)).
Proof.
  intros t r0 r1 r2 l tet V T. unfold getPos_Tet. rewrite (proj2 (Nat.ltb_lt t (length tet / 4)) T). cbn [assertb bind]. rewrite tet4_ok by auto. cbn [bind]. f_equal. unfold tet_point, comb4. veq.
Qed.
Lemma inside_iff : forall t r0 r1 r2 eps, isInside (t, r0, r1, r2) (- eps) = true <-> nearly_in eps (t, r0, r1, r2).
Proof.
  intros. unfold isInside, nearly_in. pose proof (ltRs (- eps) r0) as A. pose proof (ltRs (- eps) r1) as B. pose proof (ltRs (- eps) r2) as C. pose proof (ltRs (- eps) (1 - r0 - r1 - r2)) as D.
  destruct (ltR (- eps) r0), (ltR (- eps) r1), (ltR (- eps) r2), (ltR (- eps) (1 - r0 - r1 - r2)); cbn [andb]; split; intros H; try discriminate; try lra; auto.
Qed.
Definition in_tet (l : list R) (tet : list nat) (q : vec3) (p : pis) : Prop := tet_volume l tet (fst (fst (fst p))) <> 0 /\ tet_point l tet p = q /\ nearly_in (/ 10 ^ 4) p.
Lemma Search_ok : forall q l tet, valid tet l ->
  wp (Nearest_Point_MeshTet3D q l tet) (fun r => match r with
    | Some p => (fst (fst (fst p)) < count 4 tet)%nat /\ in_tet l tet q p /\ forall u r0 r1 r2, (u < fst (fst (fst p)))%nat -> ~ in_tet l tet q (u, r0, r1, r2)
    | None => forall u r0 r1 r2, (u < count 4 tet)%nat -> ~ in_tet l tet q (u, r0, r1, r2) end).
Proof.
  intros q l tet V. unfold Nearest_Point_MeshTet3D.
  apply (wp_forb _ (fun i r => r = None /\ forall u r0 r1 r2, (u < i)%nat -> ~ in_tet l tet q (u, r0, r1, r2))); [lia|split; auto; intros; lia| |].
  - intros i r Hi (-> & A). rewrite setPos_ok by (auto; unfold count; lia). cbn [bind].
    assert (NX : (forall r0 r1 r2, ~ in_tet l tet q (i, r0, r1, r2)) -> (None : option pis) = None /\ forall u r0 r1 r2, (u < S i)%nat -> ~ in_tet l tet q (u, r0, r1, r2)). { intros H. split; auto. intros u r0 r1 r2 U. destruct (Nat.eq_dec u i) as [->|]; [auto|apply A; lia]. }
    pose proof (eqRs (tet_volume l tet i) 0) as Z. destruct (eqR (tet_volume l tet i) 0).
    + cbn [wp fst snd]. apply NX. intros r0 r1 r2 (N & _). contradiction.
    + pose proof (tw_iff l tet q i) as TI. destruct (tw l tet q i) as [[[t s0] s1] s2] eqn:E. assert (t = i) by (unfold tw in E; injection E; auto). subst t.
      destruct (isInside (i, s0, s1, s2) (- / 10 ^ 4)) eqn:I; cbn [wp fst snd].
      * split; [unfold count; lia|]. split; [|intros; apply A; auto]. split; [exact Z|]. split; [apply TI; auto|apply inside_iff; auto].
      * apply NX. intros r0 r1 r2 (N & P & Q). apply TI in P; auto. injection P as -> -> ->. apply inside_iff in Q. congruence.
  - intros r (-> & A). exact A.
Qed.
(** the walk *)
Lemma ltb_least : forall a b c d : R, ltR a b && ltR a c && ltR a d = true <-> a < b /\ a < c /\ a < d.
Proof.
  intros. pose proof (ltRs a b). pose proof (ltRs a c). pose proof (ltRs a d). destruct (ltR a b), (ltR a c), (ltR a d); cbn [andb]; split; intros; try discriminate; auto; lra.
Qed.
Lemma least_ok : forall v0 v1 v2 v3 : R, let v := fun k => match k with 0%nat => v0 | 1%nat => v1 | 2%nat => v2 | _ => v3 end in
  let k := if ltR v0 v1 && ltR v0 v2 && ltR v0 v3 then 0%nat else if ltR v1 v0 && ltR v1 v2 && ltR v1 v3 then 1%nat else if ltR v2 v0 && ltR v2 v1 && ltR v2 v3 then 2%nat else 3%nat in
  let m := fun j => (j < 4)%nat /\ forall i, (i < 4)%nat -> i <> j -> v j < v i in (k < 4)%nat /\ (m k \/ k = 3%nat /\ forall j, ~ m j).
Proof.
  intros v0 v1 v2 v3 v k m. pose proof (ltb_least v0 v1 v2 v3) as A. pose proof (ltb_least v1 v0 v2 v3) as B. pose proof (ltb_least v2 v0 v1 v3) as C. unfold k.
  assert (M : forall j, m j -> j = 0%nat /\ (v0 < v1 /\ v0 < v2 /\ v0 < v3) \/ j = 1%nat /\ (v1 < v0 /\ v1 < v2 /\ v1 < v3) \/ j = 2%nat /\ (v2 < v0 /\ v2 < v1 /\ v2 < v3) \/ j = 3%nat /\ (v3 < v0 /\ v3 < v1 /\ v3 < v2)).
  { intros j (J & H). pose proof (H 0%nat) as H0. pose proof (H 1%nat) as H1. pose proof (H 2%nat) as H2. pose proof (H 3%nat) as H3. unfold v in *. destruct j as [|[|[|[|]]]]; [left|right; left|right; right; left|right; right; right|lia]; (split; [auto|repeat split; first [apply H0; lia|apply H1; lia|apply H2; lia|apply H3; lia]]). }
  destruct (ltR v0 v1 && ltR v0 v2 && ltR v0 v3); [|destruct (ltR v1 v0 && ltR v1 v2 && ltR v1 v3); [|destruct (ltR v2 v0 && ltR v2 v1 && ltR v2 v3)]]; (split; [lia|]).
  - left. destruct A as (A & _). specialize (A eq_refl). split; [lia|]. intros [|[|[|[|]]]] Hi NE; unfold v; lia || lra.
  - left. destruct B as (B & _). specialize (B eq_refl). split; [lia|]. intros [|[|[|[|]]]] Hi NE; unfold v; lia || lra.
  - left. destruct C as (C & _). specialize (C eq_refl). split; [lia|]. intros [|[|[|[|]]]] Hi NE; unfold v; lia || lra.
  - destruct (Rlt_dec v3 v0) as [X0|X0]; [destruct (Rlt_dec v3 v1) as [X1|X1]; [destruct (Rlt_dec v3 v2) as [X2|X2]|]|].
    1:{ left. split; [lia|]. intros [|[|[|[|]]]] Hi NE; unfold v; lia || lra. }
    all: right; split; [auto|]; intros j Hj; destruct A as (_ & A); destruct B as (_ & B); destruct C as (_ & C); destruct (M j Hj) as [(-> & H)|[(-> & H)|[(-> & H)|(-> & H)]]]; try (assert (false = true) by auto; discriminate); lra.
Qed.
Lemma has_iff : forall l tet q t eps, 0 < eps -> eps < 1 -> (exists r0 r1 r2, tet_has l tet eps q (t, r0, r1, r2)) <->
  forall k, (k < 4)%nat -> - eps * tet_volume l tet t < moved_volume l tet q t k.
Proof.
  intros l tet q t eps E E1. assert (S : moved_volume l tet q t 0 + moved_volume l tet q t 1 + moved_volume l tet q t 2 + moved_volume l tet q t 3 = tet_volume l tet t) by (unfold moved_volume, tet_volume; cbn [Nat.eqb]; apply vol_sum). split.
  - intros (r0 & r1 & r2 & V & P & N). cbn [fst] in V. assert (NZ : tet_volume l tet t <> 0) by lra. apply (tw_iff l tet q t r0 r1 r2 NZ) in P. unfold tw in P. injection P as P0 P1 P2. cbn [nearly_in] in N.
    assert (M0 : moved_volume l tet q t 0 = r0 * tet_volume l tet t) by (rewrite P0; field; auto). assert (M1 : moved_volume l tet q t 1 = r1 * tet_volume l tet t) by (rewrite P1; field; auto). assert (M2 : moved_volume l tet q t 2 = r2 * tet_volume l tet t) by (rewrite P2; field; auto).
    assert (M3 : moved_volume l tet q t 3 = (1 - r0 - r1 - r2) * tet_volume l tet t) by (rewrite !Rmult_minus_distr_r; lra).
    intros [|[|[|[|k]]]] K; [rewrite M0|rewrite M1|rewrite M2|rewrite M3|lia]; apply Rmult_lt_compat_r; auto; lra.
  - intros H. pose proof (H 0%nat ltac:(lia)). pose proof (H 1%nat ltac:(lia)). pose proof (H 2%nat ltac:(lia)). pose proof (H 3%nat ltac:(lia)).
    assert (P : 0 < tet_volume l tet t) by nra. exists (moved_volume l tet q t 0 / tet_volume l tet t), (moved_volume l tet q t 1 / tet_volume l tet t), (moved_volume l tet q t 2 / tet_volume l tet t). split; [auto|]. split; [apply tw_iff; [lra|reflexivity]|].
    assert (Q : forall x, - eps * tet_volume l tet t < x -> - eps < x / tet_volume l tet t) by (intros x X; apply (Rmult_lt_reg_r (tet_volume l tet t)); auto; replace (x / tet_volume l tet t * tet_volume l tet t) with x by (field; lra); auto).
    cbn [nearly_in]. repeat split; auto. replace (1 - moved_volume l tet q t 0 / tet_volume l tet t - moved_volume l tet q t 1 / tet_volume l tet t - moved_volume l tet q t 2 / tet_volume l tet t) with (moved_volume l tet q t 3 / tet_volume l tet t); auto. rewrite <- S. field. lra.
Qed.
Lemma Walk_ok : forall p start l tet rel, valid tet l -> rel_ok tet rel ->
  wp (Nearest_Point_MeshTet3D_walk p start l tet rel) (fun r => match r with
    | Some a => exists n, (n < 50)%nat /\ (fst (fst (fst a)) < count 4 tet)%nat /\ walk l tet rel (/ 10 ^ 4) p start n (Z.of_nat (fst (fst (fst a)))) /\ tet_has l tet (/ 10 ^ 4) p a
    | None => (start < 0 \/ Z.of_nat (count 4 tet) <= start)%Z \/ (exists n, (n < 50)%nat /\ walk l tet rel (/ 10 ^ 4) p start n (-1)) \/ exists t, walk l tet rel (/ 10 ^ 4) p start 50 t end).
Proof.
  intros p start l tet rel V (RL & RR). unfold Nearest_Point_MeshTet3D_walk. destruct ((start <? 0)%Z || (Z.of_nat (length tet / 4) <=? start)%Z) eqn:B.
  { cbn [wp]. left. apply orb_true_iff in B. destruct B as [B|B]; [apply Z.ltb_lt in B|apply Z.leb_le in B]; auto. }
  apply orb_false_iff in B. destruct B as (B1 & B2). apply Z.ltb_ge in B1. apply Z.leb_gt in B2. assert (E : 0 < / 10 ^ 4 < 1) by (split; [apply Rinv_0_lt_compat; apply pow_lt; lra|rewrite <- Rinv_1; apply Rinv_lt_contravar; lra]).
  apply wp_bind.
  apply (wp_forb _ (fun i s => snd s = None /\ (-1 <= fst s < Z.of_nat (count 4 tet))%Z /\ walk l tet rel (/ 10 ^ 4) p start i (fst s))); [lia| | |].
  - cbn [fst snd]. split; [auto|]. split; [unfold count; lia|constructor].
  - intros i [it1 o] Hi (O & Rg & W). cbn [fst snd] in *. destruct (Z.eqb_spec it1 (-1)) as [->|NE].
    + cbn [wp fst snd]. right. left. exists i. split; [lia|auto].
    + assert (P0 : (0 <= it1)%Z) by lia. rewrite (proj2 (Z.leb_le _ _) P0). cbn [assertb bind]. set (t := Z.to_nat it1). assert (T : (t < count 4 tet)%nat) by (unfold t; lia). assert (Et : it1 = Z.of_nat t) by (unfold t; lia). rewrite tet4_ok by auto. cbn [bind]. rewrite !vol_eq.
      pose proof (vol_sum p (at_corner l 4 tet t 0) (at_corner l 4 tet t 1) (at_corner l 4 tet t 2) (at_corner l 4 tet t 3)) as VS.
      change (volume6 p (at_corner l 4 tet t 1) (at_corner l 4 tet t 2) (at_corner l 4 tet t 3)) with (moved_volume l tet p t 0) in *. change (volume6 (at_corner l 4 tet t 0) p (at_corner l 4 tet t 2) (at_corner l 4 tet t 3)) with (moved_volume l tet p t 1) in *. change (volume6 (at_corner l 4 tet t 0) (at_corner l 4 tet t 1) p (at_corner l 4 tet t 3)) with (moved_volume l tet p t 2) in *. change (volume6 (at_corner l 4 tet t 0) (at_corner l 4 tet t 1) (at_corner l 4 tet t 2) p) with (moved_volume l tet p t 3) in *. fold (tet_volume l tet t) in VS.
      replace (moved_volume l tet p t 0 / 6 + moved_volume l tet p t 1 / 6 + moved_volume l tet p t 2 / 6 + moved_volume l tet p t 3 / 6) with (tet_volume l tet t / 6) by lra.
      set (c := ltR _ (moved_volume l tet p t 0 / 6) && ltR _ (moved_volume l tet p t 1 / 6) && ltR _ (moved_volume l tet p t 2 / 6) && ltR _ (moved_volume l tet p t 3 / 6)).
      assert (CH : c = true <-> exists r0 r1 r2, tet_has l tet (/ 10 ^ 4) p (t, r0, r1, r2)).
      { rewrite has_iff by lra. unfold c. pose proof (ltRs (- / 10 ^ 4 * (tet_volume l tet t / 6)) (moved_volume l tet p t 0 / 6)) as L0. pose proof (ltRs (- / 10 ^ 4 * (tet_volume l tet t / 6)) (moved_volume l tet p t 1 / 6)) as L1. pose proof (ltRs (- / 10 ^ 4 * (tet_volume l tet t / 6)) (moved_volume l tet p t 2 / 6)) as L2. pose proof (ltRs (- / 10 ^ 4 * (tet_volume l tet t / 6)) (moved_volume l tet p t 3 / 6)) as L3.
        split.
        - intros H. apply andb_true_iff in H. destruct H as (H & H3). apply andb_true_iff in H. destruct H as (H & H2). apply andb_true_iff in H. destruct H as (H0 & H1). rewrite H0 in L0. rewrite H1 in L1. rewrite H2 in L2. rewrite H3 in L3. intros [|[|[|[|k]]]] K; lra || lia.
        - intros H. pose proof (H 0%nat ltac:(lia)). pose proof (H 1%nat ltac:(lia)). pose proof (H 2%nat ltac:(lia)). pose proof (H 3%nat ltac:(lia)).
          destruct (ltR _ (moved_volume l tet p t 0 / 6)); [|lra]. destruct (ltR _ (moved_volume l tet p t 1 / 6)); [|lra]. destruct (ltR _ (moved_volume l tet p t 2 / 6)); [|lra]. destruct (ltR _ (moved_volume l tet p t 3 / 6)); [auto|lra]. }
      destruct c.
      * cbn [wp fst snd]. exists i. split; [lia|]. split; [auto|]. rewrite <- Et. split; [auto|]. destruct (proj1 CH eq_refl) as (r0 & r1 & r2 & H). pose proof H as (H1 & H2 & H3). cbn [fst] in H1. apply (tw_iff l tet p t r0 r1 r2) in H2; [|lra].
        replace (t, moved_volume l tet p t 0 / 6 / (tet_volume l tet t / 6), moved_volume l tet p t 1 / 6 / (tet_volume l tet t / 6), moved_volume l tet p t 2 / 6 / (tet_volume l tet t / 6)) with (t, r0, r1, r2); [auto|]. rewrite H2. unfold tw. apply pis_eq; field; lra.
      * pose proof (least_ok (moved_volume l tet p t 0 / 6) (moved_volume l tet p t 1 / 6) (moved_volume l tet p t 2 / 6) (moved_volume l tet p t 3 / 6)) as LK. cbv zeta in LK. destruct LK as (K4 & KL). match type of K4 with (?kk < 4)%nat => set (k := kk) in *; clearbody k end.
        rewrite (vget_nth _ (-1)%Z) by (rewrite RL; lia). cbn [bind wp fst snd]. replace (t * 8 + k * 2 + 0)%nat with (8 * t + 2 * k)%nat by lia. split; [auto|]. split; [apply RR; auto|].
        constructor; auto; [rewrite <- Et; auto| |].
        { intros r0 r1 r2 H. assert (false = true) by (apply CH; eauto). discriminate. }
        assert (LE : forall j, least l tet p t j <-> (j < 4)%nat /\ forall i, (i < 4)%nat -> i <> j -> match j with 0%nat => moved_volume l tet p t 0 / 6 | 1%nat => moved_volume l tet p t 1 / 6 | 2%nat => moved_volume l tet p t 2 / 6 | _ => moved_volume l tet p t 3 / 6 end < match i with 0%nat => moved_volume l tet p t 0 / 6 | 1%nat => moved_volume l tet p t 1 / 6 | 2%nat => moved_volume l tet p t 2 / 6 | _ => moved_volume l tet p t 3 / 6 end).
        { intros j. split; intros (J & H); (split; [auto|]); intros i' I' NE'; specialize (H i' I' NE'); (destruct j as [|[|[|[|]]]]; [| | | |lia]); (destruct i' as [|[|[|[|]]]]; [| | | |lia]); lra. }
        destruct KL as [KL|(K3 & KN)]; [left; apply LE; exact KL|right]. split; [auto|]. intros j J. apply (KN j). apply LE. auto.
  - intros [it1 o] (O & _ & W). cbn [fst snd] in *. subst o. cbn [wp]. right. right. exists it1. auto.
Qed.
