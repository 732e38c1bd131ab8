(** Nearest points of triangles. *)
From Coq Require Import List Arith Bool Reals Lra Lia.
Import ListNotations.
From Verif Require Import Imp PrModel QuatModel ProxModel ProxSpec GjkProofs1 ProxProofs1.
Open Scope R_scope.

Definition tn (q0 q1 q2 : vec3) : vec3 := cross3 (sub3 q1 q0) (sub3 q2 q0).
Lemma area2_norm : forall p q r, area2 p q r = norm3 (tn p q r).
Proof. intros. unfold area2, norm3, tn. f_equal. u3. ring. Qed.
(** The foot of the perpendicular from the origin. *)
Definition bar (q0 q1 q2 : vec3) (i : nat) : R := let c := tn q0 q1 q2 in match i with 0%nat => dot3 (cross3 q1 q2) c | 1%nat => dot3 (cross3 q2 q0) c | _ => dot3 (cross3 q0 q1) c end / dot3 c c.
Lemma bar_sum : forall q0 q1 q2, dot3 (tn q0 q1 q2) (tn q0 q1 q2) <> 0 -> bar q0 q1 q2 0 + bar q0 q1 q2 1 + bar q0 q1 q2 2 = 1.
Proof. intros. unfold bar. cbv zeta. set (c := tn q0 q1 q2) in *. assert (E : dot3 (cross3 q1 q2) c + dot3 (cross3 q2 q0) c + dot3 (cross3 q0 q1) c = dot3 c c) by (unfold c, tn; u3; ring). set (k := dot3 c c) in *. replace 1 with (k / k) by (field; auto). rewrite <- E at 4. field. auto. Qed.
Lemma foot : forall q0 q1 q2, dot3 (tn q0 q1 q2) (tn q0 q1 q2) <> 0 -> comb (bar q0 q1 q2 0) (bar q0 q1 q2 1) (bar q0 q1 q2 2) q0 q1 q2 = mul3 (dot3 q0 (tn q0 q1 q2) / dot3 (tn q0 q1 q2) (tn q0 q1 q2)) (tn q0 q1 q2).
Proof.
  intros q0 q1 q2 N. unfold bar. cbv zeta. set (c := tn q0 q1 q2) in *. assert (D : dot3 q0 c = dot3 q0 (cross3 q1 q2)) by (unfold c, tn; u3; ring). rewrite D. set (k := dot3 c c) in *. clearbody k. clear D.
  apply v3_eq; unfold comb, mul3; cbn [vx vy vz]; clearbody c; u3; field; auto.
Qed.
Lemma foot_perp : forall q0 q1 q2 a b d, dot3 (tn q0 q1 q2) (tn q0 q1 q2) <> 0 -> a + b + d = 1 -> let P := comb (bar q0 q1 q2 0) (bar q0 q1 q2 1) (bar q0 q1 q2 2) q0 q1 q2 in dot3 P (sub3 (comb a b d q0 q1 q2) P) = 0.
Proof.
  intros q0 q1 q2 a b d N H P. unfold P. rewrite foot by auto. set (c := tn q0 q1 q2) in *. set (k := dot3 c c) in *.
  assert (E : dot3 (comb a b d q0 q1 q2) c = dot3 q0 c). { replace (comb a b d q0 q1 q2) with (add3 q0 (add3 (mul3 b (sub3 q1 q0)) (mul3 d (sub3 q2 q0)))) by (replace a with (1 - b - d) by lra; veq). unfold c, tn. u3. ring. }
  set (y := comb a b d q0 q1 q2) in *. replace (dot3 (mul3 (dot3 q0 c / k) c) (sub3 y (mul3 (dot3 q0 c / k) c))) with (dot3 q0 c / k * (dot3 y c - dot3 q0 c / k * dot3 c c)).
  - fold k. rewrite E. field. auto.
  - set (m := dot3 q0 c / k). clearbody m y c. u3. ring.
Qed.
Lemma exit1 : forall s r, 0 <= s -> exists k, 0 <= k <= 1 /\ (forall k', 0 <= k' <= k -> 0 <= s + k' * (r - s)) /\ (s + k * (r - s) = 0 \/ k = 1).
Proof.
  intros s r S. destruct (Rlt_le_dec r 0).
  - exists (s / (s - r)). assert (I : 0 < / (s - r)) by (apply Rinv_0_lt_compat; lra). assert (E : s + s / (s - r) * (r - s) = 0) by (field; lra). split; [|split].
    + split; [apply Rmult_le_pos; lra|]. apply Rmult_le_reg_r with (s - r); [lra|]. unfold Rdiv. rewrite Rmult_assoc, Rinv_l by lra. lra.
    + intros k' K. assert (k' * (s - r) <= s / (s - r) * (s - r)) by (apply Rmult_le_compat_r; lra). lra.
    + auto.
  - exists 1. split; [lra|]. split; [|auto]. intros k' K. replace (s + k' * (r - s)) with ((1 - k') * s + k' * r) by ring. apply Rplus_le_le_0_compat; apply Rmult_le_pos; lra.
Qed.
Lemma exit_edge : forall s0 s1 s2 r0 r1 r2, 0 <= s0 -> 0 <= s1 -> 0 <= s2 -> ~ (0 < r0 /\ 0 < r1 /\ 0 < r2) -> exists k, 0 <= k <= 1 /\ let z0 := s0 + k * (r0 - s0) in let z1 := s1 + k * (r1 - s1) in let z2 := s2 + k * (r2 - s2) in
  0 <= z0 /\ 0 <= z1 /\ 0 <= z2 /\ (z0 = 0 \/ z1 = 0 \/ z2 = 0).
Proof.
  intros s0 s1 s2 r0 r1 r2 S0 S1 S2 R. destruct (exit1 s0 r0 S0) as (k0 & K0 & A0 & B0). destruct (exit1 s1 r1 S1) as (k1 & K1 & A1 & B1). destruct (exit1 s2 r2 S2) as (k2 & K2 & A2 & B2). cbv zeta.
  assert (ONE : k0 = 1 -> k1 = 1 -> k2 = 1 -> exists k, 0 <= k <= 1 /\ 0 <= s0 + k * (r0 - s0) /\ 0 <= s1 + k * (r1 - s1) /\ 0 <= s2 + k * (r2 - s2) /\ (s0 + k * (r0 - s0) = 0 \/ s1 + k * (r1 - s1) = 0 \/ s2 + k * (r2 - s2) = 0)).
  { intros -> -> ->. exists 1. specialize (A0 1 ltac:(lra)). specialize (A1 1 ltac:(lra)). specialize (A2 1 ltac:(lra)). split; [lra|]. split; [lra|]. split; [lra|]. split; [lra|].
    destruct (Rle_lt_dec r0 0); [left; lra|]. destruct (Rle_lt_dec r1 0); [right; left; lra|]. destruct (Rle_lt_dec r2 0); [right; right; lra|]. exfalso. apply R. auto. }
  destruct (Rle_lt_dec k0 k1) as [L|L]; [destruct (Rle_lt_dec k0 k2) as [L'|L']|destruct (Rle_lt_dec k1 k2) as [L'|L']].
  - destruct B0 as [B|B]; [exists k0|apply ONE; lra]. split; [lra|]. split; [lra|]. split; [apply A1; lra|]. split; [apply A2; lra|auto].
  - destruct B2 as [B|B]; [exists k2|apply ONE; lra]. split; [lra|]. split; [apply A0; lra|]. split; [apply A1; lra|]. split; [lra|auto].
  - destruct B1 as [B|B]; [exists k1|apply ONE; lra]. split; [lra|]. split; [apply A0; lra|]. split; [lra|]. split; [apply A2; lra|auto].
  - destruct B2 as [B|B]; [exists k2|apply ONE; lra]. split; [lra|]. split; [apply A0; lra|]. split; [apply A1; lra|]. split; [lra|auto].
Qed.
Lemma tri_edges : forall q0 q1 q2 y, dot3 (tn q0 q1 q2) (tn q0 q1 q2) <> 0 -> ~ (0 < bar q0 q1 q2 0 /\ 0 < bar q0 q1 q2 1 /\ 0 < bar q0 q1 q2 2) -> triangle q0 q1 q2 y ->
  exists z, (segment q1 q2 z \/ segment q2 q0 z \/ segment q0 q1 z) /\ dot3 z z <= dot3 y y.
Proof.
  intros q0 q1 q2 y N NB (a & b & d & A & B & D & S & ->). pose proof (bar_sum q0 q1 q2 N) as BS. pose proof (foot_perp q0 q1 q2) as FP. cbv zeta in FP.
  set (r0 := bar q0 q1 q2 0) in *. set (r1 := bar q0 q1 q2 1) in *. set (r2 := bar q0 q1 q2 2) in *. set (P := comb r0 r1 r2 q0 q1 q2) in *.
  destruct (exit_edge a b d r0 r1 r2 A B D NB) as (k & K & Z0 & Z1 & Z2 & Z). set (z0 := a + k * (r0 - a)) in *. set (z1 := b + k * (r1 - b)) in *. set (z2 := d + k * (r2 - d)) in *.
  assert (ZS : z0 + z1 + z2 = 1). { unfold z0, z1, z2. replace (a + k * (r0 - a) + (b + k * (r1 - b)) + (d + k * (r2 - d))) with ((1 - k) * (a + b + d) + k * (r0 + r1 + r2)) by ring. rewrite S, BS. ring. }
  exists (comb z0 z1 z2 q0 q1 q2). split.
  - destruct Z as [Z|[Z|Z]].
    + left. exists z2. split; [lra|]. rewrite Z. replace z1 with (1 - z2) by lra. veq.
    + right. left. exists z0. split; [lra|]. rewrite Z. replace z2 with (1 - z0) by lra. veq.
    + right. right. exists z1. split; [lra|]. rewrite Z. replace z0 with (1 - z1) by lra. veq.
  - pose proof (FP a b d N S) as F. set (y := comb a b d q0 q1 q2) in *. set (u := sub3 y P) in *.
    replace y with (add3 P u) by (unfold u; clearbody y P; veq). replace (comb z0 z1 z2 q0 q1 q2) with (add3 P (mul3 (1 - k) u)) by (unfold u, y, P, z0, z1, z2; clearbody r0 r1 r2; veq). clearbody u P.
    replace (dot3 (add3 P u) (add3 P u)) with (dot3 P P + 2 * dot3 P u + dot3 u u) by (u3; ring). replace (dot3 (add3 P (mul3 (1 - k) u)) (add3 P (mul3 (1 - k) u))) with (dot3 P P + 2 * (1 - k) * dot3 P u + (1 - k) * (1 - k) * dot3 u u) by (u3; ring).
    rewrite F. pose proof (dot_pos u). assert ((1 - k) * (1 - k) * dot3 u u <= 1 * dot3 u u); [|lra]. apply Rmult_le_compat_r; auto. replace 1 with (1 * 1) at 3 by ring. apply Rmult_le_compat; lra.
Qed.

Lemma plane_min : forall q0 q1 q2 a b d, dot3 (tn q0 q1 q2) (tn q0 q1 q2) <> 0 -> a + b + d = 1 -> let P := comb (bar q0 q1 q2 0) (bar q0 q1 q2 1) (bar q0 q1 q2 2) q0 q1 q2 in dot3 P P <= dot3 (comb a b d q0 q1 q2) (comb a b d q0 q1 q2).
Proof.
  intros q0 q1 q2 a b d N H P. pose proof (foot_perp q0 q1 q2 a b d N H) as F. cbv zeta in F. fold P in F. set (y := comb a b d q0 q1 q2) in *. clearbody P y. replace y with (add3 P (sub3 y P)) by veq. apply pythagoras. auto.
Qed.
(** The code's coefficients. *)
Lemma vols : forall q0 q1 q2 k, let n := mul3 k (tn q0 q1 q2) in
  Volume_OrgTet q1 q2 n = k * dot3 (cross3 q1 q2) (tn q0 q1 q2) / 6 /\ Volume_OrgTet q2 q0 n = k * dot3 (cross3 q2 q0) (tn q0 q1 q2) / 6 /\ Volume_OrgTet q0 q1 n = k * dot3 (cross3 q0 q1) (tn q0 q1 q2) / 6 /\
  Volume_OrgTet q1 q2 n + Volume_OrgTet q2 q0 n + Volume_OrgTet q0 q1 n = k * dot3 (tn q0 q1 q2) (tn q0 q1 q2) / 6.
Proof.
  intros q0 q1 q2 k n. unfold n. assert (E : dot3 (cross3 q1 q2) (tn q0 q1 q2) + dot3 (cross3 q2 q0) (tn q0 q1 q2) + dot3 (cross3 q0 q1) (tn q0 q1 q2) = dot3 (tn q0 q1 q2) (tn q0 q1 q2)) by (unfold tn; u3; ring).
  set (c := tn q0 q1 q2) in *. clearbody c. assert (F : forall u v, Volume_OrgTet u v (mul3 k c) = k * dot3 (cross3 u v) c / 6) by (intros; u3; field). rewrite !F. repeat split; try reflexivity. rewrite <- E. field.
Qed.
Lemma norm_dot_ne : forall v, 0 < norm3 v -> dot3 v v <> 0. Proof. intros v H. rewrite <- norm_sq. pose proof (Rmult_lt_0_compat _ _ H H). lra. Qed.
Lemma PlaneTri_ok : forall q0 q1 q2, e10 < norm3 (sub3 q1 q0) -> e10 < norm3 (sub3 q2 q0) -> e10 < norm3 (sub3 q1 q2) -> 6 * e10 < norm3 (tn q0 q1 q2) ->
  Nearest_Origin3_PlaneTri3 q0 q1 q2 = Some (comb (bar q0 q1 q2 0) (bar q0 q1 q2 1) (bar q0 q1 q2 2) q0 q1 q2, bar q0 q1 q2 0, bar q0 q1 q2 1).
Proof.
  intros q0 q1 q2 L0 L1 L2 A. pose proof e10_pos as EP. unfold Nearest_Origin3_PlaneTri3.
  pose proof (ltRs e10 (norm3 (sub3 q1 q0))) as Q. destruct (ltR e10 (norm3 (sub3 q1 q0))); [|lra]. clear Q. pose proof (ltRs e10 (norm3 (sub3 q2 q0))) as Q. destruct (ltR e10 (norm3 (sub3 q2 q0))); [|lra]. clear Q. pose proof (ltRs e10 (norm3 (sub3 q1 q2))) as Q. destruct (ltR e10 (norm3 (sub3 q1 q2))); [|lra]. clear Q.
  cbn [assertb bind]. fold (tn q0 q1 q2). pose proof (ltRs e10 (norm3 (tn q0 q1 q2))) as Q. destruct (ltR e10 (norm3 (tn q0 q1 q2))); [|lra]. clear Q. cbn [assertb bind]. cbv zeta.
  destruct (vols q0 q1 q2 (/ norm3 (tn q0 q1 q2))) as (V0 & V1 & V2 & VS). cbv zeta in V0, V1, V2, VS. rewrite VS, V0, V1, V2. set (c := tn q0 q1 q2) in *. set (L := norm3 c) in *. assert (LL : dot3 c c = L * L) by (unfold L; rewrite norm_sq; auto).
  assert (S : / L * dot3 c c / 6 = L / 6) by (rewrite LL; field; lra). rewrite S. rewrite Rabs_pos_eq by lra. pose proof (ltRs e10 (L / 6)) as Q. destruct (ltR e10 (L / 6)); [|lra]. cbn [assertb bind]. unfold bar. cbv zeta. fold c. rewrite LL.
  assert (F : forall x, / L * x / 6 * (1 / (L / 6)) = x / (L * L)) by (intros; field; lra). rewrite !F. reflexivity.
Qed.
Lemma PlaneTri_assert : forall q0 q1 q2, e10 < norm3 (sub3 q1 q0) -> e10 < norm3 (sub3 q2 q0) -> e10 < norm3 (sub3 q1 q2) -> e10 < norm3 (tn q0 q1 q2) <= 6 * e10 -> Nearest_Origin3_PlaneTri3 q0 q1 q2 = None.
Proof.
  intros q0 q1 q2 L0 L1 L2 A. pose proof e10_pos as EP. unfold Nearest_Origin3_PlaneTri3.
  pose proof (ltRs e10 (norm3 (sub3 q1 q0))) as Q. destruct (ltR e10 (norm3 (sub3 q1 q0))); [|lra]. clear Q. pose proof (ltRs e10 (norm3 (sub3 q2 q0))) as Q. destruct (ltR e10 (norm3 (sub3 q2 q0))); [|lra]. clear Q. pose proof (ltRs e10 (norm3 (sub3 q1 q2))) as Q. destruct (ltR e10 (norm3 (sub3 q1 q2))); [|lra]. clear Q.
  cbn [assertb bind]. fold (tn q0 q1 q2). pose proof (ltRs e10 (norm3 (tn q0 q1 q2))) as Q. destruct (ltR e10 (norm3 (tn q0 q1 q2))); [|lra]. clear Q. cbn [assertb bind]. cbv zeta.
  destruct (vols q0 q1 q2 (/ norm3 (tn q0 q1 q2))) as (V0 & V1 & V2 & VS). cbv zeta in V0, V1, V2, VS. rewrite VS. set (c := tn q0 q1 q2) in *. set (L := norm3 c) in *. assert (LL : dot3 c c = L * L) by (unfold L; rewrite norm_sq; auto).
  assert (S : / L * dot3 c c / 6 = L / 6) by (rewrite LL; field; lra). rewrite S. rewrite Rabs_pos_eq by lra. pose proof (ltRs e10 (L / 6)) as Q. destruct (ltR e10 (L / 6)); [lra|]. reflexivity.
Qed.
Lemma Origin3_Tri3_assert : forall q0 q1 q2, e10 < norm3 (sub3 q1 q0) -> e10 < norm3 (sub3 q2 q0) -> e10 < norm3 (sub3 q1 q2) -> e10 < norm3 (tn q0 q1 q2) <= 6 * e10 -> Nearest_Origin3_Tri3 q0 q1 q2 = None.
Proof.
  intros q0 q1 q2 L0 L1 L2 A. unfold Nearest_Origin3_Tri3. fold (tn q0 q1 q2). pose proof (ltRs e10 (norm3 (tn q0 q1 q2))) as Q. destruct (ltR e10 (norm3 (tn q0 q1 q2))); [|lra]. rewrite PlaneTri_assert; auto.
Qed.
Lemma dist_o : forall x, dist3 x origin3 = norm3 x.
Proof. intros. unfold dist3, norm3. f_equal. u3. ring. Qed.
Lemma seg_tri : forall q0 q1 q2 x, segment q1 q2 x \/ segment q2 q0 x \/ segment q0 q1 x -> triangle q0 q1 q2 x.
Proof.
  intros q0 q1 q2 x [(t & T & ->)|[(t & T & ->)|(t & T & ->)]].
  - exists 0, (1 - t), t. repeat split; try lra. veq.
  - exists t, 0, (1 - t). repeat split; try lra. veq.
  - exists (1 - t), t, 0. repeat split; try lra. veq.
Qed.
Lemma sq_edge : forall u v, e10 < norm3 (sub3 u v) -> e20 <= d2 u v.
Proof. intros u v H. unfold d2. rewrite <- norm_sq, e20_sq. pose proof e10_pos. apply Rmult_le_compat; lra. Qed.
Lemma d2_comm : forall u v, d2 u v = d2 v u. Proof. intros. unfold d2. u3. ring. Qed.
Lemma Nearest_Origin3_Tri3_ok : forall q0 q1 q2, e10 < norm3 (sub3 q1 q0) -> e10 < norm3 (sub3 q2 q0) -> e10 < norm3 (sub3 q1 q2) -> 6 * e10 < norm3 (tn q0 q1 q2) ->
  exists x r0 r1, Nearest_Origin3_Tri3 q0 q1 q2 = Some (x, r0, r1) /\ 0 <= r0 /\ 0 <= r1 /\ r0 + r1 <= 1 /\ x = comb r0 r1 (1 - r0 - r1) q0 q1 q2 /\ forall y, triangle q0 q1 q2 y -> norm3 x <= norm3 y.
Proof.
  intros q0 q1 q2 L0 L1 L2 A. pose proof e10_pos as EP. unfold Nearest_Origin3_Tri3. fold (tn q0 q1 q2). pose proof (ltRs e10 (norm3 (tn q0 q1 q2))) as Q. destruct (ltR e10 (norm3 (tn q0 q1 q2))); [|lra]. clear Q. rewrite PlaneTri_ok by auto. cbn [bind].
  assert (N : dot3 (tn q0 q1 q2) (tn q0 q1 q2) <> 0) by (apply norm_dot_ne; lra). pose proof (bar_sum q0 q1 q2 N) as BS. pose proof (plane_min q0 q1 q2) as PM. cbv zeta in PM. pose proof (tri_edges q0 q1 q2) as TE.
  set (r0 := bar q0 q1 q2 0) in *. set (r1 := bar q0 q1 q2 1) in *. set (r2 := bar q0 q1 q2 2) in *. replace (1 - r0 - r1) with r2 by lra.
  pose proof (ltRs 0 r0) as Q0. pose proof (ltRs 0 r1) as Q1. pose proof (ltRs 0 r2) as Q2. destruct (ltR 0 r0 && ltR 0 r1 && ltR 0 r2) eqn:B.
  - apply andb_prop in B. destruct B as (B & B2). apply andb_prop in B. destruct B as (B0 & B1). rewrite B0 in Q0. rewrite B1 in Q1. rewrite B2 in Q2. eexists _, _, _. split; [reflexivity|]. split; [lra|]. split; [lra|]. split; [lra|]. split; [replace (1 - r0 - r1) with r2 by lra; auto|].
    intros y (a & b & d & _ & _ & _ & S & ->). apply norm_le. auto.
  - assert (NB : ~ (0 < r0 /\ 0 < r1 /\ 0 < r2)) by (intros (X & Y & Z); destruct (ltR 0 r0), (ltR 0 r1), (ltR 0 r2); try discriminate; lra). clear B Q0 Q1 Q2.
    destruct (Nearest_Origin_Edge_ok q1 q2) as (s2 & E2 & T2 & G2 & _). destruct (Nearest_Origin_Edge_ok q2 q0) as (s0 & E0 & T0 & G0 & _). destruct (Nearest_Origin_Edge_ok q0 q1) as (s1 & E1 & T1 & G1 & _). rewrite E2, E0, E1.
    specialize (G2 ltac:(rewrite d2_comm; apply sq_edge; auto)). specialize (G0 ltac:(rewrite d2_comm; apply sq_edge; auto)). specialize (G1 ltac:(apply sq_edge; auto)).
    set (p12 := comb (1 - s2) s2 0 q1 q2 origin3) in *. set (p20 := comb (1 - s0) s0 0 q2 q0 origin3) in *. set (p01 := comb (1 - s1) s1 0 q0 q1 origin3) in *. cbv zeta.
    assert (FIN : forall x a b, 0 <= a -> 0 <= b -> a + b <= 1 -> x = comb a b (1 - a - b) q0 q1 q2 -> norm3 x <= norm3 p12 -> norm3 x <= norm3 p20 -> norm3 x <= norm3 p01 ->
      exists x' r0' r1', Some (x, a, b) = Some (x', r0', r1') /\ 0 <= r0' /\ 0 <= r1' /\ r0' + r1' <= 1 /\ x' = comb r0' r1' (1 - r0' - r1') q0 q1 q2 /\ forall y, triangle q0 q1 q2 y -> norm3 x' <= norm3 y).
    { intros x a b Ha Hb Hab Hx M12 M20 M01. exists x, a, b. split; [reflexivity|]. split; [exact Ha|]. split; [exact Hb|]. split; [exact Hab|]. split; [exact Hx|]. intros y Hy. destruct (TE y N NB Hy) as (z & Z & ZY). apply norm_le in ZY.
      eapply Rle_trans; [|exact ZY]. destruct Z as [(t & Ht & ->)|[(t & Ht & ->)|(t & Ht & ->)]].
      - eapply Rle_trans; [exact M12|]. apply norm_le. auto.
      - eapply Rle_trans; [exact M20|]. apply norm_le. auto.
      - eapply Rle_trans; [exact M01|]. apply norm_le. auto. }
    clearbody r0 r1 r2.
    pose proof (ltRs (norm3 p12) (norm3 q0)) as Q0. destruct (ltR (norm3 p12) (norm3 q0)).
    + pose proof (ltRs (norm3 p20) (norm3 p12)) as Q1. destruct (ltR (norm3 p20) (norm3 p12)).
      * pose proof (ltRs (norm3 p01) (norm3 p20)) as Q2. destruct (ltR (norm3 p01) (norm3 p20)); apply FIN; try lra; unfold p01, p20; veq.
      * pose proof (ltRs (norm3 p01) (norm3 p12)) as Q2. destruct (ltR (norm3 p01) (norm3 p12)); apply FIN; try lra; unfold p01, p12; veq.
    + pose proof (ltRs (norm3 p20) (norm3 q0)) as Q1. destruct (ltR (norm3 p20) (norm3 q0)).
      * pose proof (ltRs (norm3 p01) (norm3 p20)) as Q2. destruct (ltR (norm3 p01) (norm3 p20)); apply FIN; try lra; unfold p01, p20; veq.
      * pose proof (ltRs (norm3 p01) (norm3 q0)) as Q2. destruct (ltR (norm3 p01) (norm3 q0)); apply FIN; try lra; unfold p01; veq.
Qed.

(** A point and a triangle. *)
Definition vol6 (p q0 q1 q2 : vec3) : R := dot3 (sub3 q0 p) (cross3 (sub3 q1 p) (sub3 q2 p)).
Lemma Volume_Tet3_ok : forall p q0 q1 q2, Volume_Tet3 p q0 q1 q2 = vol6 p q0 q1 q2 / 6.
Proof. intros. unfold vol6. u3. field. Qed.
Lemma unit_normal : forall q0 q1 q2, fst (UnitNormalAreaTri3 q0 q1 q2) = mul3 (/ norm3 (tn q0 q1 q2)) (tn q0 q1 q2).
Proof.
  intros. unfold UnitNormalAreaTri3. cbv zeta. cbn [fst]. assert (E : Normal_Tri3 q0 q1 q2 = tn q0 q1 q2) by reflexivity. rewrite E. f_equal. replace (norm3 (tn q0 q1 q2) / 2 * 2) with (norm3 (tn q0 q1 q2)) by field. unfold Rdiv. rewrite Rmult_1_l. auto.
Qed.
Lemma tn_shift : forall p q0 q1 q2, tn (sub3 q0 p) (sub3 q1 p) (sub3 q2 p) = tn q0 q1 q2. Proof. intros. unfold tn. f_equal; veq. Qed.
Lemma tet_org : forall p u v n, Volume_Tet3 p u v (add3 p n) = Volume_OrgTet (sub3 u p) (sub3 v p) n. Proof. intros. u3. ring. Qed.
Lemma seg_ratio : forall a b t, 0 <= t <= 1 -> 0 < norm3 (sub3 a b) -> norm3 (sub3 (comb (1 - t) t 0 a b origin3) b) / norm3 (sub3 a b) = 1 - t.
Proof. intros a b t T N. replace (sub3 (comb (1 - t) t 0 a b origin3) b) with (mul3 (1 - t) (sub3 a b)) by veq. rewrite norm_scale, Rabs_pos_eq by lra. field. lra. Qed.
Lemma seg_ratio' : forall a b t, 0 <= t <= 1 -> 0 < norm3 (sub3 b a) -> norm3 (sub3 (comb (1 - t) t 0 a b origin3) a) / norm3 (sub3 b a) = t.
Proof. intros a b t T N. replace (sub3 (comb (1 - t) t 0 a b origin3) a) with (mul3 t (sub3 b a)) by veq. rewrite norm_scale, Rabs_pos_eq by lra. field. lra. Qed.
Lemma sq_edge' : forall u v, e10 < norm3 (sub3 u v) -> e20 < d2 u v.
Proof. intros u v H. unfold d2. rewrite <- norm_sq, e20_sq. pose proof e10_pos. apply Rmult_le_0_lt_compat; lra. Qed.

(** The stage of the edges. *)
Definition edge_stage (ps q0 q1 q2 : vec3) : option (vec3 * R * R) :=
    let r12 := Nearest_Edge3_Point3 ps q1 q2 in
    let r20 := Nearest_Edge3_Point3 ps q2 q0 in
    let r01 := Nearest_Edge3_Point3 ps q0 q1 in
    let d12 := norm3 (sub3 r12 ps) in
    let d20 := norm3 (sub3 r20 ps) in
    let d01 := norm3 (sub3 r01 ps) in
    let last := let r0 := norm3 (sub3 r01 q1) / norm3 (sub3 q0 q1) in Some (r01, r0, 1 - r0) in
    if ltR d12 d20 then
      if ltR d12 d01 then Some (r12, 0, norm3 (sub3 r12 q2) / norm3 (sub3 q1 q2)) else last
    else
      if ltR d20 d01 then Some (r20, norm3 (sub3 r20 q2) / norm3 (sub3 q0 q2), 0) else last.
Definition border (q0 q1 q2 x : vec3) : Prop := segment q0 q1 x \/ segment q1 q2 x \/ segment q2 q0 x.
Lemma edge_stage_ok : forall p q0 q1 q2, e10 < norm3 (sub3 q0 q1) -> e10 < norm3 (sub3 q1 q2) -> e10 < norm3 (sub3 q2 q0) ->
  exists x r0 r1, edge_stage p q0 q1 q2 = Some (x, r0, r1) /\ 0 <= r0 /\ 0 <= r1 /\ r0 + r1 <= 1 /\ x = comb r0 r1 (1 - r0 - r1) q0 q1 q2 /\ closest (border q0 q1 q2) p x.
Proof.
  intros p q0 q1 q2 L01 L12 L20. pose proof e10_pos. unfold edge_stage. cbv zeta.
  destruct (Nearest_Edge3_Point3_ok p q1 q2) as (t12 & E12 & T12 & C12 & _). destruct (Nearest_Edge3_Point3_ok p q2 q0) as (t20 & E20 & T20 & C20 & _). destruct (Nearest_Edge3_Point3_ok p q0 q1) as (t01 & E01 & T01 & C01 & _). rewrite E12, E20, E01.
  apply sq_edge' in L01 as M01. apply sq_edge' in L12 as M12. apply sq_edge' in L20 as M20. destruct (C12 M12) as (_ & D12). destruct (C20 M20) as (_ & D20). destruct (C01 M01) as (_ & D01). clear C12 C20 C01.
  rewrite (seg_ratio q1 q2 t12) by (auto; lra). rewrite (seg_ratio q0 q1 t01) by (auto; lra). assert (N20 : norm3 (sub3 q0 q2) = norm3 (sub3 q2 q0)) by apply norm_neg. rewrite (seg_ratio' q2 q0 t20) by (auto; lra). rewrite <- !dist_norm.
  set (p12 := comb (1 - t12) t12 0 q1 q2 origin3) in *. set (p20 := comb (1 - t20) t20 0 q2 q0 origin3) in *. set (p01 := comb (1 - t01) t01 0 q0 q1 origin3) in *.
  assert (F12 : segment q1 q2 p12) by (exists t12; auto). assert (F20 : segment q2 q0 p20) by (exists t20; auto). assert (F01 : segment q0 q1 p01) by (exists t01; auto).
  pose proof (ltRs (dist3 p12 p) (dist3 p20 p)) as Q0. pose proof (ltRs (dist3 p12 p) (dist3 p01 p)) as Q1. pose proof (ltRs (dist3 p20 p) (dist3 p01 p)) as Q2.
  assert (FIN : forall x, border q0 q1 q2 x -> dist3 x p <= dist3 p12 p -> dist3 x p <= dist3 p20 p -> dist3 x p <= dist3 p01 p -> closest (border q0 q1 q2) p x).
  { intros x B X0 X1 X2. split; auto. intros y [Y|[Y|Y]]; [specialize (D01 y Y)|specialize (D12 y Y)|specialize (D20 y Y)]; lra. }
  assert (last : dist3 p01 p <= dist3 p12 p -> dist3 p01 p <= dist3 p20 p -> exists x r0 r1, Some (p01, 1 - t01, 1 - (1 - t01)) = Some (x, r0, r1) /\ 0 <= r0 /\ 0 <= r1 /\ r0 + r1 <= 1 /\ x = comb r0 r1 (1 - r0 - r1) q0 q1 q2 /\ closest (border q0 q1 q2) p x).
  { intros. eexists _, _, _. split; [reflexivity|]. split; [lra|]. split; [lra|]. split; [lra|]. split; [unfold p01; veq|]. apply FIN; try lra. left; auto. }
  destruct (ltR (dist3 p12 p) (dist3 p20 p)).
  - destruct (ltR (dist3 p12 p) (dist3 p01 p)); [|apply last; lra]. eexists _, _, _. split; [reflexivity|]. split; [lra|]. split; [lra|]. split; [lra|]. split; [unfold p12; veq|]. apply FIN; try lra. right; left; auto.
  - destruct (ltR (dist3 p20 p) (dist3 p01 p)); [|apply last; lra]. eexists _, _, _. split; [reflexivity|]. split; [lra|]. split; [lra|]. split; [lra|]. split; [unfold p20; veq|]. apply FIN; try lra. right; right; auto.
Qed.
Lemma Triangle3_Point3_flat : forall p q0 q1 q2, Rabs (vol6 p q0 q1 q2) <= 6 * e10 -> Nearest_Triangle3_Point3 p q0 q1 q2 = edge_stage p q0 q1 q2.
Proof.
  intros p q0 q1 q2 H. unfold Nearest_Triangle3_Point3. destruct (UnitNormalAreaTri3 q0 q1 q2) as (n, ar). cbv zeta. rewrite (Volume_Tet3_ok p q0 q1 q2). pose proof (ltRs e10 (Rabs (vol6 p q0 q1 q2 / 6))) as Q. destruct (ltR e10 (Rabs (vol6 p q0 q1 q2 / 6))); [|reflexivity].
  unfold Rdiv in Q. rewrite Rabs_mult, (Rabs_pos_eq (/ 6)) in Q by lra. lra.
Qed.
Lemma Triangle3_Point3_off : forall p q0 q1 q2, 6 * e10 < Rabs (vol6 p q0 q1 q2) -> 0 < norm3 (tn q0 q1 q2) -> let r i := bar (sub3 q0 p) (sub3 q1 p) (sub3 q2 p) i in
  Nearest_Triangle3_Point3 p q0 q1 q2 = if ltR e10 (norm3 (tn q0 q1 q2) / 6) then if ltR (- / 10 ^ 4) (r 0%nat) && ltR (- / 10 ^ 4) (r 1%nat) && ltR (- / 10 ^ 4) (r 2%nat) then Some (comb (r 0%nat) (r 1%nat) (r 2%nat) q0 q1 q2, r 0%nat, r 1%nat) else edge_stage p q0 q1 q2 else None.
Proof.
  intros p q0 q1 q2 HV HN r. unfold Nearest_Triangle3_Point3. pose proof (unit_normal q0 q1 q2) as UN. destruct (UnitNormalAreaTri3 q0 q1 q2) as (n, ar). cbn [fst] in UN. cbv zeta. rewrite (Volume_Tet3_ok p q0 q1 q2).
  pose proof (ltRs e10 (Rabs (vol6 p q0 q1 q2 / 6))) as Q. destruct (ltR e10 (Rabs (vol6 p q0 q1 q2 / 6))). 2:{ unfold Rdiv in Q. rewrite Rabs_mult, (Rabs_pos_eq (/ 6)) in Q by lra. lra. }
  rewrite !tet_org. pose proof (vols (sub3 q0 p) (sub3 q1 p) (sub3 q2 p) (/ norm3 (tn q0 q1 q2))) as (V0 & V1 & V2 & VS). rewrite tn_shift in V0, V1, V2, VS. rewrite <- UN in V0, V1, V2, VS.
  set (sg := if ltR 0 (vol6 p q0 q1 q2 / 6) then 1 else -1). assert (SG : Rabs sg = 1 /\ sg <> 0) by (unfold sg; destruct (ltR 0 _); split; try lra; [apply Rabs_pos_eq; lra|rewrite Rabs_left; lra]). destruct SG as (SG & SN). clearbody sg.
  rewrite <- !Rmult_plus_distr_r, VS. set (c := tn q0 q1 q2) in *. set (L := norm3 c) in *. assert (LL : dot3 c c = L * L) by (unfold L; rewrite norm_sq; auto). rewrite LL. replace (/ L * (L * L) / 6) with (L / 6) by (field; lra). rewrite Rabs_mult, SG, Rmult_1_r, (Rabs_pos_eq (L / 6)) by lra.
  destruct (ltR e10 (L / 6)); [|reflexivity]. cbn [assertb bind].
  assert (R0 : Volume_OrgTet (sub3 q1 p) (sub3 q2 p) n * sg * (1 / (L / 6 * sg)) = r 0%nat) by (unfold r, bar; cbv zeta; rewrite V0, tn_shift; fold c; rewrite LL; field; split; lra).
  assert (R1 : Volume_OrgTet (sub3 q2 p) (sub3 q0 p) n * sg * (1 / (L / 6 * sg)) = r 1%nat) by (unfold r, bar; cbv zeta; rewrite V1, tn_shift; fold c; rewrite LL; field; split; lra).
  rewrite R0, R1. assert (BS : r 0%nat + r 1%nat + r 2%nat = 1) by (apply bar_sum; rewrite tn_shift; fold c; rewrite LL; pose proof (Rmult_lt_0_compat _ _ HN HN); lra). replace (1 - r 0%nat - r 1%nat) with (r 2%nat) by lra.
  destruct (ltR _ (r 0%nat) && _ && _); [|reflexivity]. reflexivity.
Qed.
Lemma comb_shift : forall a b d p q0 q1 q2, a + b + d = 1 -> sub3 (comb a b d q0 q1 q2) p = comb a b d (sub3 q0 p) (sub3 q1 p) (sub3 q2 p).
Proof. intros. replace a with (1 - b - d) by lra. veq. Qed.
Lemma Triangle3_Point3_ok : forall p q0 q1 q2, e10 < norm3 (sub3 q0 q1) -> e10 < norm3 (sub3 q1 q2) -> e10 < norm3 (sub3 q2 q0) -> 6 * e10 < norm3 (tn q0 q1 q2) -> 6 * e10 < Rabs (vol6 p q0 q1 q2) ->
  exists x r0 r1, Nearest_Triangle3_Point3 p q0 q1 q2 = Some (x, r0, r1) /\ x = comb r0 r1 (1 - r0 - r1) q0 q1 q2 /\ - / 10 ^ 4 < r0 /\ - / 10 ^ 4 < r1 /\ - / 10 ^ 4 < 1 - r0 - r1 /\ forall y, triangle q0 q1 q2 y -> dist3 x p <= dist3 y p.
Proof.
  intros p q0 q1 q2 L01 L12 L20 A V. pose proof e10_pos as EP. pose proof (Triangle3_Point3_off p q0 q1 q2 V ltac:(lra)) as E. cbv zeta in E. rewrite E. clear E.
  pose proof (ltRs e10 (norm3 (tn q0 q1 q2) / 6)) as Q. destruct (ltR e10 (norm3 (tn q0 q1 q2) / 6)); [|lra]. clear Q.
  assert (N : dot3 (tn (sub3 q0 p) (sub3 q1 p) (sub3 q2 p)) (tn (sub3 q0 p) (sub3 q1 p) (sub3 q2 p)) <> 0) by (rewrite tn_shift; apply norm_dot_ne; lra). pose proof (bar_sum _ _ _ N) as BS. pose proof (plane_min (sub3 q0 p) (sub3 q1 p) (sub3 q2 p)) as PM. cbv zeta in PM. pose proof (tri_edges (sub3 q0 p) (sub3 q1 p) (sub3 q2 p)) as TE.
  set (r0 := bar _ _ _ 0) in *. set (r1 := bar _ _ _ 1) in *. set (r2 := bar _ _ _ 2) in *. assert (TP : 0 < / 10 ^ 4) by (apply Rinv_0_lt_compat; lra). set (tol := / 10 ^ 4) in *. clearbody tol.
  pose proof (ltRs (- tol) r0) as Q0. pose proof (ltRs (- tol) r1) as Q1. pose proof (ltRs (- tol) r2) as Q2. destruct (ltR (- tol) r0 && ltR (- tol) r1 && ltR (- tol) r2) eqn:B.
  - apply andb_prop in B. destruct B as (B & B2). apply andb_prop in B. destruct B as (B0 & B1). rewrite B0 in Q0. rewrite B1 in Q1. rewrite B2 in Q2. eexists _, _, _. split; [reflexivity|]. replace (1 - r0 - r1) with r2 by lra. split; [reflexivity|]. split; [lra|]. split; [lra|]. split; [lra|].
    intros y (a & b & d & _ & _ & _ & S & ->). apply dist_le. unfold d2. rewrite !comb_shift by auto. auto.
  - assert (NB : ~ (0 < r0 /\ 0 < r1 /\ 0 < r2)) by (intros (X & Y & Z); destruct (ltR (- tol) r0), (ltR (- tol) r1), (ltR (- tol) r2); try discriminate; lra).
    destruct (edge_stage_ok p q0 q1 q2 L01 L12 L20) as (x & a & b & E & A0 & B0 & AB & X & BX & CL). exists x, a, b. split; auto. split; auto. split; [lra|]. split; [lra|]. split; [lra|].
    intros y (a' & b' & d' & A' & B' & D' & S' & ->). destruct (TE (comb a' b' d' (sub3 q0 p) (sub3 q1 p) (sub3 q2 p)) N NB) as (z & Z & ZY); [exists a', b', d'; repeat split; auto|].
    eapply Rle_trans; [apply (CL (add3 z p))|].
    + assert (SH : forall u v, segment (sub3 u p) (sub3 v p) z -> segment u v (add3 z p)) by (intros u v (t & T & ->); exists t; split; auto; veq). destruct Z as [Z|[Z|Z]]; [right; left|right; right|left]; apply SH; auto.
    + apply dist_le. unfold d2. rewrite comb_shift by auto. replace (sub3 (add3 z p) p) with z by veq. exact ZY.
Qed.

(** The foot in the plane. *)
Lemma ProjectPointOnTriangle_ok : forall p q0 q1 q2, p <> q0 -> 0 < norm3 (tn q0 q1 q2) -> exists x, ProjectPointOnTriangle p q0 q1 q2 = Some x /\ closest (plane q0 q1 q2) p x.
Proof.
  intros p q0 q1 q2 NE A. unfold ProjectPointOnTriangle. fold (tn q0 q1 q2). cbv zeta.
  assert (PN : 0 < norm3 (sub3 p q0)). { destruct (Rle_lt_or_eq_dec 0 (norm3 (sub3 p q0)) (norm_pos _)) as [|E]; auto. exfalso. apply NE. assert (Z : dot3 (sub3 p q0) (sub3 p q0) = 0) by (rewrite <- norm_sq, <- E; ring). apply dot_zero in Z. unfold sub3, origin3 in Z. injection Z. intros. apply v3_eq; lra. }
  rewrite (norm_neg q0 p). set (k := norm3 (sub3 p q0)) in *. pose proof (norm_dot_ne _ A) as N0. assert (LL : norm3 (tn q0 q1 q2) * norm3 (tn q0 q1 q2) = dot3 (tn q0 q1 q2) (tn q0 q1 q2)) by apply norm_sq. set (L := norm3 (tn q0 q1 q2)) in *. unfold ndiv. pose proof (eqRs (k * L) 0) as Q. pose proof (Rmult_lt_0_compat _ _ PN A). destruct (eqR (k * L) 0); [lra|]. cbn [bind].
  eexists. split; [reflexivity|].
  assert (N : dot3 (tn (sub3 q0 p) (sub3 q1 p) (sub3 q2 p)) (tn (sub3 q0 p) (sub3 q1 p) (sub3 q2 p)) <> 0) by (rewrite tn_shift; auto).
  pose proof (bar_sum _ _ _ N) as BS. pose proof (plane_min (sub3 q0 p) (sub3 q1 p) (sub3 q2 p)) as PM. cbv zeta in PM. pose proof (foot _ _ _ N) as F.
  set (r0 := bar _ _ _ 0) in *. set (r1 := bar _ _ _ 1) in *. set (r2 := bar _ _ _ 2) in *. rewrite tn_shift in F. rewrite <- comb_shift in F by auto.
  assert (X : add3 p (mul3 (/ L) (mul3 (-1 * (k * (dot3 (sub3 p q0) (tn q0 q1 q2) / (k * L)))) (tn q0 q1 q2))) = comb r0 r1 r2 q0 q1 q2).
  { replace (comb r0 r1 r2 q0 q1 q2) with (add3 p (sub3 (comb r0 r1 r2 q0 q1 q2) p)) by (clearbody r0 r1 r2; veq). rewrite F. f_equal. rewrite <- LL. replace (dot3 (sub3 p q0) (tn q0 q1 q2)) with (- dot3 (sub3 q0 p) (tn q0 q1 q2)) by (set (c := tn q0 q1 q2); clearbody c; u3; ring). set (c := tn q0 q1 q2) in *. set (m := dot3 (sub3 q0 p) c). clearbody m k L c. clear - PN A. apply v3_eq; cbn [mul3 vx vy vz]; field; lra. }
  rewrite X. split; [exists r0, r1, r2; auto|]. intros y (a & b & d & S & ->). apply dist_le. unfold d2. rewrite !comb_shift by auto. auto.
Qed.
Lemma DistanceFaceVertex_ok : forall q0 q1 q2 p, 0 < norm3 (tn q0 q1 q2) -> exists d w0 w1, DistanceFaceVertex q0 q1 q2 p = Some (d, w0, w1) /\ let x := comb w0 w1 (1 - w0 - w1) q0 q1 q2 in d = dist3 x p /\ closest (plane q0 q1 q2) p x.
Proof.
  intros q0 q1 q2 p A. unfold DistanceFaceVertex. cbv zeta. set (u := sub3 q0 q2). set (v := sub3 q1 q2). set (b := sub3 p q2).
  assert (DE : dot3 u u * dot3 v v - dot3 u v * dot3 u v = dot3 (tn q0 q1 q2) (tn q0 q1 q2)) by (unfold u, v, tn; u3; ring). rewrite DE. pose proof (norm_dot_ne _ A) as N. unfold ndiv. pose proof (eqRs (dot3 (tn q0 q1 q2) (tn q0 q1 q2)) 0) as Q. destruct (eqR (dot3 (tn q0 q1 q2) (tn q0 q1 q2)) 0); [lra|]. cbn [bind].
  rewrite <- DE in *. set (det := dot3 u u * dot3 v v - dot3 u v * dot3 u v) in *. set (w0 := (_ - _) * (1 / det)). set (w1 := (- dot3 u v * _ + _) * (1 / det)). exists (norm3 (sub3 (add3 (add3 (mul3 w0 q0) (mul3 w1 q1)) (mul3 (1 - w0 - w1) q2)) p)), w0, w1. split; [reflexivity|].
  assert (X : add3 (add3 (mul3 w0 q0) (mul3 w1 q1)) (mul3 (1 - w0 - w1) q2) = comb w0 w1 (1 - w0 - w1) q0 q1 q2) by (clearbody w0 w1; veq). rewrite X. split; [rewrite dist_norm; auto|]. split; [exists w0, w1, (1 - w0 - w1); split; [ring|auto]|].
  set (w := sub3 (comb w0 w1 (1 - w0 - w1) q0 q1 q2) p).
  assert (WE : w = sub3 (add3 (mul3 w0 u) (mul3 w1 v)) b) by (unfold w, u, v, b; clearbody w0 w1; veq).
  assert (WU : dot3 w u = 0). { rewrite WE. replace (dot3 (sub3 (add3 (mul3 w0 u) (mul3 w1 v)) b) u) with (w0 * dot3 u u + w1 * dot3 u v - dot3 u b) by (clearbody w0 w1 u v b; u3; ring). unfold w0, w1, det in *. set (uu := dot3 u u) in *. set (vv := dot3 v v) in *. set (uv := dot3 u v) in *. set (x := dot3 u b). set (y := dot3 v b). clearbody uu vv uv x y. field. auto. }
  assert (WV : dot3 w v = 0). { rewrite WE. replace (dot3 (sub3 (add3 (mul3 w0 u) (mul3 w1 v)) b) v) with (w0 * dot3 u v + w1 * dot3 v v - dot3 v b) by (clearbody w0 w1 u v b; u3; ring). unfold w0, w1, det in *. set (uu := dot3 u u) in *. set (vv := dot3 v v) in *. set (uv := dot3 u v) in *. set (x := dot3 u b). set (y := dot3 v b). clearbody uu vv uv x y. field. auto. }
  intros y (a & b' & d & S & ->). apply dist_le. unfold d2. fold w. replace (sub3 (comb a b' d q0 q1 q2) p) with (add3 w (add3 (mul3 (a - w0) u) (mul3 (b' - w1) v))) by (unfold w, u, v; clearbody w0 w1; replace d with (1 - a - b') by lra; veq). apply pythagoras.
  replace (dot3 w (add3 (mul3 (a - w0) u) (mul3 (b' - w1) v))) with ((a - w0) * dot3 w u + (b' - w1) * dot3 w v) by (clearbody w0 w1 w u v; u3; ring). rewrite WU, WV. ring.
Qed.
