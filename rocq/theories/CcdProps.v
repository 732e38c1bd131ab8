(** C85: times when four moving points are in a plane, for collisions between faces and points and between edges. *)
From Coq Require Import List Arith Bool Reals Lra Lia.
Import ListNotations.
From Verif Require Import Imp PrModel GjkProofs1 PlnProofs1 QuatModel ProxModel CcdModel CcdSpec CcdProofs1 CcdProofs2.
Open Scope R_scope.

(** Without a failed assertion there is an answer; a time that is found is from 0 to 1, and at most 2^-16 from a time from 0 to 1 when the points are in a plane. *)
Theorem C85_found : forall s0 s1 s2 s3 e0 e1 e2 e3, exists a, FindCoplanerInterp s0 s1 s2 s3 e0 e1 e2 e3 = Some a /\
  forall r, a = Some r -> 0 <= r <= 1 /\ exists z, 0 <= z <= 1 /\ moving s0 s1 s2 s3 e0 e1 e2 e3 z = 0 /\ Rabs (r - z) <= 1 / 2 ^ 16.
Proof.
  intros. destruct (find_core s0 s1 s2 s3 e0 e1 e2 e3) as (k0 & k1 & k2 & k3 & C & ->). destruct (core_ok k0 k1 k2 k3) as [(r & -> & G)|(-> & _)]; eexists; (split; [reflexivity|]); [|discriminate]. intros r' E. injection E as <-. destruct G as (G & z & Z & E & W). split; [auto|]. exists z. rewrite (P_eq _ _ _ _ _ C). auto.
Qed.
(** If the sides of the points differ at the times 0 and 1, or the points are in a plane then, a time is found. *)
Theorem C85_crossing : forall s0 s1 s2 s3 e0 e1 e2 e3, moving s0 s1 s2 s3 e0 e1 e2 e3 0 * moving s0 s1 s2 s3 e0 e1 e2 e3 1 <= 0 -> exists r, FindCoplanerInterp s0 s1 s2 s3 e0 e1 e2 e3 = Some (Some r).
Proof.
  intros s0 s1 s2 s3 e0 e1 e2 e3 H. destruct (find_core s0 s1 s2 s3 e0 e1 e2 e3) as (k0 & k1 & k2 & k3 & C & ->). rewrite !(P_eq _ _ _ _ _ C) in H. destruct (core_ok k0 k1 k2 k3) as [(r & -> & _)|(_ & Q & _)]; [eauto|lra].
Qed.
(** If no time is found and the third coefficient of the volume is not tiny, the points are never in a plane. *)
Theorem C85_none_cubic : forall s0 s1 s2 s3 e0 e1 e2 e3 k0 k1 k2 k3, cubic (moving s0 s1 s2 s3 e0 e1 e2 e3) k0 k1 k2 k3 -> / 10 ^ 30 < Rabs k3 ->
  FindCoplanerInterp s0 s1 s2 s3 e0 e1 e2 e3 = Some None -> forall z, 0 <= z <= 1 -> moving s0 s1 s2 s3 e0 e1 e2 e3 z <> 0.
Proof.
  intros s0 s1 s2 s3 e0 e1 e2 e3 k0 k1 k2 k3 C K E z Z N. destruct (find_core s0 s1 s2 s3 e0 e1 e2 e3) as (a0 & a1 & a2 & a3 & C' & E'). destruct (cubic_unique _ _ _ _ _ _ _ _ _ C' C) as (-> & -> & -> & ->). rewrite E' in E. destruct (core_ok k0 k1 k2 k3) as [(r & X & _)|(_ & _ & A & _)]; [congruence|]. specialize (A K z Z). rewrite (P_eq _ _ _ _ _ C) in N. rewrite N in A. lra.
Qed.
(** The same if the volume changes linearly; if it changes as a quadratic function, the side of the points never changes, ... *)
Theorem C85_none_quadratic : forall s0 s1 s2 s3 e0 e1 e2 e3 k0 k1 k2, cubic (moving s0 s1 s2 s3 e0 e1 e2 e3) k0 k1 k2 0 ->
  FindCoplanerInterp s0 s1 s2 s3 e0 e1 e2 e3 = Some None -> forall z, 0 <= z <= 1 ->
  (k2 = 0 -> moving s0 s1 s2 s3 e0 e1 e2 e3 z <> 0) /\ (/ 10 ^ 30 < Rabs k2 -> 0 <= moving s0 s1 s2 s3 e0 e1 e2 e3 0 * moving s0 s1 s2 s3 e0 e1 e2 e3 z).
Proof.
  intros s0 s1 s2 s3 e0 e1 e2 e3 k0 k1 k2 C E z Z. destruct (find_core s0 s1 s2 s3 e0 e1 e2 e3) as (a0 & a1 & a2 & a3 & C' & E'). destruct (cubic_unique _ _ _ _ _ _ _ _ _ C' C) as (-> & -> & -> & ->). rewrite E' in E. destruct (core_ok k0 k1 k2 0) as [(r & X & _)|(_ & _ & _ & A & B)]; [congruence|]. rewrite !(P_eq _ _ _ _ _ C). split.
  - intros K N. specialize (B eq_refl K z Z). rewrite N in B. lra.
  - intros K. apply A; auto.
Qed.
(** ... but a touch is missed: here the points are in a plane at the time 1/2, and no time is found. *)
Theorem C85_touch_refuted : moving (V3 0 0 0) (V3 (-1) 0 0) (V3 0 (-1) 0) (V3 0 0 1) (V3 0 0 0) (V3 1 0 0) (V3 0 1 0) (V3 0 0 1) (1 / 2) = 0 /\
  FindCoplanerInterp (V3 0 0 0) (V3 (-1) 0 0) (V3 0 (-1) 0) (V3 0 0 1) (V3 0 0 0) (V3 1 0 0) (V3 0 1 0) (V3 0 0 1) = Some None.
Proof.
  set (f := moving (V3 0 0 0) (V3 (-1) 0 0) (V3 0 (-1) 0) (V3 0 0 1) (V3 0 0 0) (V3 1 0 0) (V3 0 1 0) (V3 0 0 1)).
  assert (F : cubic f 1 (-4) 4 0) by (intros t; unfold f, moving, volume6, at_time, dot3, cross3, sub3, add3, mul3; cbn [vx vy vz]; ring). split; [rewrite F; field|].
  destruct (find_core (V3 0 0 0) (V3 (-1) 0 0) (V3 0 (-1) 0) (V3 0 0 1) (V3 0 0 0) (V3 1 0 0) (V3 0 1 0) (V3 0 0 1)) as (a0 & a1 & a2 & a3 & C & ->). destruct (cubic_unique _ _ _ _ _ _ _ _ _ C F) as (-> & -> & -> & ->).
  unfold core, P. cbv zeta. replace (EvaluateCubic 0 1 (-4) 4 0) with 1 by (unfold EvaluateCubic; ring). replace (EvaluateCubic 1 1 (-4) 4 0) with 1 by (unfold EvaluateCubic; ring). rewrite ltRt by lra. cbn [negb]. assert (E30 : 0 < e30 < 1). { unfold e30. split; [apply Rinv_0_lt_compat, pow_lt; lra|]. rewrite <- Rinv_1. apply Rinv_lt_contravar; [rewrite Rmult_1_l; apply pow_lt; lra|]. apply Rlt_pow_R1; [lra|lia]. }
  rewrite Rabs_R0. rewrite (ltRf e30 0) by lra. rewrite (Rabs_pos_eq 4) by lra. rewrite (ltRt e30 4) by lra. unfold try_quadric. cbv zeta. replace (- -4 / (2 * 4)) with (1 / 2) by field. rewrite !ltRt by lra. cbn [andb]. replace (EvaluateCubic (1 / 2) 1 (-4) 4 0) with 0 by (unfold EvaluateCubic; field). rewrite ltRf by lra. auto.
Qed.

(** *** Cases *)
(** A point falls through a triangle. *)
Example ex_fall : exists r, FindCoplanerInterp (V3 0 0 0) (V3 1 0 0) (V3 0 1 0) (V3 0 0 1) (V3 0 0 0) (V3 1 0 0) (V3 0 1 0) (V3 0 0 (-1)) = Some (Some r).
Proof. apply C85_crossing. unfold moving, volume6, at_time, dot3, cross3, sub3, add3, mul3. cbn [vx vy vz]. lra. Qed.
(** A motion with a third coefficient that is not 0. *)
Example ex_cubic : cubic (moving (V3 0 0 0) (V3 1 0 0) (V3 0 1 0) (V3 0 0 1) (V3 0 0 0) (V3 2 0 0) (V3 0 2 0) (V3 0 0 2)) 1 3 3 1.
Proof. intros t. unfold moving, volume6, at_time, dot3, cross3, sub3, add3, mul3. cbn [vx vy vz]. ring. Qed.
Example ex_none : FindCoplanerInterp (V3 0 0 0) (V3 1 0 0) (V3 0 1 0) (V3 0 0 1) (V3 0 0 0) (V3 2 0 0) (V3 0 2 0) (V3 0 0 2) = Some None.
Proof.
  destruct (C85_found (V3 0 0 0) (V3 1 0 0) (V3 0 1 0) (V3 0 0 1) (V3 0 0 0) (V3 2 0 0) (V3 0 2 0) (V3 0 0 2)) as ([r|] & E & H); [|exact E]. exfalso. destruct (H r eq_refl) as (_ & z & Z & M & _). rewrite ex_cubic in M. assert (0 <= z ^ 2) by (apply pow_le; lra). assert (0 <= z ^ 3) by (apply pow_le; lra). lra.
Qed.

Print Assumptions C85_found.
Print Assumptions C85_crossing.
Print Assumptions C85_none_cubic.
Print Assumptions C85_none_quadratic.
Print Assumptions C85_touch_refuted.
