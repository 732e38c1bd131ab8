(** Times when four moving points are in a plane. *)
From Coq Require Import List Arith Bool Reals Lra Lia.
Import ListNotations.
From Verif Require Import Imp PrModel GjkProofs1 PlnProofs1 QuatModel ProxModel CcdModel CcdSpec CcdProofs1.
Open Scope R_scope.

Definition core (k0 k1 k2 k3 : R) : option (option R) :=
  let f0 := P k0 k1 k2 k3 0 in
  let f1 := P k0 k1 k2 k3 1 in
  if negb (ltR 0 (f0 * f1)) then (r <- FindRootCubic_Bisect 0 1 f0 f1 k0 k1 k2 k3 ;; Some (Some r)) else
  if ltR e30 (Rabs k3) then try_cubic f0 k0 k1 k2 k3 else
  if ltR e30 (Rabs k2) then try_quadric f0 k0 k1 k2 k3 else
  Some None.
Lemma at_diff : forall s0 e0 s1 e1 t, sub3 (at_time s1 e1 t) (at_time s0 e0 t) = add3 (sub3 s1 s0) (mul3 t (sub3 (sub3 e1 e0) (sub3 s1 s0))).
Proof. intros [] [] [] [] t. unfold at_time, sub3, add3, mul3. cbn. f_equal; ring. Qed.
Lemma find_core : forall s0 s1 s2 s3 e0 e1 e2 e3, exists k0 k1 k2 k3, cubic (moving s0 s1 s2 s3 e0 e1 e2 e3) k0 k1 k2 k3 /\ FindCoplanerInterp s0 s1 s2 s3 e0 e1 e2 e3 = core k0 k1 k2 k3.
Proof.
  intros s0 s1 s2 s3 e0 e1 e2 e3. 
  set (x1 := sub3 s1 s0). set (x2 := sub3 s2 s0). set (x3 := sub3 s3 s0). set (v1 := sub3 (sub3 e1 e0) x1). set (v2 := sub3 (sub3 e2 e0) x2). set (v3 := sub3 (sub3 e3 e0) x3).
  exists (ScalarTripleProduct x3 x1 x2), (ScalarTripleProduct v3 x1 x2 + ScalarTripleProduct x3 v1 x2 + ScalarTripleProduct x3 x1 v2), (ScalarTripleProduct v3 v1 x2 + ScalarTripleProduct v3 x1 v2 + ScalarTripleProduct x3 v1 v2), (ScalarTripleProduct v3 v1 v2).
  split; [|unfold FindCoplanerInterp, core, P; reflexivity]. intros t.
  unfold moving, volume6. rewrite !at_diff. fold x1 x2 x3. fold v1 v2 v3. clearbody v1 v2 v3. clearbody x1 x2 x3. destruct x1, x2, x3, v1, v2, v3.
  unfold ScalarTripleProduct, dot3, cross3, add3, mul3. cbn. ring.
Qed.
Lemma P_eq : forall f k0 k1 k2 k3, cubic f k0 k1 k2 k3 -> forall t, f t = P k0 k1 k2 k3 t.
Proof. intros f k0 k1 k2 k3 C t. rewrite C. unfold P, EvaluateCubic. ring. Qed.
(** A good answer. *)
Definition good (k0 k1 k2 k3 r : R) : Prop := 0 <= r <= 1 /\ exists z, 0 <= z <= 1 /\ P k0 k1 k2 k3 z = 0 /\ Rabs (r - z) <= 1 / 2 ^ 16.
Lemma good_root : forall k0 k1 k2 k3 r, 0 <= r <= 1 -> P k0 k1 k2 k3 r = 0 -> good k0 k1 k2 k3 r.
Proof. intros k0 k1 k2 k3 r R0 Z. split; [auto|]. exists r. split; [auto|]. split; [auto|]. rewrite Rminus_diag_eq, Rabs_R0 by auto. apply Rmult_le_pos; [lra|left; apply Rinv_0_lt_compat, pow_lt; lra]. Qed.
(** One extreme value. *)
Definition try (k0 k1 k2 k3 r3 : R) (next : option (option R)) : option (option R) :=
    if ltR 0 r3 && ltR r3 1 then
      let f3 := EvaluateCubic r3 k0 k1 k2 k3 in
      if eqR f3 0 then Some (Some r3) else
      if ltR (P k0 k1 k2 k3 0 * f3) 0 then (r <- FindRootCubic_Bisect 0 r3 (P k0 k1 k2 k3 0) f3 k0 k1 k2 k3 ;; Some (Some r)) else next
    else next.
Lemma try_ok : forall k0 k1 k2 k3 r3 next, (exists r, try k0 k1 k2 k3 r3 next = Some (Some r) /\ good k0 k1 k2 k3 r) \/ (try k0 k1 k2 k3 r3 next = next /\ (0 < r3 < 1 -> P k0 k1 k2 k3 r3 <> 0 /\ 0 <= P k0 k1 k2 k3 0 * P k0 k1 k2 k3 r3)).
Proof.
  intros k0 k1 k2 k3 r3 next. unfold try. change (EvaluateCubic r3 k0 k1 k2 k3) with (P k0 k1 k2 k3 r3). cbv zeta. pose proof (ltRs 0 r3) as Q0. destruct (ltR 0 r3); cbn [andb]; [|right; split; [auto|lra]]. pose proof (ltRs r3 1) as Q1. destruct (ltR r3 1); [|right; split; [auto|lra]].
  pose proof (eqRs (P k0 k1 k2 k3 r3) 0) as Q2. destruct (eqR (P k0 k1 k2 k3 r3) 0); [left; eexists; split; [reflexivity|apply good_root; auto; lra]|].
  pose proof (ltRs (P k0 k1 k2 k3 0 * P k0 k1 k2 k3 r3) 0) as Q3. destruct (ltR (P k0 k1 k2 k3 0 * P k0 k1 k2 k3 r3) 0); [|right; auto].
  left. destruct (find_ok k0 k1 k2 k3 r3 ltac:(lra) ltac:(lra)) as (r & E & G). exists r. rewrite E. split; [reflexivity|exact G].
Qed.
(** With an answer, or without one: what is known. *)
Lemma core_ok : forall k0 k1 k2 k3, (exists r, core k0 k1 k2 k3 = Some (Some r) /\ good k0 k1 k2 k3 r) \/
  (core k0 k1 k2 k3 = Some None /\ 0 < P k0 k1 k2 k3 0 * P k0 k1 k2 k3 1 /\ (e30 < Rabs k3 -> forall z, 0 <= z <= 1 -> 0 < P k0 k1 k2 k3 0 * P k0 k1 k2 k3 z) /\
    (k3 = 0 -> e30 < Rabs k2 -> forall z, 0 <= z <= 1 -> 0 <= P k0 k1 k2 k3 0 * P k0 k1 k2 k3 z) /\ (k3 = 0 -> k2 = 0 -> forall z, 0 <= z <= 1 -> 0 < P k0 k1 k2 k3 0 * P k0 k1 k2 k3 z)).
Proof.
  intros k0 k1 k2 k3. unfold core. cbv zeta. assert (E30 : 0 < e30) by (unfold e30; apply Rinv_0_lt_compat, pow_lt; lra). pose proof (ltRs 0 (P k0 k1 k2 k3 0 * P k0 k1 k2 k3 1)) as Q. destruct (ltR 0 (P k0 k1 k2 k3 0 * P k0 k1 k2 k3 1)); cbn [negb].
  2:{ left. destruct (find_ok k0 k1 k2 k3 1 ltac:(lra) Q) as (r & E & G). exists r. rewrite E. split; [reflexivity|exact G]. }
  assert (C0 : P k0 k1 k2 k3 0 <> 0) by (intros E; rewrite E in Q; lra).
  assert (LIN : k3 = 0 -> k2 = 0 -> forall z, 0 <= z <= 1 -> 0 < P k0 k1 k2 k3 0 * P k0 k1 k2 k3 z).
  { intros -> -> z Z. replace (P k0 k1 0 0 0 * P k0 k1 0 0 z) with ((1 - z) * (P k0 k1 0 0 0 * P k0 k1 0 0 0) + z * (P k0 k1 0 0 0 * P k0 k1 0 0 1)) by (unfold P, EvaluateCubic; ring). assert (0 < P k0 k1 0 0 0 * P k0 k1 0 0 0) by (apply Rsqr_pos_lt; auto). destruct (Req_dec z 0) as [->|]; [lra|]. assert (0 < z * (P k0 k1 0 0 0 * P k0 k1 0 0 1)) by (apply Rmult_lt_0_compat; lra). assert (0 <= (1 - z) * (P k0 k1 0 0 0 * P k0 k1 0 0 0)) by (apply Rmult_le_pos; lra). lra. }
  pose proof (ltRs e30 (Rabs k3)) as Q3. destruct (ltR e30 (Rabs k3)).
  - assert (N3 : k3 <> 0) by (intros E; rewrite E, Rabs_R0 in Q3; lra). unfold try_cubic. cbv zeta. pose proof (ltRs (k2 * k2 - 3 * k1 * k3) 0) as QD. destruct (ltR (k2 * k2 - 3 * k1 * k3) 0).
    { right. split; [auto|]. split; [auto|]. split; [|split; [intros; contradiction|exact LIN]]. intros _ z Z. apply Rnot_le_lt. intros N. destruct (dip _ _ _ _ _ Q Z N) as (m & _ & _ & D). destruct (crit k1 k2 k3 m N3 D). lra. }
    change ((exists r, try k0 k1 k2 k3 ((- k2 - sqrt (k2 * k2 - 3 * k1 * k3)) / (3 * k3)) (try k0 k1 k2 k3 ((- k2 + sqrt (k2 * k2 - 3 * k1 * k3)) / (3 * k3)) (Some None)) = Some (Some r) /\ good k0 k1 k2 k3 r) \/
      (try k0 k1 k2 k3 ((- k2 - sqrt (k2 * k2 - 3 * k1 * k3)) / (3 * k3)) (try k0 k1 k2 k3 ((- k2 + sqrt (k2 * k2 - 3 * k1 * k3)) / (3 * k3)) (Some None)) = Some None /\ 0 < P k0 k1 k2 k3 0 * P k0 k1 k2 k3 1 /\ (e30 < Rabs k3 -> forall z, 0 <= z <= 1 -> 0 < P k0 k1 k2 k3 0 * P k0 k1 k2 k3 z) /\
    (k3 = 0 -> e30 < Rabs k2 -> forall z, 0 <= z <= 1 -> 0 <= P k0 k1 k2 k3 0 * P k0 k1 k2 k3 z) /\ (k3 = 0 -> k2 = 0 -> forall z, 0 <= z <= 1 -> 0 < P k0 k1 k2 k3 0 * P k0 k1 k2 k3 z))).
    destruct (try_ok k0 k1 k2 k3 ((- k2 - sqrt (k2 * k2 - 3 * k1 * k3)) / (3 * k3)) (try k0 k1 k2 k3 ((- k2 + sqrt (k2 * k2 - 3 * k1 * k3)) / (3 * k3)) (Some None))) as [G|(-> & A)]; [left; exact G|].
    destruct (try_ok k0 k1 k2 k3 ((- k2 + sqrt (k2 * k2 - 3 * k1 * k3)) / (3 * k3)) (Some None)) as [G|(-> & B)]; [left; exact G|].
    right. split; [auto|]. split; [auto|]. split; [|split; [intros; contradiction|exact LIN]]. intros _ z Z. apply Rnot_le_lt. intros N. destruct (dip _ _ _ _ _ Q Z N) as (m & M & L & D).
    assert (X : P k0 k1 k2 k3 m <> 0 /\ 0 <= P k0 k1 k2 k3 0 * P k0 k1 k2 k3 m). { destruct (crit k1 k2 k3 m N3 D) as (_ & [E|E]); rewrite E in *; auto. }
    destruct X as (X & X'). assert (P k0 k1 k2 k3 0 * P k0 k1 k2 k3 m = 0) by lra. apply Rmult_integral in H. destruct H; contradiction.
  - pose proof (ltRs e30 (Rabs k2)) as Q2. destruct (ltR e30 (Rabs k2)).
    + assert (N2 : k2 <> 0) by (intros E; rewrite E, Rabs_R0 in Q2; lra). unfold try_quadric. cbv zeta. change (EvaluateCubic (- k1 / (2 * k2)) k0 k1 k2 k3) with (P k0 k1 k2 k3 (- k1 / (2 * k2))).
      assert (NG : (0 < - k1 / (2 * k2) < 1 -> 0 <= P k0 k1 k2 k3 0 * P k0 k1 k2 k3 (- k1 / (2 * k2))) -> k3 = 0 -> e30 < Rabs k2 -> forall z, 0 <= z <= 1 -> 0 <= P k0 k1 k2 k3 0 * P k0 k1 k2 k3 z).
      { intros A K _ z Z. apply Rnot_lt_le. intros N. destruct (dip _ _ _ _ _ Q Z ltac:(lra)) as (m & M & L & D). assert (E : m = - k1 / (2 * k2)). { rewrite K in D. apply Rmult_eq_reg_r with (2 * k2); [|lra]. unfold Rdiv. rewrite Rmult_assoc, Rinv_l by lra. lra. } rewrite <- E in A. specialize (A M). lra. }
      pose proof (ltRs 0 (- k1 / (2 * k2))) as Q0. pose proof (ltRs (- k1 / (2 * k2)) 1) as Q1. destruct (ltR 0 (- k1 / (2 * k2))); cbn [andb]; [destruct (ltR (- k1 / (2 * k2)) 1); cbn [andb]|].
      2-3: right; split; [auto|]; split; [auto|]; split; [intros; lra|]; split; [apply NG; intros; lra|exact LIN].
      pose proof (ltRs (P k0 k1 k2 k3 0 * P k0 k1 k2 k3 (- k1 / (2 * k2))) 0) as Q4. destruct (ltR (P k0 k1 k2 k3 0 * P k0 k1 k2 k3 (- k1 / (2 * k2))) 0).
      * left. destruct (find_ok k0 k1 k2 k3 (- k1 / (2 * k2)) ltac:(lra) ltac:(lra)) as (r & E & G). exists r. rewrite E. split; [reflexivity|exact G].
      * right. split; [auto|]. split; [auto|]. split; [intros; lra|]. split; [apply NG; intros; lra|exact LIN].
    + right. split; [auto|]. split; [auto|]. split; [intros; lra|]. split; [intros; lra|exact LIN].
Qed.
