(** C82: beams in the plane, and kinetic damping. *)
From Coq Require Import List Arith Bool Reals Lra Lia.
Import ListNotations.
From Verif Require Import Imp PrModel GjkProofs1 MeasSpec MeasProofs2 MeasProofs3 BspProofs1 BeamModel BeamSpec BeamProofs1.
Open Scope R_scope.

(** For different ends the answers are the gradient and the symmetric second derivative of the energy; it is never negative. *)
Theorem C82_energy : forall EI AE x u, (dx x <> 0 \/ dy x <> 0) -> exists dW ddW, dWddW_Beam2 EI AE x u = Some (dW, ddW) /\
  (forall v, beam_energy EI AE x (fun n i => u n i + v n i) = beam_energy EI AE x u + work dW v + beam_energy EI AE x v) /\
  (forall n m i j, ddW n m i j = ddW m n j i) /\
  (forall v, beam_energy EI AE x v = work (fun n i => ddW n 0%nat i 0%nat * v 0%nat 0%nat + ddW n 0%nat i 1%nat * v 0%nat 1%nat + ddW n 0%nat i 2%nat * v 0%nat 2%nat + ddW n 1%nat i 0%nat * v 1%nat 0%nat + ddW n 1%nat i 1%nat * v 1%nat 1%nat + ddW n 1%nat i 2%nat * v 1%nat 2%nat) v / 2) /\
  (0 <= EI -> 0 <= AE -> forall v, 0 <= beam_energy EI AE x v).
Proof.
  intros EI AE x u H. destruct (beam_some EI AE x u H) as (dW & ddW & E). exists dW, ddW. split; [auto|]. destruct (work_ok _ _ _ _ _ _ E) as (L & W & S & D). split; [intros v; rewrite W; apply bilin_add; auto|]. split; [auto|]. split; [intros v; rewrite D; apply energy_bilin|]. intros. apply energy_pos; auto.
Qed.
(** Ends at the same place are a division by zero. *)
Theorem C82_same_ends_fail : forall EI AE x u, dx x = 0 -> dy x = 0 -> dWddW_Beam2 EI AE x u = None.
Proof. exact beam_none. Qed.
(** The forces vanish exactly for small rigid motions. *)
Theorem C82_rigid_motions : forall EI AE x u dW ddW, 0 < EI -> 0 < AE -> dWddW_Beam2 EI AE x u = Some (dW, ddW) -> ((forall n i, (n < 2)%nat -> (i < 3)%nat -> dW n i = 0) <-> rigid x u).
Proof.
  intros EI AE x u dW ddW I A E. destruct (work_ok _ _ _ _ _ _ E) as (L & W & _ & _). split.
  - intros Z0. apply energy_zero with EI AE; auto. rewrite energy_bilin, <- W. unfold work. rewrite !Z0 by lia. lra.
  - intros Rg n i N In. destruct (rigid_zero x u L Rg) as (S & B0 & B1).
    assert (G : forall v, work dW v = 0) by (intros v; rewrite W; unfold bilin; rewrite S, B0, B1; ring).
    specialize (G (fun a b => if (a =? n)%nat && (b =? i)%nat then 1 else 0)). unfold work in G. destruct n as [|[|n]]; [| |lia]; destruct i as [|[|[|i]]]; try lia; cbn in G; lra.
Qed.
(** The forces at the ends balance, and so do their moments. *)
Theorem C82_balance : forall EI AE x u dW ddW, dWddW_Beam2 EI AE x u = Some (dW, ddW) ->
  dW 0%nat 0%nat + dW 1%nat 0%nat = 0 /\ dW 0%nat 1%nat + dW 1%nat 1%nat = 0 /\ dW 0%nat 2%nat + dW 1%nat 2%nat + (dx x * dW 1%nat 1%nat - dy x * dW 1%nat 0%nat) = 0.
Proof.
  intros EI AE x u dW ddW E. destruct (work_ok _ _ _ _ _ _ E) as (L & W & _ & _).
  assert (G : forall v, rigid x v -> work dW v = 0). { intros v Rg. rewrite W. destruct (rigid_zero x v L Rg) as (S & B0 & B1). unfold bilin. rewrite S, B0, B1. ring. }
  split; [|split].
  - assert (Rg : rigid x (fun _ i => match i with O => 1 | _ => 0 end)) by (exists 0; unfold dx, dy; repeat split; ring). apply G in Rg. unfold work in Rg. lra.
  - assert (Rg : rigid x (fun _ i => match i with S O => 1 | _ => 0 end)) by (exists 0; unfold dx, dy; repeat split; ring). apply G in Rg. unfold work in Rg. lra.
  - assert (Rg : rigid x (fun n i => match n, i with _, S (S O) => 1 | S O, O => - dy x | S O, S O => dx x | _, _ => 0 end)) by (exists 1; split; [reflexivity|split; [reflexivity|split; [change (- dy x - 0 = - (1) * dy x); ring|change (dx x - 0 = 1 * dx x); ring]]]). apply G in Rg. unfold work in Rg. lra.
Qed.
(** A beam clamped at its first end: displaced across by P L^3 / (3 EI) and turned by P L^2 / (2 EI) at the other it carries the force P across there, without a moment, and the moment P L at the clamp ... *)
Theorem C82_cantilever : forall EI AE x u dW ddW P, EI <> 0 -> dWddW_Beam2 EI AE x u = Some (dW, ddW) ->
  (forall i, (i < 3)%nat -> u 0%nat i = 0) -> u 1%nat 0%nat = P * len x ^ 3 / (3 * EI) * (- dy x / len x) -> u 1%nat 1%nat = P * len x ^ 3 / (3 * EI) * (dx x / len x) -> u 1%nat 2%nat = P * len x ^ 2 / (2 * EI) ->
  dW 1%nat 0%nat = P * (- dy x / len x) /\ dW 1%nat 1%nat = P * (dx x / len x) /\ dW 1%nat 2%nat = 0 /\ dW 0%nat 2%nat = - P * len x.
Proof.
  intros EI AE x u dW ddW P I E U0 Ux Uy Ut. destruct (work_ok _ _ _ _ _ _ E) as (L & W & _ & _). pose proof (len_sq x) as S.
  assert (DX : dx u = P * len x ^ 3 / (3 * EI) * (- dy x / len x)) by (unfold dx at 1; rewrite U0 by lia; rewrite Ux; ring). assert (DY : dy u = P * len x ^ 3 / (3 * EI) * (dx x / len x)) by (unfold dy at 1; rewrite U0 by lia; rewrite Uy; ring).
  assert (ST : stretch x u = 0) by (unfold stretch; rewrite DX, DY; field; auto).
  assert (TU : turn x u = P * len x ^ 2 / (3 * EI)). { unfold turn. rewrite DX, DY. transitivity (P * len x ^ 2 / (3 * EI) * ((dx x * dx x + dy x * dy x) / (len x * len x))); [field; auto|]. rewrite <- S. field. auto. }
  assert (B0 : bend x u 0 = - P * len x ^ 2 / (3 * EI)) by (unfold bend; rewrite U0, TU by lia; field; auto). assert (B1 : bend x u 1 = P * len x ^ 2 / (6 * EI)) by (unfold bend; rewrite Ut, TU; field; auto).
  assert (G : forall v, work dW v = - P * len x * bend x v 0). { intros v. rewrite W. unfold bilin. rewrite ST, B0, B1. field. auto. }
  repeat split.
  - pose proof (G (fun n i => match n, i with S O, O => 1 | _, _ => 0 end)) as H. unfold work, bend, turn in H. unfold dx at 2, dy at 1 in H. transitivity (- P * len x * (0 - ((0 - 0) * dx x - (1 - 0) * dy x) / (len x * len x))); [lra|field; auto].
  - pose proof (G (fun n i => match n, i with S O, S O => 1 | _, _ => 0 end)) as H. unfold work, bend, turn in H. unfold dx at 2, dy at 1 in H. transitivity (- P * len x * (0 - ((1 - 0) * dx x - (0 - 0) * dy x) / (len x * len x))); [lra|field; auto].
  - pose proof (G (fun n i => match n, i with S O, S (S O) => 1 | _, _ => 0 end)) as H. unfold work, bend, turn in H. unfold dx at 2, dy at 1 in H. transitivity (- P * len x * (0 - ((0 - 0) * dx x - (0 - 0) * dy x) / (len x * len x))); [lra|field; auto].
  - pose proof (G (fun n i => match n, i with O, S (S O) => 1 | _, _ => 0 end)) as H. unfold work, bend, turn in H. unfold dx at 2, dy at 1 in H. transitivity (- P * len x * (1 - ((0 - 0) * dx x - (0 - 0) * dy x) / (len x * len x))); [lra|field; auto].
Qed.
(** ... and pulled along by P L / AE it carries the force P along. *)
Theorem C82_bar : forall EI AE x u dW ddW P, AE <> 0 -> dWddW_Beam2 EI AE x u = Some (dW, ddW) ->
  (forall i, (i < 3)%nat -> u 0%nat i = 0) -> u 1%nat 0%nat = P * len x / AE * (dx x / len x) -> u 1%nat 1%nat = P * len x / AE * (dy x / len x) -> u 1%nat 2%nat = 0 ->
  dW 1%nat 0%nat = P * (dx x / len x) /\ dW 1%nat 1%nat = P * (dy x / len x) /\ dW 1%nat 2%nat = 0.
Proof.
  intros EI AE x u dW ddW P I E U0 Ux Uy Ut. destruct (work_ok _ _ _ _ _ _ E) as (L & W & _ & _). pose proof (len_sq x) as S.
  assert (DX : dx u = P * len x / AE * (dx x / len x)) by (unfold dx at 1; rewrite U0 by lia; rewrite Ux; ring). assert (DY : dy u = P * len x / AE * (dy x / len x)) by (unfold dy at 1; rewrite U0 by lia; rewrite Uy; ring).
  assert (ST : stretch x u = P * len x / AE). { unfold stretch. rewrite DX, DY. transitivity (P / (AE * len x) * (dx x * dx x + dy x * dy x)); [field; auto|]. rewrite <- S. field. auto. }
  assert (TU : turn x u = 0) by (unfold turn; rewrite DX, DY; field; auto). assert (B0 : bend x u 0 = 0) by (unfold bend; rewrite U0, TU by lia; ring). assert (B1 : bend x u 1 = 0) by (unfold bend; rewrite Ut, TU; ring).
  assert (G : forall v, work dW v = P * stretch x v). { intros v. rewrite W. unfold bilin. rewrite ST, B0, B1. field. auto. }
  repeat split.
  - pose proof (G (fun n i => match n, i with S O, O => 1 | _, _ => 0 end)) as H. unfold work, stretch in H. unfold dx at 1, dy at 1 in H. transitivity (P * (((1 - 0) * dx x + (0 - 0) * dy x) / len x)); [lra|field; auto].
  - pose proof (G (fun n i => match n, i with S O, S O => 1 | _, _ => 0 end)) as H. unfold work, stretch in H. unfold dx at 1, dy at 1 in H. transitivity (P * (((0 - 0) * dx x + (1 - 0) * dy x) / len x)); [lra|field; auto].
  - pose proof (G (fun n i => match n, i with S O, S (S O) => 1 | _, _ => 0 end)) as H. unfold work, stretch in H. unfold dx at 1, dy at 1 in H. transitivity (P * (((0 - 0) * dx x + (0 - 0) * dy x) / len x)); [lra|field; auto].
Qed.
(** The damper, over every history of calls: the velocities become zero exactly in the calls, from the fourth on, where the kinetic energies of this call and the two before have a peak in the middle; in all other calls they stay as they are. *)
Theorem C82_damping : forall vs, exists outs, damp_all [] vs = Some outs /\ length outs = length vs /\ forall k, (k < length vs)%nat ->
  (peak vs k -> nth k outs [] = repeat 0 (length (nth k vs []))) /\ (~ peak vs k -> nth k outs [] = nth k vs []).
Proof. intros vs. exact (damp_ok vs []). Qed.
(** A peak of the first three energies is missed, although three energies are there. *)
Theorem C82_first_peak_refuted : forall a b c, squares a < squares b -> squares c < squares b -> damp_all [] [a; b; c] = Some [a; b; c].
Proof.
  intros a b c _ _. destruct (C82_damping [a; b; c]) as (o & E & L & H). rewrite E. f_equal. assert (N : forall k, (k < 3)%nat -> ~ peak [a; b; c] k) by (intros k K (Q & _); lia). destruct o as [|o0 [|o1 [|o2 [|o3 o]]]]; try discriminate.
  pose proof (proj2 (H 0%nat ltac:(cbn; lia)) (N 0%nat ltac:(lia))) as H0. pose proof (proj2 (H 1%nat ltac:(cbn; lia)) (N 1%nat ltac:(lia))) as H1. pose proof (proj2 (H 2%nat ltac:(cbn; lia)) (N 2%nat ltac:(lia))) as H2. cbn in H0, H1, H2. congruence.
Qed.

(** *** Cases *)
Definition ex_x : nat -> nat -> R := fun n i => match n, i with S O, O => 3 | S O, S O => 4 | _, _ => 0 end.
Example ex_len : (dx ex_x <> 0 \/ dy ex_x <> 0) /\ len ex_x = 5.
Proof. split; [left; unfold dx, ex_x; lra|]. unfold len, dx, dy, ex_x. replace ((3 - 0) * (3 - 0) + (4 - 0) * (4 - 0)) with (5 * 5) by ring. apply sqrt_square. lra. Qed.
Example ex_rigid : rigid ex_x (fun n i => match n, i with _, S (S O) => 2 | S O, O => -8 | S O, S O => 6 | _, _ => 0 end).
Proof. exists 2. unfold dx, dy, ex_x. repeat split; ring. Qed.
Example ex_damp : peak [[1;0;0]; [2;0;0]; [3;0;0]; [1;1;1]] 3 /\ damp_all [] [[1;0;0]; [2;0;0]; [3;0;0]; [1;1;1]] = Some [[1;0;0]; [2;0;0]; [3;0;0]; [0;0;0]].
Proof.
  assert (P : peak [[1;0;0]; [2;0;0]; [3;0;0]; [1;1;1]] 3) by (unfold peak, squares; cbn; split; [lia|lra]). split; [exact P|]. destruct (C82_damping [[1;0;0]; [2;0;0]; [3;0;0]; [1;1;1]]) as (o & E & L & H). rewrite E. f_equal.
  assert (N : forall k, (k < 3)%nat -> ~ peak [[1;0;0]; [2;0;0]; [3;0;0]; [1;1;1]] k) by (intros k K (Q & _); lia).
  destruct o as [|o0 [|o1 [|o2 [|o3 [|o4 o]]]]]; try discriminate. pose proof (proj2 (H 0%nat ltac:(cbn; lia)) (N 0%nat ltac:(lia))) as H0. pose proof (proj2 (H 1%nat ltac:(cbn; lia)) (N 1%nat ltac:(lia))) as H1. pose proof (proj2 (H 2%nat ltac:(cbn; lia)) (N 2%nat ltac:(lia))) as H2. pose proof (proj1 (H 3%nat ltac:(cbn; lia)) P) as H3. cbn in H0, H1, H2, H3. congruence.
Qed.

Print Assumptions C82_energy.
Print Assumptions C82_same_ends_fail.
Print Assumptions C82_rigid_motions.
Print Assumptions C82_balance.
Print Assumptions C82_cantilever.
Print Assumptions C82_bar.
Print Assumptions C82_damping.
Print Assumptions C82_first_peak_refuted.
