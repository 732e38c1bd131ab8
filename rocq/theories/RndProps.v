(** C81: random numbers and samples. *)
From Coq Require Import List Arith Bool ZArith Znumtheory Reals Lra Lia.
Import ListNotations.
From Verif Require Import Imp PrModel QuatModel ProxModel ProxSpec GjkProofs1 ProxProofs1 EditModel PlnModel PlnProofs1 BruteProofs1 RndModel RndSpec RndProofs1.
Open Scope R_scope.

Lemma value_of : forall s, snd (MyERand48 s) = (let '(y0, y1, y2) := fst (MyERand48 s) in IZR y0 / 2 ^ 48 + IZR y1 / 2 ^ 32 + IZR y2 / 2 ^ 16).
Proof. intros [[x0 x1] x2]. reflexivity. Qed.
(** A call is one step of the generator drand48, and the number is its new 48 bits divided by 2^48: from 0 to less than 1. *)
Theorem C81_generator : forall s, valid s -> exists s' v, MyERand48 s = (s', v) /\ valid s' /\ bits48 s' = drand48_next (bits48 s) /\ v = IZR (bits48 s') / 2 ^ 48 /\ 0 <= v < 1.
Proof.
  intros s V. destruct (step_ok s V) as (V' & E). unfold next in *. destruct (MyERand48 s) as [s' v] eqn:M. cbn [fst] in *. exists s', v. split; [auto|]. split; [auto|]. split; [auto|].
  assert (B : v = IZR (bits48 s') / 2 ^ 48). { pose proof (value_of s) as Q. rewrite M in Q. destruct s' as [[y0 y1] y2]. cbn [fst snd] in Q. rewrite Q. cbn [bits48]. rewrite !plus_IZR, !mult_IZR. change (IZR (2 ^ 16)) with 65536. change (IZR (2 ^ 32)) with 4294967296. field. }
  split; [auto|]. rewrite B. destruct s' as [[y0 y1] y2]. cbn [valid] in V'. assert (R0 : (0 <= bits48 (y0, y1, y2) < 2 ^ 48)%Z) by (cbn [bits48]; lia). destruct R0 as (R0 & R1). apply IZR_le in R0. apply IZR_lt in R1. change (IZR (2 ^ 48)) with 281474976710656 in R1. replace (2 ^ 48) with 281474976710656 by ring. split; [apply Rmult_le_pos; lra|]. apply Rmult_lt_reg_r with 281474976710656; [lra|]. field_simplify; lra.
Qed.
(** From every seed the state returns exactly after the multiples of 2^48 calls. *)
Theorem C81_period : forall s n, valid s -> (Nat.iter n (fun s => fst (MyERand48 s)) s = s <-> (2 ^ 48 | Z.of_nat n)%Z).
Proof.
  intros s n V. change (fun s => fst (MyERand48 s)) with next. destruct (iter_lcg n s V) as (V' & z & D). pose proof (lcg_period 6303725979 11 ltac:(exists 5%Z; reflexivity) 48 n (bits48 s)) as P. change (Z.of_nat 48) with 48%Z in P. rewrite <- P. split.
  - intros E. rewrite E in D. exists z. auto.
  - intros (w & W). apply bits_inj; auto. exists (w - z)%Z. lia.
Qed.
(** In 2^48 calls every state, so every multiple of 2^-48 in [0,1), comes exactly once. *)
Theorem C81_every_number_once : forall s t, valid s -> valid t -> exists n, ((Z.of_nat n < 2 ^ 48)%Z /\ Nat.iter n (fun s => fst (MyERand48 s)) s = t) /\ forall m, (Z.of_nat m < 2 ^ 48)%Z -> Nat.iter m (fun s => fst (MyERand48 s)) s = t -> m = n.
Proof.
  intros s t V T. change (fun s => fst (MyERand48 s)) with next. assert (O : exists e, 11%Z = (1 + 2 * e)%Z) by (exists 5%Z; reflexivity).
  destruct (lcg_reach 6303725979 11 O 48 (bits48 s) (bits48 t)) as (n & N & w & W). change (Z.of_nat 48) with 48%Z in *. exists n. destruct (iter_lcg n s V) as (V' & z & D). split.
  - split; [auto|]. apply bits_inj; auto. exists (w - z)%Z. lia.
  - intros m Mb E. destruct (iter_lcg m s V) as (_ & y & Y). rewrite E in Y. destruct (Nat.le_ge_cases m n) as [L|L].
    + apply (lcg_once 6303725979 11 O 48 (bits48 s) m n L N). change (Z.of_nat 48) with 48%Z. exists (y - w)%Z. lia.
    + symmetry. apply (lcg_once 6303725979 11 O 48 (bits48 s) n m L Mb). change (Z.of_nat 48) with 48%Z. exists (w - y)%Z. lia.
Qed.
(** The last sum is computed as int, and for seeds whose third number is at least 36405 a product does not fit: the behaviour is undefined in C++ (the results above take the overflow to wrap around). *)
Theorem C81_no_overflow_refuted : forall x0 x1 x2, (36405 <= x2)%Z -> (2 ^ 31 - 1 < fst (fst (last_products (x0, x1, x2))))%Z.
Proof. intros. cbn [last_products fst]. unfold mult0. lia. Qed.
(** Two draws give two consecutive numbers. *)
Theorem C81_pairs : forall s, RandomVec2 s = (fst (MyERand48 (fst (MyERand48 s))), (snd (MyERand48 s), snd (MyERand48 (fst (MyERand48 s))))).
Proof. intros s. unfold RandomVec2. destruct (MyERand48 s) as [s1 a]. cbn [fst snd]. destruct (MyERand48 s1) as [s2 b]. reflexivity. Qed.
(** The tent filter: the sample is from -1 to less than 1, and it is at most t exactly for the numbers u that are at most the probability of the tent density up to t. *)
Theorem C81_tent : forall s, valid s -> exists s' u x, MyERand48 s = (s', u) /\ SampleTent s = (s', x) /\ -1 <= x < 1 /\ forall t, -1 <= t < 1 -> (x <= t <-> u <= tent_cdf t).
Proof.
  intros s V. destruct (C81_generator s V) as (s' & u & E & _ & _ & _ & U). unfold SampleTent. rewrite E. exists s', u. eexists. split; [auto|]. split; [reflexivity|].
  pose proof (ltRs (2 * u) 1) as Q. destruct (ltR (2 * u) 1).
  - assert (P0 : 0 <= sqrt (2 * u)) by apply sqrt_pos. assert (P1 : sqrt (2 * u) * sqrt (2 * u) = 2 * u) by (apply sqrt_sqrt; lra). assert (P2 : sqrt (2 * u) < 1) by nra. split; [lra|]. intros t T. unfold tent_cdf. destruct (Rle_dec t 0); split; intros H; nra.
  - assert (P0 : 0 <= sqrt (2 - 2 * u)) by apply sqrt_pos. assert (P1 : sqrt (2 - 2 * u) * sqrt (2 - 2 * u) = 2 - 2 * u) by (apply sqrt_sqrt; lra). assert (P2 : sqrt (2 - 2 * u) <= 1) by nra. assert (P3 : 0 < sqrt (2 - 2 * u)) by (apply sqrt_lt_R0; lra). split; [lra|]. intros t T. unfold tent_cdf. destruct (Rle_dec t 0); split; intros H; nra.
Qed.
(** Directions around the z axis have length 1 and point upwards; their height is the first number, or the root of it. *)
Theorem C81_hemisphere : forall a b, 0 <= a <= 1 ->
  (unit3 (SampleHemisphereZupUniform (a, b)) /\ vz (SampleHemisphereZupUniform (a, b)) = a) /\
  (unit3 (SampleHemisphereZupCos (a, b)) /\ vz (SampleHemisphereZupCos (a, b)) = sqrt a /\ 0 <= vz (SampleHemisphereZupCos (a, b))) /\
  (forall p, SampleHemisphereZupUniform (a, b) = p \/ SampleHemisphereZupCos (a, b) = p -> vx p * sin (2 * PI * b) = vy p * cos (2 * PI * b)).
Proof.
  intros a b A. unfold SampleHemisphereZupUniform, SampleHemisphereZupCos, unit3. cbn [fst snd vx vy vz]. cbv zeta. pose proof (sin2_cos2 (2 * PI * b)) as SC. unfold Rsqr in SC.
  assert (C : clampR (1 - a * a) 0 1 = 1 - a * a). { unfold clampR. rewrite !ltRf by nra. auto. } rewrite C. assert (S1 : sqrt (1 - a * a) * sqrt (1 - a * a) = 1 - a * a) by (apply sqrt_sqrt; nra).
  assert (S2 : sqrt a * sqrt a = a) by (apply sqrt_sqrt; lra). rewrite S2. assert (S3 : sqrt (1 - a) * sqrt (1 - a) = 1 - a) by (apply sqrt_sqrt; lra).
  split; [split; [|auto]|split; [split; [|split; [auto|apply sqrt_pos]]|]].
  - set (r := sqrt (1 - a * a)) in *. set (sn := sin _) in *. set (cs := cos _) in *. replace (r * cs * (r * cs) + r * sn * (r * sn) + a * a) with (r * r * (sn * sn + cs * cs) + a * a) by ring. rewrite SC, S1. ring.
  - set (r := sqrt (1 - a)) in *. set (sn := sin _) in *. set (cs := cos _) in *. replace (r * cs * (r * cs) + r * sn * (r * sn) + a) with (r * r * (sn * sn + cs * cs) + a) by ring. rewrite SC, S3. ring.
  - intros p [<-|<-]; cbn [vx vy]; ring.
Qed.
(** Directions around a normal of length 1 have length 1, and the cosine of the angle to it is the root of the first number: never below the surface. *)
Theorem C81_hemisphere_normal : forall n a b, unit3 n -> 0 <= a <= 1 -> exists r, SampleHemisphereNormalCos n (a, b) = Some r /\ unit3 r /\ dot3 n r = sqrt a /\ 0 <= dot3 n r.
Proof.
  intros n a b N A. destruct (C81_hemisphere a b A) as (_ & (U & Z0 & _) & _). unfold SampleHemisphereNormalCos. set (h := SampleHemisphereZupCos (a, b)) in *. cbv zeta. set (w := cross3 _ n).
  assert (NN : norm3 n = 1). { unfold norm3. rewrite (N : dot3 n n = 1). apply sqrt_1. }
  assert (W : norm3 w <> 0 /\ dot3 w n = 0).
  { unfold w. destruct n as [x y z]. unfold unit3 in N. cbn [vx vy vz] in *. pose proof (ltRs (1 / 10) (Rabs x)) as Q. split.
    - intros H. assert (D : dot3 (cross3 (if ltR (1 / 10) (Rabs x) then V3 0 1 0 else V3 1 0 0) (V3 x y z)) (cross3 (if ltR (1 / 10) (Rabs x) then V3 0 1 0 else V3 1 0 0) (V3 x y z)) = 0) by (rewrite <- norm_sq, H; ring). destruct (ltR (1 / 10) (Rabs x)); u3.
      + assert (x = 0) by nra. subst. rewrite Rabs_R0 in Q. lra.
      + assert (y = 0) by nra. assert (z = 0) by nra. subst. assert (Q' : Rabs x * Rabs x <= 1 / 10 * (1 / 10)) by (apply Rmult_le_compat; try apply Rabs_pos; lra). rewrite <- Rabs_mult, Rabs_pos_eq in Q' by nra. lra.
    - destruct (ltR (1 / 10) (Rabs x)); u3; ring. }
  destruct W as (W & WN). destruct (normalized_ok w W) as (u & -> & Un & E). cbn [bind].
  assert (UN : dot3 u n = 0). { rewrite E in WN. assert (norm3 w * dot3 u n = 0) by (rewrite <- WN; u3; ring). apply Rmult_integral in H. destruct H; [contradiction|auto]. }
  assert (N2 : dot3 n n = 1) by (rewrite <- norm_sq, NN; ring). assert (U2 : dot3 u u = 1) by (rewrite <- norm_sq, Un; ring). set (v := cross3 n u). set (d := add3 _ _).
  assert (V2 : dot3 v v = 1). { unfold v. replace (dot3 (cross3 n u) (cross3 n u)) with (dot3 n n * dot3 u u - dot3 u n * dot3 u n) by (u3; ring). rewrite N2, U2, UN. ring. }
  assert (VN : dot3 v n = 0) by (unfold v; u3; ring). assert (VU : dot3 v u = 0) by (unfold v; u3; ring).
  assert (D2 : dot3 d d = 1). { unfold d. replace (dot3 _ _) with (vx h * vx h * dot3 u u + vy h * vy h * dot3 v v + vz h * vz h * dot3 n n + 2 * vx h * vy h * dot3 v u + 2 * vx h * vz h * dot3 u n + 2 * vy h * vz h * dot3 v n) by (u3; ring). rewrite U2, V2, N2, VU, UN, VN. unfold unit3 in U. lra. }
  assert (DN : norm3 d = 1) by (unfold norm3; rewrite D2; apply sqrt_1). destruct (normalized_ok d ltac:(rewrite DN; lra)) as (r & -> & Rn & Er). rewrite DN in Er. assert (r = d) by (rewrite Er; apply v3_eq; u3; ring). subst r. exists d. split; [auto|].
  assert (DD : dot3 n d = sqrt a). { unfold d. replace (dot3 _ _) with (vx h * dot3 u n + vy h * dot3 v n + vz h * dot3 n n) by (u3; ring). rewrite UN, VN, N2, Z0. ring. }
  split; [unfold unit3; unfold dot3 in D2; exact D2|]. split; [auto|]. rewrite DD. apply sqrt_pos.
Qed.
(** Normal variables from uniform ones: the squares of the first two coordinates add up to -2 log of the first number, so that this is the probability to be further out; the number 0, which can be drawn, is outside of the domain. *)
Theorem C81_gauss : forall a0 a1 a2 a3, 0 <= a0 < 1 -> 0 <= a2 < 1 ->
  (0 < a0 -> 0 < a2 -> exists p, RandGaussVec3 a0 a1 a2 a3 = Some p /\ exp (- (vx p * vx p + vy p * vy p) / 2) = a0 /\ vx p * sin (2 * PI * a1) = vy p * cos (2 * PI * a1) /\ vz p * vz p <= -2 * ln a2) /\
  (a0 = 0 \/ a2 = 0 -> RandGaussVec3 a0 a1 a2 a3 = None).
Proof.
  intros a0 a1 a2 a3 A0 A2. unfold RandGaussVec3. split.
  - intros P0 P2. rewrite !ltRt by auto. cbn [andb]. eexists. split; [reflexivity|]. cbn [vx vy vz]. replace (PI * 2 * a1) with (2 * PI * a1) by ring. replace (PI * 2 * a3) with (2 * PI * a3) by ring.
    assert (L : forall a, 0 < a < 1 -> 0 <= -2 * ln a). { intros a A. pose proof (ln_increasing a 1 ltac:(lra) ltac:(lra)) as I. rewrite ln_1 in I. lra. }
    assert (S0 : sqrt (-2 * ln a0) * sqrt (-2 * ln a0) = -2 * ln a0) by (apply sqrt_sqrt, L; lra). assert (S2 : sqrt (-2 * ln a2) * sqrt (-2 * ln a2) = -2 * ln a2) by (apply sqrt_sqrt, L; lra).
    pose proof (sin2_cos2 (2 * PI * a1)) as SC. pose proof (sin2_cos2 (2 * PI * a3)) as SD. unfold Rsqr in *. set (r := sqrt (-2 * ln a0)) in *. set (r2 := sqrt (-2 * ln a2)) in *. set (sn := sin (2 * PI * a1)) in *. set (cs := cos (2 * PI * a1)) in *. set (c3 := cos (2 * PI * a3)) in *. set (s3 := sin (2 * PI * a3)) in *. split; [|split; [ring|]].
    + replace (- (r * cs * (r * cs) + r * sn * (r * sn)) / 2) with (- (r * r * (sn * sn + cs * cs)) / 2) by field. rewrite SC, S0. replace (- (-2 * ln a0 * 1) / 2) with (ln a0) by field. apply exp_ln. auto.
    + replace (r2 * c3 * (r2 * c3)) with (r2 * r2 * (c3 * c3)) by ring. rewrite S2. pose proof (L a2 ltac:(lra)). assert (c3 * c3 <= 1) by nra. rewrite <- (Rmult_1_r (-2 * ln a2)) at 2. apply Rmult_le_compat_l; auto.
  - intros [-> | ->]; rewrite (ltRf 0 0) by lra; [reflexivity|rewrite andb_false_r; reflexivity].
Qed.

(** *** Cases *)
Example ex_valid : valid (1, 2, 65535)%Z. Proof. cbn. lia. Qed.
Example ex_first : fst (MyERand48 (0, 0, 0)%Z) = (11, 0, 0)%Z. Proof. reflexivity. Qed.
Example ex_second : fst (MyERand48 (fst (MyERand48 (0, 0, 0)%Z))) = (59066, 37933, 64)%Z. Proof. vm_compute. reflexivity. Qed.
Example ex_unit : unit3 (V3 (3/5) 0 (4/5)). Proof. unfold unit3. cbn [vx vy vz]. lra. Qed.

Print Assumptions C81_generator.
Print Assumptions C81_period.
Print Assumptions C81_every_number_once.
Print Assumptions C81_no_overflow_refuted.
Print Assumptions C81_pairs.
Print Assumptions C81_tent.
Print Assumptions C81_hemisphere.
Print Assumptions C81_hemisphere_normal.
Print Assumptions C81_gauss.
