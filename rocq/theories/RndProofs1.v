(** The generator: one step, the period. *)
From Coq Require Import List Arith Bool ZArith Znumtheory Reals Lra Lia.
Import ListNotations.
From Verif Require Import Imp PrModel QuatModel ProxModel ProxSpec RndModel RndSpec.
Open Scope Z_scope.

Definition next (s : seed) : seed := fst (MyERand48 s).
Lemma i32_cong : forall z, exists k, i32 z = z + 2 ^ 32 * k.
Proof. intros z. unfold i32. exists (- ((z + 2 ^ 31) / 2 ^ 32)). pose proof (Z.div_mod (z + 2 ^ 31) (2 ^ 32) ltac:(lia)). lia. Qed.
Lemma u64_cong : forall z, exists k, u64 z = z + 2 ^ 64 * k.
Proof. intros z. unfold u64. exists (- (z / 2 ^ 64)). pose proof (Z.div_mod z (2 ^ 64) ltac:(lia)). lia. Qed.
Lemma u16_cong : forall z, exists k, u16 z = z + 2 ^ 16 * k.
Proof. intros z. unfold u16. exists (- (z / 2 ^ 16)). pose proof (Z.div_mod z (2 ^ 16) ltac:(lia)). lia. Qed.
Lemma u16_range : forall z, 0 <= u16 z < 2 ^ 16. Proof. intros. apply Z.mod_pos_bound. lia. Qed.
Lemma step_ok : forall s, valid s -> valid (next s) /\ bits48 (next s) = drand48_next (bits48 s).
Proof.
  intros [[x0 x1] x2] (A & B & C). unfold next, MyERand48, last_products. cbv zeta. cbn [fst].
  assert (E1 : u64 (mult0 * x0 + add48) = mult0 * x0 + add48) by (apply Z.mod_small; unfold mult0, add48; lia). rewrite E1.
  assert (E2 : u64 (mult0 * x1 + mult1 * x0) = mult0 * x1 + mult1 * x0) by (apply Z.mod_small; unfold mult0, mult1; lia). rewrite E2.
  rewrite !Z.shiftr_div_pow2 by lia. set (a0 := mult0 * x0 + add48) in *.
  assert (Q0 : 0 <= a0 / 2 ^ 16 < 2 ^ 32) by (split; [apply Z.div_pos; unfold a0, mult0, add48; lia|apply Z.div_lt_upper_bound; unfold a0, mult0, add48; lia]).
  assert (E3 : u64 (a0 / 2 ^ 16 + (mult0 * x1 + mult1 * x0)) = a0 / 2 ^ 16 + (mult0 * x1 + mult1 * x0)) by (apply Z.mod_small; unfold mult0, mult1; lia). rewrite E3. set (a1 := a0 / 2 ^ 16 + (mult0 * x1 + mult1 * x0)) in *.
  set (t0 := u16 a0). set (t1 := u16 a1).
  destruct (i32_cong (mult0 * x2)) as (k1 & ->). destruct (i32_cong (mult1 * x1)) as (k2 & ->). destruct (i32_cong (mult2 * x0)) as (k3 & ->).
  destruct (i32_cong (mult0 * x2 + 2 ^ 32 * k1 + (mult1 * x1 + 2 ^ 32 * k2))) as (k4 & ->). match goal with |- context [i32 ?e] => destruct (i32_cong e) as (k5 & ->) end. match goal with |- context [u64 (a1 / 2 ^ 16 + u64 ?e)] => destruct (u64_cong e) as (k6 & ->) end. match goal with |- context [u64 ?e] => destruct (u64_cong e) as (k7 & ->) end.
  match goal with |- context [u16 ?e] => lazymatch e with a0 => fail | a1 => fail | _ => set (t2 := u16 e); destruct (u16_cong e) as (k8 & K8) end end. fold t2 in K8.
  assert (T0 : 0 <= t0 < 2 ^ 16) by apply u16_range. assert (T1 : 0 <= t1 < 2 ^ 16) by apply u16_range. assert (T2 : 0 <= t2 < 2 ^ 16) by apply u16_range.
  split; [cbn [valid]; auto|]. cbn [bits48]. unfold drand48_next.
  assert (D0 : a0 = 2 ^ 16 * (a0 / 2 ^ 16) + t0) by (apply Z.div_mod; lia). assert (D1 : a1 = 2 ^ 16 * (a1 / 2 ^ 16) + t1) by (apply Z.div_mod; lia).
  apply Z.mod_unique_pos with (q := mult1 * x2 + mult2 * x1 + 2 ^ 16 * mult2 * x2 - (2 ^ 16 * (k1 + k2 + k3 + k4 + k5) + 2 ^ 48 * (k6 + k7) + k8)); [lia|].
  unfold a1 in D1 at 1. unfold a0 in D0 at 1. unfold mult0, mult1, mult2, add48 in *. lia.
Qed.
(** *** The period *)
Section LCG.
Variable q : Z.
Variable c : Z.
Let a := 1 + 4 * q.
Hypothesis odd_c : exists e, c = 1 + 2 * e.
Fixpoint geo (n : nat) : Z := match n with O => 0 | S n' => a * geo n' + 1 end.
Fixpoint lcg (n : nat) (x : Z) : Z := match n with O => x | S n' => a * lcg n' x + c end.
Lemma lcg_geo : forall n x, lcg n x = x + geo n * ((a - 1) * x + c).
Proof. induction n as [|n IH]; intros x; cbn [lcg geo]; [ring|]. rewrite IH. ring. Qed.
Lemma lcg_add : forall m n x, lcg (m + n) x = lcg m (lcg n x).
Proof. induction m as [|m IH]; intros n x; cbn [lcg Nat.add]; [auto|]. rewrite IH. auto. Qed.
Lemma pow_one : forall m : nat, exists r, a ^ Z.of_nat m = 1 + 4 * r.
Proof. induction m as [|m (r & IH)]; [exists 0; reflexivity|]. rewrite Nat2Z.inj_succ, Z.pow_succ_r, IH by lia. exists (q + r + 4 * q * r). unfold a. ring. Qed.
Lemma geo_add : forall m n, geo (m + n) = geo m + a ^ Z.of_nat m * geo n.
Proof. induction m as [|m IH]; intros n; [cbn [geo Nat.add Z.of_nat]; rewrite Z.pow_0_r; ring|]. cbn [geo Nat.add]. rewrite IH, Nat2Z.inj_succ, Z.pow_succ_r by lia. ring. Qed.
Lemma geo_par : forall n, exists r, geo n = Z.of_nat n + 2 * r.
Proof. induction n as [|n (r & IH)]; [exists 0; reflexivity|]. cbn [geo]. rewrite IH, Nat2Z.inj_succ. exists (r + 2 * q * (Z.of_nat n + 2 * r)). unfold a. ring. Qed.
Lemma odd_pow : forall o k, rel_prime (2 ^ Z.of_nat k) (1 + 2 * o).
Proof.
  intros o k. apply rel_prime_sym. induction k as [|k IH]; [apply rel_prime_1 || (apply rel_prime_sym; apply rel_prime_1)|]. rewrite Nat2Z.inj_succ, Z.pow_succ_r by lia. apply rel_prime_mult; auto.
  apply bezout_rel_prime. apply Bezout_intro with 1 (- o). ring.
Qed.
Lemma geo_two : forall k n, (2 ^ Z.of_nat k | geo n) <-> (2 ^ Z.of_nat k | Z.of_nat n).
Proof.
  induction k as [|k IH]; intros n; [split; intros _; apply Z.divide_1_l|]. rewrite Nat2Z.inj_succ, Z.pow_succ_r by lia. set (P := 2 ^ Z.of_nat k) in *.
  assert (PN : P <> 0) by (unfold P; pose proof (Z.pow_pos_nonneg 2 (Z.of_nat k)); lia).
  destruct (Nat.Even_or_Odd n) as [(m & ->)|(m & ->)].
  - replace (2 * m)%nat with (m + m)%nat by lia. rewrite geo_add. destruct (pow_one m) as (r & ->). replace (geo m + (1 + 4 * r) * geo m) with (2 * ((1 + 2 * r) * geo m)) by ring. rewrite Nat2Z.inj_add. replace (Z.of_nat m + Z.of_nat m) with (2 * Z.of_nat m) by ring.
    split; intros H; apply Z.mul_divide_cancel_l in H; try lia; apply Z.mul_divide_mono_l.
    + apply IH. apply Gauss with (1 + 2 * r); auto. apply odd_pow.
    + apply Z.divide_mul_r. apply IH. auto.
  - destruct (geo_par (2 * m + 1)) as (r & ->). split; intros (z & H); exfalso; lia.
Qed.
Lemma lcg_w : forall x, exists o, (a - 1) * x + c = 1 + 2 * o.
Proof. intros x. destruct odd_c as (e & ->). exists (2 * q * x + e). unfold a. ring. Qed.
Lemma lcg_period : forall k n x, (2 ^ Z.of_nat k | lcg n x - x) <-> (2 ^ Z.of_nat k | Z.of_nat n).
Proof.
  intros k n x. rewrite lcg_geo. destruct (lcg_w x) as (o & ->). replace (x + geo n * (1 + 2 * o) - x) with ((1 + 2 * o) * geo n) by ring. rewrite <- geo_two. split; intros H; [apply Gauss with (1 + 2 * o); auto; apply odd_pow|apply Z.divide_mul_r; auto].
Qed.
Lemma lcg_reach : forall k x y, exists n, Z.of_nat n < 2 ^ Z.of_nat k /\ (2 ^ Z.of_nat k | lcg n x - y).
Proof.
  induction k as [|k IH]; intros x y; [exists 0%nat; split; [reflexivity|apply Z.divide_1_l]|]. destruct (IH x y) as (n & N & D). rewrite Nat2Z.inj_succ, Z.pow_succ_r by lia.
  assert (PP : 0 < 2 ^ Z.of_nat k) by (apply Z.pow_pos_nonneg; lia). set (M := Z.to_nat (2 ^ Z.of_nat k)). assert (EM : Z.of_nat M = 2 ^ Z.of_nat k) by (unfold M; lia).
  destruct D as (z & D). destruct (Z.Even_or_Odd z) as [(e & ->)|(e & ->)]; [exists n; split; [lia|exists e; lia]|]. exists (M + n)%nat. split; [lia|]. rewrite lcg_add.
  assert (D1 : (2 ^ Z.of_nat k | lcg M (lcg n x) - lcg n x)) by (apply lcg_period; rewrite EM; apply Z.divide_refl).
  assert (D2 : ~ (2 ^ Z.of_nat (S k) | lcg M (lcg n x) - lcg n x)). { rewrite lcg_period, EM. intros H. apply Z.divide_pos_le in H; auto. rewrite Nat2Z.inj_succ, Z.pow_succ_r in H by lia. lia. }
  rewrite Nat2Z.inj_succ, Z.pow_succ_r in D2 by lia. destruct D1 as (w & D1). destruct (Z.Even_or_Odd w) as [(f & ->)|(f & ->)]; [exfalso; apply D2; exists f; lia|]. exists (e + f + 1). lia.
Qed.
Lemma lcg_once : forall k x m n, (m <= n)%nat -> Z.of_nat n < 2 ^ Z.of_nat k -> (2 ^ Z.of_nat k | lcg m x - lcg n x) -> m = n.
Proof.
  intros k x m n L N D. replace n with ((n - m) + m)%nat in D by lia. rewrite lcg_add in D. assert (D' : (2 ^ Z.of_nat k | lcg (n - m) (lcg m x) - lcg m x)) by (destruct D as (z & D); exists (- z); lia). apply lcg_period in D'. destruct (Nat.eq_dec m n) as [|Ne]; auto. exfalso. apply Z.divide_pos_le in D'; lia.
Qed.
End LCG.
Lemma iter_lcg : forall n s, valid s -> valid (Nat.iter n next s) /\ (2 ^ 48 | lcg 6303725979 11 n (bits48 s) - bits48 (Nat.iter n next s)).
Proof.
  induction n as [|n IH]; intros s V; [split; [exact V|cbn [Nat.iter nat_rect lcg]; rewrite Z.sub_diag; apply Z.divide_0_r]|]. destruct (IH s V) as (V' & z & D). cbn [Nat.iter nat_rect] in *. set (t := nat_rect _ _ _ n) in *. destruct (step_ok t V') as (V2 & E). split; auto. rewrite E. unfold drand48_next. cbn [lcg].
  set (x := bits48 t) in *. pose proof (Z.div_mod (25214903917 * x + 11) (2 ^ 48) ltac:(lia)) as M. set (m := (25214903917 * x + 11) mod 2 ^ 48) in *. exists (25214903917 * z + (25214903917 * x + 11) / 2 ^ 48). set (y := lcg _ _ n _) in *. change (bits48 (Nat.iter n next s)) with x in D. replace y with (x + z * 2 ^ 48) by lia. replace m with (25214903917 * x + 11 - 2 ^ 48 * ((25214903917 * x + 11) / 2 ^ 48)) by lia. ring.
Qed.
Lemma bits_inj : forall s t, valid s -> valid t -> (2 ^ 48 | bits48 s - bits48 t) -> s = t.
Proof.
  intros [[x0 x1] x2] [[y0 y1] y2] (A & B & C) (A' & B' & C') (z & D). cbn [bits48] in D. assert (z = 0) by (change (2 ^ 48) with 281474976710656 in D; change (2 ^ 16) with 65536 in *; change (2 ^ 32) with 4294967296 in *; nia). subst z. assert (x0 = y0) by lia. assert (x1 = y1) by lia. assert (x2 = y2) by lia. congruence.
Qed.
