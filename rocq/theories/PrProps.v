(** Property C45: polynomial roots. *)
From Coq Require Import List Arith Bool Reals Lia Lra Psatz.
Import ListNotations.
From Verif Require Import Imp PrModel PrSpec PrProofs.
Open Scope R_scope.

(** The evaluation is the polynomial. *)
Theorem C45_Eval : forall x a, a <> [] -> Eval_Polynomial x a (length a) = Some (poly a x).
Proof. exact Eval_ok. Qed.

(** With a non-zero leading coefficient the result is the set of roots in the range. *)
Theorem C45_Quadratic : forall x0 x1 a b c, a <> 0 -> x0 <= x1 -> exists l, RootsInRange_QuadraticPolynomial x0 x1 a b c = Some l /\ forall x, In x l <-> x0 <= x <= x1 /\ poly [c; b; a] x = 0.
Proof.
  intros x0 x1 a b c A X. destruct (Quad_ok x0 x1 a b c A X) as (l & E & H). exists l. split; auto. intros x. rewrite H. replace (poly [c; b; a] x) with (a * x * x + b * x + c) by (unfold poly; cbn [poly_from pow]; ring). tauto.
Qed.

(** With a zero leading coefficient nothing that is returned is a root, unless the constant coefficient is zero; and numbers outside of the range are returned. *)
Theorem C45_linear_refuted : (forall x0 x1 b c l, b <> 0 -> c <> 0 -> RootsInRange_QuadraticPolynomial x0 x1 0 b c = Some l -> forall x, In x l -> poly [c; b; 0] x <> 0) /\
  (exists l, RootsInRange_QuadraticPolynomial 0 2 0 1 (-1) = Some l /\ poly [-1; 1; 0] 1 = 0 /\ ~ In 1 l /\ In (-1) l).
Proof.
  split.
  - intros x0 x1 b c l B C H x I. replace (poly [c; b; 0] x) with (b * x + c) by (unfold poly; cbn [poly_from pow]; ring). eapply Linear_wrong; eauto.
  - exists [-1]. split; [|split; [unfold poly; cbn; lra|split; [intros [H|[]]; lra|left; auto]]].
    unfold RootsInRange_QuadraticPolynomial. destruct (ltR_spec 2 0); [lra|]. cbn [negb assertb bind]. cbv zeta. destruct (ltR_spec (1 * 1 - 4 * 0 * -1) 0); [lra|]. destruct (eqR_spec 0 0); [|lra]. destruct (eqR_spec 1 0); [lra|]. unfold div. destruct (eqR_spec 1 0); [lra|]. cbn [bind]. destruct (ltR_spec (-1 / 1) 2); [|lra]. rewrite orb_true_r. do 2 f_equal. lra.
Qed.

(** Bisection from a sign change: if no bisection point is itself a root, the result is in the interval and is closer to a root than the interval length divided by two to the number of iterations. *)
Theorem C45_Bisection : forall l r a m, a <> [] -> poly a l * poly a r < 0 -> (forall k j, (j <= 2 ^ k)%nat -> poly a (l + (r - l) * INR j / 2 ^ k) <> 0) ->
  exists y z, RootInInterval_Bisection l r a (length a) m = Some y /\ poly a z = 0 /\ Rabs (y - z) <= Rabs (r - l) / 2 ^ m /\ Rmin l r <= y <= Rmax l r /\ Rmin l r <= z <= Rmax l r.
Proof.
  intros l r a m N H ND. rewrite Bisection_eq by auto. destruct (ltR_spec 0 (poly a l * poly a r)); [lra|]. cbn [negb assertb bind]. assert (B := binv_iter a l r m ND H). destruct (Nat.iter m (bstep a) (l, r, poly a l, poly a r)) as [[[x0 x1] f0] f1]. destruct B as (F0 & F1 & SG & j0 & j1 & J0 & J1 & A & X0 & X1).
  unfold div. destruct (eqR_spec (f1 - f0) 0) as [Q|Q]; [exfalso; replace f1 with f0 in SG by lra; assert (P := Rle_0_sqr f0); unfold Rsqr in P; lra|].
  assert (SB := secant_between x0 x1 f0 f1 SG). rewrite F0, F1 in SG. destruct (root_between a x0 x1 SG) as (z & Z1 & Z2). eexists. exists z. split; [reflexivity|]. split; auto.
  assert (P : 0 < 2 ^ m) by (apply pow_lt; lra).
  assert (DX : Rmax x0 x1 - Rmin x0 x1 = Rabs (r - l) / 2 ^ m).
  { assert (E : Rabs (x0 - x1) = Rabs (r - l) / 2 ^ m).
    { replace (x0 - x1) with ((r - l) * ((INR j0 - INR j1) / 2 ^ m)) by (rewrite X0, X1; field; lra). rewrite Rabs_mult. unfold Rdiv. rewrite Rabs_mult. rewrite (Rabs_pos_eq (/ 2 ^ m)) by (left; apply Rinv_0_lt_compat; auto). replace (Rabs (INR j0 - INR j1)) with 1; [ring|]. destruct A as [-> | ->]; rewrite S_INR; [replace (INR j1 + 1 - INR j1) with 1 by ring; rewrite Rabs_R1; auto|replace (INR j0 - (INR j0 + 1)) with (- (1)) by ring; rewrite Rabs_Ropp, Rabs_R1; auto]. }
    rewrite <- E. unfold Rmax, Rmin, Rabs. destruct (Rle_dec x0 x1), (Rcase_abs (x0 - x1)); lra. }
  assert (IN : forall j, (j <= 2 ^ m)%nat -> Rmin l r <= l + (r - l) * INR j / 2 ^ m <= Rmax l r).
  { intros j J. assert (T : 0 <= INR j / 2 ^ m <= 1). { split; [apply Rle_mult_inv_pos; auto; apply pos_INR|]. apply (Rmult_le_reg_r (2 ^ m)); auto. replace (INR j / 2 ^ m * 2 ^ m) with (INR j) by (field; lra). rewrite Rmult_1_l. replace (2 ^ m) with (INR (2 ^ m)) by (rewrite pow_INR; auto). apply le_INR. auto. }
    unfold Rdiv in *. rewrite Rmult_assoc. set (t := INR j * / 2 ^ m) in *. unfold Rmin, Rmax. destruct (Rle_dec l r); nra. }
  assert (I0 := IN j0 J0). assert (I1 := IN j1 J1). rewrite <- X0 in I0. rewrite <- X1 in I1.
  assert (MM : Rmin l r <= Rmin x0 x1 /\ Rmax x0 x1 <= Rmax l r) by (split; [apply Rmin_glb; lra|apply Rmax_lub; lra]).
  split; [|split; lra]. rewrite <- DX. unfold Rabs. destruct (Rcase_abs _); lra.
Qed.

(** If a bisection point or the right end is a root, that root is lost: on [0, 1] the results move away from the interval with the number of iterations, for x^2 - 1/4 from the second iteration and for x^2 - 1 from the first. *)
Lemma tup4 : forall a b c d a' b' c' d' : R, a = a' -> b = b' -> c = c' -> d = d' -> (a, b, c, d) = (a', b', c', d'). Proof. intros. subst. auto. Qed.
Lemma lost : forall d m, 0 < d -> Nat.iter m (bstep [- d; 0; 1]) (0, (1 / 2) ^ 0, - d, 1 - d) = (0, (1 / 2) ^ m, - d, (1 / 2) ^ m * (1 / 2) ^ m - d) -> forall n, ((1 / 2) ^ m * (1 / 2) ^ m <= d) -> Nat.iter (n + m) (bstep [- d; 0; 1]) (0, (1 / 2) ^ 0, - d, 1 - d) = (0, (1 / 2) ^ (n + m), - d, (1 / 2) ^ (n + m) * (1 / 2) ^ (n + m) - d).
Proof.
  intros d m D E n H. assert (G : forall n, 0 < (1 / 2) ^ (n + m) /\ (1 / 2) ^ (n + m) <= (1 / 2) ^ m).
  { induction n0 as [|k (I1 & I2)]; cbn [Nat.add pow]; [split; [apply pow_lt; lra|lra]|]. split; lra. }
  induction n as [|n IH]; auto. cbn [Nat.add Nat.iter nat_rect]. change (nat_rect _ ?s _ (n + m)) with (Nat.iter (n + m) (bstep [- d; 0; 1]) s). rewrite IH. clear IH. unfold bstep. destruct (G n) as (G1 & G2). set (x := (1 / 2) ^ (n + m)) in *. set (y := (1 / 2) ^ m) in *.
  assert (X2 : x * x <= d) by nra. replace (poly [- d; 0; 1] ((0 + x) / 2)) with (x * x / 4 - d) by (unfold poly; cbn [poly_from pow]; field). destruct (ltR_spec ((x * x - d) * (x * x / 4 - d)) 0) as [Q|Q]; [exfalso; nra|]. cbn [pow]. fold x. apply tup4; try reflexivity; field.
Qed.
Theorem C45_exact_root_refuted : (forall n, RootInInterval_Bisection 0 1 [-1 / 4; 0; 1] 3 (n + 2) = Some (2 ^ n)) /\ poly [-1 / 4; 0; 1] (1 / 2) = 0 /\ (forall x, 1 < x -> poly [-1 / 4; 0; 1] x <> 0) /\
  (forall n, RootInInterval_Bisection 0 1 [-1; 0; 1] 3 n = Some (2 ^ n)) /\ poly [-1; 0; 1] 1 = 0.
Proof.
  assert (PE : forall d x, poly [- d; 0; 1] x = x * x - d) by (intros; unfold poly; cbn [poly_from pow]; ring).
  assert (FIN : forall d n, 0 < d -> 0 - d < 0 -> Nat.iter n (bstep [- d; 0; 1]) (0, (1 / 2) ^ 0, - d, 1 - d) = (0, (1 / 2) ^ n, - d, (1 / 2) ^ n * (1 / 2) ^ n - d) -> d <= 1 -> RootInInterval_Bisection 0 1 [- d; 0; 1] 3 n = Some (d * 2 ^ n)).
  { intros d n D _ E D1. change 3%nat with (length [- d; 0; 1]). rewrite Bisection_eq by discriminate. rewrite !PE. replace (0 * 0 - d) with (- d) by ring. replace (1 * 1 - d) with (1 - d) by ring. destruct (ltR_spec 0 (- d * (1 - d))); [nra|]. cbn [negb assertb bind]. change ((1 / 2) ^ 0) with 1 in E. rewrite E.
    assert (P : 0 < (1 / 2) ^ n) by (apply pow_lt; lra). assert (T : (1 / 2) ^ n * 2 ^ n = 1) by (rewrite <- Rpow_mult_distr; replace (1 / 2 * 2) with 1 by field; apply pow1). unfold div. set (x := (1 / 2) ^ n) in *. destruct (eqR_spec (x * x - d - - d) 0) as [Q|Q]; [nra|]. f_equal. replace (2 ^ n) with (1 / x) by (rewrite <- T; field; lra). field. split; [lra|]. nra. }
  replace (-1 / 4) with (- (1 / 4)) by lra. split; [|split; [|split; [|split]]].
  - intros n. rewrite (FIN (1 / 4)); try lra; [f_equal; rewrite pow_add; cbn [pow]; field|].
    assert (L := lost (1 / 4) 1 ltac:(lra)). replace (n + 2)%nat with (n + 1 + 1)%nat by lia. apply L; [|cbn [pow]; lra]. cbn [Nat.iter nat_rect]. unfold bstep. rewrite PE. cbn [pow]. destruct (ltR_spec ((1 - 1 / 4) * ((0 + 1) / 2 * ((0 + 1) / 2) - 1 / 4)) 0); [exfalso; lra|]. apply tup4; try reflexivity; field.
  - rewrite PE. lra.
  - intros x X. rewrite PE. nra.
  - intros n. replace (-1) with (- (1)) by ring. rewrite (FIN 1); try lra; [f_equal; ring|]. assert (L := lost 1 0 ltac:(lra)). replace n with (n + 0)%nat by lia. apply L; [|cbn [pow]; lra]. cbn [Nat.iter nat_rect pow]. apply tup4; try reflexivity; ring.
  - replace (-1) with (- (1)) by ring. rewrite PE. lra.
Qed.

Example C45_quadratic_example : exists l, RootsInRange_QuadraticPolynomial 0 5 1 (-3) 2 = Some l /\ In 1 l /\ In 2 l /\ ~ In 3 l.
Proof. destruct (C45_Quadratic 0 5 1 (-3) 2 ltac:(lra) ltac:(lra)) as (l & E & H). exists l. split; auto. rewrite !H. unfold poly; cbn [poly_from pow]. repeat split; try lra. Qed.
(** x^2 - 1/3 has no dyadic root. *)
Example C45_bisection_example : (forall k j, (j <= 2 ^ k)%nat -> poly [-1; 0; 3] (0 + (1 - 0) * INR j / 2 ^ k) <> 0) /\ poly [-1; 0; 3] 0 * poly [-1; 0; 3] 1 < 0.
Proof.
  split; [|unfold poly; cbn; lra]. intros k j _ H. assert (P : 0 < 2 ^ k) by (apply pow_lt; lra). assert (E : 3 * (INR j * INR j) = 2 ^ k * 2 ^ k).
  { replace (poly [-1; 0; 3] (0 + (1 - 0) * INR j / 2 ^ k)) with ((3 * (INR j * INR j) - 2 ^ k * 2 ^ k) / (2 ^ k * 2 ^ k)) in H by (unfold poly; cbn [poly_from pow]; field; lra). unfold Rdiv in H. apply Rmult_integral in H. destruct H as [H|H]; [lra|]. exfalso. revert H. apply Rinv_neq_0_compat. nra. }
  assert (EN : (3 * (j * j) = 2 ^ k * 2 ^ k)%nat) by (apply INR_eq; rewrite !mult_INR, pow_INR; replace (INR 2) with 2 by (cbn; lra); replace (INR 3) with 3 by (cbn; lra); exact E).
  assert (D : forall k, ((2 ^ k * 2 ^ k) mod 3 = 1)%nat). { clear. induction k as [|k IH]; auto. replace (2 ^ S k * 2 ^ S k)%nat with (4 * (2 ^ k * 2 ^ k))%nat by (cbn [Nat.pow]; lia). rewrite Nat.mul_mod by lia. rewrite IH. reflexivity. }
  assert (Q := D k). rewrite <- EN in Q. rewrite Nat.mul_comm, Nat.mod_mul in Q by lia. discriminate.
Qed.

Print Assumptions C45_Eval.
Print Assumptions C45_Quadratic.
Print Assumptions C45_linear_refuted.
Print Assumptions C45_Bisection.
Print Assumptions C45_exact_root_refuted.
