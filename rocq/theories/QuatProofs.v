From Coq Require Import List Arith Bool Reals Lra Lia Nsatz.
Import ListNotations.
From Verif Require Import Imp PrModel QuatModel QuatSpec.
Open Scope R_scope.

Lemma ltR_spec : forall a b, if ltR a b then a < b else b <= a. Proof. intros. unfold ltR. destruct (Rlt_dec a b); lra. Qed.
Lemma eqR_spec : forall a b, if eqR a b then a = b else a <> b. Proof. intros. unfold eqR. destruct (Req_EM_T a b); auto. Qed.
Lemma v3_eq : forall a b c a' b' c', a = a' -> b = b' -> c = c' -> V3 a b c = V3 a' b' c'. Proof. congruence. Qed.
Lemma q4_eq : forall a b c d a' b' c' d', a = a' -> b = b' -> c = c' -> d = d' -> Q4 a b c d = Q4 a' b' c' d'. Proof. congruence. Qed.
Ltac unf := unfold unit, norm2, hamilton, QuatQuat, QuatVec, QuatConjVec, rodrigues, matvec, row0, row1, row2, mk, im, vadd, vscale, vcross, vdot, Mat3_Quat, Dot_Quat, conjugate, quat_add, quat_scale in *; cbn [qx qy qz qw vx vy vz m0 m1 m2 m3 m4 m5 m6 m7 m8] in *.
Lemma hamilton_ok : forall p q, QuatQuat p q = hamilton p q. Proof. intros [] []. unf. apply q4_eq; ring. Qed.
Lemma assoc : forall p q r, QuatQuat (QuatQuat p q) r = QuatQuat p (QuatQuat q r). Proof. intros [] [] []. unf. apply q4_eq; ring. Qed.
Lemma norm_mul : forall p q, norm2 (QuatQuat p q) = norm2 p * norm2 q. Proof. intros [] []. unf. ring. Qed.
Lemma unit_mul : forall p q, unit p -> unit q -> unit (QuatQuat p q). Proof. unfold unit. intros. rewrite norm_mul, H, H0. ring. Qed.
(** For unit q, QuatVec is conjugation. *)
Lemma vec_conj : forall q v, unit q -> mk 0 (QuatVec q v) = hamilton (hamilton q (mk 0 v)) (conjugate q).
Proof.
  intros [a b c d] [x y z] U. rewrite <- !hamilton_ok. unfold mk, conjugate. cbn [vx vy vz qx qy qz qw]. unfold QuatQuat at 2. cbn [qx qy qz qw]. unfold QuatQuat, QuatVec. cbn [vx vy vz qx qy qz qw]. unfold unit, norm2, im, vdot in U. cbn [vx vy vz qx qy qz qw] in U. apply q4_eq; nsatz.
Qed.
Lemma conj_mul : forall p q, conjugate (QuatQuat p q) = QuatQuat (conjugate q) (conjugate p). Proof. intros [] []. unf. apply q4_eq; ring. Qed.
Lemma vec_comp : forall p q v, unit p -> unit q -> QuatVec (QuatQuat p q) v = QuatVec p (QuatVec q v).
Proof.
  intros p q v P Q0. assert (E := vec_conj (QuatQuat p q) v (unit_mul p q P Q0)). assert (E1 := vec_conj p (QuatVec q v) P). assert (E2 := vec_conj q v Q0). rewrite E2 in E1.
  assert (T : hamilton (hamilton (QuatQuat p q) (mk 0 v)) (conjugate (QuatQuat p q)) = hamilton (hamilton p (hamilton (hamilton q (mk 0 v)) (conjugate q))) (conjugate p)) by (rewrite <- !hamilton_ok, conj_mul, !assoc; reflexivity).
  rewrite T in E. rewrite <- E1 in E. destruct (QuatVec (QuatQuat p q) v) as [x y z], (QuatVec p (QuatVec q v)) as [x1 y1 z1]. unfold mk in E. cbn [vx vy vz] in E. congruence.
Qed.
Lemma vec_dot : forall q u v, unit q -> vdot (QuatVec q u) (QuatVec q v) = vdot u v.
Proof. intros [a b c d] [x y z] [x' y' z'] U. unf. nsatz. Qed.
Lemma vec_cross : forall q u v, unit q -> vcross (QuatVec q u) (QuatVec q v) = QuatVec q (vcross u v).
Proof. intros [a b c d] [x y z] [x' y' z'] U. unf. apply v3_eq; nsatz. Qed.
Lemma conj_inv : forall q v, unit q -> QuatConjVec q (QuatVec q v) = v /\ QuatVec q (QuatConjVec q v) = v.
Proof. intros [a b c d] [x y z] U. unf. split; apply v3_eq; nsatz. Qed.
Lemma conj_conj : forall q v, QuatConjVec q v = QuatVec (conjugate q) v. Proof. intros [] []. unf. apply v3_eq; ring. Qed.
Lemma mat_vec : forall q v, matvec (Mat3_Quat q) v = QuatVec q v. Proof. intros [] []. unf. apply v3_eq; ring. Qed.
Lemma mat_rot : forall q, unit q -> rotation (Mat3_Quat q).
Proof. intros [a b c d] U. unfold rotation. unf. repeat split; nsatz. Qed.

Lemma axis_angle : forall n th v, vdot n n = 1 -> QuatVec (mk (cos (th / 2)) (vscale (sin (th / 2)) n)) v = rodrigues n th v.
Proof.
  intros [a b c] th [x y z] U. assert (S1 := sin2_cos2 (th / 2)). assert (C := cos_2a (th / 2)). assert (S := sin_2a (th / 2)). replace (2 * (th / 2)) with th in * by field. unfold Rsqr in S1. unf. rewrite C, S. generalize dependent (sin (th / 2)). generalize (cos (th / 2)). intros co si S1 _ _. apply v3_eq; nsatz.
Qed.
Lemma axis_unit : forall n th, vdot n n = 1 -> unit (mk (cos (th / 2)) (vscale (sin (th / 2)) n)).
Proof. intros [a b c] th U. assert (S1 := sin2_cos2 (th / 2)). unfold Rsqr in S1. unf. generalize dependent (sin (th / 2)). generalize (cos (th / 2)). intros co si S1. nsatz. Qed.
Lemma axis_norm : forall i, vdot (axis i) (axis i) = 1. Proof. intros [|[|i]]; cbn [axis]; unf; ring. Qed.
Lemma half_eq : forall x, x * (1 / 2) = x / 2. Proof. intros. field. Qed.

(** ** Quat_Mat3 *)
(** The symmetric matrix of the code is 4 q q^T for a rotation matrix: all 2x2 minors vanish. *)
Definition smat (p : mat3) : list R := [
      1 + m0 p - m4 p - m8 p; m1 p + m3 p; m2 p + m6 p; m7 p - m5 p;
      m3 p + m1 p; 1 - m0 p + m4 p - m8 p; m5 p + m7 p; m2 p - m6 p;
      m2 p + m6 p; m5 p + m7 p; 1 - m0 p - m4 p + m8 p; m3 p - m1 p;
      m7 p - m5 p; m2 p - m6 p; m3 p - m1 p; 1 + m0 p + m4 p + m8 p].
Definition s (p : mat3) (i j : nat) : R := List.nth (i * 4 + j)%nat (smat p) 0.
Lemma cofactor : forall m, rotation m -> row0 m = vcross (row1 m) (row2 m) /\ row1 m = vcross (row2 m) (row0 m) /\ row2 m = vcross (row0 m) (row1 m).
Proof. intros [a b c d e f g h i] (A & B & C & D & E & F & G). unf. split; [|split]; apply v3_eq; nsatz. Qed.
Lemma cols : forall m, rotation m -> m0 m * m0 m + m3 m * m3 m + m6 m * m6 m = 1 /\ m1 m * m1 m + m4 m * m4 m + m7 m * m7 m = 1 /\ m2 m * m2 m + m5 m * m5 m + m8 m * m8 m = 1.
Proof.
  intros m Rm. destruct (cofactor m Rm) as (K0 & K1 & K2). destruct m as [a b c d e f g h i]. destruct Rm as (A & B & C & D & E & F & G). unf. injection K0 as K00 K01 K02. injection K1 as K10 K11 K12. injection K2 as K20 K21 K22.
  repeat split; [transitivity (a * (e * i - f * h) + d * (h * c - i * b) + g * (b * f - c * e)); [rewrite <- K00, <- K10, <- K20; ring|nsatz]|transitivity (b * (f * g - d * i) + e * (i * a - g * c) + h * (c * d - a * f)); [rewrite <- K01, <- K11, <- K21; ring|nsatz]|transitivity (c * (d * h - e * g) + f * (g * b - h * a) + i * (a * e - b * d)); [rewrite <- K02, <- K12, <- K22; ring|nsatz]].
Qed.
Lemma cols_orth : forall m, rotation m -> m0 m * m1 m + m3 m * m4 m + m6 m * m7 m = 0 /\ m1 m * m2 m + m4 m * m5 m + m7 m * m8 m = 0 /\ m2 m * m0 m + m5 m * m3 m + m8 m * m6 m = 0.
Proof.
  intros m Rm. destruct (cofactor m Rm) as (K0 & K1 & K2). destruct m as [a b c d e f g h i]. clear Rm. unf. injection K0 as K00 K01 K02. injection K1 as K10 K11 K12. injection K2 as K20 K21 K22.
  repeat split; [transitivity (a * (f * g - d * i) + d * (i * a - g * c) + g * (c * d - a * f)); [rewrite <- K01, <- K11, <- K21; ring|ring]|transitivity (b * (d * h - e * g) + e * (g * b - h * a) + h * (a * e - b * d)); [rewrite <- K02, <- K12, <- K22; ring|ring]|transitivity (c * (e * i - f * h) + f * (h * c - i * b) + i * (b * f - c * e)); [rewrite <- K00, <- K10, <- K20; ring|ring]].
Qed.
Lemma minors : forall m, rotation m -> forall i j k, (i < 4)%nat -> (j < 4)%nat -> (k < 4)%nat -> s m i i * s m j k = s m i j * s m i k.
Proof.
  intros m Rm. destruct (cofactor m Rm) as (K0 & K1 & K2). destruct (cols m Rm) as (L0 & L1 & L2). destruct (cols_orth m Rm) as (O0 & O1 & O2). destruct m as [a b c d e f g h i]. destruct Rm as (A & B & C & D & E & F & G). unf. injection K0 as K00 K01 K02. injection K1 as K10 K11 K12. injection K2 as K20 K21 K22. clear G.
  intros x y z X Y Z. unfold s, smat. destruct x as [|[|[|[|]]]]; try (exfalso; lia); destruct y as [|[|[|[|]]]]; try (exfalso; lia); destruct z as [|[|[|[|]]]]; try (exfalso; lia); cbn [List.nth Nat.mul Nat.add m0 m1 m2 m3 m4 m5 m6 m7 m8]; try ring; lra.
Qed.
Definition core (p : mat3) (imax : nat) : option quat :=
  sii <- vget (smat p) (imax * 4 + imax) ;;
  root <- csqrt sii ;;
  quat <- vset [0; 0; 0; 0] imax (root / 2) ;;
  quat <- forn 0 4 (fun k quat =>
    if (k =? imax)%nat then Some quat else
    s <- vget (smat p) (imax * 4 + k) ;;
    qi <- vget quat imax ;;
    x <- div (s * (1 / 4)) qi ;;
    vset quat k x) quat ;;
  x <- vget quat 0 ;; y <- vget quat 1 ;; z <- vget quat 2 ;; w <- vget quat 3 ;;
  Some (Q4 x y z w).
Definition qnth (q : quat) (k : nat) : R := match k with 0%nat => qx q | 1%nat => qy q | 2%nat => qz q | _ => qw q end.
Lemma core_ok : forall p i, (i < 4)%nat -> 0 < s p i i -> exists q, core p i = Some q /\ qnth q i = sqrt (s p i i) / 2 /\ (forall k, (k < 4)%nat -> k <> i -> qnth q k = s p i k * (1 / 4) / (sqrt (s p i i) / 2)).
Proof.
  intros p i Hi P. assert (P2 := sqrt_lt_R0 _ P).
  assert (E : core p i = (root <- csqrt (s p i i) ;; quat <- vset [0; 0; 0; 0] i (root / 2) ;; quat <- forn 0 4 (fun k quat => if (k =? i)%nat then Some quat else s <- vget (smat p) (i * 4 + k) ;; qi <- vget quat i ;; x <- div (s * (1 / 4)) qi ;; vset quat k x) quat ;; x <- vget quat 0 ;; y <- vget quat 1 ;; z <- vget quat 2 ;; w <- vget quat 3 ;; Some (Q4 x y z w))).
  { unfold core. destruct i as [|[|[|[|]]]]; try (exfalso; lia); reflexivity. }
  rewrite E. clear E. unfold csqrt. assert (T := ltR_spec (s p i i) 0). destruct (ltR _ 0); [lra|]. cbn [bind]. set (r := sqrt (s p i i)) in *.
  assert (D : forall x, div x (r / 2) = Some (x / (r / 2))) by (intros x; unfold div; assert (T2 := eqR_spec (r / 2) 0); destruct (eqR _ 0); [lra|auto]).
  destruct i as [|[|[|[|]]]]; try (exfalso; lia); cbn [vset bind]; unfold forn; cbn [Nat.sub forn_ Nat.eqb bind vget nth_error smat Nat.mul Nat.add vset]; rewrite !D; cbn [bind vset vget nth_error]; rewrite ?D; cbn [bind vset vget nth_error]; rewrite ?D; cbn [bind vset vget nth_error];
  (eexists; split; [reflexivity|split; [reflexivity|]]); intros [|[|[|[|]]]] K NK; try (exfalso; lia); reflexivity.
Qed.
Lemma select : forall p, exists i, (i < 4)%nat /\ Quat_Mat3 p = core p i /\ 1 <= s p i i.
Proof.
  intros p. assert (SUM : s p 0 0 + s p 1 1 + s p 2 2 + s p 3 3 = 4) by (unfold s, smat; cbn [List.nth Nat.mul Nat.add]; ring).
  exists (let i := if ltR (s p 1 1) (s p 0 0) then 0%nat else 1%nat in let i := if ltR (s p 2 2) (s p i i) then i else 2%nat in if ltR (s p 3 3) (s p i i) then i else 3%nat).
  assert (A := ltR_spec (s p 1 1) (s p 0 0)). unfold Quat_Mat3. fold (smat p). change (vget (smat p) (0 * 4 + 0)) with (Some (s p 0 0)). change (vget (smat p) (1 * 4 + 1)) with (Some (s p 1 1)). change (vget (smat p) (2 * 4 + 2)) with (Some (s p 2 2)). change (vget (smat p) (3 * 4 + 3)) with (Some (s p 3 3)). cbn [bind]. cbv zeta.
  assert (V : forall i, (i < 4)%nat -> vget (smat p) (i * 4 + i) = Some (s p i i)) by (intros [|[|[|[|]]]] K; try (exfalso; lia); reflexivity).
  set (i1 := if ltR (s p 1 1) (s p 0 0) then 0%nat else 1%nat) in *. assert (A1 : (i1 < 2)%nat /\ s p 0 0 <= s p i1 i1 /\ s p 1 1 <= s p i1 i1) by (unfold i1; destruct (ltR _ _); split; try lia; lra). clearbody i1. clear A. rewrite (V i1) by lia. cbn [bind].
  assert (B := ltR_spec (s p 2 2) (s p i1 i1)). set (i2 := if ltR (s p 2 2) (s p i1 i1) then i1 else 2%nat) in *. assert (A2 : (i2 < 3)%nat /\ s p 0 0 <= s p i2 i2 /\ s p 1 1 <= s p i2 i2 /\ s p 2 2 <= s p i2 i2) by (unfold i2; destruct (ltR _ _); split; try lia; lra). clearbody i2. clear B. rewrite (V i2) by lia. cbn [bind].
  assert (B := ltR_spec (s p 3 3) (s p i2 i2)). set (i3 := if ltR (s p 3 3) (s p i2 i2) then i2 else 3%nat) in *. assert (A3 : (i3 < 4)%nat /\ s p 0 0 <= s p i3 i3 /\ s p 1 1 <= s p i3 i3 /\ s p 2 2 <= s p i3 i3 /\ s p 3 3 <= s p i3 i3) by (unfold i3; destruct (ltR _ _); split; try lia; lra). clearbody i3. clear B.
  split; [lia|]. split; [reflexivity|lra].
Qed.
Lemma Quat_Mat3_ok : forall m, rotation m -> exists q, Quat_Mat3 m = Some q /\ unit q /\ Mat3_Quat q = m.
Proof.
  intros m Rm. destruct (select m) as (i & I & E & P). rewrite E. destruct (core_ok m i I ltac:(lra)) as (q & E2 & Q1 & Q2). exists q. split; auto.
  assert (SQ : sqrt (s m i i) * sqrt (s m i i) = s m i i) by (apply sqrt_sqrt; lra). assert (PR := sqrt_lt_R0 (s m i i) ltac:(lra)). set (r := sqrt (s m i i)) in *.
  assert (QK : forall k, (k < 4)%nat -> qnth q k * (2 * r) = s m i k). { intros k K. destruct (Nat.eq_dec k i) as [->|N]; [rewrite Q1; transitivity (r * r); [field|auto]|]. rewrite Q2 by auto. field. lra. }
  assert (PQ : forall j k, (j < 4)%nat -> (k < 4)%nat -> 4 * (qnth q j * qnth q k) = s m j k).
  { intros j k J K. assert (M := minors m Rm i j k I J K). rewrite <- (QK j J), <- (QK k K) in M. assert (4 * (qnth q j * qnth q k) * s m i i = s m j k * s m i i) by (rewrite (Rmult_comm (s m j k)), M, <- SQ; ring). apply (Rmult_eq_reg_r (s m i i)); auto. lra. }
  assert (H00 := PQ 0%nat 0%nat ltac:(lia) ltac:(lia)). assert (H01 := PQ 0%nat 1%nat ltac:(lia) ltac:(lia)). assert (H02 := PQ 0%nat 2%nat ltac:(lia) ltac:(lia)). assert (H03 := PQ 0%nat 3%nat ltac:(lia) ltac:(lia)). assert (H11 := PQ 1%nat 1%nat ltac:(lia) ltac:(lia)). assert (H12 := PQ 1%nat 2%nat ltac:(lia) ltac:(lia)). assert (H13 := PQ 1%nat 3%nat ltac:(lia) ltac:(lia)). assert (H22 := PQ 2%nat 2%nat ltac:(lia) ltac:(lia)). assert (H23 := PQ 2%nat 3%nat ltac:(lia) ltac:(lia)). assert (H33 := PQ 3%nat 3%nat ltac:(lia) ltac:(lia)).
  clear - H00 H01 H02 H03 H11 H12 H13 H22 H23 H33. destruct q as [a b c d], m as [n0 n1 n2 n3 n4 n5 n6 n7 n8]. unfold s, smat in *. cbn [List.nth Nat.mul Nat.add qnth m0 m1 m2 m3 m4 m5 m6 m7 m8 qx qy qz qw] in *. unf. split; [lra|]. f_equal; lra.
Qed.
Lemma mat_inj : forall p q, unit p -> unit q -> Mat3_Quat p = Mat3_Quat q -> q = p \/ q = quat_scale p (-1).
Proof.
  intros [a b c d] [a' b' c' d'] U V E. unf. injection E as E0 E1 E2 E3 E4 E5 E6 E7 E8.
  assert (AA : a' * a' = a * a) by lra. assert (BB : b' * b' = b * b) by lra. assert (CC : c' * c' = c * c) by lra. assert (DD : d' * d' = d * d) by lra.
  assert (AB : a' * b' = a * b) by lra. assert (BC : b' * c' = b * c) by lra. assert (CA : c' * a' = c * a) by lra. assert (AD : a' * d' = a * d) by lra. assert (BD : b' * d' = b * d) by lra. assert (CD : c' * d' = c * d) by lra. clear E0 E1 E2 E3 E4 E5 E6 E7 E8.
  (* t = <p, q> = +-1 and q = t p *)
  set (t := a * a' + b * b' + c * c' + d * d'). assert (T : t * t = 1) by (unfold t; nsatz).
  assert (TA : a' = t * a) by (unfold t; nsatz). assert (TB : b' = t * b) by (unfold t; nsatz). assert (TC : c' = t * c) by (unfold t; nsatz). assert (TD : d' = t * d) by (unfold t; nsatz).
  assert (H : t = 1 \/ t = -1). { assert (G : (t - 1) * (t + 1) = 0) by lra. apply Rmult_integral in G. destruct G; [left|right]; lra. }
  destruct H as [H|H]; rewrite H in *; [left|right]; apply q4_eq; lra.
Qed.
