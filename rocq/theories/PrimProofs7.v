(** Generated meshes: the sphere, the cube, the disk, the open cylinder and the torus in space. *)
From Coq Require Import List Arith Bool Lia Reals Lra.
Import ListNotations.
From Verif Require Import Imp PrimModel PrimSpec SgProofs2 PrimProofs1 PrimProofs2 PrimProofs3 PrimProofs4 PrimProofs5 PrimPi PrimProofs6.
Local Open Scope R_scope.

Lemma sph_norm : forall rad k n a b, norm2 (sph rad k n a b) = rad * rad.
Proof.
  intros. unfold norm2, sph, X, Y, Z. cbn [fst snd]. set (s := sin (pi10 / INR k * INR a)). set (c := cos (pi10 / INR k * INR a)). set (s' := sin (2 * pi10 / INR n * INR b)). set (c' := cos (2 * pi10 / INR n * INR b)).
  assert (E1 : s * s + c * c = 1) by (unfold s, c; generalize (sin2_cos2 (pi10 / INR k * INR a)); unfold Rsqr; lra). assert (E2 : s' * s' + c' * c' = 1) by (unfold s', c'; generalize (sin2_cos2 (2 * pi10 / INR n * INR b)); unfold Rsqr; lra).
  match goal with |- ?e = _ => replace e with (rad * rad * (s * s * (s' * s' + c' * c') + c * c)) by ring end. rewrite E2, Rmult_1_r, E1. ring.
Qed.
Lemma sin_small : forall e, 0 <= e <= 1 -> e / 2 <= sin e.
Proof.
  intros e He. assert (P3 : 3 < PI) by (destruct pi_bounds; lra). destruct (SIN e) as (H & _); try lra. unfold sin_lb, sin_approx, sin_term in H. cbn [sum_f_R0] in H. simpl in H.
  assert (0 <= e * e <= 1) by nra. assert (0 <= e * (e * e) <= e) by nra. assert (0 <= e * (e * e) * (e * e) <= e * (e * e)) by nra. assert (0 <= e * (e * e) * (e * e) * (e * e) <= e * (e * e) * (e * e)) by nra. nra.
Qed.
Lemma cos_11 : forall e, 0 <= e <= 11 / 10 -> 45 / 100 <= cos e.
Proof.
  intros e He. assert (P3 : 3 < PI) by (destruct pi_bounds; lra). assert (D : cos (11 / 10) <= cos e). { destruct (Req_dec e (11 / 10)) as [->|]. lra. left. apply cos_decreasing_1; lra. }
  destruct (COS (11 / 10)) as (H & _); try lra. unfold cos_lb, cos_approx, cos_term in H. cbn [sum_f_R0] in H. simpl in H. lra.
Qed.

Section Sph.
Variables (rad : R) (k n : nat).
Hypothesis HR : 0 < rad.
Hypothesis Hk : (2 <= k)%nat.
Hypothesis Hn : (3 <= n)%nat.
Hypothesis Hbig : INR k <= 4294967296.
Definition dl : R := pi10 / INR k.
Definition th (r : nat) : R := dl * INR r.
Lemma dl_rng : 0 < dl /\ dl <= pi10 / 2 /\ 7 / 10000000000 <= dl /\ th k = pi10.
Proof.
  assert (K2 : 2 <= INR k) by (replace 2 with (INR 2) by (simpl; ring); apply INR_ge; auto). destruct pi_bounds as (P1 & P2 & P3). unfold th, dl. split; [|split; [|split]].
  - apply Rdiv_lt_0_compat; lra.
  - apply Rmult_le_compat_l; [lra|]. apply Rinv_le_contravar; lra.
  - apply Rle_trans with (pi10 / 4294967296). unfold pi10. lra. apply Rmult_le_compat_l; [lra|]. apply Rinv_le_contravar; lra.
  - field. lra.
Qed.
Lemma th_S : forall r, th (r + 1) = th r + dl. Proof. intros. unfold th. rewrite plus_INR. simpl (INR 1). ring. Qed.
Lemma th_rng : forall r, (1 <= r < k)%nat -> 0 < th r <= pi10 - dl.
Proof.
  intros r Hr. destruct dl_rng as (D1 & D2 & D3 & D4). unfold th in *. assert (1 <= INR r) by (change 1 with (INR 1); apply INR_ge; lia). assert (INR r <= INR k - 1). { replace (INR k - 1) with (INR (k - 1)). apply INR_ge. lia. rewrite minus_INR by lia. auto. } nra.
Qed.
Lemma sph_out : faces_outwards (pts3 (revolved (sph rad k n 0 0) (sph rad k n k 0) (fun r c => sph rad k n (r + 1) c) (k - 1) n)) (tube n (k - 1)).
Proof.
  destruct dl_rng as (D1 & D2 & D3 & D4). destruct pi_bounds as (P1 & P2 & P3). assert (Sdl : 0 < sin dl) by (apply sin_gt_0; lra).
  assert (HR2 : 0 < rad * rad * rad) by (repeat apply Rmult_lt_0_compat; auto).
  assert (Sth : forall r, (r < k - 1)%nat -> 0 < sin (th (r + 1))). { intros r Hr. destruct (th_rng (r + 1)); [lia|]. apply sin_gt_0; lra. }
  intros a b c H. rewrite !PrimProofs4.P3_pts3. apply tube_tris in H. destruct H as [(j & Hj & H)|[(r & j & Hr & Hj & H)|(j & Hj & H)]]; assert (Hs := sc_lt n j Hj); assert (T := ang_turn n j Hn Hj).
  - destruct H as [E|[]]. injection E as <- <- <-. rewrite revolved_s. replace (j + 1)%nat with (0 * n + 1 + j)%nat by lia. replace (sc n j + 1)%nat with (0 * n + 1 + sc n j)%nat by lia. rewrite !revolved_g by lia.
    assert (S0 := Sth 0%nat ltac:(lia)). unfold det3, sph, X, Y, Z. cbn [fst snd]. fold dl. fold (th 0) (th (0 + 1)). fold (ang n 0) (ang n j) (ang n (sc n j)). replace (th 0) with 0 by (unfold th; simpl; ring). rewrite sin_0, cos_0.
    match goal with |- 0 < ?e => replace e with (rad * rad * rad * (sin (th (0 + 1)) * sin (th (0 + 1))) * (sin (ang n (sc n j)) * cos (ang n j) - cos (ang n (sc n j)) * sin (ang n j))) by ring end. repeat apply Rmult_lt_0_compat; auto.
  - assert (S0 := Sth r ltac:(lia)). assert (S1 := Sth (r + 1)%nat ltac:(lia)). assert (Q : sin (th (r + 1 + 1)) * cos (th (r + 1)) - cos (th (r + 1 + 1)) * sin (th (r + 1)) = sin dl). { rewrite <- sin_minus. f_equal. rewrite (th_S (r + 1)). ring. }
    destruct H as [E|[E|[]]]; injection E as <- <- <-; rewrite !revolved_g by lia; unfold det3, sph, X, Y, Z; cbn [fst snd]; fold dl; fold (th (r + 1)) (th (r + 1 + 1)); fold (ang n j) (ang n (sc n j)).
    + match goal with |- 0 < ?e => replace e with (rad * rad * rad * sin (th (r + 1)) * (sin (th (r + 1 + 1)) * cos (th (r + 1)) - cos (th (r + 1 + 1)) * sin (th (r + 1))) * (sin (ang n (sc n j)) * cos (ang n j) - cos (ang n (sc n j)) * sin (ang n j))) by ring end. rewrite Q. repeat apply Rmult_lt_0_compat; auto.
    + match goal with |- 0 < ?e => replace e with (rad * rad * rad * sin (th (r + 1 + 1)) * (sin (th (r + 1 + 1)) * cos (th (r + 1)) - cos (th (r + 1 + 1)) * sin (th (r + 1))) * (sin (ang n (sc n j)) * cos (ang n j) - cos (ang n (sc n j)) * sin (ang n j))) by ring end. rewrite Q. repeat apply Rmult_lt_0_compat; auto.
  - destruct H as [E|[]]. injection E as <- <- <-. rewrite revolved_e. rewrite !revolved_g by lia. replace (k - 1 - 1 + 1)%nat with (k - 1)%nat by lia.
    unfold det3, sph, X, Y, Z. cbn [fst snd]. fold dl. fold (th k) (th (k - 1)). fold (ang n 0) (ang n j) (ang n (sc n j)). replace (ang n 0) with 0 by (unfold ang; simpl; ring). rewrite sin_0, cos_0, D4.
    assert (E : th (k - 1) = pi10 - dl) by (rewrite <- D4; unfold th; rewrite minus_INR by lia; simpl (INR 1); ring). rewrite E. set (t := pi10 - dl) in *.
    (* the apex is off the axis by sin pi10 *)
    set (de := PI - pi10). assert (De : 0 <= de <= / 10000000000) by (unfold de; lra).
    assert (A1 : sin pi10 = sin de) by (replace pi10 with (PI - de) by (unfold de; ring); apply sin_PI_x). assert (A2 : cos pi10 = - cos de). { replace pi10 with (- de + PI) by (unfold de; ring). rewrite neg_cos, cos_neg. auto. }
    assert (S1 : 0 <= sin de <= / 10000000000). { split. apply sin_ge_0; lra. destruct (Req_dec de 0) as [e|e]. rewrite e, sin_0. lra. generalize (sin_lt_x de). lra. }
    assert (C1 : 9 / 10 <= cos de). { assert (G := sin2_cos2 de). unfold Rsqr in G. assert (0 <= cos de) by (apply cos_ge_0; lra). nra. }
    assert (St : 3 / 10000000000 <= sin t).
    { apply Rle_trans with (sin (7 / 10000000000)). apply Rle_trans with (7 / 10000000000 / 2). lra. apply sin_small. lra.
      destruct (Rle_dec t (PI / 2)) as [L|L]. destruct (Req_dec t (7 / 10000000000)) as [->|]; [lra|]. left. apply sin_increasing_1; unfold t in *; lra.
      rewrite <- (sin_PI_x t). destruct (Req_dec (PI - t) (7 / 10000000000)) as [->|]; [lra|]. left. apply sin_increasing_1; unfold t in *; lra. }
    destruct (ang_next n j Hn Hj) as (D & HD & HD2 & E1 & E2). destruct (turn_pos _ _ D HD E1 E2) as (T1 & T2).
    assert (K0 : 45 / 100 <= cos (D / 2)) by (apply cos_11; lra). assert (K1 : 0 < sin (D / 2)) by (apply sin_gt_0; lra). assert (K2 : sin D = 2 * sin (D / 2) * cos (D / 2)) by (rewrite <- sin_2a; f_equal; field).
    assert (K3 : - (2 * sin (D / 2)) <= sin (ang n (sc n j)) - sin (ang n j) <= 2 * sin (D / 2)).
    { rewrite E1. rewrite form4. replace ((ang n j + D - ang n j) / 2) with (D / 2) by field. generalize (COS_bound ((ang n j + D + ang n j) / 2)). nra. }
    rewrite A1, A2. rewrite Rmult_0_r, Rmult_0_r, !Rmult_0_l.
    match goal with |- 0 < ?e => replace e with (rad * rad * rad * sin t * (cos de * sin t * (sin (ang n (sc n j)) * cos (ang n j) - cos (ang n (sc n j)) * sin (ang n j)) + sin de * (cos t * (sin (ang n (sc n j)) - sin (ang n j))))) by ring end.
    apply Rmult_lt_0_compat. apply Rmult_lt_0_compat; auto. lra. rewrite T1, K2. set (u := sin (D / 2)) in *. set (kap := cos (D / 2)) in *. set (w := sin (ang n (sc n j)) - sin (ang n j)) in *.
    assert (W : - (2 * u) <= cos t * w). { generalize (COS_bound t). intros (c1 & c2). nra. }
    assert (M1 : 27 / 100000000000 <= cos de * sin t) by nra. assert (M2 : cos de * sin t * kap >= 12 / 100000000000) by nra.
    assert (M3 : cos de * sin t * (2 * u * kap) >= 2 * u * (12 / 100000000000)) by nra. assert (M4 : sin de * (cos t * w) >= - (2 * u) * / 10000000000). { assert (sin de * (cos t * w) >= sin de * - (2 * u)) by nra. nra. } nra.
Qed.
End Sph.
