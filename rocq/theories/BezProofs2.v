From Coquelicot Require Import Coquelicot.
From Coq Require Import Reals Lra Lia List Arith Bool.
Import ListNotations.
From Verif Require Import Imp PrModel BezModel BezSpec BezProofs.
Open Scope R_scope.

(** ** Nearest point *)
Lemma nearest_ok : forall sz dist dw ddw ns ni, exists r, nearest sz dist dw ddw ns ni = Some r /\
  match r with
  | Fin t => 0 <= t <= 1 /\ dist t <= dist 0 /\ (forall k, (1 <= k <= ns)%nat -> dist t <= dist (INR k / INR ns))
  | Inf _ => False
  | NaN => exists t, 0 <= t <= 1 /\ dw t = 0 /\ ddw t = 0
  end.
Proof.
  intros sz dist dw ddw ns ni.
  set (good := fun t => 0 <= t <= 1 /\ dist t <= dist 0 /\ (forall k, (1 <= k <= ns)%nat -> dist t <= dist (INR k / INR ns))).
  change (exists r, nearest sz dist dw ddw ns ni = Some r /\ match r with Fin t => good t | Inf _ => False | NaN => exists t, 0 <= t <= 1 /\ dw t = 0 /\ ddw t = 0 end).
  set (Q := fun r => match r with Fin t => good t | Inf _ => False | NaN => exists t, 0 <= t <= 1 /\ dw t = 0 /\ ddw t = 0 end).
  apply wp_ex. unfold nearest. apply wp_bind.
  apply wp_forn with (I := fun i (s : R * R) => 0 <= fst s <= 1 /\ snd s = dist (fst s) /\ dist (fst s) <= dist 0 /\ (forall k, (1 <= k < i)%nat -> dist (fst s) <= dist (INR k / INR ns))).
  - lia.
  - cbn [fst snd]. split; [lra|]. split; [auto|]. split; [lra|]. intros k K. lia.
  - intros i [t dm] Hi (T & DM & D0 & DK). cbn [fst snd] in *. subst dm. assert (NS : 0 < INR ns) by (apply lt_0_INR; lia). unfold div. assert (E := eqR_spec (INR ns) 0). destruct (eqR (INR ns) 0); [lra|]. cbn [bind]. assert (L := ltR_spec (dist (INR i / INR ns)) (dist t)).
    assert (IR : 0 <= INR i / INR ns <= 1). { split; [apply Rle_mult_inv_pos; auto; apply pos_INR|]. apply (Rmult_le_reg_r (INR ns)); auto. replace (INR i / INR ns * INR ns) with (INR i) by (field; lra). rewrite Rmult_1_l. apply le_INR. lia. }
    destruct (ltR _ _); apply wp_some; cbn [fst snd].
    + split; [auto|]. split; [auto|]. split; [lra|]. intros k K. destruct (Nat.eq_dec k i) as [->|N]; [lra|]. assert (dist t <= dist (INR k / INR ns)) by (apply DK; lia). lra.
    + split; [auto|]. split; [auto|]. split; [lra|]. intros k K. destruct (Nat.eq_dec k i) as [->|N]; [lra|]. apply DK; lia.
  - intros [t dm] (T & DM & D0 & DK). cbn [fst snd] in *. subst dm. assert (G : good t) by (split; [auto|split; [auto|]]; intros k K; apply DK; lia). clear D0 DK T.
    apply wp_bind. apply wp_forb with (I := fun _ (s : fl * fl) => Q (fst s) /\ snd s = match fst s with Fin x => Fin (dist x) | _ => NaN end).
    + lia.
    + cbn [fst snd]. split; auto.
    + intros i [r dm] Hi (Qr & DM). cbn [fst snd] in *. subst dm. destruct r as [x| |]; [|destruct Qr|].
      * assert (GX : good x) by exact Qr. unfold fdiv. assert (E := eqR_spec (ddw x) 0). destruct (eqR (ddw x) 0) as [].
        -- assert (E2 := eqR_spec (dw x) 0). destruct (eqR (dw x) 0).
           ++ cbn [fneg fadd flt]. apply wp_some. cbn [fst snd]. split; [|auto]. exists x. destruct GX as (GX & _). auto.
           ++ assert (C : exists b, fadd (Fin x) (fneg (if ltR 0 (dw x) then Inf (sz i) else Inf (negb (sz i)))) = Inf b) by (destruct (ltR 0 (dw x)); cbn [fneg fadd]; eexists; reflexivity). destruct C as (b & ->).
              set (t' := if flt (Fin 1) (if flt (Inf b) (Fin 0) then Fin 0 else Inf b) then Fin 1 else (if flt (Inf b) (Fin 0) then Fin 0 else Inf b)).
              assert (TT : exists y, t' = Fin y /\ 0 <= y <= 1). { unfold t'. destruct b; cbn [flt negb]; [exists 1; split; [auto|lra]|]. assert (L := ltR_spec 1 0). destruct (ltR 1 0); [exists 1; split; [auto|lra]|exists 0; split; [auto|lra]]. }
              destruct TT as (y & -> & Y). cbn [flt]. assert (L := ltR_spec (dist x) (dist y)). destruct (ltR _ _); apply wp_some; cbn [fst snd]; [exact GX|]. split; [|auto]. destruct GX as (_ & G0 & GK). split; [auto|]. split; [lra|]. intros k K. specialize (GK k K). lra.
        -- cbn [fneg fadd]. change (flt (Fin ?a) (Fin 0)) with (ltR a 0). set (z := x + - (dw x / ddw x)). clearbody z.
           set (t' := if flt (Fin 1) (if ltR z 0 then Fin 0 else Fin z) then Fin 1 else (if ltR z 0 then Fin 0 else Fin z)).
           assert (TT : exists y, t' = Fin y /\ 0 <= y <= 1). { unfold t'. assert (L1 := ltR_spec z 0). destruct (ltR z 0); cbn [flt]; [assert (L := ltR_spec 1 0); destruct (ltR 1 0); [exists 1|exists 0]; split; [auto|lra|auto|lra]|]. assert (L := ltR_spec 1 z). destruct (ltR 1 z); [exists 1|exists z]; split; [auto|lra|auto|lra]. }
           destruct TT as (y & -> & Y). cbn [flt]. assert (L := ltR_spec (dist x) (dist y)). destruct (ltR _ _); apply wp_some; cbn [fst snd]; [exact GX|]. split; [|auto]. destruct GX as (_ & G0 & GK). split; [auto|]. split; [lra|]. intros k K. specialize (GK k K). lra.
      * cbn [flt]. apply wp_some. cbn [fst snd]. split; auto.
    + intros [r dm] (Qr & _). cbn [fst] in *. apply wp_some. exact Qr.
Qed.
Lemma nearest_nan : forall sz dist dw ddw ns ni, (forall t, dw t = 0) -> (forall t, ddw t = 0) -> nearest sz dist dw ddw ns (S ni) = Some NaN.
Proof.
  intros sz dist dw ddw ns ni D1 D2.
  assert (W : wp (nearest sz dist dw ddw ns (S ni)) (fun r => r = NaN)).
  { unfold nearest. apply wp_bind. apply wp_forn with (I := fun _ _ => True); auto; [lia| |].
    - intros i [t dm] Hi _. assert (NS : 0 < INR ns) by (apply lt_0_INR; lia). unfold div. assert (E := eqR_spec (INR ns) 0). destruct (eqR (INR ns) 0); [lra|]. cbn [bind]. destruct (ltR _ _); apply wp_some; auto.
    - intros [t dm] _. apply wp_bind. apply wp_forb with (I := fun i (s : fl * fl) => match i with 0%nat => exists x, fst s = Fin x | _ => s = (NaN, NaN) end); [lia|eexists; reflexivity| |].
      + intros i [r m] Hi H. destruct i as [|i].
        * destruct H as (x & H). cbn [fst] in H. subst r. rewrite D1, D2. unfold fdiv. assert (E := eqR_spec 0 0). destruct (eqR 0 0); [|lra]. cbn [fneg fadd flt]. destruct m; cbn [flt]; apply wp_some; reflexivity.
        * injection H as -> ->. cbn [flt]. apply wp_some. reflexivity.
      + intros [r m] H. injection H as -> ->. apply wp_some. reflexivity. }
  destruct (nearest sz dist dw ddw ns (S ni)) as [r|] eqn:E; [|exfalso; exact W]. rewrite <- W. auto.
Qed.

(** ** Sums *)
Lemma sumR_ext : forall n f g, (forall i, (i < n)%nat -> f i = g i) -> sumR n f = sumR n g.
Proof. induction n; intros f g H; auto. cbn [sumR]. rewrite (IHn f g), H by auto. auto. Qed.
Lemma sumR_lin : forall n f g x y, sumR n (fun i => x * f i + y * g i) = x * sumR n f + y * sumR n g.
Proof. induction n; intros; cbn [sumR]; [ring|]. rewrite IHn. ring. Qed.
Lemma sumR_0 : forall n, sumR n (fun _ => 0) = 0. Proof. induction n; cbn [sumR]; lra. Qed.
Lemma sumR_nonneg : forall n f, (forall i, (i < n)%nat -> 0 <= f i) -> 0 <= sumR n f.
Proof. induction n; intros f H; cbn [sumR]; [lra|]. assert (0 <= f n) by (apply H; lia). assert (0 <= sumR n f) by (apply IHn; intros; apply H; lia). lra. Qed.
Lemma sumR_zero : forall n f, (forall i, (i < n)%nat -> 0 <= f i) -> sumR n f <= 0 -> forall i, (i < n)%nat -> f i = 0.
Proof.
  induction n; intros f H Z i I; [lia|]. cbn [sumR] in Z. assert (0 <= f n) by (apply H; lia). assert (0 <= sumR n f) by (apply sumR_nonneg; intros; apply H; lia). destruct (Nat.eq_dec i n) as [->|N]; [lra|]. apply IHn; [intros; apply H; lia|lra|lia].
Qed.
Lemma dot_expand : forall d u v x y, squaredNorm d (fun i => x * u i + y * v i) = x * x * squaredNorm d u + 2 * x * y * dot d u v + y * y * squaredNorm d v.
Proof.
  intros d u v x y. unfold squaredNorm, dot. transitivity (sumR d (fun i => x * (x * (u i * u i) + 2 * y * (u i * v i)) + y * (y * (v i * v i) + 0 * 0))); [apply sumR_ext; intros; ring|]. rewrite (sumR_lin d (fun i => x * (u i * u i) + 2 * y * (u i * v i)) (fun i => y * (v i * v i) + 0 * 0)). rewrite sumR_lin. rewrite (sumR_lin d (fun i => v i * v i) (fun _ => 0) y 0). ring.
Qed.
Lemma strict_cs : forall d q1 q2, (forall x y, (forall i, (i < d)%nat -> x * q1 i + y * q2 i = 0) -> x = 0 /\ y = 0) -> 0 < squaredNorm d q2 -> dot d q1 q2 * dot d q1 q2 < squaredNorm d q1 * squaredNorm d q2.
Proof.
  intros d q1 q2 LI P. apply Rnot_le_lt. intros C. assert (E := dot_expand d q1 q2 (squaredNorm d q2) (- dot d q1 q2)).
  assert (Z : squaredNorm d (fun i => squaredNorm d q2 * q1 i + - dot d q1 q2 * q2 i) <= 0). { rewrite E. set (s := squaredNorm d q2) in *. set (e := dot d q1 q2) in *. set (r := squaredNorm d q1) in *. replace (s * s * r + 2 * s * - e * e + - e * - e * s) with (s * (r * s - e * e)) by ring. nra. }
  destruct (LI (squaredNorm d q2) (- dot d q1 q2)) as (A & _); [|lra]. intros i I. unfold squaredNorm at 1, dot in Z. assert (K := sumR_zero _ _ (fun i _ => Rle_0_sqr (squaredNorm d q2 * q1 i + - dot d q1 q2 * q2 i)) Z i I). cbv beta in K. unfold Rsqr in K. apply Rmult_integral in K. tauto.
Qed.

(** ** Length *)
Lemma antiderivative : forall c0 c1 c2, 0 < c2 -> c1 * c1 - 4 * c0 * c2 < 0 ->
  (forall t, 0 < c0 + t * (c1 + c2 * t)) /\ (forall t, 0 < c1 + 2 * c2 * t + 2 * sqrt c2 * sqrt (c0 + t * (c1 + c2 * t))) /\
  derivative (fun t => (c1 + 2 * c2 * t) * sqrt (c0 + t * (c1 + c2 * t)) / (4 * c2) - (c1 * c1 - 4 * c0 * c2) * ln (c1 + 2 * c2 * t + 2 * sqrt c2 * sqrt (c0 + t * (c1 + c2 * t))) * (1 / (8 * c2 * sqrt c2))) (fun t => sqrt (c0 + t * (c1 + c2 * t))).
Proof.
  intros c0 c1 c2 P D. assert (Q : forall t, 4 * c2 * (c0 + t * (c1 + c2 * t)) = (c1 + 2 * c2 * t) * (c1 + 2 * c2 * t) - (c1 * c1 - 4 * c0 * c2)) by (intros; ring).
  assert (QP : forall t, 0 < c0 + t * (c1 + c2 * t)). { intros t. assert (S := Rle_0_sqr (c1 + 2 * c2 * t)). unfold Rsqr in S. specialize (Q t). apply (Rmult_lt_reg_l (4 * c2)); [lra|]. rewrite Rmult_0_r. lra. }
  assert (SP : 0 < sqrt c2) by (apply sqrt_lt_R0; auto). assert (SS : sqrt c2 * sqrt c2 = c2) by (apply sqrt_sqrt; lra).
  assert (LP : forall t, 0 < c1 + 2 * c2 * t + 2 * sqrt c2 * sqrt (c0 + t * (c1 + c2 * t))).
  { intros t. specialize (Q t). specialize (QP t). assert (TP := sqrt_lt_R0 _ QP). assert (TS := sqrt_sqrt _ (Rlt_le _ _ QP)). set (w := c0 + t * (c1 + c2 * t)) in *. set (L := c1 + 2 * c2 * t) in *. set (sw := sqrt w) in *. set (s2 := sqrt c2) in *. clearbody w L.
    destruct (Rlt_dec 0 (L + 2 * s2 * sw)) as [G|G]; auto. exfalso. assert (X : 0 < 2 * s2 * sw) by (repeat apply Rmult_lt_0_compat; lra). assert (Y : (2 * s2 * sw) * (2 * s2 * sw) = 4 * c2 * w) by (rewrite <- SS, <- TS; ring). assert (Y2 : (2 * s2 * sw) * (2 * s2 * sw) > L * L) by lra. assert (Y3 : L <= - (2 * s2 * sw)) by lra. set (X1 := 2 * s2 * sw) in *. clearbody X1. nra. }
  split; auto. split; auto. intros t. apply is_derive_Reals. specialize (QP t). specialize (LP t). specialize (Q t). auto_derive; [repeat split; auto; try lra|].
  set (w := c0 + t * (c1 + c2 * t)) in *. assert (TP := sqrt_lt_R0 _ QP). assert (TS := sqrt_sqrt _ (Rlt_le _ _ QP)). set (sw := sqrt w) in *. set (s2 := sqrt c2) in *. set (T := c1 + 2 * c2 * t + 2 * s2 * sw) in *. set (L := c1 + 2 * c2 * t) in *.
  assert (H : L * L - (c1 * c1 - 4 * c0 * c2) = 4 * c2 * (sw * sw)) by (rewrite TS; lra).
  replace (2 * c2 * 1 + 2 * s2 * ((1 * (c1 + c2 * t) + t * (c2 * 1)) * / (2 * sw))) with (s2 * T / sw) by (unfold T, L; rewrite <- SS; field; lra).
  replace ((1 * (c1 + c2 * t) + t * (c2 * 1))) with L by (unfold L; ring).
  transitivity (sw / 2 + (L * L - (c1 * c1 - 4 * c0 * c2)) / (8 * c2 * sw)); [|rewrite H; field; lra].
  clearbody T L. field. repeat split; lra.
Qed.
