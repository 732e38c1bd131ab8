(** Polylines: resampling, smoothing, tangents, boxes and motions. *)
From Coq Require Import List Arith Bool ZArith Reals Lra Lia.
Import ListNotations.
From Verif Require Import Imp PrModel QuatModel ProxModel ProxSpec GjkProofs1 ProxProofs1 MeasSpec MeasProofs2 MeasProofs3 BspProofs1 BspProofs2 PlnModel PlnSpec PlnProofs1.
Open Scope R_scope.

Lemma pt_snoc : forall r x k, pt (r ++ [x]) k = if Nat.eq_dec k (length r) then x else pt r k.
Proof.
  intros r x k. unfold pt. destruct (Nat.eq_dec k (length r)) as [->|N]; [apply nth_middle|]. destruct (Nat.lt_ge_cases k (length r)); [apply app_nth1; auto|]. rewrite !nth_overflow; auto. rewrite app_length. cbn. lia.
Qed.
Definition res_inv (l : list vec3) (step : R) (K : nat) (st : list vec3 * nat * R * R) : Prop :=
  let '(r, j, t, c) := st in
  (1 <= length r <= K)%nat /\ (j <= length l - 1)%nat /\ 0 <= t < 1 /\ (j = (length l - 1)%nat -> t = 0) /\ 0 <= c <= step /\ arc l j + t * seglen l j + c = INR (length r) * step /\
  (forall k, (k < length r)%nat -> at_arc l (INR k * step) (pt r k)) /\ (length r = 1%nat \/ INR (length r - 1) * step < arc l (length l - 1)).
Lemma resample_ok : forall l step, (2 <= length l)%nat -> 0 < step -> exists fuel0, forall fuel, (fuel0 <= fuel)%nat -> exists r, Polyline_Resample_Polyline fuel l step = Some r /\ (1 <= length r)%nat /\
  (forall k, (k < length r)%nat -> at_arc l (INR k * step) (pt r k)) /\ (length r = 1%nat \/ INR (length r - 1) * step < arc l (length l - 1)) /\ arc l (length l - 1) <= INR (length r) * step.
Proof.
  intros l step L P. set (K := S (Z.to_nat (up (arc l (length l - 1) / step)))). pose proof (arc_pos l (length l - 1)) as A0.
  assert (HK : forall n, INR n * step < arc l (length l - 1) -> (S n <= K)%nat).
  { intros n H. assert (INR n < arc l (length l - 1) / step). { apply Rmult_lt_reg_r with step; auto. unfold Rdiv. rewrite Rmult_assoc, Rinv_l by lra. lra. }
    destruct (archimed (arc l (length l - 1) / step)) as (U & _). rewrite INR_IZR_INZ in H0. assert (Z.of_nat n < up (arc l (length l - 1) / step))%Z by (apply lt_IZR; lra). unfold K. lia. }
  exists (S (length l + K)). intros fuel F. unfold Polyline_Resample_Polyline. destruct l as [|p0 l'] eqn:E; [cbn in L; lia|]. rewrite <- E in *.
  set (M := fun st : list vec3 * nat * R * R => let '(r, j, _, _) := st in ((length l - j) + (K - length r))%nat).
  match goal with |- exists r, bind ?e _ = _ /\ _ => assert (W : wp e (fun st => res_inv l step K st /\ snd (fst (fst st)) = (length l - 1)%nat)) end.
  { apply wp_loopf with (I := res_inv l step K) (m := M).
    - unfold M. cbn [length]. lia.
    - cbn [res_inv length]. split; [unfold K; lia|]. split; [lia|]. split; [lra|]. split; [auto|]. split; [lra|]. split; [cbn; ring|]. split; [|auto]. intros k Hk. assert (k = 0)%nat by lia. subst k. exists 0%nat, 0. split; [split; [lia|split; [lra|]]|cbn; ring]. rewrite comb_0. rewrite E. reflexivity.
    - intros [[[r j] t] c] (R1 & J & T & T0 & C & S0 & B & N). unfold resample_step. destruct (Nat.leb_spec (length l - 1) j) as [G|G].
      + apply wp_some. cbn [snd fst]. split; [cbn [res_inv]; auto 10|lia].
      + gv. cbv zeta. rewrite <- dist_norm, dist_sym. fold (seglen l j). pose proof (seglen_pos l j) as SP. pose proof (ltRs c (seglen l j * (1 - t))) as Q. destruct (ltR c (seglen l j * (1 - t))).
        * pose proof (eqRs (seglen l j) 0) as Q'. destruct (eqR (seglen l j) 0); [rewrite Q' in Q; lra|]. apply wp_some. cbn [snd fst]. assert (SP' : 0 < seglen l j) by lra.
          assert (X : c / seglen l j * seglen l j = c) by (field; lra). assert (X0 : 0 <= c / seglen l j) by (apply Rmult_le_pos; [lra|apply Rlt_le, Rinv_0_lt_compat; auto]).
          assert (X1 : c / seglen l j < 1 - t). { apply Rmult_lt_reg_r with (seglen l j); auto. rewrite X. lra. } set (u := t + c / seglen l j) in *.
          assert (V : arc l j + u * seglen l j = INR (length r) * step) by (unfold u; lra).
          assert (LT : INR (length r) * step < arc l (length l - 1)). { pose proof (arc_mono l (S j) (length l - 1) ltac:(lia)) as AM. rewrite arc_S in AM. assert (u * seglen l j < 1 * seglen l j) by (apply Rmult_lt_compat_r; unfold u; lra). lra. }
          pose proof (HK _ LT) as HK'.
          split; [|unfold M; rewrite app_length; cbn [length]; lia]. cbn [res_inv]. rewrite app_length. cbn [length]. split; [lia|]. split; [auto|]. split; [unfold u; lra|]. split; [lia|]. split; [lra|]. split; [rewrite plus_INR; cbn [INR]; lra|]. split.
          -- intros k Hk. rewrite pt_snoc. destruct (Nat.eq_dec k (length r)) as [->|Ne]; [|apply B; lia]. exists j, u. split; [split; [lia|split; [unfold u; lra|veq]]|auto].
          -- right. replace (length r + 1 - 1)%nat with (length r) by lia. auto.
        * apply wp_some. cbn [snd fst]. split; [|unfold M; lia]. cbn [res_inv]. split; [auto|]. split; [lia|]. split; [lra|]. split; [auto|]. split; [split; [lra|]|]. { assert (0 <= seglen l j * (1 - t)) by (apply Rmult_le_pos; lra). lra. } split; [rewrite arc_S; lra|]. auto. }
  apply wp_ex in W. destruct W as ([[[r j] t] c] & EQ & (R1 & J & T & T0 & C & S0 & B & N) & Jn). cbn [fst snd] in Jn. rewrite EQ. cbn [bind]. exists r. split; [auto|]. split; [lia|]. split; [auto|]. split; [auto|]. rewrite T0, Jn in S0 by auto. lra.
Qed.
Lemma resample_diverges : forall l step, (2 <= length l)%nat -> pt l 0 <> pt l 1 -> step <= 0 -> forall fuel, Polyline_Resample_Polyline fuel l step = None.
Proof.
  intros l step L N P fuel. unfold Polyline_Resample_Polyline. destruct l as [|p0 l'] eqn:E; [cbn in L; lia|]. rewrite <- E in *. assert (SP : 0 < seglen l 0).
  { pose proof (seglen_pos l 0) as H. destruct H as [H|H]; auto. exfalso. apply N. symmetry in H. unfold seglen in H. rewrite dist_norm in H. cbn [Nat.add] in H. assert (Z0 : dot3 (sub3 (pt l 0) (pt l 1)) (sub3 (pt l 0) (pt l 1)) = 0) by (rewrite <- norm_sq, H; ring). apply dot_zero in Z0. apply v3_eq; [apply (f_equal vx) in Z0|apply (f_equal vy) in Z0|apply (f_equal vz) in Z0]; u3; lra. }
  assert (G : forall n r t, t <= 0 -> loopf n (resample_step l step) (r, 0%nat, t, step) = None).
  { induction n as [|f IH]; intros r t T; [reflexivity|]. cbn [loopf]. unfold resample_step at 1. destruct (Nat.leb_spec (length l - 1) 0); [lia|]. gv. cbv zeta. rewrite <- dist_norm, dist_sym. fold (seglen l 0).
    assert (seglen l 0 * 1 <= seglen l 0 * (1 - t)) by (apply Rmult_le_compat_l; lra). rewrite ltRt by lra. pose proof (eqRs (seglen l 0) 0) as Q'. destruct (eqR (seglen l 0) 0); [lra|]. cbn [bind]. apply IH. assert (0 <= (- step) / seglen l 0) by (apply Rmult_le_pos; [lra|apply Rlt_le, Rinv_0_lt_compat; auto]). unfold Rdiv in *. lra. }
  rewrite G by lra. reflexivity.
Qed.
(** *** Smoothing *)
Definition touched (l : list vec3) (v i k : nat) : Prop := (v <= i + 2 < v + k)%nat /\ (0 < i)%nat /\ (i + 1 < length l)%nat.
Lemma smooth_ok : forall l v d, (v < length l)%nat -> exists r, Smooth_Polyline l v d = Some r /\ length r = length l /\ forall i,
  (touched l v i 4 -> pt r i = add3 (mul3 d (pt l i)) (mul3 (1 - d) (mid2 (pt r (i - 1)) (pt l (i + 1))))) /\ (~ touched l v i 4 -> pt r i = pt l i).
Proof.
  intros l v d V. unfold Smooth_Polyline. rewrite (proj2 (Nat.leb_gt (length l) v)) by lia. apply wp_ex.
  apply wp_forn with (I := fun k r => length r = length l /\ forall i, (touched l v i k -> pt r i = add3 (mul3 d (pt l i)) (mul3 (1 - d) (mid2 (pt r (i - 1)) (pt l (i + 1))))) /\ (~ touched l v i k -> pt r i = pt l i)); [lia| | |auto].
  - split; auto. intros i. split; auto. unfold touched. lia.
  - intros k r K (LR & H). cbv zeta. destruct (Z.ltb_spec (Z.of_nat v - 2 + Z.of_nat k - 1) 0) as [A|A]; cbn [orb].
    + apply wp_some. split; auto. intros i. destruct (H i) as (H1 & H2). split; intros T; [apply H1|apply H2]; unfold touched in *; lia.
    + destruct (Z.leb_spec (Z.of_nat (length r)) (Z.of_nat v - 2 + Z.of_nat k + 1)) as [B|B].
      * apply wp_some. split; auto. intros i. destruct (H i) as (H1 & H2). split; intros T; [apply H1|apply H2]; unfold touched in *; lia.
      * remember (Z.to_nat (Z.of_nat v - 2 + Z.of_nat k)) as i0. replace (Z.to_nat (Z.of_nat v - 2 + Z.of_nat k - 1)) with (i0 - 1)%nat by lia. replace (Z.to_nat (Z.of_nat v - 2 + Z.of_nat k + 1)) with (i0 + 1)%nat by lia. gv.
        apply wp_vset; [lia|]. rewrite upd_length. split; auto.
        rewrite (proj2 (H i0)) by (unfold touched; lia). rewrite (proj2 (H (i0 + 1)%nat)) by (unfold touched; lia).
        set (val := add3 _ _). assert (U : forall j, pt (upd r i0 val) j = if Nat.eq_dec i0 j then val else pt r j). { intros j. unfold pt. rewrite nth_upd by lia. reflexivity. }
        intros i. rewrite !U. destruct (Nat.eq_dec i0 i) as [<-|Ne].
        -- destruct (Nat.eq_dec i0 (i0 - 1)); [lia|]. split; [intros _; unfold val, mid2; veq|intros T; exfalso; apply T; unfold touched; lia].
        -- destruct (H i) as (H1 & H2). split; intros T.
           ++ assert (T' : touched l v i k) by (unfold touched in *; lia). destruct (Nat.eq_dec i0 (i - 1)); [unfold touched in *; lia|]. apply H1; auto.
           ++ apply H2. unfold touched in *; lia.
Qed.
(** *** Boxes *)
Lemma aabb_ok : forall l, l <> [] -> exists lo hi, AABB_Polyline l = Some (lo, hi) /\ box_of (fun p => In p l) lo hi.
Proof.
  intros l N. assert (LP : (0 < length l)%nat) by (destruct l; [congruence|cbn; lia]). unfold AABB_Polyline. gv. cbv zeta.
  match goal with |- exists lo hi, ?e = _ /\ _ => assert (W : wp e (fun r => box_of (fun p => exists i, (i < length l)%nat /\ p = pt l i) (fst r) (snd r))) end.
  { apply wp_forn with (I := fun n r => box_of (fun p => exists i, (i < n)%nat /\ p = pt l i) (fst r) (snd r)); [lia| | |auto].
    - cbn [fst snd]. split; [intros p (i & I & ->); assert (i = 0)%nat by lia; subst; lra|]. repeat split; exists (pt l 0); (split; [exists 0%nat; split; [lia|auto]|auto]).
    - intros n [lo hi] Hn (B & X1 & X2 & X3 & X4 & X5 & X6). cbn [fst snd] in *. gv. apply wp_some. cbn [fst snd]. split.
      + intros p (i & I & ->). cbn [vx vy vz]. pose proof (ltRs (vx (pt l n)) (vx lo)) as Q1. pose proof (ltRs (vy (pt l n)) (vy lo)) as Q2. pose proof (ltRs (vz (pt l n)) (vz lo)) as Q3. pose proof (ltRs (vx hi) (vx (pt l n))) as Q4. pose proof (ltRs (vy hi) (vy (pt l n))) as Q5. pose proof (ltRs (vz hi) (vz (pt l n))) as Q6.
        destruct (Nat.eq_dec i n) as [->|Ne].
        * repeat match goal with |- context [if ?c then _ else _] => destruct c end; lra.
        * specialize (B (pt l i) ltac:(exists i; split; [lia|auto])). repeat match goal with |- context [if ?c then _ else _] => destruct c end; lra.
      + cbn [vx vy vz].
        assert (G : forall (f : vec3 -> R) (x : R) (b : bool), (exists p, (exists i, (i < n)%nat /\ p = pt l i) /\ f p = x) -> exists p, (exists i, (i < S n)%nat /\ p = pt l i) /\ f p = if b then f (pt l n) else x).
        { intros f x b (p & (i & I & ->) & E). destruct b; [exists (pt l n); split; [exists n; split; [lia|auto]|auto]|exists (pt l i); split; [exists i; split; [lia|auto]|auto]]. }
        repeat split; apply G; auto. }
  apply wp_ex in W. destruct W as ([lo hi] & E & B). cbn [fst snd] in B. exists lo, hi. split; [exact E|].
  assert (EQ : forall p, (exists i, (i < length l)%nat /\ p = pt l i) <-> In p l). { intros p. split; [intros (i & I & ->); apply nth_In; auto|intros H; destruct (In_nth _ _ origin3 H) as (i & I & <-); exists i; auto]. }
  destruct B as (B & X1 & X2 & X3 & X4 & X5 & X6). split; [intros p H; apply B, EQ; auto|]. repeat split; [destruct X1 as (p & H & e)|destruct X2 as (p & H & e)|destruct X3 as (p & H & e)|destruct X4 as (p & H & e)|destruct X5 as (p & H & e)|destruct X6 as (p & H & e)]; exists p; (split; [apply EQ; auto|auto]).
Qed.
(** *** Motions *)
Lemma pt_map : forall f l i, (i < length l)%nat -> pt (map f l) i = f (pt l i).
Proof. intros. unfold pt. rewrite nth_indep with (d' := f origin3) by (rewrite map_length; auto). apply map_nth. Qed.
Lemma rigid_len : forall f l, (forall p q, dist3 (f p) (f q) = dist3 p q) -> Length_Polyline (map f l) = Length_Polyline l.
Proof. intros f l H. rewrite !length_ok, map_length. f_equal. unfold arc. apply sum_ext. intros i I. unfold seglen. rewrite !pt_map by lia. apply H. Qed.
Lemma dist_sq_eq : forall p q p' q', d2 p q = d2 p' q' -> dist3 p q = dist3 p' q'.
Proof. intros p q p' q' H. rewrite !dist_norm. unfold norm3. unfold d2 in H. rewrite H. auto. Qed.
Lemma translate_dist : forall dx dy p q, dist3 (V3 (vx p + dx) (vy p + dy) (vz p)) (V3 (vx q + dx) (vy q + dy) (vz q)) = dist3 p q.
Proof. intros. apply dist_sq_eq. unfold d2. u3. ring. Qed.
Lemma rotate_dist : forall t p q, dist3 (V3 (cos t * vx p - sin t * vy p) (sin t * vx p + cos t * vy p) (vz p)) (V3 (cos t * vx q - sin t * vy q) (sin t * vx q + cos t * vy q) (vz q)) = dist3 p q.
Proof.
  intros t p q. apply dist_sq_eq. unfold d2. pose proof (sin2_cos2 t) as C. unfold Rsqr in C. destruct p as [a b c], q as [a' b' c']. u3.
  transitivity ((sin t * sin t + cos t * cos t) * ((a - a') * (a - a') + (b - b') * (b - b')) + (c - c') * (c - c')); [ring|rewrite C; ring].
Qed.
(** *** Tangents *)
Lemma tangent_ok : forall l i s, (i + 1 < length l)%nat -> INR i <= s < INR i + 1 -> Tangent_Polyline l s = Some (sub3 (pt l (i + 1)) (pt l i)).
Proof.
  intros l i s I S0. unfold Tangent_Polyline. cbv zeta. rewrite (proj2 (Nat.leb_le 2 (length l))) by lia. cbn [assertb bind]. pose proof (pos_INR i). pose proof (ltRs 0 s) as Q. destruct (ltR 0 s); cbn [negb].
  - assert (INR i + 1 <= INR (length l)) by (rewrite <- S_INR; apply le_INR; lia). rewrite ltRt by lra. cbn [negb]. rewrite (floor_unique s i) by lra. rewrite (proj2 (Nat.ltb_lt i (length l - 1))) by lia. cbn [assertb bind]. gv. reflexivity.
  - assert (i = 0)%nat by (apply INR_eq; cbn; lra). subst. gv. reflexivity.
Qed.
