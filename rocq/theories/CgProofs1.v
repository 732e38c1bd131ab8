(** Linear algebra behind conjugate gradients: N+1 vectors of N numbers are linearly dependent, and the orthogonality
    relations of the (preconditioned) recurrence. *)
From Coq Require Import List Arith Bool Lia Ring.
Import ListNotations.
From Verif Require Import Imp Alg.

Section La.
Variable K : cring.
Add Ring Kr : (rlaws K).
Local Open Scope K_scope.
Variable inv : K -> K.
Variable N : nat.
Hypothesis field : forall x : K, x <> 0 -> x * inv x = 1.
Hypothesis dec : forall x : K, {x = 0} + {x <> 0}.

Lemma cancel0 : forall x y : K, x <> 0 -> x * y = 0 -> y = 0.
Proof.
  intros x y Hx H. transitivity ((x * inv x) * y). { rewrite field by auto. ring. }
  transitivity (inv x * (x * y)); [ring|]. rewrite H. ring.
Qed.
Lemma mul_nz : forall x y : K, x <> 0 -> y <> 0 -> x * y <> 0.
Proof. intros x y Hx Hy H. apply Hy. apply (cancel0 x y Hx H). Qed.
Lemma one_nz : forall x : K, x <> 0 -> (1 : K) <> 0.
Proof. intros x Hx H. apply Hx. transitivity (x * 1); [ring|]. rewrite H. ring. Qed.
Lemma inv_nz : forall x : K, x <> 0 -> inv x <> 0.
Proof. intros x Hx H. apply (one_nz x Hx). rewrite <- (field x Hx), H. ring. Qed.

Lemma find_nz : forall m (f : nat -> K), (forall i, i < m -> f i = 0) \/ exists i, i < m /\ f i <> 0.
Proof.
  induction m; intros f; [left; intros; lia|].
  destruct (IHm f) as [H|(i & Hi & H)]; [|right; exists i; split; auto; lia].
  destruct (dec (f m)) as [E|E]; [left|right; exists m; split; auto; lia].
  intros i Hi. destruct (Nat.eq_dec i m); [congruence|apply H; lia].
Qed.

Lemma dependent : (1 : K) <> 0 -> forall n (v : nat -> nat -> K),
  exists c, (exists i, i < S n /\ c i <> 0) /\ forall j, j < n -> sumn (S n) (fun i => c i * v i j) = 0.
Proof.
  intros H1. induction n; intros v.
  - exists (fun _ => 1). split; [exists 0%nat; split; auto; lia|]. intros; lia.
  - destruct (find_nz (S (S n)) (fun i => v i n)) as [Z|(k & Hk & Z)].
    + destruct (IHn v) as (c & (i & Hi & Hc) & H).
      exists (fun i => if i <? S n then c i else 0). split.
      * exists i. split; [lia|]. rewrite (proj2 (Nat.ltb_lt _ _) Hi). auto.
      * intros j Hj. rewrite sumn_S, Nat.ltb_irrefl.
        rewrite (sumn_ext _ _ _ (fun i => c i * v i j)).
        2:{ intros x Hx. rewrite (proj2 (Nat.ltb_lt _ _) Hx). auto. }
        destruct (Nat.eq_dec j n) as [->|Hn].
        -- rewrite sumn_zero. ring. intros x Hx. rewrite Z by lia. ring.
        -- rewrite H by lia. ring.
    + (* sw exchanges k and the last index *)
      set (sw := fun i => if i =? k then S n else i).
      destruct (IHn (fun i j => v (sw i) j - v (sw i) n * inv (v k n) * v k j)) as (c & (i & Hi & Hc) & H).
      set (ck := - sumn (S n) (fun i => c i * (v (sw i) n * inv (v k n)))).
      (* coefficient of v_i: c i for i <> k, S n; c k for S n; ck for k *)
      exists (fun i => if i =? k then ck else if i =? S n then c k else c i).
      assert (SUM : forall f : nat -> K, sumn (S (S n)) (fun i => (if i =? k then ck else if i =? S n then c k else c i) * f i)
         = ck * f k + sumn (S n) (fun i => (c i) * f (sw i))).
      { intros f. rewrite sumn_S. destruct (Nat.eq_dec k (S n)) as [->|Hkn].
        - rewrite Nat.eqb_refl. rewrite (sumn_ext _ _ (fun i => (if i =? S n then ck else if i =? S n then c (S n) else c i) * f i) (fun i => c i * f (sw i))); [ring|].
          intros x Hx. unfold sw. destruct (Nat.eqb_spec x (S n)); [lia|auto].
        - destruct (Nat.eqb_spec (S n) k); [lia|]. rewrite Nat.eqb_refl.
          transitivity (sumn (S n) (fun i => (c i * f (sw i) + (if i =? k then ck * f k - c k * f (S n) else 0))) + c k * f (S n)).
          + f_equal. apply sumn_ext. intros x Hx. unfold sw. destruct (Nat.eqb_spec x k) as [->|]; [ring|].
            destruct (Nat.eqb_spec x (S n)); [lia|ring].
          + rewrite sumn_add, (sumn_pick K (S n) k (fun _ => ck * f k - c k * f (S n))) by lia. ring. }
      split.
      * destruct (Nat.eq_dec i k) as [->|Hik].
        -- exists (S n). split; [lia|]. destruct (Nat.eqb_spec (S n) k); [lia|]. rewrite Nat.eqb_refl. auto.
        -- exists i. split; [lia|]. destruct (Nat.eqb_spec i k); [lia|]. destruct (Nat.eqb_spec i (S n)); [lia|auto].
      * intros j Hj. rewrite (SUM (fun i => v i j)). destruct (Nat.eq_dec j n) as [->|Hn].
        -- unfold ck. 
           transitivity (- (sumn (S n) (fun i => c i * (v (sw i) n * inv (v k n)))) * v k n + sumn (S n) (fun i => c i * (v (sw i) n * inv (v k n))) * v k n).
           ++ f_equal. rewrite <- sumn_mulr. apply sumn_ext. intros x _.
              transitivity (c x * v (sw x) n * (v k n * inv (v k n))); [rewrite field by auto; ring|ring].
           ++ ring.
        -- specialize (H j ltac:(lia)). unfold ck.
           transitivity (sumn (S n) (fun i => c i * (v (sw i) j - v (sw i) n * inv (v k n) * v k j))); [|exact H].
           transitivity (sumn (S n) (fun i => c i * v (sw i) j) + sumn (S n) (fun i => - (c i * (v (sw i) n * inv (v k n)) * v k j))).
           ++ replace (sumn (S n) (fun i => - (c i * (v (sw i) n * inv (v k n)) * v k j))) with
                (ropp 1 * (sumn (S n) (fun i => c i * (v (sw i) n * inv (v k n))) * v k j)); [ring|].
              rewrite <- sumn_mulr, <- sumn_mull. apply sumn_ext. intros. ring.
           ++ rewrite <- sumn_add. apply sumn_ext. intros. ring.
Qed.

Definition vdot (u v : nat -> K) : K := sumn N (fun k => u k * v k).
Lemma vdot_sym : forall u v, vdot u v = vdot v u.
Proof. intros. apply sumn_ext. intros. ring. Qed.
Lemma vdot_ext : forall u v u' v', (forall k, k < N -> u k = u' k) -> (forall k, k < N -> v k = v' k) -> vdot u v = vdot u' v'.
Proof. intros u v u' v' H1 H2. apply sumn_ext. intros i Hi. rewrite H1, H2; auto. Qed.
Lemma vdot_lin_r : forall u v w c d, vdot u (fun k => c * v k + d * w k) = c * vdot u v + d * vdot u w.
Proof. intros. unfold vdot. rewrite <- !sumn_mull, <- sumn_add. apply sumn_ext. intros. ring. Qed.
Lemma vdot_lin_l : forall u v w c d, vdot (fun k => c * v k + d * w k) u = c * vdot v u + d * vdot w u.
Proof. intros. rewrite vdot_sym, vdot_lin_r, (vdot_sym v), (vdot_sym w). auto. Qed.

(** N+1 vectors, each biorthogonal to a companion with non-zero product: impossible. *)
Lemma no_N1 : forall (r z : nat -> nat -> K), (forall i j, i <= N -> j <= N -> i <> j -> vdot (r i) (z j) = 0) ->
  (forall i, i <= N -> vdot (r i) (z i) <> 0) -> False.
Proof.
  intros r z H0 H1. destruct (dependent (one_nz _ (H1 0%nat ltac:(lia))) N r) as (c & (i & Hi & Hc) & H).
  apply Hc. apply (cancel0 (vdot (r i) (z i))); [apply H1; lia|].
  transitivity (sumn N (fun k => sumn (S N) (fun j => c j * r j k) * z i k)).
  - transitivity (sumn (S N) (fun j => c j * vdot (r j) (z i))).
    + rewrite <- (sumn_pick K (S N) i (fun j => vdot (r j) (z i) * c j)) by auto. apply sumn_ext. intros j Hj.
      destruct (Nat.eqb_spec j i) as [->|Hn]; [ring|]. rewrite H0 by lia. ring.
    + unfold vdot. rewrite (sumn_ext _ (S N) _ (fun j => sumn N (fun k => c j * r j k * z i k))).
      2:{ intros. rewrite <- sumn_mull. apply sumn_ext. intros. ring. }
      rewrite sumn_swap. apply sumn_ext. intros. apply sumn_mulr.
  - apply sumn_zero. intros k Hk. rewrite H by auto. ring.
Qed.

(** The recurrence.  [A], [M]: linear self-adjoint maps. *)
Variables (A M : (nat -> K) -> nat -> K).
Hypothesis A_ext : forall u v k, (forall j, j < N -> u j = v j) -> k < N -> A u k = A v k.
Hypothesis A_lin : forall u v c d k, k < N -> A (fun j => c * u j + d * v j) k = c * A u k + d * A v k.
Hypothesis A_sym : forall u v, vdot u (A v) = vdot (A u) v.
Hypothesis M_sym : forall u v, vdot u (M v) = vdot (M u) v.

(** State after [k] steps, with the history of residuals [rs] and directions [ps]. *)
Definition krylov (k : nat) (rs ps : nat -> nat -> K) (b c : nat -> K) : Prop :=
  (forall i j, i < j -> j <= k -> vdot (rs i) (M (rs j)) = 0) /\
  (forall i j, i < j -> j <= k -> vdot (ps i) (A (ps j)) = 0) /\
  (forall t, t < N -> M (rs 0%nat) t = ps 0%nat t) /\
  (forall i t, i < k -> t < N -> M (rs (S i)) t = 1 * ps (S i) t + (- b i) * ps i t) /\
  (forall i t, i < k -> t < N -> A (ps i) t = c i * rs i t + (- c i) * rs (S i) t) /\
  (forall i, i <= k -> vdot (rs i) (M (rs i)) <> 0).

(** M r_i . A p_j = 0 for i < j, = p_j . A p_j for i = j. *)
Lemma kry_zAp : forall k rs ps b c, krylov k rs ps b c -> forall i j, i < j -> j <= k -> vdot (M (rs i)) (A (ps j)) = 0.
Proof.
  intros k rs ps b c (H1 & H2 & H3 & H4 & H5 & H6) i j Hi Hj. destruct i as [|i].
  - rewrite (vdot_ext _ _ (ps 0%nat) (A (ps j))) by auto. auto.
  - rewrite (vdot_ext _ _ (fun t => 1 * ps (S i) t + (- b i) * ps i t) (A (ps j))); auto.
    2:{ intros. apply H4; auto; lia. }
    rewrite vdot_lin_l, !H2 by lia. ring.
Qed.
Lemma kry_zAp_same : forall k rs ps b c, krylov k rs ps b c -> vdot (M (rs k)) (A (ps k)) = vdot (ps k) (A (ps k)).
Proof.
  intros k rs ps b c (H1 & H2 & H3 & H4 & H5 & H6). destruct k as [|k].
  - apply vdot_ext; auto.
  - rewrite (vdot_ext _ _ (fun t => 1 * ps (S k) t + (- b k) * ps k t) (A (ps (S k)))); auto.
    rewrite vdot_lin_l, (H2 k) by lia. ring.
Qed.

Definition ext {T} (f : nat -> T) (k : nat) (x : T) : nat -> T := fun i => if i =? k then x else f i.
Lemma ext_same : forall T (f : nat -> T) k x, ext f k x k = x.
Proof. intros. unfold ext. rewrite Nat.eqb_refl. auto. Qed.
Lemma ext_other : forall T (f : nat -> T) k x i, i <> k -> ext f k x i = f i.
Proof. intros. unfold ext. destruct (Nat.eqb_spec i k); auto; lia. Qed.

Lemma krylov_step : forall k rs ps b c r' p', krylov k rs ps b c ->
  vdot (ps k) (A (ps k)) <> 0 ->
  let rz := vdot (rs k) (M (rs k)) in
  let alpha := rz * inv (vdot (ps k) (A (ps k))) in
  (forall t, t < N -> r' t = rs k t - alpha * A (ps k) t) ->
  let beta := vdot r' (M r') * inv rz in
  (forall t, t < N -> p' t = beta * ps k t + M r' t) ->
  vdot r' (M r') <> 0 ->
  krylov (S k) (ext rs (S k) r') (ext ps (S k) p') (ext b k beta) (ext c k (inv alpha)).
Proof.
  intros k rs ps b c r' p' HK HpAp rz alpha Hr' beta Hp' Hnz.
  pose proof (kry_zAp _ _ _ _ _ HK) as ZA. pose proof (kry_zAp_same _ _ _ _ _ HK) as ZS.
  destruct HK as (H1 & H2 & H3 & H4 & H5 & H6).
  assert (Hrz : rz <> 0) by (apply H6; auto).
  assert (Hal : alpha <> 0) by (apply mul_nz; auto; apply inv_nz; auto).
  (* r' orthogonal to all previous z *)
  assert (R : forall i, i <= k -> vdot (M (rs i)) r' = 0).
  { intros i Hi. rewrite (vdot_ext _ r' (M (rs i)) (fun t => 1 * rs k t + (- alpha) * A (ps k) t)); auto.
    2:{ intros t Ht. rewrite Hr' by auto. ring. }
    rewrite vdot_lin_r. destruct (Nat.eq_dec i k) as [->|Hn].
    - rewrite ZS. rewrite vdot_sym. fold rz. unfold alpha.
      transitivity (rz - rz * (vdot (ps k) (A (ps k)) * inv (vdot (ps k) (A (ps k))))); [ring|]. rewrite field by auto. ring.
    - rewrite ZA by lia. rewrite <- M_sym. rewrite H1 by lia. ring. }
  assert (R2 : forall i, i <= k -> vdot (rs i) (M r') = 0).
  { intros i Hi. rewrite M_sym. auto. }
  (* A p_k *)
  assert (APk : forall t, t < N -> A (ps k) t = inv alpha * rs k t + (- inv alpha) * r' t).
  { intros t Ht. rewrite Hr' by auto. transitivity ((alpha * inv alpha) * A (ps k) t); [rewrite field by auto; ring|ring]. }
  (* p_i . A p' = 0 *)
  assert (PA : forall i, i <= k -> vdot (ps i) (A p') = 0).
  { intros i Hi. rewrite A_sym.
    rewrite (vdot_ext (A (ps i)) p' (A (ps i)) (fun t => beta * ps k t + 1 * M r' t)); auto.
    2:{ intros t Ht. rewrite Hp' by auto. ring. }
    rewrite vdot_lin_r. destruct (Nat.eq_dec i k) as [->|Hn].
    - rewrite (vdot_ext (A (ps k)) (M r') (fun t => inv alpha * rs k t + (- inv alpha) * r' t) (M r')); auto.
      rewrite vdot_lin_l, (R2 k) by auto. rewrite vdot_sym. unfold beta.
      set (pap := vdot (ps k) (A (ps k))) in *. set (n := vdot r' (M r')).
      assert (inv alpha = pap * inv rz).
      { transitivity (inv alpha * (rz * inv rz) * (pap * inv pap)); [rewrite !field by auto; ring|].
        transitivity ((alpha * inv alpha) * (pap * inv rz)); [unfold alpha; ring|]. rewrite field by auto. ring. }
      rewrite H. ring.
    - rewrite <- A_sym, H2 by lia.
      rewrite (vdot_ext (A (ps i)) (M r') (fun t => c i * rs i t + (- c i) * rs (S i) t) (M r')); auto.
      2:{ intros. apply H5; auto; lia. }
      rewrite vdot_lin_l, !R2 by lia. ring. }
  unfold krylov. split; [|split; [|split; [|split; [|split]]]].
  - intros i j Hi Hj. destruct (Nat.eq_dec j (S k)) as [->|Hn].
    + rewrite ext_same, ext_other by lia. apply R2. lia.
    + rewrite !ext_other by lia. apply H1; lia.
  - intros i j Hi Hj. destruct (Nat.eq_dec j (S k)) as [->|Hn].
    + rewrite ext_same, ext_other by lia. apply PA. lia.
    + rewrite !ext_other by lia. apply H2; lia.
  - intros t Ht. rewrite !ext_other by lia. auto.
  - intros i t Hi Ht. destruct (Nat.eq_dec i k) as [->|Hn].
    + rewrite !ext_same, !ext_other by lia. rewrite Hp' by auto. ring.
    + rewrite !ext_other by lia. apply H4; auto; lia.
  - intros i t Hi Ht. destruct (Nat.eq_dec i k) as [->|Hn].
    + rewrite !ext_same, !ext_other by lia. apply APk. auto.
    + rewrite !ext_other by lia. apply H5; auto; lia.
  - intros i Hi. destruct (Nat.eq_dec i (S k)) as [->|Hn].
    + rewrite ext_same. auto.
    + rewrite ext_other by lia. apply H6. lia.
Qed.

Lemma krylov_bound : forall k rs ps b c, krylov k rs ps b c -> k < N.
Proof.
  intros k rs ps b c (H1 & H2 & H3 & H4 & H5 & H6). destruct (le_lt_dec N k) as [H|H]; [exfalso|auto].
  apply (no_N1 rs (fun i => M (rs i))).
  - intros i j Hi Hj Hn. destruct (lt_dec i j); [apply H1; lia|]. rewrite M_sym, vdot_sym. apply H1; lia.
  - intros. apply H6. lia.
Qed.
End La.

Section Ortho.
Variable K : cring.
Add Ring Kr2 : (rlaws K).
Local Open Scope K_scope.
Variable N : nat.
Variables (A M : (nat -> K) -> nat -> K).
Hypothesis M_sym : forall u v, vdot K N u (M v) = vdot K N (M u) v.
(** r_k is orthogonal to the earlier directions, and r_k . p_k = r_k . M r_k. *)
Lemma kry_rp : forall k rs ps b c, krylov K N A M k rs ps b c -> forall j, j < k -> vdot K N (rs k) (ps j) = 0.
Proof.
  intros k rs ps b c (H1 & H2 & H3 & H4 & H5 & H6).
  assert (Z : forall j, j < k -> vdot K N (rs k) (M (rs j)) = 0).
  { intros j Hj. rewrite M_sym, vdot_sym. apply H1; lia. }
  induction j; intros Hj.
  - rewrite (vdot_ext _ _ _ _ (rs k) (M (rs 0%nat))); auto. intros. symmetry. auto.
  - rewrite (vdot_ext _ _ _ _ (rs k) (fun t => 1 * M (rs (S j)) t + b j * ps j t)); auto.
    2:{ intros t Ht. rewrite H4 by (auto; lia). ring. }
    rewrite vdot_lin_r, Z, IHj by lia. ring.
Qed.
Lemma kry_rpk : forall k rs ps b c, krylov K N A M k rs ps b c -> vdot K N (rs k) (ps k) = vdot K N (rs k) (M (rs k)).
Proof.
  intros k rs ps b c HK. pose proof (kry_rp _ _ _ _ _ HK) as RP. destruct HK as (H1 & H2 & H3 & H4 & H5 & H6). destruct k as [|k].
  - apply vdot_ext; auto. intros. symmetry. auto.
  - rewrite (vdot_ext _ _ _ _ (rs (S k)) (fun t => 1 * M (rs (S k)) t + b k * ps k t)); auto.
    2:{ intros t Ht. rewrite H4 by (auto; lia). ring. }
    rewrite vdot_lin_r, RP by lia. ring.
Qed.
End Ortho.
