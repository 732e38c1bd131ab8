(** Proofs for Mat4Props.v: elimination on matrices as functions of row and column. *)
From Coq Require Import List Arith Bool Lia ZArith Reals Lra.
Import ListNotations.
From Verif Require Import Imp PrModel MeasSpec MeasProofs2.
Open Scope R_scope.

Lemma sum_pick : forall n i f, (i < n)%nat -> sum n (fun k => if (k =? i)%nat then f k else 0) = f i.
Proof.
  induction n; intros i f Hi; [lia|]. cbn [sum]. destruct (Nat.eqb_spec n i) as [->|Hn].
  - assert (E : sum i (fun k => if (k =? i)%nat then f k else 0) = 0).
    { clear. assert (G : forall m, (m <= i)%nat -> sum m (fun k => if (k =? i)%nat then f k else 0) = 0).
      { induction m; intros Hm; cbn [sum]; auto. rewrite IHm by lia. rewrite (proj2 (Nat.eqb_neq m i)) by lia. lra. }
      apply G. lia. }
    rewrite E. lra.
  - rewrite IHn by lia. lra.
Qed.
Lemma sum_zero : forall n f, (forall k, (k < n)%nat -> f k = 0) -> sum n f = 0.
Proof. induction n; intros f H; cbn [sum]; auto. rewrite IHn by (intros; apply H; lia). rewrite H by lia. lra. Qed.
Lemma sum_mull : forall n c f, sum n (fun k => c * f k) = c * sum n f.
Proof. induction n; intros; cbn [sum]; [lra|rewrite IHn; lra]. Qed.
Lemma sum_split : forall n i f, (i < n)%nat -> sum n f = f i + sum n (fun k => if (k =? i)%nat then 0 else f k).
Proof.
  intros n i f Hi. rewrite <- (sum_pick n i f Hi), <- sum_plus. apply sum_ext. intros k Hk. destruct (k =? i)%nat; lra.
Qed.
Lemma sum_swap : forall n m f, sum n (fun i => sum m (fun j => f i j)) = sum m (fun j => sum n (fun i => f i j)).
Proof.
  induction n; intros m f; cbn [sum].
  - symmetry. apply sum_zero. auto.
  - rewrite IHn. rewrite <- sum_plus. auto.
Qed.

(** Exchange of two indices. *)
Definition tau (p q k : nat) : nat := if (k =? p)%nat then q else if (k =? q)%nat then p else k.
Lemma tau_tau : forall p q k, tau p q (tau p q k) = k.
Proof. intros. unfold tau. destruct (Nat.eqb_spec k p); [destruct (Nat.eqb_spec q p); [congruence|rewrite Nat.eqb_refl; auto]|]. destruct (Nat.eqb_spec k q); [rewrite Nat.eqb_refl; auto|]. rewrite (proj2 (Nat.eqb_neq k p)), (proj2 (Nat.eqb_neq k q)); auto. Qed.
Lemma tau_lt : forall p q n k, (p < n)%nat -> (q < n)%nat -> (k < n)%nat -> (tau p q k < n)%nat.
Proof. intros. unfold tau. destruct (k =? p)%nat; auto. destruct (k =? q)%nat; auto. Qed.
Lemma sum_tau : forall n p q f, (p < n)%nat -> (q < n)%nat -> sum n (fun k => f (tau p q k)) = sum n f.
Proof.
  intros n p q f Hp Hq. destruct (Nat.eq_dec p q) as [->|Hn].
  - apply sum_ext. intros k Hk. f_equal. unfold tau. destruct (Nat.eqb_spec k q); auto.
  - rewrite (sum_split n p f Hp). rewrite (sum_split n q (fun k => if (k =? p)%nat then 0 else f k) Hq). rewrite (proj2 (Nat.eqb_neq q p)) by auto.
    rewrite (sum_split n p (fun k => f (tau p q k)) Hp). rewrite (sum_split n q (fun k => if (k =? p)%nat then 0 else f (tau p q k)) Hq). rewrite (proj2 (Nat.eqb_neq q p)) by auto.
    assert (T1 : tau p q p = q) by (unfold tau; rewrite Nat.eqb_refl; auto). assert (T2 : tau p q q = p) by (unfold tau; rewrite (proj2 (Nat.eqb_neq q p)), Nat.eqb_refl; auto).
    rewrite T1, T2. assert (E : sum n (fun k => if (k =? q)%nat then 0 else if (k =? p)%nat then 0 else f (tau p q k)) = sum n (fun k => if (k =? q)%nat then 0 else if (k =? p)%nat then 0 else f k)).
    { apply sum_ext. intros k Hk. destruct (Nat.eqb_spec k q); auto. destruct (Nat.eqb_spec k p); auto. unfold tau. rewrite (proj2 (Nat.eqb_neq k p)), (proj2 (Nat.eqb_neq k q)) by auto. auto. }
    rewrite E. lra.
Qed.

(** One elimination step on matrices as functions. *)
Definition gj (i : nat) (t : R) (a a' : nat -> nat -> R) (n : nat) : Prop :=
  (forall k, (k < n)%nat -> a' i k = (if (k =? i)%nat then 1 else a i k) * t) /\
  (forall r k, (r < n)%nat -> (k < n)%nat -> r <> i -> a' r k = (if (k =? i)%nat then 0 else a r k) - a r i * a' i k).
Definition zz (i : nat) (x y : nat -> R) (k : nat) : R := if (k <? i)%nat then - y k else x k.
Definition ww (i : nat) (x y : nat -> R) (r : nat) : R := if (r <? i)%nat then - x r else y r.
Definition sys (n i : nat) (a : nat -> nat -> R) (x y : nat -> R) : Prop := forall r, (r < n)%nat -> sum n (fun k => a r k * zz i x y k) = ww i x y r.
Lemma gj_iff : forall n i t p a a' x y, (i < n)%nat -> p * t = 1 -> a i i = p -> gj i t a a' n -> (sys n (S i) a' x y <-> sys n i a x y).
Proof.
  intros n i t p a a' x y Hi Ht Hp (G1 & G2).
  assert (Zi : zz i x y i = x i) by (unfold zz; destruct (Nat.ltb_spec i i); [lia|auto]).
  assert (Wi : ww i x y i = y i) by (unfold ww; destruct (Nat.ltb_spec i i); [lia|auto]).
  assert (Zi' : zz (S i) x y i = - y i) by (unfold zz; destruct (Nat.ltb_spec i (S i)); [auto|lia]).
  assert (Wi' : ww (S i) x y i = - x i) by (unfold ww; destruct (Nat.ltb_spec i (S i)); [auto|lia]).
  assert (Zk : forall k, k <> i -> zz (S i) x y k = zz i x y k) by (intros k Hk; unfold zz; destruct (Nat.ltb_spec k i), (Nat.ltb_spec k (S i)); auto; lia).
  assert (Wk : forall k, k <> i -> ww (S i) x y k = ww i x y k) by (intros k Hk; unfold ww; destruct (Nat.ltb_spec k i), (Nat.ltb_spec k (S i)); auto; lia).
  set (N := sum n (fun k => if (k =? i)%nat then 0 else a i k * zz i x y k)).
  assert (E1 : sum n (fun k => a' i k * zz (S i) x y k) = t * (N - y i)).
  { rewrite (sum_split n i) by auto. rewrite G1 by auto. rewrite Nat.eqb_refl, Zi'.
    transitivity (1 * t * - y i + t * N); [|ring].
    f_equal. unfold N. rewrite <- sum_mull. apply sum_ext. intros k Hk. destruct (Nat.eqb_spec k i) as [|Hn]; [ring|]. rewrite G1 by auto. rewrite (proj2 (Nat.eqb_neq k i) Hn). rewrite Zk by auto. ring. }
  assert (E2 : sum n (fun k => a i k * zz i x y k) = p * x i + N).
  { rewrite (sum_split n i) by auto. rewrite Zi, Hp. reflexivity. }
  assert (E3 : forall r, (r < n)%nat -> r <> i -> sum n (fun k => a' r k * zz (S i) x y k) =
     sum n (fun k => if (k =? i)%nat then 0 else a r k * zz i x y k) - a r i * sum n (fun k => a' i k * zz (S i) x y k)).
  { intros r Hr Hn. transitivity (sum n (fun k => if (k =? i)%nat then 0 else a r k * zz i x y k) + sum n (fun k => - a r i * (a' i k * zz (S i) x y k))).
    - rewrite <- sum_plus. apply sum_ext. intros k Hk. rewrite G2 by auto. destruct (Nat.eqb_spec k i) as [->|Hk']; [ring|]. rewrite Zk by auto. ring.
    - rewrite sum_mull. ring. }
  assert (E4 : forall r, (r < n)%nat -> sum n (fun k => a r k * zz i x y k) = a r i * x i + sum n (fun k => if (k =? i)%nat then 0 else a r k * zz i x y k)).
  { intros r Hr. rewrite (sum_split n i) by auto. rewrite Zi. reflexivity. }
  assert (P : t * (N - y i) = - x i <-> p * x i + N = y i).
  { split; intros H.
    - assert (p * (t * (N - y i)) = p * - x i) by (rewrite H; auto). replace (p * (t * (N - y i))) with (p * t * (N - y i)) in H0 by ring. rewrite Ht in H0. lra.
    - replace (N - y i) with (- (p * x i)) by lra. replace (t * - (p * x i)) with (- (p * t * x i)) by ring. rewrite Ht. ring. }
  split; intros HS r Hr; destruct (Nat.eq_dec r i) as [->|Hn].
  - rewrite Wi, E2. apply P. rewrite <- E1, <- Wi'. auto.
  - rewrite <- Wk by auto. rewrite <- (HS r Hr). rewrite E3, E4 by auto. rewrite (HS i Hi), Wi'. ring.
  - rewrite Wi', E1. apply P. rewrite <- E2, <- Wi. auto.
  - rewrite Wk by auto. rewrite <- (HS r Hr). rewrite E3, E4 by auto. assert (E5 : t * (N - y i) = - x i) by (apply P; rewrite <- E2, <- Wi; auto). rewrite E1, E5. ring.
Qed.
(** Exchange of rows i and q, at or below the diagonal, exchanges the right-hand sides. *)
Lemma swap_iff : forall n i q a a' x y, (i <= q < n)%nat -> (forall r k, (r < n)%nat -> (k < n)%nat -> a' r k = a (tau i q r) k) ->
  (sys n i a' x (fun k => y (tau i q k)) <-> sys n i a x y).
Proof.
  intros n i q a a' x y Hq Ha.
  assert (Zk : forall k, zz i x (fun k => y (tau i q k)) k = zz i x y k).
  { intros k. unfold zz. destruct (Nat.ltb_spec k i); auto. unfold tau. rewrite (proj2 (Nat.eqb_neq k i)), (proj2 (Nat.eqb_neq k q)) by lia. auto. }
  assert (Wk : forall r, ww i x (fun k => y (tau i q k)) r = ww i x y (tau i q r)).
  { intros r. unfold ww, tau. destruct (Nat.ltb_spec r i).
    - rewrite (proj2 (Nat.eqb_neq r i)), (proj2 (Nat.eqb_neq r q)) by lia. destruct (Nat.ltb_spec r i); auto. lia.
    - destruct (Nat.eqb_spec r i); [destruct (Nat.ltb_spec q i); [lia|auto]|]. destruct (Nat.eqb_spec r q); [destruct (Nat.ltb_spec i i); [lia|auto]|]. destruct (Nat.ltb_spec r i); [lia|auto]. }
  assert (E : forall r, (r < n)%nat -> sum n (fun k => a' r k * zz i x (fun k => y (tau i q k)) k) = sum n (fun k => a (tau i q r) k * zz i x y k)).
  { intros r Hr. apply sum_ext. intros k Hk. rewrite Ha, Zk by auto. auto. }
  split; intros HS r Hr.
  - assert (Ht : (tau i q r < n)%nat) by (apply tau_lt; lia). pose proof (HS _ Ht) as H. rewrite E in H by auto. rewrite Wk, tau_tau in H. exact H.
  - rewrite E by auto. rewrite Wk. apply HS. apply tau_lt; lia.
Qed.
(** A column without a pivot: some vector other than zero is mapped to zero. *)
Lemma kernel : forall n i a, (i < n)%nat -> (forall r, (i <= r < n)%nat -> a r i = 0) -> exists x, x i = 1 /\ forall z, (forall k, z k = 0) -> sys n i a x z.
Proof.
  intros n i a Hi H. exists (fun k => if (k <? i)%nat then - a k i else if (k =? i)%nat then 1 else 0). split.
  { destruct (Nat.ltb_spec i i); [lia|]. rewrite Nat.eqb_refl. auto. }
  intros z Hz r Hr. transitivity (a r i).
  - rewrite <- (sum_pick n i (fun k => a r i) Hi). apply sum_ext. intros k Hk. unfold zz. rewrite Hz. destruct (Nat.ltb_spec k i).
    + destruct (Nat.eqb_spec k i); [lia|ring].
    + destruct (Nat.eqb_spec k i) as [->|]; ring.
  - unfold ww. rewrite Hz. destruct (Nat.ltb_spec r i); [ring|]. apply H. lia.
Qed.
