(** The recursion of Cox and de Boor: supports, sums, signs, derivatives. *)
From Coq Require Import List Arith Bool ZArith Reals Lra Lia.
Import ListNotations.
From Verif Require Import Imp PrModel MeasSpec MeasProofs2 MeasProofs3 BspSpec.
Open Scope R_scope.

Lemma sum_S : forall n f, sum (S n) f = sum n f + f n. Proof. reflexivity. Qed.
Lemma ratio_0 : forall a, ratio a 0 = 0. Proof. intros. unfold ratio. destruct (Req_EM_T 0 0); lra. Qed.
Lemma ratio_n : forall a b, b <> 0 -> ratio a b = a / b. Proof. intros. unfold ratio. destruct (Req_EM_T b 0); lra. Qed.
Lemma cox_out : forall k s d i t, (s < i)%nat \/ (i + d < s)%nat -> cox k (taken s) d i t = 0.
Proof.
  induction d; intros i t H; cbn [cox].
  - unfold taken. destruct (Nat.eqb_spec i s); [lia|auto].
  - rewrite !IHd by lia. ring.
Qed.
Lemma cox_ext : forall k k' on on' d i t, (forall x, (i <= x <= i + d + 1)%nat -> k x = k' x) -> (forall x, (i <= x <= i + d)%nat -> on x = on' x) -> cox k on d i t = cox k' on' d i t.
Proof.
  induction d; intros i t K O; cbn [cox].
  - apply O. lia.
  - rewrite !K by lia. rewrite (IHd i), (IHd (i + 1)%nat); auto; intros; first [apply K; lia|apply O; lia].
Qed.
Lemma cox_shift : forall k s o c d i t, cox (fun x => k (x + o)%nat - c) (taken s) d i t = cox k (taken (s + o)) d (i + o) (t + c).
Proof.
  induction d; intros i t; cbn [cox].
  - unfold taken. destruct (Nat.eqb_spec i s), (Nat.eqb_spec (i + o) (s + o)); auto; lia.
  - rewrite !IHd. replace (i + S d + o)%nat with (i + o + S d)%nat by lia. replace (i + S d + 1 + o)%nat with (i + o + S d + 1)%nat by lia. replace (i + 1 + o)%nat with (i + o + 1)%nat by lia.
    f_equal; f_equal; f_equal; ring.
Qed.
Lemma rising_le : forall k m i j, rising k m -> (i <= j)%nat -> (j < m)%nat -> k i <= k j.
Proof. intros k m i j K. induction 1 as [|j J IH]; intros; [lra|]. specialize (IH ltac:(lia)). specialize (K j ltac:(lia)). replace (j + 1)%nat with (S j) in K by lia. lra. Qed.
Lemma cox_pos : forall k m s d i t, rising k m -> (i + d + 1 < m)%nat -> k s <= t <= k (s + 1)%nat -> (s + 1 < m)%nat -> 0 <= cox k (taken s) d i t.
Proof.
  induction d; intros i t K M T Sm; cbn [cox].
  - unfold taken. destruct (i =? s)%nat; lra.
  - apply Rplus_le_le_0_compat.
    + destruct (Nat.le_gt_cases i s) as [I|I]; [|rewrite cox_out by lia; lra]. apply Rmult_le_pos; [|apply IHd; auto; lia]. pose proof (rising_le k m i s K I ltac:(lia)). pose proof (rising_le k m i (i + S d) K ltac:(lia) ltac:(lia)). unfold ratio. destruct (Req_EM_T _ 0); [lra|]. apply Rmult_le_pos; [lra|]. left. apply Rinv_0_lt_compat. lra.
    + destruct (Nat.le_gt_cases s (i + 1 + d)) as [I|I]; [|rewrite cox_out by lia; lra]. apply Rmult_le_pos; [|apply IHd; auto; lia]. pose proof (rising_le k m (s + 1) (i + S d + 1) K ltac:(lia) ltac:(lia)). pose proof (rising_le k m (i + 1) (i + S d + 1) K ltac:(lia) ltac:(lia)). unfold ratio. destruct (Req_EM_T _ 0); [lra|]. apply Rmult_le_pos; [lra|]. left. apply Rinv_0_lt_compat. lra.
Qed.

(** *** The window of B-splines that live on span s *)
Definition win (k : nat -> R) (s d : nat) (A : nat -> R) (t : R) : R := sum (S d) (fun j => cox k (taken s) d (s - d + j) t * A j).
Definition al (k : nat -> R) (s d j : nat) (t : R) : R := (t - k (s - d + j)%nat) / (k (s + j + 1)%nat - k (s - d + j)%nat).
Lemma win_ext : forall k s d A B t, (forall j, (j <= d)%nat -> A j = B j) -> win k s d A t = win k s d B t.
Proof. intros. unfold win. apply sum_ext. intros. rewrite H by lia. auto. Qed.
Lemma win_step : forall k s d A t, (S d <= s)%nat -> (forall j, (j <= d)%nat -> k (s - d + j)%nat <> k (s + j + 1)%nat) ->
  win k s (S d) A t = win k s d (fun j => (1 - al k s d j t) * A j + al k s d j t * A (S j)) t.
Proof.
  intros k s d A t S0 K. unfold win.
  transitivity (sum (S (S d)) (fun j => ratio (t - k (s - S d + j)%nat) (k (s + j)%nat - k (s - S d + j)%nat) * cox k (taken s) d (s - S d + j) t * A j) + sum (S (S d)) (fun j => ratio (k (s + j + 1)%nat - t) (k (s + j + 1)%nat - k (s - d + j)%nat) * cox k (taken s) d (s - d + j) t * A j)).
  - rewrite <- sum_plus. apply sum_ext. intros j J. cbn [cox]. replace (s - S d + j + S d)%nat with (s + j)%nat by lia. replace (s - S d + j + 1)%nat with (s - d + j)%nat by lia. ring.
  - rewrite sum_first, (sum_S (S d)). rewrite (cox_out k s d (s - S d + 0)) by lia. rewrite (cox_out k s d (s - d + S d)) by lia.
    match goal with |- ?a * 0 * ?b + ?X + (?Y + ?z * 0 * ?w) = _ => transitivity (X + Y); [ring|] end. rewrite <- sum_plus.
    apply sum_ext. intros j J. replace (s + S j)%nat with (s + j + 1)%nat by lia. replace (s - S d + S j)%nat with (s - d + j)%nat by lia. specialize (K j ltac:(lia)). rewrite !ratio_n by lra. unfold al. field. lra.
Qed.
Lemma win_one : forall k m s d t, rising k m -> (d <= s)%nat -> (s + d + 1 < m + 1)%nat -> (s + 1 < m)%nat -> k s < k (s + 1)%nat -> win k s d (fun _ => 1) t = 1.
Proof.
  induction d; intros t K S0 M S1 Ks.
  - unfold win. cbn. unfold taken. replace (s - 0 + 0)%nat with s by lia. rewrite Nat.eqb_refl. ring.
  - rewrite win_step; [|lia|].
    + transitivity (win k s d (fun _ => 1) t); [|apply IHd; auto; lia]. apply win_ext. intros. ring.
    + intros j J. pose proof (rising_le k m (s - d + j) s K ltac:(lia) ltac:(lia)). pose proof (rising_le k m (s + 1) (s + j + 1) K ltac:(lia) ltac:(lia)). lra.
Qed.
Lemma sum_cat : forall a b f, sum (a + b) f = sum a f + sum b (fun j => f (a + j)%nat).
Proof. induction b; intros; [rewrite Nat.add_0_r; cbn; ring|]. rewrite Nat.add_succ_r. cbn [sum]. rewrite IHb. ring. Qed.
Lemma sum_nil : forall n f, (forall i, (i < n)%nat -> f i = 0) -> sum n f = 0.
Proof. induction n; intros f H; cbn; auto. rewrite IHn by auto. rewrite H by lia. ring. Qed.
Lemma spline_win : forall k s d n P t, (d <= s)%nat -> (s < n)%nat -> spline k (taken s) d n P t = win k s d (fun j => P (s - d + j)%nat) t.
Proof.
  intros k s d n P t D N. unfold spline, win. replace n with ((s - d) + (S d + (n - S s)))%nat by lia. rewrite sum_cat, sum_cat.
  rewrite (sum_nil (s - d)) by (intros; rewrite cox_out by lia; ring). rewrite (sum_nil (n - S s)) by (intros; rewrite cox_out by lia; ring). ring.
Qed.

(** *** Derivatives *)
(** the derivative of the B-spline of degree d *)
Definition dcox (k : nat -> R) (s d i : nat) (t : R) : R :=
  match d with O => 0 | S e => INR d * (ratio (cox k (taken s) e i t) (k (i + d)%nat - k i) - ratio (cox k (taken s) e (i + 1) t) (k (i + d + 1)%nat - k (i + 1)%nat)) end.
Lemma ratio_mul : forall a b c, ratio a b * c = ratio (a * c) b.
Proof. intros. unfold ratio. destruct (Req_EM_T b 0); [ring|field; auto]. Qed.
Lemma dcox_step : forall k m s d i t, rising k m -> (i + S d + 1 < m)%nat ->
  ratio (t - k i) (k (i + S d)%nat - k i) * dcox k s d i t + ratio (k (i + S d + 1)%nat - t) (k (i + S d + 1)%nat - k (i + 1)%nat) * dcox k s d (i + 1) t =
  INR d * (ratio (cox k (taken s) d i t) (k (i + S d)%nat - k i) - ratio (cox k (taken s) d (i + 1) t) (k (i + S d + 1)%nat - k (i + 1)%nat)).
Proof.
  intros k m s d i t K M. destruct d as [|d]; [cbn; ring|]. unfold dcox. cbn [cox]. replace (i + 1 + 1)%nat with (i + 2)%nat by lia. replace (i + 1 + S d)%nat with (i + S (S d))%nat by lia. replace (i + S d + 1)%nat with (i + S (S d))%nat by lia. replace (i + S (S d) + 1)%nat with (i + S (S (S d)))%nat by lia.
  set (X := cox k (taken s) d i t). set (Y := cox k (taken s) d (i + 1) t). set (Z := cox k (taken s) d (i + 2) t).
  pose proof (rising_le k m i (i + 1) K ltac:(lia) ltac:(lia)). pose proof (rising_le k m (i + 1) (i + 2) K ltac:(lia) ltac:(lia)). pose proof (rising_le k m (i + 2) (i + S (S d)) K ltac:(lia) ltac:(lia)).
  pose proof (rising_le k m (i + 1) (i + S d) K ltac:(lia) ltac:(lia)). pose proof (rising_le k m (i + S d) (i + S (S d)) K ltac:(lia) ltac:(lia)). pose proof (rising_le k m (i + S (S d)) (i + S (S (S d))) K ltac:(lia) ltac:(lia)).
  set (k0 := k i) in *. set (k1 := k (i + 1)%nat) in *. set (k2 := k (i + 2)%nat) in *. set (ka := k (i + S d)%nat) in *. set (kb := k (i + S (S d))%nat) in *. set (kc := k (i + S (S (S d)))%nat) in *. generalize (INR (S d)). intros D.
  clearbody X Y Z k0 k1 k2 ka kb kc. unfold ratio.
  destruct (Req_EM_T (kb - k0) 0); destruct (Req_EM_T (ka - k0) 0); destruct (Req_EM_T (kb - k1) 0); destruct (Req_EM_T (kc - k1) 0); destruct (Req_EM_T (kc - k2) 0); try (exfalso; lra); field; lra.
Qed.
Lemma cox_der : forall k m s d i t, rising k m -> (i + d + 1 < m)%nat -> derivable_pt_lim (cox k (taken s) d i) t (dcox k s d i t).
Proof.
  induction d as [|d IH]; intros i t K M.
  - cbn. apply derivable_pt_lim_const.
  - pose proof (dcox_step k m s d i t K M) as E. pose proof (IH i t K ltac:(lia)) as D0. pose proof (IH (i + 1)%nat t K ltac:(lia)) as D1.
    assert (L : forall a b, derivable_pt_lim (fun x => ratio (x - a) b) t (ratio 1 b)).
    { intros a b. unfold ratio. destruct (Req_EM_T b 0); [apply derivable_pt_lim_const|]. replace (1 / b) with ((1 - 0) * / b + (t - a) * 0) by (field; auto). apply (derivable_pt_lim_mult (fun x => x - a) (fun _ => / b)); [|apply derivable_pt_lim_const]. apply (derivable_pt_lim_minus id (fun _ => a)); [apply derivable_pt_lim_id|apply derivable_pt_lim_const]. }
    assert (L' : forall a b, derivable_pt_lim (fun x => ratio (a - x) b) t (- ratio 1 b)).
    { intros a b. unfold ratio. destruct (Req_EM_T b 0); [rewrite Ropp_0; apply derivable_pt_lim_const|]. replace (- (1 / b)) with ((0 - 1) * / b + (a - t) * 0) by (field; auto). apply (derivable_pt_lim_mult (fun x => a - x) (fun _ => / b)); [|apply derivable_pt_lim_const]. apply (derivable_pt_lim_minus (fun _ => a) id); [apply derivable_pt_lim_const|apply derivable_pt_lim_id]. }
    pose proof (derivable_pt_lim_plus _ _ _ _ _ (derivable_pt_lim_mult _ _ _ _ _ (L (k i) (k (i + S d)%nat - k i)) D0) (derivable_pt_lim_mult _ _ _ _ _ (L' (k (i + S d + 1)%nat) (k (i + S d + 1)%nat - k (i + 1)%nat)) D1)) as G.
    match type of G with derivable_pt_lim _ _ ?v => replace (dcox k s (S d) i t) with v; [exact G|] end. unfold dcox at 3. rewrite S_INR.
    replace (ratio 1 (k (i + S d)%nat - k i) * cox k (taken s) d i t) with (ratio (cox k (taken s) d i t) (k (i + S d)%nat - k i)) by (rewrite ratio_mul; f_equal; ring).
    replace (- ratio 1 (k (i + S d + 1)%nat - k (i + 1)%nat) * cox k (taken s) d (i + 1) t) with (- ratio (cox k (taken s) d (i + 1) t) (k (i + S d + 1)%nat - k (i + 1)%nat)) by (rewrite Ropp_mult_distr_l_reverse, ratio_mul; do 2 f_equal; ring). lra.
Qed.
Lemma sum_der : forall n (f : nat -> R -> R) g t, (forall i, (i < n)%nat -> derivable_pt_lim (f i) t (g i)) -> derivable_pt_lim (fun x => sum n (fun i => f i x)) t (sum n g).
Proof. induction n; intros f g t H; cbn [sum]; [apply derivable_pt_lim_const|]. apply (derivable_pt_lim_plus (fun x => sum n (fun i => f i x)) (f n)); auto. Qed.
(** The derivative of the curve is the curve of one degree less with the scaled differences of the control points. *)
Lemma win_der : forall k m s d A t, rising k m -> (S d <= s)%nat -> (s + S d + 1 < m + 1)%nat -> (forall j, (j <= d)%nat -> k (s - d + j)%nat <> k (s + j + 1)%nat) -> (s + S d + 1 < m)%nat ->
  derivable_pt_lim (win k s (S d) A) t (win k s d (fun j => INR (S d) / (k (s + j + 1)%nat - k (s - d + j)%nat) * (A (S j) - A j)) t).
Proof.
  intros k m s d A t K S0 _ Kn M. assert (G : derivable_pt_lim (win k s (S d) A) t (sum (S (S d)) (fun j => dcox k s (S d) (s - S d + j) t * A j))).
  { apply (sum_der (S (S d)) (fun j x => cox k (taken s) (S d) (s - S d + j) x * A j)). intros i I. replace (dcox k s (S d) (s - S d + i) t * A i) with (dcox k s (S d) (s - S d + i) t * A i + cox k (taken s) (S d) (s - S d + i) t * 0) by ring. apply (derivable_pt_lim_mult (cox k (taken s) (S d) (s - S d + i)) (fun _ => A i)); [|apply derivable_pt_lim_const]. apply (cox_der k m); auto. lia. }
  match goal with |- derivable_pt_lim _ _ ?v => replace v with (sum (S (S d)) (fun j => dcox k s (S d) (s - S d + j) t * A j)); [exact G|] end. clear G. unfold win, dcox. set (D := INR (S d)).
  transitivity (sum (S (S d)) (fun j => D * ratio (cox k (taken s) d (s - S d + j) t) (k (s + j)%nat - k (s - S d + j)%nat) * A j) + sum (S (S d)) (fun j => - (D * ratio (cox k (taken s) d (s - d + j) t) (k (s + j + 1)%nat - k (s - d + j)%nat) * A j))).
  - rewrite <- sum_plus. apply sum_ext. intros j J. replace (s - S d + j + S d)%nat with (s + j)%nat by lia. replace (s - S d + j + 1)%nat with (s - d + j)%nat by lia. ring.
  - rewrite sum_first, (sum_S (S d)). rewrite (cox_out k s d (s - S d + 0)) by lia. rewrite (cox_out k s d (s - d + S d)) by lia. assert (R0 : forall b, ratio 0 b = 0) by (intros; unfold ratio; destruct (Req_EM_T b 0); [auto|field; auto]). rewrite !R0.
    match goal with |- ?a * 0 * ?b + ?X + (?Y + - (?z * 0 * ?w)) = _ => transitivity (X + Y); [ring|] end. rewrite <- sum_plus.
    apply sum_ext. intros j J. replace (s + S j)%nat with (s + j + 1)%nat by lia. replace (s - S d + S j)%nat with (s - d + j)%nat by lia. specialize (Kn j ltac:(lia)). rewrite !ratio_n by lra. field. lra.
Qed.
