(** What the projection of three constraints does. *)
From Coq Require Import List Arith Bool Reals Lra Lia.
Import ListNotations.
From Verif Require Import Imp PrModel QuatModel ProxModel IsecModel GjkProofs1 MeasSpec MeasProofs1 MeasProofs2 EditModel EditProofs1 EnerModel EnerSpec EnerProofs1 PbdModel PbdSpec PbdProofs1.
Open Scope R_scope.

Lemma sum_zero : forall n f, (forall i, (i < n)%nat -> f i = 0) -> sum n f = 0.
Proof. induction n; intros f H; cbn [sum]; [auto|]. rewrite IHn by (intros; apply H; lia). rewrite H by lia. ring. Qed.
Lemma sum_pick : forall n f i, (i < n)%nat -> (forall k, (k < n)%nat -> k <> i -> f k = 0) -> sum n f = f i.
Proof.
  induction n; intros f i I H; [lia|]. cbn [sum]. destruct (Nat.eq_dec i n) as [->|N].
  - rewrite sum_zero by (intros; apply H; lia). ring.
  - rewrite (IHn f i) by (try lia; intros; apply H; lia). rewrite (H n) by lia. ring.
Qed.
Lemma sum_swap : forall n m (f : nat -> nat -> R), sum n (fun i => sum m (f i)) = sum m (fun j => sum n (fun i => f i j)).
Proof. intros. induction n; cbn [sum]. - symmetry. apply sum_zero. auto. - rewrite IHn. rewrite <- sum_plus. reflexivity. Qed.
Lemma sum_nneg : forall n f, (forall i, (i < n)%nat -> 0 <= f i) -> 0 <= sum n f.
Proof. induction n; intros f H; cbn [sum]; [lra|]. pose proof (H n ltac:(lia)). pose proof (IHn f ltac:(intros; apply H; lia)). lra. Qed.
Lemma sum_pos_zero : forall n f, (forall i, (i < n)%nat -> 0 <= f i) -> sum n f = 0 -> forall i, (i < n)%nat -> f i = 0.
Proof.
  induction n; intros f P Z i I; [lia|]. cbn [sum] in Z.
  assert (S : 0 <= sum n f) by (apply sum_nneg; intros; apply P; lia).
  pose proof (P n ltac:(lia)). destruct (Nat.eq_dec i n) as [->|N]; [lra|]. apply IHn; [intros; apply P; lia|lra|lia].
Qed.

Section Project.
Variables (np : nat) (m : vec) (dC : nat -> conf).
Hypothesis HM : forall i, (i < np)%nat -> 0 < m i.
Definition AA (k l : nat) : R := sum np (fun i => sum 3 (fun d => dC k i d * (1 / m i) * dC l i d)).
Lemma AA_sym : forall k l, AA k l = AA l k.
Proof. intros. unfold AA. apply sum_ext. intros. apply sum_ext. intros. ring. Qed.
Lemma AA_form : forall n (w : vec), sum 3 (fun k => w k * sum 3 (fun l => sum n (fun i => sum 3 (fun d => dC k i d * (1 / m i) * dC l i d)) * w l))
  = sum n (fun i => 1 / m i * sum 3 (fun d => sum 3 (fun k => w k * dC k i d) ^ 2)).
Proof.
  intros n w. induction n.
  - cbn [sum]. ring.
  - transitivity (sum 3 (fun k => w k * sum 3 (fun l => sum n (fun i => sum 3 (fun d => dC k i d * (1 / m i) * dC l i d)) * w l)) + 1 / m n * sum 3 (fun d => sum 3 (fun k => w k * dC k n d) ^ 2)).
    + rewrite !sum_3. cbn [sum]. ring.
    + rewrite IHn. reflexivity.
Qed.
Lemma AA_zero : forall w : vec, (forall i d, (i < np)%nat -> (d < 3)%nat -> sum 3 (fun k => w k * dC k i d) = 0) -> forall k, sum 3 (fun l => AA k l * w l) = 0.
Proof.
  intros w Z k. unfold AA.
  assert (G : forall n, (n <= np)%nat -> sum 3 (fun l => sum n (fun i => sum 3 (fun d => dC k i d * (1 / m i) * dC l i d)) * w l) = 0).
  { induction n; intros N; [cbn [sum]; ring|].
    transitivity (sum 3 (fun l => sum n (fun i => sum 3 (fun d => dC k i d * (1 / m i) * dC l i d)) * w l) + sum 3 (fun d => dC k n d * (1 / m n) * sum 3 (fun l => w l * dC l n d))).
    - rewrite !sum_3. cbn [sum]. ring.
    - rewrite IHn by lia. rewrite (sum_zero 3); [ring|]. intros d D. rewrite Z by lia. ring. }
  apply G. lia.
Qed.
Lemma AA_det : det3 AA <> 0 <-> independent np dC.
Proof.
  split.
  - intros D w Z k K. pose proof (AA_zero w Z 0%nat) as E0. pose proof (AA_zero w Z 1%nat) as E1. pose proof (AA_zero w Z 2%nat) as E2. rewrite sum_3 in E0, E1, E2.
    apply (Rmult_eq_reg_l (det3 AA)); [|exact D]. rewrite Rmult_0_r. clear Z D. unfold det3.
    revert E0 E1 E2. generalize (AA 0%nat 0%nat) (AA 0%nat 1%nat) (AA 0%nat 2%nat) (AA 1%nat 0%nat) (AA 1%nat 1%nat) (AA 1%nat 2%nat) (AA 2%nat 0%nat) (AA 2%nat 1%nat) (AA 2%nat 2%nat).
    intros a b c d e f g h i E0 E1 E2.
    cases3 k K.
    + transitivity ((a * w 0%nat + b * w 1%nat + c * w 2%nat) * (e * i - f * h) + (d * w 0%nat + e * w 1%nat + f * w 2%nat) * (c * h - b * i) + (g * w 0%nat + h * w 1%nat + i * w 2%nat) * (b * f - c * e)); [ring|rewrite E0, E1, E2; ring].
    + transitivity ((a * w 0%nat + b * w 1%nat + c * w 2%nat) * (f * g - d * i) + (d * w 0%nat + e * w 1%nat + f * w 2%nat) * (a * i - c * g) + (g * w 0%nat + h * w 1%nat + i * w 2%nat) * (c * d - a * f)); [ring|rewrite E0, E1, E2; ring].
    + transitivity ((a * w 0%nat + b * w 1%nat + c * w 2%nat) * (d * h - e * g) + (d * w 0%nat + e * w 1%nat + f * w 2%nat) * (b * g - a * h) + (g * w 0%nat + h * w 1%nat + i * w 2%nat) * (a * e - b * d)); [ring|rewrite E0, E1, E2; ring].
  - intros I D. destruct (kernel3 AA D) as (w & NZ & K). pose proof (AA_form np w) as F. fold (AA) in F.
    change (sum 3 (fun k => w k * sum 3 (fun l => AA k l * w l)) = sum np (fun i => 1 / m i * sum 3 (fun d => sum 3 (fun k => w k * dC k i d) ^ 2))) in F.
    rewrite (sum_zero 3) in F by (intros k L; rewrite K by auto; ring).
    assert (NN : forall i, 0 <= sum 3 (fun d => sum 3 (fun k => w k * dC k i d) ^ 2)).
    { intros. apply sum_nneg. intros. apply pow2_ge_0. }
    assert (Z : forall i d, (i < np)%nat -> (d < 3)%nat -> sum 3 (fun k => w k * dC k i d) = 0).
    { intros i d LI LD. pose proof (sum_pos_zero np _ (fun i L => Rmult_le_pos _ _ (Rlt_le _ _ (Rdiv_lt_0_compat 1 _ Rlt_0_1 (HM i L))) (NN i)) (eq_sym F) i LI) as E. cbv beta in E.
      pose proof (Rdiv_lt_0_compat 1 _ Rlt_0_1 (HM i LI)). apply Rmult_integral in E. destruct E as [E|E]; [lra|].
      pose proof (sum_pos_zero 3 _ (fun d _ => pow2_ge_0 _) E d LD) as Q. cbv beta in Q. rewrite <- Rsqr_pow2 in Q. apply Rsqr_0_uniq, Q. }
    pose proof (I w Z 0%nat ltac:(lia)). pose proof (I w Z 1%nat ltac:(lia)). pose proof (I w Z 2%nat ltac:(lia)). tauto.
Qed.

Variables (ratio : R) (lmd : vec) (D : conf).
Hypothesis HD : forall i d, (i < np)%nat -> (d < 3)%nat -> D i d = - sum 3 (fun k => ratio * (dC k i d * (1 / m i)) * lmd k).
Lemma dual : forall u : conf, sum np (fun i => m i * dot (D i) (u i)) = - ratio * sum 3 (fun k => lmd k * power np 3 (dC k) u).
Proof.
  intros u. assert (G : forall n, (n <= np)%nat -> sum n (fun i => m i * dot (D i) (u i)) = - ratio * sum 3 (fun k => lmd k * power n 3 (dC k) u)).
  { induction n; intros N; [unfold power; cbn [sum]; ring|].
    transitivity (- ratio * sum 3 (fun k => lmd k * power n 3 (dC k) u) + m n * dot (D n) (u n)); [rewrite <- IHn by lia; reflexivity|].
    unfold dot at 1. rewrite (sum_3 (fun d => D n d * u n d)). rewrite !HD by lia. unfold power. pose proof (HM n ltac:(lia)). rewrite !sum_3. cbn [sum]. field. lra. }
  apply G. lia.
Qed.
Lemma lin : forall C : vec, (forall k, (k < 3)%nat -> sum 3 (fun l => AA k l * lmd l) = C k) -> forall k, (k < 3)%nat -> power np 3 (dC k) D = - ratio * C k.
Proof.
  intros C S k K. rewrite <- S by auto. unfold power, AA.
  assert (G : forall n, (n <= np)%nat -> sum n (fun i => sum 3 (fun d => dC k i d * D i d)) = - ratio * sum 3 (fun l => sum n (fun i => sum 3 (fun d => dC k i d * (1 / m i) * dC l i d)) * lmd l)).
  { induction n; intros N; [cbn [sum]; ring|].
    transitivity (- ratio * sum 3 (fun l => sum n (fun i => sum 3 (fun d => dC k i d * (1 / m i) * dC l i d)) * lmd l) + sum 3 (fun d => dC k n d * D n d)); [rewrite <- IHn by lia; reflexivity|].
    rewrite (sum_3 (fun d => dC k n d * D n d)). rewrite !HD by lia. rewrite !sum_3. cbn [sum]. ring. }
  apply G. lia.
Qed.
Lemma least : forall e : conf, (forall k, (k < 3)%nat -> power np 3 (dC k) e = power np 3 (dC k) D) -> weighted np m D <= weighted np m e.
Proof.
  intros e E. pose proof (dual (fun i d => e i d - D i d)) as Q.
  assert (Z : sum np (fun i => m i * dot (D i) (fun d => e i d - D i d)) = 0).
  { rewrite Q. rewrite sum_zero; [ring|]. intros k K. assert (P : power np 3 (dC k) (fun i d => e i d - D i d) = power np 3 (dC k) e - power np 3 (dC k) D).
    { unfold power. apply (Rplus_eq_reg_r (sum np (fun i => sum 3 (fun d => dC k i d * D i d)))). rewrite <- sum_plus. unfold Rminus. rewrite Rplus_assoc, Rplus_opp_l, Rplus_0_r. apply sum_ext. intros. rewrite !sum_3. ring. }
    rewrite P, E by auto. ring. }
  unfold weighted. apply Rminus_le. assert (F : sum np (fun i => m i * dot (D i) (D i)) - sum np (fun i => m i * dot (e i) (e i)) = - sum np (fun i => m i * dot (fun d => e i d - D i d) (fun d => e i d - D i d))).
  { enough (F : sum np (fun i => m i * dot (D i) (D i)) - sum np (fun i => m i * dot (e i) (e i)) = - sum np (fun i => m i * dot (fun d => e i d - D i d) (fun d => e i d - D i d)) - 2 * sum np (fun i => m i * dot (D i) (fun d => e i d - D i d))) by (rewrite F, Z; ring).
    clear. induction np; cbn [sum]; [ring|]. unfold dot in *. rewrite !sum_3 in *. lra. }
  rewrite F. assert (0 <= sum np (fun i => m i * dot (fun d => e i d - D i d) (fun d => e i d - D i d))); [|lra].
  apply sum_nneg. intros i I. apply Rmult_le_pos; [apply Rlt_le; auto|]. unfold dot. rewrite sum_3.
  pose proof (Rle_0_sqr (e i 0%nat - D i 0%nat)). pose proof (Rle_0_sqr (e i 1%nat - D i 1%nat)). pose proof (Rle_0_sqr (e i 2%nat - D i 2%nat)). unfold Rsqr in *. lra.
Qed.
Lemma momentum : forall d, (d < 3)%nat -> (forall k, (k < 3)%nat -> sum np (fun i => dC k i d) = 0) -> sum np (fun i => m i * D i d) = 0.
Proof.
  intros d LD H. pose proof (dual (fun _ e => if (e =? d)%nat then 1 else 0)) as Q. transitivity (sum np (fun i => m i * dot (D i) (fun e => if (e =? d)%nat then 1 else 0))).
  - apply sum_ext. intros. f_equal. unfold dot. rewrite sum_3. cases3 d LD; cbn [Nat.eqb]; ring.
  - rewrite Q. rewrite sum_zero; [ring|]. intros k K. assert (P : power np 3 (dC k) (fun _ e => if (e =? d)%nat then 1 else 0) = 0); [|rewrite P; ring].
    transitivity (sum np (fun i => dC k i d)); [|exact (H k K)]. unfold power. apply sum_ext. intros. rewrite sum_3. cases3 d LD; cbn [Nat.eqb]; ring.
Qed.
Lemma angular : forall (x : conf), (forall k d, (k < 3)%nat -> (d < 3)%nat -> sum np (fun i => crossp (x i) (dC k i) d) = 0) -> forall d, (d < 3)%nat -> sum np (fun i => m i * crossp (x i) (D i) d) = 0.
Proof.
  intros x H d LD. pose (u := fun i e => crossp (fun e => if (e =? d)%nat then 1 else 0) (x i) e). pose proof (dual u) as Q. transitivity (sum np (fun i => m i * dot (D i) (u i))).
  - apply sum_ext. intros. f_equal. unfold dot, u, crossp. rewrite sum_3. cases3 d LD; cbn [Nat.eqb]; ring.
  - rewrite Q. rewrite sum_zero; [ring|]. intros k K. assert (P : power np 3 (dC k) u = 0); [|rewrite P; ring].
    transitivity (sum np (fun i => crossp (x i) (dC k i) d)); [|exact (H k d K LD)]. unfold power. apply sum_ext. intros. unfold u, crossp. rewrite sum_3. cases3 d LD; cbn [Nat.eqb]; ring.
Qed.
End Project.

(** The result of a projection: what every point moves by. *)
Lemma update_run : forall a np m C dC aIP ratio, (forall i, (i < np)%nat -> 0 < m i) -> length aIP = np -> (forall i, In i aIP -> has a i) -> independent np dC ->
  exists lmd a', (forall k, (k < 3)%nat -> sum 3 (fun l => AA np m dC k l * lmd l) = C k) /\ PBD_Update_Const3 a np m C dC aIP ratio = Some a' /\ length a' = length a /\
    forall j d, (d < 3)%nat -> coord a' j d = coord a j d - sum np (fun i => if (nth i aIP 0 =? j)%nat then sum 3 (fun k => ratio * (dC k i d * (1 / m i)) * lmd k) else 0).
Proof.
  intros a np m C dC aIP ratio HM LI HV IND. apply (AA_det np m dC HM) in IND. destruct (inverse_some _ IND) as (B & EB & SB).
  unfold PBD_Update_Const3.
  assert (M0 : forn 0 np (fun ip _ => assertb (negb (eqR (m ip) 0))) tt = Some tt).
  { assert (W : wp (forn 0 np (fun ip _ => assertb (negb (eqR (m ip) 0))) tt) (fun x => x = tt)).
    { apply (wp_forn _ (fun _ _ => True)); [lia|auto| |intros []; auto]. intros i s I _. apply wp_assertb; auto. pose proof (eqRs (m i) 0) as E. destruct (eqR (m i) 0); auto. pose proof (HM i ltac:(lia)). lra. }
    apply wp_ex in W. destruct W as (x & E & ->). exact E. }
  rewrite M0. cbn [bind]. unfold AA in EB at 1. rewrite EB. cbn [bind].
  pose proof (upd_all (fun ine ic idim => ratio * (dC ic ine idim * (1 / m ine)) * (B ic 0%nat * C 0%nat + B ic 1%nat * C 1%nat + B ic 2%nat * C 2%nat)) np aIP a LI HV) as W.
  apply wp_ex in W. destruct W as (a' & E & L & F). exists (fun k => B k 0%nat * C 0%nat + B k 1%nat * C 1%nat + B k 2%nat * C 2%nat), a'. split; [apply SB|]. split; [exact E|]. split; [exact L|exact F].
Qed.
Lemma update_none : forall a np m C dC aIP ratio, (forall i, (i < np)%nat -> 0 < m i) -> ~ independent np dC -> PBD_Update_Const3 a np m C dC aIP ratio = None.
Proof.
  intros a np m C dC aIP ratio HM N. assert (D : det3 (AA np m dC) = 0). { destruct (Req_dec (det3 (AA np m dC)) 0); auto. exfalso. apply N. apply (AA_det np m dC HM); auto. }
  unfold PBD_Update_Const3. apply inverse_none in D. unfold AA in D. rewrite D. destruct (forn _ _ _ _); reflexivity.
Qed.
Lemma update_shift : forall a a' np aIP (s : nat -> nat -> R), length aIP = np -> NoDup aIP ->
  (forall j d, (d < 3)%nat -> coord a' j d = coord a j d - sum np (fun i => if (nth i aIP 0 =? j)%nat then s i d else 0)) ->
  (forall i d, (i < np)%nat -> (d < 3)%nat -> moved a a' aIP i d = - s i d) /\ (forall j d, (d < 3)%nat -> ~ In j aIP -> coord a' j d = coord a j d).
Proof.
  intros a a' np aIP s LI ND E. split.
  - intros i d I LD. unfold moved. rewrite E by auto. rewrite (sum_pick np _ i I).
    + rewrite Nat.eqb_refl. ring.
    + intros k K NE. destruct (Nat.eqb_spec (nth k aIP 0%nat) (nth i aIP 0%nat)) as [Q|]; auto. exfalso. apply NE. apply (proj1 (NoDup_nth aIP 0%nat) ND); auto; lia.
  - intros j d LD NI. rewrite E by auto. rewrite sum_zero; [ring|]. intros i I. destruct (Nat.eqb_spec (nth i aIP 0%nat) j) as [Q|]; auto. exfalso. apply NI. rewrite <- Q. apply nth_In. lia.
Qed.
(** Sums over all points. *)
Lemma update_total : forall a a' np aIP (s : nat -> nat -> R) d, length aIP = np -> (forall i, In i aIP -> has a i) -> length a' = length a -> 
  (forall j, coord a' j d = coord a j d - sum np (fun i => if (nth i aIP 0 =? j)%nat then s i d else 0)) -> total a' d = total a d - sum np (fun i => s i d).
Proof.
  intros a a' np aIP s d LI HV L E. unfold total. rewrite L. apply (Rplus_eq_reg_r (sum np (fun i => s i d))).
  replace (sum np (fun i => s i d)) with (sum (length a / 3) (fun j => sum np (fun i => if (nth i aIP 0 =? j)%nat then s i d else 0))) at 1.
  - rewrite <- sum_plus. unfold Rminus. rewrite Rplus_assoc, Rplus_opp_l, Rplus_0_r. apply sum_ext. intros j J. rewrite E. ring.
  - rewrite sum_swap. apply sum_ext. intros i I. rewrite (sum_pick _ _ (nth i aIP 0%nat)).
    + rewrite Nat.eqb_refl. reflexivity.
    + assert (V : has a (nth i aIP 0%nat)) by (apply HV, nth_In; lia). unfold has in V. apply Nat.div_le_lower_bound; lia.
    + intros j J N. destruct (Nat.eqb_spec (nth i aIP 0%nat) j); [congruence|auto].
Qed.
