(** The projection of three constraints. *)
From Coq Require Import List Arith Bool Reals Lra Lia.
Import ListNotations.
From Verif Require Import Imp PrModel QuatModel ProxModel IsecModel GjkProofs1 MeasSpec MeasProofs1 MeasProofs2 EditModel EditProofs1 EnerModel EnerSpec EnerProofs1 PbdModel PbdSpec.
Open Scope R_scope.

Lemma eqRs : forall a b, if eqR a b then a = b else a <> b.
Proof. intros. unfold eqR. destruct (Req_EM_T a b); auto. Qed.
Lemma coord_mod : forall a a' i f, (forall k, nth k a' 0 = if (k =? i)%nat then f (nth i a 0) else nth k a 0) -> forall j d, coord a' j d = if (3 * j + d =? i)%nat then f (coord a j d) else coord a j d.
Proof. intros a a' i f N j d. unfold coord. rewrite N. destruct (Nat.eqb_spec (3 * j + d) i) as [->|]; reflexivity. Qed.

Lemma upd_dims : forall (s : nat -> R) ip a, (3 * ip + 2 < length a)%nat -> wp (forn 0 3 (fun d a => vmod a (ip * 3 + d) (fun x => x - s d)) a)
  (fun a' => length a' = length a /\ forall j d, (d < 3)%nat -> coord a' j d = coord a j d - if (j =? ip)%nat then s d else 0).
Proof.
  intros s ip a H. apply (wp_forn _ (fun n a' => length a' = length a /\ forall j d, (d < 3)%nat -> coord a' j d = coord a j d - if ((j =? ip) && (d <? n))%nat then s d else 0)); [lia| | |].
  - split; [auto|]. intros. rewrite andb_false_r. ring.
  - intros n b Hn (L & E). apply (wp_vmod_nth _ 0); [lia|]. intros b' L' N'. split; [lia|]. intros j d D. rewrite (coord_mod b b' _ (fun x => x - s n) N'). rewrite !E by auto.
    destruct (Nat.eqb_spec j ip) as [->|NE]; cbn [andb].
    + destruct (Nat.eqb_spec (3 * ip + d) (ip * 3 + n)) as [Q|Q].
      * assert (d = n) by lia. subst d. rewrite (proj2 (Nat.ltb_ge n n)) by lia. rewrite (proj2 (Nat.ltb_lt n (S n))) by lia. ring.
      * destruct (Nat.ltb_spec d n); [rewrite (proj2 (Nat.ltb_lt d (S n))) by lia|rewrite (proj2 (Nat.ltb_ge d (S n))) by lia]; ring.
    + destruct (Nat.eqb_spec (3 * j + d) (ip * 3 + n)) as [Q|Q]; [lia|ring].
  - intros b (L & E). split; [auto|]. intros j d D. rewrite E by auto. rewrite (proj2 (Nat.ltb_lt d 3)) by auto. rewrite andb_true_r. reflexivity.
Qed.
Lemma upd_pt : forall (s : nat -> nat -> R) ip a, (3 * ip + 2 < length a)%nat -> wp (forn 0 3 (fun ic a => forn 0 3 (fun d a => vmod a (ip * 3 + d) (fun x => x - s ic d)) a) a)
  (fun a' => length a' = length a /\ forall j d, (d < 3)%nat -> coord a' j d = coord a j d - if (ip =? j)%nat then sum 3 (fun ic => s ic d) else 0).
Proof.
  intros s ip a H. apply (wp_forn _ (fun n a' => length a' = length a /\ forall j d, (d < 3)%nat -> coord a' j d = coord a j d - if (ip =? j)%nat then sum n (fun ic => s ic d) else 0)); [lia| | |].
  - split; [auto|]. intros. destruct (ip =? j)%nat; cbn [sum]; ring.
  - intros n b Hn (L & E). eapply wp_mono; [apply upd_dims; lia|]. intros b' (L' & E'). cbv beta in *. split; [lia|]. intros j d D. rewrite E', E by auto. rewrite (Nat.eqb_sym j ip). destruct (ip =? j)%nat; cbn [sum]; ring.
  - auto.
Qed.
Lemma upd_all : forall (s : nat -> nat -> nat -> R) np aIP a, length aIP = np -> (forall i, In i aIP -> has a i) ->
  wp (forn 0 np (fun ine a => ip0 <- vget aIP ine ;; forn 0 3 (fun ic a => forn 0 3 (fun d a => vmod a (ip0 * 3 + d) (fun x => x - s ine ic d)) a) a) a)
  (fun a' => length a' = length a /\ forall j d, (d < 3)%nat -> coord a' j d = coord a j d - sum np (fun i => if (nth i aIP 0 =? j)%nat then sum 3 (fun ic => s i ic d) else 0)).
Proof.
  intros s np aIP a LI HV. apply (wp_forn _ (fun n a' => length a' = length a /\ forall j d, (d < 3)%nat -> coord a' j d = coord a j d - sum n (fun i => if (nth i aIP 0 =? j)%nat then sum 3 (fun ic => s i ic d) else 0))); [lia| | |].
  - split; [auto|]. intros. cbn [sum]. ring.
  - intros n b Hn (L & E). rewrite (vget_nth _ 0%nat) by lia. cbn [bind]. assert (V : has a (nth n aIP 0%nat)) by (apply HV, nth_In; lia). unfold has in V.
    eapply wp_mono; [apply (upd_pt (s n)); lia|]. intros b' (L' & E'). cbv beta in *. split; [lia|]. intros j d D. rewrite E', E by auto. cbn [sum]. ring.
  - auto.
Qed.

(** Inverses of matrices of three rows. *)
Definition det3 (A : mat) : R := A 0%nat 0%nat * A 1%nat 1%nat * A 2%nat 2%nat + A 1%nat 0%nat * A 2%nat 1%nat * A 0%nat 2%nat + A 2%nat 0%nat * A 0%nat 1%nat * A 1%nat 2%nat
  - A 0%nat 0%nat * A 2%nat 1%nat * A 1%nat 2%nat - A 2%nat 0%nat * A 1%nat 1%nat * A 0%nat 2%nat - A 1%nat 0%nat * A 0%nat 1%nat * A 2%nat 2%nat.
Lemma inverse_none : forall A, det3 A = 0 -> Inverse_Mat3 A = None.
Proof. intros A D. unfold Inverse_Mat3. cbv [Nat.div Nat.modulo Nat.divmod fst snd Nat.sub]. fold (det3 A). pose proof (eqRs (det3 A) 0) as E. destruct (eqR (det3 A) 0); [auto|contradiction]. Qed.
Lemma inverse_some : forall A, det3 A <> 0 -> exists B, Inverse_Mat3 A = Some B /\ (forall C k, (k < 3)%nat -> sum 3 (fun l => A k l * (B l 0%nat * C 0%nat + B l 1%nat * C 1%nat + B l 2%nat * C 2%nat)) = C k).
Proof.
  intros A D. unfold Inverse_Mat3. cbv [Nat.div Nat.modulo Nat.divmod fst snd Nat.sub]. fold (det3 A). pose proof (eqRs (det3 A) 0) as E. destruct (eqR (det3 A) 0); [contradiction|].
  eexists. split; [reflexivity|]. intros C k K. rewrite sum_3. cbn [nth Nat.add Nat.mul]. unfold det3 in *. cases3 k K; field; auto.
Qed.
Lemma kernel3 : forall A : mat, det3 A = 0 -> exists w : vec, (w 0%nat <> 0 \/ w 1%nat <> 0 \/ w 2%nat <> 0) /\ forall k, (k < 3)%nat -> sum 3 (fun l => A k l * w l) = 0.
Proof.
  intros A D. unfold det3 in D.
  pose (mk := fun (x y z : R) (l : nat) => nth l [x; y; z] 0).
  assert (MK : forall x y z, (x <> 0 \/ y <> 0 \/ z <> 0) -> A 0%nat 0%nat * x + A 0%nat 1%nat * y + A 0%nat 2%nat * z = 0 -> A 1%nat 0%nat * x + A 1%nat 1%nat * y + A 1%nat 2%nat * z = 0 ->
    A 2%nat 0%nat * x + A 2%nat 1%nat * y + A 2%nat 2%nat * z = 0 -> exists w : vec, (w 0%nat <> 0 \/ w 1%nat <> 0 \/ w 2%nat <> 0) /\ forall k, (k < 3)%nat -> sum 3 (fun l => A k l * w l) = 0).
  { intros x y z N E0 E1 E2. exists (mk x y z). split; [exact N|]. intros k K. rewrite sum_3. unfold mk. cbn [nth]. cases3 k K; auto. }
  clear mk. revert D MK. generalize (A 0%nat 0%nat) (A 0%nat 1%nat) (A 0%nat 2%nat) (A 1%nat 0%nat) (A 1%nat 1%nat) (A 1%nat 2%nat) (A 2%nat 0%nat) (A 2%nat 1%nat) (A 2%nat 2%nat).
  intros a b c d e f g h i D MK.
  assert (TRY : forall x y z, a * x + b * y + c * z = 0 -> d * x + e * y + f * z = 0 -> g * x + h * y + i * z = 0 ->
    (exists w : vec, (w 0%nat <> 0 \/ w 1%nat <> 0 \/ w 2%nat <> 0) /\ forall k, (k < 3)%nat -> sum 3 (fun l => A k l * w l) = 0) \/ (x = 0 /\ y = 0 /\ z = 0)).
  { intros x y z E0 E1 E2. destruct (Req_dec x 0) as [X|X]; [destruct (Req_dec y 0) as [Y|Y]; [destruct (Req_dec z 0) as [Z|Z]|]|]; try (right; auto; fail); left; apply (MK x y z); auto. }
  destruct (TRY (b * f - c * e) (c * d - a * f) (a * e - b * d)) as [S|(P1 & P2 & P3)]; [ring|ring|rewrite <- D; ring|exact S|].
  destruct (TRY (b * i - c * h) (c * g - a * i) (a * h - b * g)) as [S|(P4 & P5 & P6)]; [ring|rewrite <- (Ropp_0), <- D; ring|ring|exact S|].
  destruct (TRY (e * i - f * h) (f * g - d * i) (d * h - e * g)) as [S|(P7 & P8 & P9)]; [rewrite <- D; ring|ring|ring|exact S|].
  destruct (TRY b (- a) 0) as [S|(Q1 & Q2 & _)]; [ring|nra|nra|exact S|].
  destruct (TRY e (- d) 0) as [S|(Q3 & Q4 & _)]; [nra|nra|nra|exact S|].
  destruct (TRY h (- g) 0) as [S|(Q5 & Q6 & _)]; [nra|nra|nra|exact S|].
  apply (MK 1 0 0); [left; lra| | |]; nra.
Qed.
