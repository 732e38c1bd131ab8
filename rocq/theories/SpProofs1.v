(** Products with block sparse matrices: proofs for C21, C22. *)
From Coq Require Import List Arith Lia Bool ZArith Ring.
Import ListNotations.
From Verif Require Import Imp Alg SpModel SpSpec.

Lemma idx_inj : forall n I J a b, a < n -> b < n -> I * n + a = J * n + b -> I = J /\ a = b.
Proof. intros. assert (I = J) by nia. subst. lia. Qed.
Lemma idx_lt : forall n I m a, I < m -> a < n -> I * n + a < m * n. Proof. intros. nia. Qed.
Lemma idx_eqb : forall n I J a b, a < n -> b < n -> (I * n + a =? J * n + b) = (I =? J) && (a =? b).
Proof.
  intros. destruct (Nat.eqb_spec (I * n + a) (J * n + b)) as [E|E].
  - destruct (idx_inj _ _ _ _ _ H H0 E). subst. rewrite !Nat.eqb_refl. auto.
  - destruct (Nat.eqb_spec I J), (Nat.eqb_spec a b); subst; auto; try lia.
Qed.
Lemma idx3_lt : forall n m k I a b, I < k -> a < n -> b < m -> I * (n * m) + a * m + b < k * (n * m).
Proof. intros. rewrite <- Nat.add_assoc. apply idx_lt; auto. apply idx_lt; auto. Qed.

Section P.
Variable K : cring.
Add Ring Kr : (rlaws K).
Local Open Scope K_scope.

Lemma ifb_and : forall (b c : bool) (x : K), (if b && c then x else 0) = if b then (if c then x else 0) else 0.
Proof. destruct b, c; auto. Qed.
Lemma bigsum_ifb : forall A (b : bool) (l : list A) (f : A -> K),
  bigsum l (fun x => if b then f x else 0) = if b then bigsum l f else 0.
Proof. intros. destruct b; auto. apply bigsum_zero. auto. Qed.
Lemma ifb_mull : forall (b : bool) (c x : K), c * (if b then x else 0) = if b then c * x else 0.
Proof. destruct b; intros; auto. ring. Qed.
Lemma ifb_mulr : forall (b : bool) (c x : K), (if b then x else 0) * c = if b then x * c else 0.
Proof. destruct b; intros; auto. ring. Qed.

Variable A : matsp K.
Hypothesis WF : wf A.

Lemma wf_range : forall I c, I < nrowblk A -> In c (row_range A I) -> c < length (row_ptr A).
Proof.
  destruct WF as (_ & HM & HE & _). intros I c HI Hc. apply in_seq in Hc.
  assert (forall k, I < k -> k <= nrowblk A -> ci A (S I) <= ci A k).
  { intros k. induction k; intros; [lia|]. destruct (Nat.eq_dec I k); [subst; lia|].
    specialize (HM k ltac:(lia)). specialize (IHk ltac:(lia) ltac:(lia)). lia. }
  specialize (H (nrowblk A) HI (le_n _)). lia.
Qed.
Lemma wf_ci : forall I, I <= nrowblk A -> vget (col_ind A) I = Some (ci A I).
Proof. intros. destruct WF as (E & _). apply vget_nth. lia. Qed.
Lemma wf_rp : forall c, c < length (row_ptr A) -> vget (row_ptr A) c = Some (rp A c) /\ rp A c < ncolblk A.
Proof. intros. split; [apply vget_nth; auto|]. destruct WF as (_ & _ & _ & H' & _). auto. Qed.

(** (A x)(I,a) computed row by row. *)
Definition rowprod (x : list K) (I a : nat) : K :=
  bigsum (row_range A I) (fun c => sumn (ncoldim A) (fun b => crs A c a b * nth (rp A c * ncoldim A + b) x 0))
  + sumn (ncoldim A) (fun b => dia A I a b * nth (I * ncoldim A + b) x 0).

Lemma rowprod_Ax : forall x I a, I < nrowblk A -> rowprod x I a = Ax A x I a.
Proof.
  intros x I a HI. unfold rowprod, Ax, dense.
  symmetry. rewrite (sumn_ext _ _ _ (fun J =>
     bigsum (row_range A I) (fun c => if rp A c =? J then sumn (ncoldim A) (fun b => crs A c a b * nth (J * ncoldim A + b) x 0) else 0)
     + (if J =? I then sumn (ncoldim A) (fun b => dia A I a b * nth (J * ncoldim A + b) x 0) else 0))).
  - rewrite sumn_add, sumn_pick by (destruct WF; lia). f_equal.
    unfold sumn at 1. rewrite bigsum_swap. apply bigsum_ext. intros c Hc.
    rewrite (bigsum_ext _ _ _ _ (fun J => if J =? rp A c then sumn (ncoldim A) (fun b => crs A c a b * nth (J * ncoldim A + b) x 0) else 0)).
    + apply (sumn_pick K (ncolblk A) (rp A c)). apply wf_rp. eapply wf_range; eauto.
    + intros J _. rewrite Nat.eqb_sym. auto.
  - intros J HJ. rewrite (Nat.eqb_sym J I).
    rewrite (sumn_ext _ _ _ (fun b => bigsum (row_range A I) (fun c => if rp A c =? J then crs A c a b * nth (J * ncoldim A + b) x 0 else 0)
       + (if I =? J then dia A I a b * nth (J * ncoldim A + b) x 0 else 0))).
    + rewrite sumn_add. f_equal.
      * unfold sumn. rewrite bigsum_swap. apply bigsum_ext. intros c _. rewrite bigsum_ifb. auto.
      * unfold sumn. rewrite bigsum_ifb. auto.
    + intros b Hb. rewrite <- ifb_mulr.
      transitivity (bigsum (row_range A I) (fun c => if rp A c =? J then crs A c a b else 0) * nth (J * ncoldim A + b) x 0
         + (if I =? J then dia A I a b else 0) * nth (J * ncoldim A + b) x 0); [ring|].
      f_equal. rewrite <- bigsum_mulr. apply bigsum_ext. intros. rewrite ifb_mulr. auto.
Qed.

Lemma scale_all_ok : forall n beta (y : list K), n = length y ->
  wp (scale_all K n beta y) (fun y' => length y' = length y /\ forall k, k < length y -> nth k y' 0 = beta * nth k y 0).
Proof.
  intros n beta y ->. unfold scale_all.
  apply (wp_forn _ (fun i y' => length y' = length y /\
     forall k, k < length y -> nth k y' 0 = if k <? i then beta * nth k y 0 else nth k y 0)); [lia| | |].
  - split; auto.
  - intros i y' Hi (L & E). apply (wp_vmod _ 0); [lia|]. lens. split; auto. intros k Hk.
    rewrite nth_upd by lia. destruct (Nat.eq_dec i k) as [->|].
    + rewrite E by auto. rewrite Nat.ltb_irrefl. destruct (Nat.ltb_spec k (S k)); [ring|lia].
    + rewrite E by auto. destruct (Nat.ltb_spec k i), (Nat.ltb_spec k (S i)); auto; lia.
  - intros y' (L & E). split; auto. intros k Hk. rewrite E by auto. destruct (Nat.ltb_spec k (length y)); auto; lia.
Qed.

(** From an accumulation list to the product. *)
Lemma mv_finish : forall (L : list (nat * K)) (y : list K) alpha x,
  length y = (nrowblk A * nrowdim A)%nat ->
  (forall p, In p L -> fst p < length y) ->
  (forall I a, I < nrowblk A -> a < nrowdim A -> at_ (I * nrowdim A + a) L = alpha * rowprod x I a) ->
  wp (accum L y) (fun y' => length y' = length y /\
    forall I a, I < nrowblk A -> a < nrowdim A ->
      nth (I * nrowdim A + a) y' 0 = alpha * Ax A x I a + nth (I * nrowdim A + a) y 0).
Proof.
  intros L y alpha x HL HI HA. eapply wp_mono; [apply accum_ok; auto|].
  intros y' (L' & E). split; auto. intros I a HI' Ha. rewrite E by (rewrite HL; apply idx_lt; auto).
  rewrite HA, rowprod_Ax by auto. ring.
Qed.
End P.
