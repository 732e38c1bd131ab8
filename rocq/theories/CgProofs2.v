From Coq Require Import List Arith Bool Lia Ring.
Import ListNotations.
From Verif Require Import Imp Alg SpModel SpSpec SpProofs1 SpProofs2 SpProofs3 SpProofs4 SpProofs5 SpProps MatnModel DtriProofs5 CgModel CgSpec CgProofs1.

Section Ops.
Variable F : pfield.
Notation K := (pr F).
Add Ring Kr : (rlaws K).
Local Open Scope K_scope.
Definition vf (x : list K) : nat -> K := fun k => nth k x 0.

Lemma Dot_eq : forall x y : list K, length x = length y -> Dot x y = Some (vdot K (length x) (vf x) (vf y)).
Proof.
  intros x y L. unfold Dot. rewrite L, Nat.eqb_refl. cbn [assertb bind].
  assert (W : wp (forn 0 (length y) (fun i d => a <- vget x i ;; b <- vget y i ;; Some (d + a * b)) 0)
    (fun d => d = vdot K (length y) (vf x) (vf y))).
  { apply (wp_forn _ (fun i d => d = sumn i (fun k => vf x k * vf y k))); [lia|reflexivity| |auto].
    intros i d Hi ->. rewrite !(vget_nth _ 0) by lia. cbn [bind]. apply wp_some. rewrite sumn_S. auto. }
  destruct (wp_ex _ _ _ W) as (d & E & ->). auto.
Qed.
Lemma copyv_eq : forall p r : list K, length p = length r -> copyv p r = Some r.
Proof.
  intros p r L. unfold copyv. rewrite L, Nat.eqb_refl. cbn [assertb bind].
  assert (W : wp (forn 0 (length r) (fun i p => a <- vget r i ;; vset p i a) p) (fun s => s = r)).
  { apply (wp_forn _ (fun i s => length s = length r /\ forall k, k < i -> nth k s 0 = nth k r 0)); [lia| | |].
    - split; auto. intros; lia.
    - intros i s Hi (Ls & Hs). rewrite (vget_nth _ 0) by lia. cbn [bind]. apply wp_vset; [lia|]. lens. split; [auto|].
      intros k Hk. rewrite nth_upd by lia. destruct (Nat.eq_dec i k); [congruence|apply Hs; lia].
    - intros s (Ls & Hs). apply (list_ext _ 0); [lia|]. intros; apply Hs; lia. }
  destruct (wp_ex _ _ _ W) as (s & E & ->). auto.
Qed.
Lemma setZerov_eq : forall p : list K, setZerov p = Some (repeat 0 (length p)).
Proof.
  intros p. unfold setZerov.
  assert (W : wp (forn 0 (length p) (fun i p => vset p i (0 : K)) p) (fun s => s = repeat 0 (length p))).
  { apply (wp_forn _ (fun i s => length s = length p /\ forall k, k < i -> nth k s 0 = 0)); [lia| | |].
    - split; auto. intros; lia.
    - intros i s Hi (Ls & Hs). apply wp_vset; [lia|]. lens. split; [auto|].
      intros k Hk. rewrite nth_upd by lia. destruct (Nat.eq_dec i k); [congruence|apply Hs; lia].
    - intros s (Ls & Hs). apply (list_ext _ 0); [lens; lia|]. intros k Hk. rewrite nth_repeat. apply Hs; lia. }
  destruct (wp_ex _ _ _ W) as (s & E & ->). auto.
Qed.
Lemma pointwise : forall (g : K -> K -> K) (x y : list K), length y = length x ->
  wp (forn 0 (length x) (fun i y => a <- vget x i ;; vmod y i (fun t => g t a)) y)
     (fun y' => length y' = length y /\ forall k, k < length y -> nth k y' 0 = g (nth k y 0) (nth k x 0)).
Proof.
  intros g x y L.
  apply (wp_forn _ (fun i s => length s = length y /\ forall k, k < length y -> nth k s 0 = if k <? i then g (nth k y 0) (nth k x 0) else nth k y 0)); [lia| | |].
  - split; auto.
  - intros i s Hi (Ls & Hs). rewrite (vget_nth _ 0) by lia. cbn [bind]. apply (wp_vmod _ 0); [lia|]. lens. split; [auto|].
    intros k Hk. rewrite nth_upd by lia. destruct (Nat.eq_dec i k) as [->|Hn].
    + rewrite Hs by auto. rewrite Nat.ltb_irrefl. destruct (Nat.ltb_spec k (S k)); [auto|lia].
    + rewrite Hs by auto. destruct (Nat.ltb_spec k i), (Nat.ltb_spec k (S i)); auto; lia.
  - intros s (Ls & Hs). split; auto. intros k Hk. rewrite Hs by auto. destruct (Nat.ltb_spec k (length x)); [auto|lia].
Qed.
Lemma AddScaledVec_ok : forall (y x : list K) alpha, length y = length x ->
  wp (AddScaledVec y alpha x) (fun y' => length y' = length y /\ forall k, k < length y -> vf y' k = vf y k + alpha * vf x k).
Proof.
  intros y x alpha L. unfold AddScaledVec. rewrite L, Nat.eqb_refl. cbn [assertb bind].
  rewrite <- L. rewrite L at 1. apply (pointwise (fun t a => t + alpha * a)). auto.
Qed.
Lemma ScaleAndAddVec_ok : forall (y x : list K) beta, length y = length x ->
  wp (ScaleAndAddVec y beta x) (fun y' => length y' = length y /\ forall k, k < length y -> vf y' k = beta * vf y k + vf x k).
Proof.
  intros y x alpha L. unfold ScaleAndAddVec. rewrite L, Nat.eqb_refl. cbn [assertb bind].
  rewrite <- L. rewrite L at 1. apply (pointwise (fun t a => alpha * t + a)). auto.
Qed.

Variable A : matsp K.
Hypothesis WF : wf A.
Hypothesis SQ : square A.
Notation N := (ndof A).
Notation d := (nrowdim A).
(** The matrix on flat indices. *)
Definition am (k l : nat) : K := dense A (k / d) (k mod d) (l / d) (l mod d).
Definition Amul (x : nat -> K) (k : nat) : K := sumn N (fun l => am k l * x l).

Lemma d_pos : forall k, k < N -> (d > 0)%nat.
Proof. intros k Hk. unfold ndof in Hk. destruct d; lia. Qed.
Lemma divmod_flat : forall I a, a < d -> ((I * d + a) / d = I)%nat /\ ((I * d + a) mod d = a)%nat.
Proof. intros I a Ha. split. - rewrite Nat.div_add_l, Nat.div_small by lia. lia. - rewrite Nat.add_comm, Nat.mod_add, Nat.mod_small by lia. auto. Qed.
Lemma flat_divmod : forall k, k < N -> (k = k / d * d + k mod d)%nat /\ k / d < nrowblk A /\ k mod d < d.
Proof.
  intros k Hk. pose proof (d_pos k Hk). split; [|split].
  - rewrite Nat.mul_comm. apply Nat.div_mod. lia.
  - apply Nat.div_lt_upper_bound; [lia|]. unfold ndof in Hk. lia.
  - apply Nat.mod_upper_bound. lia.
Qed.
Lemma Ax_flat : forall (x : list K) I a, a < d -> Ax A x I a = Amul (vf x) (I * d + a)%nat.
Proof.
  intros x I a Ha. unfold Ax, Amul, ndof. destruct SQ as (E1 & E2). rewrite <- E1, <- E2, sumn_flat.
  apply sumn_ext. intros J HJ. apply sumn_ext. intros b Hb. unfold am, vf.
  destruct (divmod_flat I a Ha) as (-> & ->). destruct (divmod_flat J b Hb) as (-> & ->). auto.
Qed.
Lemma AddMatVec_ok : forall (y x : list K), length y = N -> length x = N ->
  wp (AddMatVec y 0 1 A x) (fun y' => length y' = N /\ forall k, k < N -> vf y' k = Amul (vf x) k).
Proof.
  intros y x Ly Lx. unfold AddMatVec. rewrite Ly, Lx, Nat.eqb_refl. cbn [assertb bind].
  destruct SQ as (E1 & E2).
  destruct (C21_MatVec K A x y 1 0 WF) as (y' & E & L & H); [unfold ndof in *; rewrite <- E1, <- E2; auto|unfold ndof in *; lia|].
  rewrite E. cbn. split; [lia|]. intros k Hk. destruct (flat_divmod k Hk) as (Ek & Hk1 & Hk2).
  unfold vf at 1. rewrite Ek. rewrite H by auto. change (sumn (ncolblk A) _) with (Ax A x (k / d) (k mod d)).
  rewrite Ax_flat by auto. ring.
Qed.
Lemma Amul_ext : forall u v k, (forall j, j < N -> u j = v j) -> Amul u k = Amul v k.
Proof. intros. apply sumn_ext. intros. rewrite H; auto. Qed.
Lemma Amul_lin : forall u v b c k, Amul (fun j => b * u j + c * v j) k = b * Amul u k + c * Amul v k.
Proof. intros. unfold Amul. rewrite <- !sumn_mull, <- sumn_add. apply sumn_ext. intros. ring. Qed.
Lemma mul_sym : forall n (m : nat -> nat -> K), (forall k l, k < n -> l < n -> m k l = m l k) -> forall u v,
  vdot K n u (fun k => sumn n (fun l => m k l * v l)) = vdot K n (fun k => sumn n (fun l => m k l * u l)) v.
Proof.
  intros n m H u v. unfold vdot.
  transitivity (sumn n (fun k => sumn n (fun l => u k * m k l * v l))).
  - apply sumn_ext. intros. rewrite <- sumn_mull. apply sumn_ext. intros. ring.
  - rewrite sumn_swap. apply sumn_ext. intros k Hk. rewrite <- sumn_mulr. apply sumn_ext. intros l Hl. rewrite (H k l) by auto. ring.
Qed.
Lemma Amul_sym : symmetric A -> forall u v, vdot K N u (Amul v) = vdot K N (Amul u) v.
Proof.
  intros S u v. apply mul_sym. intros k l Hk Hl. unfold am.
  destruct (flat_divmod k Hk) as (_ & ? & ?). destruct (flat_divmod l Hl) as (_ & ? & ?). apply S; auto.
Qed.
Lemma residual_flat : forall b x r : list K, is_residual A b x r <-> (forall k, k < N -> vf r k = vf b k - Amul (vf x) k).
Proof.
  intros b x r. split.
  - intros H k Hk. destruct (flat_divmod k Hk) as (Ek & Hk1 & Hk2). unfold vf at 1 2. rewrite Ek. rewrite H by auto. rewrite Ax_flat by auto. auto.
  - intros H I a HI Ha. rewrite Ax_flat by auto. apply H. unfold ndof. apply (idx_lt d I (nrowblk A) a); auto.
Qed.
Lemma mulv_nth : forall (x : list K) k, k < N -> vf (mulv A x) k = Amul (vf x) k.
Proof.
  intros x k Hk. unfold vf at 1, mulv. rewrite nth_map_seq by auto. destruct (flat_divmod k Hk) as (Ek & Hk1 & Hk2).
  rewrite Ax_flat by auto. f_equal. auto.
Qed.
Lemma inner_flat : forall x y : list K, inner x y = vdot K (length x) (vf x) (vf y).
Proof. reflexivity. Qed.

(** One update keeps the residual. *)
Lemma res_step : forall (b u r Ap p u' r' : list K) alpha,
  (forall k, k < N -> vf r k = vf b k - Amul (vf u) k) ->
  (forall k, k < N -> vf Ap k = Amul (vf p) k) ->
  (forall k, k < N -> vf u' k = vf u k + alpha * vf p k) ->
  (forall k, k < N -> vf r' k = vf r k + (- alpha) * vf Ap k) ->
  forall k, k < N -> vf r' k = vf b k - Amul (vf u') k.
Proof.
  intros b u r Ap p u' r' alpha H1 H2 H3 H4 k Hk. rewrite H4, H1, H2 by auto.
  rewrite (Amul_ext (vf u') (fun j => 1 * vf u j + alpha * vf p j)). 2:{ intros. rewrite H3 by auto. ring. }
  rewrite Amul_lin. ring.
Qed.
End Ops.
