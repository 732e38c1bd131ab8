(** Proofs for Mat4Props.v: the elimination with exchange of rows. *)
From Coq Require Import List Arith Bool Lia ZArith Reals Lra.
Import ListNotations.
From Verif Require Import Imp PrModel MeasSpec MeasProofs2 GjkProofs1 PbdProofs1 Mat4Model Mat4Spec Mat4Proofs1 Mat4Proofs2.
Open Scope R_scope.

(** Outcomes of a program: a result with Q, or a failure with N. *)
Definition wq {A} (N : Prop) (e : option A) (Q : A -> Prop) : Prop := match e with Some x => Q x | None => N end.
Lemma wq_wp : forall A N e (Q : A -> Prop), wp e Q -> wq N e Q.
Proof. intros A N e Q. destruct e; cbn; auto. intros []. Qed.
Lemma wq_bind : forall A B N (e : option A) (f : A -> option B) (Q : B -> Prop), wq N e (fun x => wq N (f x) Q) -> wq N (bind e f) Q.
Proof. intros. destruct e; cbn in *; auto. Qed.
Lemma wq_mono : forall A N e (P Q : A -> Prop), wq N e P -> (forall x, P x -> Q x) -> wq N e Q.
Proof. intros A N e P Q H I. destruct e; cbn in *; auto. Qed.
Lemma wq_forb : forall S (I : nat -> S -> Prop) (P : S -> Prop) N lo hi (f : nat -> S -> option (S * bool)) s,
  (lo <= hi)%nat -> I lo s ->
  (forall i s', (lo <= i < hi)%nat -> I i s' -> wq N (f i s') (fun r : S * bool => if snd r then P (fst r) else I (Datatypes.S i) (fst r))) ->
  (forall s', I hi s' -> P s') ->
  wq N (forb lo hi f s) P.
Proof.
  intros S I P N lo hi f s Hle HI Hf HP. unfold forb. remember (hi - lo)%nat as k. revert lo s Hle HI Hf Heqk. induction k; intros lo s Hle HI Hf Hk; cbn [forb_].
  - cbn. apply HP. replace hi with lo by lia. auto.
  - apply wq_bind. eapply wq_mono; [apply Hf; auto; lia|]. intros (s' & stop) H. cbn [fst snd] in H. destruct stop; [exact H|]. apply IHk; auto; try lia. intros. apply Hf; auto. lia.
Qed.

(** The exchange of right-hand sides after the first j exchanges of rows. *)
Fixpoint sig (row : list nat) (j k : nat) : nat := match j with O => k | S j' => sig row j' (tau j' (nth j' row 0%nat) k) end.
Lemma sig_ext : forall row row' j k, (forall i, (i < j)%nat -> nth i row 0%nat = nth i row' 0%nat) -> sig row j k = sig row' j k.
Proof. induction j; intros k H; cbn [sig]; auto. rewrite <- (H j) by lia. apply IHj. intros. apply H. lia. Qed.
Lemma nth_upd_n : forall (v : list nat) i j x, (i < length v)%nat -> nth j (upd v i x) 0%nat = if (j =? i)%nat then x else nth j v 0%nat.
Proof. induction v; intros i j x H; cbn [length] in H; [lia|]. destruct i, j; cbn [upd nth Nat.eqb]; auto. apply IHv. lia. Qed.

Definition acts (n : nat) (a : nat -> nat -> R) (x y : nat -> R) : Prop := forall r, (r < n)%nat -> sum n (fun k => a r k * x k) = y r.
Lemma sys_0 : forall n a x y, sys n 0 a x y <-> acts n a x y.
Proof.
  intros. unfold sys, acts, ww. assert (E : forall r, sum n (fun k => a r k * zz 0 x y k) = sum n (fun k => a r k * x k)) by (intros; apply sum_ext; auto).
  split; intros H r Hr; specialize (H r Hr); rewrite E in *; auto.
Qed.
Lemma sys_n : forall n a x y, sys n n a x y <-> acts n a y x.
Proof.
  intros. unfold sys, acts, ww.
  assert (E : forall r, sum n (fun k => a r k * zz n x y k) = - sum n (fun k => a r k * y k)).
  { intros. transitivity (-1 * sum n (fun k => a r k * y k)); [|ring]. rewrite <- sum_mull. apply sum_ext. intros k Hk. unfold zz. destruct (Nat.ltb_spec k n); [ring|lia]. }
  split; intros H r Hr; specialize (H r Hr); rewrite E in *; (destruct (Nat.ltb_spec r n); [|lia]); lra.
Qed.
Lemma acts_inverse : forall n A B, length B = (n * n)%nat -> (forall x y, acts n (cell B n) y x <-> acts n (cell A n) x y) -> inverse_of n A B.
Proof.
  intros n A B L H. split; [auto|].
  assert (G : forall C D, (forall x y, acts n (cell D n) y x -> acts n (cell C n) x y) -> times_id n C D).
  { intros C D HCD i j Hi Hj. refine (eq_trans _ (HCD (fun r => cell D n r j) (fun k => if (k =? j)%nat then 1 else 0) _ i Hi)).
    - reflexivity.
    - intros r Hr. rewrite <- (sum_pick n j (fun k => cell D n r k) Hj). apply sum_ext. intros k Hk. destruct (k =? j)%nat; ring. }
  split; apply G; intros; apply H; auto.
Qed.
Lemma inverse_kernel : forall n A B x i, inverse_of n A B -> (i < n)%nat -> acts n (cell A n) x (fun _ => 0) -> x i = 0.
Proof.
  intros n A B x i (L & _ & HBA) Hi H.
  transitivity (sum n (fun k => cell B n i k * sum n (fun j => cell A n k j * x j))).
  - transitivity (sum n (fun k => sum n (fun j => cell B n i k * (cell A n k j * x j)))).
    + rewrite sum_swap. rewrite <- (sum_pick n i x Hi). apply sum_ext. intros j Hj.
      transitivity (x j * (if (i =? j)%nat then 1 else 0)). { rewrite Nat.eqb_sym. destruct (j =? i)%nat eqn:E; rewrite Nat.eqb_sym, E; ring. }
      rewrite <- (HBA i j Hi Hj). rewrite <- sum_mull. apply sum_ext. intros k Hk. unfold ent, cell. ring.
    + apply sum_ext. intros k Hk. apply sum_mull.
  - apply sum_zero. intros k Hk. rewrite H by auto. ring.
Qed.

(** The main loop, in the case that a pivot is found and in the case that the column is empty. *)
Lemma CalcInvMatPivot_ok : forall a n tmp, length a = (n * n)%nat -> length tmp = n ->
  wq (exists x i, (i < n)%nat /\ x i = 1 /\ acts n (cell a n) x (fun _ => 0)) (CalcInvMatPivot a n tmp)
     (fun '(b, row, ok) => ok = true /\ inverse_of n a b).
Proof.
  intros a n tmp L Lt. unfold CalcInvMatPivot. apply wq_bind.
  apply (wq_forb _ (fun i '(a', row, ok) => ok = true /\ length a' = (n * n)%nat /\ length row = n /\ (forall j, (j < i)%nat -> (j <= nth j row 0%nat < n)%nat) /\
     forall x y, sys n i (cell a' n) x (fun k => y (sig row i k)) <-> sys n 0 (cell a n) x y)); [lia| | |].
  - repeat split; auto; try lia.
  - intros i ((a1 & row) & ok) Hi (_ & La & Lr & Hrow & H). apply wq_bind. destruct (wp_ex _ _ _ (find_pivot_ok a1 n i La (proj2 Hi))) as ((big & pr) & -> & q & -> & Hq & Hmax). cbn [wq].
    rewrite vset_upd by lia. cbn [bind]. apply wq_bind. apply wq_wp. eapply wp_mono; [apply swap_rows_ok; auto; lia|]. intros a2 (L2 & H2).
    pose proof (cbd n i i (proj2 Hi) (proj2 Hi)). rewrite (vget_nth _ 0) by lia. cbn [bind]. fold (cell a2 n i i). set (p := cell a2 n i i).
    pose proof (eqRs p 0) as Ep. destruct (eqR p 0).
    + cbn [assertb negb bind wq]. assert (Hp : cell a1 n q i = 0). { rewrite <- Ep. unfold p. rewrite H2 by lia. f_equal. unfold tau. rewrite Nat.eqb_refl. auto. }
      destruct (kernel n i (cell a1 n) (proj2 Hi)) as (x & Hx1 & Hx).
      { intros r Hr. specialize (Hmax r Hr). rewrite Hp, Rabs_R0 in Hmax. pose proof (Rabs_pos (cell a1 n r i)). destruct (Req_dec (cell a1 n r i) 0) as [|C]; auto. apply Rabs_pos_lt in C. lra. }
      exists x, i. split; [lia|]. split; [auto|]. apply sys_0. apply (H x (fun _ => 0)). apply Hx. auto.
    + cbn [assertb negb bind]. destruct (wp_ex _ _ _ (step a2 n i p L2 (proj2 Hi) eq_refl Ep)) as (a4 & E & L4 & H4).
      destruct (vset a2 (i * n + i) 1) as [a2'|] eqn:E2; cbn [bind] in *; [|discriminate]. destruct (forn 0 n (fun k a0 => vmod a0 (i * n + k) (fun x : R => x * (1 / p))) a2') as [a3|] eqn:E3; cbn [bind] in *; [|discriminate].
      rewrite E. cbn [bind wq fst snd]. split; [auto|]. split; [auto|]. split; [rewrite upd_length; auto|].
      split. { intros j Hj. rewrite nth_upd_n by lia. destruct (Nat.eqb_spec j i) as [->|]; [lia|]. apply Hrow. lia. }
      intros x y. rewrite H4. rewrite <- H. cbn [sig]. rewrite nth_upd_n by lia. rewrite Nat.eqb_refl.
      assert (Es : forall k, sig (upd row i q) i k = sig row i k). { intros k. apply sig_ext. intros j Hj. rewrite nth_upd_n by lia. rewrite (proj2 (Nat.eqb_neq j i)) by lia. auto. }
      rewrite <- (swap_iff n i q (cell a1 n) (cell a2 n) x (fun k => y (sig row i k)) ltac:(lia) H2).
      unfold sys. assert (Ez : forall k, zz i x (fun k => y (sig (upd row i q) i (tau i q k))) k = zz i x (fun k => y (sig row i (tau i q k))) k) by (intros; unfold zz; rewrite Es; auto).
      assert (Ew : forall k, ww i x (fun k => y (sig (upd row i q) i (tau i q k))) k = ww i x (fun k => y (sig row i (tau i q k))) k) by (intros; unfold ww; rewrite Es; auto).
      split; intros G r Hr; specialize (G r Hr); [rewrite <- Ew, <- G|rewrite Ew, <- G]; apply sum_ext; intros; rewrite Ez; auto.
  - intros ((a1 & row) & ok) (-> & La & Lr & Hrow & H). apply wq_wp. apply wp_bind.
    apply (wp_ford _ (fun j b => length b = (n * n)%nat /\ forall x y, acts n (cell b n) (fun k => y (sig row j k)) x <-> acts n (cell a n) x y)); [lia| | |].
    + split; [auto|]. intros x y. rewrite <- sys_n, <- sys_0. apply H.
    + intros j1 b Hj (Lb & Hb). destruct j1 as [|j]; [lia|]. replace (S j - 1)%nat with j by lia. cbv zeta. rewrite (vget_nth _ 0%nat) by lia. cbn [bind].
      assert (Hr : (j <= nth j row 0 < n)%nat) by (apply Hrow; lia). eapply wp_mono; [apply swap_cols_ok; auto; lia|]. intros b' (Lb' & Hb'). split; [auto|]. intros x y. rewrite <- Hb. cbn [sig].
      assert (E : forall r, (r < n)%nat -> sum n (fun k => cell b' n r k * y (sig row j k)) = sum n (fun k => cell b n r k * y (sig row j (tau j (nth j row 0%nat) k)))).
      { intros r Hr'. rewrite <- (sum_tau n j (nth j row 0%nat) (fun k => cell b n r k * y (sig row j (tau j (nth j row 0%nat) k)))) by lia. apply sum_ext. intros k Hk. rewrite Hb' by auto. rewrite tau_tau. auto. }
      split; intros G r Hr'; specialize (G r Hr'); rewrite E in * by auto; auto.
    + intros b (Lb & Hb). cbn. split; [auto|]. apply acts_inverse; auto.
Qed.
Lemma singular : forall n a x i, (i < n)%nat -> x i = 1 -> acts n (cell a n) x (fun _ => 0) -> ~ invertible n a.
Proof. intros n a x i Hi Hx H (B & HB). pose proof (inverse_kernel n a B x i HB Hi H). lra. Qed.
