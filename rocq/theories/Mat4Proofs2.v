(** Proofs for Mat4Props.v: the loops of the elimination on the array. *)
From Coq Require Import List Arith Bool Lia ZArith Reals Lra.
Import ListNotations.
From Verif Require Import Imp PrModel MeasSpec MeasProofs2 GjkProofs1 PbdProofs1 Mat4Model Mat4Proofs1.
Open Scope R_scope.

Definition cell (a : list R) (n r k : nat) : R := nth (r * n + k) a 0.
Lemma cbd : forall n r k, (r < n)%nat -> (k < n)%nat -> (r * n + k < n * n)%nat.
Proof. intros. nia. Qed.
Lemma cinj : forall n r k r' k', (k < n)%nat -> (k' < n)%nat -> (r * n + k = r' * n + k')%nat -> r = r' /\ k = k'.
Proof. intros n r k r' k' H H' E. assert (r = r') by nia. subst. lia. Qed.
Lemma nth_upd_R : forall (v : list R) i j x, (i < length v)%nat -> nth j (upd v i x) 0 = if (j =? i)%nat then x else nth j v 0.
Proof. induction v; intros i j x H; cbn [length] in H; [lia|]. destruct i, j; cbn [upd nth Nat.eqb]; auto. apply IHv. lia. Qed.
Lemma cell_upd : forall a n r k r' k' x, length a = (n * n)%nat -> (r < n)%nat -> (k < n)%nat -> (r' < n)%nat -> (k' < n)%nat ->
  cell (upd a (r * n + k) x) n r' k' = if ((r' =? r) && (k' =? k))%nat then x else cell a n r' k'.
Proof.
  intros a n r k r' k' x L Hr Hk Hr' Hk'. unfold cell. pose proof (cbd n r k Hr Hk). rewrite nth_upd_R by lia.
  destruct (Nat.eqb_spec (r' * n + k') (r * n + k)) as [E|E].
  - apply cinj in E; auto. destruct E as (-> & ->). rewrite !Nat.eqb_refl. auto.
  - destruct (Nat.eqb_spec r' r), (Nat.eqb_spec k' k); cbn [andb]; auto. subst. lia.
Qed.

Lemma scale_row : forall a n i t, length a = (n * n)%nat -> (i < n)%nat ->
  wp (forn 0 n (fun k a => vmod a (i * n + k) (fun x => x * t)) a)
  (fun a' => length a' = (n * n)%nat /\ forall r k, (r < n)%nat -> (k < n)%nat -> cell a' n r k = if (r =? i)%nat then cell a n r k * t else cell a n r k).
Proof.
  intros a n i t L Hi.
  apply (wp_forn _ (fun m a' => length a' = (n * n)%nat /\ forall r k, (r < n)%nat -> (k < n)%nat -> cell a' n r k = if ((r =? i) && (k <? m))%nat then cell a n r k * t else cell a n r k)); [lia| | |].
  - split; [auto|]. intros. rewrite (proj2 (Nat.ltb_ge k 0)) by lia. rewrite andb_false_r. auto.
  - intros m a' Hm (La & H). pose proof (cbd n i m Hi (proj2 Hm)).
    apply (wp_vmod _ 0); [lia|]. split; [rewrite upd_length; auto|]. intros r k Hr Hk. rewrite cell_upd by (auto; lia). fold (cell a' n i m). rewrite !H by (auto; lia).
    destruct (Nat.eqb_spec r i) as [->|]; cbn [andb]; auto. try rewrite Nat.eqb_refl. cbn [andb]. destruct (Nat.eqb_spec k m) as [->|].
    + destruct (Nat.ltb_spec m m), (Nat.ltb_spec m (S m)); auto; lia.
    + destruct (Nat.ltb_spec k m), (Nat.ltb_spec k (S m)); auto; lia.
  - intros a' (La & H). split; [auto|]. intros r k Hr Hk. rewrite H by auto. rewrite (proj2 (Nat.ltb_lt k n)) by lia. rewrite andb_true_r. auto.
Qed.
Lemma elim_row : forall a n i j, length a = (n * n)%nat -> (i < n)%nat -> (j < n)%nat -> j <> i ->
  wp (tmp1 <- vget a (j * n + i) ;; a <- vset a (j * n + i) 0 ;;
      forn 0 n (fun k a => x <- vget a (i * n + k) ;; vmod a (j * n + k) (fun y => y - tmp1 * x)) a)
  (fun a' => length a' = (n * n)%nat /\ forall r k, (r < n)%nat -> (k < n)%nat -> cell a' n r k =
     if (r =? j)%nat then (if (k =? i)%nat then 0 else cell a n j k) - cell a n j i * cell a n i k else cell a n r k).
Proof.
  intros a n i j L Hi Hj Hn. pose proof (cbd n j i Hj Hi). rewrite (vget_nth _ 0) by lia. cbn [bind]. rewrite vset_upd by lia. cbn [bind].
  fold (cell a n j i). set (tmp1 := cell a n j i). set (a1 := upd a (j * n + i) 0).
  assert (L1 : length a1 = (n * n)%nat) by (unfold a1; rewrite upd_length; auto).
  assert (H1 : forall r k, (r < n)%nat -> (k < n)%nat -> cell a1 n r k = if ((r =? j) && (k =? i))%nat then 0 else cell a n r k) by (intros; unfold a1; apply cell_upd; auto).
  apply (wp_forn _ (fun m a' => length a' = (n * n)%nat /\ forall r k, (r < n)%nat -> (k < n)%nat -> cell a' n r k =
     if ((r =? j) && (k <? m))%nat then (if (k =? i)%nat then 0 else cell a n j k) - tmp1 * cell a n i k else cell a1 n r k)); [lia| | |].
  - split; [auto|]. intros. rewrite (proj2 (Nat.ltb_ge k 0)) by lia. rewrite andb_false_r. auto.
  - intros m a' Hm (La & H2). pose proof (cbd n i m Hi (proj2 Hm)). pose proof (cbd n j m Hj (proj2 Hm)).
    rewrite (vget_nth _ 0) by lia. cbn [bind]. fold (cell a' n i m). apply (wp_vmod _ 0); [lia|]. fold (cell a' n j m).
    split; [rewrite upd_length; auto|]. intros r k Hr Hk. rewrite cell_upd by (auto; lia). rewrite !H2 by (auto; lia).
    rewrite (proj2 (Nat.eqb_neq i j)) by lia. cbn [andb]. rewrite (H1 i m) by (auto; lia). rewrite (proj2 (Nat.eqb_neq i j)) by lia. cbn [andb].
    destruct (Nat.eqb_spec r j) as [->|]; cbn [andb]; auto. try rewrite Nat.eqb_refl. cbn [andb]. destruct (Nat.eqb_spec k m) as [->|].
    + destruct (Nat.ltb_spec m m), (Nat.ltb_spec m (S m)); try lia. rewrite H1 by (auto; lia). rewrite Nat.eqb_refl. cbn [andb]. auto.
    + destruct (Nat.ltb_spec k m), (Nat.ltb_spec k (S m)); auto; lia.
  - intros a' (La & H2). split; [auto|]. intros r k Hr Hk. rewrite H2 by auto. rewrite (proj2 (Nat.ltb_lt k n)) by lia. rewrite andb_true_r.
    destruct (Nat.eqb_spec r j); auto. rewrite H1 by auto. rewrite (proj2 (Nat.eqb_neq r j)) by lia. auto.
Qed.
Lemma elim_all : forall a n i, length a = (n * n)%nat -> (i < n)%nat ->
  wp (elim_others a n i)
  (fun a' => length a' = (n * n)%nat /\ forall r k, (r < n)%nat -> (k < n)%nat -> cell a' n r k =
     if (r =? i)%nat then cell a n i k else (if (k =? i)%nat then 0 else cell a n r k) - cell a n r i * cell a n i k).
Proof.
  intros a n i L Hi. unfold elim_others.
  apply (wp_forn _ (fun m a' => length a' = (n * n)%nat /\ forall r k, (r < n)%nat -> (k < n)%nat -> cell a' n r k =
     if ((r =? i) || (m <=? r))%nat then cell a n r k else (if (k =? i)%nat then 0 else cell a n r k) - cell a n r i * cell a n i k)); [lia| | |].
  - split; [auto|]. intros. rewrite orb_true_r. auto.
  - intros m a' Hm (La & H). destruct (Nat.eqb_spec m i) as [->|Hn].
    + apply wp_some. split; [auto|]. intros r k Hr Hk. rewrite H by auto. destruct (Nat.eqb_spec r i); cbn [orb]; auto. destruct (Nat.leb_spec i r), (Nat.leb_spec (S i) r); auto; lia.
    + eapply wp_mono; [apply elim_row; auto; lia|]. intros a2 (La2 & H2). split; [auto|].
      intros r k Hr Hk. rewrite H2 by auto. destruct (Nat.eqb_spec r m) as [->|Hr'].
      * rewrite !H by lia. rewrite (proj2 (Nat.eqb_neq m i)) by auto. cbn [orb]. rewrite Nat.eqb_refl. cbn [orb]. rewrite (proj2 (Nat.leb_le m m)) by lia. rewrite (proj2 (Nat.leb_gt (S m) m)) by lia. auto.
      * rewrite H by auto. destruct (Nat.eqb_spec r i); cbn [orb]; auto. destruct (Nat.leb_spec m r), (Nat.leb_spec (S m) r); auto; lia.
  - intros a' (La & H). split; [auto|]. intros r k Hr Hk. rewrite H by auto. rewrite (proj2 (Nat.leb_gt n r)) by lia. rewrite orb_false_r. destruct (Nat.eqb_spec r i); subst; auto.
Qed.
(** The step of both eliminations at a pivot p that is not zero. *)
Lemma step : forall a n i p, length a = (n * n)%nat -> (i < n)%nat -> cell a n i i = p -> p <> 0 ->
  wp (a <- vset a (i * n + i) 1 ;; a <- forn 0 n (fun k a => vmod a (i * n + k) (fun x => x * (1 / p))) a ;; elim_others a n i)
  (fun a' => length a' = (n * n)%nat /\ forall x y, sys n (S i) (cell a' n) x y <-> sys n i (cell a n) x y).
Proof.
  intros a n i p L Hi Hp Hp0. pose proof (cbd n i i Hi Hi). rewrite vset_upd by lia. cbn [bind]. apply wp_bind.
  set (a2 := upd a (i * n + i) 1). assert (L2 : length a2 = (n * n)%nat) by (unfold a2; rewrite upd_length; auto).
  assert (H2 : forall r k, (r < n)%nat -> (k < n)%nat -> cell a2 n r k = if ((r =? i) && (k =? i))%nat then 1 else cell a n r k) by (intros; unfold a2; apply cell_upd; auto).
  eapply wp_mono; [apply scale_row; auto|]. intros a3 (L3 & H3). eapply wp_mono; [apply elim_all; auto|]. intros a4 (L4 & H4). split; [auto|].
  intros x y. apply (gj_iff n i (1 / p) p (cell a n) (cell a4 n) x y Hi); [field; auto|auto|]. split.
  - intros k Hk. rewrite H4 by auto. rewrite Nat.eqb_refl. rewrite H3 by auto. rewrite Nat.eqb_refl, H2 by auto. rewrite Nat.eqb_refl. cbn [andb]. destruct (k =? i)%nat; auto.
  - intros r k Hr Hk Hn. rewrite !H4 by auto. rewrite (proj2 (Nat.eqb_neq r i) Hn), Nat.eqb_refl. rewrite (H3 r k), (H3 r i) by auto. rewrite (proj2 (Nat.eqb_neq r i) Hn). rewrite (H2 r k), (H2 r i) by auto.
    rewrite (proj2 (Nat.eqb_neq r i) Hn). cbn [andb]. auto.
Qed.

Lemma CalcInvMat_ok : forall a n, length a = (n * n)%nat ->
  wp (CalcInvMat a n) (fun '(a', info) => length a' = (n * n)%nat /\ (info <> 1%Z -> forall x y, sys n n (cell a' n) x y <-> sys n 0 (cell a n) x y)).
Proof.
  intros a n L. unfold CalcInvMat.
  apply (wp_forb _ (fun i '(a', info) => length a' = (n * n)%nat /\ (info <= 0)%Z /\ forall x y, sys n i (cell a' n) x y <-> sys n 0 (cell a n) x y)); [lia| | |].
  - split; [auto|]. split; [lia|tauto].
  - intros i (a1 & info) Hi (La & Hinfo & H). pose proof (cbd n i i (proj2 Hi) (proj2 Hi)).
    rewrite (vget_nth _ 0) by lia. cbn [bind]. fold (cell a1 n i i). set (p := cell a1 n i i).
    pose proof (ltRs (Rabs p) (/ 10 ^ 30)) as Es. destruct (ltR (Rabs p) (/ 10 ^ 30)).
    + apply wp_some. cbn [fst snd]. split; [auto|]. intros C. exfalso. apply C. auto.
    + assert (Hp : p <> 0). { intros C. rewrite C, Rabs_R0 in Es. assert (0 < / 10 ^ 30) by (apply Rinv_0_lt_compat; apply pow_lt; lra). lra. }
      pose proof (step a1 n i p La (proj2 Hi) eq_refl Hp) as S. destruct (wp_ex _ _ _ S) as (a4 & E & L4 & H4).
      destruct (vset a1 (i * n + i) 1) as [a2|] eqn:E2; cbn [bind] in *; [|discriminate]. destruct (forn 0 n (fun k a0 => vmod a0 (i * n + k) (fun x : R => x * (1 / p))) a2) as [a3|] eqn:E3; cbn [bind] in *; [|discriminate].
      rewrite E. cbn [bind]. apply wp_some. cbn [fst snd]. split; [auto|]. split; [destruct (ltR p 0); lia|]. intros x y. rewrite H4. apply H.
  - intros (a1 & info) (La & Hinfo & H). split; auto.
Qed.

(** Exchange of rows and of columns. *)
Lemma swap_rows_ok : forall a n p q, length a = (n * n)%nat -> (p < n)%nat -> (q < n)%nat ->
  wp (swap_rows a n p q) (fun a' => length a' = (n * n)%nat /\ forall r k, (r < n)%nat -> (k < n)%nat -> cell a' n r k = cell a n (tau p q r) k).
Proof.
  intros a n p q L Hp Hq. unfold swap_rows. destruct (Nat.eqb_spec p q) as [->|Hn].
  - apply wp_some. split; [auto|]. intros r k Hr Hk. f_equal. unfold tau. destruct (Nat.eqb_spec r q); auto.
  - apply (wp_forn _ (fun m a' => length a' = (n * n)%nat /\ forall r k, (r < n)%nat -> (k < n)%nat -> cell a' n r k = if (k <? m)%nat then cell a n (tau p q r) k else cell a n r k)); [lia| | |].
    + split; auto. 
    + intros m a' Hm (La & H). pose proof (cbd n p m Hp (proj2 Hm)). pose proof (cbd n q m Hq (proj2 Hm)).
      rewrite (vget_nth _ 0) by lia. cbn [bind]. rewrite (vget_nth _ 0) by lia. cbn [bind]. fold (cell a' n p m) (cell a' n q m). rewrite vset_upd by lia. cbn [bind].
      apply wp_vset; [rewrite upd_length; lia|]. split; [rewrite !upd_length; auto|]. intros r k Hr Hk.
      rewrite cell_upd by (rewrite ?upd_length; auto; lia). rewrite cell_upd by (auto; lia). rewrite !H by (auto; lia).
      destruct (Nat.ltb_spec m m); [lia|].
      destruct (Nat.eqb_spec k m) as [->|Hk'].
      * rewrite !andb_true_r. destruct (Nat.ltb_spec m m); [lia|]. destruct (Nat.ltb_spec m (S m)); [|lia]. unfold tau. destruct (Nat.eqb_spec r q) as [->|]; [rewrite (proj2 (Nat.eqb_neq q p)) by auto; auto|]. destruct (Nat.eqb_spec r p); auto.
      * rewrite !andb_false_r. destruct (Nat.ltb_spec k m), (Nat.ltb_spec k (S m)); auto; lia.
    + intros a' (La & H). split; [auto|]. intros r k Hr Hk. rewrite H by auto. destruct (Nat.ltb_spec k n); [auto|lia].
Qed.
Lemma swap_cols_ok : forall a n p q, length a = (n * n)%nat -> (p < n)%nat -> (q < n)%nat ->
  wp (swap_cols a n p q) (fun a' => length a' = (n * n)%nat /\ forall r k, (r < n)%nat -> (k < n)%nat -> cell a' n r k = cell a n r (tau p q k)).
Proof.
  intros a n p q L Hp Hq. unfold swap_cols. destruct (Nat.eqb_spec p q) as [->|Hn].
  - apply wp_some. split; [auto|]. intros r k Hr Hk. f_equal. unfold tau. destruct (Nat.eqb_spec k q); auto.
  - apply (wp_forn _ (fun m a' => length a' = (n * n)%nat /\ forall r k, (r < n)%nat -> (k < n)%nat -> cell a' n r k = if (r <? m)%nat then cell a n r (tau p q k) else cell a n r k)); [lia| | |].
    + split; auto.
    + intros m a' Hm (La & H). pose proof (cbd n m p (proj2 Hm) Hp). pose proof (cbd n m q (proj2 Hm) Hq).
      rewrite (vget_nth _ 0) by lia. cbn [bind]. rewrite (vget_nth _ 0) by lia. cbn [bind]. fold (cell a' n m p) (cell a' n m q). rewrite vset_upd by lia. cbn [bind].
      apply wp_vset; [rewrite upd_length; lia|]. split; [rewrite !upd_length; auto|]. intros r k Hr Hk.
      rewrite cell_upd by (rewrite ?upd_length; auto; lia). rewrite cell_upd by (auto; lia). rewrite !H by (auto; lia).
      destruct (Nat.ltb_spec m m); [lia|].
      destruct (Nat.eqb_spec r m) as [->|Hk'].
      * cbn [andb]. destruct (Nat.ltb_spec m m); [lia|]. destruct (Nat.ltb_spec m (S m)); [|lia]. unfold tau. destruct (Nat.eqb_spec k q) as [->|]; [rewrite (proj2 (Nat.eqb_neq q p)) by auto; auto|]. destruct (Nat.eqb_spec k p); auto.
      * cbn [andb]. destruct (Nat.ltb_spec r m), (Nat.ltb_spec r (S m)); auto; lia.
    + intros a' (La & H). split; [auto|]. intros r k Hr Hk. rewrite H by auto. destruct (Nat.ltb_spec r n); [auto|lia].
Qed.
(** The pivot is the largest entry of its column at or below the diagonal. *)
Lemma find_pivot_ok : forall a n i, length a = (n * n)%nat -> (i < n)%nat ->
  wp (find_pivot a n i) (fun '(_, pr) => exists q, pr = Some q /\ (i <= q < n)%nat /\ forall r, (i <= r < n)%nat -> Rabs (cell a n r i) <= Rabs (cell a n q i)).
Proof.
  intros a n i L Hi. unfold find_pivot.
  apply (wp_forn _ (fun m '(big, pr) => (m = i /\ big = 0 /\ pr = None) \/ exists q, pr = Some q /\ (i <= q < m)%nat /\ big = Rabs (cell a n q i) /\ forall r, (i <= r < m)%nat -> Rabs (cell a n r i) <= big)); [lia| | |].
  - left. auto.
  - intros m (big & pr) Hm H. pose proof (cbd n m i (proj2 Hm) Hi). rewrite (vget_nth _ 0) by lia. cbn [bind]. fold (cell a n m i). pose proof (ltRs (Rabs (cell a n m i)) big) as Hb. destruct (ltR (Rabs (cell a n m i)) big); apply wp_some; right.
    + destruct H as [(-> & -> & ->)|(q & -> & Hq & Eb & Hr)]; [pose proof (Rabs_pos (cell a n i i)); lra|]. exists q. repeat split; auto; [lia|lia|]. intros r Hrm. destruct (Nat.eq_dec r m) as [->|]; [lra|apply Hr; lia].
    + exists m. repeat split; auto; [lia|]. intros r Hrm. destruct (Nat.eq_dec r m) as [->|]; [lra|]. destruct H as [(-> & -> & ->)|(q & -> & Hq & Eb & Hr)]; [lia|]. specialize (Hr r ltac:(lia)). lra.
  - intros (big & pr) [(E & _)|(q & -> & Hq & Eb & Hr)]; [lia|]. exists q. repeat split; auto; [lia|lia|]. intros r Hrm. rewrite <- Eb. auto.
Qed.
