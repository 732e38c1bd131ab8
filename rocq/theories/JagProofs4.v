From Coq Require Import List Arith Lia Permutation Sorted Bool.
Import ListNotations.
From Verif Require Import Imp JagModel JagSpec JagProofs JagProofs2.

Lemma upd_split : forall A (v : list A) i x, i < length v -> upd v i x = firstn i v ++ x :: skipn (S i) v.
Proof. induction v; simpl; intros; [lia|]. destruct i; simpl; auto. rewrite IHv by lia. auto. Qed.

Lemma split_nth : forall A (d : A) v i, i < length v -> v = firstn i v ++ nth i v d :: skipn (S i) v.
Proof. induction v; simpl; intros; [lia|]. destruct i; simpl; auto. f_equal. apply IHv. lia. Qed.

Lemma swap_perm : forall (v : list nat) j, 0 < j -> j < length v ->
  Permutation v (upd (upd v j (nth (j - 1) v 0)) (j - 1) (nth j v 0)).
Proof.
  induction v as [|h t IH]; intros j H0 Hj; simpl in Hj; [lia|].
  destruct j as [|[|j]]; [lia| |].
  - destruct t as [|b t]; simpl in *; [lia|]. apply perm_swap.
  - simpl. constructor. specialize (IH (S j)). simpl in IH. rewrite Nat.sub_0_r in IH. apply IH; lia.
Qed.

Definition outside (lo hi : nat) (a b : list nat) := forall k, k < lo \/ hi <= k -> nth k a 0 = nth k b 0.

Lemma bubble_pass : forall is_ i ie a,
  is_ <= i -> i < ie -> ie <= length a ->
  (forall k l, is_ <= k < i -> k <= l < ie -> nth k a 0 <= nth l a 0) ->
  wp (ford (ie - 1) i (fun j array => cmpswap j array) a)
    (fun a' => Permutation a a' /\ outside i ie a' a /\
       (forall k l, is_ <= k < S i -> k <= l < ie -> nth k a' 0 <= nth l a' 0)).
Proof.
  intros is_ i ie a H1 H2 H3 Hs.
  apply (wp_ford _ (fun j a' => Permutation a a' /\ outside i ie a' a /\
     (forall k l, is_ <= k < i -> k <= l < ie -> nth k a' 0 <= nth l a' 0) /\
     (forall l, j <= l < ie -> nth j a' 0 <= nth l a' 0))); [lia| | |].
  - split; auto. split. intros k _; auto. split; auto. intros. replace l with (ie - 1) by lia. auto.
  - intros j a' Hj (HP & HO & HA & HB).
    assert (HL : length a' = length a) by (symmetry; apply Permutation_length; auto).
    unfold cmpswap. apply wp_bind. apply (wp_vget _ 0); [lia|]. apply wp_bind. apply (wp_vget _ 0); [lia|].
    destruct (Nat.ltb_spec (nth j a' 0) (nth (j - 1) a' 0)) as [Hlt|Hge].
    + apply wp_bind. apply wp_vset; [lia|]. apply wp_vset; [lens; lia|].
      set (a2 := upd (upd a' j (nth (j - 1) a' 0)) (j - 1) (nth j a' 0)).
      assert (Hn : forall k, nth k a2 0 = if Nat.eq_dec k (j-1) then nth j a' 0 else if Nat.eq_dec k j then nth (j-1) a' 0 else nth k a' 0).
      { intros. unfold a2. rewrite nth_upd by (lens; lia). rewrite nth_upd by lia.
        destruct (Nat.eq_dec (j - 1) k), (Nat.eq_dec k (j-1)), (Nat.eq_dec j k), (Nat.eq_dec k j); auto; lia. }
      split. { eapply Permutation_trans; [apply HP|]. apply swap_perm; lia. }
      split. { intros k Hk. rewrite Hn. destruct (Nat.eq_dec k (j-1)); [lia|]. destruct (Nat.eq_dec k j); [lia|]. apply HO; auto. }
      split.
      * intros k l Hk Hl. rewrite !Hn.
        destruct (Nat.eq_dec k (j-1)); [lia|]. destruct (Nat.eq_dec k j); [lia|].
        destruct (Nat.eq_dec l (j-1)). apply HA; lia. destruct (Nat.eq_dec l j); apply HA; lia.
      * intros l Hl. rewrite !Hn. destruct (Nat.eq_dec (j-1) (j-1)); [|lia].
        destruct (Nat.eq_dec l (j-1)); auto. destruct (Nat.eq_dec l j); [lia|]. apply HB. lia.
    + simpl. split; auto. split; auto. split; auto.
      intros l Hl. destruct (Nat.eq_dec l (j-1)). subst; auto. specialize (HB l). lia.
  - intros a' (HP & HO & HA & HB). split; auto. split; auto.
    intros k l Hk Hl. destruct (Nat.eq_dec k i). subst. apply HB; lia. apply HA; lia.
Qed.

Lemma sort_row_ok : forall is_ ie a, is_ < ie -> ie <= length a ->
  wp (forn is_ (ie - 1) (fun i array => ford (ie - 1) i (fun j array => cmpswap j array) array) a)
    (fun a' => Permutation a a' /\ outside is_ ie a' a /\
       (forall k l, is_ <= k -> k <= l < ie -> nth k a' 0 <= nth l a' 0)).
Proof.
  intros is_ ie a H1 H2.
  apply (wp_forn _ (fun i a' => Permutation a a' /\ outside is_ ie a' a /\
       (forall k l, is_ <= k < i -> k <= l < ie -> nth k a' 0 <= nth l a' 0))); [lia| | |].
  - split; auto. split. intros k _; auto. intros; lia.
  - intros i a' Hi (HP & HO & HA).
    eapply wp_mono. { apply (bubble_pass is_ i ie a'); auto; try lia. apply Permutation_length in HP. lia. }
    intros a2 (HP2 & HO2 & HA2). split. eapply Permutation_trans; eauto. split; auto.
    intros k Hk. rewrite HO2 by lia. apply HO; auto.
  - intros a' (HP & HO & HA). split; auto. split; auto. intros k l Hk Hl.
    destruct (Nat.eq_dec k (ie - 1)). replace l with k by lia. auto. apply HA; lia.
Qed.

Lemma StronglySorted_nth : forall (r : list nat),
  (forall k l, k <= l < length r -> nth k r 0 <= nth l r 0) -> Sorted le r.
Proof.
  induction r; intros; constructor.
  - apply IHr. intros. apply (H (S k) (S l)). simpl. lia.
  - destruct r; constructor. apply (H 0 1). simpl. lia.
Qed.

Lemma skipn_skipn' : forall A x y (v : list A), skipn x (skipn y v) = skipn (x + y) v.
Proof.
  intros A x y. revert x. induction y; intros; simpl. rewrite Nat.add_0_r; auto.
  rewrite Nat.add_succ_r. destruct v; simpl; auto. apply skipn_nil.
Qed.

Lemma Forall2_length' : forall A B (R : A -> B -> Prop) l1 l2, Forall2 R l1 l2 -> length l1 = length l2.
Proof. intros A B R l1 l2 H. induction H; simpl; auto. Qed.

Lemma offs_same_len : forall (r1 r2 : list (list nat)), Forall2 (@Permutation nat) r1 r2 -> forall k, offs r1 k = offs r2 k.
Proof.
  intros r1 r2 H. induction H; intros k; unfold offs in *.
  - destruct k; auto.
  - destruct k; simpl; auto. rewrite !app_length. f_equal. apply Permutation_length; auto. apply IHForall2.
Qed.

Lemma offsets_same_len : forall (r1 r2 : list (list nat)), Forall2 (@Permutation nat) r1 r2 -> offsets r1 = offsets r2.
Proof.
  intros. unfold offsets. rewrite (Forall2_length' _ _ _ _ _ H). apply map_ext. apply offs_same_len; auto.
Qed.

Lemma concat_upd : forall A (rows : list (list A)) p r, p < length rows ->
  concat (upd rows p r) = firstn (offs rows p) (concat rows) ++ r ++ skipn (offs rows (S p)) (concat rows).
Proof.
  induction rows; simpl; intros; [lia|].
  destruct p; simpl.
  - unfold offs. simpl. rewrite app_nil_r. f_equal.
    rewrite skipn_app, Nat.sub_diag, skipn_all. auto.
  - unfold offs. simpl. rewrite !app_length. rewrite firstn_app, skipn_app.
    rewrite (firstn_all2 a) by lia. rewrite (skipn_all2 a) by lia. rewrite IHrows by lia.
    rewrite <- app_assoc. simpl.
    replace (length a + length (concat (firstn p rows)) - length a) with (offs rows p) by (unfold offs; lia).
    f_equal. f_equal. f_equal. f_equal. unfold offs. simpl. lia.
Qed.

Lemma Forall2_upd : forall A B (R : A -> B -> Prop) l1 l2 p y d, Forall2 R l1 l2 -> p < length l1 ->
  R (nth p l1 d) y -> Forall2 R l1 (upd l2 p y).
Proof.
  intros A B R l1 l2 p y d H. revert p. induction H; simpl; intros; [lia|].
  destruct p; constructor; auto. apply IHForall2; auto. lia.
Qed.

Lemma perm_slice : forall lo hi (a b : list nat), lo <= hi -> hi <= length a -> Permutation a b -> outside lo hi b a ->
  b = firstn lo a ++ firstn (hi - lo) (skipn lo b) ++ skipn hi a /\
  Permutation (firstn (hi - lo) (skipn lo a)) (firstn (hi - lo) (skipn lo b)).
Proof.
  intros lo hi a b H1 H2 HP HO.
  assert (HL : length b = length a) by (symmetry; apply Permutation_length; auto).
  assert (E1 : firstn lo b = firstn lo a).
  { apply (list_ext _ 0). rewrite !firstn_length; lia. intros i Hi. rewrite firstn_length in Hi.
    assert (Hx : forall v : list nat, lo <= length v -> nth i (firstn lo v) 0 = nth i v 0).
    { intros. rewrite <- (firstn_skipn lo v) at 2. rewrite app_nth1; auto. rewrite firstn_length. lia. }
    rewrite !Hx by lia. apply HO. lia. }
  assert (E2 : skipn hi b = skipn hi a).
  { apply (list_ext _ 0). rewrite !skipn_length; lia. intros i Hi. rewrite !nth_skipn'. apply HO. lia. }
  assert (D : forall v : list nat, v = firstn lo v ++ firstn (hi - lo) (skipn lo v) ++ skipn hi v).
  { intros. rewrite <- (firstn_skipn lo v) at 1. f_equal.
    rewrite <- (firstn_skipn (hi - lo) (skipn lo v)) at 1. f_equal.
    rewrite skipn_skipn'. f_equal. lia. }
  assert (Eb : b = firstn lo a ++ firstn (hi - lo) (skipn lo b) ++ skipn hi a).
  { rewrite (D b) at 1. rewrite E1, E2. auto. }
  split; auto.
  rewrite (D a) in HP at 1. rewrite Eb in HP at 1.
  apply Permutation_app_inv_l in HP. apply Permutation_app_inv_r in HP. auto.
Qed.

Lemma Sort_correct : forall ind arr rows, jagged ind arr rows ->
  exists arr' rows', JArray_Sort ind arr = Some arr' /\ jagged ind arr' rows' /\
    Forall2 (fun r r' => Permutation r r' /\ Sorted le r') rows rows'.
Proof.
  intros ind arr rows HJ. pose proof (jagged_len _ _ _ _ HJ) as HL.
  destruct HJ as (Ea & Ei). change (ind = offsets rows) in Ei.
  assert (H : wp (JArray_Sort ind arr) (fun arr' => exists rows', jagged ind arr' rows' /\
      Forall2 (fun r r' => Permutation r r' /\ Sorted le r') rows rows')).
  { unfold JArray_Sort. destruct ind as [|i0 ind0] eqn:Eind; [discriminate|]. rewrite <- Eind in *.
    rewrite HL. replace (S (length rows) - 1) with (length rows) by lia.
    apply (wp_forn _ (fun p a => exists rows', a = concat rows' /\ Forall2 (@Permutation nat) rows rows' /\
        forall k, k < p -> Sorted le (nth k rows' []))); [lia| | |].
    - exists rows. split; auto. split. clear. induction rows; constructor; auto. intros; lia.
    - intros p a Hp (rows' & Era & HF & HS).
      assert (Hlen : length rows' = length rows) by (symmetry; eapply Forall2_length'; eauto).
      pose proof (offs_same_len _ _ HF) as Hoffs.
      rewrite Ei. apply wp_bind. apply (wp_vget _ 0). rewrite offsets_length; lia.
      apply wp_bind. apply (wp_vget _ 0). rewrite offsets_length; lia.
      rewrite !offsets_nth by lia. rewrite !Hoffs. replace (p + 1) with (S p) by lia.
      pose proof (offs_S _ rows' p ltac:(lia)) as HS1.
      destruct (Nat.eqb_spec (offs rows' p) (offs rows' (S p))) as [Heq|Hne].
      + simpl. exists rows'. split; auto. split; auto. intros k Hk. destruct (Nat.eq_dec k p); [|apply HS; lia].
        subst k. destruct (nth p rows' []); [constructor|simpl in HS1; lia].
      + assert (Hlt : offs rows' p < offs rows' (S p)) by lia.
        apply wp_bind. apply wp_assertb. apply Nat.ltb_lt; auto.
        assert (Hle : offs rows' (S p) <= length a) by (rewrite Era; apply offs_le_total).
        eapply wp_mono. apply sort_row_ok; auto.
        intros a2 (HP2 & HO2 & HA2).
        destruct (perm_slice (offs rows' p) (offs rows' (S p)) a a2) as (Ea2 & Hps); auto; try lia.
        set (r2 := firstn (offs rows' (S p) - offs rows' p) (skipn (offs rows' p) a2)) in *.
        exists (upd rows' p r2). split.
        { rewrite concat_upd by lia. rewrite <- Era. auto. }
        split.
        { apply Forall2_upd with (d := []); auto; [lia|]. eapply Permutation_trans; [|apply Hps].
          rewrite Era, concat_slice by lia.
          clear -HF Hp. revert p Hp. induction HF; simpl; intros; [lia|]. destruct p; auto. apply IHHF. lia. }
        intros k Hk. destruct (Nat.eq_dec k p).
        * subst k. rewrite nth_upd_same by lia. apply StronglySorted_nth.
          assert (Lr2 : length r2 = offs rows' (S p) - offs rows' p).
          { unfold r2. rewrite firstn_length, skipn_length. apply Permutation_length in HP2. lia. }
          assert (Hr2 : forall i, i < length r2 -> nth i r2 0 = nth (offs rows' p + i) a2 0).
          { intros i Hi. rewrite <- nth_skipn'. unfold r2.
            rewrite <- (firstn_skipn (offs rows' (S p) - offs rows' p) (skipn (offs rows' p) a2)) at 2.
            rewrite app_nth1; auto. }
          intros i l Hil. rewrite !Hr2 by lia. apply HA2; lia.
        * rewrite nth_upd_other by lia. apply HS; lia.
    - intros a (rows' & Era & HF & HS). exists rows'. split.
      + split; auto. change (ind = offsets rows'). rewrite Ei. apply offsets_same_len; auto.
      + assert (Hlen : length rows' = length rows) by (symmetry; eapply Forall2_length'; eauto).
        clear - HF HS Hlen. revert HS. induction HF; intros; constructor.
        * split; auto. apply (HS 0). simpl; lia.
        * apply IHHF. simpl in Hlen; lia. intros k Hk. apply (HS (S k)). simpl; lia. }
  apply wp_ex in H. destruct H as (arr' & E & rows' & HJ' & HF). eauto.
Qed.
