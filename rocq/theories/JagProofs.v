From Coq Require Import List Arith Lia Permutation Sorted.
Import ListNotations.
From Verif Require Import Imp JagModel JagSpec.

Definition offs {A} (rows : list (list A)) (k : nat) : nat := length (concat (firstn k rows)).
Definition offsets {A} (rows : list (list A)) : list nat := map (offs rows) (seq 0 (S (length rows))).

Lemma firstn_S_snoc : forall A (d : A) l k, k < length l -> firstn (S k) l = firstn k l ++ [nth k l d].
Proof.
  induction l; simpl; intros; [lia|]. destruct k; simpl; auto.
  f_equal. rewrite <- IHl by lia. simpl. destruct l; auto.
Qed.

Lemma offs_S : forall A (rows : list (list A)) k, k < length rows ->
  offs rows (S k) = offs rows k + length (nth k rows []).
Proof.
  intros. unfold offs. rewrite (firstn_S_snoc _ []) by auto.
  rewrite concat_app, app_length. simpl. rewrite app_nil_r. auto.
Qed.

Lemma offs_0 : forall A (rows : list (list A)), offs rows 0 = 0.
Proof. reflexivity. Qed.

Lemma offs_all : forall A (rows : list (list A)) k, length rows <= k -> offs rows k = length (concat rows).
Proof. intros. unfold offs. rewrite firstn_all2; auto. Qed.

Lemma offs_mono : forall A (rows : list (list A)) j k, j <= k -> offs rows j <= offs rows k.
Proof.
  intros A rows j k H. induction H; auto.
  destruct (le_lt_dec (length rows) m).
  - rewrite (offs_all _ rows (S m)) by lia. rewrite (offs_all _ rows m) in IHle by lia. lia.
  - rewrite offs_S by auto. lia.
Qed.

Lemma offs_le_total : forall A (rows : list (list A)) k, offs rows k <= length (concat rows).
Proof.
  intros. rewrite <- (offs_all _ rows (max k (length rows))) by lia. apply offs_mono. lia.
Qed.

Lemma offsets_length : forall A (rows : list (list A)), length (offsets rows) = S (length rows).
Proof. intros. unfold offsets. rewrite map_length, seq_length. auto. Qed.

Lemma offsets_nth : forall A (rows : list (list A)) k d, k <= length rows -> nth k (offsets rows) d = offs rows k.
Proof. intros. unfold offsets. rewrite nth_map_seq by lia. auto. Qed.

Lemma jagged_iff : forall A ind (arr : list A) rows, jagged ind arr rows <-> arr = concat rows /\ ind = offsets rows.
Proof. reflexivity. Qed.

Lemma concat_char : forall A (d : A) rows arr, length arr = length (concat rows) ->
  (forall k j, k < length rows -> j < length (nth k rows []) -> nth (offs rows k + j) arr d = nth j (nth k rows []) d) ->
  arr = concat rows.
Proof.
  induction rows; simpl; intros.
  - destruct arr; auto; discriminate.
  - rewrite app_length in H.
    rewrite <- (firstn_skipn (length a) arr). f_equal.
    + apply (list_ext _ d).
      * rewrite firstn_length. lia.
      * intros. rewrite firstn_length in H1.
        assert (i < length a) by lia.
        specialize (H0 0 i). simpl in H0. rewrite <- H0 by lia.
        rewrite <- (firstn_skipn (length a) arr) at 2.
        rewrite app_nth1; auto. rewrite firstn_length. lia.
    + apply IHrows.
      * rewrite skipn_length. lia.
      * intros. specialize (H0 (S k) j). simpl in H0. rewrite <- H0 by lia.
        rewrite <- (firstn_skipn (length a) arr) at 2.
        rewrite app_nth2; rewrite firstn_length; unfold offs; simpl; rewrite app_length; try lia.
        f_equal. lia.
Qed.

Lemma concat_nth : forall A (d : A) rows k j, k < length rows -> j < length (nth k rows []) ->
  nth (offs rows k + j) (concat rows) d = nth j (nth k rows []) d.
Proof.
  induction rows; simpl; intros; [lia|].
  destruct k; simpl.
  - unfold offs. simpl. rewrite app_nth1; auto.
  - unfold offs. simpl. rewrite app_length. rewrite app_nth2 by lia.
    rewrite <- IHrows by (auto; lia). f_equal. unfold offs. lia.
Qed.

(* -------------------- counting sort -------------------- *)

Definition prow (k : nat) (l : list (nat * nat)) : list nat :=
  map snd (filter (fun p => fst p =? k) l).

Definition rows_of (np : nat) (l : list (nat * nat)) : list (list nat) :=
  map (fun k => prow k l) (seq 0 np).

Lemma prow_app : forall k l1 l2, prow k (l1 ++ l2) = prow k l1 ++ prow k l2.
Proof. intros. unfold prow. rewrite filter_app, map_app. auto. Qed.

Lemma rows_of_length : forall np l, length (rows_of np l) = np.
Proof. intros. unfold rows_of. rewrite map_length, seq_length. auto. Qed.

Lemma rows_of_nth : forall np l k d, k < np -> nth k (rows_of np l) d = prow k l.
Proof. intros. unfold rows_of. rewrite nth_map_seq by auto. auto. Qed.

Lemma prow_snoc : forall k l p, prow k (l ++ [p]) = if fst p =? k then prow k l ++ [snd p] else prow k l.
Proof.
  intros. rewrite prow_app. unfold prow at 2. simpl. destruct (fst p =? k); simpl; auto.
  apply app_nil_r.
Qed.

Definition cnt_pair (p : nat * nat) := count1 (fst p).
Definition put_pair (p : nat * nat) := put1 (fst p) (snd p).

Lemma count_ok : forall np l, Forall (fun p => fst p < np) l ->
  wp (foldM cnt_pair l (repeat 0 (np + 1)))
     (fun c => length c = np + 1 /\ nth 0 c 0 = 0 /\ forall k, k < np -> nth (k + 1) c 0 = length (prow k l)).
Proof.
  intros np l Hl. rewrite Forall_forall in Hl.
  apply (wp_foldM _ _ (fun l1 c => length c = np + 1 /\ nth 0 c 0 = 0 /\
           forall k, k < np -> nth (k + 1) c 0 = length (prow k l1))).
  - split; [apply repeat_length|]. split. apply nth_repeat'; lia.
    intros. rewrite nth_repeat' by lia. reflexivity.
  - intros l1 x l2 c El (Hlen & H0 & Hc).
    assert (fst x < np) by (apply Hl; rewrite El; apply in_or_app; right; left; auto).
    unfold cnt_pair, count1. apply (wp_vmod _ 0). lia. split; [lens; auto|].
    split. rewrite nth_upd_other by lia. auto.
    intros k Hk. rewrite prow_snoc. rewrite nth_upd by lia.
    destruct (Nat.eq_dec (fst x + 1) (k + 1)).
    + replace (fst x =? k) with true by (symmetry; apply Nat.eqb_eq; lia).
      rewrite app_length. simpl. rewrite Hc by auto.
      assert (fst x = k) by lia. subst. lia.
    + replace (fst x =? k) with false by (symmetry; apply Nat.eqb_neq; lia). auto.
  - auto.
Qed.

Lemma prefix_ok : forall A np c (rows : list (list A)), length rows = np ->
  length c = np + 1 -> nth 0 c 0 = 0 -> (forall k, k < np -> nth (k + 1) c 0 = length (nth k rows [])) ->
  prefix_sum np c = Some (offsets rows).
Proof.
  intros A np c rows Hr Hlen H0 Hc.
  assert (wp (prefix_sum np c) (fun x => x = offsets rows)).
  { unfold prefix_sum.
    apply (wp_forn _ (fun i ind => length ind = np + 1 /\ (forall k, k <= i -> nth k ind 0 = offs rows k) /\
        (forall k, i < k -> nth k ind 0 = nth k c 0))); [lia| | |].
    - split; auto. split; auto. intros. replace k with 0 by lia. auto.
    - intros i ind Hi (Hl & Ha & Hb).
      apply wp_bind. apply (wp_vget _ 0); [lia|].
      apply (wp_vmod _ 0); [lia|]. split; [lens; auto|]. split.
      + intros k Hk. rewrite nth_upd by lia. destruct (Nat.eq_dec (i + 1) k).
        * subst k. rewrite Hb by lia. rewrite Hc by lia. rewrite Ha by lia.
          replace (i + 1) with (S i) by lia. rewrite offs_S by lia. lia.
        * apply Ha. lia.
      + intros. rewrite nth_upd_other by lia. apply Hb. lia.
    - intros ind (Hl & Ha & Hb).
      apply (list_ext _ 0).
      + rewrite offsets_length. lia.
      + intros. rewrite offsets_nth by lia. apply Ha. lia. }
  apply wp_ex in H. destruct H as (x & E & ->). auto.
Qed.

Lemma fill_ok : forall np l rows arr, rows = rows_of np l ->
  Forall (fun p => fst p < np) l ->
  length arr = length (concat rows) ->
  wp (foldM put_pair l (offsets rows, arr))
    (fun s => snd s = concat rows /\ length (fst s) = np + 1 /\
              forall k, k < np -> nth k (fst s) 0 = offs rows (S k)).
Proof.
  intros np l rows arr Er Hl Harr. rewrite Forall_forall in Hl.
  assert (Lr : length rows = np) by (subst; apply rows_of_length).
  assert (Hnth : forall k, k < np -> nth k rows [] = prow k l) by (intros; subst; apply rows_of_nth; auto).
  apply (wp_foldM _ _ (fun l1 s => length (snd s) = length (concat rows) /\
     length (fst s) = np + 1 /\
     (forall k, k < np -> nth k (fst s) 0 = offs rows k + length (prow k l1)) /\
     (forall k j, k < np -> j < length (prow k l1) -> nth (offs rows k + j) (snd s) 0 = nth j (prow k l1) 0))).
  - cbn [fst snd]. split; auto. split. rewrite offsets_length; lia. split.
    + intros. rewrite offsets_nth by lia. cbn. lia.
    + cbn. intros. lia.
  - intros l1 x l2 [ind a] El (Ha & Hi & Hn & Hrow). cbn [fst snd] in *.
    assert (Hx : fst x < np) by (apply Hl; rewrite El; apply in_or_app; right; left; auto).
    assert (Hsub : forall k, k < np -> length (prow k l1) + (if fst x =? k then 1 else 0) <= length (nth k rows [])).
    { intros k Hk. subst rows. rewrite rows_of_nth by auto. rewrite El.
      change (x :: l2) with ([x] ++ l2). rewrite app_assoc, prow_app, prow_snoc, app_length.
      destruct (fst x =? k); try rewrite app_length; simpl; lia. }
    assert (Hend : forall k, k < np -> offs rows k + length (nth k rows []) = offs rows (S k))
      by (intros; rewrite offs_S by lia; auto).
    pose proof (Hsub (fst x) Hx) as HS. rewrite Nat.eqb_refl in HS.
    pose proof (Hend (fst x) Hx) as HE.
    pose proof (offs_le_total _ rows (S (fst x))) as HT.
    unfold put_pair, put1.
    apply wp_bind. apply (wp_vget _ 0); [lia|]. rewrite Hn by auto.
    apply wp_bind. apply wp_vset; [lia|].
    apply wp_bind. apply (wp_vmod _ 0); [lia|]. simpl.
    split; [lens; auto|]. split; [lens; auto|]. split.
    + intros k Hk. rewrite prow_snoc. rewrite nth_upd by lia.
      destruct (Nat.eq_dec (fst x) k).
      * subst k. rewrite Nat.eqb_refl, app_length. simpl. rewrite Hn by auto. lia.
      * replace (fst x =? k) with false by (symmetry; apply Nat.eqb_neq; lia). apply Hn. auto.
    + intros k j Hk Hj. rewrite prow_snoc in *.
      rewrite nth_upd by lia.
      destruct (Nat.eq_dec (offs rows (fst x) + length (prow (fst x) l1)) (offs rows k + j)) as [e|ne].
      * assert (fst x = k).
        { destruct (lt_eq_lt_dec (fst x) k) as [[L|L]|L]; auto; exfalso.
          - pose proof (offs_mono _ rows (S (fst x)) k L). lia.
          - pose proof (offs_mono _ rows (S k) (fst x) L).
            pose proof (Hsub k Hk). rewrite <- Hend in H by auto.
            replace (fst x =? k) with false in * by (symmetry; apply Nat.eqb_neq; lia). lia. }
        subst k. rewrite Nat.eqb_refl. replace j with (length (prow (fst x) l1)) by lia.
        rewrite app_nth2 by lia. rewrite Nat.sub_diag. auto.
      * destruct (fst x =? k) eqn:Ek.
        -- apply Nat.eqb_eq in Ek. subst k. rewrite app_length in Hj. simpl in Hj.
           rewrite app_nth1 by lia. apply Hrow; auto; lia.
        -- apply Hrow; auto.
  - intros [ind a] (Ha & Hi & Hn & Hrow). cbn [fst snd] in *. split; [|split; auto].
    + apply (concat_char _ 0); auto. intros. rewrite Hnth in * by lia. apply Hrow; auto. lia.
    + intros. rewrite Hn by auto. rewrite offs_S by lia. rewrite Hnth by auto. auto.
Qed.

Lemma shift_ok : forall A (rows : list (list A)) np ind, length rows = np ->
  length ind = np + 1 -> (forall k, k < np -> nth k ind 0 = offs rows (S k)) ->
  shift_down np ind = Some (offsets rows).
Proof.
  intros A rows np ind Hr Hl Hk.
  assert (wp (shift_down np ind) (fun x => x = offsets rows)).
  { unfold shift_down. apply wp_bind.
    apply (wp_ford _ (fun i s => length s = np + 1 /\
       (forall k, k < i -> nth k s 0 = offs rows (S k)) /\ (forall k, i < k -> k <= np -> nth k s 0 = offs rows k))); [lia| | |].
    - split; auto. split; auto. intros; lia.
    - intros i s Hi (Hs & Ha & Hb).
      apply wp_bind. apply (wp_vget _ 0); [lia|]. apply wp_vset; [lia|].
      split; [lens; auto|]. split.
      + intros. rewrite nth_upd_other by lia. apply Ha. lia.
      + intros. rewrite nth_upd by lia. destruct (Nat.eq_dec i k).
        * subst. rewrite Ha by lia. f_equal. lia.
        * apply Hb; lia.
    - intros s (Hs & Ha & Hb). apply wp_vset; [lia|].
      apply (list_ext _ 0); lens.
      + rewrite offsets_length. lia.
      + intros. rewrite offsets_nth by lia. rewrite nth_upd by lia.
        destruct (Nat.eq_dec 0 i); subst; [reflexivity|]. apply Hb; lia. }
  apply wp_ex in H. destruct H as (x & E & ->). auto.
Qed.

(** The four phases together. *)
Lemma bucket_build : forall np l arr0, Forall (fun p => fst p < np) l ->
  exists c ind', foldM cnt_pair l (repeat 0 (np + 1)) = Some c /\
    prefix_sum np c = Some (offsets (rows_of np l)) /\
    vget (offsets (rows_of np l)) np = Some (length (concat (rows_of np l))) /\
    foldM put_pair l (offsets (rows_of np l), vresize 0 arr0 (length (concat (rows_of np l))))
      = Some (ind', concat (rows_of np l)) /\
    shift_down np ind' = Some (offsets (rows_of np l)).
Proof.
  intros np l arr0 Hl.
  destruct (wp_ex _ _ _ (count_ok np l Hl)) as (c & Ec & Hc0 & Hc1 & Hc2).
  assert (Hp : prefix_sum np c = Some (offsets (rows_of np l))).
  { apply prefix_ok; auto. apply rows_of_length. intros. rewrite rows_of_nth by auto. auto. }
  destruct (wp_ex _ _ _ (fill_ok np l _ (vresize 0 arr0 (length (concat (rows_of np l)))) eq_refl Hl (vresize_length _ _ _ _)))
    as ((ind' & a') & Ef & Ha & Hi & Hk). simpl in *. subst a'.
  exists c, ind'. repeat split; auto.
  - rewrite (vget_nth _ 0) by (rewrite offsets_length, rows_of_length; lia).
    rewrite offsets_nth by (rewrite rows_of_length; lia).
    rewrite offs_all; auto. rewrite rows_of_length; lia.
  - apply shift_ok; auto. apply rows_of_length.
Qed.
