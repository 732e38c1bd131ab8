(** Proofs for IluProps.v: CopyValue and SetPattern0. *)
From Coq Require Import List Arith Bool Lia ZArith Ring Permutation Sorted.
Import ListNotations.
From Verif Require Import Imp Alg SpModel SpSpec IluModel IluSpec IluProofs1 IluProofs3 IluProofs5 IluProofs6.
Open Scope nat_scope.

Section C.
Variable K : cring.
Add Ring Kr8 : (rlaws K).
Variables (P : ilu K) (m : matsp K).
Hypothesis HPt : pattern_ok P.
Hypothesis HV : values_ok P.
Hypothesis Hwf : wf m.
Hypothesis Hsq : square m.
Hypothesis Hs : simple_rows m.
Hypothesis Hnb : nrowblk m = nblk P.
Hypothesis Hd : nrowdim m = ndim P.
Local Notation nb := (nblk P).
Local Notation d := (ndim P).
Local Notation n := (length (rowPtr P)).

Lemma bidx2 : forall c a b, c < n -> a < d -> b < d -> c * (d * d) + a * d + b < n * (d * d).
Proof. intros. assert (a * d + b < d * d) by nia. nia. Qed.
Lemma copy_block : forall v c q, c < n -> q < length (row_ptr m) -> length v = n * (d * d) ->
  wp (forn 0 (d * d) (fun i vcrs => x <- vget (val_crs m) (q * (d * d) + i) ;; vset vcrs (c * (d * d) + i) x) v)
  (fun v' => length v' = n * (d * d) /\ forall c' a b, c' < n -> a < d -> b < d -> blk d v' c' a b = if c' =? c then crs m q a b else blk d v c' a b).
Proof.
  intros v c q Hc Hq Hv. destruct Hwf as (W1 & W2 & W3 & W4 & W5 & W6 & W7). destruct Hsq as (S1 & S2). rewrite <- S2, Hd in W5.
  apply (wp_forn _ (fun k v' => length v' = n * (d * d) /\ (forall i, i < k -> nth (c * (d * d) + i) v' rO = nth (q * (d * d) + i) (val_crs m) rO) /\ forall p, ~ (c * (d * d) <= p < c * (d * d) + d * d) -> nth p v' rO = nth p v rO)); [lia| | |].
  - split; auto. split; auto. intros; lia.
  - intros k v' Hk (L & H1 & H2). rewrite (vget_nth _ rO) by nia. cbn [bind]. apply wp_vset; [nia|]. split; [lens; auto|]. split.
    + intros i Hi. rewrite nth_upd by nia. destruct (Nat.eq_dec (c * (d * d) + k) (c * (d * d) + i)); [do 2 f_equal; lia|]. apply H1. lia.
    + intros p Hp. rewrite nth_upd_other by lia. auto.
  - intros v' (L & H1 & H2). split; [auto|]. intros c' a b Hc' Ha Hb. unfold blk. assert (Hab : a * d + b < d * d) by nia. destruct (Nat.eqb_spec c' c) as [->|Hn].
    + rewrite <- Nat.add_assoc, H1 by auto. unfold crs. rewrite <- S2, Hd. f_equal. lia.
    + apply H2. assert (c' < c \/ c < c') as [|] by lia; nia.
Qed.
Definition msum (I k J a b : nat) : K := bigsum (seq (ci m I) (k - ci m I)) (fun q => if rp m q =? J then crs m q a b else rO).
Lemma msum_S : forall I k J a b, ci m I <= k -> msum I (S k) J a b = radd (msum I k J a b) (if rp m k =? J then crs m k a b else rO).
Proof. intros. unfold msum. replace (S k - ci m I) with (S (k - ci m I)) by lia. rewrite seq_S, bigsum_app, bigsum_cons, bigsum_nil. replace (ci m I + (k - ci m I)) with k by lia. ring. Qed.
Lemma msum_fresh : forall I k a b, I < nb -> ci m I <= k < ci m (S I) -> msum I k (rp m k) a b = rO.
Proof.
  intros I k a b HI Hk. unfold msum. apply bigsum_zero. intros q Hq. apply in_seq in Hq. destruct (Nat.eqb_spec (rp m q) (rp m k)) as [E|]; auto. exfalso.
  assert (HI' : I < nrowblk m) by lia. destruct (Hs I HI') as (HN & _). unfold row_range in HN.
  assert (E1 : nth (q - ci m I) (map (rp m) (seq (ci m I) (ci m (S I) - ci m I))) (rp m 0) = nth (k - ci m I) (map (rp m) (seq (ci m I) (ci m (S I) - ci m I))) (rp m 0)).
  { rewrite !(map_nth (rp m)). rewrite !seq_nth by lia. replace (ci m I + (q - ci m I)) with q by lia. replace (ci m I + (k - ci m I)) with k by lia. auto. }
  apply (proj1 (NoDup_nth _ _) HN) in E1; rewrite ?map_length, ?seq_length; lia.
Qed.
Lemma mlen : forall I q, I < nb -> ci m I <= q < ci m (S I) -> q < length (row_ptr m).
Proof.
  intros I q HI Hq. destruct Hwf as (W1 & W2 & W3 & _).
  assert (Hm : forall J, S I <= J -> J <= nrowblk m -> ci m (S I) <= ci m J). { intros J H. induction H; intros; [lia|]. assert (Hlt : m0 < nrowblk m) by lia. pose proof (W2 m0 Hlt). lia. }
  pose proof (Hm (nrowblk m)). lia.
Qed.
(** the diagonal blocks are copied; every stored block gets the entries of the matrix at its place *)
Lemma CopyValue_ok : wp (CopyValue K P m) (fun P' => same_shape P P' /\ values_ok P' /\ valDia P' = val_dia m /\
  forall I c a b, I < nb -> cI P I <= c < cI P (S I) -> a < d -> b < d -> blk d (valCrs P') c a b = msum I (ci m (S I)) (cp P c) a b).
Proof.
  pose proof Hwf as (W1 & W2 & W3 & W4 & W5 & W6 & W7). pose proof Hsq as (S1 & S2). pose proof HPt as (Q1 & Q2 & Q3 & Q4 & H5 & H6 & H7 & H8). destruct HV as (V1 & V2).
  unfold CopyValue. cbn zeta. rewrite Hnb, Nat.eqb_refl. cbn [assertb bind]. rewrite <- S1, Hnb, Nat.eqb_refl. cbn [assertb bind]. rewrite Hd, Nat.eqb_refl. cbn [assertb bind]. rewrite <- S2, Hd, Nat.eqb_refl. cbn [assertb bind].
  apply wp_bind. apply (wp_forn _ (fun k v => length v = n * (d * d) /\ forall i, i < k -> nth i v rO = rO)); [lia| | |].
  { split; auto. intros; lia. }
  { intros k v Hk (L & H). apply wp_vset; [lia|]. split; [lens; auto|]. intros i Hi. rewrite nth_upd by lia. destruct (Nat.eq_dec k i); auto. apply H. lia. }
  intros v0 (L0 & Z0). apply wp_bind.
  apply (wp_forn _ (fun i '(r2c, v) => length r2c = nb /\ (forall J, nth J r2c None = None) /\ length v = n * (d * d) /\
     (forall I c a b, I < i -> cI P I <= c < cI P (S I) -> a < d -> b < d -> blk d v c a b = msum I (ci m (S I)) (cp P c) a b) /\
     (forall c a b, cI P i <= c < n -> a < d -> b < d -> blk d v c a b = rO))); [lia| | |].
  - split; [apply repeat_length|]. split. { intros J. destruct (nth_in_or_default J (repeat (@None nat) nb) None) as [H|H]; auto. apply repeat_spec in H. auto. }
    split; auto. split; [intros; lia|]. intros c a b Hc Ha Hb. unfold blk. apply Z0. rewrite <- Nat.mul_assoc. apply bidx2; auto. lia.
  - intros i (r2c, v) Hi (Lr & Rn & Lv & A1 & A2). assert (Hin : i < nb) by lia. pose proof (H5 i Hin) as H5i.
    assert (Hbd : cI P (S i) <= n) by (rewrite <- Q4; apply (ci_le K P HPt); lia).
    rewrite (ci_get K P HPt) by lia. cbn [bind]. replace (i + 1) with (S i) by lia. rewrite (ci_get K P HPt) by lia. cbn [bind].
    destruct (wp_ex _ _ _ (mark_row_ok K P HPt i n Some r2c Hin Hbd Lr)) as (r1 & -> & Lr1 & R1 & R2). cbn [bind].
    rewrite !(vget_nth _ 0 (col_ind m)) by lia. cbn [bind]. fold (ci m i). fold (ci m (S i)).
    assert (Hi' : i < nrowblk m) by lia. pose proof (W2 i Hi') as W2i.
    apply wp_bind. apply (wp_forn _ (fun k v' => length v' = n * (d * d) /\
       (forall c a b, cI P i <= c < cI P (S i) -> a < d -> b < d -> blk d v' c a b = msum i k (cp P c) a b) /\
       (forall c a b, c < n -> ~ (cI P i <= c < cI P (S i)) -> a < d -> b < d -> blk d v' c a b = blk d v c a b))); [lia| | |].
    + split; auto. split; auto. intros c a b Hc Ha Hb. rewrite A2 by (auto; lia). unfold msum. rewrite Nat.sub_diag. reflexivity.
    + intros q v' Hq (L' & B1 & B2). pose proof (mlen i q Hin Hq) as Hql. rewrite (proj2 (Nat.ltb_lt _ _) Hql). cbn [assertb bind]. rewrite (vget_nth _ 0) by auto. cbn [bind]. fold (rp m q).
      pose proof (W4 q Hql) as Hrp. rewrite (proj2 (Nat.ltb_lt (rp m q) nb)) by lia. cbn [assertb bind]. rewrite (vget_nth _ None) by lia. cbn [bind].
      destruct (nth (rp m q) r1 None) as [c0|] eqn:Er.
      * assert (Hc0 : cI P i <= c0 < cI P (S i) /\ cp P c0 = rp m q).
        { destruct (in_dec Nat.eq_dec (rp m q) (map (cp P) (seq (cI P i) (cI P (S i) - cI P i)))) as [Hin'|Hout].
          - apply in_map_iff in Hin'. destruct Hin' as (c & Ec & Hc). apply in_seq in Hc. assert (Hc' : cI P i <= c < cI P (S i)) by lia. rewrite <- Ec, R1 in Er by auto. injection Er as <-. auto.
          - rewrite R2, Rn in Er; [discriminate|]. intros c Hc Ec. apply Hout. apply in_map_iff. exists c. split; auto. apply in_seq. lia. }
        destruct Hc0 as (Hc0 & Ec0).
        eapply wp_mono; [apply (copy_block v' c0 q); auto; lia|]. intros v2 (L2 & E2). split; [auto|]. split.
        -- intros c a b Hc Ha Hb. rewrite E2 by (auto; lia). rewrite msum_S by lia. destruct (Nat.eqb_spec c c0) as [->|Hn].
           ++ rewrite Ec0, Nat.eqb_refl, msum_fresh by auto. ring.
           ++ rewrite (proj2 (Nat.eqb_neq (rp m q) (cp P c))); [rewrite B1 by auto; ring|]. intros C. apply Hn. apply (cp_inj K P HPt i); auto. lia.
        -- intros c a b Hc Hn Ha Hb. rewrite E2 by auto. rewrite (proj2 (Nat.eqb_neq c c0)); auto. intros ->. auto.
      * apply wp_some. split; [auto|]. split; [|auto]. intros c a b Hc Ha Hb. rewrite B1 by auto. rewrite msum_S by lia. rewrite (proj2 (Nat.eqb_neq (rp m q) (cp P c))); [ring|].
        intros C. rewrite C, R1 in Er by auto. discriminate.
    + intros v' (L' & B1 & B2).
      destruct (wp_ex _ _ _ (mark_row_ok K P HPt i n (fun _ => None) r1 Hin Hbd Lr1)) as (r3 & -> & Lr3 & R3 & R4). cbn [bind]. apply wp_some.
      split; auto. split.
      { intros J. destruct (in_dec Nat.eq_dec J (map (cp P) (seq (cI P i) (cI P (S i) - cI P i)))) as [Hj|Hj].
        - apply in_map_iff in Hj. destruct Hj as (c & <- & Hc). apply in_seq in Hc. apply R3. lia.
        - assert (Hno : forall c, cI P i <= c < cI P (S i) -> cp P c <> J). { intros c Hc Ec. apply Hj. apply in_map_iff. exists c. split; auto. apply in_seq. lia. }
          rewrite R4 by exact Hno. rewrite R2 by exact Hno. auto. }
      split; auto. split.
      * intros I c a b HI Hc Ha Hb. assert (I = i \/ I < i) as [-> | HI'] by lia; [apply B1; auto|].
        pose proof (row_other K P HPt i I c). rewrite B2; auto; lia.
      * intros c a b Hc Ha Hb. rewrite B2 by (auto; lia). apply A2; auto. lia.
  - intros (r2c, v) (Lr & Rn & Lv & A1 & A2).
    rewrite <- S2, Hd, Hnb in W6.
    apply wp_bind. apply (wp_forn _ (fun k w => length w = nb * (d * d) /\ forall i, i < k -> nth i w rO = nth i (val_dia m) rO)); [lia| | |].
    + split; auto. intros; lia.
    + intros k w Hk (L & H). rewrite (vget_nth _ rO) by lia. cbn [bind]. apply wp_vset; [lia|]. split; [lens; auto|]. intros i Hi. rewrite nth_upd by lia. destruct (Nat.eq_dec k i) as [->|]; auto. apply H. lia.
    + intros w (Lw & Hw). apply wp_some. split; [repeat split; auto|]. split; [split; auto|]. split; [cbn [valDia]; apply (list_ext _ rO); [rewrite Lw, W6; reflexivity|]; intros i Hi; apply Hw; rewrite Lw in Hi; exact Hi|]. exact A1.
Qed.
End C.

(** ** Sorting *)
Lemma ins_perm : forall x l, Permutation (ins x l) (x :: l).
Proof. induction l; cbn; auto. destruct (x <=? a); auto. rewrite IHl. apply perm_swap. Qed.
Lemma sortn_perm : forall l, Permutation (sortn l) l.
Proof. induction l; cbn; auto. rewrite ins_perm. auto. Qed.
Lemma ins_sorted : forall x l, StronglySorted le l -> StronglySorted le (ins x l).
Proof.
  intros x l H. induction H; cbn; [repeat constructor|]. destruct (Nat.leb_spec x a).
  - constructor; [constructor; auto|]. constructor; auto. eapply Forall_impl; [|exact H0]. intros; cbn in *; lia.
  - constructor; auto. apply Forall_forall. intros y Hy. apply (Permutation_in _ (ins_perm x l)) in Hy. destruct Hy as [<-|Hy]; [lia|]. apply (proj1 (Forall_forall _ _) H0); auto.
Qed.
Lemma sortn_sorted : forall l, StronglySorted le (sortn l).
Proof. induction l; cbn; [constructor|]. apply ins_sorted. auto. Qed.
Lemma sorted_lt : forall l i j, StronglySorted le l -> NoDup l -> i < j -> j < length l -> nth i l 0 < nth j l 0.
Proof.
  induction l; intros i j HS HN Hij Hj; cbn in Hj; [lia|]. inversion HS; subst. inversion HN; subst. destruct j as [|j]; [lia|]. destruct i as [|i]; cbn.
  - assert (Hin : In (nth j l 0) l) by (apply nth_In; lia). pose proof (proj1 (Forall_forall _ _) H2 _ Hin). assert (a <> nth j l 0) by (intros ->; auto). lia.
  - apply IHl; auto; lia.
Qed.
Definition sl (l : list nat) (b e : nat) : list nat := firstn (e - b) (skipn b l).
Lemma sl_length : forall l b e, b <= e -> e <= length l -> length (sl l b e) = e - b.
Proof. intros. unfold sl. rewrite firstn_length, skipn_length. lia. Qed.
Lemma nth_firstn : forall A (l : list A) n i x, i < n -> nth i (firstn n l) x = nth i l x.
Proof. induction l; destruct n, i; cbn; intros; auto; try lia. apply IHl. lia. Qed.
Lemma nth_skipn : forall A (l : list A) n i x, nth i (skipn n l) x = nth (n + i) l x.
Proof. induction l; destruct n; cbn; intros; auto. destruct i; auto. Qed.
Lemma sl_nth : forall l b e i, i < e - b -> nth i (sl l b e) 0 = nth (b + i) l 0.
Proof. intros. unfold sl. rewrite nth_firstn by auto. apply nth_skipn. Qed.
Lemma sl_map : forall l b e, b <= e -> e <= length l -> sl l b e = map (fun c => nth c l 0) (seq b (e - b)).
Proof. intros. apply (list_ext _ 0); [rewrite sl_length, map_length, seq_length; auto|]. intros i Hi. rewrite sl_length in Hi by auto. rewrite sl_nth by auto. rewrite nth_map_seq by auto. auto. Qed.
Lemma sort_range_ok : forall l b e, b <= e -> e <= length l -> length (sort_range l b e) = length l /\ sl (sort_range l b e) b e = sortn (sl l b e) /\
  (forall c, c < b \/ e <= c -> nth c (sort_range l b e) 0 = nth c l 0).
Proof.
  intros l b e Hb He. unfold sort_range. fold (sl l b e). assert (L1 : length (sortn (sl l b e)) = e - b) by (rewrite (Permutation_length (sortn_perm _)); apply sl_length; auto).
  assert (L2 : length (firstn b l) = b) by (rewrite firstn_length; lia).
  split; [rewrite !app_length, L1, L2, skipn_length; lia|]. split.
  - unfold sl at 1. rewrite skipn_app, L2, Nat.sub_diag. rewrite skipn_all2 by lia. cbn [skipn app]. rewrite firstn_app, L1, Nat.sub_diag. cbn [firstn]. rewrite app_nil_r. apply firstn_all2. lia.
  - intros c [Hc|Hc].
    + rewrite app_nth1 by lia. apply nth_firstn. auto.
    + rewrite app_nth2 by lia. rewrite app_nth2 by lia. rewrite nth_skipn. f_equal. lia.
Qed.
Lemma sl_ext : forall l l' b e, b <= e -> e <= length l -> e <= length l' -> (forall c, b <= c < e -> nth c l 0 = nth c l' 0) -> sl l b e = sl l' b e.
Proof. intros. rewrite !sl_map by auto. apply map_ext_in. intros c Hc. apply in_seq in Hc. apply H2. lia. Qed.
Lemma sort_rows_ok : forall n colind rowptr, length colind = n + 1 -> (forall I, I < n -> nth I colind 0 <= nth (S I) colind 0) -> nth n colind 0 = length rowptr ->
  wp (sort_rows n colind rowptr) (fun r => length r = length rowptr /\ forall I, I < n -> sl r (nth I colind 0) (nth (S I) colind 0) = sortn (sl rowptr (nth I colind 0) (nth (S I) colind 0))).
Proof.
  intros n colind rowptr Hl Hm Hn.
  assert (Hmono : forall I J, I <= J -> J <= n -> nth I colind 0 <= nth J colind 0). { intros I J H. induction H; intros; [lia|]. assert (Hlt : m < n) by lia. pose proof (Hm m Hlt). lia. }
  unfold sort_rows. apply (wp_forn _ (fun i r => length r = length rowptr /\ (forall I, I < i -> sl r (nth I colind 0) (nth (S I) colind 0) = sortn (sl rowptr (nth I colind 0) (nth (S I) colind 0))) /\
    (forall c, nth i colind 0 <= c -> nth c r 0 = nth c rowptr 0))); [lia| | |].
  - split; auto. split; auto. intros; lia.
  - intros i r Hi (L & H1 & H2). replace (i + 1) with (S i) by lia. rewrite (vget_nth _ 0) by lia. cbn [bind]. rewrite (vget_nth _ 0) by lia. cbn [bind]. apply wp_some.
    assert (Hbe : nth i colind 0 <= nth (S i) colind 0) by (apply Hm; lia). assert (Hel : nth (S i) colind 0 <= length rowptr) by (rewrite <- Hn; apply Hmono; lia).
    destruct (sort_range_ok r (nth i colind 0) (nth (S i) colind 0) Hbe) as (L2 & E2 & Q2); [lia|]. split; [lia|]. split.
    + intros I HI. assert (I = i \/ I < i) as [-> | HI'] by lia.
      * rewrite E2. f_equal. apply sl_ext; auto; try lia. intros; apply H2; lia.
      * rewrite <- H1 by auto. pose proof (Hmono (S I) i). assert (Hlt : I < n) by lia. pose proof (Hm I Hlt). apply sl_ext; try lia. intros c Hc. apply Q2. lia.
    + intros c Hc. rewrite Q2 by auto. apply H2. lia.
  - intros r (L & H1 & H2). auto.
Qed.

Section D.
Variable K : cring.
Variables (P0 : ilu K) (m : matsp K).
Hypothesis Hwf : wf m.
Hypothesis Hsq : square m.
Hypothesis Hs : simple_rows m.
Hypothesis H0 : ci m 0 = 0.
(** the sorted rows: strictly ascending columns, the same set *)
Lemma sorted_rows : wp (sort_rows (nrowblk m) (col_ind m) (row_ptr m)) (fun r => length r = length (row_ptr m) /\
  (forall I c c', I < nrowblk m -> ci m I <= c -> c < c' -> c' < ci m (S I) -> nth c r 0 < nth c' r 0) /\
  (forall I c, I < nrowblk m -> ci m I <= c < ci m (S I) -> in_pattern m I (nth c r 0)) /\
  (forall I J, I < nrowblk m -> in_pattern m I J -> exists c, ci m I <= c < ci m (S I) /\ nth c r 0 = J)).
Proof.
  pose proof Hwf as (W1 & W2 & W3 & W4 & W5 & W6 & W7).
  assert (Hmono : forall I J, I <= J -> J <= nrowblk m -> ci m I <= ci m J). { intros I J H. induction H; intros; [lia|]. assert (Hlt : m0 < nrowblk m) by lia. pose proof (W2 m0 Hlt). lia. }
  eapply wp_mono; [apply sort_rows_ok; auto|]. intros r (L & H). split; [auto|].
  assert (HR : forall I, I < nrowblk m -> ci m I <= ci m (S I) /\ ci m (S I) <= length (row_ptr m) /\ sl r (ci m I) (ci m (S I)) = sortn (sl (row_ptr m) (ci m I) (ci m (S I))) /\ sl (row_ptr m) (ci m I) (ci m (S I)) = map (rp m) (row_range m I)).
  { intros I HI. pose proof (W2 I HI). assert (Hel : ci m (S I) <= length (row_ptr m)) by (rewrite <- W3; apply Hmono; lia). split; auto. split; auto. split; [apply H; auto|]. apply sl_map; auto. }
  assert (HN : forall I, I < nrowblk m -> NoDup (sl r (ci m I) (ci m (S I)))).
  { intros I HI. destruct (HR I HI) as (_ & _ & E1 & E2). rewrite E1, E2. eapply Permutation_NoDup; [symmetry; apply sortn_perm|]. apply Hs. auto. }
  split; [|split].
  - intros I c c' HI Hc Hcc Hc'. destruct (HR I HI) as (A1 & A2 & E1 & E2).
    replace c with (ci m I + (c - ci m I)) at 1 by lia. replace c' with (ci m I + (c' - ci m I)) at 1 by lia. rewrite <- !(sl_nth r (ci m I) (ci m (S I))) by lia.
    apply sorted_lt; [rewrite E1; apply sortn_sorted|apply HN; auto|lia|]. rewrite sl_length by lia. lia.
  - intros I c HI Hc. destruct (HR I HI) as (A1 & A2 & E1 & E2).
    assert (Hin : In (nth c r 0) (sl r (ci m I) (ci m (S I)))). { replace c with (ci m I + (c - ci m I)) by lia. rewrite <- (sl_nth r (ci m I) (ci m (S I))) by lia. apply nth_In. rewrite sl_length by lia. lia. }
    rewrite E1, E2 in Hin. apply (Permutation_in _ (sortn_perm _)) in Hin. apply in_map_iff in Hin. destruct Hin as (q & Eq & Hq). exists q. auto.
  - intros I J HI (q & Hq & Eq). destruct (HR I HI) as (A1 & A2 & E1 & E2).
    assert (Hin : In J (sl r (ci m I) (ci m (S I)))). { rewrite E1, E2. apply (Permutation_in _ (Permutation_sym (sortn_perm _))). apply in_map_iff. exists q. auto. }
    apply (In_nth _ _ 0) in Hin. destruct Hin as (i & Hi & Ei). rewrite sl_length in Hi by lia. rewrite sl_nth in Ei by lia. exists (ci m I + i). split; [lia|auto].
Qed.
(** diaInd: the first position of the row with a larger column *)
Lemma find_dia : forall (colInd rowPtr : list nat) (dia : list nat) i lo hi (g : nat -> nat -> option nat), lo <= hi -> i < length dia ->
  (forall c, lo <= c < hi -> forall dd, g c dd = Some (nth c rowPtr 0)) ->
  forall f : nat -> list nat -> option (list nat * bool), (forall c dd, lo <= c < hi -> f c dd = if i <? nth c rowPtr 0 then (x <- vset dd i c ;; Some (x, true)) else Some (dd, false)) ->
  wp (forb lo hi f (upd dia i hi)) (fun dd => length dd = length dia /\ (forall I, I <> i -> nth I dd 0 = nth I dia 0) /\ lo <= nth i dd 0 <= hi /\
    (forall c, lo <= c < nth i dd 0 -> nth c rowPtr 0 <= i) /\ (nth i dd 0 < hi -> i < nth (nth i dd 0) rowPtr 0)).
Proof.
  intros colInd rowPtr dia i lo hi g Hle Hi Hg f Hf.
  apply (wp_forb _ (fun k dd => dd = upd dia i hi /\ forall c, lo <= c < k -> nth c rowPtr 0 <= i)); [auto| | |].
  - split; auto. intros; lia.
  - intros c dd Hc (-> & H). rewrite Hf by auto. destruct (Nat.ltb_spec i (nth c rowPtr 0)) as [Hlt|Hge].
    + rewrite vset_upd by (lens; auto). cbn [bind]. apply wp_some. cbn [fst snd]. split; [lens; auto|]. split.
      * intros I HI. rewrite !nth_upd_other by auto. auto.
      * rewrite nth_upd_same by (lens; auto). split; [lia|]. split; auto.
    + apply wp_some. cbn [fst snd]. split; auto. intros q Hq. assert (q = c \/ q < c) as [-> | ] by lia; auto. apply H. lia.
  - intros dd (-> & H). split; [lens; auto|]. split; [intros; apply nth_upd_other; auto|]. rewrite nth_upd_same by auto. split; [lia|]. split; auto. lia.
Qed.
Lemma SetPattern0_ok : wp (SetPattern0 K P0 m) (fun P => pattern_ok P /\ values_ok P /\ nblk P = nrowblk m /\ ndim P = nrowdim m /\ forall I J, I < nblk P -> (stored P I J <-> in_pattern m I J)).
Proof.
  pose proof Hwf as (W1 & W2 & W3 & W4 & W5 & W6 & W7). pose proof Hsq as (S1 & S2).
  assert (Hmono : forall I J, I <= J -> J <= nrowblk m -> ci m I <= ci m J). { intros I J H. induction H; intros; [lia|]. assert (Hlt : m0 < nrowblk m) by lia. pose proof (W2 m0 Hlt). lia. }
  unfold SetPattern0. cbn zeta. apply wp_bind. eapply wp_mono; [apply sorted_rows|]. intros r (Lr & R1 & R2 & R3).
  assert (Rlt : forall I c, I < nrowblk m -> ci m I <= c < ci m (S I) -> nth c r 0 < nrowblk m /\ nth c r 0 <> I /\ c < length r).
  { intros I c HI Hc. destruct (R2 I c HI Hc) as (q & Hq & Eq). unfold row_range in Hq. pose proof Hq as Hq'. apply in_seq in Hq'. pose proof (Hmono (S I) (nrowblk m)). 
    assert (Hql : q < length (row_ptr m)) by lia. pose proof (W4 q Hql). split; [lia|]. split; [|lia]. intros C. destruct (Hs I HI) as (_ & HnI). apply HnI. apply in_map_iff. exists q. split; [congruence|auto]. }
  apply wp_bind.
  apply (wp_forn _ (fun i dia => length dia = nrowblk m /\ forall I, I < i -> ci m I <= nth I dia 0 <= ci m (S I) /\ (forall c, ci m I <= c < nth I dia 0 -> nth c r 0 <= I) /\ (nth I dia 0 < ci m (S I) -> I < nth (nth I dia 0) r 0))); [lia| | |].
  - split; [apply vresize_length|]. intros; lia.
  - intros i dia Hi (Ld & H). assert (Hin : i < nrowblk m) by lia. replace (i + 1) with (S i) by lia. rewrite !(vget_nth _ 0 (col_ind m)) by lia. cbn [bind]. rewrite vset_upd by lia. cbn [bind]. rewrite ?(vget_nth _ 0 (col_ind m)) by lia. cbn [bind].
    fold (ci m i). fold (ci m (S i)). pose proof (W2 i Hin).
    eapply wp_mono; [apply (find_dia (col_ind m) r dia i (ci m i) (ci m (S i)) (fun c _ => Some (nth c r 0))); auto; [lia|]|].
    + intros c dd Hc. destruct (Rlt i c Hin Hc) as (A & B & C). rewrite (proj2 (Nat.ltb_lt _ _) C). cbn [assertb bind]. rewrite (vget_nth _ 0) by auto. cbn [bind]. rewrite (proj2 (Nat.ltb_lt _ _) A). cbn [assertb bind]. auto.
    + intros dd (Ldd & Hoth & D1 & D2 & D3). split; [lia|]. intros I HI. assert (I = i \/ I < i) as [-> | HI'] by lia; [auto|]. rewrite Hoth by lia. apply H. auto.
  - intros dia (Ld & H). apply wp_some. split; [|split; [|split; [|split]]]; auto.
    + unfold pattern_ok, cI, dI, cp. cbn [nblk ndim colInd rowPtr diaInd]. split; [auto|]. split; [auto|]. split; [exact H0|]. split; [change (ci m (nrowblk m) = length r); lia|]. split; [intros I HI; apply H; auto|]. split; [|split].
      * intros I c HI Hc. destruct (H I HI) as (D1 & D2 & D3). pose proof (D2 c Hc). fold (ci m I) in *. fold (ci m (S I)) in *. destruct (Rlt I c HI); lia.
      * intros I c HI Hc. destruct (H I HI) as (D1 & D2 & D3). fold (ci m I) in *. fold (ci m (S I)) in *. destruct (Rlt I c HI); [lia|]. split; [|lia].
        assert (Hd : nth I dia 0 < ci m (S I)) by lia. specialize (D3 Hd). assert (c = nth I dia 0 \/ nth I dia 0 < c) as [-> | Hlt] by lia; auto. pose proof (R1 I (nth I dia 0) c HI). lia.
      * intros I c c' HI Hc Hcc Hc'. apply (R1 I); auto.
    + unfold values_ok. cbn [valCrs valDia rowPtr ndim nblk]. rewrite !vresize_length. split; [|lia]. rewrite Lr. lia.
    + intros I J HI. cbn [nblk] in HI. unfold stored, cI, cp. cbn [colInd rowPtr]. split.
      * intros (c & Hc & <-). apply R2; auto.
      * intros Hp. apply R3; auto.
Qed.
End D.
