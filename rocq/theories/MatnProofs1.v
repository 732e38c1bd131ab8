(** Dense kernels on blocks stored inside an array. *)
From Coq Require Import List Arith Bool ZArith Lia Ring.
Import ListNotations.
From Verif Require Import Imp Alg SpProofs1 SpProofs4 MatnModel DtriProofs5.

(** [wp_own] with knowledge of the untouched part. *)
Lemma wp_own2 : forall T (z : T) (own : nat -> nat -> Prop) (R : nat -> T -> T -> Prop) lo hi f (d : list T) (P : list T -> Prop),
  (forall i j k, own i k -> own j k -> i = j) -> lo <= hi ->
  (forall i s, lo <= i < hi -> length s = length d ->
     (forall k, (forall j, lo <= j < i -> ~ own j k) -> nth k s z = nth k d z) ->
     wp (f i s) (fun s' => length s' = length s /\ forall k,
       (own i k -> R k (nth k s z) (nth k s' z)) /\ (~ own i k -> nth k s' z = nth k s z))) ->
  (forall s', length s' = length d ->
     (forall k i, lo <= i < hi -> own i k -> R k (nth k d z) (nth k s' z)) ->
     (forall k, (forall i, lo <= i < hi -> ~ own i k) -> nth k s' z = nth k d z) -> P s') ->
  wp (forn lo hi f d) P.
Proof.
  intros T z own R lo hi f d P Hdis Hle Hstep HP.
  apply (wp_forn _ (fun h s => length s = length d /\
     (forall k i, lo <= i < h -> own i k -> R k (nth k d z) (nth k s z)) /\
     (forall k, (forall i, lo <= i < h -> ~ own i k) -> nth k s z = nth k d z))); auto.
  - split; auto. split; auto. intros; lia.
  - intros i s Hi (L & H1 & H2). eapply wp_mono; [apply Hstep; auto|].
    intros s' (L' & H'). split; [congruence|]. split.
    + intros k j Hj Ho. destruct (Nat.eq_dec j i) as [->|].
      * rewrite <- (H2 k). { apply H'; auto. } intros j' Hj' Ho'. specialize (Hdis _ _ _ Ho Ho'). lia.
      * rewrite (proj2 (H' k)). { apply (H1 k j); auto. lia. } intros Ho'. specialize (Hdis _ _ _ Ho Ho'). lia.
    + intros k Hk. rewrite (proj2 (H' k)) by (apply Hk; lia). apply H2. intros j Hj. apply Hk. lia.
  - intros s' (L & H1 & H2). apply HP; auto.
Qed.

Lemma blk_pos_inj : forall n o a b a' b', a < n -> b < n -> a' < n -> b' < n ->
  o + a * n + b = o + a' * n + b' -> a = a' /\ b = b'.
Proof. intros n o a b a' b' Ha Hb Ha' Hb' E. apply (idx_inj n); auto. lia. Qed.
Lemma blk_pos_in : forall n o a b, a < n -> b < n -> o <= o + a * n + b < o + n * n.
Proof. intros n o a b Ha Hb. pose proof (idx_lt n a n b Ha Hb). lia. Qed.
Lemma blk_pos_ex : forall n o k, o <= k < o + n * n -> exists a b, a < n /\ b < n /\ k = o + a * n + b.
Proof.
  intros n o k H. destruct (flat_decode n n (k - o) ltac:(lia)) as (a & b & Ha & Hb & E). exists a, b. repeat split; auto. lia.
Qed.

Section P.
Variable F : pfield.
Notation K := (pr F).
Add Ring Kr : (rlaws K).
Local Open Scope K_scope.

(** [v'] is [v] with the n*n block at [o] replaced by [N]. *)
Definition blkupd (n : nat) (v v' : list K) (o : nat) (N : nat -> nat -> K) : Prop :=
  length v' = length v /\
  (forall a b, a < n -> b < n -> nth (o + a * n + b) v' 0 = N a b) /\
  (forall k, (k < o \/ o + n * n <= k)%nat -> nth k v' 0 = nth k v 0).

Definition apart (n o o' : nat) : Prop := (o + n * n <= o' \/ o' + n * n <= o)%nat.
Lemma blkupd_other : forall n v v' o N o' a b, blkupd n v v' o N -> apart n o o' -> a < n -> b < n ->
  nth (o' + a * n + b) v' 0 = nth (o' + a * n + b) v 0.
Proof. intros n v v' o N o' a b (_ & _ & H) Ha H1 H2. apply H. pose proof (blk_pos_in n o' a b H1 H2). unfold apart in Ha. lia. Qed.

(** Accumulation into one cell. *)
Lemma cell_loop : forall N p (g : nat -> K) body (v : list K),
  (forall k s, k < N -> length s = length v -> (forall q, q <> p -> nth q s 0 = nth q v 0) ->
     wp (body k s) (fun s' => length s' = length s /\ nth p s' 0 = nth p s 0 + g k /\ forall q, q <> p -> nth q s' 0 = nth q s 0)) ->
  wp (forn 0 N body v) (fun v' => length v' = length v /\ nth p v' 0 = nth p v 0 + sumn N g /\ forall q, q <> p -> nth q v' 0 = nth q v 0).
Proof.
  intros N p g body v H.
  apply (wp_forn _ (fun k v' => length v' = length v /\ nth p v' 0 = nth p v 0 + sumn k g /\ forall q, q <> p -> nth q v' 0 = nth q v 0)); [lia| | |].
  - split; auto. split; auto. rewrite sumn_0. ring.
  - intros k s Hk (L & E & Hq). eapply wp_mono; [apply H; auto; lia|].
    intros s' (L' & E' & Hq'). split; [congruence|]. split.
    + rewrite E', E, sumn_S. ring.
    + intros q Hn. rewrite Hq', Hq; auto.
  - intros s' H'. exact H'.
Qed.

(** A double loop writing cell (i,j) of a block from data outside the block. *)
Lemma block_loop : forall n (v : list K) o (N : nat -> nat -> K) body, (o + n * n <= length v)%nat ->
  (forall i j s, i < n -> j < n -> length s = length v ->
     (forall k, (k < o \/ o + n * n <= k)%nat -> nth k s 0 = nth k v 0) ->
     nth (o + i * n + j) s 0 = nth (o + i * n + j) v 0 ->
     wp (body i j s) (fun s' => length s' = length s /\ nth (o + i * n + j) s' 0 = N i j /\
        forall q, q <> (o + i * n + j)%nat -> nth q s' 0 = nth q s 0)) ->
  wp (forn 0 n (fun i v => forn 0 n (fun j v => body i j v) v) v) (fun v' => blkupd n v v' o N).
Proof.
  intros n v o N body Hlen Hb.
  eapply (wp_own2 _ 0 (fun i k => i < n /\ exists j, j < n /\ k = o + i * n + j)%nat
     (fun k _ x => forall i j, i < n -> j < n -> k = (o + i * n + j)%nat -> x = N i j)).
  - intros i i' k (Hi & j & Hj & ->) (Hi' & j' & Hj' & E). apply blk_pos_inj in E; tauto.
  - lia.
  - intros i s Hi HL Hs.
    eapply (wp_own2 _ 0 (fun j k => j < n /\ k = o + i * n + j)%nat
       (fun k _ x => forall i j, i < n -> j < n -> k = (o + i * n + j)%nat -> x = N i j)).
    + intros j j' k (Hj & ->) (Hj' & E). lia.
    + lia.
    + intros j s' Hj HL' Hs'. eapply wp_mono; [apply Hb; try lia|].
      * intros k Hk. rewrite Hs', Hs; auto.
        -- intros i' Hi' (Hi'' & j' & Hj' & ->). pose proof (blk_pos_in n o i' j' Hi'' Hj'). lia.
        -- intros j' Hj' (Hj'' & ->). pose proof (blk_pos_in n o i j' ltac:(lia) Hj''). lia.
      * rewrite Hs', Hs; auto.
        -- intros i' Hi' (Hi'' & j' & Hj' & E). apply blk_pos_inj in E; lia.
        -- intros j' Hj' (_ & E). lia.
      * intros s'' (L & E & Hq). split; auto. intros k. split.
        -- intros (_ & ->) i' j' Hi' Hj' Ek. apply blk_pos_inj in Ek; try lia. destruct Ek as (<- & <-). auto.
        -- intros Hn. apply Hq. intros ->. apply Hn. split; [lia|auto].
    + intros s' L H1 H2. split; auto. intros k. split.
      * intros (_ & j & Hj & ->). apply (H1 _ j); [lia|]. auto.
      * intros Hn. apply H2. intros j Hj (Hj' & ->). apply Hn. split; [lia|]. eauto.
  - intros v' L H1 H2. split; auto. split.
    + intros a b Ha Hb'. refine (H1 (o + a * n + b)%nat a _ _ a b Ha Hb' eq_refl); [lia|]. split; auto. eauto.
    + intros k Hk. apply H2. intros i Hi (Hi' & j & Hj & ->). pose proof (blk_pos_in n o i j Hi' Hj). lia.
Qed.

Lemma apart_get : forall n o o' a b (s v : list K), apart n o o' -> a < n -> b < n ->
  (forall k, (k < o \/ o + n * n <= k)%nat -> nth k s 0 = nth k v 0) -> nth (o' + a * n + b) s 0 = nth (o' + a * n + b) v 0.
Proof. intros n o o' a b s v Ha H1 H2 H. apply H. pose proof (blk_pos_in n o' a b H1 H2). unfold apart in Ha. lia. Qed.

Lemma Sub_MatMat_ok : forall n (v : list K) oij oik okj,
  (oij + n * n <= length v)%nat -> (oik + n * n <= length v)%nat -> (okj + n * n <= length v)%nat ->
  apart n oij oik -> apart n oij okj ->
  wp (Sub_MatMat n v oij oik okj) (fun v' => blkupd n v v' oij (fun a b =>
     nth (oij + a * n + b) v 0 - sumn n (fun k => nth (oik + a * n + k) v 0 * nth (okj + k * n + b) v 0))).
Proof.
  intros n v oij oik okj L1 L2 L3 A1 A2. unfold Sub_MatMat.
  apply (block_loop n v oij _ (fun i j v => forn 0 n (fun k v =>
    a <- vget v (oik + i * n + k) ;; b <- vget v (okj + k * n + j) ;;
    vmod v (oij + i * n + j) (fun t => t - a * b)) v) L1).
  intros i j s Hi Hj HL Hs Hp.
  pose proof (blk_pos_in n oij i j Hi Hj) as Pij.
  eapply wp_mono; [apply (cell_loop n (oij + i * n + j) (fun k => - (nth (oik + i * n + k) v 0 * nth (okj + k * n + j) v 0)))|].
  - intros k s' Hk HL' Hs'.
    pose proof (blk_pos_in n oik i k Hi Hk) as Pik. pose proof (blk_pos_in n okj k j Hk Hj) as Pkj.
    rewrite !(vget_nth _ 0) by lia. cbn [bind].
    rewrite !Hs' by (unfold apart in *; lia).
    rewrite (apart_get n oij oik i k s v), (apart_get n oij okj k j s v) by auto.
    apply (wp_vmod _ 0); [lia|]. lens. split; auto. split; [rewrite nth_upd_same by lia; ring|].
    intros q Hq. apply nth_upd_other. auto.
  - intros s' (L & E & Hq). split; auto. split; auto. rewrite E, Hp.
    rewrite (sumn_ext _ n (fun k => - _) (fun k => (- (1)) * (nth (oik + i * n + k) v 0 * nth (okj + k * n + j) v 0))) by (intros; ring).
    rewrite sumn_mull. ring.
Qed.

Lemma MatMat_ok : forall n (v w : list K) oC oA oB,
  (oC + n * n <= length v)%nat -> (oA + n * n <= length v)%nat -> (oB + n * n <= length w)%nat -> apart n oC oA ->
  wp (MatMat n v oC oA w oB) (fun v' => blkupd n v v' oC (fun a b =>
     sumn n (fun k => nth (oA + a * n + k) v 0 * nth (oB + k * n + b) w 0))).
Proof.
  intros n v w oC oA oB L1 L2 L3 A1. unfold MatMat.
  apply (block_loop n v oC _ (fun i j v => v <- vset v (oC + i * n + j) 0 ;;
    forn 0 n (fun k v => a <- vget v (oA + i * n + k) ;; b <- vget w (oB + k * n + j) ;;
      vmod v (oC + i * n + j) (fun t => t + a * b)) v) L1).
  intros i j s Hi Hj HL Hs Hp.
  pose proof (blk_pos_in n oC i j Hi Hj) as Pij.
  apply wp_bind. apply wp_vset; [lia|].
  eapply wp_mono; [apply (cell_loop n (oC + i * n + j) (fun k => (nth (oA + i * n + k) v 0 * nth (oB + k * n + j) w 0)))|].
  - intros k s' Hk HL' Hs'. lens.
    pose proof (blk_pos_in n oA i k Hi Hk) as Pik. pose proof (blk_pos_in n oB k j Hk Hj) as Pkj.
    rewrite !(vget_nth _ 0) by lia. cbn [bind].
    rewrite !Hs' by (unfold apart in *; lia). rewrite nth_upd_other by (unfold apart in *; lia).
    rewrite (apart_get n oC oA i k s v) by auto.
    apply (wp_vmod _ 0); [lia|]. lens. split; auto. split; [rewrite nth_upd_same by lia; ring|].
    intros q Hq. apply nth_upd_other. auto.
  - intros s' (L & E & Hq). lens. split; auto. split.
    + rewrite E, nth_upd_same by lia. ring.
    + intros q Hn. rewrite Hq by auto. apply nth_upd_other. auto.
Qed.

(** Vectors. *)
Definition segupd (n : nat) (v v' : list K) (o : nat) (N : nat -> K) : Prop :=
  length v' = length v /\ (forall a, a < n -> nth (o + a) v' 0 = N a) /\
  (forall k, (k < o \/ o + n <= k)%nat -> nth k v' 0 = nth k v 0).

Lemma seg_loop : forall n (v : list K) o (N : nat -> K) body, (o + n <= length v)%nat ->
  (forall i s, i < n -> length s = length v ->
     (forall k, (k < o \/ o + n <= k)%nat -> nth k s 0 = nth k v 0) -> nth (o + i) s 0 = nth (o + i) v 0 ->
     wp (body i s) (fun s' => length s' = length s /\ nth (o + i) s' 0 = N i /\
        forall q, q <> (o + i)%nat -> nth q s' 0 = nth q s 0)) ->
  wp (forn 0 n body v) (fun v' => segupd n v v' o N).
Proof.
  intros n v o N body Hlen Hb.
  eapply (wp_own2 _ 0 (fun i k => i < n /\ k = o + i)%nat (fun k _ x => forall i, i < n -> k = (o + i)%nat -> x = N i)).
  - intros i i' k (Hi & ->) (Hi' & E). lia.
  - lia.
  - intros i s Hi HL Hs. eapply wp_mono; [apply Hb; try lia|].
    + intros k Hk. apply Hs. intros j Hj (_ & ->). lia.
    + apply Hs. intros j Hj (_ & E). lia.
    + intros s' (L & E & Hq). split; auto. intros k. split.
      * intros (_ & ->) i' Hi' Ei. assert (i' = i) by lia. subst. auto.
      * intros Hn. apply Hq. intros ->. apply Hn. split; [lia|auto].
  - intros v' L H1 H2. split; auto. split.
    + intros a Ha. refine (H1 (o + a)%nat a _ _ a Ha eq_refl); [lia|auto].
    + intros k Hk. apply H2. intros i Hi (_ & ->). lia.
Qed.

Lemma MatVecN_ok : forall n (res v x : list K) oy oA ox,
  (oy + n <= length res)%nat -> (oA + n * n <= length v)%nat -> (ox + n <= length x)%nat ->
  wp (MatVecN n res oy v oA x ox) (fun r => segupd n res r oy (fun a =>
     sumn n (fun b => nth (oA + a * n + b) v 0 * nth (ox + b) x 0))).
Proof.
  intros n res v x oy oA ox L1 L2 L3. unfold MatVecN. apply seg_loop; auto.
  intros i s Hi HL Hs Hp. apply wp_bind. apply wp_vset; [lia|].
  eapply wp_mono; [apply (cell_loop n (oy + i) (fun b => nth (oA + i * n + b) v 0 * nth (ox + b) x 0))|].
  - intros k s' Hk HL' Hs'. lens. pose proof (blk_pos_in n oA i k Hi Hk).
    rewrite !(vget_nth _ 0) by lia. cbn [bind]. apply (wp_vmod _ 0); [lia|]. lens. split; auto.
    split; [rewrite nth_upd_same by lia; ring|]. intros q Hq. apply nth_upd_other. auto.
  - intros s' (L & E & Hq). lens. split; auto. split.
    + rewrite E, nth_upd_same by lia. ring.
    + intros q Hn. rewrite Hq by auto. apply nth_upd_other. auto.
Qed.

Lemma Sub_MatVecN_ok : forall n (res v x : list K) oy oA ox,
  (oy + n <= length res)%nat -> (oA + n * n <= length v)%nat -> (ox + n <= length x)%nat ->
  wp (Sub_MatVecN n res oy v oA x ox) (fun r => segupd n res r oy (fun a =>
     nth (oy + a) res 0 - sumn n (fun b => nth (oA + a * n + b) v 0 * nth (ox + b) x 0))).
Proof.
  intros n res v x oy oA ox L1 L2 L3. unfold Sub_MatVecN. apply seg_loop; auto.
  intros i s Hi HL Hs Hp.
  eapply wp_mono; [apply (cell_loop n (oy + i) (fun b => - (nth (oA + i * n + b) v 0 * nth (ox + b) x 0)))|].
  - intros k s' Hk HL' Hs'. lens. pose proof (blk_pos_in n oA i k Hi Hk).
    rewrite !(vget_nth _ 0) by lia. cbn [bind]. apply (wp_vmod _ 0); [lia|]. lens. split; auto.
    split; [rewrite nth_upd_same by lia; ring|]. intros q Hq. apply nth_upd_other. auto.
  - intros s' (L & E & Hq). lens. split; auto. split; auto. rewrite E, Hp.
    rewrite (sumn_ext _ n (fun b => - _) (fun b => (- (1)) * (nth (oA + i * n + b) v 0 * nth (ox + b) x 0))) by (intros; ring).
    rewrite sumn_mull. ring.
Qed.
Lemma Sub_MatVecN_in_ok : forall n (res v : list K) oy oA ox,
  (oy + n <= length res)%nat -> (oA + n * n <= length v)%nat -> (ox + n <= length res)%nat -> (ox + n <= oy \/ oy + n <= ox)%nat ->
  wp (Sub_MatVecN_in n res oy v oA ox) (fun r => segupd n res r oy (fun a =>
     nth (oy + a) res 0 - sumn n (fun b => nth (oA + a * n + b) v 0 * nth (ox + b) res 0))).
Proof.
  intros n res v oy oA ox L1 L2 L3 HA. unfold Sub_MatVecN_in. apply seg_loop; auto.
  intros i s Hi HL Hs Hp.
  eapply wp_mono; [apply (cell_loop n (oy + i) (fun b => - (nth (oA + i * n + b) v 0 * nth (ox + b) res 0)))|].
  - intros k s' Hk HL' Hs'. lens. pose proof (blk_pos_in n oA i k Hi Hk).
    rewrite !(vget_nth _ 0) by lia. cbn [bind]. rewrite Hs', Hs by lia.
    apply (wp_vmod _ 0); [lia|]. lens. split; auto.
    split; [rewrite nth_upd_same by lia; ring|]. intros q Hq. apply nth_upd_other. auto.
  - intros s' (L & E & Hq). lens. split; auto. split; auto. rewrite E, Hp.
    rewrite (sumn_ext _ n (fun b => - _) (fun b => (- (1)) * (nth (oA + i * n + b) v 0 * nth (ox + b) res 0))) by (intros; ring).
    rewrite sumn_mull. ring.
Qed.
End P.
Arguments blkupd {F}. Arguments segupd {F}.
