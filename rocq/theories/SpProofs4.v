(** Pointwise updates of block sparse matrices: boundary conditions, scaling, diagonal shift, zeroing, pattern. *)
From Coq Require Import List Arith Lia Bool ZArith Ring.
Import ListNotations.
From Verif Require Import Imp Alg SpModel SpSpec SpProofs1.

(** A loop whose iterations touch disjoint sets of positions. *)
Lemma wp_own : forall T (z : T) (own : nat -> nat -> Prop) (R : nat -> T -> T -> Prop) lo hi f (d : list T) (P : list T -> Prop),
  (forall i j k, own i k -> own j k -> i = j) -> lo <= hi ->
  (forall i s, lo <= i < hi -> length s = length d ->
     wp (f i s) (fun s' => length s' = length s /\ forall k,
       (own i k -> R k (nth k s z) (nth k s' z)) /\ (~ own i k -> nth k s' z = nth k s z))) ->
  (forall s', length s' = length d ->
     (forall k i, lo <= i < hi -> own i k -> R k (nth k d z) (nth k s' z)) ->
     (forall k, (forall i, lo <= i < hi -> ~ own i k) -> nth k s' z = nth k d z) -> P s') ->
  wp (forn lo hi f d) P.
Proof.
  intros T z own R lo hi f d P Hdis Hle Hstep HP.
  apply (wp_forn _ (fun h s => length s = length d /\
     (forall k i, lo <= i < h -> own i k -> R k (nth k d z) (nth k s z)) /\
     (forall k, (forall i, lo <= i < h -> ~ own i k) -> nth k s z = nth k d z))); auto.
  - split; auto. split; auto. intros; lia.
  - intros i s Hi (L & H1 & H2). eapply wp_mono; [apply Hstep; auto|].
    intros s' (L' & H'). split; [congruence|]. split.
    + intros k j Hj Ho. destruct (Nat.eq_dec j i) as [->|].
      * rewrite <- (H2 k). { apply H'; auto. } intros j' Hj' Ho'. specialize (Hdis _ _ _ Ho Ho'). lia.
      * rewrite (proj2 (H' k)). { apply (H1 k j); auto. lia. } intros Ho'. specialize (Hdis _ _ _ Ho Ho'). lia.
    + intros k Hk. rewrite (proj2 (H' k)) by (apply Hk; lia). apply H2. intros j Hj. apply Hk. lia.
  - intros s' (L & H1 & H2). apply HP; auto.
Qed.

Lemma idx3_inj : forall n m I a b I' a' b', a < n -> b < m -> a' < n -> b' < m ->
  I * (n * m) + a * m + b = I' * (n * m) + a' * m + b' -> I = I' /\ a = a' /\ b = b'.
Proof.
  intros n m I a b I' a' b' Ha Hb Ha' Hb' E. rewrite <- !Nat.add_assoc in E.
  apply idx_inj in E; [|apply idx_lt; auto|apply idx_lt; auto]. destruct E as (-> & E).
  apply idx_inj in E; auto.
Qed.

Section P.
Variable K : cring.
Add Ring Kr : (rlaws K).
Local Open Scope K_scope.

Lemma vset_own : forall (s : list K) i v, i < length s ->
  wp (vset s i v) (fun s' => length s' = length s /\ forall k, (k = i -> nth k s' 0 = v) /\ (k <> i -> nth k s' 0 = nth k s 0)).
Proof.
  intros. apply wp_vset; auto. lens. split; auto. intros k. rewrite nth_upd by auto.
  destruct (Nat.eq_dec i k); split; intros; auto; lia.
Qed.
Lemma vmod_own : forall (s : list K) i g, i < length s ->
  wp (vmod s i g) (fun s' => length s' = length s /\ forall k, (k = i -> nth k s' 0 = g (nth k s 0)) /\ (k <> i -> nth k s' 0 = nth k s 0)).
Proof.
  intros. apply (wp_vmod _ 0); auto. lens. split; auto. intros k. rewrite nth_upd by auto.
  destruct (Nat.eq_dec i k); split; intros; subst; auto; lia.
Qed.

Variable A : matsp K.
Hypothesis WF : wf A.
Notation nr := (nrowdim A).
Notation nc := (ncoldim A).
Notation pos c a b := (c * (nr * nc) + a * nc + b)%nat.

Lemma ci_mono : forall I J, I <= J -> J <= nrowblk A -> ci A I <= ci A J.
Proof.
  destruct WF as (_ & HM & _). intros I J H. induction H; intros; auto. specialize (HM m ltac:(lia)). lia.
Qed.
Lemma row_disj : forall I J c, I < nrowblk A -> J < nrowblk A -> In c (row_range A I) -> In c (row_range A J) -> I = J.
Proof.
  intros I J c HI HJ H1 H2. apply in_seq in H1. apply in_seq in H2.
  destruct (lt_eq_lt_dec I J) as [[H|H]|H]; auto.
  - pose proof (ci_mono (S I) J ltac:(lia) ltac:(lia)). lia.
  - pose proof (ci_mono (S J) I ltac:(lia) ltac:(lia)). lia.
Qed.

(** Loop over all stored blocks, row by row. *)
Lemma wp_rows : forall (R : nat -> K -> K -> Prop) (f : nat -> nat -> list K -> option (list K)) (P : list K -> Prop),
  (forall I c s, I < nrowblk A -> In c (row_range A I) -> length s = length (val_crs A) ->
     wp (f I c s) (fun s' => length s' = length s /\
       (forall a b, a < nr -> b < nc -> R (pos c a b) (nth (pos c a b) s 0) (nth (pos c a b) s' 0)) /\
       (forall k, (forall a b, a < nr -> b < nc -> k <> pos c a b) -> nth k s' 0 = nth k s 0))) ->
  (forall s', length s' = length (val_crs A) ->
     (forall I c a b, I < nrowblk A -> In c (row_range A I) -> a < nr -> b < nc ->
        R (pos c a b) (nth (pos c a b) (val_crs A) 0) (nth (pos c a b) s' 0)) -> P s') ->
  wp (forn 0 (nrowblk A) (fun iblk s =>
        lo <- vget (col_ind A) iblk ;; hi <- vget (col_ind A) (iblk + 1) ;;
        forn lo hi (fun icrs s => f iblk icrs s) s) (val_crs A)) P.
Proof.
  intros R f P Hb HP.
  eapply (wp_own _ 0 (fun I k => I < nrowblk A /\ exists c a b, In c (row_range A I) /\ a < nr /\ b < nc /\ k = pos c a b) R).
  - intros I J k (HI & c & a & b & Hc & Ha & Hb1 & ->) (HJ & c' & a' & b' & Hc' & Ha' & Hb' & E).
    apply idx3_inj in E; auto. destruct E as (-> & -> & ->). eapply row_disj; eauto.
  - lia.
  - intros I s HI HL. rewrite !(wf_ci _ _ WF) by lia. cbn [bind]. rewrite Nat.add_1_r.
    eapply (wp_own _ 0 (fun c k => exists a b, a < nr /\ b < nc /\ k = pos c a b) R).
    + intros c c' k (a & b & Ha & Hb1 & ->) (a' & b' & Ha' & Hb' & E). apply idx3_inj in E; tauto.
    + destruct WF as (_ & HM & _). apply HM. lia.
    + intros c s' Hc HL'. eapply wp_mono; [apply Hb; auto; [lia| |congruence]|].
      { apply in_seq. lia. }
      intros s'' (L & H1 & H2). split; auto. intros k. split.
      * intros (a & b & Ha & Hb1 & ->). auto.
      * intros Hn. apply H2. intros a b Ha Hb1 ->. apply Hn. eauto.
    + intros s' L H1 H2. split; auto. intros k. split.
      * intros (_ & c & a & b & Hc & Ha & Hb1 & ->). apply (H1 _ c); eauto. apply in_seq in Hc. lia.
      * intros Hn. apply H2. intros c Hc (a & b & Ha & Hb1 & ->). apply Hn. split; [lia|]. exists c, a, b.
        repeat split; auto. apply in_seq. lia.
  - intros s' L H1 H2. apply HP; auto. intros I c a b HI Hc Ha Hb1. apply (H1 _ I); [lia|]. split; auto. exists c, a, b. auto.
Qed.

(** Loop over diagonal blocks. *)
Lemma wp_dias : forall (R : nat -> K -> K -> Prop) (f : nat -> list K -> option (list K)) (d : list K) (P : list K -> Prop),
  (forall I s, I < nrowblk A -> length s = length d ->
     wp (f I s) (fun s' => length s' = length s /\
       (forall a b, a < nr -> b < nc -> R (pos I a b) (nth (pos I a b) s 0) (nth (pos I a b) s' 0)) /\
       (forall k, (forall a b, a < nr -> b < nc -> k <> pos I a b) -> nth k s' 0 = nth k s 0))) ->
  (forall s', length s' = length d ->
     (forall I a b, I < nrowblk A -> a < nr -> b < nc ->
        R (pos I a b) (nth (pos I a b) d 0) (nth (pos I a b) s' 0)) -> P s') ->
  wp (forn 0 (nrowblk A) f d) P.
Proof.
  intros R f d P Hb HP.
  eapply (wp_own _ 0 (fun I k => exists a b, a < nr /\ b < nc /\ k = pos I a b) R).
  - intros I J k (a & b & Ha & Hb1 & ->) (a' & b' & Ha' & Hb' & E). apply idx3_inj in E; tauto.
  - lia.
  - intros I s HI HL. eapply wp_mono; [apply Hb; auto; lia|]. intros s'' (L & H1 & H2). split; auto. intros k. split.
    + intros (a & b & Ha & Hb1 & ->). auto.
    + intros Hn. apply H2. intros a b Ha Hb1 ->. apply Hn. eauto.
  - intros s' L H1 H2. apply HP; auto. intros I a b HI Ha Hb1. apply (H1 _ I); [lia|]. eauto.
Qed.

(** A double loop over one block. *)
Lemma wp_block2 : forall (R : nat -> K -> K -> Prop) c (f : nat -> nat -> list K -> option (list K)) (s : list K),
  (forall a b s', a < nr -> b < nc -> length s' = length s -> wp (f a b s') (fun s'' => length s'' = length s' /\
      forall k, (k = pos c a b -> R k (nth k s' 0) (nth k s'' 0)) /\ (k <> pos c a b -> nth k s'' 0 = nth k s' 0))) ->
  wp (forn 0 nr (fun a s => forn 0 nc (fun b s => f a b s) s) s) (fun s' => length s' = length s /\
       (forall a b, a < nr -> b < nc -> R (pos c a b) (nth (pos c a b) s 0) (nth (pos c a b) s' 0)) /\
       (forall k, (forall a b, a < nr -> b < nc -> k <> pos c a b) -> nth k s' 0 = nth k s 0)).
Proof.
  intros R c f s Hf.
  eapply (wp_own _ 0 (fun a k => a < nr /\ exists b, b < nc /\ k = pos c a b) R).
  - intros a a' k (Ha & b & Hb & ->) (Ha' & b' & Hb' & E). apply idx3_inj in E; tauto.
  - lia.
  - intros a s' Ha HL.
    eapply (wp_own _ 0 (fun b k => k = pos c a b) R).
    + intros; lia.
    + lia.
    + intros b s'' Hb HL'. apply Hf; try lia.
    + intros s'' L H1 H2. split; auto. intros k. split.
      * intros (_ & b & Hb & ->). apply (H1 _ b); auto. lia.
      * intros Hn. apply H2. intros b Hb ->. apply Hn. split; [lia|]. exists b. split; auto. lia.
  - intros s' L H1 H2. split; auto. split.
    + intros a b Ha Hb. apply (H1 _ a); [lia|]. eauto.
    + intros k Hk. apply H2. intros a Ha (_ & b & Hb & ->). apply (Hk a b); auto. lia.
Qed.

Lemma pos_crs : forall I c a b, I < nrowblk A -> In c (row_range A I) -> a < nr -> b < nc -> pos c a b < length (val_crs A).
Proof.
  intros. pose proof (wf_range _ _ WF _ _ H H0). destruct WF as (_ & _ & _ & _ & E & _). rewrite E. apply idx3_lt; auto.
Qed.
Lemma pos_dia : forall I a b, I < nrowblk A -> a < nr -> b < nc -> pos I a b < length (val_dia A).
Proof. intros. destruct WF as (_ & _ & _ & _ & _ & E & _). rewrite E. apply idx3_lt; auto. Qed.
Lemma wf_vget_rp : forall I c, I < nrowblk A -> In c (row_range A I) -> vget (row_ptr A) c = Some (rp A c) /\ rp A c < ncolblk A.
Proof. intros. apply (wf_rp _ _ WF). eapply wf_range; eauto. Qed.

(** --- scaling --- *)
Lemma ScaleBlkLen_ok : square A -> forall sc : list K, length sc = (nrowblk A * nr)%nat ->
  wp (ScaleBlkLen_LeftRight A sc) (fun B => same_pattern A B /\ wf B /\
    forall I a J b, I < nrowblk A -> J < nrowblk A -> a < nr -> b < nr ->
      dense B I a J b = (nth (I * nr + a) sc 0 * nth (J * nr + b) sc 0) * dense A I a J b).
Proof.
  intros (SQ1 & SQ2) sc Hsc. unfold ScaleBlkLen_LeftRight.
  apply wp_bind, wp_assertb; [apply Nat.eqb_eq; auto|]. apply wp_bind, wp_assertb; [apply Nat.eqb_eq; auto|].
  cbv zeta. apply wp_bind.
  pose (R1 := fun k (o n : K) => forall I c a b, I < nrowblk A -> In c (row_range A I) -> a < nr -> b < nc -> k = pos c a b ->
     n = o * (nth (I * nr + a) sc 0 * nth (rp A c * nr + b) sc 0)).
  pose (R2 := fun k (o n : K) => forall I a b, I < nrowblk A -> a < nr -> b < nc -> k = pos I a b ->
        n = o * (nth (I * nr + a) sc 0 * nth (I * nr + b) sc 0)).
  eapply (wp_rows R1
     (fun ino icrs0 c => jno <- vget (row_ptr A) icrs0 ;;
      forn 0 nr (fun ilen c => forn 0 nr (fun jlen c =>
        a <- vget sc (ino * nr + ilen) ;; b <- vget sc (jno * nr + jlen) ;;
        vmod c (icrs0 * (nr * nr) + ilen * nr + jlen) (fun t => t * (a * b))) c) c)).
  - intros I c s HI Hc HL. destruct (wf_vget_rp _ _ HI Hc) as (Ev & Hrp). rewrite Ev. cbn [bind].
    replace (forn 0 nr (fun ilen c0 => forn 0 nr (fun jlen c1 =>
        a <- vget sc (I * nr + ilen) ;; b <- vget sc (rp A c * nr + jlen) ;;
        vmod c1 (c * (nr * nr) + ilen * nr + jlen) (fun t => t * (a * b))) c0) s)
      with (forn 0 nr (fun ilen c0 => forn 0 nc (fun jlen c1 =>
        a <- vget sc (I * nr + ilen) ;; b <- vget sc (rp A c * nr + jlen) ;;
        vmod c1 (c * (nr * nc) + ilen * nc + jlen) (fun t => t * (a * b))) c0) s) by (rewrite <- SQ2; auto).
    apply (wp_block2 R1). intros a b s' Ha Hb HL'.
    rewrite !(vget_nth _ 0) by (rewrite Hsc; nia). cbn [bind].
    eapply wp_mono; [apply vmod_own; rewrite HL', HL; eapply pos_crs; eauto|].
    intros s'' (L & H). split; auto. intros k. split; [|apply H].
    intros -> I' c' a' b' HI' Hc' Ha' Hb' E. apply idx3_inj in E; auto. destruct E as (<- & <- & <-).
    rewrite (row_disj I' I c) by auto. apply H. auto.
  - intros c' Lc Hc'. apply wp_bind.
    assert (HD : forall d', length d' = length (val_dia A) ->
      (forall I a b, I < nrowblk A -> a < nr -> b < nc ->
         nth (pos I a b) d' 0 = nth (pos I a b) (val_dia A) 0 * (nth (I * nr + a) sc 0 * nth (I * nr + b) sc 0)) ->
      wp (Some (mkM (nrowblk A) (ncolblk A) nr nc (col_ind A) (row_ptr A) c' d'))
       (fun B => same_pattern A B /\ wf B /\
         forall I a J b, I < nrowblk A -> J < nrowblk A -> a < nr -> b < nr ->
         dense B I a J b = (nth (I * nr + a) sc 0 * nth (J * nr + b) sc 0) * dense A I a J b)).
    { intros d' Ld Hd. apply wp_some. split; [repeat split|]. split.
      { destruct WF as (W1 & W2 & W3 & W4 & W5 & W6 & W7). repeat split; auto; cbn; congruence. }
      intros I a J b HI HJ Ha Hb. unfold dense, row_range, crs, dia, ci, rp; cbn [nrowdim ncoldim col_ind row_ptr val_crs val_dia].
      fold (ci A I) (ci A (S I)). fold (row_range A I). rewrite SQ2 in Hb.
      rewrite (bigsum_ext _ _ _ _ (fun c => (nth (I * nr + a) sc 0 * nth (J * nr + b) sc 0) *
         (if rp A c =? J then nth (pos c a b) (val_crs A) 0 else 0))).
      - rewrite bigsum_mull. fold (rp A). destruct (Nat.eqb_spec I J) as [->|]; [rewrite Hd by auto|]; unfold rp; ring.
      - intros c Hc. fold (rp A c). destruct (Nat.eqb_spec (rp A c) J) as [<-|]; [|ring].
        rewrite (Hc' I c a b HI Hc Ha Hb I c a b HI Hc Ha Hb eq_refl). ring. }
    destruct (Nat.eqb_spec (length (val_dia A)) 0) as [E0|E0].
    + apply wp_some. apply HD; auto. intros I a b HI Ha Hb. pose proof (pos_dia I a b HI Ha Hb). lia.
    + eapply (wp_dias R2).
      * intros I s HI HL.
        replace (forn 0 nr (fun ilen d => forn 0 nr (fun jlen d =>
          a <- vget sc (I * nr + ilen) ;; b <- vget sc (I * nr + jlen) ;;
          vmod d (I * (nr * nr) + ilen * nr + jlen) (fun t => t * (a * b))) d) s)
        with (forn 0 nr (fun ilen d => forn 0 nc (fun jlen d =>
          a <- vget sc (I * nr + ilen) ;; b <- vget sc (I * nr + jlen) ;;
          vmod d (I * (nr * nc) + ilen * nc + jlen) (fun t => t * (a * b))) d) s) by (rewrite <- SQ2; auto).
        apply (wp_block2 R2). intros a b s' Ha Hb HL'.
        rewrite !(vget_nth _ 0) by (rewrite Hsc; nia). cbn [bind].
        eapply wp_mono; [apply vmod_own; rewrite HL', HL; apply pos_dia; auto|].
        intros s'' (L & H). split; auto. intros k. split; [|apply H].
        intros -> I' a' b' HI' Ha' Hb' E. apply idx3_inj in E; auto. destruct E as (<- & <- & <-). apply H. auto.
      * intros d' Ld Hd. apply HD; auto. intros I a b HI Ha Hb. eapply Hd; eauto.
Qed.

Ltac posfix E := repeat match goal with |- context [ (?x * (nr * nc) + ?i * nr + ?j)%nat ] =>
  replace (x * (nr * nc) + i * nr + j)%nat with (pos x i j)%nat by (rewrite E; reflexivity) end.

(** The matrix with new numbers. *)
Lemma dense_mk : forall c' d' : list K, length c' = length (val_crs A) -> length d' = length (val_dia A) ->
  let B := mkM (nrowblk A) (ncolblk A) nr nc (col_ind A) (row_ptr A) c' d' in
  same_pattern A B /\ wf B /\
  forall I a J b, dense B I a J b =
    bigsum (row_range A I) (fun c => if rp A c =? J then nth (pos c a b) c' 0 else 0)
    + (if I =? J then nth (pos I a b) d' 0 else 0).
Proof.
  intros c' d' Lc Ld B. split; [repeat split|]. split; [|reflexivity].
  destruct WF as (W1 & W2 & W3 & W4 & W5 & W6 & W7). repeat split; auto; cbn; congruence.
Qed.

Lemma flat_decode : forall n m i, i < n * m -> exists a b, a < n /\ b < m /\ i = (a * m + b)%nat.
Proof.
  intros n m i H. assert (m <> 0%nat) by (intro; subst; lia). exists (i / m)%nat, (i mod m)%nat.
  pose proof (Nat.div_mod i m H0). pose proof (Nat.mod_upper_bound i m H0).
  split; [|split; [auto|lia]]. apply Nat.div_lt_upper_bound; auto. lia.
Qed.

Lemma wp_flat : forall (R : nat -> K -> K -> Prop) c (g : nat -> K -> K) (s : list K),
  (forall a b, a < nr -> b < nc -> pos c a b < length s) ->
  (forall a b o, a < nr -> b < nc -> R (pos c a b) o (g (pos c a b) o)) ->
  wp (forn 0 (nr * nc) (fun i s => vmod s (c * (nr * nc) + i) (g (c * (nr * nc) + i)%nat)) s) (fun s' => length s' = length s /\
       (forall a b, a < nr -> b < nc -> R (pos c a b) (nth (pos c a b) s 0) (nth (pos c a b) s' 0)) /\
       (forall k, (forall a b, a < nr -> b < nc -> k <> pos c a b) -> nth k s' 0 = nth k s 0)).
Proof.
  intros R c g s Hlen HR.
  eapply (wp_own _ 0 (fun i k => k = c * (nr * nc) + i)%nat (fun k o n => n = g k o)).
  - intros; lia.
  - lia.
  - intros i s' Hi HL. eapply wp_mono; [apply vmod_own|].
    + destruct (flat_decode nr nc i ltac:(lia)) as (a & b & Ha & Hb & ->). rewrite HL. rewrite Nat.add_assoc. auto.
    + intros s'' (L & H). split; auto. intros k. split; [|apply H]. intros ->. apply H. auto.
  - intros s' L H1 H2. split; auto. split.
    + intros a b Ha Hb. rewrite (H1 _ (a * nc + b)%nat); auto.
      * pose proof (idx_lt nc a nr b Ha Hb). lia.
      * lia.
    + intros k Hk. apply H2. intros i Hi ->. destruct (flat_decode nr nc i ltac:(lia)) as (a & b & Ha & Hb & ->).
      apply (Hk a b Ha Hb). lia.
Qed.

Lemma ScaleBlk_ok : square A -> forall sc : list K, length sc = nrowblk A ->
  wp (ScaleBlk_LeftRight A sc) (fun B => same_pattern A B /\ wf B /\
    forall I a J b, I < nrowblk A -> J < nrowblk A -> a < nr -> b < nr ->
      dense B I a J b = (nth I sc 0 * nth J sc 0) * dense A I a J b).
Proof.
  intros (SQ1 & SQ2) sc Hsc. unfold ScaleBlk_LeftRight.
  apply wp_bind, wp_assertb; [apply Nat.eqb_eq; auto|]. apply wp_bind, wp_assertb; [apply Nat.eqb_eq; auto|].
  cbv zeta. apply wp_bind.
  replace (nr * nr)%nat with (nr * nc)%nat by (rewrite SQ2; auto).
  pose (R1 := fun k (o n : K) => forall I c a b, I < nrowblk A -> In c (row_range A I) -> a < nr -> b < nc -> k = pos c a b ->
     n = o * (nth I sc 0 * nth (rp A c) sc 0)).
  pose (R2 := fun k (o n : K) => forall I a b, I < nrowblk A -> a < nr -> b < nc -> k = pos I a b ->
        n = o * (nth I sc 0 * nth I sc 0)).
  eapply (wp_rows R1
     (fun ino icrs0 c => jno <- vget (row_ptr A) icrs0 ;;
      a <- vget sc ino ;; b <- vget sc jno ;;
      forn 0 (nr * nc) (fun i c => vmod c (icrs0 * (nr * nc) + i) (fun t => t * (a * b))) c)).
  - intros I c s HI Hc HL. destruct (wf_vget_rp _ _ HI Hc) as (Ev & Hrp). rewrite Ev. cbn [bind].
    rewrite !(vget_nth _ 0) by lia. cbn [bind].
    apply (wp_flat R1 c (fun _ t => t * (nth I sc 0 * nth (rp A c) sc 0))).
    + intros a b Ha Hb. rewrite HL. eapply pos_crs; eauto.
    + intros a b o Ha Hb I' c' a' b' HI' Hc' Ha' Hb' E. apply idx3_inj in E; auto. destruct E as (<- & <- & <-).
      rewrite (row_disj I' I c) by auto. auto.
  - intros c' Lc Hc'. apply wp_bind.
    assert (HD : forall d', length d' = length (val_dia A) ->
      (forall I a b, I < nrowblk A -> a < nr -> b < nc ->
         nth (pos I a b) d' 0 = nth (pos I a b) (val_dia A) 0 * (nth I sc 0 * nth I sc 0)) ->
      wp (Some (mkM (nrowblk A) (ncolblk A) nr nc (col_ind A) (row_ptr A) c' d'))
       (fun B => same_pattern A B /\ wf B /\
         forall I a J b, I < nrowblk A -> J < nrowblk A -> a < nr -> b < nr ->
         dense B I a J b = (nth I sc 0 * nth J sc 0) * dense A I a J b)).
    { intros d' Ld Hd. apply wp_some. destruct (dense_mk c' d' Lc Ld) as (H1 & H2 & H3). split; auto. split; auto.
      intros I a J b HI HJ Ha Hb. rewrite H3. unfold dense, crs, dia. rewrite SQ2 in Hb.
      rewrite (bigsum_ext _ _ _ _ (fun c => (nth I sc 0 * nth J sc 0) *
         (if rp A c =? J then nth (pos c a b) (val_crs A) 0 else 0))).
      - rewrite bigsum_mull. destruct (Nat.eqb_spec I J) as [->|]; [rewrite Hd by auto|]; ring.
      - intros c Hc. destruct (Nat.eqb_spec (rp A c) J) as [<-|]; [|ring].
        rewrite (Hc' I c a b HI Hc Ha Hb I c a b HI Hc Ha Hb eq_refl). ring. }
    destruct (Nat.eqb_spec (length (val_dia A)) 0) as [E0|E0].
    + apply wp_some. apply HD; auto. intros I a b HI Ha Hb. pose proof (pos_dia I a b HI Ha Hb). lia.
    + eapply (wp_dias R2).
      * intros I s HI HL. rewrite !(vget_nth _ 0) by lia. cbn [bind].
        apply (wp_flat R2 I (fun _ t => t * (nth I sc 0 * nth I sc 0))).
        -- intros a b Ha Hb. rewrite HL. apply pos_dia; auto.
        -- intros a b o Ha Hb I' a' b' HI' Ha' Hb' E. apply idx3_inj in E; auto. destruct E as (<- & <- & <-). auto.
      * intros d' Ld Hd. apply HD; auto. intros I a b HI Ha Hb. eapply Hd; eauto.
Qed.

(** --- diagonal shift --- *)
Lemma AddDia_ok : square A -> forall eps : K,
  wp (AddDia eps A) (fun B => same_pattern A B /\ wf B /\
    forall I a J b, I < nrowblk A -> J < nrowblk A -> a < nr -> b < nr ->
      dense B I a J b = dense A I a J b + (if (I =? J) && (a =? b) then eps else 0)).
Proof.
  intros (SQ1 & SQ2) eps. unfold AddDia.
  apply wp_bind, wp_assertb; [apply Nat.eqb_eq; auto|]. apply wp_bind, wp_assertb; [apply Nat.eqb_eq; auto|].
  cbv zeta.
  pose (R2 := fun k (o n : K) => forall I a b, I < nrowblk A -> a < nr -> b < nc -> k = pos I a b ->
        n = if a =? b then o + eps else o).
  destruct (Nat.eqb_spec (length (val_dia A)) 0) as [E0|E0].
  - apply wp_some. split; [repeat split|]. split; auto. intros I a J b HI HJ Ha Hb. rewrite SQ2 in Hb.
    pose proof (pos_dia I a b HI Ha Hb). lia.
  - apply wp_bind. eapply (wp_dias R2).
    + intros I s HI HL.
      eapply (wp_own _ 0 (fun i k => i < nr /\ k = pos I i i) (fun k o n => n = o + eps)).
      * intros i j k (Hi & ->) (Hj & E). apply idx3_inj in E; lia.
      * lia.
      * intros i s' Hi HL'. posfix SQ2. eapply wp_mono; [apply vmod_own; rewrite HL', HL; apply pos_dia; lia|].
        intros s'' (L & H). split; auto. intros k. split.
        -- intros (_ & ->). apply H. auto.
        -- intros Hn. apply H. intros ->. apply Hn. split; [lia|auto].
      * intros s' L H1 H2. split; auto. split.
        -- intros a b Ha Hb I' a' b' HI' Ha' Hb' E. apply idx3_inj in E; auto. destruct E as (<- & <- & <-).
           destruct (Nat.eqb_spec a b) as [->|].
           ++ apply (H1 _ b); [lia|]. split; auto.
           ++ apply H2. intros i Hi (_ & E). apply idx3_inj in E; lia.
        -- intros k Hk. apply H2. intros i Hi (_ & ->). apply (Hk i i); auto; lia.
    + intros d' Ld Hd. apply wp_some. destruct (dense_mk (val_crs A) d' eq_refl Ld) as (H1 & H2 & H3).
      split; auto. split; auto. intros I a J b HI HJ Ha Hb. rewrite H3. unfold dense, crs, dia. rewrite SQ2 in Hb.
      destruct (Nat.eqb_spec I J) as [->|]; cbn [andb]; [|ring].
      rewrite (Hd J a b HJ Ha Hb J a b HJ Ha Hb eq_refl). destruct (a =? b); ring.
Qed.

(** --- zeroing --- *)
Lemma zero_all : forall v : list K, wp (forn 0 (length v) (fun i d => vset d i 0) v) (fun v' => length v' = length v /\ forall k, nth k v' 0 = 0).
Proof.
  intros v. eapply (wp_own _ 0 (fun i k => k = i) (fun k o n => n = 0)).
  - intros; lia.
  - lia.
  - intros i s Hi HL. eapply wp_mono; [apply vset_own; lia|]. intros s' (L & H). auto.
  - intros s' L H1 H2. split; auto. intros k. destruct (le_lt_dec (length v) k).
    + apply nth_overflow. lia.
    + apply (H1 k k); auto. lia.
Qed.
Lemma setZero_ok : square A -> wp (setZero A) (fun B => same_pattern A B /\ wf B /\ forall I a J b, dense B I a J b = 0).
Proof.
  intros (SQ1 & SQ2). unfold setZero. apply wp_bind.
  assert (X : forall d', length d' = length (val_dia A) -> (forall k, nth k d' 0 = 0) ->
    wp (assertb (length (val_crs A) =? nr * nc * length (row_ptr A))%nat ;;;
        crs <- forn 0 (length (val_crs A)) (fun i d => vset d i 0) (val_crs A) ;;
        Some (mkM (nrowblk A) (ncolblk A) nr nc (col_ind A) (row_ptr A) crs d'))
     (fun B => same_pattern A B /\ wf B /\ forall I a J b, dense B I a J b = 0)).
  { intros d' Ld Hd. apply wp_bind, wp_assertb.
    { apply Nat.eqb_eq. destruct WF as (_ & _ & _ & _ & E & _). rewrite E. lia. }
    apply wp_bind. eapply wp_mono; [apply zero_all|]. intros c' (Lc & Hc). apply wp_some.
    destruct (dense_mk c' d' Lc Ld) as (H1 & H2 & H3). split; auto. split; auto. intros I a J b. rewrite H3, Hd.
    rewrite bigsum_zero. - destruct (I =? J); ring. - intros c _. rewrite Hc. destruct (rp A c =? J); auto. }
  destruct (Nat.eqb_spec (length (val_dia A)) 0) as [E0|E0].
  - apply wp_some. apply X; auto. intros k. apply nth_overflow. lia.
  - apply wp_bind, wp_assertb.
    { rewrite SQ1, SQ2, !Nat.eqb_refl. auto. }
    apply wp_bind, wp_assertb.
    { apply Nat.eqb_eq. destruct WF as (_ & _ & _ & _ & _ & E & _). rewrite E, <- SQ2. lia. }
    eapply wp_mono; [apply zero_all|]. intros d' (Ld & Hd). apply X; auto.
Qed.

(** --- boundary conditions --- *)
Variable bc : list Z.
Definition fl (i : nat) : bool := negb (nth i bc 0 =? 0)%Z.
Hypothesis SQ : square A.
Hypothesis HB : length bc = (nrowblk A * nr)%nat.

Lemma bc_get : forall I a, I < nrowblk A -> a < nr -> vget bc (I * nr + a) = Some (nth (I * nr + a) bc 0%Z).
Proof. intros. apply vget_nth. rewrite HB. apply idx_lt; auto. Qed.

Lemma Row_ok : length (val_dia A) <> 0%nat ->
  wp (SetFixedBC_Row K A bc) (fun B => exists c', B = mkM (nrowblk A) (ncolblk A) nr nc (col_ind A) (row_ptr A) c' (val_dia A) /\
    length c' = length (val_crs A) /\
    forall I c a b, I < nrowblk A -> In c (row_range A I) -> a < nr -> b < nc ->
      nth (pos c a b) c' 0 = if fl (I * nr + a) then 0 else nth (pos c a b) (val_crs A) 0).
Proof.
  intros E0. destruct SQ as (SQ1 & SQ2). unfold SetFixedBC_Row.
  apply wp_bind, wp_assertb; [destruct (Nat.eqb_spec (length (val_dia A)) 0); auto; lia|].
  apply wp_bind, wp_assertb; [apply Nat.eqb_eq; auto|]. apply wp_bind, wp_assertb; [apply Nat.eqb_eq; auto|].
  cbv zeta. apply wp_bind.
  pose (R1 := fun k (o n : K) => forall I c a b, I < nrowblk A -> In c (row_range A I) -> a < nr -> b < nc -> k = pos c a b ->
     n = if fl (I * nr + a) then 0 else o).
  eapply (wp_rows R1 (fun iblk icrs c => forn 0 nr (fun ilen c =>
        f <- vget bc (iblk * nr + ilen) ;;
        if (f =? 0)%Z then Some c else
        forn 0 nc (fun jlen c => vset c (icrs * (nr * nc) + ilen * nr + jlen) 0) c) c)).
  - intros I c s HI Hc HL.
    eapply (wp_own _ 0 (fun a k => a < nr /\ fl (I * nr + a) = true /\ exists b, b < nc /\ k = pos c a b) (fun _ _ n => n = 0)).
    + intros a a' k (Ha & _ & b & Hb & ->) (Ha' & _ & b' & Hb' & E). apply idx3_inj in E; tauto.
    + lia.
    + intros a s' Ha HL'. rewrite bc_get by lia. cbn [bind]. unfold fl.
      destruct (nth (I * nr + a) bc 0 =? 0)%Z.
      { apply wp_some. split; auto. intros k. split; [intros (_ & E & _); discriminate|auto]. }
      eapply (wp_own _ 0 (fun b k => k = pos c a b) (fun _ _ n => n = 0)).
      * intros; lia.
      * lia.
      * intros b s'' Hb HL''. posfix SQ2.
        apply vset_own. rewrite HL'', HL', HL. eapply pos_crs; eauto; lia.
      * intros s'' L H1 H2. split; auto. intros k. split.
        -- intros (_ & _ & b & Hb & ->). apply (H1 _ b); auto; lia.
        -- intros Hn. apply H2. intros b Hb ->. apply Hn. split; [lia|]. split; auto. exists b. split; [lia|auto].
    + intros s' L H1 H2. split; auto. split.
      * intros a b Ha Hb I' c' a' b' HI' Hc' Ha' Hb' E. apply idx3_inj in E; auto. destruct E as (<- & <- & <-).
        rewrite (row_disj I' I c) by auto. destruct (fl (I * nr + a)) eqn:F.
        -- apply (H1 _ a); [lia|]. split; auto. split; auto. exists b. auto.
        -- apply H2. intros a' Hai (_ & F' & b' & Hb'' & E). apply idx3_inj in E; auto; try lia.
           destruct E as (_ & <- & _). congruence.
      * intros k Hk. apply H2. intros a Ha (_ & _ & b & Hb & ->). apply (Hk a b); auto. lia.
  - intros c' Lc Hc. apply wp_some. exists c'. split; auto. split; auto. intros I c a b HI Hc' Ha Hb.
    eapply Hc; eauto.
Qed.

Lemma Col_ok : length (val_dia A) <> 0%nat ->
  wp (SetFixedBC_Col K A bc) (fun B => exists c', B = mkM (nrowblk A) (ncolblk A) nr nc (col_ind A) (row_ptr A) c' (val_dia A) /\
    length c' = length (val_crs A) /\
    forall c a b, c < length (row_ptr A) -> a < nr -> b < nc ->
      nth (pos c a b) c' 0 = if fl (rp A c * nr + b) then 0 else nth (pos c a b) (val_crs A) 0).
Proof.
  intros E0. destruct SQ as (SQ1 & SQ2). unfold SetFixedBC_Col.
  apply wp_bind, wp_assertb; [destruct (Nat.eqb_spec (length (val_dia A)) 0); auto; lia|].
  apply wp_bind, wp_assertb; [apply Nat.eqb_eq; auto|]. apply wp_bind, wp_assertb; [apply Nat.eqb_eq; auto|].
  cbv zeta. apply wp_bind.
  pose (R1 := fun k (o n : K) => forall c a b, c < length (row_ptr A) -> a < nr -> b < nc -> k = pos c a b ->
     n = if fl (rp A c * nr + b) then 0 else o).
  eapply (wp_own _ 0 (fun c k => exists a b, a < nr /\ b < nc /\ k = pos c a b) R1).
  - intros c c' k (a & b & Ha & Hb & ->) (a' & b' & Ha' & Hb' & E). apply idx3_inj in E; tauto.
  - lia.
  - intros c s Hc HL. destruct (wf_rp _ _ WF c ltac:(lia)) as (Ev & Hrp). rewrite Ev. cbn [bind].
    assert (Hcl : forall a b, a < nr -> b < nc -> pos c a b < length (val_crs A)).
    { intros. destruct WF as (_ & _ & _ & _ & E & _). rewrite E. apply idx3_lt; auto. lia. }
    eapply (wp_own _ 0 (fun b k => b < nc /\ fl (rp A c * nr + b) = true /\ exists a, a < nr /\ k = pos c a b) (fun _ _ n => n = 0)).
    + intros b b' k (Hb & _ & a & Ha & ->) (Hb' & _ & a' & Ha' & E). apply idx3_inj in E; tauto.
    + lia.
    + intros b s' Hb HL'. replace (rp A c * nc + b)%nat with (rp A c * nr + b)%nat by (rewrite SQ2; auto). rewrite bc_get by lia. cbn [bind]. unfold fl.
      destruct (nth (rp A c * nr + b) bc 0 =? 0)%Z.
      { apply wp_some. split; auto. intros k. split; [intros (_ & E & _); discriminate|auto]. }
      eapply (wp_own _ 0 (fun a k => a < nr /\ k = pos c a b) (fun _ _ n => n = 0)).
      * intros a a' k (Ha & ->) (Ha' & E). apply idx3_inj in E; lia.
      * lia.
      * intros a s'' Ha HL''. posfix SQ2.
        eapply wp_mono; [apply vset_own; rewrite HL'', HL', HL; apply Hcl; lia|].
        intros s3 (L & H). split; auto. intros k. split; [intros (_ & ->); apply H; auto|].
        intros Hn. apply H. intros ->. apply Hn. split; [lia|auto].
      * intros s'' L H1 H2. split; auto. intros k. split.
        -- intros (_ & _ & a & Ha & ->). apply (H1 _ a); auto; lia.
        -- intros Hn. apply H2. intros a Ha (_ & ->). apply Hn. split; [lia|]. split; auto. exists a. split; [lia|auto].
    + intros s' L H1 H2. split; auto. intros k. split.
      * intros (a & b & Ha & Hb & ->) c' a' b' Hc' Ha' Hb' E. apply idx3_inj in E; auto. destruct E as (<- & <- & <-).
        destruct (fl (rp A c * nr + b)) eqn:F.
        -- apply (H1 _ b); [lia|]. split; auto. split; auto. exists a. auto.
        -- apply H2. intros b' Hbi (_ & F' & a' & Ha'' & E). apply idx3_inj in E; auto; try lia.
           destruct E as (_ & _ & <-). congruence.
      * intros Hn. apply H2. intros b Hb (_ & _ & a & Ha & ->). apply Hn. exists a, b. repeat split; auto. lia.
  - intros c' Lc H1 H2. apply wp_some. exists c'. split; auto. split; auto. intros c a b Hc Ha Hb.
    refine (H1 (pos c a b) c _ _ c a b Hc Ha Hb eq_refl); [lia|]. exists a, b. auto.
Qed.

Lemma Dia_ok : forall dv, length (val_dia A) <> 0%nat ->
  wp (SetFixedBC_Dia K A bc dv) (fun B => exists d', B = mkM (nrowblk A) (ncolblk A) nr nc (col_ind A) (row_ptr A) (val_crs A) d' /\
    length d' = length (val_dia A) /\
    forall I a b, I < nrowblk A -> a < nr -> b < nc ->
      nth (pos I a b) d' 0 = if fl (I * nr + a) || fl (I * nr + b) then (if a =? b then dv else 0)
                             else nth (pos I a b) (val_dia A) 0).
Proof.
  intros dv E0. destruct SQ as (SQ1 & SQ2). unfold SetFixedBC_Dia.
  apply wp_bind, wp_assertb; [destruct (Nat.eqb_spec (length (val_dia A)) 0); auto; lia|].
  apply wp_bind, wp_assertb; [apply Nat.eqb_eq; auto|]. apply wp_bind, wp_assertb; [apply Nat.eqb_eq; auto|].
  cbv zeta. apply wp_bind.
  pose (R2 := fun k (o n : K) => forall I a b, I < nrowblk A -> a < nr -> b < nc -> k = pos I a b ->
        n = if fl (I * nr + a) || fl (I * nr + b) then (if a =? b then dv else 0) else o).
  eapply (wp_dias R2).
  - intros I s HI HL.
    assert (Hpl : forall a b, a < nr -> b < nr -> pos I a b < length s).
    { intros. rewrite HL. apply pos_dia; auto. lia. }
    apply (wp_forn _ (fun i s' => length s' = length s /\
      (forall a b, a < nr -> b < nr -> nth (pos I a b) s' 0 =
         if (fl (I * nr + a) && (a <? i)) || (fl (I * nr + b) && (b <? i)) then (if a =? b then dv else 0) else nth (pos I a b) s 0) /\
      (forall k, (forall a b, a < nr -> b < nc -> k <> pos I a b) -> nth k s' 0 = nth k s 0))); [lia| | |].
    + split; auto. split; auto. intros a b Ha Hb. rewrite !(proj2 (Nat.ltb_ge _ 0)), !andb_false_r by lia. auto.
    + intros i s1 Hi (L1 & H1 & H2). rewrite bc_get by lia. cbn [bind].
      destruct (nth (I * nr + i) bc 0 =? 0)%Z eqn:F.
      * assert (Ff : fl (I * nr + i) = false) by (unfold fl; rewrite F; auto).
        apply wp_some. split; auto. split; auto. intros a b Ha Hb. rewrite H1 by auto.
        assert (Y : forall a, fl (I * nr + a) && (a <? S i) = fl (I * nr + a) && (a <? i)).
        { intros a'. destruct (Nat.eq_dec a' i) as [->|]; [rewrite Ff; auto|].
          destruct (Nat.ltb_spec a' (S i)), (Nat.ltb_spec a' i); auto; lia. }
        rewrite !Y. auto.
      * assert (Ff : fl (I * nr + i) = true) by (unfold fl; rewrite F; auto).
        apply wp_bind.
        apply (wp_forn _ (fun j s2 => length s2 = length s1 /\
          (forall a b, a < nr -> b < nr -> nth (pos I a b) s2 0 =
            if ((a =? i) && (b <? j)) || ((b =? i) && (a <? j)) then 0 else nth (pos I a b) s1 0) /\
          (forall k, (forall a b, a < nr -> b < nc -> k <> pos I a b) -> nth k s2 0 = nth k s1 0))); [lia| | |].
        -- split; auto. split; auto. intros a b Ha Hb. rewrite !(proj2 (Nat.ltb_ge _ 0)), !andb_false_r by lia. auto.
        -- intros j s2 Hj (L2 & G1 & G2). posfix SQ2. rewrite <- SQ2 in Hj.
           apply wp_bind. eapply wp_mono; [apply vset_own; rewrite L2, L1; apply Hpl; lia|].
           intros s3 (L3 & G3). eapply wp_mono; [apply vset_own; rewrite L3, L2, L1; apply Hpl; lia|].
           intros s4 (L4 & G4). split; [congruence|]. split.
           ++ intros a b Ha Hb.
              destruct (Nat.eq_dec (pos I a b) (pos I j i)) as [E|E].
              { rewrite (proj1 (G4 _) E). apply idx3_inj in E; try lia. destruct E as (_ & -> & ->).
                rewrite Nat.eqb_refl. destruct (Nat.ltb_spec j (S j)); [|lia]. rewrite orb_true_r. auto. }
              rewrite (proj2 (G4 _) E).
              destruct (Nat.eq_dec (pos I a b) (pos I i j)) as [E'|E'].
              { rewrite (proj1 (G3 _) E'). apply idx3_inj in E'; try lia. destruct E' as (_ & -> & ->).
                rewrite Nat.eqb_refl. destruct (Nat.ltb_spec j (S j)); [|lia]. auto. }
              rewrite (proj2 (G3 _) E'), G1 by auto.
              destruct (Nat.eqb_spec a i), (Nat.eqb_spec b i); subst; cbn [andb orb]; auto.
              ** destruct (Nat.ltb_spec i j), (Nat.ltb_spec i (S j)); auto; try lia; (assert (i = j) by lia; subst; exfalso; auto; lia).
              ** destruct (Nat.ltb_spec b j), (Nat.ltb_spec b (S j)); auto; try lia; (assert (b = j) by lia; subst; exfalso; auto; lia).
              ** destruct (Nat.ltb_spec a j), (Nat.ltb_spec a (S j)); auto; try lia; (assert (a = j) by lia; subst; exfalso; auto; lia).
           ++ intros k Hk. rewrite (proj2 (G4 k)), (proj2 (G3 k)), G2; auto; apply Hk; lia.
        -- intros s2 (L2 & G1 & G2). posfix SQ2.
           eapply wp_mono; [apply vset_own; rewrite L2, L1; apply Hpl; lia|].
           intros s3 (L3 & G3). split; [congruence|]. split.
           ++ intros a b Ha Hb.
              destruct (Nat.eq_dec (pos I a b) (pos I i i)) as [E|E].
              { rewrite (proj1 (G3 _) E). apply idx3_inj in E; try lia. destruct E as (_ & -> & ->).
                rewrite Ff, Nat.eqb_refl. destruct (Nat.ltb_spec i (S i)); [auto|lia]. }
              rewrite (proj2 (G3 _) E), G1 by auto. rewrite H1 by auto. rewrite <- SQ2.
              destruct (Nat.ltb_spec a nr); [|lia]. destruct (Nat.ltb_spec b nr); [|lia]. rewrite !andb_true_r.
              destruct (Nat.eqb_spec a i), (Nat.eqb_spec b i); subst; cbn [orb].
              ** exfalso; auto.
              ** rewrite Ff. destruct (Nat.ltb_spec i (S i)); [|lia]. cbn [andb orb]. destruct (Nat.eqb_spec i b); [subst; exfalso; auto|reflexivity].
              ** rewrite Ff. destruct (Nat.ltb_spec i (S i)); [|lia]. cbn [andb orb]. rewrite orb_true_r.
                 destruct (Nat.eqb_spec a i); [exfalso; auto|reflexivity].
              ** replace (a <? S i) with (a <? i) by (destruct (Nat.ltb_spec a i), (Nat.ltb_spec a (S i)); auto; lia).
                 replace (b <? S i) with (b <? i) by (destruct (Nat.ltb_spec b i), (Nat.ltb_spec b (S i)); auto; lia).
                 reflexivity.
           ++ intros k Hk. rewrite (proj2 (G3 k)), G2, H2; auto. apply Hk; lia.
    + intros s1 (L1 & H1 & H2). split; auto. split; auto. intros a b Ha Hb I' a' b' HI' Ha' Hb' E.
      apply idx3_inj in E; auto. destruct E as (<- & <- & <-). rewrite H1 by lia.
      destruct (Nat.ltb_spec a nr); [|lia]. destruct (Nat.ltb_spec b nr); [|lia]. rewrite !andb_true_r. auto.
  - intros d' Ld Hd. apply wp_some. exists d'. split; auto. split; auto. intros I a b HI Ha Hb. eapply Hd; eauto.
Qed.
End P.

Section BC.
Variable K : cring.
Add Ring Kr2 : (rlaws K).
Local Open Scope K_scope.

Lemma SetFixedBC_ok : forall (A : matsp K) bc, wf A -> square A -> length (val_dia A) <> 0%nat -> length bc = (nrowblk A * nrowdim A)%nat ->
  wp (SetFixedBC A bc) (fun B => same_pattern A B /\ wf B /\
    forall I a J b, I < nrowblk A -> J < nrowblk A -> a < nrowdim A -> b < nrowdim A ->
      dense B I a J b =
        if fl bc (I * nrowdim A + a) || fl bc (J * nrowdim A + b)
        then (if (I =? J) && (a =? b) then 1 else 0) else dense A I a J b).
Proof.
  intros A bc WF SQ E0 HB. unfold SetFixedBC. apply wp_bind.
  eapply wp_mono; [apply Dia_ok; auto|]. intros B1 (d' & -> & Ld & Hd).
  destruct (dense_mk K A WF (val_crs A) d' eq_refl Ld) as (_ & WF1 & _).
  set (A1 := mkM _ _ _ _ _ _ _ d') in *. apply wp_bind.
  assert (SQ1 : square A1) by exact SQ.
  eapply wp_mono; [apply (Row_ok K A1 WF1 bc SQ1 HB); cbn; lia|]. intros B2 (c1 & -> & Lc1 & Hc1).
  destruct (dense_mk K A WF c1 d' Lc1 Ld) as (_ & WF2 & _).
  cbn [nrowblk ncolblk nrowdim ncoldim col_ind row_ptr val_dia A1].
  set (A2 := mkM _ _ _ _ _ _ c1 d') in *.
  assert (SQ2 : square A2) by exact SQ.
  eapply wp_mono; [apply (Col_ok K A2 WF2 bc SQ2 HB); cbn; lia|]. intros B3 (c2 & -> & Lc2 & Hc2).
  cbn [nrowblk ncolblk nrowdim ncoldim col_ind row_ptr val_dia A2].
  destruct (dense_mk K A WF c2 d' ltac:(etransitivity; [apply Lc2|apply Lc1]) Ld) as (H1 & H2 & H3).
  split; auto. split; auto. intros I a J b HI HJ Ha Hb. rewrite H3. unfold dense, crs, dia.
  destruct SQ as (SQa & SQb). assert (Hb' : b < ncoldim A) by lia.
  rewrite (bigsum_ext _ _ _ _ (fun c => if fl bc (I * nrowdim A + a) || fl bc (J * nrowdim A + b) then 0 else
     if rp A c =? J then nth (c * (nrowdim A * ncoldim A) + a * ncoldim A + b) (val_crs A) 0 else 0)).
  - destruct (Nat.eqb_spec I J) as [->|].
    + rewrite (Hd J a b HI Ha Hb'). destruct (fl bc (J * nrowdim A + a) || fl bc (J * nrowdim A + b)) eqn:F.
      * rewrite bigsum_zero by auto. cbn [andb]. ring.
      * auto.
    + destruct (fl bc (I * nrowdim A + a) || fl bc (J * nrowdim A + b)) eqn:F.
      * rewrite bigsum_zero by auto. cbn [andb]. ring.
      * auto.
  - intros c Hc. pose proof (wf_range _ _ WF _ _ HI Hc) as Hcl.
    pose proof (Hc2 c a b Hcl Ha Hb') as X2. pose proof (Hc1 I c a b HI Hc Ha Hb') as X1.
    cbn [nrowdim ncoldim val_crs A1 A2] in X1, X2. rewrite X2, X1.
    change (rp A2 c) with (rp A c). change (nrowdim A2) with (nrowdim A). change (nrowdim A1) with (nrowdim A).
    change (val_crs A1) with (val_crs A).
    destruct (Nat.eqb_spec (rp A c) J) as [->|]; [|destruct (_ || _); auto].
    destruct (fl bc (J * nrowdim A + b)), (fl bc (I * nrowdim A + a)); auto.
Qed.
End BC.
