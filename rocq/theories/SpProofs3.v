(** Transposed and degenerate products. *)
From Coq Require Import List Arith Lia Bool ZArith Ring.
Import ListNotations.
From Verif Require Import Imp Alg SpModel SpSpec SpProofs1 SpProofs2.

Section P.
Variable K : cring.
Add Ring Kr : (rlaws K).
Local Open Scope K_scope.
Variable A : matsp K.
Hypothesis WF : wf A.
Variables (x : list K) (alpha : K).
Notation nr := (nrowdim A).
Notation nc := (ncoldim A).

(** Block at offset k of v, block row iblk, accumulated into block column j. *)
Definition Ltr (iblk : nat) (v : list K) (k j : nat) : list (nat * K) :=
  concat (map (fun a => concat (map (fun b => [((j * nc + b)%nat, alpha * nth (k + a * nc + b) v 0 * nth (iblk * nr + a) x 0)]) (seq 0 nc))) (seq 0 nr)).
Definition Ltr' (iblk : nat) (v : list K) (k j : nat) : list (nat * K) :=
  concat (map (fun b => concat (map (fun a => [((j * nc + b)%nat, alpha * nth (k + a * nc + b) v 0 * nth (iblk * nr + a) x 0)]) (seq 0 nr))) (seq 0 nc)).
Definition blkcol (iblk : nat) (v : list K) (k b : nat) : K :=
  sumn nr (fun a => nth (k + a * nc + b) v 0 * nth (iblk * nr + a) x 0).

Lemma Ltr_at : forall iblk v k j J b, b < nc ->
  at_ (J * nc + b) (Ltr iblk v k j) = if j =? J then alpha * blkcol iblk v k b else 0.
Proof.
  intros iblk v k j J b Hb. unfold Ltr. rewrite at_concat.
  rewrite (bigsum_ext _ _ _ _ (fun a => if j =? J then alpha * (nth (k + a * nc + b) v 0 * nth (iblk * nr + a) x 0) else 0)).
  - rewrite bigsum_ifb, bigsum_mull. reflexivity.
  - intros a Ha. rewrite at_concat.
    rewrite (bigsum_ext _ _ _ _ (fun b' => if b' =? b then (if j =? J then alpha * (nth (k + a * nc + b') v 0 * nth (iblk * nr + a) x 0) else 0) else 0)).
    + apply (sumn_pick K nc b (fun b' => if j =? J then alpha * (nth (k + a * nc + b') v 0 * nth (iblk * nr + a) x 0) else 0)). auto.
    + intros b' Hb'. apply in_seq in Hb'. rewrite at_cons, at_nil. cbn [fst snd]. rewrite idx_eqb by lia.
      destruct (j =? J), (b' =? b); simpl; ring.
Qed.
Lemma Ltr'_at : forall iblk v k j J b, b < nc ->
  at_ (J * nc + b) (Ltr' iblk v k j) = if j =? J then alpha * blkcol iblk v k b else 0.
Proof.
  intros. rewrite <- Ltr_at by auto. unfold Ltr, Ltr'. rewrite !at_concat.
  rewrite (bigsum_ext _ _ (seq 0 nc) _ (fun b' => bigsum (seq 0 nr) (fun a => at_ (J * nc + b) [((j * nc + b')%nat, alpha * nth (k + a * nc + b') v 0 * nth (iblk * nr + a) x 0)])))
    by (intros; apply at_concat).
  rewrite bigsum_swap. apply bigsum_ext. intros. rewrite at_concat. auto.
Qed.

Lemma Ltr_in : forall iblk v k j p, In p (Ltr iblk v k j) \/ In p (Ltr' iblk v k j) -> exists b, b < nc /\ fst p = (j * nc + b)%nat.
Proof.
  intros iblk v k j p [Hp|Hp]; apply in_concat in Hp; destruct Hp as (l & Hl & Hp); apply in_map_iff in Hl;
  destruct Hl as (a & <- & Ha); apply in_concat in Hp; destruct Hp as (l & Hl & Hp); apply in_map_iff in Hl;
  destruct Hl as (b & <- & Hb); destruct Hp as [<-|[]]; apply in_seq in Ha; apply in_seq in Hb; cbn [fst].
  - exists b. split; [lia|auto].
  - exists a. split; [lia|auto].
Qed.

Hypothesis HX : length x = (nrowblk A * nr)%nat.

Lemma tr_block : forall iblk v k j s, iblk < nrowblk A -> (k + nr * nc <= length v)%nat ->
  forn 0 nr (fun idof y => forn 0 nc (fun jdof y =>
    v0 <- vget v (k + idof * nc + jdof) ;; xi <- vget x (iblk * nr + idof) ;;
    pluseq K y (j * nc + jdof) (alpha * v0 * xi)) y) s = accum (Ltr iblk v k j) s.
Proof.
  intros iblk v k j s Hi Hk. unfold Ltr.
  rewrite (forn_accum _ _ _ _ (fun a => concat (map (fun b => [((j * nc + b)%nat, alpha * nth (k + a * nc + b) v 0 * nth (iblk * nr + a) x 0)]) (seq 0 nc)))).
  - rewrite Nat.sub_0_r. auto.
  - intros a s' Ha.
    rewrite (forn_accum _ _ _ _ (fun b => [((j * nc + b)%nat, alpha * nth (k + a * nc + b) v 0 * nth (iblk * nr + a) x 0)])).
    + rewrite Nat.sub_0_r. auto.
    + intros b s'' Hb. rewrite (vget_nth _ 0) by nia. cbn [bind]. rewrite (vget_nth _ 0) by (rewrite HX; nia). cbn [bind].
      unfold pluseq. rewrite accum1. auto.
Qed.
Lemma tr_block' : forall iblk v k j s, iblk < nrowblk A -> (k + nr * nc <= length v)%nat ->
  forn 0 nc (fun jdof y => forn 0 nr (fun idof y =>
    v0 <- vget v (k + idof * nc + jdof) ;; xi <- vget x (iblk * nr + idof) ;;
    pluseq K y (j * nc + jdof) (alpha * v0 * xi)) y) s = accum (Ltr' iblk v k j) s.
Proof.
  intros iblk v k j s Hi Hk. unfold Ltr'.
  rewrite (forn_accum _ _ _ _ (fun b => concat (map (fun a => [((j * nc + b)%nat, alpha * nth (k + a * nc + b) v 0 * nth (iblk * nr + a) x 0)]) (seq 0 nr)))).
  - rewrite Nat.sub_0_r. auto.
  - intros b s' Hb.
    rewrite (forn_accum _ _ _ _ (fun a => [((j * nc + b)%nat, alpha * nth (k + a * nc + b) v 0 * nth (iblk * nr + a) x 0)])).
    + rewrite Nat.sub_0_r. auto.
    + intros a s'' Ha. rewrite (vget_nth _ 0) by nia. cbn [bind]. rewrite (vget_nth _ 0) by (rewrite HX; nia). cbn [bind].
      unfold pluseq. rewrite accum1. auto.
Qed.

Lemma MatTVec_ok : forall beta (y : list K), length y = (ncolblk A * nc)%nat ->
  wp (MatTVec A y alpha x beta) (fun y' => length y' = length y /\
    forall J b, J < ncolblk A -> b < nc ->
      nth (J * nc + b) y' 0 = alpha * ATx A x J b + beta * nth (J * nc + b) y 0).
Proof.
  intros beta y Hy. unfold MatTVec. apply wp_bind. eapply wp_mono; [apply scale_all_ok; nia|].
  intros y1 (L1 & E1). cbv zeta.
  pose (Lr := fun iblk => concat (map (fun c => Ltr iblk (val_crs A) (c * (nr * nc)) (rp A c)) (row_range A iblk))
     ++ Ltr' iblk (val_dia A) (iblk * (nr * nc)) iblk).
  rewrite (forn_accum _ _ _ _ Lr).
  - rewrite Nat.sub_0_r. eapply wp_mono; [apply accum_ok|].
    + intros p Hp. apply in_concat in Hp. destruct Hp as (l & Hl & Hp). apply in_map_iff in Hl.
      destruct Hl as (iblk & <- & Hi). apply in_seq in Hi. rewrite L1, Hy. unfold Lr in Hp. apply in_app_iff in Hp.
      destruct Hp as [Hp|Hp].
      * apply in_concat in Hp. destruct Hp as (l & Hl & Hp). apply in_map_iff in Hl. destruct Hl as (c & <- & Hc).
        destruct (Ltr_in _ _ _ _ _ (or_introl Hp)) as (b & Hb & ->). apply idx_lt; auto.
        apply (wf_rp _ _ WF). eapply wf_range; eauto. lia.
      * destruct (Ltr_in _ _ _ _ _ (or_intror Hp)) as (b & Hb & ->). apply idx_lt; auto. destruct WF; lia.
    + intros y' (L' & E'). split; [congruence|]. intros J b HJ Hb.
      assert (HJb : (J * nc + b < length y)%nat) by (rewrite Hy; apply idx_lt; auto).
      rewrite E', E1 by congruence. rewrite at_concat.
      enough (E : bigsum (seq 0 (nrowblk A)) (fun i => at_ (J * nc + b) (Lr i)) = alpha * ATx A x J b) by (rewrite E; ring).
      unfold ATx. rewrite <- sumn_mull. apply sumn_ext. intros I HI. unfold Lr.
      rewrite at_app, at_concat, Ltr'_at by auto.
      rewrite (bigsum_ext _ _ _ _ (fun c => alpha * (if rp A c =? J then blkcol I (val_crs A) (c * (nr * nc)) b else 0)))
        by (intros; rewrite Ltr_at, ifb_mull; auto).
      rewrite bigsum_mull, <- ifb_mull.
      transitivity (alpha * (bigsum (row_range A I) (fun c => if rp A c =? J then blkcol I (val_crs A) (c * (nr * nc)) b else 0)
         + (if I =? J then blkcol I (val_dia A) (I * (nr * nc)) b else 0))); [ring|]. f_equal.
      unfold dense.
      rewrite (sumn_ext _ _ _ (fun a => bigsum (row_range A I) (fun c => if rp A c =? J then crs A c a b * nth (I * nr + a) x 0 else 0)
         + (if I =? J then dia A I a b * nth (I * nr + a) x 0 else 0))).
      * rewrite sumn_add. f_equal.
        -- unfold sumn. rewrite bigsum_swap. apply bigsum_ext. intros c _. rewrite bigsum_ifb. auto.
        -- unfold sumn. rewrite bigsum_ifb. auto.
      * intros a Ha. rewrite <- ifb_mulr.
        transitivity (bigsum (row_range A I) (fun c => if rp A c =? J then crs A c a b else 0) * nth (I * nr + a) x 0
          + (if I =? J then dia A I a b else 0) * nth (I * nr + a) x 0); [ring|].
        f_equal. rewrite <- bigsum_mulr. apply bigsum_ext. intros. rewrite ifb_mulr. auto.
  - intros iblk s Hi. rewrite !(wf_ci _ _ WF) by lia. cbn [bind]. rewrite Nat.add_1_r. unfold Lr. rewrite accum_app.
    rewrite (forn_accum _ _ _ _ (fun c => Ltr iblk (val_crs A) (c * (nr * nc)) (rp A c))).
    + unfold row_range. destruct (accum _ s); cbn [bind]; auto. apply tr_block'; [lia|].
      destruct WF as (_ & _ & _ & _ & _ & E & _). rewrite E. nia.
    + intros c s' Hc. assert (B1 : c < length (row_ptr A)) by (eapply (wf_range _ _ WF iblk); [lia|apply in_seq; lia]).
      rewrite (proj2 (Nat.ltb_lt _ _) B1). cbn [assertb bind].
      destruct (wf_rp _ _ WF _ B1) as (B2 & B3). rewrite B2. cbn [bind]. rewrite (proj2 (Nat.ltb_lt _ _) B3). cbn [assertb bind].
      apply tr_block; [lia|]. destruct WF as (_ & _ & _ & _ & E & _). rewrite E. nia.
Qed.
End P.

Section D.
Variable K : cring.
Add Ring Kr' : (rlaws K).
Local Open Scope K_scope.
Variable A : matsp K.
Hypothesis WF : wf A.

(** Adjointness of the two dense products. *)
Lemma adjoint : forall x z : list K,
  sumn (nrowblk A) (fun I => sumn (nrowdim A) (fun a => Ax A x I a * nth (I * nrowdim A + a) z 0)) =
  sumn (ncolblk A) (fun J => sumn (ncoldim A) (fun b => nth (J * ncoldim A + b) x 0 * ATx A z J b)).
Proof.
  intros x z. unfold Ax, ATx.
  transitivity (sumn (nrowblk A) (fun I => sumn (nrowdim A) (fun a => sumn (ncolblk A) (fun J => sumn (ncoldim A) (fun b =>
     nth (J * ncoldim A + b) x 0 * (dense A I a J b * nth (I * nrowdim A + a) z 0)))))).
  { apply sumn_ext. intros I _. apply sumn_ext. intros a _. rewrite <- sumn_mulr. apply sumn_ext. intros J _.
    rewrite <- sumn_mulr. apply sumn_ext. intros b _. ring. }
  transitivity (sumn (ncolblk A) (fun J => sumn (ncoldim A) (fun b => sumn (nrowblk A) (fun I => sumn (nrowdim A) (fun a =>
     nth (J * ncoldim A + b) x 0 * (dense A I a J b * nth (I * nrowdim A + a) z 0)))))).
  2:{ apply sumn_ext. intros J _. apply sumn_ext. intros b _. rewrite <- sumn_mull. apply sumn_ext. intros I _.
      rewrite <- sumn_mull. auto. }
  transitivity (sumn (nrowblk A) (fun I => sumn (ncolblk A) (fun J => sumn (nrowdim A) (fun a => sumn (ncoldim A) (fun b =>
     nth (J * ncoldim A + b) x 0 * (dense A I a J b * nth (I * nrowdim A + a) z 0)))))).
  { apply sumn_ext. intros I _. rewrite sumn_swap. auto. }
  rewrite sumn_swap. apply sumn_ext. intros J _.
  transitivity (sumn (nrowblk A) (fun I => sumn (ncoldim A) (fun b => sumn (nrowdim A) (fun a =>
     nth (J * ncoldim A + b) x 0 * (dense A I a J b * nth (I * nrowdim A + a) z 0))))).
  { apply sumn_ext. intros I _. rewrite sumn_swap. auto. }
  rewrite sumn_swap. auto.
Qed.

Variables (x : list K) (alpha : K) (len : nat).
Hypothesis D1 : nrowdim A = 1%nat.
Hypothesis D2 : ncoldim A = 1%nat.
Hypothesis HX : length x = (ncolblk A * len)%nat.

Definition Ldg (iblk : nat) (m : K) (j : nat) : list (nat * K) :=
  concat (map (fun l => [((iblk * len + l)%nat, m * nth (j * len + l) x 0)]) (seq 0 len)).
Lemma Ldg_at : forall iblk m j I l, l < len ->
  at_ (I * len + l) (Ldg iblk m j) = if iblk =? I then m * nth (j * len + l) x 0 else 0.
Proof.
  intros iblk m j I l Hl. unfold Ldg. rewrite at_concat.
  rewrite (bigsum_ext _ _ _ _ (fun l' => if l' =? l then (if iblk =? I then m * nth (j * len + l') x 0 else 0) else 0)).
  - apply (sumn_pick K len l (fun l' => if iblk =? I then m * nth (j * len + l') x 0 else 0)). auto.
  - intros l' Hl'. apply in_seq in Hl'. rewrite at_cons, at_nil. cbn [fst snd]. rewrite idx_eqb by lia.
    destruct (iblk =? I), (l' =? l); simpl; ring.
Qed.
Lemma dg_block : forall iblk m j s, j < ncolblk A ->
  forn 0 len (fun ilen y => xj <- vget x (j * len + ilen) ;; pluseq K y (iblk * len + ilen) (m * xj)) s = accum (Ldg iblk m j) s.
Proof.
  intros iblk m j s Hj. unfold Ldg. rewrite (forn_accum _ _ _ _ (fun l => [((iblk * len + l)%nat, m * nth (j * len + l) x 0)])).
  - rewrite Nat.sub_0_r. auto.
  - intros l s' Hl. rewrite (vget_nth _ 0) by (rewrite HX; nia). cbn [bind]. unfold pluseq. rewrite accum1. auto.
Qed.

Lemma MatVecDegenerate_ok : forall beta (y : list K), length y = (nrowblk A * len)%nat ->
  wp (MatVecDegenerate A y len alpha x beta) (fun y' => length y' = length y /\
    forall I l, I < nrowblk A -> l < len ->
      nth (I * len + l) y' 0 =
        alpha * sumn (ncolblk A) (fun J => dense A I 0 J 0 * nth (J * len + l) x 0) + beta * nth (I * len + l) y 0).
Proof.
  intros beta y Hy. unfold MatVecDegenerate. apply wp_bind. apply wp_assertb; [rewrite D1, D2; auto|].
  apply wp_bind. eapply wp_mono; [apply scale_all_ok; nia|].
  intros y1 (L1 & E1).
  assert (Ecrs : forall c, nth c (val_crs A) 0 = crs A c 0 0).
  { intros. unfold crs. rewrite D1, D2. f_equal. lia. }
  assert (Edia : forall c, nth c (val_dia A) 0 = dia A c 0 0).
  { intros. unfold dia. rewrite D1, D2. f_equal. lia. }
  pose (Lr := fun iblk => concat (map (fun c => Ldg iblk (alpha * crs A c 0 0) (rp A c)) (row_range A iblk))
     ++ Ldg iblk (alpha * dia A iblk 0 0) iblk).
  assert (HLdg : forall iblk m j p, In p (Ldg iblk m j) -> iblk < nrowblk A -> fst p < length y).
  { intros iblk m j p Hp Hi. apply in_concat in Hp. destruct Hp as (l0 & Hl & Hp). apply in_map_iff in Hl.
    destruct Hl as (l & <- & Hl). destruct Hp as [<-|[]]. apply in_seq in Hl. rewrite Hy. apply idx_lt; auto. lia. }
  rewrite (forn_accum _ _ _ _ Lr).
  - rewrite Nat.sub_0_r. eapply wp_mono; [apply accum_ok|].
    + intros p Hp. apply in_concat in Hp. destruct Hp as (l & Hl & Hp). apply in_map_iff in Hl.
      destruct Hl as (iblk & <- & Hi). apply in_seq in Hi. rewrite L1. unfold Lr in Hp. apply in_app_iff in Hp.
      destruct Hp as [Hp|Hp].
      * apply in_concat in Hp. destruct Hp as (l & Hl & Hp). apply in_map_iff in Hl. destruct Hl as (c & <- & Hc).
        eapply HLdg; eauto. lia.
      * eapply HLdg; eauto. lia.
    + intros y' (L' & E'). split; [congruence|]. intros I l HI Hl.
      assert (HJb : (I * len + l < length y)%nat) by (rewrite Hy; apply idx_lt; auto).
      rewrite E', E1 by congruence. rewrite at_concat.
      rewrite (bigsum_ext _ _ _ _ (fun i => if i =? I then alpha * (bigsum (row_range A i) (fun c => crs A c 0 0 * nth (rp A c * len + l) x 0)
         + dia A i 0 0 * nth (i * len + l) x 0) else 0)).
      * change (bigsum (seq 0 (nrowblk A)) (fun i => if i =? I then alpha * (bigsum (row_range A i) (fun c => crs A c 0 0 * nth (rp A c * len + l) x 0)
         + dia A i 0 0 * nth (i * len + l) x 0) else 0)) with (sumn (nrowblk A) (fun i => if i =? I then alpha * (bigsum (row_range A i) (fun c => crs A c 0 0 * nth (rp A c * len + l) x 0)
         + dia A i 0 0 * nth (i * len + l) x 0) else 0)).
        rewrite (sumn_pick K _ I (fun i => alpha * (bigsum (row_range A i) (fun c => crs A c 0 0 * nth (rp A c * len + l) x 0)
         + dia A i 0 0 * nth (i * len + l) x 0))) by auto.
        enough (E : bigsum (row_range A I) (fun c => crs A c 0 0 * nth (rp A c * len + l) x 0) + dia A I 0 0 * nth (I * len + l) x 0
           = sumn (ncolblk A) (fun J => dense A I 0 J 0 * nth (J * len + l) x 0)) by (rewrite E; ring).
        unfold dense.
        rewrite (sumn_ext _ _ _ (fun J => bigsum (row_range A I) (fun c => if J =? rp A c then crs A c 0 0 * nth (J * len + l) x 0 else 0)
           + (if J =? I then dia A I 0 0 * nth (J * len + l) x 0 else 0))).
        -- rewrite sumn_add. f_equal.
           ++ unfold sumn. rewrite bigsum_swap. apply bigsum_ext. intros c Hc. symmetry.
              apply (sumn_pick K (ncolblk A) (rp A c) (fun J => crs A c 0 0 * nth (J * len + l) x 0)).
              apply (wf_rp _ _ WF). eapply wf_range; eauto.
           ++ symmetry. apply (sumn_pick K (ncolblk A) I (fun J => dia A I 0 0 * nth (J * len + l) x 0)). destruct WF; lia.
        -- intros J HJ. rewrite (Nat.eqb_sym J I).
           transitivity (bigsum (row_range A I) (fun c => if rp A c =? J then crs A c 0 0 else 0) * nth (J * len + l) x 0
             + (if I =? J then dia A I 0 0 else 0) * nth (J * len + l) x 0); [ring|].
           rewrite ifb_mulr. f_equal. rewrite <- bigsum_mulr. apply bigsum_ext. intros c _.
           rewrite (Nat.eqb_sym J). apply ifb_mulr.
      * intros i Hi. unfold Lr. rewrite at_app, at_concat, Ldg_at by auto.
        rewrite (bigsum_ext _ _ _ _ (fun c => if i =? I then alpha * (crs A c 0 0 * nth (rp A c * len + l) x 0) else 0)).
        -- rewrite bigsum_ifb. destruct (i =? I); [|ring]. rewrite bigsum_mull. ring.
        -- intros c _. rewrite Ldg_at by auto. destruct (i =? I); auto. ring.
  - intros iblk s Hi. rewrite !(wf_ci _ _ WF) by lia. cbn [bind]. rewrite Nat.add_1_r. unfold Lr. rewrite accum_app.
    pose proof WF as (_ & _ & _ & _ & Ec & Ed & _). rewrite D1, D2 in *.
    rewrite (forn_accum _ _ _ _ (fun c => Ldg iblk (alpha * crs A c 0 0) (rp A c))).
    + unfold row_range. destruct (accum _ s); cbn [bind]; auto. rewrite (vget_nth _ 0) by lia. cbn [bind].
      rewrite dg_block by (destruct WF; lia). rewrite Edia. auto.
    + intros c s' Hc. assert (B1 : c < length (row_ptr A)) by (eapply (wf_range _ _ WF iblk); [lia|apply in_seq; lia]).
      rewrite (proj2 (Nat.ltb_lt _ _) B1). cbn [assertb bind].
      destruct (wf_rp _ _ WF _ B1) as (B2 & B3). rewrite B2. cbn [bind]. rewrite (proj2 (Nat.ltb_lt _ _) B3). cbn [assertb bind].
      rewrite (vget_nth _ 0) by lia. cbn [bind]. rewrite dg_block by auto. rewrite Ecrs. auto.
Qed.
End D.
