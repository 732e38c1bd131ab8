(** Products with block sparse matrices: the individual code paths. *)
From Coq Require Import List Arith Lia Bool ZArith Ring.
Import ListNotations.
From Verif Require Import Imp Alg SpModel SpSpec SpProofs1.

Section P.
Variable K : cring.
Add Ring Kr : (rlaws K).
Local Open Scope K_scope.
Variable A : matsp K.
Hypothesis WF : wf A.
Variables (x : list K) (alpha : K).
Hypothesis HX : length x = (ncolblk A * ncoldim A)%nat.
Notation nr := (nrowdim A).
Notation nc := (ncoldim A).

Definition blkrow (v : list K) (k j : nat) (a : nat) : K :=
  sumn nc (fun b => nth (k + a * nc + b) v 0 * nth (j + b) x 0).

Section Path.
Variable Lb : nat -> list K -> nat -> nat -> list (nat * K).
Hypothesis Hat : forall iblk v k j I a, a < nr ->
  at_ (I * nr + a) (Lb iblk v k j) = if iblk =? I then alpha * blkrow v k j a else 0.
Hypothesis Hidx : forall iblk v k j p, In p (Lb iblk v k j) -> iblk < nrowblk A -> fst p < (nrowblk A * nr)%nat.

Definition Lrow (iblk : nat) : list (nat * K) :=
  concat (map (fun c => Lb iblk (val_crs A) (c * (nr * nc)) (rp A c * nc)) (row_range A iblk))
  ++ Lb iblk (val_dia A) (iblk * (nr * nc)) (iblk * nc).

Lemma path_finish : forall f (y : list K), length y = (nrowblk A * nr)%nat ->
  (forall iblk s, iblk < nrowblk A -> f iblk s = accum (Lrow iblk) s) ->
  wp (forn 0 (nrowblk A) f y) (fun y' => length y' = length y /\
    forall I a, I < nrowblk A -> a < nr -> nth (I * nr + a) y' 0 = alpha * Ax A x I a + nth (I * nr + a) y 0).
Proof.
  intros f y Hy Hf. rewrite (forn_accum _ _ _ _ Lrow) by (intros; apply Hf; lia). rewrite Nat.sub_0_r.
  apply mv_finish; auto.
  - intros p Hp. apply in_concat in Hp. destruct Hp as (l & Hl & Hp). apply in_map_iff in Hl.
    destruct Hl as (iblk & <- & Hi). apply in_seq in Hi. rewrite Hy. unfold Lrow in Hp. apply in_app_iff in Hp.
    destruct Hp as [Hp|Hp].
    + apply in_concat in Hp. destruct Hp as (l & Hl & Hp). apply in_map_iff in Hl. destruct Hl as (c & <- & Hc).
      eapply Hidx; eauto. lia.
    + eapply Hidx; eauto. lia.
  - intros I a HI Ha. rewrite at_concat.
    rewrite (bigsum_ext _ _ _ _ (fun iblk => if iblk =? I then alpha * rowprod K A x iblk a else 0)).
    + apply (sumn_pick K (nrowblk A) I (fun iblk => alpha * rowprod K A x iblk a)). auto.
    + intros iblk Hi. unfold Lrow. rewrite at_app, at_concat, Hat by auto.
      rewrite (bigsum_ext _ _ _ _ (fun c => if iblk =? I then alpha * blkrow (val_crs A) (c * (nr * nc)) (rp A c * nc) a else 0))
        by (intros; apply Hat; auto).
      rewrite bigsum_ifb. destruct (iblk =? I); [|ring].
      unfold rowprod. rewrite bigsum_mull. unfold blkrow, crs, dia. ring.
Qed.

(** Running one row, given that one block step is the accumulation of [Lb]. *)
Lemma row_accum : forall iblk s (g : nat -> list K -> option (list K)) (h : list K -> option (list K)),
  iblk < nrowblk A ->
  (forall c s, In c (row_range A iblk) -> g c s = accum (Lb iblk (val_crs A) (c * (nr * nc)) (rp A c * nc)) s) ->
  (forall s, h s = accum (Lb iblk (val_dia A) (iblk * (nr * nc)) (iblk * nc)) s) ->
  bind (forn (ci A iblk) (ci A (S iblk)) g s) h = accum (Lrow iblk) s.
Proof.
  intros iblk s g h Hi Hg Hh. unfold Lrow. rewrite accum_app.
  rewrite (forn_accum _ _ _ _ (fun c => Lb iblk (val_crs A) (c * (nr * nc)) (rp A c * nc))).
  - unfold row_range. destruct (accum _ s); simpl; auto.
  - intros c s' Hc. apply Hg. apply in_seq. lia.
Qed.
End Path.

(** ---- generic branch ---- *)
Definition Lgen (iblk : nat) (v : list K) (k j : nat) : list (nat * K) :=
  concat (map (fun a => concat (map (fun b => [((iblk * nr + a)%nat, alpha * nth (k + a * nc + b) v 0 * nth (j + b) x 0)]) (seq 0 nc))) (seq 0 nr)).

Lemma Lgen_at : forall iblk v k j I a, a < nr ->
  at_ (I * nr + a) (Lgen iblk v k j) = if iblk =? I then alpha * blkrow v k j a else 0.
Proof.
  intros iblk v k j I a Ha. unfold Lgen. rewrite at_concat.
  rewrite (bigsum_ext _ _ _ _ (fun a' => if a' =? a then (if iblk =? I then alpha * blkrow v k j a' else 0) else 0)).
  - apply (sumn_pick K nr a (fun a' => if iblk =? I then alpha * blkrow v k j a' else 0)). auto.
  - intros a' Ha'. apply in_seq in Ha'. rewrite at_concat.
    rewrite (bigsum_ext _ _ _ _ (fun b => if a' =? a then (if iblk =? I then alpha * (nth (k + a' * nc + b) v 0 * nth (j + b) x 0) else 0) else 0)).
    + rewrite !bigsum_ifb, bigsum_mull. reflexivity.
    + intros b _. rewrite at_cons, at_nil. cbn [fst snd]. rewrite idx_eqb by lia.
      destruct (iblk =? I), (a' =? a); simpl; ring.
Qed.
Lemma Lgen_idx : forall iblk v k j p, In p (Lgen iblk v k j) -> iblk < nrowblk A -> fst p < (nrowblk A * nr)%nat.
Proof.
  intros iblk v k j p Hp Hi. apply in_concat in Hp. destruct Hp as (l & Hl & Hp). apply in_map_iff in Hl.
  destruct Hl as (a & <- & Ha). apply in_concat in Hp. destruct Hp as (l & Hl & Hp). apply in_map_iff in Hl.
  destruct Hl as (b & <- & Hb). destruct Hp as [<-|[]]. apply in_seq in Ha. apply idx_lt; lia.
Qed.
Lemma gen_block : forall iblk v k j s, (k + nr * nc <= length v)%nat -> (j + nc <= length x)%nat ->
  forn 0 nr (fun idof y => forn 0 nc (fun jdof y =>
    v0 <- vget v (k + idof * nc + jdof) ;; xj <- vget x (j + jdof) ;;
    pluseq K y (iblk * nr + idof) (alpha * v0 * xj)) y) s = accum (Lgen iblk v k j) s.
Proof.
  intros iblk v k j s Hk Hj. unfold Lgen.
  rewrite (forn_accum _ _ _ _ (fun a => concat (map (fun b => [((iblk * nr + a)%nat, alpha * nth (k + a * nc + b) v 0 * nth (j + b) x 0)]) (seq 0 nc)))).
  - rewrite Nat.sub_0_r. auto.
  - intros a s' Ha.
    rewrite (forn_accum _ _ _ _ (fun b => [((iblk * nr + a)%nat, alpha * nth (k + a * nc + b) v 0 * nth (j + b) x 0)])).
    + rewrite Nat.sub_0_r. auto.
    + intros b s'' Hb. rewrite (vget_nth _ 0) by nia. simpl. rewrite (vget_nth _ 0) by nia. simpl.
      unfold pluseq. rewrite accum1. auto.
Qed.

Lemma wf_bounds : forall iblk c, iblk < nrowblk A -> In c (row_range A iblk) ->
  c < length (row_ptr A) /\ rp A c < ncolblk A /\
  (c * (nr * nc) + nr * nc <= length (val_crs A))%nat /\ (rp A c * nc + nc <= length x)%nat.
Proof.
  intros iblk c Hi Hc. pose proof (wf_range _ _ WF _ _ Hi Hc) as H1. destruct (wf_rp _ _ WF _ H1) as (_ & H2).
  destruct WF as (_ & _ & _ & _ & E & _). rewrite E, HX. repeat split; auto; nia.
Qed.
Lemma wf_bounds_dia : forall iblk, iblk < nrowblk A ->
  (iblk * (nr * nc) + nr * nc <= length (val_dia A))%nat /\ (iblk * nc + nc <= length x)%nat.
Proof. intros. destruct WF as (_ & _ & _ & _ & _ & E & E2). rewrite E, HX. split; nia. Qed.

Lemma MatVec_Gen_ok : forall y : list K, length y = (nrowblk A * nr)%nat ->
  wp (MatVec_Gen K A y alpha x) (fun y' => length y' = length y /\
    forall I a, I < nrowblk A -> a < nr -> nth (I * nr + a) y' 0 = alpha * Ax A x I a + nth (I * nr + a) y 0).
Proof.
  intros y Hy. unfold MatVec_Gen. apply (path_finish Lgen Lgen_at Lgen_idx); auto.
  intros iblk s Hi. rewrite !(wf_ci _ _ WF) by lia. cbn [bind]. rewrite Nat.add_1_r.
  apply row_accum; auto.
  - intros c s' Hc. destruct (wf_bounds _ _ Hi Hc) as (B1 & B2 & B3 & B4).
    rewrite (proj2 (Nat.ltb_lt _ _) B1). cbn [assertb bind]. rewrite (proj1 (wf_rp _ _ WF _ B1)). cbn [bind].
    rewrite (proj2 (Nat.ltb_lt _ _) B2). cbn [assertb bind]. apply gen_block; auto.
  - intros s'. destruct (wf_bounds_dia _ Hi). apply gen_block; auto.
Qed.

(** ---- written-out branches ---- *)
Definition Lsq (iblk : nat) (v : list K) (k j : nat) : list (nat * K) :=
  map (fun a => ((iblk * nr + a)%nat, alpha * blkrow v k j a)) (seq 0 nr).
Lemma Lsq_at : forall iblk v k j I a, a < nr ->
  at_ (I * nr + a) (Lsq iblk v k j) = if iblk =? I then alpha * blkrow v k j a else 0.
Proof.
  intros iblk v k j I a Ha. unfold Lsq. rewrite at_map.
  rewrite (bigsum_ext _ _ _ _ (fun a' => if a' =? a then (if iblk =? I then alpha * blkrow v k j a' else 0) else 0)).
  - apply (sumn_pick K nr a (fun a' => if iblk =? I then alpha * blkrow v k j a' else 0)). auto.
  - intros a' Ha'. apply in_seq in Ha'. rewrite idx_eqb by lia. destruct (iblk =? I), (a' =? a); auto.
Qed.
Lemma Lsq_idx : forall iblk v k j p, In p (Lsq iblk v k j) -> iblk < nrowblk A -> fst p < (nrowblk A * nr)%nat.
Proof.
  intros iblk v k j p Hp Hi. apply in_map_iff in Hp. destruct Hp as (a & <- & Ha). apply in_seq in Ha.
  apply idx_lt; lia.
Qed.

Lemma row2_ok : forall (v : list K) k j, (k + 2 <= length v)%nat -> (j + 2 <= length x)%nat ->
  row2 K v k x j = Some (sumn 2 (fun b => nth (k + b) v 0 * nth (j + b) x 0)).
Proof.
  clear HX WF. intros. unfold row2. do 4 (rewrite (vget_nth _ 0) by lia; cbn [bind]).
  f_equal. unfold sumn. simpl seq. rewrite !bigsum_cons, bigsum_nil. ring.
Qed.
Lemma row3_ok : forall (v : list K) k j, (k + 3 <= length v)%nat -> (j + 3 <= length x)%nat ->
  row3 K v k x j = Some (sumn 3 (fun b => nth (k + b) v 0 * nth (j + b) x 0)).
Proof.
  clear HX WF. intros. unfold row3. do 6 (rewrite (vget_nth _ 0) by lia; cbn [bind]).
  f_equal. unfold sumn. simpl seq. rewrite !bigsum_cons, bigsum_nil. ring.
Qed.
Lemma row4_ok : forall (v : list K) k j, (k + 4 <= length v)%nat -> (j + 4 <= length x)%nat ->
  row4 K v k x j = Some (sumn 4 (fun b => nth (k + b) v 0 * nth (j + b) x 0)).
Proof.
  clear HX WF. intros. unfold row4. do 8 (rewrite (vget_nth _ 0) by lia; cbn [bind]).
  f_equal. unfold sumn. simpl seq. rewrite !bigsum_cons, bigsum_nil. ring.
Qed.
Lemma pluseq_bind : forall i v (l : list (nat * K)) y, bind (pluseq K y i v) (accum l) = accum ((i, v) :: l) y.
Proof. reflexivity. Qed.

Lemma accum_eq : forall (l l' : list (nat * K)) y, l = l' -> accum l y = accum l' y.
Proof. intros l l' y E. rewrite E. auto. Qed.

Section Sq.
Variable n : nat.
Hypothesis Hr : nr = n.
Hypothesis Hc : nc = n.

Lemma MatVec_Blk11_ok : n = 1%nat -> forall y : list K, length y = (nrowblk A * nr)%nat ->
  wp (MatVec_Blk11 K y alpha (nrowblk A) (val_crs A) (val_dia A) (col_ind A) (row_ptr A) x) (fun y' => length y' = length y /\
    forall I a, I < nrowblk A -> a < nr -> nth (I * nr + a) y' 0 = alpha * Ax A x I a + nth (I * nr + a) y 0).
Proof.
  intros En y Hy. unfold MatVec_Blk11. apply (path_finish Lsq Lsq_at Lsq_idx); auto.
  intros iblk s Hi. rewrite !(wf_ci _ _ WF) by lia. cbn [bind]. rewrite Nat.add_1_r.
  apply row_accum; auto.
  - intros c s' Hc'. destruct (wf_bounds _ _ Hi Hc') as (B1 & B2 & B3 & B4). unfold Lsq, blkrow.
    rewrite Hr, Hc, En in *. rewrite (proj1 (wf_rp _ _ WF _ B1)). cbn [bind].
    rewrite !(vget_nth _ 0) by lia. cbn [bind]. unfold pluseq. rewrite accum1. simpl seq. cbn [map].
    do 2 f_equal. f_equal; [lia|]. unfold sumn. simpl seq. rewrite bigsum_cons, bigsum_nil.
    replace (c * (1 * 1) + 0 * 1 + 0)%nat with c by lia. replace (rp A c * 1 + 0)%nat with (rp A c) by lia. ring.
  - intros s'. destruct (wf_bounds_dia _ Hi) as (B3 & B4). unfold Lsq, blkrow. rewrite Hr, Hc, En in *.
    rewrite !(vget_nth _ 0) by lia. cbn [bind]. unfold pluseq. rewrite accum1. simpl seq. cbn [map].
    do 2 f_equal. f_equal; [lia|]. unfold sumn. simpl seq. rewrite bigsum_cons, bigsum_nil.
    replace (iblk * (1 * 1) + 0 * 1 + 0)%nat with iblk by lia. replace (iblk * 1 + 0)%nat with iblk by lia. ring.
Qed.


Lemma MatVec_Blk22_ok : n = 2%nat -> forall y : list K, length y = (nrowblk A * nr)%nat ->
  wp (MatVec_Blk22 K y alpha (nrowblk A) (val_crs A) (val_dia A) (col_ind A) (row_ptr A) x) (fun y' => length y' = length y /\
    forall I a, I < nrowblk A -> a < nr -> nth (I * nr + a) y' 0 = alpha * Ax A x I a + nth (I * nr + a) y 0).
Proof.
  intros En y Hy. unfold MatVec_Blk22. apply (path_finish Lsq Lsq_at Lsq_idx); auto.
  intros iblk s Hi. rewrite !(wf_ci _ _ WF) by lia. cbn [bind]. rewrite Nat.add_1_r.
  apply row_accum; auto.
  - intros c s' Hc'. destruct (wf_bounds _ _ Hi Hc') as (B1 & B2 & B3 & B4). unfold Lsq, blkrow.
    rewrite Hr, Hc, En in *. rewrite (proj1 (wf_rp _ _ WF _ B1)). cbn [bind].
    rewrite !row2_ok by lia. cbn [bind].
    transitivity (accum [((iblk * 2 + 0)%nat, alpha * sumn 2 (fun b => nth (c * 4 + b) (val_crs A) 0 * nth (rp A c * 2 + b) x 0));
       ((iblk * 2 + 1)%nat, alpha * sumn 2 (fun b => nth (c * 4 + 2 + b) (val_crs A) 0 * nth (rp A c * 2 + b) x 0))] s').
    { unfold accum. cbn [foldM]. unfold addto. cbn [fst snd]. unfold pluseq. destruct (vmod _ _ _); simpl; auto. destruct (vmod _ _ _); auto. }
    apply accum_eq. simpl seq. cbn [map]. change (2 * 2)%nat with 4%nat. rewrite Nat.mul_0_l, (Nat.add_0_r (c * 4)). reflexivity.
  - intros s'. destruct (wf_bounds_dia _ Hi) as (B3 & B4). unfold Lsq, blkrow. rewrite Hr, Hc, En in *.
    rewrite !row2_ok by lia. cbn [bind].
    transitivity (accum [((iblk * 2 + 0)%nat, alpha * sumn 2 (fun b => nth (iblk * 4 + b) (val_dia A) 0 * nth (iblk * 2 + b) x 0));
       ((iblk * 2 + 1)%nat, alpha * sumn 2 (fun b => nth (iblk * 4 + 2 + b) (val_dia A) 0 * nth (iblk * 2 + b) x 0))] s').
    { unfold accum. cbn [foldM]. unfold addto. cbn [fst snd]. unfold pluseq. destruct (vmod _ _ _); simpl; auto. destruct (vmod _ _ _); auto. }
    apply accum_eq. simpl seq. cbn [map]. change (2 * 2)%nat with 4%nat. rewrite Nat.mul_0_l, (Nat.add_0_r (iblk * 4)). reflexivity.
Qed.

Lemma MatVec_Blk33_ok : n = 3%nat -> forall y : list K, length y = (nrowblk A * nr)%nat ->
  wp (MatVec_Blk33 K y alpha (nrowblk A) (val_crs A) (val_dia A) (col_ind A) (row_ptr A) x) (fun y' => length y' = length y /\
    forall I a, I < nrowblk A -> a < nr -> nth (I * nr + a) y' 0 = alpha * Ax A x I a + nth (I * nr + a) y 0).
Proof.
  intros En y Hy. unfold MatVec_Blk33. apply (path_finish Lsq Lsq_at Lsq_idx); auto.
  intros iblk s Hi. rewrite !(wf_ci _ _ WF) by lia. cbn [bind]. rewrite Nat.add_1_r.
  apply row_accum; auto.
  - intros c s' Hc'. destruct (wf_bounds _ _ Hi Hc') as (B1 & B2 & B3 & B4). unfold Lsq, blkrow.
    rewrite Hr, Hc, En in *. rewrite (proj1 (wf_rp _ _ WF _ B1)). cbn [bind]. cbv zeta.
    rewrite !row3_ok by lia. cbn [bind].
    transitivity (accum [((iblk * 3 + 0)%nat, alpha * sumn 3 (fun b => nth (c * 9 + b) (val_crs A) 0 * nth (rp A c * 3 + b) x 0));
       ((iblk * 3 + 1)%nat, alpha * sumn 3 (fun b => nth (c * 9 + 3 + b) (val_crs A) 0 * nth (rp A c * 3 + b) x 0));
       ((iblk * 3 + 2)%nat, alpha * sumn 3 (fun b => nth (c * 9 + 6 + b) (val_crs A) 0 * nth (rp A c * 3 + b) x 0))] s').
    { unfold accum. cbn [foldM]. unfold addto. cbn [fst snd]. unfold pluseq.
      destruct (vmod _ _ _); simpl; auto. destruct (vmod _ _ _); simpl; auto. destruct (vmod _ _ _); auto. }
    apply accum_eq. simpl seq. cbn [map]. change (3 * 3)%nat with 9%nat. rewrite Nat.mul_0_l, (Nat.add_0_r (c * 9)). reflexivity.
  - intros s'. destruct (wf_bounds_dia _ Hi) as (B3 & B4). unfold Lsq, blkrow. rewrite Hr, Hc, En in *. cbv zeta.
    rewrite !row3_ok by lia. cbn [bind].
    transitivity (accum [((iblk * 3 + 0)%nat, alpha * sumn 3 (fun b => nth (iblk * 9 + b) (val_dia A) 0 * nth (iblk * 3 + b) x 0));
       ((iblk * 3 + 1)%nat, alpha * sumn 3 (fun b => nth (iblk * 9 + 3 + b) (val_dia A) 0 * nth (iblk * 3 + b) x 0));
       ((iblk * 3 + 2)%nat, alpha * sumn 3 (fun b => nth (iblk * 9 + 6 + b) (val_dia A) 0 * nth (iblk * 3 + b) x 0))] s').
    { unfold accum. cbn [foldM]. unfold addto. cbn [fst snd]. unfold pluseq.
      destruct (vmod _ _ _); simpl; auto. destruct (vmod _ _ _); simpl; auto. destruct (vmod _ _ _); auto. }
    apply accum_eq. simpl seq. cbn [map]. change (3 * 3)%nat with 9%nat. rewrite Nat.mul_0_l, (Nat.add_0_r (iblk * 9)). reflexivity.
Qed.

Lemma MatVec_Blk44_ok : n = 4%nat -> forall y : list K, length y = (nrowblk A * nr)%nat ->
  wp (MatVec_Blk44 K y alpha (nrowblk A) (val_crs A) (val_dia A) (col_ind A) (row_ptr A) x) (fun y' => length y' = length y /\
    forall I a, I < nrowblk A -> a < nr -> nth (I * nr + a) y' 0 = alpha * Ax A x I a + nth (I * nr + a) y 0).
Proof.
  intros En y Hy. unfold MatVec_Blk44. apply (path_finish Lsq Lsq_at Lsq_idx); auto.
  intros iblk s Hi. rewrite !(wf_ci _ _ WF) by lia. cbn [bind]. rewrite Nat.add_1_r.
  apply row_accum; auto.
  - intros c s' Hc'. destruct (wf_bounds _ _ Hi Hc') as (B1 & B2 & B3 & B4). unfold Lsq, blkrow.
    rewrite Hr, Hc, En in *. rewrite (proj1 (wf_rp _ _ WF _ B1)). cbn [bind]. cbv zeta.
    rewrite !row4_ok by lia. cbn [bind].
    transitivity (accum [((iblk * 4 + 0)%nat, alpha * sumn 4 (fun b => nth (c * 16 + b) (val_crs A) 0 * nth (rp A c * 4 + b) x 0));
       ((iblk * 4 + 1)%nat, alpha * sumn 4 (fun b => nth (c * 16 + 4 + b) (val_crs A) 0 * nth (rp A c * 4 + b) x 0));
       ((iblk * 4 + 2)%nat, alpha * sumn 4 (fun b => nth (c * 16 + 8 + b) (val_crs A) 0 * nth (rp A c * 4 + b) x 0));
       ((iblk * 4 + 3)%nat, alpha * sumn 4 (fun b => nth (c * 16 + 12 + b) (val_crs A) 0 * nth (rp A c * 4 + b) x 0))] s').
    { unfold accum. cbn [foldM]. unfold addto. cbn [fst snd]. unfold pluseq.
      destruct (vmod _ _ _); simpl; auto. destruct (vmod _ _ _); simpl; auto. destruct (vmod _ _ _); simpl; auto. destruct (vmod _ _ _); auto. }
    apply accum_eq. simpl seq. cbn [map]. change (4 * 4)%nat with 16%nat. rewrite Nat.mul_0_l, (Nat.add_0_r (c * 16)). reflexivity.
  - intros s'. destruct (wf_bounds_dia _ Hi) as (B3 & B4). unfold Lsq, blkrow. rewrite Hr, Hc, En in *. cbv zeta.
    rewrite !row4_ok by lia. cbn [bind].
    transitivity (accum [((iblk * 4 + 0)%nat, alpha * sumn 4 (fun b => nth (iblk * 16 + b) (val_dia A) 0 * nth (iblk * 4 + b) x 0));
       ((iblk * 4 + 1)%nat, alpha * sumn 4 (fun b => nth (iblk * 16 + 4 + b) (val_dia A) 0 * nth (iblk * 4 + b) x 0));
       ((iblk * 4 + 2)%nat, alpha * sumn 4 (fun b => nth (iblk * 16 + 8 + b) (val_dia A) 0 * nth (iblk * 4 + b) x 0));
       ((iblk * 4 + 3)%nat, alpha * sumn 4 (fun b => nth (iblk * 16 + 12 + b) (val_dia A) 0 * nth (iblk * 4 + b) x 0))] s').
    { unfold accum. cbn [foldM]. unfold addto. cbn [fst snd]. unfold pluseq.
      destruct (vmod _ _ _); simpl; auto. destruct (vmod _ _ _); simpl; auto. destruct (vmod _ _ _); simpl; auto. destruct (vmod _ _ _); auto. }
    apply accum_eq. simpl seq. cbn [map]. change (4 * 4)%nat with 16%nat. rewrite Nat.mul_0_l, (Nat.add_0_r (iblk * 16)). reflexivity.
Qed.
End Sq.

Lemma MatVec_ok : forall beta (y : list K), length y = (nrowblk A * nr)%nat ->
  wp (MatVec A y alpha x beta) (fun y' => length y' = length y /\
    forall I a, I < nrowblk A -> a < nr ->
      nth (I * nr + a) y' 0 = alpha * Ax A x I a + beta * nth (I * nr + a) y 0).
Proof.
  intros beta y Hy. unfold MatVec. apply wp_bind. eapply wp_mono; [apply scale_all_ok; nia|].
  intros y1 (L1 & E1).
  assert (X : forall e, wp e (fun y' => length y' = length y1 /\ forall I a, I < nrowblk A -> a < nr ->
        nth (I * nr + a) y' 0 = alpha * Ax A x I a + nth (I * nr + a) y1 0) ->
     wp e (fun y' => length y' = length y /\
    forall I a, I < nrowblk A -> a < nr ->
      nth (I * nr + a) y' 0 = alpha * Ax A x I a + beta * nth (I * nr + a) y 0)).
  { intros e He. eapply wp_mono; eauto. intros y' (L & E). split; [congruence|].
    intros I a HI Ha. rewrite E, E1 by (auto; rewrite Hy; apply idx_lt; auto). auto. }
  destruct (Nat.eqb_spec nr 1), (Nat.eqb_spec nc 1); cbn [andb]; [apply X, (MatVec_Blk11_ok 1); congruence| | |];
  (destruct (Nat.eqb_spec nr 2), (Nat.eqb_spec nc 2); cbn [andb]; [apply X, (MatVec_Blk22_ok 2); congruence| | |]);
  (destruct (Nat.eqb_spec nr 3), (Nat.eqb_spec nc 3); cbn [andb]; [apply X, (MatVec_Blk33_ok 3); congruence| | |]);
  (destruct (Nat.eqb_spec nr 4), (Nat.eqb_spec nc 4); cbn [andb]; [apply X, (MatVec_Blk44_ok 4); congruence| | |]);
  apply X, MatVec_Gen_ok; congruence.
Qed.
End P.
