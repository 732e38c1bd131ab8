(** Inverse_Matrix computes the inverse. *)
From Coq Require Import List Arith Bool ZArith Lia Ring.
Import ListNotations.
From Verif Require Import Imp Alg SpProofs1 SpProofs4 MatnModel MatnProofs1 DtriProofs5.

Section P.
Variable F : pfield.
Notation K := (pr F).
Add Ring Kr : (rlaws K).
Local Open Scope K_scope.

Definition delta (a c : nat) : K := if a =? c then 1 else 0.
(** N is the two-sided inverse of M. *)
Definition inverse_of (n : nat) (M N : nat -> nat -> K) : Prop :=
  (forall a c, a < n -> c < n -> sumn n (fun b => M a b * N b c) = delta a c) /\
  (forall a c, a < n -> c < n -> sumn n (fun b => N a b * M b c) = delta a c).

(** One row of a block. *)
Lemma loop_row : forall n o j (v : list K) (g : nat -> K -> K) body, j < n -> (o + n * n <= length v)%nat ->
  (forall k s, k < n -> length s = length v -> (forall a b, a < n -> b < n -> a <> j -> nth (o + a * n + b) s 0 = nth (o + a * n + b) v 0) ->
     body k s = vmod s (o + j * n + k) (g k)) ->
  wp (forn 0 n body v) (fun v' => blkupd n v v' o (fun a b => if a =? j then g b (nth (o + a * n + b) v 0) else nth (o + a * n + b) v 0)).
Proof.
  intros n o j v g body Hj Hlen Hb.
  eapply (wp_own2 _ 0 (fun k p => k < n /\ p = o + j * n + k)%nat (fun p x x' => forall k, k < n -> p = (o + j * n + k)%nat -> x' = g k x)).
  - intros i i' k (Hi & ->) (Hi' & E). lia.
  - lia.
  - intros k s Hk HL Hs. rewrite Hb; try lia.
    + pose proof (blk_pos_in n o j k Hj ltac:(lia)). eapply wp_mono; [apply vmod_own; lia|].
      intros s' (L & H'). split; auto. intros p. split.
      * intros (_ & ->) k' Hk' E. assert (k' = k) by lia. subst k'. apply H'. auto.
      * intros Hn. apply H'. intros ->. apply Hn. split; [lia|auto].
    + intros a b Ha Hb' Hne. apply Hs. intros k' Hk' (Hk'' & E). apply blk_pos_inj in E; auto. lia.
  - intros v' L H1 H2. split; auto. split.
    + intros a b Ha Hb'. destruct (Nat.eqb_spec a j) as [->|Hne].
      * refine (H1 (o + j * n + b)%nat b _ _ b Hb' eq_refl); [lia|auto].
      * apply H2. intros k Hk (Hk' & E). apply blk_pos_inj in E; auto. lia.
    + intros k Hk. apply H2. intros b Hb' (_ & ->). pose proof (blk_pos_in n o j b Hj ltac:(lia)). lia.
Qed.

(** The residual of the system after i Gauss-Jordan steps. *)
Definition res (n i : nat) (M : nat -> nat -> K) (x y : nat -> K) (j : nat) : K :=
  sumn n (fun k => M j k * (if k <? i then y k else - x k)) + (if j <? i then - x j else y j).

Section Step.
Variables (n i : nat) (M N : nat -> nat -> K) (t : K).
Hypothesis Hi : i < n.
Hypothesis Ht : M i i * t = 1.
Hypothesis HNi : forall k, k < n -> N i k = (if k =? i then 1 else M i k) * t.
Hypothesis HNj : forall j k, j < n -> k < n -> j <> i -> N j k = (if k =? i then 0 else M j k) - M j i * N i k.

Lemma res_i : forall x y, res n (S i) N x y i = t * res n i M x y i.
Proof.
  intros x y. unfold res. destruct (Nat.ltb_spec i (S i)); [|lia]. destruct (Nat.ltb_spec i i); [lia|].
  rewrite (sumn_ext _ n _ (fun k => t * (M i k * (if k <? i then y k else - x k)) + (if k =? i then t * y k + (M i i * t) * x k else 0))).
  - rewrite sumn_add, sumn_mull. rewrite (sumn_pick K n i (fun k => t * y k + (M i i * t) * x k)) by auto. rewrite Ht. ring.
  - intros k Hk. rewrite HNi by auto. destruct (Nat.eqb_spec k i) as [->|].
    + destruct (Nat.ltb_spec i (S i)); [|lia]. destruct (Nat.ltb_spec i i); [lia|]. ring.
    + destruct (Nat.ltb_spec k (S i)), (Nat.ltb_spec k i); try lia; ring.
Qed.
Lemma res_j : forall x y j, j < n -> j <> i -> res n (S i) N x y j = res n i M x y j - M j i * res n (S i) N x y i.
Proof.
  intros x y j Hj Hne. unfold res. destruct (Nat.ltb_spec i (S i)); [|lia].
  replace (j <? S i) with (j <? i) by (destruct (Nat.ltb_spec j i), (Nat.ltb_spec j (S i)); auto; lia).
  rewrite (sumn_ext _ n _ (fun k => (M j k * (if k <? i then y k else - x k) - M j i * (N i k * (if k <? S i then y k else - x k))) + (if k =? i then M j i * x k else 0))).
  - rewrite sumn_add. rewrite (sumn_pick K n i (fun k => M j i * x k)) by auto.
    rewrite (sumn_ext _ n (fun k => M j k * (if k <? i then y k else - x k) - M j i * (N i k * (if k <? S i then y k else - x k)))
       (fun k => M j k * (if k <? i then y k else - x k) + (- M j i) * (N i k * (if k <? S i then y k else - x k)))) by (intros; ring).
    rewrite sumn_add, sumn_mull. ring.
  - intros k Hk. rewrite HNj by auto. destruct (Nat.eqb_spec k i) as [->|].
    + destruct (Nat.ltb_spec i (S i)); [|lia]. destruct (Nat.ltb_spec i i); [lia|]. ring.
    + destruct (Nat.ltb_spec k (S i)), (Nat.ltb_spec k i); try lia; ring.
Qed.
Lemma res_step : forall x y, (forall j, j < n -> res n i M x y j = 0) <-> (forall j, j < n -> res n (S i) N x y j = 0).
Proof.
  intros x y. split; intros H.
  - assert (E : res n (S i) N x y i = 0) by (rewrite res_i, H by auto; ring).
    intros j Hj. destruct (Nat.eq_dec j i) as [->|Hne]; auto. rewrite res_j, E, H by auto. ring.
  - assert (E : res n i M x y i = 0).
    { replace (res n i M x y i) with (M i i * t * res n i M x y i) by (rewrite Ht; ring).
      replace (M i i * t * res n i M x y i) with (M i i * (t * res n i M x y i)) by ring. rewrite <- res_i, H by auto. ring. }
    intros j Hj. destruct (Nat.eq_dec j i) as [->|Hne]; auto.
    pose proof (res_j x y j Hj Hne) as R. rewrite !H in R by auto.
    transitivity (res n i M x y j - M j i * 0); [ring|]. symmetry. exact R.
Qed.
End Step.

Lemma blkupd_refl : forall n (v : list K) o, blkupd n v v o (fun a b => nth (o + a * n + b) v 0).
Proof. intros. split; auto. Qed.
Lemma blkupd_trans : forall n (v v' v'' : list K) o N N', blkupd n v v' o N -> blkupd n v' v'' o N' -> blkupd n v v'' o N'.
Proof. intros n v v' v'' o N N' (L & _ & H) (L' & H1 & H2). split; [congruence|]. split; auto. intros k Hk. rewrite H2, H; auto. Qed.
Lemma blkupd_ext : forall n (v v' : list K) o N N', blkupd n v v' o N -> (forall a b, a < n -> b < n -> N a b = N' a b) -> blkupd n v v' o N'.
Proof. intros n v v' o N N' (L & H & H2) E. split; auto. split; auto. intros. rewrite H; auto. Qed.
Lemma blkupd_self : forall n (v v' : list K) o N, blkupd n v v' o N -> blkupd n v v' o (fun a b => nth (o + a * n + b) v' 0).
Proof. intros n v v' o N (L & H & H2). split; auto. Qed.

Lemma elim_rows : forall n i (v : list K) o, i < n -> (o + n * n <= length v)%nat ->
  let M := fun a b => nth (o + a * n + b) v 0 in
  wp (forn 0 n (fun j v =>
      if (j =? i)%nat then Some v else
      tmp2 <- vget v (o + j * n + i) ;;
      v <- vset v (o + j * n + i) 0 ;;
      forn 0 n (fun k v => aik <- vget v (o + i * n + k) ;; vmod v (o + j * n + k) (fun t => t - tmp2 * aik)) v) v)
   (fun v' => blkupd n v v' o (fun a b => if a =? i then M i b else (if b =? i then 0 else M a b) - M a i * M i b)).
Proof.
  intros n i v o Hi Hlen M.
  apply (wp_forn _ (fun j v' => blkupd n v v' o (fun a b =>
     if (a <? j) && negb (a =? i) then (if b =? i then 0 else M a b) - M a i * M i b else M a b))); [lia| | |].
  - eapply blkupd_ext; [apply blkupd_refl|]. intros a b Ha Hb. reflexivity.
  - intros j s Hj HU. destruct (Nat.eqb_spec j i) as [->|Hne].
    + apply wp_some. eapply blkupd_ext; [exact HU|]. intros a b Ha Hb. cbn beta.
      destruct (Nat.eqb_spec a i) as [->|]; [rewrite !andb_false_r; auto|].
      replace (a <? S i) with (a <? i) by (destruct (Nat.ltb_spec a i), (Nat.ltb_spec a (S i)); auto; lia). auto.
    + pose proof HU as (HL & HB & HF).
      pose proof (blk_pos_in n o j i ltac:(lia) Hi) as Pji.
      rewrite (vget_nth _ 0) by lia. cbn [bind].
      assert (Gj : forall b, b < n -> nth (o + j * n + b) s 0 = M j b).
      { intros b Hb. rewrite HB by lia. destruct (Nat.ltb_spec j j); [lia|]. auto. }
      assert (Gi : forall b, b < n -> nth (o + i * n + b) s 0 = M i b).
      { intros b Hb. rewrite HB by lia. rewrite Nat.eqb_refl, andb_false_r. auto. }
      rewrite Gj by auto. apply wp_bind. apply wp_vset; [lia|].
      eapply wp_mono; [apply (loop_row n o j _ (fun k t => t - M j i * M i k)); [lia|lens; lia|]|].
      * intros k s' Hk HL' Hs'. lens. pose proof (blk_pos_in n o i k Hi Hk).
        rewrite (vget_nth _ 0) by lia. cbn [bind]. rewrite Hs' by auto.
        rewrite nth_upd_other. { rewrite Gi by auto. auto. } intros E. apply blk_pos_inj in E; auto; lia.
      * intros s' HU'.
        assert (HU1 : blkupd n s (upd s (o + j * n + i) 0) o (fun a b => nth (o + a * n + b) (upd s (o + j * n + i) 0) 0)).
        { split; [lens; auto|]. split; auto. intros k Hk. apply nth_upd_other. lia. }
        eapply blkupd_ext; [eapply blkupd_trans; [exact HU|]; eapply blkupd_trans; [exact HU1|exact HU']|].
        intros a b Ha Hb. cbn beta. destruct (Nat.eqb_spec a j) as [->|Hna].
        -- destruct (Nat.ltb_spec j (S j)); [|lia]. destruct (Nat.eqb_spec j i); [lia|]. cbn [andb negb].
           destruct (Nat.eqb_spec b i) as [->|Hnb].
           ++ rewrite nth_upd_same by lia. auto.
           ++ rewrite nth_upd_other by lia. rewrite Gj by auto. auto.
        -- rewrite nth_upd_other by (intros E; apply blk_pos_inj in E; auto; lia).
           rewrite HB by auto.
           replace (a <? S j) with (a <? j) by (destruct (Nat.ltb_spec a j), (Nat.ltb_spec a (S j)); auto; lia). auto.
  - intros v' HU. eapply blkupd_ext; [exact HU|]. intros a b Ha Hb. cbn beta. destruct (Nat.ltb_spec a n); [|lia]. cbn [andb].
    destruct (Nat.eqb_spec a i) as [->|]; auto.
Qed.

(** The general routine: whatever happens, only the block changes; if it returns true, it inverted the block. *)
Lemma Inverse_gen_ok : forall n (v : list K) o, (o + n * n <= length v)%nat ->
  wp (Inverse_gen n v o) (fun r => blkupd n v (fst r) o (fun a b => nth (o + a * n + b) (fst r) 0) /\
     (snd r = true -> forall x y, (forall a, a < n -> y a = sumn n (fun b => nth (o + a * n + b) v 0 * x b)) <->
         (forall a, a < n -> x a = sumn n (fun b => nth (o + a * n + b) (fst r) 0 * y b)))).
Proof.
  intros n v o Hlen. unfold Inverse_gen.
  pose (G := fun v' : list K => blkupd n v v' o (fun a b => nth (o + a * n + b) v' 0)).
  pose (Inv := fun i (s : list K * bool) => G (fst s) /\ snd s = true /\
     forall x y, (forall a, a < n -> y a = sumn n (fun b => nth (o + a * n + b) v 0 * x b)) <->
       (forall j, j < n -> res n i (fun a b => nth (o + a * n + b) (fst s) 0) x y j = 0)).
  apply (wp_forb' _ Inv (fun s => (G (fst s) /\ snd s = false) \/ Inv n s)); [lia| | | |].
  - split; [split; auto|]. split; auto. intros x y.
    assert (E : forall j, j < n -> res n 0 (fun a b => nth (o + a * n + b) v 0) x y j = y j - sumn n (fun b => nth (o + j * n + b) v 0 * x b)).
    { intros j Hj. unfold res. cbn [Nat.ltb Nat.leb].
      rewrite (sumn_ext _ n _ (fun b => (- (1)) * (nth (o + j * n + b) v 0 * x b))) by (intros; ring). rewrite sumn_mull. ring. }
    split; intros H j Hj.
    + cbn [fst]. rewrite E, <- H by auto. ring.
    + specialize (H j Hj). cbn [fst] in H. rewrite E in H by auto.
      transitivity (y j - sumn n (fun b => nth (o + j * n + b) v 0 * x b) + sumn n (fun b => nth (o + j * n + b) v 0 * x b)); [ring|]. rewrite H. ring.
  - intros i s Hi (HG & Hok & HI). destruct s as (w & ok). cbn [fst snd] in *. subst ok.
    pose proof HG as (HL & _ & HF). pose proof (blk_pos_in n o i i ltac:(lia) ltac:(lia)) as Pii.
    rewrite (vget_nth _ 0) by lia. cbn [bind]. set (M := fun a b => nth (o + a * n + b) w 0).
    change (nth (o + i * n + i) w 0) with (M i i).
    destruct (small (M i i)) eqn:Sm.
    { apply wp_some. cbn [fst snd]. left. auto. }
    cbv zeta. apply wp_bind. apply wp_vset; [lia|]. apply wp_bind.
    assert (HU1 : blkupd n w (upd w (o + i * n + i) 1) o (fun a b => nth (o + a * n + b) (upd w (o + i * n + i) 1) 0)).
    { split; [lens; auto|]. split; auto. intros k Hk. apply nth_upd_other. lia. }
    eapply wp_mono; [apply (loop_row n o i _ (fun k t => t * pinv (M i i))); [lia|lens; lia|auto]|].
    intros w1 HU2. apply wp_bind. pose proof HU2 as (HL2 & HB2 & _).
    eapply wp_mono; [apply elim_rows; [lia|lens; lia]|].
    intros w2 HU3. apply wp_some. cbn [fst snd]. pose proof HU3 as (HL3 & HB3 & _).
    split; [|split; auto].
    + eapply blkupd_self. eapply blkupd_trans; [exact HG|]. eapply blkupd_trans; [exact HU1|]. eapply blkupd_trans; [exact HU2|exact HU3].
    + intros x y. rewrite HI. cbn [fst]. apply (res_step n i M _ (pinv (M i i))); [lia|apply pinv_law; auto| |].
      * intros k Hk. rewrite HB3, Nat.eqb_refl by lia. rewrite HB2, Nat.eqb_refl by lia.
        destruct (Nat.eqb_spec k i) as [->|Hne].
        -- rewrite nth_upd_same by lia. auto.
        -- rewrite nth_upd_other by lia. auto.
      * intros j k Hj Hk Hne. rewrite !HB3 by lia. destruct (Nat.eqb_spec j i); [lia|]. rewrite Nat.eqb_refl.
        rewrite !(HB2 j) by lia. destruct (Nat.eqb_spec j i); [lia|].
        rewrite !nth_upd_other by (intros E; apply blk_pos_inj in E; auto; lia). reflexivity.
  - auto.
  - intros s [(HG & Hf)|(HG & Hok & HI)].
    + split; auto. rewrite Hf. discriminate.
    + split; auto. intros _ x y. rewrite HI.
      assert (E : forall j, j < n -> res n n (fun a b => nth (o + a * n + b) (fst s) 0) x y j = sumn n (fun b => nth (o + j * n + b) (fst s) 0 * y b) - x j).
      { intros j Hj. unfold res. destruct (Nat.ltb_spec j n); [|lia].
        rewrite (sumn_ext _ n _ (fun b => nth (o + j * n + b) (fst s) 0 * y b)); [ring|].
        intros b Hb. destruct (Nat.ltb_spec b n); [auto|lia]. }
      split; intros H j Hj; specialize (H j Hj); rewrite ?E in * by auto.
      * transitivity (sumn n (fun b => nth (o + j * n + b) (fst s) 0 * y b) - (sumn n (fun b => nth (o + j * n + b) (fst s) 0 * y b) - x j)); [ring|]. rewrite H. ring.
      * rewrite H. ring.
Qed.

Lemma iff_inverse : forall n M N,
  (forall x y, (forall a, a < n -> y a = sumn n (fun b => M a b * x b)) <-> (forall a, a < n -> x a = sumn n (fun b => N a b * y b))) ->
  inverse_of n M N.
Proof.
  intros n M N H.
  assert (PK : forall (P : nat -> nat -> K) a c, c < n -> P a c = sumn n (fun b => P a b * delta b c)).
  { intros P a c Hc. rewrite <- (sumn_pick K n c (fun b => P a b)) by auto. apply sumn_ext. intros b Hb.
    unfold delta. destruct (b =? c); ring. }
  split; intros a c Ha Hc.
  - destruct (H (fun b => N b c) (fun b => delta b c)) as (_ & H2). symmetry. apply H2; auto.
  - destruct (H (fun b => delta b c) (fun b => M b c)) as (H1 & _). symmetry. apply H1; auto.
Qed.

(** The fixed-size formulas. *)
Lemma sumn1 : forall f : nat -> K, sumn 1 f = f 0%nat.
Proof. intros. unfold sumn. cbn [seq]. rewrite bigsum_cons, bigsum_nil. ring. Qed.
Lemma sumn2 : forall f : nat -> K, sumn 2 f = f 0%nat + f 1%nat.
Proof. intros. unfold sumn. cbn [seq]. rewrite !bigsum_cons, bigsum_nil. ring. Qed.
Lemma sumn3 : forall f : nat -> K, sumn 3 f = f 0%nat + f 1%nat + f 2%nat.
Proof. intros. unfold sumn. cbn [seq]. rewrite !bigsum_cons, bigsum_nil. ring. Qed.

Lemma Inverse_1_ok : forall (v : list K) o, (o + 1 <= length v)%nat ->
  wp (Inverse_1 v o) (fun r => blkupd 1 v (fst r) o (fun a b => nth (o + a * 1 + b) (fst r) 0) /\
     (small (nth o v 0) = false -> inverse_of 1 (fun a b => nth (o + a * 1 + b) v 0) (fun a b => nth (o + a * 1 + b) (fst r) 0))).
Proof.
  intros v o Hlen. unfold Inverse_1. rewrite (vget_nth _ 0) by lia. cbn [bind]. apply wp_bind, wp_vset; [lia|]. apply wp_some. cbn [fst snd].
  split; [split; [lens; auto|split; [auto|]]|].
  - intros k Hk. apply nth_upd_other. lia.
  - intros Hs. rewrite <- (Nat.add_0_r o) in Hs. apply pinv_law in Hs.
    split; intros [|a] [|c] Ha Hc; try lia; rewrite sumn1; cbn [Nat.mul]; rewrite !Nat.add_0_r in *; rewrite nth_upd_same by lia;
      unfold delta; cbn [Nat.eqb]; rewrite <- Hs; ring.
Qed.

Lemma Inverse_2_ok : forall (v : list K) o, (o + 4 <= length v)%nat ->
  wp (Inverse_2 v o) (fun r => blkupd 2 v (fst r) o (fun a b => nth (o + a * 2 + b) (fst r) 0) /\
     (snd r = true <-> small (nth (o+0) v 0 * nth (o+3) v 0 - nth (o+1) v 0 * nth (o+2) v 0) = false) /\
     (snd r = true -> inverse_of 2 (fun a b => nth (o + a * 2 + b) v 0) (fun a b => nth (o + a * 2 + b) (fst r) 0))).
Proof.
  intros v o Hlen. unfold Inverse_2. rewrite !(vget_nth _ 0) by lia. cbn [bind]. cbv zeta.
  destruct (small _) eqn:Sm.
  { apply wp_some. cbn [fst snd]. split; [split; auto|]. split; [split; discriminate|discriminate]. }
  apply pinv_law in Sm.
  apply wp_bind, wp_vset; [lia|]. apply wp_bind, wp_vset; [lens; lia|]. apply wp_bind, wp_vset; [lens; lia|].
  apply wp_bind, wp_vset; [lens; lia|]. apply wp_some. cbn [fst snd].
  split; [split; [lens; auto|split; [auto|]]|].
  - intros k Hk. rewrite !nth_upd_other by lia. auto.
  - split; [tauto|]. intros _.
    set (t0 := nth (o + 0) v 0) in *. set (t1 := nth (o + 1) v 0) in *. set (t2 := nth (o + 2) v 0) in *. set (t3 := nth (o + 3) v 0) in *.
    set (q := pinv _) in *.
    split; intros [|[|a]] [|[|c]] Ha Hc; try lia; rewrite sumn2; cbn [Nat.mul Nat.add]; rewrite <- ?Nat.add_assoc; cbn [Nat.add];
     repeat (first [rewrite nth_upd_same by (lens; lia) | rewrite nth_upd_other by lia]);
     fold t0 t1 t2 t3; unfold delta; cbn [Nat.eqb]; try rewrite <- Sm; ring.
Qed.

Lemma Inverse_3_ok : forall (v : list K) o, (o + 9 <= length v)%nat ->
  wp (Inverse_3 v o) (fun r => blkupd 3 v (fst r) o (fun a b => nth (o + a * 3 + b) (fst r) 0) /\ snd r = true /\
     (small (det3 (fun i => nth (o + i) v 0)) = false ->
       inverse_of 3 (fun a b => nth (o + a * 3 + b) v 0) (fun a b => nth (o + a * 3 + b) (fst r) 0))).
Proof.
  intros v o Hlen. unfold Inverse_3. rewrite !(vget_nth _ 0) by lia. cbn [bind]. cbv zeta.
  do 9 (apply wp_bind, wp_vset; [lens; lia|]). apply wp_some. cbn [fst snd].
  split; [split; [lens; auto|split; [auto|]]|].
  - intros k Hk. rewrite !nth_upd_other by lia. auto.
  - split; auto. intros Sm. apply pinv_law in Sm. unfold det3 in *. cbn [nth].
    set (t0 := nth (o + 0) v 0) in *. set (t1 := nth (o + 1) v 0) in *. set (t2 := nth (o + 2) v 0) in *. set (t3 := nth (o + 3) v 0) in *.
    set (t4 := nth (o + 4) v 0) in *. set (t5 := nth (o + 5) v 0) in *. set (t6 := nth (o + 6) v 0) in *. set (t7 := nth (o + 7) v 0) in *.
    set (t8 := nth (o + 8) v 0) in *.
    set (q := pinv _) in *.
    split; intros [|[|[|a]]] [|[|[|c]]] Ha Hc; try lia; rewrite sumn3; cbn [Nat.mul Nat.add]; rewrite <- ?Nat.add_assoc; cbn [Nat.add];
     repeat (first [rewrite nth_upd_same by (lens; lia) | rewrite nth_upd_other by lia]);
     fold t0 t1 t2 t3 t4 t5 t6 t7 t8; unfold delta; cbn [Nat.eqb]; try rewrite <- Sm; ring.
Qed.

(** Conditions under which the routine inverts: for 1x1 and 3x3 blocks there is no check in the code. *)
Definition det_ok (n : nat) (v : list K) (o : nat) (ok : bool) : Prop :=
  match n with
  | S O => small (nth o v 0) = false
  | S (S (S O)) => small (det3 (fun i => nth (o + i) v 0)) = false
  | _ => ok = true
  end.
Lemma Inverse_Matrix_ok : forall n (v : list K) o, (o + n * n <= length v)%nat ->
  wp (Inverse_Matrix n v o) (fun r => blkupd n v (fst r) o (fun a b => nth (o + a * n + b) (fst r) 0) /\
    (det_ok n v o (snd r) -> inverse_of n (fun a b => nth (o + a * n + b) v 0) (fun a b => nth (o + a * n + b) (fst r) 0))).
Proof.
  intros n v o Hlen.
  assert (G : wp (Inverse_gen n v o) (fun r => blkupd n v (fst r) o (fun a b => nth (o + a * n + b) (fst r) 0) /\
    (snd r = true -> inverse_of n (fun a b => nth (o + a * n + b) v 0) (fun a b => nth (o + a * n + b) (fst r) 0)))).
  { eapply wp_mono; [apply Inverse_gen_ok; auto|]. intros r (H1 & H2). split; auto. intros E. apply iff_inverse. auto. }
  destruct n as [|[|[|[|n]]]]; auto.
  - apply Inverse_1_ok. lia.
  - eapply wp_mono; [apply Inverse_2_ok; lia|]. intros r (H1 & H2 & H3). split; auto.
  - eapply wp_mono; [apply Inverse_3_ok; lia|]. intros r (H1 & H2 & H3). split; auto.
Qed.
End P.
Arguments inverse_of {F}. Arguments delta {F}. Arguments det_ok {F}.
