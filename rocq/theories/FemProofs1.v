(** Sums and the assembly loop. *)
From Coq Require Import List Arith Reals Lia Lra Bool.
Import ListNotations.
From Verif Require Import Imp Alg SpModel SpSpec SpProofs5 SpProps FemModel FemSpec.
Local Open Scope R_scope.

Lemma sumn_R : forall n (f : nat -> R), @sumn Rcr n f = rsum n f. Proof. reflexivity. Qed.
Lemma rsum_S : forall n f, rsum (S n) f = rsum n f + f n. Proof. intros. apply (sumn_S Rcr). Qed.
Lemma rsum_0 : forall f, rsum 0 f = 0. Proof. reflexivity. Qed.
Lemma rsum_ext : forall n f g, (forall i, (i < n)%nat -> f i = g i) -> rsum n f = rsum n g. Proof. intros. apply (sumn_ext Rcr); auto. Qed.
Lemma rsum_zero : forall n f, (forall i, (i < n)%nat -> f i = 0) -> rsum n f = 0. Proof. intros. apply (sumn_zero Rcr); auto. Qed.
Lemma rsum_add : forall n f g, rsum n (fun i => f i + g i) = rsum n f + rsum n g. Proof. intros. apply (sumn_add Rcr). Qed.
Lemma rsum_mull : forall n c f, rsum n (fun i => c * f i) = c * rsum n f. Proof. intros. apply (sumn_mull Rcr). Qed.
Lemma rsum_mulr : forall n c f, rsum n (fun i => f i * c) = rsum n f * c. Proof. intros. apply (sumn_mulr Rcr). Qed.
Lemma rsum_swap : forall n m f, rsum n (fun x => rsum m (f x)) = rsum m (fun y => rsum n (fun x => f x y)). Proof. intros. apply (sumn_swap Rcr). Qed.
Lemma rsum_pick : forall n i f, (i < n)%nat -> rsum n (fun x => if (x =? i)%nat then f x else 0) = f i. Proof. intros. apply (sumn_pick Rcr); auto. Qed.
Lemma rsum_opp : forall n f, rsum n (fun i => - f i) = - rsum n f.
Proof. intros. rewrite (rsum_ext n _ (fun i => -1 * f i)) by (intros; ring). rewrite rsum_mull. ring. Qed.
Lemma rsum_sub : forall n f g, rsum n (fun i => f i - g i) = rsum n f - rsum n g.
Proof. intros. rewrite (rsum_ext n _ (fun i => f i + - g i)) by (intros; ring). rewrite rsum_add, rsum_opp. ring. Qed.
Lemma rsum_nonneg : forall n f, (forall i, (i < n)%nat -> 0 <= f i) -> 0 <= rsum n f.
Proof. induction n; intros f H; [rewrite rsum_0; lra|]. rewrite rsum_S. pose proof (IHn f ltac:(intros; apply H; lia)). pose proof (H n ltac:(lia)). lra. Qed.
Lemma rsum_nonneg_zero : forall n f, (forall i, (i < n)%nat -> 0 <= f i) -> rsum n f = 0 -> forall i, (i < n)%nat -> f i = 0.
Proof.
  induction n; intros f H E i Hi; [lia|]. rewrite rsum_S in E.
  pose proof (rsum_nonneg n f ltac:(intros; apply H; lia)). pose proof (H n ltac:(lia)).
  destruct (Nat.eq_dec i n) as [->|]; [lra|]. apply IHn; try lia; [intros; apply H; lia|lra].
Qed.
Ltac rsums := unfold rsum; cbn [seq fold_right].

Lemma accR_sum : forall n f x, accR n f x = x + rsum n f.
Proof.
  intros n f x. unfold accR. induction n; [rewrite rsum_0; cbn [seq fold_left]; ring|].
  rewrite seq_S, fold_left_app, IHn, rsum_S. cbn [fold_left]. rewrite Nat.add_0_l. ring.
Qed.
Lemma decR_sum : forall n f x, decR n f x = x - rsum n f.
Proof.
  intros n f x. unfold decR. induction n; [rewrite rsum_0; cbn [seq fold_left]; ring|].
  rewrite seq_S, fold_left_app, IHn, rsum_S. cbn [fold_left]. rewrite Nat.add_0_l. ring.
Qed.

(** ---- reading ---- *)
Lemma mapM_some : forall A B (f : A -> option B) (g : A -> B) l, (forall x, In x l -> f x = Some (g x)) -> mapM f l = Some (map g l).
Proof.
  induction l as [|x l IH]; intros H; [reflexivity|]. cbn [mapM map]. rewrite H by (left; auto). cbn [bind].
  rewrite IH by (intros; apply H; right; auto). reflexivity.
Qed.
Lemma nth_map_seq : forall A (f : nat -> A) n i d, (i < n)%nat -> nth i (map f (seq 0 n)) d = f i.
Proof. intros. rewrite (nth_indep _ d (f 0%nat)) by (rewrite map_length, seq_length; auto). rewrite map_nth, seq_nth; auto. Qed.

Definition corners (nno : nat) (aEl : list nat) (e : nat) : list nat := map (nd nno aEl e) (seq 0 nno).
Lemma corners_length : forall nno aEl e, length (corners nno aEl e) = nno.
Proof. intros. unfold corners. rewrite map_length, seq_length. auto. Qed.
Lemma corners_nth : forall nno aEl e i, (i < nno)%nat -> nth i (corners nno aEl e) 0%nat = nd nno aEl e i.
Proof. intros. apply nth_map_seq; auto. Qed.
Lemma element_ok : forall nno aEl nEl e, (nEl * nno <= length aEl)%nat -> (e < nEl)%nat -> element nno aEl e = Some (corners nno aEl e).
Proof.
  intros. apply mapM_some. intros i Hi. apply in_seq in Hi. unfold nd. apply vget_nth. nia.
Qed.
Lemma FetchData_ok : forall nno d l np X, length l = nno -> (forall i, (i < nno)%nat -> (nth i l 0 < np)%nat) -> length X = (np * d)%nat ->
  exists c, FetchData nno d l X = Some c /\ forall i k, (i < nno)%nat -> (k < d)%nat -> c i k = cmp d X (nth i l 0%nat) k.
Proof.
  intros nno d l np X Ll Hl LX. unfold FetchData.
  rewrite (mapM_some _ _ _ (fun i => map (cmp d X (nth i l 0%nat)) (seq 0 d))).
  - eexists. split; [reflexivity|]. intros i k Hi Hk. cbv beta. rewrite nth_map_seq by auto. apply nth_map_seq; auto.
  - intros i Hi. apply in_seq in Hi. rewrite (vget_nth _ 0%nat) by lia. cbn [bind]. apply mapM_some. intros k Hk. apply in_seq in Hk.
    unfold cmp. apply vget_nth. specialize (Hl i ltac:(lia)). nia.
Qed.

(** ---- the flat element matrix ---- *)
Lemma concat_map_length : forall A (f : nat -> list A) n m k, (forall i, length (f i) = m) -> length (concat (map f (seq k n))) = (n * m)%nat.
Proof. induction n; intros m k H; [reflexivity|]. cbn [seq map concat]. rewrite app_length, IHn with (m := m) by auto. rewrite H. lia. Qed.
Lemma nth_concat_map : forall A (d : A) n m k i j (f : nat -> list A), (forall i, length (f i) = m) -> (i < n)%nat -> (j < m)%nat ->
  nth (i * m + j) (concat (map f (seq k n))) d = nth j (f (k + i)%nat) d.
Proof.
  induction n; intros m k i j f H Hi Hj; [lia|]. cbn [seq map concat]. destruct i.
  - rewrite app_nth1 by (rewrite H; lia). rewrite Nat.add_0_r. f_equal.
  - rewrite app_nth2 by (rewrite H; lia). rewrite H. replace (S i * m + j - m)%nat with (i * m + j)%nat by lia.
    rewrite IHn by (auto; lia). replace (S k + i)%nat with (k + S i)%nat by lia. reflexivity.
Qed.
Lemma flat_length : forall nno d e, length (flat nno d e) = (nno * (nno * (d * d)))%nat.
Proof.
  intros. unfold flat. apply concat_map_length. intros i. apply concat_map_length. intros j. apply concat_map_length. intros a.
  rewrite map_length, seq_length. auto.
Qed.
Lemma flat_nth : forall nno d e i j a b, (i < nno)%nat -> (j < nno)%nat -> (a < d)%nat -> (b < d)%nat ->
  nth ((i * nno + j) * (d * d) + a * d + b) (flat nno d e) 0 = e i j a b.
Proof.
  intros nno d e i j a b Hi Hj Ha Hb. unfold flat.
  replace ((i * nno + j) * (d * d) + a * d + b)%nat with (i * (nno * (d * d)) + (j * (d * d) + (a * d + b)))%nat by ring.
  rewrite nth_concat_map with (m := (nno * (d * d))%nat); [|intros i'; apply concat_map_length; intros j'; apply concat_map_length;
    intros a'; rewrite map_length, seq_length; auto|auto|].
  2:{ assert (a * d + b < d * d)%nat by nia. set (q := (d * d)%nat) in *. set (r := (a * d + b)%nat) in *. clearbody q r. nia. }
  rewrite nth_concat_map with (m := (d * d)%nat); [|intros j'; apply concat_map_length;
    intros a'; rewrite map_length, seq_length; auto|auto|nia].
  rewrite nth_concat_map with (m := d); [|intros a'; rewrite map_length, seq_length; auto|auto|auto].
  rewrite nth_map_seq by auto. reflexivity.
Qed.

(** ---- the loop ---- *)
Section Asm.
Variables (nno d np : nat) (fill : option nat) (dbg : bool).
Variable mrg : matsp Rcr -> list nat -> list nat -> list R -> list (option nat) -> option (bool * (matsp Rcr * list (option nat))).
Hypothesis mrg_eq : forall A r c e buf, mrg A r c e buf = merge_core Rcr dbg fill A r c (d * d) e buf.
Variable (aEl : list nat) (nEl : nat).
Hypothesis M : mesh_ok nno np aEl nEl.
Hypothesis d_pos : (0 < d)%nat.
Hypothesis nno_2 : (2 <= nno)%nat.
Variable elem : list nat -> option (vecf * matf).
Variables (er : nat -> vecf) (em : nat -> matf).
Hypothesis elem_eq : forall e, (e < nEl)%nat -> exists r m, elem (corners nno aEl e) = Some (r, m) /\
  (forall i a, (i < nno)%nat -> (a < d)%nat -> r i a = er e i a) /\
  (forall i j a b, (i < nno)%nat -> (j < nno)%nat -> (a < d)%nat -> (b < d)%nat -> m i j a b = em e i j a b).

Notation N := (nd nno aEl).
Definition ctb_m (e I a J b : nat) : R :=
  rsum nno (fun i => rsum nno (fun j => if ((N e i =? I) && (N e j =? J))%bool%nat then em e i j a b else 0)).
Definition ctb_v (e I a : nat) : R := rsum nno (fun i => if (N e i =? I)%nat then er e i a else 0).

Lemma in_pattern_ne : forall A I J, wf (K := Rcr) A -> (I < nrowblk A)%nat -> in_pattern A I J -> (0 < length (row_ptr A))%nat.
Proof.
  intros A I J (W1 & W2 & W3 & _) HI (c & Hc & _). unfold row_range in Hc. apply in_seq in Hc.
  assert (Mn : forall k, (I + 1 + k <= nrowblk A)%nat -> (ci A (S I) <= ci A (I + 1 + k))%nat).
  { induction k; intros Hk; [replace (I + 1 + 0)%nat with (S I) by lia; lia|]. specialize (IHk ltac:(lia)).
    specialize (W2 (I + 1 + k)%nat ltac:(lia)). replace (I + 1 + S k)%nat with (S (I + 1 + k)) by lia. lia. }
  specialize (Mn (nrowblk A - S I)%nat ltac:(lia)). replace (I + 1 + (nrowblk A - S I))%nat with (nrowblk A) in Mn by lia. lia.
Qed.

Lemma addb_ok : forall e b r, (e < nEl)%nat -> length b = (np * d)%nat ->
  (forall i a, (i < nno)%nat -> (a < d)%nat -> r i a = er e i a) ->
  wp (forn 0 nno (fun ino b => ip <- vget (corners nno aEl e) ino ;;
        forn 0 d (fun a b => vmod b (ip * d + a) (fun t => t + r ino a)) b) b)
     (fun b' => length b' = (np * d)%nat /\ forall I a, (I < np)%nat -> (a < d)%nat -> cmp d b' I a = cmp d b I a + ctb_v e I a).
Proof.
  intros e b r He Lb Hr. destruct M as (M1 & M2 & M3).
  eapply wp_mono.
  - apply (wp_forn _ (fun n b' => length b' = (np * d)%nat /\ forall I a, (I < np)%nat -> (a < d)%nat ->
       cmp d b' I a = cmp d b I a + rsum n (fun i => if (N e i =? I)%nat then er e i a else 0))) with (P := fun b' => length b' = (np * d)%nat /\ forall I a, (I < np)%nat -> (a < d)%nat ->
       cmp d b' I a = cmp d b I a + rsum nno (fun i => if (N e i =? I)%nat then er e i a else 0)); [lia| | |auto].
    + split; auto. intros. rewrite rsum_0. ring.
    + intros i s Hi (Ls & Hs). rewrite (vget_nth _ 0%nat) by (rewrite corners_length; lia). cbn [bind]. rewrite corners_nth by lia.
      pose proof (M2 e i He ltac:(lia)) as HN.
      apply (wp_forn _ (fun n b' => length b' = (np * d)%nat /\ forall I a, (I < np)%nat -> (a < d)%nat ->
         cmp d b' I a = cmp d s I a + (if ((N e i =? I) && (a <? n))%bool%nat then er e i a else 0))); [lia| | |].
      * split; auto. intros I a HI Ha. replace (a <? 0)%nat with false by (symmetry; apply Nat.ltb_ge; lia). rewrite andb_false_r. ring.
      * intros n s' Hn (Ls' & Hs'). apply (wp_vmod _ 0); [nia|]. lens. split; [auto|]. intros I a HI Ha. unfold cmp at 1.
        rewrite nth_upd by nia. destruct (Nat.eq_dec (N e i * d + n) (I * d + a)) as [E|E].
        -- assert (I = N e i /\ a = n) as (-> & ->).
           { assert (I = N e i) as ->; [|split; [auto|lia]]. destruct (Nat.lt_trichotomy I (N e i)) as [L|[L|L]]; auto; nia. }
           fold (cmp d s' (N e i) n). rewrite Hs' by auto. rewrite Nat.eqb_refl. cbn [andb].
           replace (n <? n)%nat with false by (symmetry; apply Nat.ltb_ge; lia). replace (n <? S n)%nat with true by (symmetry; apply Nat.ltb_lt; lia).
           rewrite Hr by lia. ring.
        -- fold (cmp d s' I a). rewrite Hs' by auto. f_equal. destruct (Nat.eqb_spec (N e i) I) as [<-|]; cbn [andb]; [|auto].
           assert (a <> n) by (intros ->; auto). destruct (Nat.ltb_spec a n), (Nat.ltb_spec a (S n)); auto; lia.
      * intros s' (Ls' & Hs'). split; auto. intros I a HI Ha. rewrite Hs' by auto. rewrite Hs by auto. rewrite rsum_S.
        replace (a <? d)%nat with true by (symmetry; apply Nat.ltb_lt; lia). rewrite andb_true_r. ring.
  - intros b' (L & H). split; auto.
Qed.

Theorem assemble_ok : forall A b, matrix_ok nno np d aEl nEl A -> length b = (np * d)%nat ->
  exists B b', assemble nno d mrg elem np aEl nEl A b = Some (B, b') /\ same_pattern A B /\ wf B /\ length b' = (np * d)%nat /\
    (forall I a J c, (I < np)%nat -> (J < np)%nat -> (a < d)%nat -> (c < d)%nat ->
       ent B I a J c = ent A I a J c + rsum nEl (fun e => ctb_m e I a J c)) /\
    (forall I a, (I < np)%nat -> (a < d)%nat -> cmp d b' I a = cmp d b I a + rsum nEl (fun e => ctb_v e I a)).
Proof.
  intros A b (WA & R1 & R2 & R3 & R4 & PA) Lb.
  assert (W : wp (assemble nno d mrg elem np aEl nEl A b) (fun p => same_pattern A (fst p) /\ wf (fst p) /\ length (snd p) = (np * d)%nat /\
    (forall I a J c, (I < np)%nat -> (J < np)%nat -> (a < d)%nat -> (c < d)%nat ->
       ent (fst p) I a J c = ent A I a J c + rsum nEl (fun e => ctb_m e I a J c)) /\
    (forall I a, (I < np)%nat -> (a < d)%nat -> cmp d (snd p) I a = cmp d b I a + rsum nEl (fun e => ctb_v e I a)))).
  { unfold assemble. apply wp_bind.
    apply (wp_forn _ (fun n st => same_pattern A (fst (fst st)) /\ wf (fst (fst st)) /\ length (snd (fst st)) = (np * d)%nat /\
      (forall I a J c, (I < np)%nat -> (J < np)%nat -> (a < d)%nat -> (c < d)%nat ->
         ent (fst (fst st)) I a J c = ent A I a J c + rsum n (fun e => ctb_m e I a J c)) /\
      (forall I a, (I < np)%nat -> (a < d)%nat -> cmp d (snd (fst st)) I a = cmp d b I a + rsum n (fun e => ctb_v e I a)))); [lia| | |].
    - cbn [fst snd]. split; [repeat split|]. split; [auto|]. split; [auto|]. split; intros; rewrite rsum_0; ring.
    - intros e ((A1 & b1) & buf) He (S1 & W1 & L1 & D1 & B1). cbn [fst snd] in *. pose proof M as (M1 & M2 & M3).
      rewrite (element_ok nno aEl nEl e) by (auto; lia). cbn [bind].
      destruct (elem_eq e ltac:(lia)) as (r & m & E & Er & Em). rewrite E. cbn [bind].
      apply wp_bind. eapply wp_mono; [apply (addb_ok e b1 r); auto; lia|]. intros b2 (L2 & B2).
      apply wp_bind. rewrite mrg_eq. destruct S1 as (s1 & s2 & s3 & s4 & s5 & s6).
      assert (Lc := corners_length nno aEl e).
      assert (V : valid_elem A1 (corners nno aEl e) (corners nno aEl e) (flat nno d m)).
      { split; [|split; [|split]].
        - intros i Hi. rewrite Lc in Hi. rewrite corners_nth by auto. rewrite s1, R1. apply M2; auto; lia.
        - intros i Hi. rewrite Lc in Hi. rewrite corners_nth by auto. rewrite s2, R2. apply M2; auto; lia.
        - rewrite flat_length, Lc, s3, s4, R3, R4. ring.
        - intros i j Hi Hj. rewrite Lc in Hi, Hj. rewrite !corners_nth by auto. apply M3; auto; lia. }
      assert (AS : all_stored A1 (corners nno aEl e) (corners nno aEl e)).
      { intros i j Hi Hj. rewrite Lc in Hi, Hj. rewrite !corners_nth by auto. intros Hn.
        destruct (PA e i j ltac:(lia) Hi Hj ltac:(congruence)) as (c & Hc & Hc'). exists c. unfold row_range, ci, rp in *.
        rewrite s5, s6. auto. }
      assert (NE : (0 < length (row_ptr A1))%nat).
      { rewrite s6. apply (in_pattern_ne A (N e 0%nat) (N e 1%nat)); auto; [rewrite R1; apply M2; lia|apply PA; lia]. }
      assert (NP : (0 < np)%nat) by (specialize (M2 e 0%nat ltac:(lia) ltac:(lia)); lia).
      pose proof W1 as (w1 & w2 & w3 & w4 & w5 & w6 & w7).
      destruct V as (H1 & H2 & H3 & H4).
      pose proof (merge_ok Rcr A1 W1 dbg fill (corners nno aEl e) (corners nno aEl e) (flat nno d m) H1 H2 H3 H4 buf
        ltac:(intros _; rewrite w5, w6, s1, R1, s3, s4, R3, R4; split; nia) ltac:(left; exact AS)) as MO.
      rewrite s3, s4, R3, R4 in MO. eapply wp_mono; [exact MO|]. clear MO.
      intros (ok & (A2 & buf2)) (P1 & _ & P2). cbn [fst snd] in *. rewrite (P1 AS) in *.
      destruct (P2 eq_refl) as (_ & (q1 & q2 & q3 & q4 & q5 & q6) & Q2 & Q3 & _). apply wp_some. cbn [fst snd].
      split; [repeat split; congruence|]. split; [auto|]. split; [auto|]. split.
      + intros I a J c HI HJ Ha Hc. unfold ent at 1. rewrite Q3 by (auto; congruence).
        match goal with |- radd ?x ?y = _ => change (radd x y) with (ent A1 I a J c + (y : R)) end.
        rewrite D1 by auto. rewrite rsum_S. rewrite Rplus_assoc. f_equal. f_equal.
        rewrite Lc. unfold ctb_m. apply rsum_ext. intros i Hi. apply rsum_ext. intros j Hj. unfold SpProofs5.term.
        rewrite !corners_nth by auto. destruct ((N e i =? I) && (N e j =? J))%bool%nat; [|reflexivity].
        rewrite <- Em by auto. rewrite <- (flat_nth nno d m i j a c) by auto. try rewrite Lc. rewrite ?s3, ?s4, ?R3, ?R4. reflexivity.
      + intros I a HI Ha. rewrite B2 by auto. rewrite B1 by auto. rewrite rsum_S. ring.
    - intros ((A1 & b1) & buf) (S1 & W1 & L1 & D1 & B1). cbn [fst snd] in *. apply wp_some. cbn [fst snd]. auto. }
  destruct (wp_ex _ _ _ W) as ((B & b') & E & H1 & H2 & H3 & H4 & H5). cbn [fst snd] in *. exists B, b'. auto 10.
Qed.

(** The forms of the assembled system. *)
Lemma pick_sum : forall (f : nat -> R) e i, (e < nEl)%nat -> (i < nno)%nat ->
  rsum np (fun I => if (N e i =? I)%nat then f I else 0) = f (N e i).
Proof.
  intros f e i He Hi. destruct M as (_ & M2 & _). rewrite <- (rsum_pick np (N e i) f) by auto. apply rsum_ext.
  intros I HI. rewrite Nat.eqb_sym. auto.
Qed.
Lemma form_m : forall e u v, (e < nEl)%nat ->
  rsum np (fun I => rsum d (fun a => rsum np (fun J => rsum d (fun b => v I a * ctb_m e I a J b * u J b)))) =
  rsum nno (fun i => rsum nno (fun j => rsum d (fun a => rsum d (fun b => v (N e i) a * em e i j a b * u (N e j) b)))).
Proof.
  intros e u v He.
  transitivity (rsum np (fun I => rsum np (fun J => rsum nno (fun i => rsum nno (fun j => if (N e i =? I)%nat then
      (if (N e j =? J)%nat then rsum d (fun a => rsum d (fun b => v I a * em e i j a b * u J b)) else 0) else 0))))).
  - apply rsum_ext. intros I HI. rewrite rsum_swap. apply rsum_ext. intros J HJ.
    transitivity (rsum d (fun a => rsum d (fun b => rsum nno (fun i => rsum nno (fun j =>
      if ((N e i =? I) && (N e j =? J))%bool%nat then v I a * em e i j a b * u J b else 0))))).
    + apply rsum_ext. intros a Ha. apply rsum_ext. intros b Hb. unfold ctb_m. rewrite <- rsum_mull, <- rsum_mulr.
      apply rsum_ext. intros i Hi. rewrite <- rsum_mull, <- rsum_mulr. apply rsum_ext. intros j Hj.
      destruct ((N e i =? I) && (N e j =? J))%bool%nat; ring.
    + transitivity (rsum d (fun a => rsum nno (fun i => rsum nno (fun j => rsum d (fun b =>
        if ((N e i =? I) && (N e j =? J))%bool%nat then v I a * em e i j a b * u J b else 0))))).
      { apply rsum_ext. intros a Ha. rewrite rsum_swap. apply rsum_ext. intros i Hi. apply rsum_swap. }
      rewrite rsum_swap. apply rsum_ext. intros i Hi. rewrite rsum_swap. apply rsum_ext. intros j Hj.
      destruct (N e i =? I)%nat; cbn [andb]; [destruct (N e j =? J)%nat; auto|];
        apply rsum_zero; intros; apply rsum_zero; auto.
  - transitivity (rsum nno (fun i => rsum nno (fun j => rsum np (fun I => if (N e i =? I)%nat then rsum np (fun J =>
      if (N e j =? J)%nat then rsum d (fun a => rsum d (fun b => v I a * em e i j a b * u J b)) else 0) else 0)))).
    + transitivity (rsum np (fun I => rsum nno (fun i => rsum nno (fun j => if (N e i =? I)%nat then rsum np (fun J =>
      if (N e j =? J)%nat then rsum d (fun a => rsum d (fun b => v I a * em e i j a b * u J b)) else 0) else 0)))).
      * apply rsum_ext. intros I HI. rewrite rsum_swap. apply rsum_ext. intros i Hi. rewrite rsum_swap. apply rsum_ext. intros j Hj.
        destruct (N e i =? I)%nat; auto. apply rsum_zero; auto.
      * rewrite rsum_swap. apply rsum_ext. intros i Hi. apply rsum_swap.
    + apply rsum_ext. intros i Hi. apply rsum_ext. intros j Hj. rewrite pick_sum by auto. apply pick_sum; auto.
Qed.
Lemma form_v : forall e v, (e < nEl)%nat ->
  rsum np (fun I => rsum d (fun a => v I a * ctb_v e I a)) = rsum nno (fun i => rsum d (fun a => v (N e i) a * er e i a)).
Proof.
  intros e v He.
  transitivity (rsum np (fun I => rsum nno (fun i => if (N e i =? I)%nat then rsum d (fun a => v I a * er e i a) else 0))).
  - apply rsum_ext. intros I HI. transitivity (rsum d (fun a => rsum nno (fun i => if (N e i =? I)%nat then v I a * er e i a else 0))).
    + apply rsum_ext. intros a Ha. unfold ctb_v. rewrite <- rsum_mull. apply rsum_ext. intros i Hi. destruct (N e i =? I)%nat; ring.
    + rewrite rsum_swap. apply rsum_ext. intros i Hi. destruct (N e i =? I)%nat; auto. apply rsum_zero; auto.
  - rewrite rsum_swap. apply rsum_ext. intros i Hi. apply pick_sum; auto.
Qed.

Definition eform (e : nat) (u v : nat -> nat -> R) : R :=
  rsum nno (fun i => rsum nno (fun j => rsum d (fun a => rsum d (fun b => v (N e i) a * em e i j a b * u (N e j) b)))).
Definition eload (e : nat) (v : nat -> nat -> R) : R := rsum nno (fun i => rsum d (fun a => v (N e i) a * er e i a)).

Theorem assemble_forms : forall A b, matrix_ok nno np d aEl nEl A -> length b = (np * d)%nat ->
  exists B b', assemble nno d mrg elem np aEl nEl A b = Some (B, b') /\ same_pattern A B /\ wf B /\ length b' = (np * d)%nat /\
    (forall u v, bilin np d B u v = bilin np d A u v + rsum nEl (fun e => eform e u v)) /\
    (forall v, lin np d b' v = lin np d b v + rsum nEl (fun e => eload e v)).
Proof.
  intros A b HA Lb. destruct (assemble_ok A b HA Lb) as (B & b' & E & S & W & L & D & V).
  exists B, b'. split; [auto|]. split; [auto|]. split; [auto|]. split; [auto|]. split.
  - intros u v. unfold bilin, eform.
    transitivity (rsum np (fun I => rsum d (fun a => rsum np (fun J => rsum d (fun c => v I a * ent A I a J c * u J c)))) +
      rsum np (fun I => rsum d (fun a => rsum np (fun J => rsum d (fun c => rsum nEl (fun e => v I a * ctb_m e I a J c * u J c)))))).
    + rewrite <- rsum_add. apply rsum_ext. intros I HI. rewrite <- rsum_add. apply rsum_ext. intros a Ha. rewrite <- rsum_add.
      apply rsum_ext. intros J HJ. rewrite <- rsum_add. apply rsum_ext. intros c Hc. rewrite D by auto. rewrite rsum_mulr, rsum_mull. ring.
    + f_equal. transitivity (rsum np (fun I => rsum d (fun a => rsum np (fun J => rsum nEl (fun e => rsum d (fun c => v I a * ctb_m e I a J c * u J c)))))).
      { apply rsum_ext. intros I HI. apply rsum_ext. intros a Ha. apply rsum_ext. intros J HJ. apply rsum_swap. }
      transitivity (rsum np (fun I => rsum d (fun a => rsum nEl (fun e => rsum np (fun J => rsum d (fun c => v I a * ctb_m e I a J c * u J c)))))).
      { apply rsum_ext. intros I HI. apply rsum_ext. intros a Ha. apply rsum_swap. }
      transitivity (rsum np (fun I => rsum nEl (fun e => rsum d (fun a => rsum np (fun J => rsum d (fun c => v I a * ctb_m e I a J c * u J c)))))).
      { apply rsum_ext. intros I HI. apply rsum_swap. }
      rewrite rsum_swap. apply rsum_ext. intros e He. apply form_m; auto.
  - intros v. unfold lin, eload.
    transitivity (rsum np (fun I => rsum d (fun a => v I a * cmp d b I a)) + rsum np (fun I => rsum d (fun a => rsum nEl (fun e => v I a * ctb_v e I a)))).
    + rewrite <- rsum_add. apply rsum_ext. intros I HI. rewrite <- rsum_add. apply rsum_ext. intros a Ha. rewrite V by auto.
      rewrite rsum_mull. ring.
    + f_equal. transitivity (rsum np (fun I => rsum nEl (fun e => rsum d (fun a => v I a * ctb_v e I a)))).
      { apply rsum_ext. intros I HI. apply rsum_swap. }
      rewrite rsum_swap. apply rsum_ext. intros e He. apply form_v; auto.
Qed.
End Asm.
