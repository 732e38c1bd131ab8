(** Proofs for IluProps.v: the block operations of the factorisation. *)
From Coq Require Import List Arith Bool Lia ZArith Ring.
Import ListNotations.
From Verif Require Import Imp Alg SpModel SpSpec IluModel IluSpec IluProofs1.
Open Scope nat_scope.

Section S.
Variable F : pfield.
Local Notation K := (pK F).
Add Ring Kr3 : (rlaws K).

(** The specifications: n blocks of d rows and columns. *)
Definition subc_ok (n d : nat) {L : Type} (ld : list K -> nat -> option L) (subc : L -> nat -> nat -> list K -> option (list K)) : Prop :=
  forall v0 v ik ij kj l, ld v0 ik = Some l -> ik < n -> ij < n -> kj < n -> ij <> ik -> ij <> kj -> length v0 = n * (d * d) -> length v = n * (d * d) ->
  (forall a b, a < d -> b < d -> blk d v0 ik a b = blk d v ik a b) ->
  wp (subc l ij kj v) (fun v' => length v' = n * (d * d) /\ forall c a b, c < n -> a < d -> b < d ->
    blk d v' c a b = if c =? ij then rsub (blk d v ij a b) (sumn d (fun e => rmul (blk d v ik a e) (blk d v kj e b))) else blk d v c a b).
Definition subd_ok (n nb d : nat) {L : Type} (ld : list K -> nat -> option L) (subd : L -> nat -> nat -> list K -> list K -> option (list K)) : Prop :=
  forall v0 v w ik i kj l, ld v0 ik = Some l -> ik < n -> kj < n -> i < nb -> length v0 = n * (d * d) -> length v = n * (d * d) -> length w = nb * (d * d) ->
  (forall a b, a < d -> b < d -> blk d v0 ik a b = blk d v ik a b) ->
  wp (subd l i kj v w) (fun w' => length w' = nb * (d * d) /\ forall c a b, c < nb -> a < d -> b < d ->
    blk d w' c a b = if c =? i then rsub (blk d w i a b) (sumn d (fun e => rmul (blk d v ik a e) (blk d v kj e b))) else blk d w c a b).
Definition inv_ok (nb d : nat) (inv : list K -> nat -> option (list K * bool)) : Prop :=
  forall w i w' s, i < nb -> length w = nb * (d * d) -> inv w i = Some (w', s) ->
  length w' = nb * (d * d) /\ (forall c a b, c < nb -> c <> i -> a < d -> b < d -> blk d w' c a b = blk d w c a b) /\
  (s = false -> forall a b, a < d -> b < d -> sumn d (fun e => rmul (blk d w i a e) (blk d w' i e b)) = delta a b).
Definition inv_tot (nb d : nat) (inv : list K -> nat -> option (list K * bool)) : Prop :=
  forall w i, i < nb -> length w = nb * (d * d) -> inv w i <> None.
Definition mulc_ok (n nb d : nat) (mulc : list K -> nat -> list K -> nat -> option (list K)) : Prop :=
  forall w i v ij, i < nb -> ij < n -> length w = nb * (d * d) -> length v = n * (d * d) ->
  wp (mulc w i v ij) (fun v' => length v' = n * (d * d) /\ forall c a b, c < n -> a < d -> b < d ->
    blk d v' c a b = if c =? ij then sumn d (fun e => rmul (blk d w i a e) (blk d v ij e b)) else blk d v c a b).

Lemma bidx : forall n d c a b, c < n -> a < d -> b < d -> c * (d * d) + a * d + b < n * (d * d).
Proof. intros. assert (a * d + b < d * d) by nia. nia. Qed.
Lemma bidx_in : forall d c a b, a < d -> b < d -> c * (d * d) <= c * (d * d) + a * d + b < c * (d * d) + d * d.
Proof. intros. assert (a * d + b < d * d) by nia. lia. Qed.
Lemma bidx_out : forall d c i a b, c <> i -> a < d -> b < d -> ~ (i * (d * d) <= c * (d * d) + a * d + b < i * (d * d) + d * d).
Proof. intros. assert (a * d + b < d * d) by nia. assert (c < i \/ i < c) as [|] by lia; nia. Qed.
Lemma ab_inj : forall d a b a' b', b < d -> b' < d -> a * d + b = a' * d + b' -> a = a' /\ b = b'.
Proof. intros. assert (a = a') by nia. subst. split; auto. lia. Qed.

(** Two nested loops that rewrite the entries of one block, one by one. *)
Lemma block_loop : forall d o (v : list K) (g : nat -> nat -> K -> K) (step : nat -> nat -> list K -> option (list K)), o + d * d <= length v ->
  (forall i j out, i < d -> j < d -> length out = length v -> (forall k, ~ (o <= k < o + d * d) -> nth k out rO = nth k v rO) ->
     wp (step i j out) (fun out' => length out' = length v /\ nth (o + (i * d + j)) out' rO = g i j (nth (o + (i * d + j)) out rO) /\
        forall k, k <> o + (i * d + j) -> nth k out' rO = nth k out rO)) ->
  wp (forn 0 d (fun i out => forn 0 d (fun j out => step i j out) out) v) (fun v' => length v' = length v /\
     (forall i j, i < d -> j < d -> nth (o + (i * d + j)) v' rO = g i j (nth (o + (i * d + j)) v rO)) /\
     forall k, ~ (o <= k < o + d * d) -> nth k v' rO = nth k v rO).
Proof.
  intros d o v g step Ho Hstep.
  apply (wp_forn _ (fun i out => length out = length v /\
     (forall a b, a < d -> b < d -> nth (o + (a * d + b)) out rO = if a <? i then g a b (nth (o + (a * d + b)) v rO) else nth (o + (a * d + b)) v rO) /\
     forall k, ~ (o <= k < o + d * d) -> nth k out rO = nth k v rO)); [lia| | |].
  - split; auto.
  - intros i out Hi (L & H1 & H2).
    apply (wp_forn _ (fun j out' => length out' = length v /\
     (forall a b, a < d -> b < d -> nth (o + (a * d + b)) out' rO = if (a <? i) || ((a =? i) && (b <? j)) then g a b (nth (o + (a * d + b)) v rO) else nth (o + (a * d + b)) v rO) /\
     forall k, ~ (o <= k < o + d * d) -> nth k out' rO = nth k v rO)); [lia| | |].
    + split; auto. split; auto. intros a b Ha Hb. rewrite H1 by auto. destruct (Nat.ltb_spec a i); auto. destruct (a =? i); auto.
    + intros j out' Hj (L' & H1' & H2'). eapply wp_mono; [apply Hstep; auto; lia|]. intros out2 (L2 & E & Q). split; [auto|]. split.
      * intros a b Ha Hb. destruct (Nat.eq_dec (a * d + b) (i * d + j)) as [He|He].
        -- apply ab_inj in He; [|lia|lia]. destruct He as (-> & ->). rewrite E, H1' by lia.
           rewrite (proj2 (Nat.ltb_ge i i)), (proj2 (Nat.ltb_ge j j)) by lia. rewrite Nat.eqb_refl. cbn [orb andb]. rewrite (proj2 (Nat.ltb_lt j (S j))) by lia. auto.
        -- rewrite Q by lia. rewrite H1' by auto. destruct (Nat.ltb_spec a i); auto. destruct (Nat.eqb_spec a i); auto. cbn [orb andb].
           subst. destruct (Nat.ltb_spec b j), (Nat.ltb_spec b (S j)); auto; lia.
      * intros k Hk. rewrite Q; auto. assert (i * d + j < d * d) by nia. lia.
    + intros out' (L' & H1' & H2'). split; [auto|]. split; [|auto]. intros a b Ha Hb. rewrite H1' by auto.
      destruct (Nat.ltb_spec a i), (Nat.ltb_spec a (S i)), (Nat.eqb_spec a i), (Nat.ltb_spec b d); auto; lia.
  - intros out (L & H1 & H2). split; [auto|]. split; [|auto]. intros a b Ha Hb. rewrite H1 by auto. destruct (Nat.ltb_spec a d); auto. lia.
Qed.

Lemma minus_ok : forall (out : list K) k x L, length out = L -> k < L -> wp (minuseq F out k x) (fun o' => length o' = L /\ nth k o' rO = rsub (nth k out rO) x /\ forall q, q <> k -> nth q o' rO = nth q out rO).
Proof. intros. unfold minuseq. apply (wp_vmod _ rO); [lia|]. split; [lens; auto|]. split; [apply nth_upd_same; lia|]. intros. apply nth_upd_other. auto. Qed.

(** From the array to the blocks. *)
Lemma to_blk : forall n d i (v v' : list K) g, i < n -> length v = n * (d * d) ->
  length v' = length v -> (forall a b, a < d -> b < d -> nth (i * (d * d) + (a * d + b)) v' rO = g a b) -> (forall k, ~ (i * (d * d) <= k < i * (d * d) + d * d) -> nth k v' rO = nth k v rO) ->
  length v' = n * (d * d) /\ forall c a b, c < n -> a < d -> b < d -> blk d v' c a b = if c =? i then g a b else blk d v c a b.
Proof.
  intros n d i v v' g Hi Hv L H1 H2. split; [lia|]. intros c a b Hc Ha Hb. unfold blk. destruct (Nat.eqb_spec c i) as [->|Hn].
  - rewrite <- Nat.add_assoc. apply H1; auto.
  - apply H2. apply bidx_out; auto.
Qed.

(** ** General block size *)
Lemma submat_gen : forall d (va vb : list K -> list K) (out : list K) o oa ob la lb (a b : nat -> nat -> K), o + d * d <= length out -> 
  (forall out', length out' = length out -> (forall k, ~ (o <= k < o + d * d) -> nth k out' rO = nth k out rO) ->
     length (va out') = la /\ length (vb out') = lb /\ (forall i k, i < d -> k < d -> nth (oa + (i * d + k)) (va out') rO = a i k) /\ (forall i k, i < d -> k < d -> nth (ob + (i * d + k)) (vb out') rO = b i k)) ->
  oa + d * d <= la -> ob + d * d <= lb ->
  wp (CalcSubMatPr F va vb out o oa ob d d d) (fun v' => length v' = length out /\
     (forall i j, i < d -> j < d -> nth (o + (i * d + j)) v' rO = rsub (nth (o + (i * d + j)) out rO) (sumn d (fun e => rmul (a i e) (b e j)))) /\
     forall k, ~ (o <= k < o + d * d) -> nth k v' rO = nth k out rO).
Proof.
  intros d va vb out o oa ob la lb a b Ho Hsrc Ha Hb. unfold CalcSubMatPr.
  apply (block_loop d o out (fun i j x => rsub x (sumn d (fun e => rmul (a i e) (b e j))))
    (fun i j out0 => forn 0 d (fun k out1 => a0 <- vget (va out1) (oa + (i * d + k)) ;; b0 <- vget (vb out1) (ob + (k * d + j)) ;; minuseq F out1 (o + (i * d + j)) (rmul a0 b0)) out0)); [auto|].
  intros i j out0 Hi Hj L0 H0. assert (Hij : i * d + j < d * d) by nia.
  apply (wp_forn _ (fun m out1 => length out1 = length out /\ nth (o + (i * d + j)) out1 rO = rsub (nth (o + (i * d + j)) out0 rO) (sumn m (fun e => rmul (a i e) (b e j))) /\
        forall k, k <> o + (i * d + j) -> nth k out1 rO = nth k out0 rO)); [lia| | |auto].
  - split; [auto|]. split; [rewrite sumn_0; ring|auto].
  - intros m out1 Hm (L1 & E1 & Q1).
    destruct (Hsrc out1 L1) as (La & Lb & Ea & Eb).
    { intros k Hk. rewrite Q1 by lia. auto. }
    assert (i * d + m < d * d) by nia. assert (m * d + j < d * d) by nia.
    rewrite (vget_nth _ rO) by lia. cbn [bind]. rewrite (vget_nth _ rO) by lia. cbn [bind]. rewrite Ea, Eb by lia.
    eapply wp_mono; [apply (minus_ok _ _ _ (length out)); [auto|lia]|]. intros o2 (L2 & E2 & Q2). split; [auto|]. split.
    + rewrite E2, E1, sumn_S. ring.
    + intros k Hk. rewrite Q2, Q1 by auto. auto.
Qed.
Lemma submat_wrap_c : forall n d (sm : (list K -> list K) -> (list K -> list K) -> list K -> nat -> nat -> nat -> option (list K)),
  (forall (va vb : list K -> list K) (out : list K) o oa ob la lb (a b : nat -> nat -> K), o + d * d <= length out -> 
  (forall out', length out' = length out -> (forall k, ~ (o <= k < o + d * d) -> nth k out' rO = nth k out rO) ->
     length (va out') = la /\ length (vb out') = lb /\ (forall i k, i < d -> k < d -> nth (oa + (i * d + k)) (va out') rO = a i k) /\ (forall i k, i < d -> k < d -> nth (ob + (i * d + k)) (vb out') rO = b i k)) ->
  oa + d * d <= la -> ob + d * d <= lb ->
  wp (sm va vb out o oa ob) (fun v' => length v' = length out /\
     (forall i j, i < d -> j < d -> nth (o + (i * d + j)) v' rO = rsub (nth (o + (i * d + j)) out rO) (sumn d (fun e => rmul (a i e) (b e j)))) /\
     forall k, ~ (o <= k < o + d * d) -> nth k v' rO = nth k out rO)) ->
  subc_ok n d (ldp F) (fun ik ij kj v => sm (fun v => v) (fun v => v) v (ij * (d * d)) (ik * (d * d)) (kj * (d * d))) /\
  forall nb, subd_ok n nb d (ldp F) (fun ik i kj v w => sm (fun _ => v) (fun _ => v) w (i * (d * d)) (ik * (d * d)) (kj * (d * d))).
Proof.
  intros n d sm Hsm. split.
  - intros v0 v ik ij kj l Hl Hik Hij Hkj N1 N2 L0 Lv Hb. injection Hl as <-.
    eapply wp_mono; [apply (Hsm _ _ v _ _ _ (length v) (length v) (blk d v ik) (blk d v kj)); [nia| |nia|nia]|].
    + intros out' L' Q. split; [auto|]. split; [auto|]. split; intros i k Hi Hk; rewrite Nat.add_assoc; apply Q; apply bidx_out; auto.
    + intros v' (L' & E & Q). apply to_blk; auto. intros a b Ha Hb0. rewrite E by auto. unfold blk at 1. rewrite Nat.add_assoc. auto.
  - intros nb v0 v w ik i kj l Hl Hik Hkj Hi L0 Lv Lw Hb. injection Hl as <-.
    eapply wp_mono; [apply (Hsm _ _ w _ _ _ (length v) (length v) (blk d v ik) (blk d v kj)); [nia| |nia|nia]|].
    + intros out' L' Q. split; [auto|]. split; [auto|]. split; intros i0 k Hi0 Hk; rewrite Nat.add_assoc; auto.
    + intros v' (L' & E & Q). apply to_blk; auto. intros a b Ha Hb0. rewrite E by auto. unfold blk at 1. rewrite Nat.add_assoc. auto.
Qed.
Lemma subcn_ok : forall n d, subc_ok n d (ldp F) (subcn F d).
Proof. intros. apply (submat_wrap_c n d (fun va vb out o oa ob => CalcSubMatPr F va vb out o oa ob d d d)). intros; eapply submat_gen; eauto. Qed.
Lemma subdn_ok : forall n nb d, subd_ok n nb d (ldp F) (subdn F d).
Proof. intros. apply (submat_wrap_c n d (fun va vb out o oa ob => CalcSubMatPr F va vb out o oa ob d d d)). intros; eapply submat_gen; eauto. Qed.

Lemma forn4 : forall S (f : nat -> S -> option S) s, forn 0 4 f s = forn 0 2 (fun i s => forn 0 2 (fun j s => f (i * 2 + j) s) s) s.
Proof.
  intros. unfold forn. cbn.
  destruct (f 0 s) as [s0|]; cbn; auto.
  destruct (f 1 s0) as [s1|]; cbn; auto.
  destruct (f 2 s1) as [s2|]; cbn; auto.
  destruct (f 3 s2) as [s3|]; cbn; auto.
Qed.
Lemma submat2_gen : forall (va vb : list K -> list K) (out : list K) o oa ob la lb (a b : nat -> nat -> K), o + 2 * 2 <= length out -> 
  (forall out', length out' = length out -> (forall k, ~ (o <= k < o + 2 * 2) -> nth k out' rO = nth k out rO) ->
     length (va out') = la /\ length (vb out') = lb /\ (forall i k, i < 2 -> k < 2 -> nth (oa + (i * 2 + k)) (va out') rO = a i k) /\ (forall i k, i < 2 -> k < 2 -> nth (ob + (i * 2 + k)) (vb out') rO = b i k)) ->
  oa + 2 * 2 <= la -> ob + 2 * 2 <= lb ->
  wp (submat2 F va vb out o oa ob) (fun v' => length v' = length out /\
     (forall i j, i < 2 -> j < 2 -> nth (o + (i * 2 + j)) v' rO = rsub (nth (o + (i * 2 + j)) out rO) (sumn 2 (fun e => rmul (a i e) (b e j)))) /\
     forall k, ~ (o <= k < o + 2 * 2) -> nth k v' rO = nth k out rO).
Proof.
  intros va vb out o oa ob la lb a b Ho Hsrc Ha Hb. unfold submat2. rewrite forn4.
  eapply block_loop with (g := fun i j x => rsub x (sumn 2 (fun e => rmul (a i e) (b e j)))); [auto|].
  intros i j out0 Hi Hj L0 H0. cbn zeta beta.
  assert (E1 : (i * 2 + j) / 2 = i) by (rewrite Nat.add_comm, Nat.div_add, Nat.div_small by lia; auto).
  assert (E2 : (i * 2 + j) mod 2 = j) by (rewrite Nat.add_comm, Nat.mod_add, Nat.mod_small by lia; auto).
  rewrite E1, E2. destruct (Hsrc out0 L0 H0) as (La & Lb & Ea & Eb).
  do 4 (rewrite (vget_nth _ rO) by lia; cbn [bind]). rewrite !Ea, !Eb by lia.
  eapply wp_mono; [apply (minus_ok _ _ _ (length out)); [auto|lia]|]. intros o2 (L2 & E & Q2). split; [auto|]. split; [|auto].
  rewrite E. unfold sumn, bigsum. cbn [seq fold_right]. ring.
Qed.
Lemma subc2_ok : forall n, subc_ok n 2 (ldp F) (subc2 F).
Proof. intros. apply (submat_wrap_c n 2 (submat2 F)). intros; eapply submat2_gen; eauto. Qed.
Lemma subd2_ok : forall n nb, subd_ok n nb 2 (ldp F) (subd2 F).
Proof. intros. apply (submat_wrap_c n 2 (submat2 F)). intros; eapply submat2_gen; eauto. Qed.
Lemma submat3_gen : forall (va vb : list K -> list K) (out : list K) o oa ob la lb (a b : nat -> nat -> K), o + 3 * 3 <= length out -> 
  (forall out', length out' = length out -> (forall k, ~ (o <= k < o + 3 * 3) -> nth k out' rO = nth k out rO) ->
     length (va out') = la /\ length (vb out') = lb /\ (forall i k, i < 3 -> k < 3 -> nth (oa + (i * 3 + k)) (va out') rO = a i k) /\ (forall i k, i < 3 -> k < 3 -> nth (ob + (i * 3 + k)) (vb out') rO = b i k)) ->
  oa + 3 * 3 <= la -> ob + 3 * 3 <= lb ->
  wp (submat3 F va vb out o oa ob) (fun v' => length v' = length out /\
     (forall i j, i < 3 -> j < 3 -> nth (o + (i * 3 + j)) v' rO = rsub (nth (o + (i * 3 + j)) out rO) (sumn 3 (fun e => rmul (a i e) (b e j)))) /\
     forall k, ~ (o <= k < o + 3 * 3) -> nth k v' rO = nth k out rO).
Proof.
  intros va vb out o oa ob la lb a b Ho Hsrc Ha Hb. unfold submat3.
  eapply block_loop with (g := fun i j x => rsub x (sumn 3 (fun e => rmul (a i e) (b e j)))); [auto|].
  intros i j out0 Hi Hj L0 H0. destruct (Hsrc out0 L0 H0) as (La & Lb & Ea & Eb).
  do 6 (rewrite (vget_nth _ rO) by lia; cbn [bind]). rewrite !Ea, !Eb by lia.
  eapply wp_mono; [apply (minus_ok _ _ _ (length out)); [auto|lia]|]. intros o2 (L2 & E & Q2). split; [auto|]. split; [|auto].
  rewrite E. unfold sumn, bigsum. cbn [seq fold_right]. ring.
Qed.
Lemma subc3_ok : forall n, subc_ok n 3 (ldp F) (subc3 F).
Proof. intros. apply (submat_wrap_c n 3 (submat3 F)). intros; eapply submat3_gen; eauto. Qed.
Lemma subd3_ok : forall n nb, subd_ok n nb 3 (ldp F) (subd3 F).
Proof. intros. apply (submat_wrap_c n 3 (submat3 F)). intros; eapply submat3_gen; eauto. Qed.
Lemma blk1 : forall (v : list K) c, blk 1 v c 0 0 = nth c v rO.
Proof. intros. unfold blk. f_equal. lia. Qed.
Lemma subc1_ok : forall n, subc_ok n 1 (ldv F) (subc1 F).
Proof.
  intros n v0 v ik ij kj l Hl Hik Hij Hkj N1 N2 L0 Lv Hb. unfold ldv in Hl. rewrite (vget_nth _ rO) in Hl by lia. injection Hl as <-.
  unfold subc1. rewrite (vget_nth _ rO) by lia. cbn [bind]. eapply wp_mono; [apply (minus_ok _ _ _ (length v)); [auto|lia]|]. intros v' (L & E & Q). split; [lia|].
  intros c a b Hc Ha Hb0. replace a with 0 by lia. replace b with 0 by lia. rewrite !blk1. unfold sumn, bigsum. cbn [seq fold_right]. rewrite !blk1.
  specialize (Hb 0 0). rewrite !blk1 in Hb. destruct (Nat.eqb_spec c ij) as [->|Hn]; [|auto]. rewrite E, Hb by lia. ring.
Qed.
Lemma subd1_ok : forall n nb, subd_ok n nb 1 (ldv F) (subd1 F).
Proof.
  intros n nb v0 v w ik i kj l Hl Hik Hkj Hi L0 Lv Lw Hb. unfold ldv in Hl. rewrite (vget_nth _ rO) in Hl by lia. injection Hl as <-.
  unfold subd1. rewrite (vget_nth _ rO) by lia. cbn [bind]. eapply wp_mono; [apply (minus_ok _ _ _ (length w)); [auto|lia]|]. intros v' (L & E & Q). split; [lia|].
  intros c a b Hc Ha Hb0. replace a with 0 by lia. replace b with 0 by lia. rewrite !blk1. unfold sumn, bigsum. cbn [seq fold_right]. rewrite !blk1.
  specialize (Hb 0 0). rewrite !blk1 in Hb. destruct (Nat.eqb_spec c i) as [->|Hn]; [|auto]. rewrite E, Hb by lia. ring.
Qed.

(** ** Multiplication by the diagonal block *)
Lemma mulc1_ok : forall n nb, mulc_ok n nb 1 (mulc1 F).
Proof.
  intros n nb w i v ij Hi Hij Lw Lv. unfold mulc1. rewrite !(vget_nth _ rO) by lia. cbn [bind]. rewrite ?(vget_nth _ rO) by lia. cbn [bind]. apply wp_vset; [lia|]. split; [lens; auto|].
  intros c a b Hc Ha Hb0. replace a with 0 by lia. replace b with 0 by lia. rewrite !blk1. unfold sumn, bigsum. cbn [seq fold_right]. rewrite !blk1.
  rewrite nth_upd by lia. rewrite Nat.eqb_sym. destruct (Nat.eq_dec ij c), (Nat.eqb_spec ij c); try lia; auto. ring.
Qed.
Ltac gets := repeat (rewrite (vget_nth _ (@rO K)) by (cbn; nia); cbn [bind]).
Ltac stores := repeat (rewrite vset_upd by (rewrite ?upd_length; nia); cbn [bind]).
Ltac upds := repeat (rewrite nth_upd by (rewrite ?upd_length; nia); match goal with |- context [Nat.eq_dec ?a ?b] => destruct (Nat.eq_dec a b); [try lia|try lia] end).
Ltac nrm := rewrite ?Nat.add_0_r, <- ?Nat.add_assoc; cbn [Nat.add Nat.mul].
Lemma mulc2_ok : forall n nb, mulc_ok n nb 2 (mulc2 F).
Proof.
  intros n nb w i v ij Hi Hij Lw Lv. unfold mulc2. repeat (progress (gets; stores)). apply wp_some.
  apply to_blk; [auto|auto|lens; auto| |intros k Hk; rewrite !nth_upd_other by lia; auto].
  intros a b Ha Hb. unfold sumn, bigsum, blk. cbn [seq fold_right].
  destruct a as [|[|]], b as [|[|]]; try lia; upds; nrm; ring.
Qed.
Lemma mulc3_ok : forall n nb, mulc_ok n nb 3 (mulc3 F).
Proof.
  intros n nb w i v ij Hi Hij Lw Lv. unfold mulc3. cbn zeta. apply wp_bind.
  apply (wp_forn _ (fun m t => length t = 9 /\ forall k, k < m -> nth k t rO = nth (ij * 9 + k) v rO)); [lia|split; [reflexivity|intros; lia]| |].
  - intros m t Hm (L & H). rewrite (vget_nth _ rO) by lia. cbn [bind]. apply wp_vset; [lia|]. split; [lens; auto|]. intros k Hk. rewrite nth_upd by lia.
    destruct (Nat.eq_dec m k) as [->|]; auto. apply H. lia.
  - intros t (Lt & Ht).
    eapply wp_mono; [eapply (block_loop 3 (ij * 9) v (fun a b _ => sumn 3 (fun e => rmul (blk 3 w i a e) (blk 3 v ij e b)))); [lia|]|].
    + intros a b out Ha Hb L Q. do 6 (rewrite (vget_nth _ rO) by lia; cbn [bind]). apply wp_vset; [lia|]. split; [lens; auto|].
      split; [|intros; apply nth_upd_other; auto]. rewrite nth_upd_same by lia. rewrite !Ht by lia. unfold sumn, bigsum, blk. cbn [seq fold_right].
      replace (i * (3 * 3)) with (i * 9) by lia. replace (ij * (3 * 3)) with (ij * 9) by lia. rewrite <- !Nat.add_assoc. ring.
    + intros v' (L & E & Q). apply to_blk; auto.
Qed.
Lemma mulcn_ok : forall n nb d, mulc_ok n nb d (mulcn F d).
Proof.
  intros n nb d w i v ij Hi Hij Lw Lv. unfold mulcn, CalcMatPr. apply wp_bind.
  eapply wp_mono; [eapply (block_loop d 0 (repeat rO (d * d)) (fun a b _ => sumn d (fun e => rmul (blk d w i a e) (blk d v ij e b)))); [rewrite repeat_length; lia|]|].
  - intros a b out Ha Hb L Q. rewrite repeat_length in L. assert (Hab : a * d + b < d * d) by nia. apply wp_bind. apply wp_vset; [lia|].
    apply (wp_forn _ (fun m t => length t = d * d /\ nth (a * d + b) t rO = sumn m (fun e => rmul (blk d w i a e) (blk d v ij e b)) /\ forall k, k <> a * d + b -> nth k t rO = nth k out rO)); [lia| | |].
    + split; [lens; auto|]. split; [rewrite nth_upd_same by lia; auto|]. intros; apply nth_upd_other; auto.
    + intros m t Hm (Lt & Et & Qt). assert (a * d + m < d * d) by nia. assert (m * d + b < d * d) by nia.
      do 2 (rewrite (vget_nth _ rO) by nia; cbn [bind]). unfold pluseq. apply (wp_vmod _ rO); [lia|]. split; [lens; auto|]. split.
      * rewrite nth_upd_same by lia. rewrite Et, sumn_S. unfold blk. rewrite !Nat.add_assoc. auto.
      * intros k Hk. rewrite nth_upd_other by auto. auto.
    + intros t (Lt & Et & Qt). rewrite repeat_length. auto.
  - intros t (Lt & Et & _). rewrite repeat_length in Lt. cbn [Nat.add] in Et.
    apply (wp_forn _ (fun m v' => length v' = length v /\ (forall k, k < m -> nth (ij * (d * d) + k) v' rO = nth k t rO) /\ forall k, ~ (ij * (d * d) <= k < ij * (d * d) + d * d) -> nth k v' rO = nth k v rO)); [lia| | |].
    + split; auto. split; auto. intros; lia.
    + intros m v' Hm (L' & E' & Q'). rewrite (vget_nth _ rO) by lia. cbn [bind]. apply wp_vset; [nia|]. split; [lens; auto|]. split.
      * intros k Hk. rewrite nth_upd by nia. destruct (Nat.eq_dec (ij * (d * d) + m) (ij * (d * d) + k)); [f_equal; lia|]. apply E'. lia.
      * intros k Hk. rewrite nth_upd_other by lia. auto.
    + intros v' (L' & E' & Q'). apply to_blk; auto. intros a b Ha Hb. rewrite E' by nia. apply Et; auto.
Qed.

(** ** Inversion of the diagonal block *)
Lemma inv1_ok : forall nb, inv_ok nb 1 (inv1 F) /\ inv_tot nb 1 (inv1 F).
Proof.
  intros nb. assert (G : forall w i, i < nb -> length w = nb * (1 * 1) -> inv1 F w i = if large (nth i w rO) then match recip (nth i w rO) with None => None | Some r => Some (upd w i r, false) end else Some (w, true)).
  { intros w i Hi Lw. unfold inv1. rewrite (vget_nth _ rO) by lia. cbn [bind]. destruct (large _); auto. destruct (recip _); cbn [bind]; auto. rewrite vset_upd by lia. auto. }
  split.
  - intros w i w' s Hi Lw. rewrite G by auto. destruct (large _) eqn:E.
    + destruct (recip_large F _ E) as (y & -> & Hy). intros H. injection H as <- <-. split; [lens; auto|]. split.
      * intros c a b Hc Hn Ha Hb. replace a with 0 by lia. replace b with 0 by lia. rewrite !blk1. apply nth_upd_other. auto.
      * intros _ a b Ha Hb. replace a with 0 by lia. replace b with 0 by lia. unfold sumn, bigsum, delta. cbn [seq fold_right Nat.eqb]. rewrite !blk1. rewrite nth_upd_same by lia. rewrite Hy. ring.
    + intros H. injection H as <- <-. split; auto. split; auto. discriminate.
  - intros w i Hi Lw. rewrite G by auto. destruct (large _) eqn:E; [|discriminate]. destruct (recip_large F _ E) as (y & -> & Hy). discriminate.
Qed.
Lemma inv1c_ok : (forall x y : K, recip x = Some y -> rmul x y = rI) -> forall nb, inv_ok nb 1 (inv1c F).
Proof.
  intros HR nb w i w' s Hi Lw. unfold inv1c. rewrite (vget_nth _ rO) by lia. cbn [bind]. destruct (recip _) as [y|] eqn:E; cbn [bind]; [|discriminate]. rewrite vset_upd by lia. cbn [bind].
  intros H. injection H as <- <-. apply HR in E. split; [lens; auto|]. split.
  - intros c a b Hc Hn Ha Hb. replace a with 0 by lia. replace b with 0 by lia. rewrite !blk1. apply nth_upd_other. auto.
  - intros _ a b Ha Hb. replace a with 0 by lia. replace b with 0 by lia. unfold sumn, bigsum, delta. cbn [seq fold_right Nat.eqb]. rewrite !blk1. rewrite nth_upd_same by lia. rewrite E. ring.
Qed.
Lemma inv2_ok : forall nb, inv_ok nb 2 (inv2 F) /\ inv_tot nb 2 (inv2 F).
Proof.
  intros nb.
  assert (G : forall w i, i < nb -> length w = nb * (2 * 2) -> exists w' s, inv2 F w i = Some (w', s) /\
    length w' = nb * (2 * 2) /\ (forall c a b, c < nb -> c <> i -> a < 2 -> b < 2 -> blk 2 w' c a b = blk 2 w c a b) /\
    (s = false -> forall a b, a < 2 -> b < 2 -> sumn 2 (fun e => rmul (blk 2 w i a e) (blk 2 w' i e b)) = delta a b)).
  { intros w i Hi Lw. unfold inv2. gets. cbn zeta. destruct (large _) eqn:E.
    - destruct (recip_large F _ E) as (y & -> & Hy). cbn [bind]. stores. do 2 eexists. split; [reflexivity|]. split; [lens; auto|]. split.
      + intros c a b Hc Hn Ha Hb. unfold blk. pose proof (bidx_out 2 c i a b Hn Ha Hb). rewrite !nth_upd_other by lia. auto.
      + intros _. unfold sumn, bigsum, blk, delta. cbn [seq fold_right]. rewrite ?Nat.add_0_r, <- ?Nat.add_assoc in Hy; cbn [Nat.add Nat.mul] in Hy.
        intros a b Ha Hb. destruct a as [|[|]], b as [|[|]]; try lia; cbn [Nat.eqb]; upds; nrm.
        * transitivity (@rI K); [rewrite <- Hy; ring|auto].
        * ring.
        * ring.
        * transitivity (@rI K); [rewrite <- Hy; ring|auto].
    - do 2 eexists. split; [reflexivity|]. split; auto. split; auto. discriminate. }
  split.
  - intros w i w' s Hi Lw H. destruct (G w i Hi Lw) as (w2 & s2 & E & R). rewrite E in H. injection H as <- <-. auto.
  - intros w i Hi Lw. destruct (G w i Hi Lw) as (w2 & s2 & E & R). rewrite E. discriminate.
Qed.
Lemma inv3_ok : forall nb, inv_ok nb 3 (inv3 F) /\ inv_tot nb 3 (inv3 F).
Proof.
  intros nb.
  assert (G : forall w i, i < nb -> length w = nb * (3 * 3) -> exists w' s, inv3 F w i = Some (w', s) /\
    length w' = nb * (3 * 3) /\ (forall c a b, c < nb -> c <> i -> a < 3 -> b < 3 -> blk 3 w' c a b = blk 3 w c a b) /\
    (s = false -> forall a b, a < 3 -> b < 3 -> sumn 3 (fun e => rmul (blk 3 w i a e) (blk 3 w' i e b)) = delta a b)).
  { intros w i Hi Lw. unfold inv3. gets. cbn zeta. destruct (large _) eqn:E.
    - destruct (recip_large F _ E) as (y & Ey & Hy). unfold CalcInvMat3. gets. rewrite Ey. cbn [bind]. stores. do 2 eexists. split; [reflexivity|]. split; [lens; auto|]. split.
      + intros c a b Hc Hn Ha Hb. unfold blk. pose proof (bidx_out 3 c i a b Hn Ha Hb). rewrite !nth_upd_other by lia. auto.
      + intros _. clear E Ey. unfold sumn, bigsum, blk, delta. cbn [seq fold_right]. unfold det3 in Hy. cbn [nth] in Hy. rewrite ?Nat.add_0_r, <- ?Nat.add_assoc in Hy; cbn [Nat.add Nat.mul] in Hy.
        intros a b Ha Hb. destruct a as [|[|[|]]], b as [|[|[|]]]; try lia; cbn [Nat.eqb]; upds; nrm; try ring; transitivity (@rI K); auto; rewrite <- Hy; ring.
    - do 2 eexists. split; [reflexivity|]. split; auto. split; auto. discriminate. }
  split.
  - intros w i w' s Hi Lw H. destruct (G w i Hi Lw) as (w2 & s2 & E & R). rewrite E in H. injection H as <- <-. auto.
  - intros w i Hi Lw. destruct (G w i Hi Lw) as (w2 & s2 & E & R). rewrite E. discriminate.
Qed.
End S.
