(** Assembly and boundary conditions of the banded matrices; the linear system wrapper. *)
From Coq Require Import List Arith Bool ZArith Lia Ring.
Import ListNotations.
From Verif Require Import Imp Alg SpProofs1 SpProofs4 MatnModel MatnProofs1 MatnProofs2 MatnProofs3 MatnProofs4 DtriProofs5.

Ltac bdec := repeat match goal with
  | |- context [?a <=? ?b] => destruct (Nat.leb_spec a b)
  | |- context [?a <? ?b] => destruct (Nat.ltb_spec a b)
  | |- context [?a =? ?b] => destruct (Nat.eqb_spec a b)
  end; cbn [andb orb negb]; first [reflexivity | exfalso; lia].

Lemma if_eq : forall T (c d : bool) (x y : T), c = d -> (if c then x else y) = (if d then x else y).
Proof. intros T c d x y ->. auto. Qed.

Section P.
Variable F : pfield.
Notation K := (pr F).
Add Ring Kr : (rlaws K).
Local Open Scope K_scope.

Lemma vset_vmod : forall (s : list K) k x, k < length s -> vset s k x = vmod s k (fun _ => x).
Proof. intros s k x H. unfold vmod. rewrite (vget_nth _ 0) by auto. reflexivity. Qed.

Lemma loop_col : forall n o j (v : list K) (g : nat -> K -> K) body, j < n -> (o + n * n <= length v)%nat ->
  (forall k s, k < n -> length s = length v -> body k s = vmod s (o + k * n + j) (g k)) ->
  wp (forn 0 n body v) (fun v' => blkupd n v v' o (fun a b => if b =? j then g a (nth (o + a * n + b) v 0) else nth (o + a * n + b) v 0)).
Proof.
  intros n o j v g body Hj Hlen Hb.
  eapply (wp_own2 _ 0 (fun k p => k < n /\ p = o + k * n + j)%nat (fun p x x' => forall k, k < n -> p = (o + k * n + j)%nat -> x' = g k x)).
  - intros i i' k (Hi & ->) (Hi' & E). apply blk_pos_inj in E; auto. lia.
  - lia.
  - intros k s Hk HL Hs. rewrite Hb; try lia.
    pose proof (blk_pos_in n o k j ltac:(lia) Hj). eapply wp_mono; [apply vmod_own; lia|].
    intros s' (L & H'). split; auto. intros p. split.
    + intros (_ & ->) k' Hk' E. apply blk_pos_inj in E; auto; try lia. destruct E as (<- & _). apply H'. auto.
    + intros Hn. apply H'. intros ->. apply Hn. split; [lia|auto].
  - intros v' L H1 H2. split; auto. split.
    + intros a b Ha Hb'. destruct (Nat.eqb_spec b j) as [->|Hne].
      * refine (H1 (o + a * n + j)%nat a _ _ a Ha eq_refl); [lia|auto].
      * apply H2. intros k Hk (Hk' & E). apply blk_pos_inj in E; auto. lia.
    + intros k Hk. apply H2. intros b Hb' (Hb'' & ->). pose proof (blk_pos_in n o b j Hb'' Hj). lia.
Qed.

(** Adding a block. *)
Lemma loop_add : forall n o (v : list K) (e : nat -> K) body, (o + n * n <= length v)%nat ->
  (forall k s, k < n * n -> length s = length v -> body k s = vmod s (o + k) (fun t => t + e k)) ->
  wp (forn 0 (n * n) body v) (fun v' => blkupd n v v' o (fun a b => nth (o + a * n + b) v 0 + e (a * n + b)%nat)).
Proof.
  intros n o v e body Hlen Hb.
  eapply wp_mono; [apply (seg_loop F (n * n) v o (fun k => nth (o + k) v 0 + e k) _ Hlen)|].
  - intros k s Hk HL Hs Hp. rewrite Hb by lia. apply (wp_vmod _ 0); [lia|]. lens. split; auto.
    split; [rewrite nth_upd_same by lia; rewrite Hp; auto|]. intros q Hq. apply nth_upd_other. auto.
  - intros v' (L & H1 & H2). split; auto. split; [|apply H2]. intros a b Ha Hb'. pose proof (idx_lt n a n b Ha Hb').
    rewrite <- !Nat.add_assoc. apply H1. lia.
Qed.

Section Band.
Variables (n nblk size w : nat) (ptr : Z -> Z -> option nat).
Hypothesis Pin : forall i j p, ptr i j = Some p -> inr nblk i /\ inr nblk j /\ (-2 <= i - j <= 2)%Z /\ (p + n * n <= size)%nat.
Hypothesis Pex : forall i j, inr nblk i -> inr nblk j -> (-1 <= i - j <= 1)%Z -> ptr i j <> None.
Hypothesis Pap : forall i j p i' j' p', ptr i j = Some p -> ptr i' j' = Some p' -> (i <> i' \/ j <> j') -> apart n p p'.
Hypothesis Pw : forall i j p, ptr i j = Some p -> (- Z.of_nat w <= i - j <= Z.of_nat w)%Z.
Notation B := (B F n ptr).
Notation chg := (chg F n ptr).

Lemma chg_blk' : forall v v' i j p N N', ptr i j = Some p -> blkupd n v v' p N -> (forall a b, a < n -> b < n -> N a b = N' a b) -> chg v v' i j N'.
Proof.
  intros v v' i j p N N' Hp HU E. apply (chg_blk F n ptr Pap _ _ _ _ _ _ Hp). eapply blkupd_ext; eauto.
Qed.

Lemma FixBC_ok : forall (v : list K) iblk idim, length v = size -> iblk < nblk -> idim < n ->
  wp (band_FixBC n nblk ptr w iblk idim v) (fun v' => length v' = size /\ forall i j a b, a < n -> b < n ->
    B v' i j a b = if ((i =? Z.of_nat iblk)%Z && (a =? idim)%nat) || ((j =? Z.of_nat iblk)%Z && (b =? idim)%nat)
                   then (if (i =? j)%Z && (a =? b)%nat then 1 else 0) else B v i j a b).
Proof.
  intros v iblk idim HL HI Hd. unfold band_FixBC. remember (Z.of_nat iblk) as Ib eqn:EI.
  assert (Ir : inr nblk Ib) by (unfold inr; lia).
  apply wp_bind, wp_assertb; [apply andb_true_intro; split; apply Nat.ltb_lt; auto|].
  apply wp_bind.
  apply (wp_forn _ (fun t v' => length v' = size /\ forall i j a b, a < n -> b < n ->
     B v' i j a b = if (i =? Ib)%Z && (j <? Ib - Z.of_nat w + Z.of_nat t)%Z && (a =? idim)%nat then 0 else B v i j a b)); [lia| | |].
  { split; auto. intros i j a b Ha Hb. destruct (_ && _ && _) eqn:E; auto. apply B_none. destruct (ptr i j) eqn:E'; auto.
    exfalso. apply Pw in E'. repeat (apply andb_prop in E; destruct E as (E & ?)). clear - E H0 E'. cbn in H0. lia. }
  { intros t s Ht (Ls & Hs). remember (Ib - Z.of_nat w + Z.of_nat t)%Z as j0 eqn:Ej0.
    assert (St : forall s', length s' = size -> (forall a b, a < n -> b < n -> B s' Ib j0 a b = if a =? idim then 0 else B s Ib j0 a b) ->
       (forall i' j' a b, a < n -> b < n -> (i' <> Ib \/ j' <> j0) -> B s' i' j' a b = B s i' j' a b) ->
       length s' = size /\ forall i j a b, a < n -> b < n ->
       B s' i j a b = if (i =? Ib)%Z && (j <? Ib - Z.of_nat w + Z.of_nat (S t))%Z && (a =? idim)%nat then 0 else B v i j a b).
    { intros s' L' H1 H2. split; auto. intros i j a b Ha Hb.
      destruct (Z.eqb_spec i Ib) as [->|Hn].
      - destruct (Z.eqb_spec j j0) as [->|Hnj].
        + rewrite H1, Hs by auto. rewrite Z.eqb_refl. rewrite Z.ltb_irrefl.
          replace (j0 <? Ib - Z.of_nat w + Z.of_nat (S t))%Z with true by (symmetry; apply Z.ltb_lt; lia). cbn [andb]. auto.
        + rewrite H2, Hs by auto. rewrite Z.eqb_refl. f_equal.
          replace (j <? Ib - Z.of_nat w + Z.of_nat (S t))%Z with (j <? j0)%Z; auto.
          destruct (Z.ltb_spec j j0), (Z.ltb_spec j (Ib - Z.of_nat w + Z.of_nat (S t))); auto; lia.
      - rewrite H2, Hs by auto. replace (i =? Ib)%Z with false by lia. auto. }
    destruct (ptr Ib j0) as [p|] eqn:Ep.
    - pose proof (Pin _ _ _ Ep) as (_ & _ & _ & Sp).
      eapply wp_mono; [apply (loop_row F n p idim s (fun _ _ => 0)); [auto|lia|]|].
      + intros k s0 Hk L0 _. pose proof (blk_pos_in n p idim k Hd Hk). apply vset_vmod. lia.
      + intros s' HU. eapply (chg_blk' _ _ _ _ _ _ (fun a b => if a =? idim then 0 else B s Ib j0 a b) Ep) in HU.
        * destruct HU as (L & H1 & H2). apply St; auto. lia.
        * intros a b Ha Hb. unfold MatnProofs3.B. rewrite Ep. auto.
    - apply wp_some. apply St; auto. intros a b Ha Hb. rewrite !B_none by auto. destruct (_ =? _); auto. }
  intros v1 (L1 & H1).
  assert (H1' : forall i j a b, a < n -> b < n -> B v1 i j a b = if (i =? Ib)%Z && (a =? idim)%nat then 0 else B v i j a b).
  { intros i j a b Ha Hb. rewrite H1 by auto. destruct (Z.eqb_spec i Ib) as [->|]; auto. cbn [andb].
    destruct (Z.ltb_spec j (Ib - Z.of_nat w + Z.of_nat (2 * w + 1))) as [|Hge]; auto. cbn [andb].
    rewrite B_none; [destruct (_ =? _); auto|]. destruct (ptr Ib j) eqn:E'; auto. exfalso. apply Pw in E'. lia. }
  clear H1. apply wp_bind.
  apply (wp_forn _ (fun t v' => length v' = size /\ forall i j a b, a < n -> b < n ->
     B v' i j a b = if (j =? Ib)%Z && (i <? Ib - Z.of_nat w + Z.of_nat t)%Z && (b =? idim)%nat then 0 else B v1 i j a b)); [lia| | |].
  { split; auto. intros i j a b Ha Hb. destruct (_ && _ && _) eqn:E; auto. apply B_none. destruct (ptr i j) eqn:E'; auto.
    exfalso. apply Pw in E'. repeat (apply andb_prop in E; destruct E as (E & ?)). clear - E H0 E'. cbn in H0. lia. }
  { intros t s Ht (Ls & Hs). remember (Ib - Z.of_nat w + Z.of_nat t)%Z as i0 eqn:Ei0.
    assert (St : forall s', length s' = size -> (forall a b, a < n -> b < n -> B s' i0 Ib a b = if b =? idim then 0 else B s i0 Ib a b) ->
       (forall i' j' a b, a < n -> b < n -> (i' <> i0 \/ j' <> Ib) -> B s' i' j' a b = B s i' j' a b) ->
       length s' = size /\ forall i j a b, a < n -> b < n ->
       B s' i j a b = if (j =? Ib)%Z && (i <? Ib - Z.of_nat w + Z.of_nat (S t))%Z && (b =? idim)%nat then 0 else B v1 i j a b).
    { intros s' L' G1 G2. split; auto. intros i j a b Ha Hb.
      destruct (Z.eqb_spec j Ib) as [->|Hn].
      - destruct (Z.eqb_spec i i0) as [->|Hni].
        + rewrite G1, Hs by auto. rewrite Z.eqb_refl. rewrite Z.ltb_irrefl.
          replace (i0 <? Ib - Z.of_nat w + Z.of_nat (S t))%Z with true by (symmetry; apply Z.ltb_lt; lia). cbn [andb]. auto.
        + rewrite G2, Hs by auto. rewrite Z.eqb_refl. f_equal.
          replace (i <? Ib - Z.of_nat w + Z.of_nat (S t))%Z with (i <? i0)%Z; auto.
          destruct (Z.ltb_spec i i0), (Z.ltb_spec i (Ib - Z.of_nat w + Z.of_nat (S t))); auto; lia.
      - rewrite G2, Hs by auto. replace (j =? Ib)%Z with false by lia. auto. }
    destruct (ptr i0 Ib) as [p|] eqn:Ep.
    - pose proof (Pin _ _ _ Ep) as (_ & _ & _ & Sp).
      eapply wp_mono; [apply (loop_col n p idim s (fun _ _ => 0)); [auto|lia|]|].
      + intros k s0 Hk L0. pose proof (blk_pos_in n p k idim Hk Hd). apply vset_vmod. lia.
      + intros s' HU. eapply (chg_blk' _ _ _ _ _ _ (fun a b => if b =? idim then 0 else B s i0 Ib a b) Ep) in HU.
        * destruct HU as (L & G1 & G2). apply St; auto. lia.
        * intros a b Ha Hb. unfold MatnProofs3.B. rewrite Ep. auto.
    - apply wp_some. apply St; auto. intros a b Ha Hb. rewrite !B_none by auto. destruct (_ =? _); auto. }
  intros v2 (L2 & H2).
  assert (H2' : forall i j a b, a < n -> b < n -> B v2 i j a b = if (j =? Ib)%Z && (b =? idim)%nat then 0 else B v1 i j a b).
  { intros i j a b Ha Hb. rewrite H2 by auto. destruct (Z.eqb_spec j Ib) as [->|]; auto. cbn [andb].
    destruct (Z.ltb_spec i (Ib - Z.of_nat w + Z.of_nat (2 * w + 1))) as [|Hge]; auto. cbn [andb].
    rewrite B_none; [destruct (_ =? _); auto|]. destruct (ptr i Ib) eqn:E'; auto. exfalso. apply Pw in E'. lia. }
  clear H2.
  destruct (ptr Ib Ib) as [p|] eqn:Ep; [|exfalso; apply (Pex Ib Ib); auto; lia]. cbn [bind deref].
  pose proof (Pin _ _ _ Ep) as (_ & _ & _ & Sp). pose proof (blk_pos_in n p idim idim Hd Hd) as Pd.
  apply wp_vset; [lia|].
  assert (HU : chg v2 (upd v2 (p + idim * n + idim)%nat 1) Ib Ib (fun a b => if (a =? idim) && (b =? idim) then 1 else B v2 Ib Ib a b)).
  { apply (chg_blk' _ _ _ _ p (fun a b => if (a =? idim) && (b =? idim) then 1 else nth (p + a * n + b)%nat v2 0) _ Ep).
    - split; [lens; auto|]. split.
      + intros a b Ha Hb. destruct (Nat.eqb_spec a idim) as [->|Hna]; [destruct (Nat.eqb_spec b idim) as [->|Hnb]|].
        * rewrite nth_upd_same by lia. auto.
        * rewrite nth_upd_other by (intros E; apply blk_pos_inj in E; auto; lia). auto.
        * rewrite nth_upd_other by (intros E; apply blk_pos_inj in E; auto; lia). auto.
      + intros k Hk. apply nth_upd_other. lia.
    - intros a b Ha Hb. unfold MatnProofs3.B. rewrite Ep. auto. }
  destruct HU as (L3 & C3 & F3). split; [lia|]. intros i j a b Ha Hb.
  destruct (Z.eqb_spec i Ib) as [->|Hni]; [destruct (Z.eqb_spec j Ib) as [->|Hnj]|].
  - rewrite C3 by auto. rewrite H2', H1' by auto. rewrite !Z.eqb_refl. cbn [andb].
    destruct (Nat.eqb_spec a idim) as [->|], (Nat.eqb_spec b idim) as [->|]; cbn [andb orb]; auto.
    + rewrite Nat.eqb_refl. auto.
    + replace (idim =? b) with false by (symmetry; apply Nat.eqb_neq; auto). auto.
    + replace (a =? idim) with false by (symmetry; apply Nat.eqb_neq; auto). auto.
  - rewrite F3, H2', H1' by auto. rewrite Z.eqb_refl. replace (j =? Ib)%Z with false by lia. replace (Ib =? j)%Z with false by lia. cbn [andb].
    destruct (a =? idim); auto.
  - rewrite F3, H2', H1' by auto. replace (i =? Ib)%Z with false by lia. cbn [andb orb].
    destruct (Z.eqb_spec j Ib) as [->|]; cbn [andb]; auto. replace (i =? Ib)%Z with false by lia. destruct (b =? idim); auto.
Qed.

(** Adding one block at (i,j). *)
Lemma addblk_ok : forall (v : list K) i j p (e : nat -> K) body, ptr i j = Some p -> length v = size ->
  (forall k s, k < n * n -> length s = length v -> body k s = vmod s (p + k)%nat (fun t => t + e k)) ->
  wp (forn 0 (n * n) body v) (fun v' => chg v v' i j (fun a b => B v i j a b + e (a * n + b)%nat)).
Proof.
  intros v i j p e body Ep HL Hb. pose proof (Pin _ _ _ Ep) as (_ & _ & _ & Sp).
  eapply wp_mono; [apply (loop_add n p v e body); [lia|auto]|]. intros v' HU.
  eapply chg_blk'; [exact Ep|exact HU|]. intros a b Ha Hb'. unfold MatnProofs3.B. rewrite Ep. auto.
Qed.
End Band.

(** ---- the three assembly routines ---- *)
Lemma tri_Merge_ok : forall n nblk idiv (eM v : list K), S idiv < nblk -> length eM = (4 * n * n)%nat -> length v = tri_size n nblk ->
  wp (tri_Merge n idiv eM v) (fun v' => length v' = length v /\ forall i j a b, a < n -> b < n -> i < nblk -> j < nblk ->
     B F n (tri_ptr n nblk) v' (Z.of_nat i) (Z.of_nat j) a b = B F n (tri_ptr n nblk) v (Z.of_nat i) (Z.of_nat j) a b +
       (if ((i =? idiv) || (i =? S idiv)) && ((j =? idiv) || (j =? S idiv))
        then nth ((((i - idiv) * 2 + (j - idiv)) * n + a) * n + b)%nat eM 0 else 0)).
Proof.
  intros n nblk idiv eM v Hi HE HL. unfold tri_Merge.
  assert (Hlen : (idiv * n * n * 3 + 4 * n * n <= length v)%nat).
  { rewrite HL. unfold tri_size. replace (Z.to_nat (2 + 3 * (Z.of_nat nblk - 2) + 2)) with (3 * nblk - 2)%nat by lia. nia. }
  eapply wp_mono; [apply (seg_loop F (4 * n * n) v (idiv * n * n * 3) (fun k => nth (idiv * n * n * 3 + k)%nat v 0 + nth k eM 0) _ Hlen)|].
  - intros k s Hk Ls Hs Hp. rewrite (vget_nth _ 0) by lia. cbn [bind]. apply (wp_vmod _ 0); [lia|]. lens. split; auto.
    split; [rewrite nth_upd_same by lia; rewrite Hp; auto|]. intros q Hq. apply nth_upd_other. auto.
  - intros v' (L & H1 & H2). split; auto. intros i j a b Ha Hb Hi' Hj'. unfold B.
    destruct (tri_ptr n nblk (Z.of_nat i) (Z.of_nat j)) as [p|] eqn:Ep.
    2:{ destruct (_ && _) eqn:E; [|ring]. exfalso. rewrite andb_true_iff, !orb_true_iff, !Nat.eqb_eq in E. rewrite tri_ex in Ep by lia. discriminate. }
    apply tri_form in Ep. destruct Ep as (_ & _ & Hd & ->).
    replace (Z.to_nat (Z.of_nat i * 2 + Z.of_nat j)) with (i * 2 + j)%nat by lia.
    pose proof (idx_lt n a n b Ha Hb) as Q.
    destruct (_ && _) eqn:E.
    + rewrite andb_true_iff, !orb_true_iff, !Nat.eqb_eq in E. assert (i = idiv + (i - idiv) /\ j = idiv + (j - idiv) /\ i - idiv <= 1 /\ j - idiv <= 1)%nat as (Ei & Ej & Hi1 & Hj1) by lia.
      set (di := (i - idiv)%nat) in *. set (dj := (j - idiv)%nat) in *. clearbody di dj. subst i j.
      replace (((idiv + di) * 2 + (idiv + dj)) * (n * n) + a * n + b)%nat with (idiv * n * n * 3 + (((di * 2 + dj) * n + a) * n + b))%nat by ring.
      apply H1. assert (di * 2 + dj <= 3)%nat by lia. nia.
    + rewrite H2; [ring|]. rewrite andb_false_iff, !orb_false_iff, !Nat.eqb_neq in E.
      assert (C : (i * 2 + j < 3 * idiv \/ 3 * idiv + 4 <= i * 2 + j)%nat) by lia.
      destruct C as [C|C]; [left|right]; nia.
Qed.

Lemma penta_MergeBlock_ok : forall n nblk i j (bl v : list K), 4 <= nblk -> i < nblk -> j < nblk -> (-2 <= Z.of_nat i - Z.of_nat j <= 2)%Z ->
  length bl = (n * n)%nat -> length v = penta_size n nblk ->
  wp (penta_MergeBlock n nblk i j bl v) (fun v' => length v' = length v /\ forall i' j' a b, a < n -> b < n ->
     B F n (penta_ptr n nblk) v' i' j' a b = B F n (penta_ptr n nblk) v i' j' a b +
       (if ((i' =? Z.of_nat i) && (j' =? Z.of_nat j))%Z then nth (a * n + b)%nat bl 0 else 0)).
Proof.
  intros n nblk i j bl v Hn Hi Hj Hd HB HL. unfold penta_MergeBlock.
  destruct (penta_ptr n nblk (Z.of_nat i) (Z.of_nat j)) as [p|] eqn:Ep; [|rewrite penta_ex in Ep by lia; discriminate].
  cbn [deref bind].
  eapply wp_mono; [apply (addblk_ok n nblk (penta_size n nblk) (penta_ptr n nblk) (penta_Pin n nblk Hn) (penta_Pap n nblk Hn) v _ _ p (fun k => nth k bl 0) _ Ep HL)|].
  - intros k s Hk Ls. rewrite (vget_nth _ 0) by lia. reflexivity.
  - intros v' (L & C & Fr). split; auto. intros i' j' a b Ha Hb.
    destruct (Z.eqb_spec i' (Z.of_nat i)) as [->|]; [destruct (Z.eqb_spec j' (Z.of_nat j)) as [->|]|]; cbn [andb].
    + apply C; auto.
    + rewrite Fr by auto. ring.
    + rewrite Fr by auto. ring.
Qed.

Lemma penta_Merge_ok : forall n nblk iblk (eM v : list K), 4 <= nblk -> (iblk + 2 < nblk)%nat ->
  length eM = (9 * (n * n))%nat -> length v = penta_size n nblk ->
  wp (penta_Merge n nblk iblk eM v) (fun v' => length v' = length v /\ forall i j a b, a < n -> b < n ->
     B F n (penta_ptr n nblk) v' (Z.of_nat i) (Z.of_nat j) a b = B F n (penta_ptr n nblk) v (Z.of_nat i) (Z.of_nat j) a b +
       (if (iblk <=? i) && (i <? iblk + 3) && ((iblk <=? j) && (j <? iblk + 3))
        then nth (((i - iblk) * 3 + (j - iblk)) * (n * n) + (a * n + b))%nat eM 0 else 0)).
Proof.
  intros n nblk iblk eM v Hn Hi HE HL. unfold penta_Merge. apply wp_bind, wp_assertb; [lia|].
  set (Bm := B F n (penta_ptr n nblk)).
  pose (G := fun (di dj : nat) (v' : list K) => length v' = length v /\ forall i j a b, a < n -> b < n ->
     Bm v' (Z.of_nat i) (Z.of_nat j) a b = Bm v (Z.of_nat i) (Z.of_nat j) a b +
       (if ((iblk <=? i) && (i <? iblk + di) && ((iblk <=? j) && (j <? iblk + 3))) || ((i =? iblk + di) && ((iblk <=? j) && (j <? iblk + dj)))
        then nth (((i - iblk) * 3 + (j - iblk)) * (n * n) + (a * n + b))%nat eM 0 else 0)).
  apply (wp_forn _ (fun di v' => G di 0%nat v')); [lia| | |].
  - split; auto. intros i j a b Ha Hb.
    replace (((iblk <=? i) && (i <? iblk + 0) && ((iblk <=? j) && (j <? iblk + 3))) || ((i =? iblk + 0) && ((iblk <=? j) && (j <? iblk + 0)))) with false by bdec. ring.
  - intros di s Hdi HG.
    apply (wp_forn _ (fun dj v' => G di dj v')); [lia|exact HG| |].
    + intros dj s' Hdj (Ls & Hs).
      destruct (penta_ptr n nblk (Z.of_nat (iblk + di)) (Z.of_nat (iblk + dj))) as [p|] eqn:Ep; [|rewrite penta_ex in Ep by lia; discriminate].
      eapply wp_mono; [apply (addblk_ok n nblk (penta_size n nblk) (penta_ptr n nblk) (penta_Pin n nblk Hn) (penta_Pap n nblk Hn) s' _ _ p
         (fun k => nth ((di * 3 + dj) * (n * n) + k)%nat eM 0) _ Ep)|].
      * lia.
      * intros k s0 Hk L0. rewrite (vget_nth _ 0). { reflexivity. } rewrite HE. assert (di * 3 + dj < 9)%nat by lia. nia.
      * intros v' (L & C & Fr). split; [lia|]. intros i j a b Ha Hb.
        destruct (Nat.eq_dec i (iblk + di)) as [->|Hni]; [destruct (Nat.eq_dec j (iblk + dj)) as [->|Hnj]|].
        -- unfold Bm. rewrite C by auto. fold Bm. rewrite Hs by auto.
           match goal with |- _ + (if ?c then _ else _) + _ = _ + (if ?d then _ else _) => replace c with false by bdec; replace d with true by bdec end.
           replace (iblk + di - iblk)%nat with di by lia. replace (iblk + dj - iblk)%nat with dj by lia. ring.
        -- unfold Bm. rewrite Fr by (auto; lia). fold Bm. rewrite Hs by auto.
           f_equal. apply if_eq. bdec.
        -- unfold Bm. rewrite Fr by (auto; lia). fold Bm. rewrite Hs by auto.
           f_equal. apply if_eq. bdec.
    + intros s' (Ls & Hs). split; auto. intros i j a b Ha Hb. rewrite Hs by auto.
      f_equal. apply if_eq. bdec.
  - intros v' (Lv & Hv). split; auto. intros i j a b Ha Hb. rewrite Hv by auto.
    f_equal. apply if_eq. bdec.
Qed.

(** ---- LinearSystemSolver_BlockPentaDiagonal ---- *)
Section LS.
Variables (n nblk : nat) (bc : list nat).
Hypothesis Hn : 4 <= nblk.
Hypothesis Hbc : length bc = (nblk * n)%nat.
Notation Bp := (B F n (penta_ptr n nblk)).
Definition flagged (i a : nat) : bool := negb (nth (i * n + a)%nat bc 0%nat =? 0).
Definition fxd (cur : nat) (i : Z) (a : nat) : bool :=
  ((0 <=? i) && (i <? Z.of_nat nblk))%Z && (Z.to_nat i * n + a <? cur) && flagged (Z.to_nat i) a.

Lemma fxd_S : forall Ib d i a, Ib < nblk -> d < n -> a < n ->
  fxd (Ib * n + d + 1) i a = fxd (Ib * n + d) i a || ((i =? Z.of_nat Ib)%Z && (a =? d) && flagged Ib d).
Proof.
  intros Ib d i a HI Hd Ha. unfold fxd. destruct ((0 <=? i) && (i <? Z.of_nat nblk))%Z eqn:E; cbn [andb].
  - destruct (Z.eqb_spec i (Z.of_nat Ib)) as [->|Hni]; [destruct (Nat.eqb_spec a d) as [->|Hna]|].
    + rewrite Nat2Z.id. replace (Ib * n + d <? Ib * n + d + 1) with true by (symmetry; apply Nat.ltb_lt; lia). rewrite Nat.ltb_irrefl. auto.
    + rewrite Nat2Z.id. cbn [andb]. rewrite orb_false_r. f_equal.
      destruct (Nat.ltb_spec (Ib * n + a) (Ib * n + d + 1)), (Nat.ltb_spec (Ib * n + a) (Ib * n + d)); auto; lia.
    + cbn [andb]. rewrite orb_false_r. f_equal.
      assert (Z.to_nat i * n + a <> Ib * n + d)%nat by (intros E'; apply idx_inj in E'; auto; lia).
      destruct (Nat.ltb_spec (Z.to_nat i * n + a) (Ib * n + d + 1)), (Nat.ltb_spec (Z.to_nat i * n + a) (Ib * n + d)); auto; lia.
  - replace (i =? Z.of_nat Ib)%Z with false by lia. auto.
Qed.

Lemma lsp_Fix_ok : forall v r, length v = penta_size n nblk -> length r = (nblk * n)%nat ->
  wp (lsp_Fix n nblk bc v r) (fun s => length (fst s) = penta_size n nblk /\ length (snd s) = (nblk * n)%nat /\
    (forall i j a b, i < nblk -> j < nblk -> a < n -> b < n -> Bp (fst s) (Z.of_nat i) (Z.of_nat j) a b =
       if flagged i a || flagged j b then (if (i =? j) && (a =? b) then 1 else 0) else Bp v (Z.of_nat i) (Z.of_nat j) a b) /\
    (forall i a, i < nblk -> a < n -> nth (i * n + a)%nat (snd s) 0 = if flagged i a then 0 else nth (i * n + a)%nat r 0)).
Proof.
  intros v r HL HR. unfold lsp_Fix.
  pose (G := fun cur (s : list K * list K) => length (fst s) = penta_size n nblk /\ length (snd s) = (nblk * n)%nat /\
    (forall i j a b, a < n -> b < n -> Bp (fst s) i j a b = if fxd cur i a || fxd cur j b then (if (i =? j)%Z && (a =? b) then 1 else 0) else Bp v i j a b) /\
    (forall i a, i < nblk -> a < n -> nth (i * n + a)%nat (snd s) 0 = if fxd cur (Z.of_nat i) a then 0 else nth (i * n + a)%nat r 0)).
  assert (GE : forall c c' s, G c s -> c = c' -> G c' s) by (intros c c' s HG ->; exact HG).
  apply (wp_forn _ (fun Ib s => G (Ib * n)%nat s)); [lia| | |].
  - split; [auto|]. split; [auto|]. assert (Z0 : forall i a, fxd 0 i a = false).
    { intros i a. unfold fxd. replace (Z.to_nat i * n + a <? 0) with false by (symmetry; apply Nat.ltb_ge; lia). rewrite andb_false_r. auto. }
    cbn [Nat.mul fst snd]. split; intros; rewrite ?Z0; auto.
  - intros Ib s HI HG.
    apply (wp_forn _ (fun d s => G (Ib * n + d)%nat s)); [lia|eapply GE; [exact HG|lia]| |intros s' HG'; eapply GE; [exact HG'|lia]].
    intros d s' Hd HG'. destruct s' as (v', r'). destruct HG' as (L1 & L2 & HB & HV). cbn [fst snd] in *.
    pose proof (idx_lt n Ib nblk d ltac:(lia) ltac:(lia)) as Pd.
    rewrite (vget_nth _ 0%nat) by lia. cbn [bind].
    assert (Efl : flagged Ib d = negb (nth (Ib * n + d)%nat bc 0%nat =? 0)) by auto.
    destruct (nth (Ib * n + d)%nat bc 0%nat =? 0) eqn:Ef; cbn [negb] in Efl.
    + apply wp_some. split; [auto|]. split; [auto|]. cbn [fst snd]. replace (Ib * n + S d)%nat with (Ib * n + d + 1)%nat by lia.
      split; intros.
      * rewrite !fxd_S by lia. rewrite Efl, !andb_false_r, !orb_false_r. auto.
      * rewrite fxd_S by lia. rewrite Efl, !andb_false_r, !orb_false_r. auto.
    + apply wp_bind. eapply wp_mono; [apply (FixBC_ok n nblk (penta_size n nblk) 2 (penta_ptr n nblk) (penta_Pin n nblk Hn) (penta_Pex n nblk) (penta_Pap n nblk Hn)); [|auto|lia|lia]|].
      { intros i j p Hp. apply penta_form in Hp. lia. }
      intros v2 (L3 & H3). apply wp_bind, wp_vset; [lia|]. apply wp_some. unfold G. cbn [fst snd]. split; [auto|]. split; [rewrite upd_length; exact L2|].
      replace (Ib * n + S d)%nat with (Ib * n + d + 1)%nat by lia. split.
      * intros i j a b Ha Hb. rewrite H3, HB by auto. rewrite !fxd_S by lia. rewrite Efl, !andb_true_r.
        destruct ((i =? Z.of_nat Ib)%Z && (a =? d)), ((j =? Z.of_nat Ib)%Z && (b =? d)), (fxd (Ib * n + d) i a), (fxd (Ib * n + d) j b); cbn [orb]; auto.
      * intros i a Hi Ha. rewrite fxd_S by lia. rewrite Efl, andb_true_r.
        destruct (Nat.eq_dec i Ib) as [->|Hni]; [destruct (Nat.eq_dec a d) as [->|Hna]|].
        -- rewrite nth_upd_same by lia. rewrite Z.eqb_refl, Nat.eqb_refl. rewrite orb_true_r. auto.
        -- rewrite nth_upd_other by lia. rewrite HV by auto. replace (a =? d) with false by (symmetry; apply Nat.eqb_neq; auto).
           rewrite andb_false_r, orb_false_r. auto.
        -- rewrite nth_upd_other by (intros E'; apply idx_inj in E'; auto; lia). rewrite HV by auto.
           replace (Z.of_nat i =? Z.of_nat Ib)%Z with false by lia. cbn [andb]. rewrite orb_false_r. auto.
  - intros s (L1 & L2 & HB & HV). split; auto. split; auto.
    assert (FX : forall i a, i < nblk -> a < n -> fxd (nblk * n) (Z.of_nat i) a = flagged i a).
    { intros i a Hi Ha. unfold fxd. rewrite Nat2Z.id. pose proof (idx_lt n i nblk a Hi Ha).
      replace ((0 <=? Z.of_nat i) && (Z.of_nat i <? Z.of_nat nblk))%Z with true by lia.
      replace (i * n + a <? nblk * n) with true by (symmetry; apply Nat.ltb_lt; lia). auto. }
    split; intros.
    + rewrite HB, !FX by auto. replace (Z.of_nat i =? Z.of_nat j)%Z with (i =? j); auto.
      destruct (Nat.eqb_spec i j), (Z.eqb_spec (Z.of_nat i) (Z.of_nat j)); auto; lia.
    + rewrite HV, FX by auto. auto.
Qed.
End LS.
End P.
