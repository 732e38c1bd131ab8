(** Block LU of a block band matrix (bandwidth at most 2) kept in a packed array.  Both banded solvers are instances. *)
From Coq Require Import List Arith Bool ZArith Lia Ring.
Import ListNotations.
From Verif Require Import Imp Alg SpProofs1 SpProofs4 MatnModel MatnProofs1 MatnProofs2 DtriProofs5.

Section P.
Variable F : pfield.
Notation K := (pr F).
Add Ring Kr : (rlaws K).
Local Open Scope K_scope.

Variables (n nblk size : nat) (ptr : Z -> Z -> option nat).

Definition gDecompIJK (v : list K) (iblk jblk kblk : Z) : option (list K) :=
  if ((iblk <? 0) || (jblk <? 0) || (kblk <? 0))%Z then Some v else
  assertb ((kblk <? iblk) && (kblk <? jblk))%Z ;;;
  match ptr iblk kblk with None => Some v | Some pik =>
  match ptr kblk jblk with None => Some v | Some pkj =>
  match ptr iblk jblk with None => Some v | Some pij =>
    Sub_MatMat n v pij pik pkj end end end.
Definition gUpdateU (v : list K) (iblk jblk : Z) : option (list K) :=
  assertb (iblk <? jblk)%Z ;;;
  match ptr iblk jblk with
  | None => Some v
  | Some pij =>
    pii <- deref (ptr iblk iblk) ;;
    let tmpBlk := getblk n v pij in
    MatMat n v pij pii tmpBlk 0
  end.
Definition gDecompose (v : list K) : option (list K * list (list K * bool)) :=
  forn 0 nblk (fun iblk s =>
    let '(v, tr) := s in
    let i := Z.of_nat iblk in
    v <- gDecompIJK v i (i - 1)%Z (i - 2)%Z ;;
    v <- gDecompIJK v i i (i - 2)%Z ;;
    v <- gDecompIJK v i i (i - 1)%Z ;;
    v <- gDecompIJK v i (i + 1)%Z (i - 1)%Z ;;
    pii <- deref (ptr i i) ;;
    let before := getblk n v pii in
    '(v, ok) <- Inverse_Matrix n v pii ;;
    v <- gUpdateU v i (i + 1)%Z ;;
    v <- gUpdateU v i (i + 2)%Z ;;
    Some (v, tr ++ [(before, ok)])) (v, []).
Definition gSubst (tmp : list K) (v res : list K) (iblk jblk : Z) : option (list K) :=
  match ptr iblk jblk with
  | None => Some tmp
  | Some pij => Sub_MatVecN n tmp 0 v pij res (Z.to_nat jblk * n)%nat
  end.
Definition gSubst_in (v res : list K) (iblk jblk : Z) : option (list K) :=
  match ptr iblk jblk with
  | None => Some res
  | Some pij => Sub_MatVecN_in n res (Z.to_nat iblk * n)%nat v pij (Z.to_nat jblk * n)%nat
  end.
Definition gSolve (v res : list K) : option (list K) :=
  res <- forn 0 nblk (fun iblk res =>
    let i := Z.of_nat iblk in
    tmp <- forn 0 n (fun idim tmp => r <- vget res (iblk * n + idim)%nat ;; vset tmp idim r) (repeat 0 n) ;;
    tmp <- gSubst tmp v res i (i - 2)%Z ;;
    tmp <- gSubst tmp v res i (i - 1)%Z ;;
    pii <- deref (ptr i i) ;;
    MatVecN n res (iblk * n)%nat v pii tmp 0) res ;;
  ford (nblk - 1)%nat 0 (fun i1 res =>
    let iblk := (i1 - 1)%nat in
    let i := Z.of_nat iblk in
    res <- gSubst_in v res i (i + 1)%Z ;;
    gSubst_in v res i (i + 2)%Z) res.

Definition inr (i : Z) : Prop := (0 <= i < Z.of_nat nblk)%Z.
Hypothesis Pin : forall i j p, ptr i j = Some p -> inr i /\ inr j /\ (-2 <= i - j <= 2)%Z /\ (p + n * n <= size)%nat.
Hypothesis Pex : forall i j, inr i -> inr j -> (-1 <= i - j <= 1)%Z -> ptr i j <> None.
Hypothesis Pap : forall i j p i' j' p', ptr i j = Some p -> ptr i' j' = Some p' -> (i <> i' \/ j <> j') -> apart n p p'.

(** Block (i,j) of the matrix stored in [v]; zero where nothing is stored. *)
Definition B (v : list K) (i j : Z) (a b : nat) : K :=
  match ptr i j with Some p => nth (p + a * n + b)%nat v 0 | None => 0 end.

Lemma B_none : forall v i j a b, ptr i j = None -> B v i j a b = 0.
Proof. intros. unfold B. rewrite H. auto. Qed.

Definition chg (v v' : list K) (i j : Z) (N : nat -> nat -> K) : Prop :=
  length v' = length v /\ (forall a b, a < n -> b < n -> B v' i j a b = N a b) /\
  (forall i' j' a b, a < n -> b < n -> (i' <> i \/ j' <> j) -> B v' i' j' a b = B v i' j' a b).
Lemma chg_blk : forall v v' i j p N, ptr i j = Some p -> blkupd n v v' p N -> chg v v' i j N.
Proof.
  intros v v' i j p N Hp HU. pose proof HU as (L & HB & HF). split; auto. split.
  - intros a b Ha Hb. unfold B. rewrite Hp. apply HB; auto.
  - intros i' j' a b Ha Hb Hne. unfold B. destruct (ptr i' j') as [p'|] eqn:E; auto.
    eapply blkupd_other; eauto. apply (Pap _ _ _ _ _ _ Hp E). lia.
Qed.
Lemma chg_refl : forall v i j N, (forall a b, a < n -> b < n -> N a b = B v i j a b) -> chg v v i j N.
Proof. intros v i j N H. split; auto. split; auto. intros. rewrite H; auto. Qed.

Definition mm (M N : nat -> nat -> K) (a b : nat) : K := sumn n (fun c => M a c * N c b).
Definition mv (M : nat -> nat -> K) (x : nat -> K) (a : nat) : K := sumn n (fun b => M a b * x b).

Lemma mm_zero_l : forall M N a b, (forall c, c < n -> M a c = 0) -> mm M N a b = 0.
Proof. intros M N a b H. apply sumn_zero. intros c Hc. rewrite H by auto. ring. Qed.
Lemma mm_zero_r : forall M N a b, (forall c, c < n -> N c b = 0) -> mm M N a b = 0.
Proof. intros M N a b H. apply sumn_zero. intros c Hc. rewrite H by auto. ring. Qed.

Lemma DecompIJK_ok : forall v i j k, length v = size -> (k < i)%Z -> (k < j)%Z ->
  (ptr i j = None -> ptr i k = None \/ ptr k j = None) ->
  wp (gDecompIJK v i j k) (fun v' => chg v v' i j (fun a b => B v i j a b - mm (B v i k) (B v k j) a b)).
Proof.
  intros v i j k HL Hi Hj Hz. unfold gDecompIJK.
  assert (Z0 : ptr i k = None \/ ptr k j = None -> chg v v i j (fun a b => B v i j a b - mm (B v i k) (B v k j) a b)).
  { intros HN. apply chg_refl. intros a b Ha Hb. destruct HN as [E|E].
    - rewrite mm_zero_l by (intros; apply B_none; auto). ring.
    - rewrite mm_zero_r by (intros; apply B_none; auto). ring. }
  destruct ((i <? 0) || (j <? 0) || (k <? 0))%Z eqn:EE.
  { apply wp_some. apply Z0. destruct (ptr i k) eqn:E; auto. right. destruct (ptr k j) eqn:E'; auto.
    apply Pin in E. apply Pin in E'. unfold inr in *. lia. }
  apply wp_bind, wp_assertb; [lia|].
  destruct (ptr i k) as [pik|] eqn:E1; [|apply wp_some; auto].
  destruct (ptr k j) as [pkj|] eqn:E2; [|apply wp_some; auto].
  destruct (ptr i j) as [pij|] eqn:E3; [|apply wp_some; apply Z0; destruct (Hz eq_refl); discriminate].
  pose proof (Pin _ _ _ E1). pose proof (Pin _ _ _ E2). pose proof (Pin _ _ _ E3).
  eapply wp_mono; [apply Sub_MatMat_ok; try lia|].
  - apply (Pap _ _ _ _ _ _ E3 E1). lia.
  - apply (Pap _ _ _ _ _ _ E3 E2). lia.
  - intros v' HU. apply (chg_blk _ _ _ _ _ _ E3) in HU. destruct HU as (L & H1' & H2'). split; auto. split; auto.
    intros a b Ha Hb. rewrite H1' by auto. unfold mm, B. rewrite E1, E2, E3. auto.
Qed.

Lemma getblk_nth : forall (v : list K) o a b, a < n -> b < n -> nth (a * n + b) (getblk n v o) 0 = nth (o + a * n + b) v 0.
Proof.
  intros v o a b Ha Hb. unfold getblk. pose proof (idx_lt n a n b Ha Hb).
  rewrite nth_map_seq by lia. f_equal. lia.
Qed.
Lemma getblk_length : forall (v : list K) o, length (getblk n v o) = (n * n)%nat.
Proof. intros. unfold getblk. rewrite map_length, seq_length. auto. Qed.

Lemma UpdateU_ok : forall v i j, length v = size -> (i < j)%Z -> inr i ->
  wp (gUpdateU v i j) (fun v' => chg v v' i j (fun a b => mm (B v i i) (B v i j) a b)).
Proof.
  intros v i j HL Hij Hi. unfold gUpdateU. apply wp_bind, wp_assertb; [lia|].
  destruct (ptr i j) as [p|] eqn:E.
  - destruct (ptr i i) as [q|] eqn:E'; [|exfalso; apply (Pex i i); auto; lia]. cbn [bind deref]. cbv zeta.
    pose proof (Pin _ _ _ E). pose proof (Pin _ _ _ E').
    eapply wp_mono; [apply MatMat_ok; [lia|lia|rewrite getblk_length; lia|]|].
    + apply (Pap _ _ _ _ _ _ E E'). lia.
    + intros v' HU. apply (chg_blk _ _ _ _ _ _ E) in HU. destruct HU as (L & H1' & H2'). split; auto. split; auto.
      intros a b Ha Hb. rewrite H1' by auto. unfold mm, B. rewrite E, E'. apply sumn_ext. intros k Hk.
      cbn [Nat.add]. rewrite getblk_nth by auto. auto.
  - apply wp_some. apply chg_refl. intros a b Ha Hb. rewrite B_none by auto. apply mm_zero_r. intros. apply B_none. auto.
Qed.

Lemma inv_transfer : forall (v : list K) p, (p + n * n <= length v)%nat -> forall ok,
  det_ok (F := F) n (getblk n v p) 0 ok -> det_ok (F := F) n v p ok.
Proof.
  intros v p Hp ok H. unfold det_ok in *. destruct n as [|[|[|[|m]]]]; auto.
  unfold getblk in H. cbn in H. rewrite Nat.add_0_r in H. auto.
Qed.

(** What one row of the factorisation satisfies. *)
Definition row_ok (A v : list K) (tr : list (list K * bool)) (k : nat) : Prop :=
  let i := Z.of_nat k in
  let P := fun a b => nth (a * n + b) (fst (nth k tr ([], false))) 0 in
  (forall a b, a < n -> b < n -> B v i (i - 2) a b = B A i (i - 2) a b) /\
  (forall a b, a < n -> b < n -> B v i (i - 1) a b = B A i (i - 1) a b - mm (B A i (i - 2)) (B v (i - 2) (i - 1)) a b) /\
  (forall a b, a < n -> b < n -> P a b = B A i i a b - mm (B v i (i - 2)) (B v (i - 2) i) a b - mm (B v i (i - 1)) (B v (i - 1) i) a b) /\
  (det_ok (F := F) n (fst (nth k tr ([], false))) 0 (snd (nth k tr ([], false))) -> inverse_of (F := F) n P (B v i i)) /\
  (forall a b, a < n -> b < n -> B v i (i + 1) a b = mm (B v i i) (fun c d => B A i (i + 1) c d - mm (B v i (i - 1)) (B v (i - 1) (i + 1)) c d) a b) /\
  (forall a b, a < n -> b < n -> B v i (i + 2) a b = mm (B v i i) (B A i (i + 2)) a b).

Lemma mm_ext : forall M N M' N' a b, (forall c, c < n -> M a c = M' a c) -> (forall c, c < n -> N c b = N' c b) -> mm M N a b = mm M' N' a b.
Proof. intros. apply sumn_ext. intros c Hc. rewrite H, H0 by auto. auto. Qed.
Lemma inverse_ext : forall M N M' N', (forall a b, a < n -> b < n -> M a b = M' a b) -> (forall a b, a < n -> b < n -> N a b = N' a b) ->
  inverse_of (F := F) n M N -> inverse_of (F := F) n M' N'.
Proof.
  intros M N M' N' H1 H2 (I1 & I2). split; intros a c Ha Hc.
  - rewrite <- I1 by auto. apply sumn_ext. intros b Hb. rewrite H1, H2 by auto. auto.
  - rewrite <- I2 by auto. apply sumn_ext. intros b Hb. rewrite H1, H2 by auto. auto.
Qed.

Lemma row_ok_stable : forall A v v' tr tr' k,
  (forall i j a b, a < n -> b < n -> (i <= Z.of_nat k)%Z -> B v' i j a b = B v i j a b) ->
  nth k tr' ([], false) = nth k tr ([], false) -> row_ok A v tr k -> row_ok A v' tr' k.
Proof.
  intros A v v' tr tr' k HB Ht (R1 & R2 & R3 & R4 & R5 & R6). unfold row_ok. rewrite Ht.
  assert (MM : forall i1 j1 i2 j2 a b, a < n -> b < n -> (i1 <= Z.of_nat k)%Z -> (i2 <= Z.of_nat k)%Z ->
    mm (B v' i1 j1) (B v' i2 j2) a b = mm (B v i1 j1) (B v i2 j2) a b).
  { intros. apply mm_ext; intros; apply HB; auto. }
  split; [|split; [|split; [|split; [|split]]]].
  - intros a b Ha Hb. rewrite HB by (auto; lia). auto.
  - intros a b Ha Hb. rewrite HB, R2 by (auto; lia). f_equal. apply mm_ext; auto. intros. symmetry. apply HB; auto. lia.
  - intros a b Ha Hb. rewrite !MM by (auto; lia). auto.
  - intros Hd. eapply inverse_ext; [| |apply R4; auto]; auto. intros. symmetry. apply HB; auto. lia.
  - intros a b Ha Hb. rewrite HB, R5 by (auto; lia). apply mm_ext; intros; [symmetry; apply HB; auto; lia|]. rewrite MM by (auto; lia). auto.
  - intros a b Ha Hb. rewrite HB, R6 by (auto; lia). apply mm_ext; intros; auto. symmetry; apply HB; auto; lia.
Qed.

Lemma Decompose_ok : forall A, length A = size ->
  wp (gDecompose A) (fun r => length (fst r) = size /\ length (snd r) = nblk /\ forall k, k < nblk -> row_ok A (fst r) (snd r) k).
Proof.
  intros A HA. unfold gDecompose.
  apply (wp_forn _ (fun i s => length (fst s) = size /\ length (snd s) = i /\ (forall k, k < i -> row_ok A (fst s) (snd s) k) /\
     (forall i' j a b, a < n -> b < n -> (Z.of_nat i <= i')%Z -> B (fst s) i' j a b = B A i' j a b))); [lia| | |].
  - cbn [fst snd length]. split; [auto|]. split; [auto|]. split; [intros; lia|]. auto.
  - intros i0 [v0 tr] Hi (HL & HT & HR & HF). cbn [fst snd] in *. cbv zeta. set (i := Z.of_nat i0) in *.
    assert (Ii : inr i) by (unfold inr, i; lia).
    assert (PN : forall j, (-1 <= i - j <= 1)%Z -> ptr i j = None -> ~ inr j).
    { intros j Hj E Hr. apply (Pex i j); auto. }
    assert (ON : forall p q, ~ inr p \/ ~ inr q -> ptr p q = None).
    { intros p q Hn. destruct (ptr p q) eqn:E; auto. apply Pin in E. tauto. }
    apply wp_bind. eapply wp_mono; [apply DecompIJK_ok; [auto|lia|lia|]|].
    { intros E. apply PN in E; [|lia]. unfold inr in *. left. apply ON. unfold inr. lia. }
    intros v1 (L1 & C1 & F1). cbn beta in C1.
    apply wp_bind. eapply wp_mono; [apply DecompIJK_ok; [lia|lia|lia|]|].
    { intros E. apply PN in E; [|lia]. contradiction. }
    intros v2 (L2 & C2 & F2). cbn beta in C2.
    apply wp_bind. eapply wp_mono; [apply DecompIJK_ok; [lia|lia|lia|]|].
    { intros E. apply PN in E; [|lia]. contradiction. }
    intros v3 (L3 & C3 & F3). cbn beta in C3.
    apply wp_bind. eapply wp_mono; [apply DecompIJK_ok; [lia|lia|lia|]|].
    { intros E. apply PN in E; [|lia]. right. apply ON. auto. }
    intros v4 (L4 & C4 & F4). cbn beta in C4.
    destruct (ptr i i) as [pii|] eqn:Eii; [|exfalso; apply (Pex i i); auto; lia]. cbn [bind deref].
    pose proof (Pin _ _ _ Eii) as (_ & _ & _ & Sii).
    apply wp_bind. eapply wp_mono; [apply Inverse_Matrix_ok; lia|].
    intros [v5 ok] (HU & Hinv). cbn [fst snd] in *.
    apply (chg_blk _ _ _ _ _ _ Eii) in HU. destruct HU as (L5 & C5 & F5).
    apply wp_bind. eapply wp_mono; [apply UpdateU_ok; [lia|lia|auto]|].
    intros v6 (L6 & C6 & F6). cbn beta in C6.
    apply wp_bind. eapply wp_mono; [apply UpdateU_ok; [lia|lia|auto]|].
    intros v7 (L7 & C7 & F7). cbn beta in C7.
    apply wp_some. cbn [fst snd].
    assert (FF : forall i' j a b, a < n -> b < n -> i' <> i -> B v7 i' j a b = B v0 i' j a b).
    { intros i' j a b Ha Hb Hn. rewrite F7, F6, F5, F4, F3, F2, F1 by (auto; lia). auto. }
    split; [lia|]. split; [rewrite app_length; cbn; lia|]. split.
    + intros k Hk. destruct (Nat.eq_dec k i0) as [->|Hne].
      2:{ eapply row_ok_stable; [| |apply (HR k); lia].
          - intros. apply FF; auto. unfold i. lia.
          - apply app_nth1. lia. }
      unfold row_ok. fold i. rewrite app_nth2, HT, Nat.sub_diag by lia. cbn [nth fst snd].
      (* the untouched neighbours *)
      assert (F0 : forall j a b, a < n -> b < n -> B v0 i j a b = B A i j a b) by (intros; apply HF; auto; unfold i; lia).
      assert (Lm2 : forall a b, a < n -> b < n -> B v7 i (i - 2) a b = B A i (i - 2) a b).
      { intros a b Ha Hb. rewrite F7, F6, F5, F4, F3, F2, F1 by (auto; lia). auto. }
      assert (Lm1 : forall a b, a < n -> b < n -> B v7 i (i - 1) a b = B v1 i (i - 1) a b).
      { intros a b Ha Hb. rewrite F7, F6, F5, F4, F3, F2 by (auto; lia). auto. }
      assert (D7 : forall a b, a < n -> b < n -> B v7 i i a b = B v5 i i a b).
      { intros a b Ha Hb. rewrite F7, F6 by (auto; lia). auto. }
      assert (P4 : forall a b, a < n -> b < n -> nth (a * n + b) (getblk n v4 pii) 0 = B v4 i i a b).
      { intros a b Ha Hb. rewrite getblk_nth by auto. unfold B. rewrite Eii. auto. }
      split; [auto|split; [|split; [|split; [|split]]]].
      * intros a b Ha Hb. rewrite Lm1, C1 by auto. rewrite F0 by auto. f_equal. apply mm_ext; intros; auto.
        symmetry. apply FF; auto. lia.
      * intros a b Ha Hb. rewrite P4 by auto. rewrite F4, C3, C2, F1, F0 by (auto; lia).
        f_equal; [f_equal|]; apply mm_ext; intros.
        -- rewrite F1, Lm2, F0 by (auto; lia). auto.
        -- rewrite F1, FF by (auto; lia). auto.
        -- rewrite F2, Lm1 by (auto; lia). auto.
        -- rewrite F2, F1, FF by (auto; lia). auto.
      * intros Hd. specialize (Hinv (inv_transfer v4 pii ltac:(lia) ok Hd)).
        eapply inverse_ext; [| |exact Hinv]; intros a b Ha Hb; cbn beta.
        -- rewrite getblk_nth by auto. auto.
        -- rewrite D7 by auto. unfold B. rewrite Eii. auto.
      * intros a b Ha Hb. rewrite F7, C6 by (auto; lia). apply mm_ext; intros c Hc.
        -- rewrite D7 by auto. auto.
        -- rewrite F5, C4, F3, F2, F1, F0 by (auto; lia). f_equal. apply mm_ext; intros.
           ++ rewrite Lm1, F3, F2 by (auto; lia). auto.
           ++ rewrite F3, F2, F1, FF by (auto; lia). auto.
      * intros a b Ha Hb. rewrite C7 by auto. apply mm_ext; intros c Hc.
        -- rewrite D7, F6 by (auto; lia). auto.
        -- rewrite F6, F5, F4, F3, F2, F1, F0 by (auto; lia). auto.
    + intros i' j a b Ha Hb Hi'. rewrite FF by (auto; unfold i; lia). apply HF; auto. lia.
  - intros [v tr] (H1 & H2 & H3 & _). auto.
Qed.

(** ---- Solve ---- *)
Definition X (x : list K) (j : Z) (b : nat) : K :=
  if ((0 <=? j) && (j <? Z.of_nat nblk))%Z then nth (Z.to_nat j * n + b)%nat x 0 else 0.

Lemma X_in : forall x k b, k < nblk -> X x (Z.of_nat k) b = nth (k * n + b)%nat x 0.
Proof. intros x k b Hk. unfold X. replace ((0 <=? Z.of_nat k) && (Z.of_nat k <? Z.of_nat nblk))%Z with true by lia. rewrite Nat2Z.id. auto. Qed.

Lemma seg_in : forall k, k < nblk -> (k * n + n <= nblk * n)%nat.
Proof. intros k Hk. nia. Qed.
Lemma seg_apart : forall k k', k < k' -> (k * n + n <= k' * n)%nat.
Proof. intros k k' H. nia. Qed.

Definition xchg (x x' : list K) (k : nat) (N : nat -> K) : Prop :=
  length x' = length x /\ (forall a, a < n -> X x' (Z.of_nat k) a = N a) /\
  (forall j a, a < n -> j <> Z.of_nat k -> X x' j a = X x j a).
Lemma xchg_seg : forall x x' k N, k < nblk -> length x = (nblk * n)%nat -> segupd n x x' (k * n) N -> xchg x x' k N.
Proof.
  intros x x' k N Hk HL (L & H1 & H2). split; auto. split.
  - intros a Ha. rewrite X_in by auto. auto.
  - intros j a Ha Hj. unfold X. destruct ((0 <=? j) && (j <? Z.of_nat nblk))%Z eqn:E; auto. apply H2.
    destruct (Nat.lt_trichotomy (Z.to_nat j) k) as [Hlt|[Heq|Hlt]]; [|lia|].
    + pose proof (seg_apart _ _ Hlt). lia.
    + pose proof (seg_apart _ _ Hlt). lia.
Qed.

Definition tmpv (t : list K) (a : nat) : K := nth a t 0.
Lemma Subst_ok : forall tmp v res i j, length v = size -> length res = (nblk * n)%nat -> length tmp = n ->
  wp (gSubst tmp v res i j) (fun t => length t = n /\ forall a, a < n -> nth a t 0 = nth a tmp 0 - mv (B v i j) (X res j) a).
Proof.
  intros tmp v res i j HL HR HT. unfold gSubst. destruct (ptr i j) as [p|] eqn:E.
  - pose proof (Pin _ _ _ E) as (Hi & Hj & _ & Hp). unfold inr in *.
    pose proof (seg_in (Z.to_nat j) ltac:(lia)).
    eapply wp_mono; [apply Sub_MatVecN_ok; lia|]. intros t (L & H1 & _). split; [lia|]. intros a Ha.
    change a with (0 + a)%nat at 1. rewrite H1 by auto. cbn [Nat.add]. f_equal. unfold mv, B. rewrite E. apply sumn_ext.
    intros b Hb. f_equal. unfold X. replace ((0 <=? j) && (j <? Z.of_nat nblk))%Z with true by lia. auto.
  - apply wp_some. split; auto. intros a Ha. unfold mv. rewrite sumn_zero; [ring|]. intros b Hb. rewrite B_none by auto. ring.
Qed.
Lemma Subst_in_ok : forall v res k j, length v = size -> length res = (nblk * n)%nat -> k < nblk -> j <> Z.of_nat k ->
  wp (gSubst_in v res (Z.of_nat k) j) (fun r => xchg res r k (fun a => X res (Z.of_nat k) a - mv (B v (Z.of_nat k) j) (X res j) a)).
Proof.
  intros v res k j HL HR Hk Hj. unfold gSubst_in. destruct (ptr (Z.of_nat k) j) as [p|] eqn:E.
  - pose proof (Pin _ _ _ E) as (Hi & Hj' & _ & Hp). unfold inr in *. rewrite Nat2Z.id.
    pose proof (seg_in (Z.to_nat j) ltac:(lia)). pose proof (seg_in k Hk).
    eapply wp_mono; [apply Sub_MatVecN_in_ok; try lia|].
    + destruct (Nat.lt_trichotomy (Z.to_nat j) k) as [Hlt|[Heq|Hlt]]; [|lia|]; pose proof (seg_apart _ _ Hlt); lia.
    + intros r HU. apply (xchg_seg _ _ _ _ Hk HR) in HU. destruct HU as (L & H1 & H2). split; auto. split; auto.
      intros a Ha. rewrite H1 by auto. rewrite X_in by auto. f_equal. unfold mv, B. rewrite E. apply sumn_ext.
      intros b Hb. f_equal. unfold X. replace ((0 <=? j) && (j <? Z.of_nat nblk))%Z with true by lia. auto.
  - apply wp_some. split; auto. split; auto. intros a Ha. unfold mv. rewrite sumn_zero; [ring|]. intros b Hb. rewrite B_none by auto. ring.
Qed.

Lemma mv_ext : forall M x x' a, (forall b, b < n -> x b = x' b) -> mv M x a = mv M x' a.
Proof. intros. apply sumn_ext. intros b Hb. rewrite H by auto. auto. Qed.

Definition fwd (v bb y : list K) (k : nat) : Prop := forall a, a < n ->
  X y (Z.of_nat k) a = mv (B v (Z.of_nat k) (Z.of_nat k)) (fun c => X bb (Z.of_nat k) c - mv (B v (Z.of_nat k) (Z.of_nat k - 2)) (X y (Z.of_nat k - 2)) c
      - mv (B v (Z.of_nat k) (Z.of_nat k - 1)) (X y (Z.of_nat k - 1)) c) a.
Definition bwd (v y x : list K) (k : nat) : Prop := forall a, a < n ->
  X x (Z.of_nat k) a = X y (Z.of_nat k) a - mv (B v (Z.of_nat k) (Z.of_nat k + 1)) (X x (Z.of_nat k + 1)) a
     - mv (B v (Z.of_nat k) (Z.of_nat k + 2)) (X x (Z.of_nat k + 2)) a.

Lemma X_out : forall x j a, ~ inr j -> X x j a = 0.
Proof. intros x j a Hj. unfold X. destruct ((0 <=? j) && (j <? Z.of_nat nblk))%Z eqn:E; auto. exfalso. apply Hj. unfold inr. lia. Qed.

Lemma copy_tmp : forall (res : list K) o, (o + n <= length res)%nat ->
  wp (forn 0 n (fun idim tmp => r <- vget res (o + idim)%nat ;; vset tmp idim r) (repeat 0 n))
     (fun t => length t = n /\ forall a, a < n -> nth a t 0 = nth (o + a)%nat res 0).
Proof.
  intros res o Ho.
  eapply wp_mono; [apply (seg_loop F n (repeat 0 n) 0 (fun a => nth (o + a)%nat res 0)); [rewrite repeat_length; lia|]|].
  - intros i s Hi HL _ _. rewrite repeat_length in HL. rewrite (vget_nth _ 0) by lia. cbn [bind]. apply wp_vset; [lia|]. cbn [Nat.add].
    split; [lens; auto|]. split; [apply nth_upd_same; lia|]. intros q Hq. apply nth_upd_other. auto.
  - intros t (L & H & _). rewrite repeat_length in L. split; auto.
Qed.

Lemma Solve_ok : forall v bb, length v = size -> length bb = (nblk * n)%nat ->
  wp (gSolve v bb) (fun x => length x = (nblk * n)%nat /\ exists y, length y = (nblk * n)%nat /\
    forall k, k < nblk -> fwd v bb y k /\ bwd v y x k).
Proof.
  intros v bb HL HB. unfold gSolve. apply wp_bind.
  apply (wp_forn _ (fun i y => length y = (nblk * n)%nat /\ (forall k, k < i -> fwd v bb y k) /\
     (forall j a, a < n -> (Z.of_nat i <= j)%Z -> X y j a = X bb j a))); [lia| | |].
  - split; [auto|]. split; [intros; lia|auto].
  - intros k y Hk (HY & HR & HF). cbv zeta.
    pose proof (seg_in k ltac:(lia)) as Sk.
    apply wp_bind. eapply wp_mono; [apply copy_tmp; lia|]. intros t0 (T0 & E0).
    apply wp_bind. eapply wp_mono; [apply Subst_ok; auto|]. intros t1 (T1 & E1).
    apply wp_bind. eapply wp_mono; [apply Subst_ok; auto|]. intros t2 (T2 & E2).
    destruct (ptr (Z.of_nat k) (Z.of_nat k)) as [p|] eqn:Ep; [|exfalso; apply (Pex (Z.of_nat k) (Z.of_nat k)); unfold inr; try lia; auto].
    cbn [bind deref]. pose proof (Pin _ _ _ Ep) as (_ & _ & _ & Sp).
    eapply wp_mono; [apply MatVecN_ok; lia|]. intros y' HU. apply (xchg_seg _ _ k _ ltac:(lia) HY) in HU.
    destruct HU as (L & H1 & H2).
    assert (HY' : forall j a, a < n -> (j < Z.of_nat k)%Z -> X y' j a = X y j a) by (intros; apply H2; auto; lia).
    split; [lia|]. split.
    + intros k' Hk'. destruct (Nat.eq_dec k' k) as [->|Hne].
      * intros a Ha. rewrite H1 by auto. unfold mv at 1, B at 1. rewrite Ep. apply sumn_ext. intros b Hb. cbn [Nat.add].
        rewrite E2, E1, E0 by auto. rewrite <- X_in by lia. rewrite HF by (auto; lia).
        f_equal. f_equal; [f_equal|]; apply mv_ext; intros; symmetry; apply HY'; auto; lia.
      * intros a Ha. rewrite HY' by (auto; lia). rewrite (HR k') by (auto; lia). apply mv_ext. intros c Hc.
        f_equal; [f_equal|]; apply mv_ext; intros; symmetry; apply HY'; auto; lia.
    + intros j a Ha Hj. rewrite H2 by (auto; lia). apply HF; auto. lia.
  - intros y (HY & HR & _).
    apply (wp_ford _ (fun i x => length x = (nblk * n)%nat /\ (forall k, i <= k < nblk -> bwd v y x k) /\
      (forall j a, a < n -> (j < Z.of_nat i)%Z -> X x j a = X y j a))); [lia| | |].
    + split; [auto|]. split; [|auto]. intros k Hk a Ha.
      assert (Z1 : forall j M, (Z.of_nat nblk <= j)%Z -> mv M (X y j) a = 0).
      { intros j M Hj. apply sumn_zero. intros b Hb. rewrite X_out by (unfold inr; lia). ring. }
      assert (k = nblk - 1)%nat by lia. subst k. rewrite !Z1 by lia. ring.
    + intros i1 x Hi (HX & HW & HF). cbv zeta. set (k := (i1 - 1)%nat) in *.
      apply wp_bind. eapply wp_mono; [apply Subst_in_ok; auto; unfold k; lia|]. intros x1 (L1 & C1 & F1).
      eapply wp_mono; [apply Subst_in_ok; [auto|lia|unfold k; lia|unfold k; lia]|]. intros x2 (L2 & C2 & F2).
      split; [lia|]. assert (FF : forall j a, a < n -> j <> Z.of_nat k -> X x2 j a = X x j a).
      { intros. rewrite F2, F1; auto. }
      split.
      * intros k' Hk'. destruct (Nat.eq_dec k' k) as [->|Hne].
        -- intros a Ha. rewrite C2, C1 by auto. rewrite HF by (auto; unfold k; lia).
           f_equal; [f_equal|]; apply mv_ext; intros.
           ++ rewrite FF by (auto; lia). auto.
           ++ rewrite F2 by (auto; lia). auto.
        -- intros a Ha. rewrite FF by (auto; lia). rewrite (HW k') by (auto; unfold k in *; lia).
           f_equal; [f_equal|]; apply mv_ext; intros; rewrite FF by (auto; unfold k in *; lia); auto.
      * intros j a Ha Hj. rewrite FF by (auto; unfold k in *; lia). apply HF; auto. unfold k in *. lia.
    + intros x (HX & HW & _). split; auto. exists y. split; auto. intros k Hk. split; auto. apply HW. lia.
Qed.

(** ---- the solution solves the system ---- *)
Lemma mv_mm : forall M N x a, mv (mm M N) x a = mv M (mv N x) a.
Proof.
  intros M N x a. unfold mv, mm.
  rewrite (sumn_ext _ n (fun b => sumn n (fun c => M a c * N c b) * x b) (fun b => sumn n (fun c => M a c * N c b * x b))).
  - rewrite sumn_swap. apply sumn_ext. intros c Hc. rewrite <- sumn_mull. apply sumn_ext. intros. ring.
  - intros b Hb. rewrite <- sumn_mulr. auto.
Qed.
Lemma mv_add : forall M x y a, mv M (fun c => x c + y c) a = mv M x a + mv M y a.
Proof. intros. unfold mv. rewrite <- sumn_add. apply sumn_ext. intros. ring. Qed.
Lemma mv_sub : forall M x y a, mv M (fun c => x c - y c) a = mv M x a - mv M y a.
Proof.
  intros. unfold mv. rewrite (sumn_ext _ n _ (fun b => M a b * x b + (- (1)) * (M a b * y b))) by (intros; ring).
  rewrite sumn_add, sumn_mull. ring.
Qed.
Lemma mv_msub : forall M N x a, mv (fun c d => M c d - N c d) x a = mv M x a - mv N x a.
Proof.
  intros. unfold mv. rewrite (sumn_ext _ n _ (fun b => M a b * x b + (- (1)) * (N a b * x b))) by (intros; ring).
  rewrite sumn_add, sumn_mull. ring.
Qed.
Lemma mv_mext : forall M M' x a, (forall b, b < n -> M a b = M' a b) -> mv M x a = mv M' x a.
Proof. intros. apply sumn_ext. intros b Hb. rewrite H by auto. auto. Qed.
Lemma mv_inverse : forall P Q x a, inverse_of (F := F) n P Q -> a < n -> mv P (mv Q x) a = x a.
Proof.
  intros P Q x a (H & _) Ha. rewrite <- mv_mm. unfold mv.
  rewrite (sumn_ext _ n _ (fun b => if b =? a then x b else 0)).
  - apply (sumn_pick K n a x Ha).
  - intros b Hb. unfold mm. rewrite H by auto. unfold delta. rewrite Nat.eqb_sym. destruct (b =? a); ring.
Qed.

Lemma band_row : forall A v tr bb y x k, k < nblk ->
  (forall k, k < nblk -> row_ok A v tr k) -> (forall k, k < nblk -> det_ok (F := F) n (fst (nth k tr ([], false))) 0 (snd (nth k tr ([], false)))) ->
  (forall k, k < nblk -> fwd v bb y k /\ bwd v y x k) ->
  let i := Z.of_nat k in
  forall a, a < n ->
   mv (B A i (i - 2)) (X x (i - 2)) a + mv (B A i (i - 1)) (X x (i - 1)) a + mv (B A i i) (X x i) a
   + mv (B A i (i + 1)) (X x (i + 1)) a + mv (B A i (i + 2)) (X x (i + 2)) a = X bb i a.
Proof.
  intros A v tr bb y x k Hk HR HD HS i a Ha.
  destruct (HR k Hk) as (R1 & R2 & R3 & R4 & R5 & R6). specialize (R4 (HD k Hk)). fold i in R1, R2, R3, R4, R5, R6.
  set (P := fun a b => nth (a * n + b) (fst (nth k tr ([], false))) 0) in *.
  destruct (HS k Hk) as (Hf & Hb). unfold fwd, bwd in Hf, Hb. fold i in Hf, Hb.
  (* y in terms of x, also outside the range *)
  assert (Y : forall j, (j <= i)%Z -> forall c, c < n -> X y j c = X x j c + mv (B v j (j + 1)) (X x (j + 1)) c + mv (B v j (j + 2)) (X x (j + 2)) c).
  { intros j Hj c Hc. destruct (Z.ltb_spec j 0).
    - rewrite !X_out by (unfold inr; lia). unfold mv. rewrite !sumn_zero; [ring| |];
        intros b Hb'; rewrite B_none; try ring; destruct (ptr _ _) eqn:E; auto; apply Pin in E; unfold inr in E; lia.
    - destruct (HS (Z.to_nat j) ltac:(unfold i in *; lia)) as (_ & Hb'). specialize (Hb' c Hc). rewrite !Z2Nat.id in Hb' by lia.
      rewrite Hb'. ring. }
  (* P y_i = b - L y - L y *)
  assert (E1 : mv P (X y i) a = X bb i a - mv (B v i (i - 2)) (X y (i - 2)) a - mv (B v i (i - 1)) (X y (i - 1)) a).
  { rewrite (mv_ext P (X y i) (mv (B v i i) (fun c => X bb i c - mv (B v i (i - 2)) (X y (i - 2)) c - mv (B v i (i - 1)) (X y (i - 1)) c)) a) by (intros; apply Hf; auto).
    rewrite (mv_inverse P (B v i i) _ a R4 Ha). reflexivity. }
  assert (YI : forall j (M : nat -> nat -> K), (j <= i)%Z -> mv M (X y j) a = mv M (X x j) a + mv (mm M (B v j (j + 1))) (X x (j + 1)) a + mv (mm M (B v j (j + 2))) (X x (j + 2)) a).
  { intros j M Hj. rewrite !mv_mm, <- !mv_add. apply mv_ext. intros. apply Y; auto. }
  rewrite !YI in E1 by lia.
  replace (i - 2 + 1)%Z with (i - 1)%Z in E1 by lia. replace (i - 2 + 2)%Z with i in E1 by lia.
  replace (i - 1 + 1)%Z with i in E1 by lia. replace (i - 1 + 2)%Z with (i + 1)%Z in E1 by lia.
  (* P U = A - ... *)
  assert (PU1 : mv (mm P (B v i (i + 1))) (X x (i + 1)) a = mv (B A i (i + 1)) (X x (i + 1)) a - mv (mm (B v i (i - 1)) (B v (i - 1) (i + 1))) (X x (i + 1)) a).
  { rewrite mv_mm. rewrite (mv_ext P _ (mv (B v i i) (mv (fun c d => B A i (i + 1) c d - mm (B v i (i - 1)) (B v (i - 1) (i + 1)) c d) (X x (i + 1))))).
    - rewrite (mv_inverse P (B v i i) _ a R4 Ha). apply mv_msub.
    - intros c Hc. rewrite <- mv_mm. apply mv_mext. intros d Hd. apply R5; auto. }
  assert (PU2 : mv (mm P (B v i (i + 2))) (X x (i + 2)) a = mv (B A i (i + 2)) (X x (i + 2)) a).
  { rewrite mv_mm. rewrite (mv_ext P _ (mv (B v i i) (mv (B A i (i + 2)) (X x (i + 2))))).
    - apply (mv_inverse P (B v i i) _ a R4 Ha).
    - intros c Hc. rewrite <- mv_mm. apply mv_mext. intros d Hd. apply R6; auto. }
  assert (PD : mv P (X x i) a = mv (B A i i) (X x i) a - mv (mm (B v i (i - 2)) (B v (i - 2) i)) (X x i) a - mv (mm (B v i (i - 1)) (B v (i - 1) i)) (X x i) a).
  { rewrite <- !mv_msub. apply mv_mext. intros. apply R3; auto. }
  assert (L1 : mv (B v i (i - 1)) (X x (i - 1)) a = mv (B A i (i - 1)) (X x (i - 1)) a - mv (mm (B v i (i - 2)) (B v (i - 2) (i - 1))) (X x (i - 1)) a).
  { rewrite <- mv_msub. apply mv_mext. intros b Hb'. rewrite R2 by auto. f_equal. apply mm_ext; auto. intros. symmetry. auto. }
  assert (L2 : mv (B v i (i - 2)) (X x (i - 2)) a = mv (B A i (i - 2)) (X x (i - 2)) a) by (apply mv_mext; auto).
  rewrite PU1, PU2, PD, L1, L2 in E1.
  match type of E1 with ?l = X bb i a - ?m1 - ?m2 => assert (E2 : l + m1 + m2 = X bb i a) by (rewrite E1; ring) end.
  rewrite <- E2. ring.
Qed.

Lemma band_sum : forall (f : nat -> K) (k : nat) (g : Z -> K), k < nblk ->
  (forall j, j < nblk -> f j = g (Z.of_nat j)) -> (forall z, ~ inr z -> g z = 0) ->
  (forall j, j < nblk -> ~ (-2 <= Z.of_nat k - Z.of_nat j <= 2)%Z -> f j = 0) ->
  sumn nblk f = g (Z.of_nat k - 2)%Z + g (Z.of_nat k - 1)%Z + g (Z.of_nat k) + g (Z.of_nat k + 1)%Z + g (Z.of_nat k + 2)%Z.
Proof.
  intros f k g Hk Hfg Ho Hz.
  assert (PK : forall z, sumn nblk (fun j => if (Z.of_nat j =? z)%Z then f j else 0) = g z).
  { intros z. destruct (Z.ltb_spec z 0); [|destruct (Z.ltb_spec z (Z.of_nat nblk))].
    - rewrite Ho by (unfold inr; lia). apply sumn_zero. intros j Hj. destruct (Z.eqb_spec (Z.of_nat j) z); auto. lia.
    - assert (Eg : g z = f (Z.to_nat z)) by (rewrite Hfg by lia; f_equal; lia). rewrite Eg.
      rewrite <- (sumn_pick K nblk (Z.to_nat z) f) by lia. apply sumn_ext. intros j Hj.
      replace (Z.of_nat j =? z)%Z with (j =? Z.to_nat z) by (destruct (Nat.eqb_spec j (Z.to_nat z)), (Z.eqb_spec (Z.of_nat j) z); auto; lia). auto.
    - rewrite Ho by (unfold inr; lia). apply sumn_zero. intros j Hj. destruct (Z.eqb_spec (Z.of_nat j) z); auto. lia. }
  rewrite <- !PK, <- !sumn_add. apply sumn_ext. intros j Hj.
  destruct (Z.eqb_spec (Z.of_nat j) (Z.of_nat k - 2)), (Z.eqb_spec (Z.of_nat j) (Z.of_nat k - 1)), (Z.eqb_spec (Z.of_nat j) (Z.of_nat k)),
    (Z.eqb_spec (Z.of_nat j) (Z.of_nat k + 1)), (Z.eqb_spec (Z.of_nat j) (Z.of_nat k + 2)); try lia; try ring.
  rewrite Hz by lia. ring.
Qed.

(** Decompose followed by Solve solves the banded system. *)
Lemma band_solves : forall A, length A = size -> exists v tr, gDecompose A = Some (v, tr) /\ length v = size /\ length tr = nblk /\
  ((forall P ok, In (P, ok) tr -> det_ok (F := F) n P 0 ok) ->
   forall bb, length bb = (nblk * n)%nat -> exists x, gSolve v bb = Some x /\ length x = (nblk * n)%nat /\
     forall i a, i < nblk -> a < n ->
       sumn nblk (fun j => sumn n (fun b => B A (Z.of_nat i) (Z.of_nat j) a b * nth (j * n + b)%nat x 0)) = nth (i * n + a)%nat bb 0).
Proof.
  intros A HA. destruct (wp_ex _ _ _ (Decompose_ok A HA)) as ((v & tr) & E & HL & HT & HR). cbn [fst snd] in *.
  exists v, tr. split; auto. split; auto. split; auto. intros HD bb HB.
  destruct (wp_ex _ _ _ (Solve_ok v bb HL HB)) as (x & Ex & HX & y & HY & HS). exists x. split; auto. split; auto.
  assert (HD' : forall k, k < nblk -> det_ok (F := F) n (fst (nth k tr ([], false))) 0 (snd (nth k tr ([], false)))).
  { intros k Hk. apply HD. rewrite <- surjective_pairing. apply nth_In. lia. }
  intros i a Hi Ha. rewrite <- X_in by auto.
  rewrite <- (band_row A v tr bb y x i Hi HR HD' HS a Ha).
  apply (band_sum _ i (fun z => mv (B A (Z.of_nat i) z) (X x z) a) Hi).
  - intros j Hj. unfold mv. apply sumn_ext. intros b Hb. rewrite X_in by auto. auto.
  - intros z Hz. unfold mv. apply sumn_zero. intros b Hb. rewrite X_out by auto. ring.
  - intros j Hj Hn. apply sumn_zero. intros b Hb. rewrite B_none; [ring|].
    destruct (ptr (Z.of_nat i) (Z.of_nat j)) eqn:E'; auto. apply Pin in E'. tauto.
Qed.
End P.
