(** Proofs for IluProps.v: forward and backward substitution. *)
From Coq Require Import List Arith Bool Lia Ring.
Import ListNotations.
From Verif Require Import Imp Alg SpModel SpSpec IluModel IluSpec.
Open Scope nat_scope.

Lemma wp_of : forall A (e : option A) x (Q : A -> Prop), e = Some x -> Q x -> wp e Q.
Proof. intros. subst. apply wp_some. auto. Qed.

Section S.
Variable K : cring.
Add Ring Kr1 : (rlaws K).
Variables (P : ilu K) (d : nat).
Hypothesis HPt : pattern_ok P.

Lemma ci_get : forall I, I <= nblk P -> vget (colInd P) I = Some (cI P I).
Proof. intros I H. destruct HPt as (H1 & _). apply vget_nth. lia. Qed.
Lemma di_get : forall I, I < nblk P -> vget (diaInd P) I = Some (dI P I).
Proof. intros I H. destruct HPt as (_ & H2 & _). apply vget_nth. lia. Qed.
Lemma ci_le : forall I J, I <= J -> J <= nblk P -> cI P I <= cI P J.
Proof. intros I J H. destruct HPt as (_ & _ & _ & _ & H5 & _). induction H; intros; [lia|]. specialize (H5 m). lia. Qed.
Lemma ci_bound : forall I c, I < nblk P -> c < cI P (S I) -> c < length (rowPtr P).
Proof. intros I c HI Hc. pose proof (ci_le (S I) (nblk P)). destruct HPt as (_ & _ & _ & H4 & _). lia. Qed.
Lemma cp_get : forall c, c < length (rowPtr P) -> vget (rowPtr P) c = Some (cp P c).
Proof. intros. apply vget_nth. auto. Qed.

Variables (BC BD : nat -> nat -> nat -> K).
Variable load : list K -> nat -> option (list K).
Variable sub : nat -> nat -> list K -> list K -> option (list K).
Variable store : nat -> list K -> list K -> option (list K).
Variable ST : nat -> list K -> nat -> K.
Hypothesis Hload : forall vec i, i < nblk P -> length vec = nblk P * d -> load vec i = Some (map (fun p => nth (i * d + p) vec rO) (seq 0 d)).
Hypothesis Hsub : forall c j vec t, c < length (rowPtr P) -> j < nblk P -> length vec = nblk P * d -> length t = d ->
  sub c j vec t = Some (map (fun p => rsub (nth p t rO) (sumn d (fun q => rmul (BC c p q) (nth (j * d + q) vec rO)))) (seq 0 d)).
Hypothesis Hstore : forall i t vec, i < nblk P -> length vec = nblk P * d -> length t = d ->
  wp (store i t vec) (fun v => length v = nblk P * d /\ (forall p, p < d -> nth (i * d + p) v rO = ST i t p) /\
     forall k, ~ (i * d <= k < i * d + d) -> nth k v rO = nth k vec rO).

Definition rowsub (lo hi : nat) (vec : list K) (p : nat) : K :=
  bigsum (seq lo (hi - lo)) (fun c => sumn d (fun r => rmul (BC c p r) (nth (cp P c * d + r) vec rO))).
Lemma rowsub_S : forall lo hi vec p, lo <= hi -> rowsub lo (S hi) vec p = radd (rowsub lo hi vec p) (sumn d (fun r => rmul (BC hi p r) (nth (cp P hi * d + r) vec rO))).
Proof.
  intros. unfold rowsub. replace (S hi - lo) with (S (hi - lo)) by lia. rewrite seq_S, bigsum_app, bigsum_cons, bigsum_nil.
  replace (lo + (hi - lo)) with hi by lia. ring.
Qed.
Lemma rowsub_0 : forall lo vec p, rowsub lo lo vec p = rO.
Proof. intros. unfold rowsub. rewrite Nat.sub_diag. reflexivity. Qed.
Lemma inner_ok : forall (test : nat -> bool) lo hi vec t, lo <= hi -> hi <= length (rowPtr P) -> length vec = nblk P * d -> length t = d ->
  (forall c, lo <= c < hi -> test (cp P c) = true /\ cp P c < nblk P) ->
  forn lo hi (fun ijcrs tmp =>
      assertb (ijcrs <? length (rowPtr P)) ;;;
      jblk0 <- vget (rowPtr P) ijcrs ;;
      assertb (test jblk0) ;;;
      sub ijcrs jblk0 vec tmp) t = Some (map (fun p => rsub (nth p t rO) (rowsub lo hi vec p)) (seq 0 d)).
Proof.
  intros test lo hi vec t Hle Hhi Hv Ht Hc.
  match goal with |- ?e = Some ?r => assert (W : wp e (fun x => x = r)) end.
  2:{ apply wp_ex in W. destruct W as (x & -> & ->). auto. }
  apply (wp_forn _ (fun k s => s = map (fun p => rsub (nth p t rO) (rowsub lo k vec p)) (seq 0 d))); [auto| | |auto].
  - apply (list_ext _ rO); [rewrite map_length, seq_length; auto|]. intros i Hi. rewrite nth_map_seq by lia. rewrite rowsub_0. cbn [Nat.add]. ring.
  - intros c s Hk ->. rewrite (proj2 (Nat.ltb_lt _ _)) by lia. cbn [assertb bind]. rewrite cp_get by lia. cbn [bind].
    destruct (Hc c Hk) as (E & Hn). rewrite E. cbn [assertb bind].
    eapply wp_of; [apply Hsub; auto; [lia|lens; auto]|].
    apply map_ext_in. intros p Hp. apply in_seq in Hp. rewrite nth_map_seq by lia. rewrite rowsub_S by lia. cbn [Nat.add]. ring.
Qed.

(** other rows do not matter *)
Lemma rowsub_ext : forall lo hi v v' p, (forall c r, lo <= c < hi -> r < d -> nth (cp P c * d + r) v rO = nth (cp P c * d + r) v' rO) -> rowsub lo hi v p = rowsub lo hi v' p.
Proof.
  intros. unfold rowsub. apply bigsum_ext. intros c Hc. apply in_seq in Hc. apply sumn_ext. intros r Hr. rewrite H by lia. auto.
Qed.
Hypothesis HST : forall i t t' p, p < d -> (forall q, q < d -> nth q t rO = nth q t' rO) -> ST i t p = ST i t' p.

Definition fwd_row (b y : list K) (I p : nat) : K := ST I (map (fun q => rsub (nth (I * d + q) b rO) (rowsub (cI P I) (dI P I) y q)) (seq 0 d)) p.
Lemma forward_ok : forall b, length b = nblk P * d ->
  wp (forward K load sub store P b) (fun y => length y = nblk P * d /\ forall I p, I < nblk P -> p < d -> nth (I * d + p) y rO = fwd_row b y I p).
Proof.
  intros b Hb. unfold forward. pose proof HPt as (L1 & L2 & L3 & L4 & H5 & H6 & H7 & H8).
  apply (wp_forn _ (fun i y => length y = nblk P * d /\ (forall I p, I < i -> p < d -> nth (I * d + p) y rO = fwd_row b y I p) /\
    (forall k, i * d <= k -> nth k y rO = nth k b rO))); [lia| | |].
  - split; auto. split; auto. intros; lia.
  - intros i y Hi (Hy & Hdone & Hrest). rewrite Hload by (auto; lia). cbn [bind]. rewrite ci_get by lia. cbn [bind]. rewrite di_get by lia. cbn [bind].
    specialize (H5 i (proj2 Hi)). assert (Hbd : cI P (S i) <= length (rowPtr P)) by (rewrite <- L4; apply ci_le; lia).
    rewrite (inner_ok (fun j => j <? i)); [|lia|lia|auto|lens; auto|].
    2:{ intros c Hc. specialize (H6 i c (proj2 Hi) Hc). split; [apply Nat.ltb_lt; auto|lia]. }
    cbn [bind]. eapply wp_mono; [apply Hstore; [lia|auto|lens; auto]|]. intros y' (Hy' & Hnew & Hold).
    assert (Hkeep : forall J p, J < i -> p < d -> nth (J * d + p) y' rO = nth (J * d + p) y rO) by (intros J p HJ Hp; apply Hold; nia).
    assert (Hrow : forall I q, I <= i -> q < d -> rowsub (cI P I) (dI P I) y' q = rowsub (cI P I) (dI P I) y q).
    { intros I q HI Hq. apply rowsub_ext. intros c r Hc Hr. apply Hkeep; auto. assert (HIn : I < nblk P) by lia. specialize (H6 I c HIn Hc). lia. }
    split; [auto|]. split.
    + intros I p HI Hp. assert (I = i \/ I < i) as [->|HI'] by lia.
      * rewrite Hnew by auto. unfold fwd_row. apply HST; [auto|]. intros q Hq. rewrite !nth_map_seq by auto. cbn [Nat.add]. rewrite Hrow by auto. rewrite Hrest by nia. auto.
      * rewrite Hkeep by auto. rewrite Hdone by auto. unfold fwd_row. apply HST; [auto|]. intros q Hq. rewrite !nth_map_seq by auto. cbn [Nat.add]. rewrite Hrow by (auto; lia). auto.
    + intros k Hk. rewrite Hold by nia. apply Hrest. nia.
  - intros y (Hy & Hdone & _). auto.
Qed.

Definition bwd_row (b y : list K) (I p : nat) : K := ST I (map (fun q => rsub (nth (I * d + q) b rO) (rowsub (dI P I) (cI P (S I)) y q)) (seq 0 d)) p.
Lemma backward_ok : forall b, length b = nblk P * d ->
  wp (backward K load sub store P b) (fun y => length y = nblk P * d /\ forall I p, I < nblk P -> p < d -> nth (I * d + p) y rO = bwd_row b y I p).
Proof.
  intros b Hb. unfold backward. pose proof HPt as (L1 & L2 & L3 & L4 & H5 & H6 & H7 & H8).
  apply (wp_ford _ (fun i y => length y = nblk P * d /\ (forall I p, i <= I -> I < nblk P -> p < d -> nth (I * d + p) y rO = bwd_row b y I p) /\
    (forall k, k < i * d -> nth k y rO = nth k b rO))); [lia| | |].
  - split; auto. split; auto. intros; lia.
  - intros i1 y Hi (Hy & Hdone & Hrest). set (i := i1 - 1). assert (Hin : i < nblk P) by lia.
    rewrite (proj2 (Nat.ltb_lt _ _) Hin). cbn [assertb bind].
    rewrite Hload by (auto; lia). cbn [bind]. rewrite di_get by lia. cbn [bind]. replace (i + 1) with (S i) by lia. rewrite ci_get by lia. cbn [bind].
    specialize (H5 i Hin). assert (Hbd : cI P (S i) <= length (rowPtr P)) by (rewrite <- L4; apply ci_le; lia).
    rewrite (inner_ok (fun j => (i <? j) && (j <? nblk P))); [|lia|lia|auto|lens; auto|].
    2:{ intros c Hc. specialize (H7 i c Hin Hc). split; [apply andb_true_iff; split; apply Nat.ltb_lt; lia|lia]. }
    cbn [bind]. eapply wp_mono; [apply Hstore; [lia|auto|lens; auto]|]. intros y' (Hy' & Hnew & Hold).
    assert (Hkeep : forall J p, i < J -> p < d -> nth (J * d + p) y' rO = nth (J * d + p) y rO) by (intros J p HJ Hp; apply Hold; nia).
    assert (Hrow : forall I q, i <= I -> I < nblk P -> q < d -> rowsub (dI P I) (cI P (S I)) y' q = rowsub (dI P I) (cI P (S I)) y q).
    { intros I q HI HI2 Hq. apply rowsub_ext. intros c r Hc Hr. apply Hkeep; auto. specialize (H7 I c HI2 Hc). lia. }
    split; [auto|]. split.
    + intros I p HI HI2 Hp. assert (I = i \/ i < I) as [->|HI'] by lia.
      * rewrite Hnew by auto. unfold bwd_row. apply HST; [auto|]. intros q Hq. rewrite !nth_map_seq by auto. cbn [Nat.add]. rewrite Hrow by auto. rewrite Hrest by nia. auto.
      * rewrite Hkeep by auto. rewrite Hdone by (auto; lia). unfold bwd_row. apply HST; [auto|]. intros q Hq. rewrite !nth_map_seq by auto. cbn [Nat.add]. rewrite Hrow by (auto; lia). auto.
    + intros k Hk. rewrite Hold by nia. apply Hrest. nia.
  - intros y (Hy & Hdone & _). split; [auto|]. intros. apply Hdone; auto. lia.
Qed.
End S.
