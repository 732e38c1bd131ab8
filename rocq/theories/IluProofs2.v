(** Proofs for IluProps.v: the block operations of the substitutions. *)
From Coq Require Import List Arith Bool Lia Ring.
Import ListNotations.
From Verif Require Import Imp Alg SpModel SpSpec IluModel IluSpec IluProofs1.
Open Scope nat_scope.

Section S.
Variable K : cring.
Add Ring Kr2 : (rlaws K).
Variables (nb nr : nat).

Definition load_ok (d : nat) (load : list K -> nat -> option (list K)) : Prop :=
  forall vec i, i < nb -> length vec = nb * d -> load vec i = Some (map (fun p => nth (i * d + p) vec rO) (seq 0 d)).
Definition sub_ok (d : nat) (BC : nat -> nat -> nat -> K) (sub : nat -> nat -> list K -> list K -> option (list K)) : Prop :=
  forall c j vec t, c < nr -> j < nb -> length vec = nb * d -> length t = d ->
  sub c j vec t = Some (map (fun p => rsub (nth p t rO) (sumn d (fun q => rmul (BC c p q) (nth (j * d + q) vec rO)))) (seq 0 d)).
Definition store_ok (d : nat) (ST : nat -> list K -> nat -> K) (store : nat -> list K -> list K -> option (list K)) : Prop :=
  forall i t vec, i < nb -> length vec = nb * d -> length t = d ->
  wp (store i t vec) (fun v => length v = nb * d /\ (forall p, p < d -> nth (i * d + p) v rO = ST i t p) /\
     forall k, ~ (i * d <= k < i * d + d) -> nth k v rO = nth k vec rO).
Definition mST (d : nat) (BD : nat -> nat -> nat -> K) (i : nat) (t : list K) (p : nat) : K := sumn d (fun q => rmul (BD i p q) (nth q t rO)).
Definition cST (i : nat) (t : list K) (p : nat) : K := nth p t rO.

Ltac nrm := rewrite ?Nat.add_0_r, <- ?Nat.add_assoc; cbn [Nat.add Nat.mul].
Ltac gets := repeat (rewrite (vget_nth _ (@rO K)) by (cbn; nia); cbn [bind]).

Lemma load1_ok : load_ok 1 (load1 K).
Proof. intros vec i Hi Hv. unfold load1. gets. cbn [seq map]. do 3 f_equal. nia. Qed.
Lemma load2_ok : load_ok 2 (load2 K).
Proof. intros vec i Hi Hv. unfold load2. gets. reflexivity. Qed.
Lemma load3_ok : load_ok 3 (load3 K).
Proof. intros vec i Hi Hv. unfold load3. gets. reflexivity. Qed.
Lemma load4_ok : load_ok 4 (load4 K).
Proof. intros vec i Hi Hv. unfold load4. gets. reflexivity. Qed.
Lemma loadn_ok : forall n, load_ok n (loadn K n).
Proof.
  intros n vec i Hi Hv. unfold loadn.
  match goal with |- ?e = Some ?r => assert (W : wp e (fun x => x = r)) end.
  2:{ apply wp_ex in W. destruct W as (x & -> & ->). auto. }
  apply (wp_forn _ (fun k s => length s = n /\ forall p, p < k -> nth p s rO = nth (i * n + p) vec rO)); [lia| | |].
  - split; [apply repeat_length|]. intros; lia.
  - intros k s Hk (L & H). rewrite (vget_nth _ rO) by nia. cbn [bind]. apply wp_vset; [lia|]. split; [lens; auto|].
    intros p Hp. rewrite nth_upd by lia. destruct (Nat.eq_dec k p); [subst; auto|]. apply H. lia.
  - intros s (L & H). apply (list_ext _ rO); [lens; auto|]. intros p Hp. rewrite nth_map_seq by lia. apply H. lia.
Qed.

Lemma sub1_ok : forall v, length v = nr * (1 * 1) -> sub_ok 1 (blk 1 v) (sub1 K v).
Proof.
  intros v Hl c j vec t Hc Hj Hv Ht. unfold sub1. destruct t as [|t0 [|]]; try discriminate. gets.
  unfold minuseq, vmod. cbn [vget nth_error bind vset]. cbn [map seq]. unfold sumn, bigsum, blk. cbn [seq fold_right nth].
  do 2 f_equal. nrm. rewrite !Nat.mul_1_r. ring.
Qed.
Lemma sub2_ok : forall v, length v = nr * (2 * 2) -> sub_ok 2 (blk 2 v) (sub2 K v).
Proof.
  intros v Hl c j vec t Hc Hj Hv Ht. unfold sub2, row2. destruct t as [|t0 [|t1 [|]]]; try discriminate. gets.
  unfold minuseq, vmod. cbn [vget nth_error bind vset]. gets. cbn [vget nth_error bind vset]. cbn [map seq]. unfold sumn, bigsum, blk. cbn [seq fold_right nth].
  nrm. do 2 f_equal; [ring|]. f_equal. ring.
Qed.
Lemma sub3_ok : forall v, length v = nr * (3 * 3) -> sub_ok 3 (blk 3 v) (sub3 K v).
Proof.
  intros v Hl c j vec t Hc Hj Hv Ht. unfold sub3, row3. destruct t as [|t0 [|t1 [|t2 [|]]]]; try discriminate.
  unfold minuseq, vmod. gets. cbn [vget nth_error bind vset]. gets. cbn [vget nth_error bind vset]. gets. cbn [vget nth_error bind vset].
  cbn [map seq]. unfold sumn, bigsum, blk. cbn [seq fold_right nth].
  nrm. do 2 f_equal; [ring|]. f_equal; [ring|]. f_equal. ring.
Qed.
Lemma sub4_ok : forall v, length v = nr * (4 * 4) -> sub_ok 4 (blk 4 v) (sub4 K v).
Proof.
  intros v Hl c j vec t Hc Hj Hv Ht. unfold sub4, row4. destruct t as [|t0 [|t1 [|t2 [|t3 [|]]]]]; try discriminate.
  unfold minuseq, vmod. gets. cbn [vget nth_error bind vset]. gets. cbn [vget nth_error bind vset]. gets. cbn [vget nth_error bind vset]. gets. cbn [vget nth_error bind vset].
  cbn [map seq]. unfold sumn, bigsum, blk. cbn [seq fold_right nth].
  nrm. do 2 f_equal; [ring|]. f_equal; [ring|]. f_equal; [ring|]. f_equal. ring.
Qed.
Lemma subn_ok : forall n v, length v = nr * (n * n) -> sub_ok n (blk n v) (subn K n v).
Proof.
  intros n v Hl c j vec t Hc Hj Hv Ht. unfold subn.
  match goal with |- ?e = Some ?r => assert (W : wp e (fun x => x = r)) end.
  2:{ apply wp_ex in W. destruct W as (x & -> & ->). auto. }
  apply (wp_forn _ (fun k s => length s = n /\ forall p, p < n -> nth p s rO = if p <? k then rsub (nth p t rO) (sumn n (fun q => rmul (blk n v c p q) (nth (j * n + q) vec rO))) else nth p t rO)); [lia| | |].
  - split; auto.
  - intros k s Hk (L & H).
    apply (wp_forn _ (fun m s' => length s' = n /\ forall p, p < n -> nth p s' rO = if p =? k then rsub (nth p t rO) (sumn m (fun q => rmul (blk n v c p q) (nth (j * n + q) vec rO))) else nth p s rO)); [lia| | |].
    + split; auto. intros p Hp. destruct (Nat.eqb_spec p k); auto. subst. rewrite H by auto. destruct (Nat.ltb_spec k k); [lia|]. rewrite sumn_0. ring.
    + intros m s' Hm (L' & H'). assert (k * n + m < n * n) by nia. rewrite (vget_nth _ rO) by nia. cbn [bind]. rewrite (vget_nth _ rO) by nia. cbn [bind]. apply (wp_vmod _ rO); [lia|].
      split; [lens; auto|]. intros p Hp. rewrite nth_upd by lia. destruct (Nat.eq_dec k p) as [<-|Hn].
      * rewrite Nat.eqb_refl. rewrite H' by auto. rewrite Nat.eqb_refl. rewrite sumn_S. unfold blk. rewrite <- Nat.add_assoc. ring.
      * rewrite H' by auto. destruct (Nat.eqb_spec p k); [lia|auto].
    + intros s' (L' & H'). split; auto. intros p Hp. rewrite H' by auto. destruct (Nat.eqb_spec p k) as [->|Hn].
      * destruct (Nat.ltb_spec k (S k)); [auto|lia].
      * rewrite H by auto. destruct (Nat.ltb_spec p k), (Nat.ltb_spec p (S k)); auto; lia.
  - intros s (L & H). apply (list_ext _ rO); [lens; auto|]. intros p Hp. rewrite nth_map_seq by lia. rewrite H by lia. destruct (Nat.ltb_spec p n); [auto|lia].
Qed.
Lemma subdeg_ok : forall N v, length v = nr -> sub_ok N (fun c p q => if p =? q then nth c v rO else rO) (subdeg K N v).
Proof.
  intros n v Hl c j vec t Hc Hj Hv Ht. unfold subdeg.
  match goal with |- ?e = Some ?r => assert (W : wp e (fun x => x = r)) end.
  2:{ apply wp_ex in W. destruct W as (x & -> & ->). auto. }
  apply (wp_forn _ (fun k s => length s = n /\ forall p, p < n -> nth p s rO = if p <? k then rsub (nth p t rO) (rmul (nth c v rO) (nth (j * n + p) vec rO)) else nth p t rO)); [lia| | |].
  - split; auto.
  - intros k s Hk (L & H). rewrite (vget_nth _ rO) by lia. cbn [bind]. rewrite (vget_nth _ rO) by nia. cbn [bind]. apply (wp_vmod _ rO); [lia|].
    split; [lens; auto|]. intros p Hp. rewrite nth_upd by lia. destruct (Nat.eq_dec k p) as [<-|Hn].
    + rewrite H by auto. destruct (Nat.ltb_spec k k), (Nat.ltb_spec k (S k)); try lia. auto.
    + rewrite H by auto. destruct (Nat.ltb_spec p k), (Nat.ltb_spec p (S k)); auto; lia.
  - intros s (L & H). apply (list_ext _ rO); [lens; auto|]. intros p Hp. rewrite nth_map_seq by lia. rewrite H by lia. destruct (Nat.ltb_spec p n); [|lia]. f_equal. cbn [Nat.add].
    rewrite <- (sumn_pick K n p (fun q => rmul (nth c v rO) (nth (j * n + q) vec rO))) by lia. apply sumn_ext. intros q Hq.
    rewrite (Nat.eqb_sym p q). destruct (q =? p); ring.
Qed.

Lemma mstore1_ok : forall v, length v = nb * (1 * 1) -> store_ok 1 (mST 1 (blk 1 v)) (mstore1 K v).
Proof.
  intros v Hl i t vec Hi Hv Ht. unfold mstore1. destruct t as [|t0 [|]]; try discriminate. gets. apply wp_vset; [lia|].
  split; [lens; auto|]. split.
  - intros p Hp. replace (i * 1 + p) with i by lia. rewrite nth_upd_same by lia. unfold mST, sumn, bigsum, blk. cbn [seq fold_right nth]. replace (i * (1 * 1) + p * 1 + 0) with i by lia. ring.
  - intros k Hk. apply nth_upd_other. lia.
Qed.
Ltac stores := repeat (rewrite vset_upd by (rewrite ?upd_length; nia); cbn [bind]).
Ltac upds := repeat (rewrite nth_upd by (rewrite ?upd_length; nia); match goal with |- context [Nat.eq_dec ?a ?b] => destruct (Nat.eq_dec a b); [try lia|try lia] end).
Lemma mstore2_ok : forall v, length v = nb * (2 * 2) -> store_ok 2 (mST 2 (blk 2 v)) (mstore2 K v).
Proof.
  intros v Hl i t vec Hi Hv Ht. unfold mstore2, row2. destruct t as [|t0 [|t1 [|]]]; try discriminate. repeat (progress (gets; stores)). apply wp_some.
  split; [lens; auto|]. split.
  - intros p Hp. unfold mST, sumn, bigsum, blk. cbn [seq fold_right nth]. destruct p as [|[|]]; [| |lia]; upds; nrm; ring.
  - intros k Hk. rewrite !nth_upd_other by lia. auto.
Qed.
Lemma mstore3_ok : forall v, length v = nb * (3 * 3) -> store_ok 3 (mST 3 (blk 3 v)) (mstore3 K v).
Proof.
  intros v Hl i t vec Hi Hv Ht. unfold mstore3, row3. destruct t as [|t0 [|t1 [|t2 [|]]]]; try discriminate. repeat (progress (gets; stores)). apply wp_some.
  split; [lens; auto|]. split.
  - intros p Hp. unfold mST, sumn, bigsum, blk. cbn [seq fold_right nth]. destruct p as [|[|[|]]]; [| | |lia]; upds; nrm; ring.
  - intros k Hk. rewrite !nth_upd_other by lia. auto.
Qed.
Lemma mstore4_ok : forall v, length v = nb * (4 * 4) -> store_ok 4 (mST 4 (blk 4 v)) (mstore4 K v).
Proof.
  intros v Hl i t vec Hi Hv Ht. unfold mstore4, row4. destruct t as [|t0 [|t1 [|t2 [|t3 [|]]]]]; try discriminate. repeat (progress (gets; stores)). apply wp_some.
  split; [lens; auto|]. split.
  - intros p Hp. unfold mST, sumn, bigsum, blk. cbn [seq fold_right nth]. destruct p as [|[|[|[|]]]]; [| | | |lia]; upds; nrm; ring.
  - intros k Hk. rewrite !nth_upd_other by lia. auto.
Qed.
Lemma put_loop : forall n i (vec : list K) (f : nat -> option K) (g : nat -> K), i < nb -> length vec = nb * n -> (forall p, p < n -> f p = Some (g p)) ->
  wp (forn 0 n (fun p v => x <- f p ;; vset v (i * n + p) x) vec) (fun v => length v = nb * n /\ (forall p, p < n -> nth (i * n + p) v rO = g p) /\ forall k, ~ (i * n <= k < i * n + n) -> nth k v rO = nth k vec rO).
Proof.
  intros n i vec f g Hi Hv Hf.
  apply (wp_forn _ (fun m v => length v = nb * n /\ (forall p, p < m -> nth (i * n + p) v rO = g p) /\ forall k, ~ (i * n <= k < i * n + n) -> nth k v rO = nth k vec rO)); [lia| | |auto].
  - split; auto. split; auto. intros; lia.
  - intros m v Hm (L & H1 & H2). rewrite Hf by lia. cbn [bind]. apply wp_vset; [nia|]. split; [lens; auto|]. split.
    + intros p Hp. rewrite nth_upd by nia. destruct (Nat.eq_dec (i * n + m) (i * n + p)); [f_equal; lia|]. apply H1. lia.
    + intros k Hk. rewrite nth_upd_other by lia. auto.
Qed.
Lemma mstoren_ok : forall n v, length v = nb * (n * n) -> store_ok n (mST n (blk n v)) (mstoren K n v).
Proof.
  intros n v Hl i t vec Hi Hv Ht. unfold mstoren.
  apply (put_loop n i vec (fun idof => forn 0 n (fun jdof s => v0 <- vget v (i * (n * n) + (idof * n + jdof)) ;; x <- vget t jdof ;; Some (radd s (rmul v0 x))) rO)); auto.
  intros p Hp. match goal with |- ?e = Some ?r => assert (W : wp e (fun x => x = r)) end.
  2:{ apply wp_ex in W. destruct W as (x & -> & ->). auto. }
  apply (wp_forn _ (fun m s => s = sumn m (fun q => rmul (blk n v i p q) (nth q t rO)))); [lia|rewrite sumn_0; auto| |auto].
  intros m s Hm ->. assert (p * n + m < n * n) by nia. rewrite (vget_nth _ rO v) by nia. rewrite (vget_nth _ rO t) by lia. cbn [bind]. apply wp_some. rewrite sumn_S. unfold blk. rewrite Nat.add_assoc. auto.
Qed.
Lemma mstoredeg_ok : forall N v, length v = nb -> store_ok N (mST N (fun i p q => if p =? q then nth i v rO else rO)) (mstoredeg K N v).
Proof.
  intros n v Hl i t vec Hi Hv Ht. unfold mstoredeg.
  pose proof (put_loop n i vec (fun k => v0 <- vget v i ;; x <- vget t k ;; Some (rmul v0 x)) (mST n (fun i p q => if p =? q then nth i v rO else rO) i t) Hi Hv) as W.
  eapply wp_mono; [|intros x Hx; exact Hx].
  replace (forn 0 n (fun k v0 => v1 <- vget v i ;; x <- vget t k ;; vset v0 (i * n + k) (rmul v1 x)) vec)
    with (forn 0 n (fun p v0 => x <- (v1 <- vget v i ;; x <- vget t p ;; Some (rmul v1 x)) ;; vset v0 (i * n + p) x) vec).
  - apply W. intros p Hp. rewrite (vget_nth _ rO) by lia. cbn [bind]. rewrite (vget_nth _ rO) by lia. cbn [bind]. f_equal. unfold mST.
    rewrite <- (sumn_pick K n p (fun q => rmul (nth i v rO) (nth q t rO))) by lia. apply sumn_ext. intros q Hq. rewrite (Nat.eqb_sym p q). destruct (q =? p); ring.
  - apply forn_ext. intros k s Hk. rewrite !(vget_nth _ rO v) by lia. cbn [bind]. rewrite !(vget_nth _ rO t) by lia. cbn [bind]. auto.
Qed.
Lemma cstoren_ok : forall n, store_ok n cST (cstoren K n).
Proof.
  intros n i t vec Hi Hv Ht. unfold cstoren. apply (put_loop n i vec (fun p => vget t p)); auto. intros p Hp. apply vget_nth. lia.
Qed.
Lemma cstore1_ok : store_ok 1 cST (cstore1 K).
Proof.
  intros i t vec Hi Hv Ht. unfold cstore1. destruct t as [|t0 [|]]; try discriminate. gets. apply wp_vset; [lia|].
  split; [lens; auto|]. split.
  - intros p Hp. replace (i * 1 + p) with i by lia. rewrite nth_upd_same by lia. destruct p; [auto|lia].
  - intros k Hk. apply nth_upd_other. lia.
Qed.
Lemma cstore2_ok : store_ok 2 cST (cstore2 K).
Proof.
  intros i t vec Hi Hv Ht. unfold cstore2. destruct t as [|t0 [|t1 [|]]]; try discriminate. repeat (progress (gets; stores)). apply wp_some.
  split; [lens; auto|]. split.
  - intros p Hp. unfold cST. destruct p as [|[|]]; [| |lia]; upds; auto.
  - intros k Hk. rewrite !nth_upd_other by lia. auto.
Qed.
Lemma cstore3_ok : store_ok 3 cST (cstore3 K).
Proof.
  intros i t vec Hi Hv Ht. unfold cstore3. destruct t as [|t0 [|t1 [|t2 [|]]]]; try discriminate. repeat (progress (gets; stores)). apply wp_some.
  split; [lens; auto|]. split.
  - intros p Hp. unfold cST. destruct p as [|[|[|]]]; [| | |lia]; upds; auto.
  - intros k Hk. rewrite !nth_upd_other by lia. auto.
Qed.
Lemma cstore4_ok : store_ok 4 cST (cstore4 K).
Proof.
  intros i t vec Hi Hv Ht. unfold cstore4. destruct t as [|t0 [|t1 [|t2 [|t3 [|]]]]]; try discriminate. repeat (progress (gets; stores)). apply wp_some.
  split; [lens; auto|]. split.
  - intros p Hp. unfold cST. destruct p as [|[|[|[|]]]]; [| | | |lia]; upds; auto.
  - intros k Hk. rewrite !nth_upd_other by lia. auto.
Qed.
Lemma mST_ext : forall d BD i t t' p, p < d -> (forall q, q < d -> nth q t rO = nth q t' rO) -> mST d BD i t p = mST d BD i t' p.
Proof. intros. unfold mST. apply sumn_ext. intros q Hq. rewrite H0 by auto. auto. Qed.
Lemma cST_ext : forall d i t t' p, p < d -> (forall q, q < d -> nth q t rO = nth q t' rO) -> cST i t p = cST i t' p.
Proof. intros. unfold cST. auto. Qed.
End S.

Section T.
Variable K : cring.
Variables (P : ilu K).
Hypothesis HPt : pattern_ok P.
Lemma forward_gen : forall d BC BD load sub store, load_ok K (nblk P) d load -> sub_ok K (nblk P) (length (rowPtr P)) d BC sub -> store_ok K (nblk P) d (mST K d BD) store ->
  forall b, length b = nblk P * d ->
  wp (forward K load sub store P b) (fun y => length y = nblk P * d /\ forall I p, I < nblk P -> p < d ->
    nth (I * d + p) y rO = sumn d (fun q => rmul (BD I p q) (rsub (nth (I * d + q) b rO) (rowsub K P d BC (cI P I) (dI P I) y q)))).
Proof.
  intros d BC BD load sub store H1 H2 H3 b Hb.
  eapply wp_mono; [eapply (forward_ok K P d HPt BC load sub store (mST K d BD)); auto; apply mST_ext|].
  intros y (Hy & H). split; [auto|]. intros I p HI Hp. rewrite H by auto. unfold fwd_row, mST. apply sumn_ext. intros q Hq. rewrite nth_map_seq by auto. auto.
Qed.
Lemma backward_gen : forall d BC load sub store, load_ok K (nblk P) d load -> sub_ok K (nblk P) (length (rowPtr P)) d BC sub -> store_ok K (nblk P) d (cST K) store ->
  forall b, length b = nblk P * d ->
  wp (backward K load sub store P b) (fun y => length y = nblk P * d /\ forall I p, I < nblk P -> p < d ->
    nth (I * d + p) y rO = rsub (nth (I * d + p) b rO) (rowsub K P d BC (dI P I) (cI P (S I)) y p)).
Proof.
  intros d BC load sub store H1 H2 H3 b Hb.
  eapply wp_mono; [eapply (backward_ok K P d HPt BC load sub store (cST K)); auto; apply cST_ext|].
  intros y (Hy & H). split; [auto|]. intros I p HI Hp. rewrite H by auto. unfold bwd_row, cST. rewrite nth_map_seq by auto. auto.
Qed.
Hypothesis HV : values_ok P.
Lemma ForwardSubstitution_ok : forall b, length b = nblk P * ndim P ->
  wp (ForwardSubstitution K P b) (fun y => length y = nblk P * ndim P /\ forall I p, I < nblk P -> p < ndim P ->
    nth (I * ndim P + p) y rO = sumn (ndim P) (fun q => rmul (blk (ndim P) (valDia P) I p q) (rsub (nth (I * ndim P + q) b rO) (rowsub K P (ndim P) (blk (ndim P) (valCrs P)) (cI P I) (dI P I) y q)))).
Proof.
  intros b Hb. destruct HV as (V1 & V2). unfold ForwardSubstitution.
  destruct (ndim P) as [|[|[|[|[|n]]]]]; apply forward_gen; auto using loadn_ok, load1_ok, load2_ok, load3_ok, load4_ok, subn_ok, sub1_ok, sub2_ok, sub3_ok, sub4_ok, mstoren_ok, mstore1_ok, mstore2_ok, mstore3_ok, mstore4_ok.
Qed.
Lemma BackwardSubstitution_ok : forall b, length b = nblk P * ndim P ->
  wp (BackwardSubstitution K P b) (fun y => length y = nblk P * ndim P /\ forall I p, I < nblk P -> p < ndim P ->
    nth (I * ndim P + p) y rO = rsub (nth (I * ndim P + p) b rO) (rowsub K P (ndim P) (blk (ndim P) (valCrs P)) (dI P I) (cI P (S I)) y p)).
Proof.
  intros b Hb. destruct HV as (V1 & V2). unfold BackwardSubstitution.
  destruct (ndim P) as [|[|[|[|[|n]]]]]; apply backward_gen; auto using loadn_ok, load1_ok, load2_ok, load3_ok, load4_ok, subn_ok, sub1_ok, sub2_ok, sub3_ok, sub4_ok, cstoren_ok, cstore1_ok, cstore2_ok, cstore3_ok, cstore4_ok.
Qed.
End T.
