(** Proofs for IluProps.v: CalcInvMat, Gauss-Jordan elimination without exchange of rows. *)
From Coq Require Import List Arith Bool Lia ZArith Ring.
Import ListNotations.
From Verif Require Import Imp Alg SpModel SpSpec IluModel IluSpec IluProofs1 IluProofs3.
Open Scope nat_scope.

Section S.
Variable F : pfield.
Local Notation K := (pK F).
Add Ring Kr4 : (rlaws K).

Lemma sum_split : forall n i (f : nat -> K), i < n -> sumn n f = radd (f i) (sumn n (fun k => if k =? i then rO else f k)).
Proof.
  intros n i f Hi. rewrite <- (sumn_pick K n i f Hi), <- sumn_add. apply sumn_ext. intros k Hk. destruct (k =? i); ring.
Qed.

(** One elimination step on matrices as functions. *)
Definition gj (i : nat) (t : K) (a a' : nat -> nat -> K) (n : nat) : Prop :=
  (forall k, k < n -> a' i k = rmul (if k =? i then rI else a i k) t) /\
  (forall r k, r < n -> k < n -> r <> i -> a' r k = rsub (if k =? i then rO else a r k) (rmul (a r i) (a' i k))).
Definition zz (i : nat) (x y : nat -> K) (k : nat) : K := if k <? i then ropp (y k) else x k.
Definition ww (i : nat) (x y : nat -> K) (r : nat) : K := if r <? i then ropp (x r) else y r.
Definition sys (n i : nat) (a : nat -> nat -> K) (x y : nat -> K) : Prop := forall r, r < n -> sumn n (fun k => rmul (a r k) (zz i x y k)) = ww i x y r.
Lemma gj_back : forall n i t p a a' x y, i < n -> rmul p t = rI -> a i i = p -> gj i t a a' n -> sys n (S i) a' x y -> sys n i a x y.
Proof.
  intros n i t p a a' x y Hi Ht Hp (G1 & G2) HS.
  assert (Zi : zz i x y i = x i) by (unfold zz; destruct (Nat.ltb_spec i i); [lia|auto]).
  assert (Wi : ww i x y i = y i) by (unfold ww; destruct (Nat.ltb_spec i i); [lia|auto]).
  assert (Zi' : zz (S i) x y i = ropp (y i)) by (unfold zz; destruct (Nat.ltb_spec i (S i)); [auto|lia]).
  assert (Wi' : ww (S i) x y i = ropp (x i)) by (unfold ww; destruct (Nat.ltb_spec i (S i)); [auto|lia]).
  assert (Zk : forall k, k <> i -> zz (S i) x y k = zz i x y k) by (intros k Hk; unfold zz; destruct (Nat.ltb_spec k i), (Nat.ltb_spec k (S i)); auto; lia).
  assert (Wk : forall k, k <> i -> ww (S i) x y k = ww i x y k) by (intros k Hk; unfold ww; destruct (Nat.ltb_spec k i), (Nat.ltb_spec k (S i)); auto; lia).
  pose proof (HS i Hi) as Hpiv. rewrite Wi' in Hpiv.
  assert (E1 : sumn n (fun k => rmul (a' i k) (zz (S i) x y k)) = rmul t (rsub (sumn n (fun k => if k =? i then rO else rmul (a i k) (zz i x y k))) (y i))).
  { rewrite (sum_split n i) by auto. rewrite G1 by auto. rewrite Nat.eqb_refl, Zi'.
    transitivity (radd (rmul (rmul rI t) (ropp (y i))) (rmul t (sumn n (fun k => if k =? i then rO else rmul (a i k) (zz i x y k))))); [|ring].
    f_equal. rewrite <- sumn_mull. apply sumn_ext. intros k Hk. destruct (Nat.eqb_spec k i) as [|Hn]; [ring|]. rewrite G1 by auto. rewrite (proj2 (Nat.eqb_neq k i) Hn). rewrite Zk by auto. ring. }
  intros r Hr. destruct (Nat.eq_dec r i) as [->|Hn].
  - rewrite Wi. rewrite (sum_split n i) by auto. rewrite Zi, Hp.
    set (N := sumn n (fun k => if k =? i then rO else rmul (a i k) (zz i x y k))) in *. rewrite E1 in Hpiv.
    transitivity (radd (rmul p (x i)) (rmul rI N)); [ring|]. rewrite <- Ht.
    transitivity (radd (ropp (rmul p (rmul t (rsub N (y i))))) (rmul (rmul p t) N)); [rewrite Hpiv; ring|].
    transitivity (rmul (rmul p t) (y i)); [ring|]. rewrite Ht. ring.
  - rewrite <- Wk by auto. rewrite <- (HS r Hr). symmetry.
    transitivity (rsub (sumn n (fun k => if k =? i then rO else rmul (a r k) (zz i x y k))) (rmul (a r i) (sumn n (fun k => rmul (a' i k) (zz (S i) x y k))))).
    + transitivity (radd (sumn n (fun k => if k =? i then rO else rmul (a r k) (zz i x y k))) (sumn n (fun k => rmul (ropp (a r i)) (rmul (a' i k) (zz (S i) x y k))))).
      * rewrite <- sumn_add. apply sumn_ext. intros k Hk. rewrite G2 by auto. destruct (Nat.eqb_spec k i) as [->|Hk']; [ring|]. rewrite Zk by auto. ring.
      * rewrite sumn_mull. ring.
    + rewrite Hpiv. rewrite (sum_split n i (fun k => rmul (a r k) (zz i x y k))) by auto. rewrite Zi. ring.
Qed.

(** The program. *)
Definition cell (a : list K) (o n r k : nat) : K := nth (o + (r * n + k)) a rO.
Lemma cix : forall o n r k r' k', k < n -> k' < n -> o + (r * n + k) = o + (r' * n + k') -> r = r' /\ k = k'.
Proof. intros. apply (ab_inj n); auto. lia. Qed.
Lemma cbd : forall o n r k, r < n -> k < n -> o + (r * n + k) < o + n * n.
Proof. intros. assert (r * n + k < n * n) by nia. lia. Qed.
Lemma cell_upd : forall a o n r k r' k' x, o + n * n <= length a -> r < n -> k < n -> r' < n -> k' < n ->
  cell (upd a (o + (r * n + k)) x) o n r' k' = if (r' =? r) && (k' =? k) then x else cell a o n r' k'.
Proof.
  intros a o n r k r' k' x L Hr Hk Hr' Hk'. unfold cell. pose proof (cbd o n r k Hr Hk). rewrite nth_upd by lia.
  destruct (Nat.eq_dec (o + (r * n + k)) (o + (r' * n + k'))) as [E|E].
  - apply cix in E; auto. destruct E as (-> & ->). rewrite !Nat.eqb_refl. auto.
  - destruct (Nat.eqb_spec r' r), (Nat.eqb_spec k' k); cbn [andb]; auto. subst. lia.
Qed.
Definition frame (o n : nat) (a a' : list K) : Prop := length a' = length a /\ forall k, ~ (o <= k < o + n * n) -> nth k a' rO = nth k a rO.
Lemma frame_upd : forall o n a a' r k x, frame o n a a' -> r < n -> k < n -> frame o n a (upd a' (o + (r * n + k)) x).
Proof. intros o n a a' r k x (L & H) Hr Hk. pose proof (cbd o n r k Hr Hk). split; [lens; auto|]. intros q Hq. rewrite nth_upd_other by lia. auto. Qed.
Lemma frame_trans : forall o n a b c, frame o n a b -> frame o n b c -> frame o n a c.
Proof. intros o n a b c (L1 & H1) (L2 & H2). split; [lia|]. intros. rewrite H2, H1 by auto. auto. Qed.
Lemma frame_refl : forall o n a, frame o n a a. Proof. split; auto. Qed.

Lemma scale_row : forall a o n i t, o + n * n <= length a -> i < n ->
  wp (forn 0 n (fun k a => vmod a (o + (i * n + k)) (fun x => rmul x t)) a) (fun a' => frame o n a a' /\ forall r k, r < n -> k < n -> cell a' o n r k = if r =? i then rmul (cell a o n r k) t else cell a o n r k).
Proof.
  intros a o n i t L Hi.
  apply (wp_forn _ (fun m a' => frame o n a a' /\ forall r k, r < n -> k < n -> cell a' o n r k = if (r =? i) && (k <? m) then rmul (cell a o n r k) t else cell a o n r k)); [lia| | |].
  - split; [apply frame_refl|]. intros. rewrite (proj2 (Nat.ltb_ge k 0)) by lia. rewrite andb_false_r. auto.
  - intros m a' Hm (Fr & H). pose proof (cbd o n i m Hi (proj2 Hm)). destruct Fr as (La & Fr).
    apply (wp_vmod _ rO); [lia|]. split; [apply frame_upd; auto; [split; auto|lia]|]. intros r k Hr Hk. rewrite cell_upd by lia. fold (cell a' o n i m). rewrite !H by lia.
    destruct (Nat.eqb_spec r i) as [->|]; cbn [andb]; auto. rewrite Nat.eqb_refl. cbn [andb]. destruct (Nat.eqb_spec k m) as [->|].
    + destruct (Nat.ltb_spec m m), (Nat.ltb_spec m (S m)); auto; lia.
    + destruct (Nat.ltb_spec k m), (Nat.ltb_spec k (S m)); auto; lia.
  - intros a' (Fr & H). split; [auto|]. intros r k Hr Hk. rewrite H by auto. rewrite (proj2 (Nat.ltb_lt k n)) by lia. rewrite andb_true_r. auto.
Qed.
Lemma elim_row : forall a o n i j, o + n * n <= length a -> i < n -> j < n -> j <> i ->
  wp (tmp1 <- vget a (o + (j * n + i)) ;; a <- vset a (o + (j * n + i)) rO ;;
      forn 0 n (fun k a => x <- vget a (o + (i * n + k)) ;; minuseq F a (o + (j * n + k)) (rmul tmp1 x)) a)
  (fun a' => frame o n a a' /\ forall r k, r < n -> k < n -> cell a' o n r k =
     if r =? j then rsub (if k =? i then rO else cell a o n j k) (rmul (cell a o n j i) (cell a o n i k)) else cell a o n r k).
Proof.
  intros a o n i j L Hi Hj Hn. pose proof (cbd o n j i Hj Hi). rewrite (vget_nth _ rO) by lia. cbn [bind]. rewrite vset_upd by lia. cbn [bind].
  fold (cell a o n j i). set (tmp1 := cell a o n j i). set (a1 := upd a (o + (j * n + i)) rO).
  assert (L1 : length a1 = length a) by (unfold a1; lens; auto).
  assert (H1 : forall r k, r < n -> k < n -> cell a1 o n r k = if (r =? j) && (k =? i) then rO else cell a o n r k) by (intros; unfold a1; apply cell_upd; auto).
  apply (wp_forn _ (fun m a' => frame o n a a' /\ forall r k, r < n -> k < n -> cell a' o n r k =
     if (r =? j) && (k <? m) then rsub (if k =? i then rO else cell a o n j k) (rmul tmp1 (cell a o n i k)) else cell a1 o n r k)); [lia| | |].
  - split; [apply frame_upd; auto; apply frame_refl|]. intros. rewrite (proj2 (Nat.ltb_ge k 0)) by lia. rewrite andb_false_r. auto.
  - intros m a' Hm (Fr & H2). pose proof (cbd o n i m Hi (proj2 Hm)). pose proof (cbd o n j m Hj (proj2 Hm)). destruct Fr as (La & Fr).
    rewrite (vget_nth _ rO) by lia. cbn [bind]. fold (cell a' o n i m). unfold minuseq. apply (wp_vmod _ rO); [lia|]. fold (cell a' o n j m).
    split; [apply frame_upd; auto; [split; auto|lia]|]. intros r k Hr Hk. rewrite cell_upd by lia. rewrite !H2 by lia.
    rewrite (proj2 (Nat.eqb_neq i j)) by lia. cbn [andb]. rewrite (H1 i m) by lia. rewrite (proj2 (Nat.eqb_neq i j)) by lia. cbn [andb].
    destruct (Nat.eqb_spec r j) as [->|]; cbn [andb]; auto. rewrite Nat.eqb_refl. cbn [andb]. destruct (Nat.eqb_spec k m) as [->|].
    + destruct (Nat.ltb_spec m m), (Nat.ltb_spec m (S m)); try lia. rewrite H1 by lia. rewrite Nat.eqb_refl. cbn [andb]. auto.
    + destruct (Nat.ltb_spec k m), (Nat.ltb_spec k (S m)); auto; lia.
  - intros a' (Fr & H2). split; [auto|]. intros r k Hr Hk. rewrite H2 by auto. rewrite (proj2 (Nat.ltb_lt k n)) by lia. rewrite andb_true_r.
    destruct (Nat.eqb_spec r j); auto. rewrite H1 by auto. rewrite (proj2 (Nat.eqb_neq r j)) by lia. auto.
Qed.
Lemma elim_all : forall a o n i, o + n * n <= length a -> i < n ->
  wp (forn 0 n (fun j a =>
      if (j =? i)%nat then Some a else
      tmp1 <- vget a (o + (j * n + i)) ;;
      a <- vset a (o + (j * n + i)) rO ;;
      forn 0 n (fun k a => x <- vget a (o + (i * n + k)) ;; minuseq F a (o + (j * n + k)) (rmul tmp1 x)) a) a)
  (fun a' => frame o n a a' /\ forall r k, r < n -> k < n -> cell a' o n r k =
     if r =? i then cell a o n i k else rsub (if k =? i then rO else cell a o n r k) (rmul (cell a o n r i) (cell a o n i k))).
Proof.
  intros a o n i L Hi.
  apply (wp_forn _ (fun m a' => frame o n a a' /\ forall r k, r < n -> k < n -> cell a' o n r k =
     if (r =? i) || (m <=? r) then cell a o n r k else rsub (if k =? i then rO else cell a o n r k) (rmul (cell a o n r i) (cell a o n i k)))); [lia| | |].
  - split; [apply frame_refl|]. intros. rewrite orb_true_r. auto.
  - intros m a' Hm (Fr & H). destruct (Nat.eqb_spec m i) as [->|Hn].
    + apply wp_some. split; [auto|]. intros r k Hr Hk. rewrite H by auto. destruct (Nat.eqb_spec r i); cbn [orb]; auto. destruct (Nat.leb_spec i r), (Nat.leb_spec (S i) r); auto; lia.
    + eapply wp_mono; [apply elim_row; auto; [destruct Fr; lia|lia]|]. intros a2 (Fr2 & H2). split; [eapply frame_trans; eauto|].
      intros r k Hr Hk. rewrite H2 by auto. destruct (Nat.eqb_spec r m) as [->|Hr'].
      * rewrite !H by lia. rewrite (proj2 (Nat.eqb_neq m i)) by auto. cbn [orb]. rewrite Nat.eqb_refl. cbn [orb]. rewrite (proj2 (Nat.leb_le m m)) by lia. rewrite (proj2 (Nat.leb_gt (S m) m)) by lia. auto.
      * rewrite H by auto. destruct (Nat.eqb_spec r i); cbn [orb]; auto. destruct (Nat.leb_spec m r), (Nat.leb_spec (S m) r); auto; lia.
  - intros a' (Fr & H). split; [auto|]. intros r k Hr Hk. rewrite H by auto. rewrite (proj2 (Nat.leb_gt n r)) by lia. rewrite orb_false_r. destruct (Nat.eqb_spec r i); subst; auto.
Qed.

Lemma CalcInvMat_ok : forall a o n, o + n * n <= length a ->
  wp (CalcInvMat F a o n) (fun '(a', info) => frame o n a a' /\ (info <> 1%Z -> forall x y, sys n n (cell a' o n) x y -> sys n 0 (cell a o n) x y)).
Proof.
  intros a o n L. unfold CalcInvMat.
  apply (wp_forb _ (fun i '(a', info) => frame o n a a' /\ (info <= 0)%Z /\ forall x y, sys n i (cell a' o n) x y -> sys n 0 (cell a o n) x y)); [lia| | |].
  - split; [apply frame_refl|]. split; [lia|auto].
  - intros i (a1 & info) Hi (Fr & Hinfo & H). pose proof (cbd o n i i (proj2 Hi) (proj2 Hi)). pose proof Fr as (La & _).
    rewrite (vget_nth _ rO) by lia. cbn [bind]. fold (cell a1 o n i i). set (p := cell a1 o n i i).
    destruct (small p) eqn:Es.
    + apply wp_some. cbn [fst snd]. split; [auto|]. intros C. exfalso. apply C. auto.
    + destruct (recip_small F _ Es) as (t & -> & Ht). cbn [bind]. rewrite vset_upd by lia. cbn [bind]. apply wp_bind.
      set (a2 := upd a1 (o + (i * n + i)) rI). assert (L2 : length a2 = length a1) by (unfold a2; lens; auto).
      assert (H2 : forall r k, r < n -> k < n -> cell a2 o n r k = if (r =? i) && (k =? i) then rI else cell a1 o n r k) by (intros; unfold a2; apply cell_upd; lia).
      eapply wp_mono; [apply scale_row; lia|]. intros a3 (Fr3 & H3). apply wp_bind. eapply wp_mono; [apply elim_all; [destruct Fr3; lia|lia]|]. intros a4 (Fr4 & H4).
      apply wp_some. cbn [fst snd]. split.
      { apply (frame_trans o n a a1 a4 Fr). apply (frame_trans o n a1 a2 a4); [|exact (frame_trans o n a2 a3 a4 Fr3 Fr4)]. apply frame_upd; [apply frame_refl|lia|lia]. }
      split; [destruct (isneg p); lia|]. intros x y HS. apply H. refine (gj_back n i t p (cell a1 o n) (cell a4 o n) x y (proj2 Hi) Ht eq_refl _ HS). split.
      * intros k Hk. rewrite H4 by lia. rewrite Nat.eqb_refl. rewrite H3 by lia. rewrite Nat.eqb_refl, H2 by lia. rewrite Nat.eqb_refl. cbn [andb]. destruct (k =? i); auto.
      * intros r k Hr Hk Hn. rewrite !H4 by lia. rewrite (proj2 (Nat.eqb_neq r i) Hn), Nat.eqb_refl. rewrite (H3 r k), (H3 r i) by lia. rewrite (proj2 (Nat.eqb_neq r i) Hn). rewrite (H2 r k), (H2 r i) by lia.
        rewrite (proj2 (Nat.eqb_neq r i) Hn). cbn [andb]. auto.
  - intros (a1 & info) (Fr & Hinfo & H). split; auto.
Qed.

Lemma invn_ok : forall nb n, inv_ok F nb n (invn F n) /\ inv_tot F nb n (invn F n).
Proof.
  intros nb n.
  assert (G : forall w i, i < nb -> length w = nb * (n * n) -> exists w' s, invn F n w i = Some (w', s) /\
    length w' = nb * (n * n) /\ (forall c a b, c < nb -> c <> i -> a < n -> b < n -> blk n w' c a b = blk n w c a b) /\
    (s = false -> forall a b, a < n -> b < n -> sumn n (fun e => rmul (blk n w i a e) (blk n w' i e b)) = delta a b)).
  { intros w i Hi Lw. unfold invn. assert (Hl : i * (n * n) + n * n <= length w) by nia. destruct (wp_ex _ _ _ (CalcInvMat_ok w (i * (n * n)) n Hl)) as ((w' & info) & E & Fr & H).
    rewrite E. cbn [bind]. do 2 eexists. split; [reflexivity|]. destruct Fr as (L' & Q). split; [lia|]. split.
    - intros c a b Hc Hn Ha Hb. unfold blk. apply Q. apply bidx_out; auto.
    - intros Hs a b Ha Hb. apply Z.eqb_neq in Hs.
      specialize (H Hs (fun r => blk n w' i r b) (fun k => if k =? b then rI else rO)). unfold sys in H. 
      assert (Hfin : forall r, r < n -> sumn n (fun k => rmul (blk n w' i r k) (ropp (if k =? b then rI else rO))) = ropp (blk n w' i r b)).
      { intros r Hr. transitivity (sumn n (fun k => if k =? b then ropp (blk n w' i r k) else rO)); [|apply sumn_pick; auto]. apply sumn_ext. intros k Hk. destruct (k =? b); ring. }
      assert (Hpre : forall r, r < n -> sumn n (fun k => rmul (cell w' (i * (n * n)) n r k) (zz n (fun r => blk n w' i r b) (fun k => if k =? b then rI else rO) k)) = ww n (fun r => blk n w' i r b) (fun k => if k =? b then rI else rO) r).
      { intros r Hr. unfold ww. rewrite (proj2 (Nat.ltb_lt r n)) by auto. rewrite <- Hfin by auto. apply sumn_ext. intros k Hk. unfold zz. rewrite (proj2 (Nat.ltb_lt k n)) by auto. unfold cell, blk. rewrite Nat.add_assoc. auto. }
      specialize (H Hpre a Ha). unfold ww, delta in *. cbn [Nat.ltb Nat.leb] in H. rewrite <- H. apply sumn_ext. intros k Hk. unfold zz, cell. cbn [Nat.ltb Nat.leb]. unfold blk. rewrite !Nat.add_assoc. auto. }
  split.
  - intros w i w' s Hi Lw H. destruct (G w i Hi Lw) as (w2 & s2 & E & R). rewrite E in H. injection H as <- <-. auto.
  - intros w i Hi Lw. destruct (G w i Hi Lw) as (w2 & s2 & E & R). rewrite E. discriminate.
Qed.
End S.
