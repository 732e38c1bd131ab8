(** Proofs for IluProps.v: the factorisation loop. *)
From Coq Require Import List Arith Bool Lia ZArith Ring.
Import ListNotations.
From Verif Require Import Imp Alg SpModel SpSpec IluModel IluSpec IluProofs1 IluProofs3.
Open Scope nat_scope.

(** Correctness, total (t = true) or partial (t = false). *)
Definition wpt (t : bool) {A} (e : option A) (Q : A -> Prop) : Prop := match e with Some x => Q x | None => t = false end.
Lemma wpt_of : forall t A (e : option A) Q, wp e Q -> wpt t e Q.
Proof. intros t A e Q H. apply wp_ex in H. destruct H as (x & -> & H). auto. Qed.
Lemma wpt_bind : forall t A B (e : option A) (f : A -> option B) Q, wpt t e (fun x => wpt t (f x) Q) -> wpt t (bind e f) Q.
Proof. intros t A B [x|] f Q H; auto. Qed.
Lemma wpt_mono : forall t A (e : option A) (Q Q' : A -> Prop), wpt t e Q -> (forall x, Q x -> Q' x) -> wpt t e Q'.
Proof. intros t A [x|] Q Q' H HI; cbn in *; auto. Qed.
Lemma wpt_forb : forall t S (I : nat -> S -> Prop) (P : S -> Prop) lo hi (f : nat -> S -> option (S * bool)) s,
  lo <= hi -> I lo s ->
  (forall i s', lo <= i < hi -> I i s' -> wpt t (f i s') (fun r : S * bool => if snd r then P (fst r) else I (Datatypes.S i) (fst r))) ->
  (forall s', I hi s' -> P s') -> wpt t (forb lo hi f s) P.
Proof.
  intros t S I P lo hi f s Hle H0 Hstep Hfin.
  destruct t.
  - assert (W : wp (forb lo hi f s) P).
    { apply (wp_forb S I P); auto. intros i s' Hi HI. specialize (Hstep i s' Hi HI). destruct (f i s') as [r|]; [exact Hstep|discriminate]. }
    apply wpt_of. auto.
  - destruct (forb lo hi f s) as [r|] eqn:E; [|reflexivity]. cbn.
    set (g := fun i s => match f i s with Some r => Some r | None => Some (s, false) end).
    assert (Hk : forall k lo s, forb_ k lo f s = Some r -> forall hi, lo + k = hi -> I lo s -> (forall i s', lo <= i < hi -> I i s' -> wpt false (f i s') (fun r : S * bool => if snd r then P (fst r) else I (Datatypes.S i) (fst r))) -> (forall s', I hi s' -> P s') -> P r).
    { clear. induction k; intros lo s E hi Hh H0 Hstep Hfin.
      - cbn in E. injection E as <-. apply Hfin. replace hi with lo by lia. auto.
      - cbn in E. assert (Hb : lo <= lo < hi) by lia. specialize (Hstep lo s Hb H0) as Hs. destruct (f lo s) as [[s1 b]|] eqn:Ef; cbn in E, Hs; [|discriminate].
        destruct b; [injection E as <-; auto|]. refine (IHk (Datatypes.S lo) s1 E hi _ Hs _ Hfin); [lia|]. intros i s' Hi. apply Hstep. lia. }
    unfold forb in E. refine (Hk _ lo s E hi _ H0 Hstep Hfin). lia.
Qed.

Section M.
Variable K : cring.
Variable P : ilu K.
Hypothesis HPt : pattern_ok P.
Lemma cp_inj : forall i c c', i < nblk P -> cI P i <= c < cI P (S i) -> cI P i <= c' < cI P (S i) -> cp P c = cp P c' -> c = c'.
Proof.
  intros i c c' Hi Hc Hc' E. destruct HPt as (_ & _ & _ & _ & _ & _ & _ & H8). destruct (Nat.lt_trichotomy c c') as [H|[H|H]]; auto.
  - pose proof (H8 i c c' Hi (proj1 Hc) H (proj2 Hc')). lia.
  - pose proof (H8 i c' c Hi (proj1 Hc') H (proj2 Hc)). lia.
Qed.
Lemma row_cases : forall i c, i < nblk P -> cI P i <= c < cI P (S i) -> (c < dI P i /\ cp P c < i) \/ (dI P i <= c /\ i < cp P c < nblk P).
Proof.
  intros i c Hi Hc. destruct HPt as (_ & _ & _ & _ & _ & H6 & H7 & _). destruct (Nat.lt_ge_cases c (dI P i)).
  - left. split; auto. apply (H6 i c); auto. lia.
  - right. split; auto. apply (H7 i c); auto. lia.
Qed.
Lemma row_other : forall i k c, i <= nblk P -> k < i -> c < cI P (S k) -> c < cI P i.
Proof. intros. pose proof (ci_le K P HPt (S k) i). lia. Qed.
Lemma mark_row_ok : forall i bound f r, i < nblk P -> cI P (S i) <= bound -> length r = nblk P ->
  wp (mark_row (nblk P) (cI P i) (cI P (S i)) bound (rowPtr P) f r) (fun r' => length r' = nblk P /\
    (forall c, cI P i <= c < cI P (S i) -> nth (cp P c) r' None = f c) /\
    (forall J, (forall c, cI P i <= c < cI P (S i) -> cp P c <> J) -> nth J r' None = nth J r None)).
Proof.
  intros i bound f r Hi Hb Hr. unfold mark_row. pose proof (ci_le K P HPt i (S i)) as Hle. 
  apply (wp_forn _ (fun m r' => length r' = nblk P /\ (forall c, cI P i <= c < m -> nth (cp P c) r' None = f c) /\
    (forall J, (forall c, cI P i <= c < cI P (S i) -> cp P c <> J) -> nth J r' None = nth J r None))); [lia| | |].
  - split; auto. split; auto. intros; lia.
  - intros m r' Hm (L & H1 & H2). rewrite (proj2 (Nat.ltb_lt m bound)) by lia. cbn [assertb bind].
    rewrite (cp_get K P) by (apply (ci_bound K P HPt i); lia). cbn [bind].
    assert (Hc : cp P m < nblk P) by (destruct (row_cases i m Hi Hm); lia).
    rewrite (proj2 (Nat.ltb_lt _ _) Hc). cbn [assertb bind]. apply wp_vset; [lia|]. split; [lens; auto|]. split.
    + intros c Hcc. rewrite nth_upd by lia. destruct (Nat.eq_dec (cp P m) (cp P c)) as [E|E].
      * apply (cp_inj i) in E; try lia. subst; auto.
      * apply H1. assert (c <> m) by congruence. lia.
    + intros J HJ. rewrite nth_upd_other; auto.
  - intros r' (L & H1 & H2). auto.
Qed.
End M.

Section S.
Variable F : pfield.
Local Notation K := (pK F).
Add Ring Kr5 : (rlaws K).
Variables (P : ilu K) (L : Type).
Hypothesis HPt : pattern_ok P.
Variable ld : list K -> nat -> option L.
Variable subc : L -> nat -> nat -> list K -> option (list K).
Variable subd : L -> nat -> nat -> list K -> list K -> option (list K).
Variable inv : list K -> nat -> option (list K * bool).
Variable mulc : list K -> nat -> list K -> nat -> option (list K).
Let n := length (rowPtr P).
Let nb := nblk P.
Let d := ndim P.
Hypothesis Hld : forall v ik, ik < n -> length v = n * (d * d) -> exists l, ld v ik = Some l.
Hypothesis Hsubc : subc_ok F n d ld subc.
Hypothesis Hsubd : subd_ok F n nb d ld subd.
Hypothesis Hinv : inv_ok F nb d inv.
Variable t : bool.
Hypothesis Htot : t = true -> inv_tot F nb d inv.
Hypothesis Hmulc : mulc_ok F n nb d mulc.

Definition Uv (v : list K) (k e J b : nat) : K := bigsum (seq (dI P k) (cI P (S k) - dI P k)) (fun c => if cp P c =? J then blk d v c e b else rO).
Definition Lterm (v : list K) (c a J b : nat) : K := sumn d (fun e => rmul (blk d v c a e) (Uv v (cp P c) e J b)).
Definition rowterm (v : list K) (lo m a J b : nat) : K := bigsum (seq lo (m - lo)) (fun c => Lterm v c a J b).
Definition Tm (v1 : list K) (m klo kj J a b : nat) : K := bigsum (seq klo (kj - klo)) (fun q => if cp P q =? J then sumn d (fun e => rmul (blk d v1 m a e) (blk d v1 q e b)) else rO).

Lemma seq_snoc : forall lo m (f : nat -> K), lo <= m -> bigsum (seq lo (S m - lo)) f = radd (bigsum (seq lo (m - lo)) f) (f m).
Proof. intros. replace (S m - lo) with (S (m - lo)) by lia. rewrite seq_S, bigsum_app, bigsum_cons, bigsum_nil. replace (lo + (m - lo)) with m by lia. ring. Qed.
Lemma Tm_Lterm : forall v m J a b, Tm v m (dI P (cp P m)) (cI P (S (cp P m))) J a b = Lterm v m a J b.
Proof.
  intros. unfold Tm, Lterm, Uv.
  transitivity (bigsum (seq (dI P (cp P m)) (cI P (S (cp P m)) - dI P (cp P m))) (fun q => sumn d (fun e => rmul (blk d v m a e) (if cp P q =? J then blk d v q e b else rO)))).
  - apply bigsum_ext. intros q _. destruct (cp P q =? J); auto. symmetry. apply sumn_zero. intros. ring.
  - unfold sumn. rewrite bigsum_swap. apply bigsum_ext. intros e _. apply bigsum_mull.
Qed.
Lemma Tm_zero : forall v m klo kj J a b, (forall q, klo <= q < kj -> cp P q <> J) -> Tm v m klo kj J a b = rO.
Proof. intros v m klo kj J a b H. unfold Tm. apply bigsum_zero. intros q Hq. apply in_seq in Hq. rewrite (proj2 (Nat.eqb_neq _ _)); auto. apply H. lia. Qed.
Lemma Tm_S : forall v m klo kj J a b, klo <= kj -> Tm v m klo (S kj) J a b = radd (Tm v m klo kj J a b) (if cp P kj =? J then sumn d (fun e => rmul (blk d v m a e) (blk d v kj e b)) else rO).
Proof. intros. unfold Tm. apply seq_snoc. auto. Qed.

Definition inrow (i c : nat) : Prop := cI P i <= c < cI P (S i).
Lemma inrow_n : forall i c, i < nb -> inrow i c -> c < n.
Proof. intros i c Hi Hc. apply (ci_bound K P HPt i); auto. apply Hc. Qed.
Lemma bigsum_term_ext : forall v v' c a J b, (forall e, e < d -> blk d v c a e = blk d v' c a e) -> (forall q e, dI P (cp P c) <= q < cI P (S (cp P c)) -> e < d -> blk d v q e b = blk d v' q e b) -> Lterm v c a J b = Lterm v' c a J b.
Proof.
  intros v v' c a J b H1 H2. unfold Lterm. apply sumn_ext. intros e He. rewrite H1 by auto. f_equal. unfold Uv. apply bigsum_ext. intros q Hq. apply in_seq in Hq.
  rewrite H2 by lia. auto.
Qed.

(** Elimination with one stored block (i, k). *)
Lemma one_ik : forall i m v1 w1 r2c ik, i < nb -> cI P i <= m < dI P i -> length v1 = n * (d * d) -> length w1 = nb * (d * d) -> ld v1 m = Some ik ->
  length r2c = nb -> (forall c, inrow i c -> nth (cp P c) r2c None = Some c) -> (forall J, (forall c, inrow i c -> cp P c <> J) -> nth J r2c None = None) ->
  wp (forn (dI P (cp P m)) (cI P (S (cp P m))) (fun kjcrs '(vcrs, vdia) =>
        jblk0 <- vget (rowPtr P) kjcrs ;;
        assertb (jblk0 <? nblk P)%nat ;;;
        if negb (jblk0 =? i)%nat then
          r <- vget r2c jblk0 ;;
          match r with
          | None => Some (vcrs, vdia)
          | Some ijcrs0 => vcrs <- subc ik ijcrs0 kjcrs vcrs ;; Some (vcrs, vdia)
          end
        else vdia <- subd ik i kjcrs vcrs vdia ;; Some (vcrs, vdia)) (v1, w1))
  (fun '(v, w) => length v = n * (d * d) /\ length w = nb * (d * d) /\
    (forall c a b, inrow i c -> a < d -> b < d -> blk d v c a b = rsub (blk d v1 c a b) (Lterm v1 m a (cp P c) b)) /\
    (forall c a b, c < n -> ~ inrow i c -> a < d -> b < d -> blk d v c a b = blk d v1 c a b) /\
    (forall a b, a < d -> b < d -> blk d w i a b = rsub (blk d w1 i a b) (Lterm v1 m a i b)) /\
    (forall c a b, c < nb -> c <> i -> a < d -> b < d -> blk d w c a b = blk d w1 c a b)).
Proof.
  intros i m v1 w1 r2c ik Hi Hm Lv1 Lw1 Hik Lr R1 R2. pose proof HPt as (Q1 & Q2 & Q3 & Q4 & H5 & H6 & H7 & H8).
  set (k := cp P m). assert (Hk : k < i) by (apply (H6 i m); auto). assert (Hkn : k < nb) by lia.
  assert (Hmr : inrow i m) by (pose proof (H5 i Hi); unfold inrow; lia).
  pose proof (H5 k Hkn) as H5k.
  apply (wp_forn _ (fun kj '(v, w) => length v = n * (d * d) /\ length w = nb * (d * d) /\
    (forall c a b, inrow i c -> a < d -> b < d -> blk d v c a b = rsub (blk d v1 c a b) (Tm v1 m (dI P k) kj (cp P c) a b)) /\
    (forall c a b, c < n -> ~ inrow i c -> a < d -> b < d -> blk d v c a b = blk d v1 c a b) /\
    (forall a b, a < d -> b < d -> blk d w i a b = rsub (blk d w1 i a b) (Tm v1 m (dI P k) kj i a b)) /\
    (forall c a b, c < nb -> c <> i -> a < d -> b < d -> blk d w c a b = blk d w1 c a b))); [lia| | |].
  - assert (Z : forall J a b, Tm v1 m (dI P k) (dI P k) J a b = rO) by (intros; apply Tm_zero; intros; lia).
    split; auto. split; auto. split; [intros; rewrite Z; ring|]. split; auto. split; [intros; rewrite Z; ring|]. auto.
  - intros kj (v & w) Hkj (Lv & Lw & A1 & A2 & A3 & A4).
    assert (Hkjn : kj < n) by (apply (inrow_n k); auto; unfold inrow; lia).
    assert (Hjk : k < cp P kj < nb) by (apply (H7 k kj); auto).
    assert (Hkjr : ~ inrow i kj).
    { intros (C & _). pose proof (row_other K P HPt i k kj). unfold nb in *. lia. }
    assert (Bm : forall a b, a < d -> b < d -> blk d v m a b = blk d v1 m a b).
    { intros a b Ha Hb. rewrite A1 by auto. rewrite Tm_zero; [ring|]. intros q Hq. fold k. pose proof (H7 k q Hkn). lia. }
    assert (Bk : forall a b, a < d -> b < d -> blk d v kj a b = blk d v1 kj a b) by (intros; apply A2; auto).
    rewrite (cp_get K P) by exact Hkjn. cbn [bind]. rewrite (proj2 (Nat.ltb_lt _ _)) by (fold nb; lia). cbn [assertb bind].
    destruct (Nat.eqb_spec (cp P kj) i) as [Ei|Ei]; cbn [negb].
    + apply wp_bind. eapply wp_mono; [eapply (Hsubd v1 v w m i kj ik Hik); auto|].
      { apply (inrow_n i); auto. } { intros; symmetry; apply Bm; auto. }
      intros w' (Lw' & E). apply wp_some. split; [auto|]. split; [auto|]. split; [|split; [auto|split]].
      * intros c a b Hc Ha Hb. rewrite A1 by auto. rewrite Tm_S by lia. rewrite (proj2 (Nat.eqb_neq (cp P kj) (cp P c))); [ring|]. rewrite Ei. destruct (row_cases K P HPt i c Hi Hc); lia.
      * intros a b Ha Hb. rewrite E by auto. rewrite Nat.eqb_refl. rewrite A3 by auto. rewrite Tm_S by lia. rewrite Ei, Nat.eqb_refl.
        rewrite (sumn_ext K d _ (fun e => rmul (blk d v1 m a e) (blk d v1 kj e b))); [ring|]. intros e He. rewrite Bm, Bk by auto. auto.
      * intros c a b Hc Hn Ha Hb. rewrite E by auto. rewrite (proj2 (Nat.eqb_neq c i)) by auto. auto.
    + rewrite (vget_nth _ None) by lia. cbn [bind].
      assert (A3' : forall a b, a < d -> b < d -> blk d w i a b = rsub (blk d w1 i a b) (Tm v1 m (dI P k) (S kj) i a b)).
      { intros a b Ha Hb. rewrite A3 by auto. rewrite Tm_S by lia. rewrite (proj2 (Nat.eqb_neq _ _) Ei). ring. }
      destruct (nth (cp P kj) r2c None) as [c0|] eqn:Er.
      * assert (Hc0 : inrow i c0 /\ cp P c0 = cp P kj).
        { destruct (in_dec Nat.eq_dec (cp P kj) (map (cp P) (seq (cI P i) (cI P (S i) - cI P i)))) as [Hin|Hout].
          - apply in_map_iff in Hin. destruct Hin as (c & Ec & Hc). apply in_seq in Hc. assert (Hc' : inrow i c) by (unfold inrow; lia). rewrite <- Ec, R1 in Er by auto. injection Er as <-. auto.
          - rewrite R2 in Er; [discriminate|]. intros c Hc Ec. apply Hout. apply in_map_iff. exists c. split; auto. apply in_seq. unfold inrow in Hc. lia. }
        destruct Hc0 as (Hc0 & Ec0).
        apply wp_bind. eapply wp_mono; [eapply (Hsubc v1 v m c0 kj ik Hik); auto|].
        { apply (inrow_n i); auto. } { apply (inrow_n i); auto. } { intros ->. fold k in Ec0. lia. } { intros ->. auto. } { intros; symmetry; apply Bm; auto. }
        intros v' (Lv' & E). apply wp_some. split; [auto|]. split; [auto|]. split; [|split; [|split; auto]].
        -- intros c a b Hc Ha Hb. rewrite E by (auto; apply (inrow_n i); auto). rewrite Tm_S by lia. destruct (Nat.eqb_spec c c0) as [->|Hn].
           ++ rewrite Ec0, Nat.eqb_refl. rewrite A1 by auto. rewrite Ec0. rewrite (sumn_ext K d _ (fun e => rmul (blk d v1 m a e) (blk d v1 kj e b))); [ring|]. intros e He. rewrite Bm, Bk by auto. auto.
           ++ rewrite (proj2 (Nat.eqb_neq (cp P kj) (cp P c))); [rewrite A1 by auto; ring|]. intros C. apply Hn. apply (cp_inj K P HPt i); auto. lia.
        -- intros c a b Hc Hn Ha Hb. rewrite E by auto. rewrite (proj2 (Nat.eqb_neq c c0)); auto. intros ->. auto.
      * apply wp_some. split; [auto|]. split; [auto|]. split; [|split; auto].
        intros c a b Hc Ha Hb. rewrite A1 by auto. rewrite Tm_S by lia. rewrite (proj2 (Nat.eqb_neq (cp P kj) (cp P c))); [ring|].
        intros C. rewrite C, R1 in Er by auto. discriminate.
  - intros (v & w) (Lv & Lw & A1 & A2 & A3 & A4). split; [auto|]. split; [auto|]. split; [|split; [auto|split; [|auto]]].
    + intros c a b Hc Ha Hb. rewrite A1 by auto. unfold k. rewrite Tm_Lterm. auto.
    + intros a b Ha Hb. rewrite A3 by auto. unfold k. rewrite Tm_Lterm. auto.
Qed.

(** All of row i. *)
Lemma elim_row_ok : forall i v0 w0 r2c, i < nb -> length v0 = n * (d * d) -> length w0 = nb * (d * d) ->
  length r2c = nb -> (forall c, inrow i c -> nth (cp P c) r2c None = Some c) -> (forall J, (forall c, inrow i c -> cp P c <> J) -> nth J r2c None = None) ->
  wp (forn (cI P i) (dI P i) (fun ikcrs '(vcrs, vdia) =>
      kblk <- vget (rowPtr P) ikcrs ;;
      assertb (kblk <? nblk P)%nat ;;;
      ik <- ld vcrs ikcrs ;;
      klo <- vget (diaInd P) kblk ;; khi <- vget (colInd P) (kblk + 1) ;;
      forn klo khi (fun kjcrs '(vcrs, vdia) =>
        jblk0 <- vget (rowPtr P) kjcrs ;;
        assertb (jblk0 <? nblk P)%nat ;;;
        if negb (jblk0 =? i)%nat then
          r <- vget r2c jblk0 ;;
          match r with
          | None => Some (vcrs, vdia)
          | Some ijcrs0 => vcrs <- subc ik ijcrs0 kjcrs vcrs ;; Some (vcrs, vdia)
          end
        else vdia <- subd ik i kjcrs vcrs vdia ;; Some (vcrs, vdia)) (vcrs, vdia)) (v0, w0))
  (fun '(v, w) => length v = n * (d * d) /\ length w = nb * (d * d) /\
    (forall c a b, inrow i c -> a < d -> b < d -> blk d v c a b = rsub (blk d v0 c a b) (rowterm v (cI P i) (dI P i) a (cp P c) b)) /\
    (forall c a b, c < n -> ~ inrow i c -> a < d -> b < d -> blk d v c a b = blk d v0 c a b) /\
    (forall a b, a < d -> b < d -> blk d w i a b = rsub (blk d w0 i a b) (rowterm v (cI P i) (dI P i) a i b)) /\
    (forall c a b, c < nb -> c <> i -> a < d -> b < d -> blk d w c a b = blk d w0 c a b)).
Proof.
  intros i v0 w0 r2c Hi Lv0 Lw0 Lr R1 R2. pose proof HPt as (Q1 & Q2 & Q3 & Q4 & H5 & H6 & H7 & H8). pose proof (H5 i Hi) as H5i.
  apply (wp_forn _ (fun m '(v, w) => length v = n * (d * d) /\ length w = nb * (d * d) /\
    (forall c a b, inrow i c -> a < d -> b < d -> blk d v c a b = rsub (blk d v0 c a b) (rowterm v (cI P i) m a (cp P c) b)) /\
    (forall c a b, c < n -> ~ inrow i c -> a < d -> b < d -> blk d v c a b = blk d v0 c a b) /\
    (forall a b, a < d -> b < d -> blk d w i a b = rsub (blk d w0 i a b) (rowterm v (cI P i) m a i b)) /\
    (forall c a b, c < nb -> c <> i -> a < d -> b < d -> blk d w c a b = blk d w0 c a b))); [lia| | |auto].
  - assert (Z : forall v J a b, rowterm v (cI P i) (cI P i) a J b = rO) by (intros; unfold rowterm; rewrite Nat.sub_diag; reflexivity).
    split; auto. split; auto. split; [intros; rewrite Z; ring|]. split; auto. split; [intros; rewrite Z; ring|]. auto.
  - intros m (v1 & w1) Hm (Lv & Lw & A1 & A2 & A3 & A4).
    assert (Hmr : inrow i m) by (unfold inrow; lia). assert (Hmn : m < n) by (apply (inrow_n i); auto).
    assert (Hk : cp P m < i) by (apply (H6 i m); auto).
    rewrite (cp_get K P) by exact Hmn. cbn [bind]. rewrite (proj2 (Nat.ltb_lt _ _)) by (fold nb; lia). cbn [assertb bind].
    destruct (Hld v1 m Hmn Lv) as (ik & Eik). rewrite Eik. cbn [bind]. rewrite (di_get K P HPt) by (fold nb; lia). cbn [bind]. replace (cp P m + 1) with (S (cp P m)) by lia. rewrite (ci_get K P HPt) by (fold nb; lia). cbn [bind].
    eapply wp_mono; [apply (one_ik i m v1 w1 r2c ik); auto|]. intros (v & w) (Lv' & Lw' & B1 & B2 & B3 & B4).
    assert (Keep : forall c J a b, cI P i <= c <= m -> a < d -> b < d -> Lterm v c a J b = Lterm v1 c a J b).
    { intros c J a b Hc Ha Hb. assert (Hcr : inrow i c) by (unfold inrow in *; lia). assert (Hcc : c = m \/ cp P c < cp P m) by (destruct (Nat.eq_dec c m); [auto|right; apply (H8 i); auto; unfold inrow in *; lia]).
      assert (Hck : cp P c < i) by (apply (H6 i c); auto; lia).
      apply bigsum_term_ext.
      - intros e He. rewrite B1 by auto. replace (Lterm v1 m a (cp P c) e) with (@rO K); [ring|]. symmetry. rewrite <- Tm_Lterm. apply Tm_zero. intros q Hq. assert (Hmk : cp P m < nb) by lia. pose proof (H7 (cp P m) q Hmk Hq). destruct Hcc as [-> | Hcc]; lia.
      - intros q e Hq He. apply B2; auto.
        + assert (Hcn : cp P c < nb) by lia. apply (inrow_n (cp P c)); auto. pose proof (H5 (cp P c) Hcn). unfold inrow. lia.
        + intros (C & _). pose proof (row_other K P HPt i (cp P c) q). unfold nb in *. lia. }
    assert (RT : forall J a b, a < d -> b < d -> rowterm v (cI P i) (S m) a J b = radd (rowterm v1 (cI P i) m a J b) (Lterm v1 m a J b)).
    { intros J a b Ha Hb. unfold rowterm. rewrite seq_snoc by lia. rewrite Keep by (auto; lia). f_equal. apply bigsum_ext. intros c Hc. apply in_seq in Hc. apply Keep; auto. lia. }
    split; [auto|]. split; [auto|]. split; [|split; [|split]].
    + intros c a b Hc Ha Hb. rewrite RT by auto. rewrite B1, A1 by auto. ring.
    + intros c a b Hc Hn Ha Hb. rewrite B2, A2 by auto. auto.
    + intros a b Ha Hb. rewrite RT by auto. rewrite B3, A3 by auto. ring.
    + intros c a b Hc Hn Ha Hb. rewrite B4, A4 by auto. auto.
Qed.

Definition rowok (v w : list K) (D : nat -> nat -> nat -> K) (I : nat) : Prop :=
  (forall a b, a < d -> b < d -> sumn d (fun e => rmul (D I a e) (blk d w I e b)) = delta a b) /\
  (forall c a b, cI P I <= c < dI P I -> a < d -> b < d -> blk d (valCrs P) c a b = radd (blk d v c a b) (rowterm v (cI P I) (dI P I) a (cp P c) b)) /\
  (forall c a b, dI P I <= c < cI P (S I) -> a < d -> b < d -> blk d (valCrs P) c a b = radd (rowterm v (cI P I) (dI P I) a (cp P c) b) (sumn d (fun e => rmul (D I a e) (blk d v c e b)))) /\
  (forall a b, a < d -> b < d -> blk d (valDia P) I a b = radd (D I a b) (rowterm v (cI P I) (dI P I) a I b)).
Lemma rowterm_ext : forall v v' I a J b, I < nb -> a < d -> b < d -> (forall c e f, c < dI P I -> e < d -> f < d -> blk d v c e f = blk d v' c e f) -> rowterm v (cI P I) (dI P I) a J b = rowterm v' (cI P I) (dI P I) a J b.
Proof.
  intros v v' I a J b HI Ha Hb H. pose proof HPt as (Q1 & Q2 & Q3 & Q4 & H5 & H6 & H7 & H8). unfold rowterm. apply bigsum_ext. intros c Hc. apply in_seq in Hc. pose proof (H5 I HI).
  apply bigsum_term_ext; [intros; apply H; auto; lia|]. intros q e Hq He. apply H; auto. assert (Hk : cp P c < I) by (apply (H6 I c); auto; lia).
  pose proof (row_other K P HPt I (cp P c) q). unfold nb in *. lia.
Qed.
Lemma rowok_keep : forall v v' w w' D D' I i, I < i -> i <= nb -> rowok v w D I ->
  (forall c e f, c < cI P i -> e < d -> f < d -> blk d v' c e f = blk d v c e f) -> (forall e f, e < d -> f < d -> blk d w' I e f = blk d w I e f) ->
  (forall e f, D' I e f = D I e f) -> rowok v' w' D' I.
Proof.
  intros v v' w w' D D' I i HI Hi (R1 & R2 & R3 & R4) Hv Hw HD. pose proof HPt as (Q1 & Q2 & Q3 & Q4 & H5 & H6 & H7 & H8). assert (HIn : I < nb) by lia. pose proof (H5 I HIn).
  pose proof (ci_le K P HPt (S I) i HI Hi) as Hci.
  assert (RT : forall a J b, a < d -> b < d -> rowterm v' (cI P I) (dI P I) a J b = rowterm v (cI P I) (dI P I) a J b) by (intros; apply rowterm_ext; auto; intros; apply Hv; auto; lia).
  split; [|split; [|split]].
  - intros a b Ha Hb. rewrite <- R1 by auto. apply sumn_ext. intros e He. rewrite HD, Hw by auto. auto.
  - intros c a b Hc Ha Hb. rewrite RT, Hv by (auto; lia). auto.
  - intros c a b Hc Ha Hb. rewrite RT by auto. rewrite R3 by auto. f_equal. apply sumn_ext. intros e He. rewrite HD, Hv by (auto; lia). auto.
  - intros a b Ha Hb. rewrite RT, HD by auto. auto.
Qed.

Lemma decompose_ok : length (valCrs P) = n * (d * d) -> length (valDia P) = nb * (d * d) ->
  wpt t (decompose F ld subc subd inv mulc P) (fun '(ret, ns, P') =>
    nblk P' = nblk P /\ ndim P' = ndim P /\ colInd P' = colInd P /\ rowPtr P' = rowPtr P /\ diaInd P' = diaInd P /\
    length (valCrs P') = n * (d * d) /\ length (valDia P') = nb * (d * d) /\ ret = (ns <=? 10) /\
    (ns = 0 -> exists D, forall I, I < nb -> rowok (valCrs P') (valDia P') D I)).
Proof.
  intros LV LW. pose proof HPt as (Q1 & Q2 & Q3 & Q4 & H5 & H6 & H7 & H8). unfold decompose. cbn zeta.
  rewrite (ci_get K P HPt) by lia. cbn [bind].
  apply wpt_bind. apply (wpt_forb t _ (fun i '(ret, ns, r2c, v, w) => ret = true /\ ns <= 10 /\ length r2c = nb /\ (forall J, nth J r2c None = None) /\
     length v = n * (d * d) /\ length w = nb * (d * d) /\
     (forall c a b, cI P i <= c < n -> a < d -> b < d -> blk d v c a b = blk d (valCrs P) c a b) /\
     (forall I a b, i <= I < nb -> a < d -> b < d -> blk d w I a b = blk d (valDia P) I a b) /\
     (ns = 0 -> exists D, forall I, I < i -> rowok v w D I))); [lia| | |].
  - split; auto. split; [lia|]. split; [apply repeat_length|]. split.
    { intros J. destruct (nth_in_or_default J (repeat (@None nat) (nblk P)) None) as [H|H]; auto. apply repeat_spec in H. auto. }
    split; auto. split; auto. split; auto. split; auto. intros _. exists (fun _ _ _ => rO). intros; lia.
  - intros i ((((ret & ns) & r2c) & v0) & w0) Hi (-> & Hns & Lr & Rn & Lv & Lw & Cv & Cw & HD).
    assert (Hin : i < nb) by apply Hi. pose proof (H5 i Hin) as H5i.
    assert (Hbd : cI P (S i) <= cI P (nblk P)) by (apply (ci_le K P HPt); fold nb; lia).
    rewrite (ci_get K P HPt) by (fold nb; lia). cbn [bind]. replace (i + 1) with (S i) by lia. rewrite (ci_get K P HPt) by (fold nb; lia). cbn [bind].
    destruct (wp_ex _ _ _ (mark_row_ok K P HPt i (cI P (nblk P)) Some r2c Hin Hbd Lr)) as (r1 & -> & Lr1 & R1 & R2). cbn [bind].
    rewrite (di_get K P HPt) by (fold nb; lia). cbn [bind].
    assert (R2' : forall J, (forall c, inrow i c -> cp P c <> J) -> nth J r1 None = None) by (intros J HJ; rewrite R2 by auto; auto).
    destruct (wp_ex _ _ _ (elim_row_ok i v0 w0 r1 Hin Lv Lw Lr1 R1 R2')) as ((v & w) & E & Lv1 & Lw1 & A1 & A2 & A3 & A4). rewrite E. clear E. cbn [bind].
    destruct (inv w i) as [(w' & sing)|] eqn:Ei; cbn [bind].
    2:{ destruct t; [|reflexivity]. exfalso. apply (Htot eq_refl w i Hin Lw1). auto. }
    destruct (Hinv w i w' sing Hin Lw1 Ei) as (Lw' & I1 & I2).
    set (ns' := if sing then ns + 1 else ns). destruct (sing && (10 <? ns')) eqn:Eb.
    { cbn. apply andb_true_iff in Eb. destruct Eb as (-> & Eb). split; auto. split; auto. split; auto. split; auto. split; auto. split; auto. split; auto.
      split; [apply Nat.ltb_lt in Eb; symmetry; apply Nat.leb_gt; auto|]. intros C. apply Nat.ltb_lt in Eb. lia. }
    assert (Hns' : ns' <= 10). { unfold ns' in *. destruct sing; [|auto]. cbn [andb] in Eb. apply Nat.ltb_ge in Eb. auto. }
    apply wpt_bind. apply wpt_of.
    apply (wp_forn _ (fun m v' => length v' = n * (d * d) /\ forall c a b, c < n -> a < d -> b < d ->
      blk d v' c a b = if (dI P i <=? c) && (c <? m) then sumn d (fun e => rmul (blk d w' i a e) (blk d v c e b)) else blk d v c a b)); [lia| | |].
    + split; auto. intros c a b Hc Ha Hb. destruct (Nat.leb_spec (dI P i) c), (Nat.ltb_spec c (dI P i)); cbn [andb]; auto; lia.
    + intros m v' Hm (Lv' & Hv'). assert (Hmn : m < n) by (apply (inrow_n i); auto; unfold inrow; lia). rewrite (proj2 (Nat.ltb_lt m (cI P (nblk P)))) by lia. cbn [assertb bind].
      eapply wp_mono; [apply Hmulc; auto|]. intros v2 (Lv2 & Hv2). split; auto. intros c a b Hc Ha Hb. rewrite Hv2 by auto. destruct (Nat.eqb_spec c m) as [->|Hn].
      * rewrite (proj2 (Nat.leb_le (dI P i) m)), (proj2 (Nat.ltb_lt m (S m))) by lia. cbn [andb]. apply sumn_ext. intros e He. rewrite Hv' by auto. rewrite (proj2 (Nat.ltb_ge m m)) by lia. rewrite andb_false_r. auto.
      * rewrite Hv' by auto. destruct (Nat.leb_spec (dI P i) c), (Nat.ltb_spec c m), (Nat.ltb_spec c (S m)); cbn [andb]; auto; lia.
    + intros v' (Lv' & Hv').
      destruct (wp_ex _ _ _ (mark_row_ok K P HPt i (cI P (nblk P)) (fun _ => None) r1 Hin Hbd Lr1)) as (r3 & -> & Lr3 & R3 & R4). cbn [bind]. cbn [wpt fst snd].
      split; auto. split; auto. split; auto. split.
      { intros J. destruct (in_dec Nat.eq_dec J (map (cp P) (seq (cI P i) (cI P (S i) - cI P i)))) as [Hj|Hj].
        - apply in_map_iff in Hj. destruct Hj as (c & <- & Hc). apply in_seq in Hc. apply R3. lia.
        - assert (Hno : forall c, inrow i c -> cp P c <> J). { intros c Hc Ec. apply Hj. apply in_map_iff. exists c. split; auto. apply in_seq. unfold inrow in Hc. lia. }
          rewrite R4 by exact Hno. apply R2'. auto. }
      split; auto. split; auto.
      assert (Hin_n : cI P (S i) <= n) by (unfold n; rewrite <- Q4; auto).
      split; [|split].
      * intros c a b Hc Ha Hb. rewrite Hv' by (auto; lia). rewrite (proj2 (Nat.ltb_ge c (cI P (S i)))) by lia. rewrite andb_false_r. rewrite A2 by (auto; unfold inrow; lia). apply Cv; auto. lia.
      * intros I a b HI Ha Hb. rewrite I1, A4 by (auto; lia). apply Cw; auto. lia.
      * intros Hz. assert (Hsing : sing = false /\ ns = 0) by (unfold ns' in Hz; destruct sing; [lia|auto]). destruct Hsing as (Hsing & Hz0).
        destruct (HD Hz0) as (D & HDr). exists (fun I a b => if I =? i then blk d w i a b else D I a b).
        assert (Hold : forall c e f, c < cI P i -> e < d -> f < d -> blk d v' c e f = blk d v0 c e f).
        { intros c e f Hc He Hf. rewrite Hv' by (auto; lia). rewrite (proj2 (Nat.leb_gt (dI P i) c)) by lia. cbn [andb]. apply A2; auto; unfold inrow; lia. }
        intros I HI. assert (I < i \/ I = i) as [HI'| ->] by lia.
        -- eapply (rowok_keep v0 v' w0 w' D _ I i); auto; try lia.
           ++ intros e f He Hf. rewrite I1, A4 by (auto; lia). auto.
           ++ intros e f. cbn beta. rewrite (proj2 (Nat.eqb_neq I i)) by lia. auto.
        -- assert (RT : forall a J b, a < d -> b < d -> rowterm v' (cI P i) (dI P i) a J b = rowterm v (cI P i) (dI P i) a J b).
           { intros a J b Ha Hb. apply rowterm_ext; auto. intros c e f Hc He Hf. rewrite Hv' by (auto; lia). rewrite (proj2 (Nat.leb_gt (dI P i) c)) by lia. auto. }
           split; [|split; [|split]].
           ++ intros a b Ha Hb. rewrite Nat.eqb_refl. apply I2; auto.
           ++ intros c a b Hc Ha Hb. rewrite RT by auto. rewrite Hv' by (auto; lia). rewrite (proj2 (Nat.leb_gt (dI P i) c)) by lia. cbn [andb]. rewrite A1 by (auto; unfold inrow; lia). rewrite Cv by (auto; lia). ring.
           ++ intros c a b Hc Ha Hb. rewrite RT by auto. rewrite Nat.eqb_refl.
              assert (Hcv : forall e, e < d -> blk d v' c e b = sumn d (fun f => rmul (blk d w' i e f) (blk d v c f b))).
              { intros e He. rewrite Hv' by (auto; lia). rewrite (proj2 (Nat.leb_le (dI P i) c)), (proj2 (Nat.ltb_lt c (cI P (S i)))) by lia. auto. }
              rewrite (sumn_ext K d _ (fun e => sumn d (fun f => rmul (rmul (blk d w i a e) (blk d w' i e f)) (blk d v c f b)))).
              2:{ intros e He. rewrite Hcv by auto. rewrite <- sumn_mull. apply sumn_ext. intros. ring. }
              rewrite sumn_swap. rewrite (sumn_ext K d _ (fun f => if f =? a then blk d v c f b else rO)).
              2:{ intros f Hf. rewrite sumn_mulr. rewrite I2 by auto. unfold delta. rewrite (Nat.eqb_sym a f). destruct (f =? a); ring. }
              rewrite sumn_pick by auto. rewrite A1 by (auto; unfold inrow; lia). rewrite Cv by (auto; lia). ring.
           ++ intros a b Ha Hb. rewrite RT by auto. rewrite Nat.eqb_refl. rewrite A3 by auto. rewrite Cw by (auto; lia). ring.
  - intros ((((ret & ns) & r2c) & v0) & w0) (-> & Hns & Lr & Rn & Lv & Lw & Cv & Cw & HD). cbn. split; auto. split; auto. split; auto. split; auto. split; auto. split; auto. split; auto.
    split; [symmetry; apply Nat.leb_le; auto|]. auto.
Qed.
End S.
