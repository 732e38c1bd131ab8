(** ConvexHull2: the scan to the end, sorting and the points on one ray. *)
From Coq Require Import List Arith Bool Reals Lia Lra Psatz Sorting.Sorted Sorting.Permutation.
Import ListNotations.
From Verif Require Import Imp PrModel PolyModel HullModel HullSpec HullProofs1 HullProofs2.
Open Scope R_scope.

Lemma NoDup_app_r : forall A (u v : list A), NoDup (u ++ v) -> NoDup v.
Proof. induction u; simpl; auto. intros v H. inversion H; auto. Qed.

Section S.
Variables (points : list pnt) (o f : nat).
Notation n := (length points).
Notation q := (q points o).
Notation Inv := (Inv points o f).
Hypothesis Ho : (o < n)%nat.
Hypothesis Hf : (f < n)%nat.
Definition step (p3 : nat * R) (stack : list nat) : option (list nat) := s <- pops points (fst p3) stack ;; Some (fst p3 :: s).

Lemma scan_ok : forall L M u, Inv u -> (forall y, In y L -> (fst y < n)%nat /\ 0 < cr (q f) (q (fst y))) -> (forall x y, In x (u ++ [f]) -> In y L -> ang (q x) (q (fst y))) ->
  StronglySorted (fun a b => ang (q (fst a)) (q (fst b))) L ->
  exists u', foldM step (L ++ M) (u ++ [f; o]) = foldM step M (u' ++ [f; o]) /\ Inv u' /\ (L <> [] \/ u <> [] -> u' <> []) /\ (forall x, In x u' -> In x u \/ In x (map fst L)) /\
    (NoDup (u ++ map fst L) -> NoDup u') /\
    forall S : pnt -> Prop, (forall x, In x (u' ++ [f; o]) -> hull S (q x)) -> forall x, In x u \/ In x (map fst L) -> hull S (q x).
Proof.
  induction L as [|y L IH]; intros M u HI HL HA HS.
  - exists u. split; auto. split; auto. split. intros [H|H]; auto. split; auto. split. simpl. rewrite app_nil_r. auto. intros S H x [Hx|[]]. apply H. apply in_app_iff. auto.
  - destruct (HL y (or_introl eq_refl)) as (Hy & Hfy). inversion HS as [|? ? HS' HF]; subst. rewrite Forall_forall in HF.
    destruct (pops_ok points o f Ho Hf (fst y) Hy Hfy u HI) as (w & u1 & Eu & Ep & Et & Eh). { intros. apply HA; auto. left; auto. }
    assert (HI1 : Inv u1). { subst u. clear - HI Ho Hf. induction w; auto. apply IHw. eapply Inv_tail; eauto. }
    assert (HA1 : forall x, In x (u1 ++ [f]) -> ang (q x) (q (fst y))). { intros x Hx. apply HA. 2: left; auto. subst u. rewrite <- app_assoc. apply in_app_iff. auto. }
    pose proof (push_ok points o f (fst y) Hy u1 HI1 HA1 Hfy Et) as HI2.
    destruct (IH M (fst y :: u1) HI2) as (u' & E1 & E2 & E3 & E4 & E5 & E6); auto.
    { intros. apply HL. right. auto. }
    { intros x z [<-|Hx] Hz. auto. apply HA. subst u. rewrite <- app_assoc. apply in_app_iff. auto. right. auto. }
    exists u'. split; [|split; [auto|split; [|split; [|split]]]].
    + simpl app. simpl foldM. unfold step at 1. rewrite Ep. simpl bind. rewrite <- E1. reflexivity.
    + intros _. apply E3. right. discriminate.
    + intros x Hx. destruct (E4 x Hx) as [[<-|Hx']|Hx']. right. left. auto. left. subst u. apply in_app_iff. auto. right. right. auto.
    + intros N. apply E5. subst u. simpl map in N. rewrite <- app_assoc in N. apply NoDup_app_r in N. simpl. apply NoDup_cons_iff. split. apply NoDup_remove_2 in N. auto. apply NoDup_remove_1 in N. auto.
    + intros S H. assert (H1 : forall x, In x (fst y :: u1) \/ In x (map fst L) -> hull S (q x)) by (intros; apply E6; auto).
      intros x [Hx|[<-|Hx]]. 2: apply H1; left; left; auto. 2: apply H1; auto.
      apply (Eh S); auto. 2: apply H1; left; left; auto. intros z Hz. apply in_app_iff in Hz. destruct Hz as [Hz|Hz]. apply H1. left. right. auto. apply H. apply in_app_iff. auto.
Qed.

(** The closing step. *)
Lemma close_ok : forall u, Inv u -> u <> [] -> exists w u', u = w ++ u' /\ u' <> [] /\ pops points o (u ++ [f; o]) = Some (u' ++ [f; o]) /\
  (forall p2 p1 v, u' ++ [f] = p2 :: p1 :: v -> 0 < cr (q p1) (q p2)) /\
  forall S : pnt -> Prop, (forall x, In x (u' ++ [f; o]) -> hull S (q x)) -> forall x, In x u -> hull S (q x).
Proof.
  intros u HI Hu. destruct u as [|p2 u]. contradiction. assert (E : exists p1 v, u ++ [f] = p1 :: v) by (destruct u; simpl; eauto). destruct E as (p1 & v & Ev).
  assert (Ev' : u ++ [f; o] = p1 :: v ++ [o]). { change [f; o] with ([f] ++ [o]). rewrite app_assoc, Ev. auto. }
  assert (Hp1 : In p1 (u ++ [f])) by (rewrite Ev; left; auto). pose proof (Inv_tail _ _ _ _ _ HI) as HI'.
  assert (R1 : (p1 < n)%nat). { apply in_app_iff in Hp1. destruct Hp1 as [Hp1|[<-|[]]]; auto. apply (I_rng _ _ _ _ HI'). auto. } assert (R2 : (p2 < n)%nat) by (apply (I_rng _ _ _ _ HI); left; auto).
  assert (A12 : ang (q p1) (q p2)) by (apply (above_hd points o p2 (u ++ [f])); auto; apply (I_an _ _ _ _ HI)).
  assert (ET : forall a b, turn (q a) (q b) (q o) = cr (q a) (q b)). { intros. rewrite q_o, turn_cr, !cr_0r. lra. }
  simpl app. rewrite Ev'. rewrite (pops_step points o o Ho) by auto. rewrite ET. unfold ltR. destruct (Rlt_dec 0 (cr (q p1) (q p2))) as [Hp|Hz]; simpl negb; cbv iota.
  - exists [], (p2 :: u). split; auto. split. discriminate. split. simpl. rewrite Ev'. auto. split. intros a b c E. simpl in E. rewrite Ev in E. injection E as <- <- _. auto. intros S H x Hx. apply H. apply in_app_iff. auto.
  - destruct A12 as [|(t & Ht & Et)]. contradiction. destruct u as [|p1' u].
    + exfalso. simpl in Ev. injection Ev as <- _. pose proof (I_f _ _ _ _ HI p2 (or_introl eq_refl)). lra.
    + simpl in Ev. injection Ev as -> Ev. assert (E : exists p0 v', u ++ [f] = p0 :: v') by (destruct u; simpl; eauto). destruct E as (p0 & v' & Ew). rewrite <- Ev. rewrite Ew. simpl app.
      assert (Hp0 : In p0 (u ++ [f])) by (rewrite Ew; left; auto).
      assert (R0 : (p0 < n)%nat). { apply in_app_iff in Hp0. destruct Hp0 as [Hp0|[<-|[]]]; auto. apply (I_rng _ _ _ _ HI'). right. auto. }
      assert (S01 : 0 < cr (q p0) (q p1)).
      { apply (strict_pair (q p0) (q p1) (q p2)). apply (above_hd points o p1 (u ++ [f])); auto. apply (I_an _ _ _ _ HI'). apply ang_cr. apply (above_hd points o p2 ((p1 :: u) ++ [f])). apply (I_an _ _ _ _ HI). right. auto.
        pose proof (I_ch _ _ _ _ HI) as C. simpl app in C. change [f; o] with ([f] ++ [o]) in C. rewrite app_assoc, Ew in C. simpl in C. apply C. }
      rewrite (pops_step points o o Ho) by auto. rewrite ET. unfold ltR. destruct (Rlt_dec 0 (cr (q p0) (q p1))); [|contradiction]. simpl negb. cbv iota.
      exists [p2], (p1 :: u). split; auto. split. discriminate. split. simpl. f_equal. f_equal. change [f; o] with ([f] ++ [o]). rewrite app_assoc, Ew. auto. split. intros a b c E. simpl in E. rewrite Ew in E. injection E as <- <- _. auto.
      intros S H x [<-|Hx]. 2: apply H; apply in_app_iff; auto. rewrite Et. apply hull_scal. rewrite <- (q_o points o). apply H. apply in_app_iff. right. simpl. auto. apply H. left. auto. lra.
Qed.
End S.

Lemma hull_translate : forall (S : pnt -> Prop) cx cy x, hull S x -> hull (fun y => exists z, S z /\ y = (fst z + cx, snd z + cy)) (fst x + cx, snd x + cy).
Proof.
  intros S cx cy x H. induction H. apply hull_in. eauto. pose proof (hull_seg _ _ _ t IHhull1 IHhull2 H1) as E. simpl in *. replace ((1 - t) * fst x + t * fst y + cx) with ((1 - t) * (fst x + cx) + t * (fst y + cx)) by ring. replace ((1 - t) * snd x + t * snd y + cy) with ((1 - t) * (snd x + cy) + t * (snd y + cy)) by ring. auto.
Qed.
Lemma next2_rev : forall l i j, next2 (rev l) i j -> next2 l j i.
Proof. intros l i j (u & v & E). exists (rev v), (rev u). rewrite <- (rev_involutive l), E. rewrite rev_app_distr. simpl. rewrite <- !app_assoc. auto. Qed.
Lemma next3_rev : forall l i j k, next3 (rev l) i j k -> next3 l k j i.
Proof. intros l i j k (u & v & E). exists (rev v), (rev u). rewrite <- (rev_involutive l), E. rewrite rev_app_distr. simpl. rewrite <- !app_assoc. auto. Qed.

Section T.
Variables (points : list pnt) (o : nat).
Notation n := (length points).
Notation q := (q points o).
Hypothesis Hlow : is_lowest points o.
Hypothesis Hsep : separated EPSILON points o.
Hypothesis Hsing : single_extremes points o.
Let Ho : (o < n)%nat. Proof. apply Hlow. Qed.

Lemma q_up : forall i, (i < n)%nat -> i <> o -> up (q i).
Proof. intros i Hi Hne. unfold up, HullProofs2.q. simpl. destruct (proj2 Hlow i Hi Hne) as [H|(H1 & H2)]; lra. Qed.
Lemma dir_cos : forall i, direction points o i = cosv (q i). Proof. intros. reflexivity. Qed.
Lemma eps_pos : 0 < EPSILON. Proof. unfold EPSILON. lra. Qed.
Lemma near_cr : forall i j, (i < n)%nat -> (j < n)%nat -> i <> o -> j <> o -> ~ EPSILON < Rabs (cosv (q i) - cosv (q j)) -> cr (q i) (q j) = 0.
Proof. intros i j Hi Hj Ni Nj H. destruct (Req_dec (cr (q i) (q j)) 0) as [|N]; auto. exfalso. apply H. apply Hsep; auto; rewrite q_orient_o; auto. Qed.
Lemma near_cos : forall i j, (i < n)%nat -> (j < n)%nat -> i <> o -> j <> o -> ~ EPSILON < Rabs (cosv (q i) - cosv (q j)) -> cosv (q i) = cosv (q j).
Proof. intros i j Hi Hj Ni Nj H. pose proof (near_cr i j Hi Hj Ni Nj H) as C. destruct (cr0_scal _ _ (q_up i Hi Ni) (q_up j Hj Nj) C) as (t & Ht & ->). rewrite cos_scal; auto. apply q_up; auto. Qed.

(** elements of the list of cosines *)
Definition elt (a : nat * R) : Prop := (fst a < n)%nat /\ fst a <> o /\ snd a = cosv (q (fst a)).
Definition sq (i : nat) : R := fst (q i) * fst (q i) + snd (q i) * snd (q i).
Lemma comp_iff : forall a b, elt a -> elt b -> hull_comp points o a b = true <-> (snd b < snd a \/ (snd a = snd b /\ sq (fst b) < sq (fst a))).
Proof.
  intros a b (A1 & A2 & A3) (B1 & B2 & B3). unfold hull_comp. fold (P points (fst a)) (P points (fst b)) (P points o).
  assert (Ed : forall k, dotp (subp (P points k) (P points o)) (subp (P points k) (P points o)) = sq k) by (intros; reflexivity). rewrite !Ed. unfold ltR.
  destruct (Rlt_dec EPSILON (Rabs (snd a - snd b))) as [H|H].
  - destruct (Rlt_dec (snd b) (snd a)); split; intros X; auto; try discriminate. destruct X as [X|(X & _)]. lra. rewrite X, Rminus_diag_eq, Rabs_R0 in H by auto. pose proof eps_pos. lra.
  - rewrite A3, B3 in H. pose proof (near_cos _ _ A1 B1 A2 B2 H) as E. rewrite A3, B3, E. destruct (Rlt_dec (sq (fst b)) (sq (fst a))); split; intros X; auto; try discriminate. destruct X as [X|(_ & X)]; lra.
Qed.
Lemma comp_no : forall a b, elt a -> elt b -> hull_comp points o a b = false <-> ~ (snd b < snd a \/ (snd a = snd b /\ sq (fst b) < sq (fst a))).
Proof. intros a b Ha Hb. rewrite <- (comp_iff a b Ha Hb). destruct (hull_comp points o a b); split; congruence. Qed.
Lemma comp_swo : forall l, (forall a, In a l -> elt a) -> strict_weak (hull_comp points o) l.
Proof.
  intros l H. split; [|split].
  - intros a Ha. apply comp_no; auto. lra.
  - intros a b d Ha Hb Hd. rewrite !comp_iff by auto. lra.
  - intros a b d Ha Hb Hd. rewrite !comp_no by auto. lra.
Qed.
Lemma comp_ang : forall a b, elt a -> elt b -> hull_comp points o b a = false -> ang (q (fst a)) (q (fst b)).
Proof.
  intros a b Ha Hb H. apply comp_no in H; auto. destruct Ha as (A1 & A2 & A3), Hb as (B1 & B2 & B3). destruct (Rtotal_order (snd b) (snd a)) as [L|[E|L]].
  - left. apply cos_cr. apply q_up; auto. apply q_up; auto. lra.
  - assert (C : cr (q (fst a)) (q (fst b)) = 0). { apply near_cr; auto. rewrite <- A3, <- B3, E, Rminus_diag_eq, Rabs_R0 by auto. pose proof eps_pos. lra. }
    pose proof (q_up _ A1 A2) as U. destruct (cr0_scal _ _ U (q_up _ B1 B2) C) as (t & Ht & Et). right. exists t. split; auto. split; auto.
    assert (S : sq (fst b) <= sq (fst a)) by lra. unfold sq in S. rewrite Et in S. unfold scal in S. simpl in S. pose proof (up_pos _ U) as Up. simpl in Up. destruct (Rle_or_lt t 1) as [|Hgt]; auto. exfalso. assert (X : 0 < (t * t - 1) * (fst (q (fst a)) * fst (q (fst a)) + snd (q (fst a)) * snd (q (fst a)))) by (apply Rmult_lt_0_compat; [nra|auto]). simpl in X. lra.
  - lra.
Qed.

Lemma lowest_ok : lowest points = Some o.
Proof.
  assert (W : wp (lowest points) (fun r => r = o)). 2: { apply wp_ex in W. destruct W as (x & E & ->). auto. }
  unfold lowest. apply wp_bind. apply wp_vget with (d := (0, 0)). lia. apply wp_bind.
  apply wp_forn with (I := fun i s => (fst s < n)%nat /\ (fst s < i)%nat /\ snd s = P points (fst s) /\ forall k, (k < i)%nat -> snd (snd s) < snd (P points k) \/ (snd (snd s) = snd (P points k) /\ fst (snd s) <= fst (P points k))).
  - lia.
  - simpl. split. lia. split. lia. split. auto. intros k Hk. replace k with 0%nat by lia. right. unfold P. lra.
  - intros i (k, p0) Hi (H1 & H2 & H3 & H4). simpl in *. apply wp_bind. apply wp_vget with (d := (0, 0)). lia. fold (P points i).
    unfold ltR, eqR. destruct (Rlt_dec (snd p0) (snd (P points i))) as [A|A].
    + apply wp_some. simpl. split; auto. split. lia. split; auto. intros j Hj. destruct (Nat.eq_dec j i) as [->|]. left; auto. apply H4. lia.
    + destruct (Req_EM_T (snd (P points i)) (snd p0)) as [B|B]; [destruct (Rlt_dec (fst p0) (fst (P points i))) as [C|C]|]; simpl andb; cbv iota; apply wp_some; simpl.
      * split; auto. split. lia. split; auto. intros j Hj. destruct (Nat.eq_dec j i) as [->|]. right. lra. apply H4. lia.
      * split. lia. split. lia. split; auto. intros j Hj. destruct (Nat.eq_dec j i) as [->|]. right. lra. destruct (H4 j ltac:(lia)); lra.
      * split. lia. split. lia. split; auto. intros j Hj. destruct (Nat.eq_dec j i) as [->|]. right. lra. destruct (H4 j ltac:(lia)); lra.
  - intros (k, p0) (H1 & H2 & H3 & H4). simpl in *. apply wp_some. destruct (Nat.eq_dec k o) as [|Ne]; auto. exfalso. destruct (proj2 Hlow k H1 Ne); destruct (H4 o Ho); subst p0; lra.
Qed.

Definition L0 : list (nat * R) := map (fun i => (i, cosv (q i))) (filter (fun i => negb (i =? o)%nat) (seq 0 n)).
Lemma cosines_ok : cosines points o = Some L0.
Proof.
  assert (W : wp (cosines points o) (fun r => r = L0)). 2: { apply wp_ex in W. destruct W as (x & E & ->). auto. }
  unfold cosines. apply wp_forn with (I := fun k r => r = map (fun i => (i, cosv (q i))) (filter (fun i => negb (i =? o)%nat) (seq 0 k))).
  - lia.
  - auto.
  - intros i r Hi ->. rewrite seq_S, filter_app, map_app. simpl. destruct (Nat.eqb_spec i o) as [->|Ne]; simpl.
    + apply wp_some. rewrite app_nil_r. auto.
    + apply wp_bind. apply wp_vget with (d := (0, 0)). lia. apply wp_bind. apply wp_vget with (d := (0, 0)). lia. fold (P points i) (P points o). change (normp (subp (P points i) (P points o))) with (nrm (q i)).
      pose proof (nrm_pos _ (q_up i ltac:(lia) Ne)) as N. apply wp_bind. apply wp_assertb. unfold eqR. destruct (Req_EM_T (nrm (q i)) 0); auto. lra.
      apply wp_some. f_equal. f_equal. f_equal. unfold cosv. f_equal. unfold dotp, subp, HullProofs2.q. simpl. ring.
  - auto.
Qed.
Lemma L0_elt : forall a, In a L0 -> elt a.
Proof. intros a H. unfold L0 in H. apply in_map_iff in H. destruct H as (i & <- & Hi). apply filter_In in Hi. destruct Hi as (Hi & Hb). apply in_seq in Hi. destruct (Nat.eqb_spec i o); try discriminate. split. simpl; lia. split; auto. Qed.
Lemma L0_all : forall i, (i < n)%nat -> i <> o -> In i (map fst L0).
Proof. intros i Hi Hne. unfold L0. rewrite map_map. simpl. rewrite map_id. apply filter_In. split. apply in_seq. lia. destruct (Nat.eqb_spec i o); auto. Qed.
Lemma L0_nodup : NoDup (map fst L0).
Proof. unfold L0. rewrite map_map. simpl. rewrite map_id. apply NoDup_filter. apply seq_NoDup. Qed.

Notation srted := (StronglySorted (fun a b : nat * R => ang (q (fst a)) (q (fst b)))).
Lemma srted_mono : forall (Q Q' : nat * R -> nat * R -> Prop) l, StronglySorted Q l -> (forall a b, In a l -> In b l -> Q a b -> Q' a b) -> StronglySorted Q' l.
Proof.
  intros Q Q' l H. induction H; intros HR; constructor.
  - apply IHStronglySorted. intros. apply HR; auto; right; auto.
  - rewrite Forall_forall in *. intros y Hy. apply HR; auto. left; auto. right; auto.
Qed.
Lemma srted_remove : forall (Q : nat * R -> nat * R -> Prop) A b C, StronglySorted Q (A ++ b :: C) -> StronglySorted Q (A ++ C).
Proof.
  induction A; simpl; intros b C H; inversion H; subst; auto. constructor. eauto. rewrite Forall_forall in *. intros y Hy. apply H3. apply in_app_iff in Hy. apply in_app_iff. destruct Hy; auto. right. right. auto.
Qed.
Lemma srted_pair : forall (Q : nat * R -> nat * R -> Prop) A b C x, StronglySorted Q (A ++ b :: C) -> (In x A -> Q x b) /\ (In x C -> Q b x).
Proof.
  induction A as [|a A IH]; simpl; intros b C x H; inversion H; subst; rewrite Forall_forall in *. split. tauto. auto.
  destruct (IH b C x H2) as (I1 & I2). split; auto. intros [<-|Hx]; auto. apply H3. apply in_app_iff. right. left. auto.
Qed.

Lemma single_last : forall l x a, srted (l ++ [x]) -> NoDup (map fst (l ++ [x])) -> (forall b, In b (l ++ [x]) -> elt b) -> (forall i, (i < n)%nat -> i <> o -> exists b t, In b (l ++ [x]) /\ 0 < t /\ q i = scal t (q (fst b))) -> In a l -> 0 < cr (q (fst a)) (q (fst x)).
Proof.
  intros l x a HS ND HE Hall Ha. destruct (srted_pair _ l x [] a HS) as (H1 & _). specialize (H1 Ha). pose proof (ang_cr _ _ H1) as C. destruct (Rle_lt_or_eq_dec _ _ C) as [|Z]; auto. exfalso.
  assert (Ex : elt x) by (apply HE; apply in_app_iff; right; left; auto). assert (Ea : elt a) by (apply HE; apply in_app_iff; auto). destruct Ex as (X1 & X2 & _), Ea as (A1 & A2 & _).
  assert (Nax : fst x <> fst a). { rewrite map_app in ND. simpl in ND. apply NoDup_remove_2 in ND. rewrite app_nil_r in ND. intros E. apply ND. rewrite E. apply in_map. auto. }
  assert (Z' : orient (P points o) (P points (fst x)) (P points (fst a)) = 0). { rewrite q_orient_o, cr_anti. lra. }
  destruct (Hsing (fst x) (fst a) X1 A1 X2 A2 Nax Z') as (_ & k & Hk & Hp). rewrite q_orient_o in Hp.
  assert (Nk : k <> o). { intros ->. rewrite q_o, cr_0r in Hp. lra. }
  destruct (Hall k Hk Nk) as (b & t & Hb & Ht & Et). rewrite Et, cr_scal_r in Hp. apply in_app_iff in Hb. destruct Hb as [Hb|[<-|[]]].
  - destruct (srted_pair _ l x [] b HS) as (H2 & _). specialize (H2 Hb). pose proof (ang_cr _ _ H2). rewrite cr_anti in Hp. assert (0 <= t * cr (q (fst b)) (q (fst x))) by (apply Rmult_le_pos; lra). lra.
  - rewrite cr_self in Hp. lra.
Qed.
Lemma single_first : forall l x a, srted (x :: l) -> NoDup (map fst (x :: l)) -> (forall b, In b (x :: l) -> elt b) -> (forall i, (i < n)%nat -> i <> o -> exists b t, In b (x :: l) /\ 0 < t /\ q i = scal t (q (fst b))) -> In a l -> 0 < cr (q (fst x)) (q (fst a)).
Proof.
  intros l x a HS ND HE Hall Ha. destruct (srted_pair _ [] x l a HS) as (_ & H1). specialize (H1 Ha). pose proof (ang_cr _ _ H1) as C. destruct (Rle_lt_or_eq_dec _ _ C) as [|Z]; auto. exfalso.
  assert (Ex : elt x) by (apply HE; left; auto). assert (Ea : elt a) by (apply HE; right; auto). destruct Ex as (X1 & X2 & _), Ea as (A1 & A2 & _).
  assert (Nax : fst x <> fst a). { simpl in ND. inversion ND; subst. intros E. apply H2. rewrite E. apply in_map. auto. }
  assert (Z' : orient (P points o) (P points (fst x)) (P points (fst a)) = 0). { rewrite q_orient_o. lra. }
  destruct (Hsing (fst x) (fst a) X1 A1 X2 A2 Nax Z') as ((k & Hk & Hp) & _). rewrite q_orient_o in Hp.
  assert (Nk : k <> o). { intros ->. rewrite q_o, cr_0r in Hp. lra. }
  destruct (Hall k Hk Nk) as (b & t & Hb & Ht & Et). rewrite Et, cr_scal_r in Hp. destruct Hb as [<-|Hb].
  - rewrite cr_self in Hp. lra.
  - destruct (srted_pair _ [] x l b HS) as (_ & H2). specialize (H2 Hb). pose proof (ang_cr _ _ H2). assert (0 <= t * cr (q (fst x)) (q (fst b))) by (apply Rmult_le_pos; lra). lra.
Qed.

(** The kept points represent every direction. *)
Definition rep (l : list (nat * R)) (i : nat) : Prop := exists b t, In b l /\ 0 < t <= 1 /\ q i = scal t (q (fst b)).
Record good (l : list (nat * R)) : Prop := mkGood {
  g_s : srted l; g_nd : NoDup (map fst l); g_e : forall b, In b l -> elt b; g_r : forall i, (i < n)%nat -> i <> o -> rep l i }.

Lemma rep_weak : forall l, good l -> forall i, (i < n)%nat -> i <> o -> exists b t, In b l /\ 0 < t /\ q i = scal t (q (fst b)).
Proof. intros l G i Hi Ni. destruct (g_r _ G i Hi Ni) as (b & t & H1 & H2 & H3). exists b, t. split; auto. split; auto. lra. Qed.

Lemma collinear_ok : forall fuel i l, good l -> (1 <= i < length l)%nat -> (length l - i < fuel)%nat -> exists l', collinear fuel i l = Some l' /\ good l' /\ (2 <= length l')%nat.
Proof.
  induction fuel; intros i l G Hi Hfu. lia. simpl. destruct (Nat.leb_spec (length l) i). lia. destruct (Nat.eqb_spec (i + 1) (length l)).
  - exists l. split; auto. split; auto. lia.
  - destruct (nth_error l i) as [a|] eqn:Ea. 2: { apply nth_error_None in Ea. lia. } destruct (nth_error l (i + 1)) as [b|] eqn:Eb. 2: { apply nth_error_None in Eb. lia. }
    unfold vget. rewrite Ea, Eb. simpl bind.
    unfold ltR. destruct (Rlt_dec (Rabs (snd a - snd b)) EPSILON) as [Hc|Hc]. 2: { apply IHfuel; auto; lia. }
    destruct (nth_error_split _ _ Eb) as (A & C & El & LA). assert (F1 : firstn (i + 1) l = A). { rewrite El, <- LA. rewrite firstn_app, firstn_all, Nat.sub_diag. simpl. apply app_nil_r. }
    assert (F2 : skipn (i + 2) l = C). { rewrite El. replace (i + 2)%nat with (length A + 1)%nat by lia. rewrite skipn_app, skipn_all2 by lia. replace (length A + 1 - length A)%nat with 1%nat by lia. auto. }
    rewrite F1, F2. assert (Ha : In a A). { rewrite <- F1. assert (nth_error (firstn (i + 1) l) i = Some a). rewrite <- Ea. rewrite El at 2. rewrite F1, nth_error_app1 by lia. auto. eapply nth_error_In; eauto. }
    assert (Ia : In a l) by (rewrite El; apply in_app_iff; auto). assert (Ib : In b l) by (rewrite El; apply in_app_iff; right; left; auto). destruct (g_e _ G a Ia) as (A1 & A2 & A3). destruct (g_e _ G b Ib) as (B1 & B2 & B3).
    assert (C0 : cr (q (fst a)) (q (fst b)) = 0). { apply near_cr; auto. rewrite <- A3, <- B3. lra. }
    pose proof (g_s _ G) as GS. rewrite El in GS. pose proof (proj1 (srted_pair _ A b C a GS) Ha) as [X|(t & Ht & Et)]. exfalso. rewrite C0 in X. lra.
    destruct C as [|c C].
    + exfalso. pose proof G as G'. rewrite El in G'. pose proof (single_last A b a (g_s _ G') (g_nd _ G') (g_e _ G') (rep_weak _ G') Ha) as X. rewrite C0 in X. lra.
    + assert (LC : length l = (length A + S (S (length C)))%nat). { rewrite El, app_length. simpl. auto. } apply IHfuel.
      * split.
        -- apply (srted_remove _ A b). auto.
        -- pose proof (g_nd _ G) as N. rewrite El, map_app in N. simpl map in N. apply NoDup_remove_1 in N. rewrite map_app. auto.
        -- intros x Hx. apply (g_e _ G). rewrite El. apply in_app_iff in Hx. apply in_app_iff. destruct Hx; auto. right. right. auto.
        -- intros k Hk Nk. destruct (g_r _ G k Hk Nk) as (x & s & Hx & Hs & Es). rewrite El in Hx. apply in_app_iff in Hx. destruct Hx as [Hx|[<-|Hx]].
           ++ exists x, s. split; auto. apply in_app_iff. auto.
           ++ exists a, (s * t). split. apply in_app_iff. auto. split. split. apply Rmult_lt_0_compat; lra. nra. rewrite Es, Et. unfold scal. simpl. f_equal; ring.
           ++ exists x, s. split; auto. apply in_app_iff. auto.
      * rewrite app_length. simpl. lia.
      * rewrite app_length. simpl. lia.
Qed.

Lemma hull_ok : forall srt, sorts srt -> (3 <= n)%nat -> exists res, ConvexHull2 srt points = Some res /\ is_hull points o res.
Proof.
  intros srt Hsrt Hn. unfold ConvexHull2. rewrite lowest_ok. cbn [bind]. rewrite cosines_ok. cbn [bind]. set (l1 := srt (hull_comp points o) L0).
  destruct (Hsrt _ _ (comp_swo L0 L0_elt)) as (Pm & Sr). fold l1 in Pm, Sr.
  assert (E1 : forall a, In a l1 -> elt a). { intros a Ha. apply L0_elt. apply (Permutation_in a (Permutation_sym Pm)). auto. }
  assert (G1 : good l1).
  { split; auto.
    - apply (srted_mono _ _ _ Sr). intros a b Ha Hb H. apply comp_ang; auto.
    - apply (Permutation_NoDup (Permutation_map fst Pm)). apply L0_nodup.
    - intros i Hi Ni. pose proof (L0_all i Hi Ni) as H. apply (Permutation_in i (Permutation_map fst Pm)) in H. apply in_map_iff in H. destruct H as (b & <- & Hb). exists b, 1. split; auto. split. lra. unfold scal. rewrite !Rmult_1_l. apply surjective_pairing. }
  assert (Len : length l1 = (n - 1)%nat).
  { rewrite <- (Permutation_length Pm). pose proof L0_nodup as N. assert (P2 : Permutation (o :: map fst L0) (seq 0 n)).
    { apply NoDup_Permutation. apply NoDup_cons; auto. intros H. apply in_map_iff in H. destruct H as (a & Ea & Ia). destruct (L0_elt a Ia) as (_ & X & _). auto. apply seq_NoDup.
      intros x. rewrite in_seq. split. intros [<-|H]. lia. apply in_map_iff in H. destruct H as (a & <- & Ia). destruct (L0_elt a Ia). lia. intros Hx. destruct (Nat.eq_dec x o) as [->|]. left; auto. right. apply L0_all; auto. lia. }
    apply Permutation_length in P2. rewrite seq_length in P2. simpl in P2. rewrite map_length in P2. lia. }
  destruct (collinear_ok (S (length l1)) 1 l1 G1 ltac:(lia) ltac:(lia)) as (l2 & Ec & G2 & L2). rewrite Ec. cbn [bind]. destruct l2 as [|f l]. simpl in L2; lia. simpl app. cbn [vget nth_error bind tl].
  assert (Ef : elt f) by (apply (g_e _ G2); left; auto). destruct Ef as (F1 & F2 & F3).
  assert (Hl : l <> []) by (destruct l; [simpl in L2; lia|discriminate]).
  assert (Fp : forall a, In a l -> 0 < cr (q (fst f)) (q (fst a))). { intros a Ha. apply (single_first l f a (g_s _ G2) (g_nd _ G2) (g_e _ G2) (rep_weak _ G2) Ha). }
  pose proof (g_s _ G2) as GS. inversion GS as [|? ? GS' GF]; subst. rewrite Forall_forall in GF.
  assert (I0 : Inv points o (fst f) []).
  { split; simpl; auto. intros x []. constructor; auto. constructor. intros x [].
    intros b a x (u & v & E) Hx. destruct u as [|x1 [|x2 [|x3 u]]]; simpl in E; try discriminate. injection E as <- <-. destruct Hx as [<-|[<-|[]]]; rewrite turn_cr, ?q_o, ?cr_0l, ?cr_0r, ?cr_self; lra. }
  destruct (scan_ok points o (fst f) Ho F1 l [(o, 0)] [] I0) as (u & Es & Iu & Un & Ui & Und & Uh).
  { intros y Hy. split; auto. apply (g_e _ G2). right. auto. }
  { intros x y [<-|[]] Hy. apply GF. auto. }
  { auto. }
  change (fun (p3 : nat * R) (stack : list nat) => s <- pops points (fst p3) stack;; Some (fst p3 :: s)) with (step points). change [fst f; o] with ([] ++ [fst f; o]). rewrite Es. clear Es. simpl foldM. unfold step. simpl fst.
  destruct (close_ok points o (fst f) Ho F1 u Iu (Un (or_introl Hl))) as (w & u' & Eu & U' & Ep & Et & Eh). rewrite Ep. simpl bind.
  assert (Iu' : Inv points o (fst f) u'). { subst u. clear - Iu. induction w; auto. apply IHw. eapply Inv_tail; eauto. }
  set (stk := o :: u' ++ [fst f; o]). exists (rev stk). split; auto.
  destruct u' as [|l' m]. contradiction. clear U'.
  assert (Res : rev stk = o :: fst f :: rev m ++ [l'; o]). { unfold stk. simpl. rewrite rev_app_distr. simpl. rewrite <- app_assoc. auto. }
  assert (Q : forall a b c, orient (P points a) (P points b) (P points c) = turn (q a) (q b) (q c)) by (intros; apply q_orient).
  assert (Hh : forall k, (k < n)%nat -> forall S : pnt -> Prop, (forall x, In x stk -> hull S (q x)) -> hull S (q k)).
  { intros k Hk S HS. assert (HS' : forall x, In x ((l' :: m) ++ [fst f; o]) -> hull S (q x)) by (intros; apply HS; right; auto).
    destruct (Nat.eq_dec k o) as [->|Nk]. apply HS. left; auto.
    assert (Hu : forall x, In x (u ++ [fst f; o]) -> hull S (q x)). { intros x Hx. apply in_app_iff in Hx. destruct Hx as [Hx|Hx]. apply (Eh S HS'); auto. apply HS'. apply in_app_iff. auto. }
    destruct (g_r _ G2 k Hk Nk) as (b & t & Hb & Ht & Eb). rewrite Eb. apply hull_scal. rewrite <- (q_o points o). apply HS. left; auto. 2: lra. destruct Hb as [<-|Hb]. apply HS'. apply in_app_iff. right. left. auto.
    apply (Uh S Hu). right. apply in_map. auto. }
  assert (Hin : forall x, In x ((l' :: m) ++ [fst f]) -> x <> o /\ (x < n)%nat).
  { intros x Hx. apply in_app_iff in Hx. destruct Hx as [Hx|[<-|[]]]; auto. assert (Hx' : In x u) by (rewrite Eu; apply in_app_iff; auto). split. 2: apply (I_rng _ _ _ _ Iu x); auto. destruct (Ui x Hx') as [[]|H]. apply in_map_iff in H. destruct H as (a & <- & Ha). apply (g_e _ G2). right; auto. }
  exists (fst f), (rev m), l'. rewrite Res. split; auto. split; [|split; [|split; [|split; [|split]]]].
  - assert (N : NoDup (o :: (l' :: m) ++ [fst f])).
    { apply NoDup_cons. intros H. destruct (Hin o H). auto. rewrite Eu in Und. specialize (Und). simpl app in Und. pose proof (g_nd _ G2) as N2. simpl in N2. inversion N2; subst. specialize (Und H2). apply NoDup_app_r in Und.
      apply (Permutation_NoDup (l := fst f :: (l' :: m))). apply Permutation_cons_append. apply NoDup_cons; auto. intros H. apply H1. assert (Hx' : In (fst f) (w ++ l' :: m)) by (apply in_app_iff; auto). destruct (Ui _ Hx') as [[]|]; auto. }
    apply (Permutation_NoDup (l := o :: (l' :: m) ++ [fst f])); auto. apply perm_skip. rewrite (Permutation_rev ((l' :: m) ++ [fst f])). simpl. rewrite rev_app_distr. simpl. auto.
  - intros i Hi. rewrite <- Res in Hi. apply in_rev in Hi. unfold stk in Hi. destruct Hi as [<-|Hi]; auto. change [fst f; o] with ([fst f] ++ [o]) in Hi. rewrite app_assoc in Hi. apply in_app_iff in Hi. destruct Hi as [Hi|[<-|[]]]; auto. apply Hin; auto.
  - intros i j k H. rewrite <- Res in H. apply next3_rev in H. rewrite Q. assert (Ch : chain points o stk).
    { unfold stk. pose proof (I_ch _ _ _ _ Iu') as C. simpl app in *. destruct (m ++ [fst f; o]) as [|p1 v] eqn:Em. destruct m; discriminate. split; auto. rewrite q_o, turn_cr, !cr_0r. assert (E : exists v', (l' :: m) ++ [fst f] = l' :: p1 :: v').
      { destruct m; simpl in *; injection Em as -> _; eauto. } destruct E as (v' & E). pose proof (Et _ _ _ E). lra. }
    destruct H as (a & v & E). rewrite E in Ch. clear - Ch. induction a as [|x a IH]. simpl in Ch. apply Ch. apply IH. simpl app in Ch. destruct (a ++ k :: j :: i :: v) as [|y [|z t]]; simpl; auto. apply Ch.
  - rewrite Q, q_o, turn_cr, !cr_0r, !cr_0l. pose proof (I_f _ _ _ _ Iu' l' (or_introl eq_refl)). rewrite (cr_anti (q l')). lra.
  - intros i j k H Hk. rewrite <- Res in H. apply next2_rev in H. rewrite Q. set (S := fun y => exists x, In x stk /\ y = q x). apply (hull_left S). apply (Hh k Hk). intros x Hx. apply hull_in. exists x. auto.
    intros y (x & Hx & ->). unfold stk in H. apply next2_cons in H. destruct H as [(-> & v & E)|H].
    + simpl in E. injection E as <- _. rewrite q_o, turn_cr, !cr_0r, cr_0l. assert (0 <= cr (q x) (q l')). 2: { rewrite (cr_anti (q l')). lra. }
      destruct Hx as [<-|Hx]. rewrite q_o, cr_0l. lra. destruct Hx as [<-|Hx]. rewrite cr_self. lra. apply in_app_iff in Hx. assert (Hx' : x = o \/ In x (m ++ [fst f])). { destruct Hx as [Hx|[Hx|[Hx|[]]]]; auto. right. apply in_app_iff. auto. right. apply in_app_iff. right. left. auto. }
      destruct Hx' as [->|Hx']. rewrite q_o, cr_0l. lra. apply ang_cr. apply (above_hd points o l' (m ++ [fst f])); auto. apply (I_an _ _ _ _ Iu').
    + apply (I_cv _ _ _ _ Iu'); auto. destruct Hx as [<-|Hx]; auto. apply in_app_iff. right. right. left. auto.
  - intros k Hk. rewrite <- Res. assert (Hp : forall i, P points i = (fst (q i) + fst (P points o), snd (q i) + snd (P points o))). { intros i. unfold HullProofs2.q. simpl. rewrite (surjective_pairing (P points i)) at 1. f_equal; ring. }
    rewrite (Hp k). assert (H : hull (fun y => exists x, In x stk /\ y = q x) (q k)). { apply (Hh k Hk). intros x Hx. apply hull_in. exists x. auto. }
    apply (hull_translate _ (fst (P points o)) (snd (P points o))) in H. apply (hull_mono _ _ _ H). intros y (z & (x & Hx & ->) & ->). apply hull_in. exists x. split. apply -> in_rev. auto. symmetry. apply Hp.
Qed.
End T.
