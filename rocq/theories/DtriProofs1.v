From Coq Require Import List Arith Lia Bool.
Import ListNotations.
From Verif Require Import Imp DtriModel DtriSpec.

Arguments V : simpl never.
Arguments L : simpl never.
Arguments nx : simpl never.
Arguments pv : simpl never.

Lemma i3 : forall i, i < 3 -> i = 0 \/ i = 1 \/ i = 2.
Proof. lia. Qed.
Ltac c3 i := match goal with H : i < 3 |- _ => destruct (i3 i H) as [-> | [-> | ->]]; clear H end.

Lemma nx_lt : forall i, nx i < 3. Proof. intros. apply Nat.mod_upper_bound. lia. Qed.
Lemma pv_lt : forall i, pv i < 3. Proof. intros. apply Nat.mod_upper_bound. lia. Qed.
#[export] Hint Resolve nx_lt pv_lt : core.

Lemma gv_vtx : forall t i, i < 3 -> gv t i = Some (vtx t i).
Proof. intros t i Hi. c3 i; reflexivity. Qed.
Lemma gs_lnk : forall t i, i < 3 -> gs t i = Some (lnk t i).
Proof. intros t i Hi. c3 i; reflexivity. Qed.
Lemma gs_some : forall t i l, gs t i = Some l -> i < 3 /\ lnk t i = l.
Proof. intros t i l H. destruct i as [|[|[|i]]]; simpl in *; inversion H; split; auto; lia. Qed.

Definition setl (t : dtri) (i : nat) (w : option nat) : dtri :=
  match i with
  | 0 => mkT (tv0 t) (tv1 t) (tv2 t) w (ts1 t) (ts2 t)
  | 1 => mkT (tv0 t) (tv1 t) (tv2 t) (ts0 t) w (ts2 t)
  | _ => mkT (tv0 t) (tv1 t) (tv2 t) (ts0 t) (ts1 t) w
  end.
Lemma ss_setl : forall t i w, i < 3 -> ss t i w = Some (setl t i w).
Proof. intros t i w Hi. c3 i; reflexivity. Qed.
Lemma vtx_setl : forall t i w c, vtx (setl t i w) c = vtx t c.
Proof. intros. destruct i as [|[|i]], c as [|[|c]]; reflexivity. Qed.
Lemma lnk_setl : forall t i w c, i < 3 -> c < 3 -> lnk (setl t i w) c = if Nat.eq_dec i c then w else lnk t c.
Proof. intros t i w c Hi Hc. c3 i; c3 c; reflexivity. Qed.

Lemma set_s2_ok : forall m j i w, j < length m -> i < 3 ->
  set_s2 m j i w = Some (upd m j (setl (nth j m dtri0) i w)).
Proof.
  intros. unfold set_s2. rewrite (vget_nth _ dtri0) by auto. cbn [bind]. rewrite ss_setl by auto. cbn [bind].
  apply vset_upd. auto.
Qed.

Lemma V_upd : forall m a T t c, a < length m -> V (upd m a T) t c = if Nat.eq_dec a t then vtx T c else V m t c.
Proof. intros. unfold V. rewrite nth_upd by auto. destruct Nat.eq_dec; auto. Qed.
Lemma L_upd : forall m a T t c, a < length m -> L (upd m a T) t c = if Nat.eq_dec a t then lnk T c else L m t c.
Proof. intros. unfold L. rewrite nth_upd by auto. destruct Nat.eq_dec; auto. Qed.

Lemma twin_sym : forall m t i j k, twin m t i j k -> twin m j k t i.
Proof. unfold twin. intuition. Qed.

Lemma nx_inj : forall i j, i < 3 -> j < 3 -> nx i = nx j -> i = j.
Proof. intros i j Hi Hj. c3 i; c3 j; simpl; auto; discriminate. Qed.

Lemma twin_fun : forall m t i j k j' k', tri_ok m -> t < length m -> twin m t i j k -> twin m t i j' k' -> j = j' /\ k = k'.
Proof.
  intros m t i j k j' k' H Ht (Hi & Hk & H1 & H2 & H3 & H4) (_ & Hk' & H1' & H2' & H3' & H4').
  rewrite H1 in H1'. inversion H1'; subst j'. split; auto.
  destruct (H t Ht) as (_ & _ & Hl). destruct (Hl _ _ Hi H1) as (Hj & _).
  destruct (H j Hj) as (Hv & _). apply nx_inj; auto. apply Hv; auto. congruence.
Qed.

Lemma twin_dec : forall m t i j k, {twin m t i j k} + {~ twin m t i j k}.
Proof.
  intros. unfold twin.
  assert (D : forall a b : option nat, {a = b} + {a <> b}) by (decide equality; apply Nat.eq_dec).
  destruct (lt_dec i 3); [|right; tauto]. destruct (lt_dec k 3); [|right; tauto].
  destruct (D (L m t i) (Some j)); [|right; tauto]. destruct (D (L m j k) (Some t)); [|right; tauto].
  destruct (Nat.eq_dec (V m t (nx i)) (V m j (pv k))); [|right; tauto].
  destruct (Nat.eq_dec (V m t (pv i)) (V m j (nx k))); [|right; tauto].
  left; tauto.
Qed.

(** A triangle is not linked to itself, and not twice to the same one. *)
Lemma no_self : forall m t i, tri_ok m -> t < length m -> i < 3 -> L m t i <> Some t.
Proof.
  intros m t i H Ht Hi E. destruct (H t Ht) as (Hv & _ & Hl). destruct (Hl _ _ Hi E) as (_ & k & _ & Hk & _ & _ & E1 & E2).
  apply Hv in E1; auto. apply Hv in E2; auto. c3 i; c3 k; discriminate.
Qed.

Lemma L_lt : forall m t i j, tri_ok m -> t < length m -> i < 3 -> L m t i = Some j -> j < length m.
Proof. intros m t i j H Ht Hi E. destruct (H t Ht) as (_ & _ & Hl). destruct (Hl _ _ Hi E). auto. Qed.

Lemma L_twin : forall m t i j, tri_ok m -> t < length m -> i < 3 -> L m t i = Some j -> exists k, twin m t i j k.
Proof. intros m t i j H Ht Hi E. destruct (H t Ht) as (_ & _ & Hl). destruct (Hl _ _ Hi E). auto. Qed.

Lemma FindAdj_ok : forall m m' r i j k, tri_ok m -> r < length m -> twin m r i j k -> j < length m' ->
  (forall c, c < 3 -> V m' j c = V m j c) ->
  FindAdjEdgeIndex (nth r m dtri0) i m' = Some k.
Proof.
  intros m m' r i j k H Hr HT Hj HV. pose proof HT as (Hi & Hk & H1 & H2 & H3 & H4).
  unfold FindAdjEdgeIndex. change ((i + 1) mod 3) with (nx i). change ((i + 2) mod 3) with (pv i).
  rewrite !gv_vtx by auto. cbn [bind]. rewrite gs_lnk by auto. change (lnk (nth r m dtri0) i) with (L m r i).
  change (vtx (nth r m dtri0) (nx i)) with (V m r (nx i)). change (vtx (nth r m dtri0) (pv i)) with (V m r (pv i)).
  destruct (H r Hr) as (Hv & _ & _).
  destruct (Nat.eqb_spec (V m r (nx i)) (V m r (pv i))) as [E|E].
  { apply Hv in E; auto. c3 i; discriminate. }
  cbn [negb assertb bind]. rewrite H1. cbn [bind]. rewrite (vget_nth _ dtri0) by auto. cbn [bind].
  change (tv0 (nth j m' dtri0)) with (V m' j 0). change (tv1 (nth j m' dtri0)) with (V m' j 1).
  change (tv2 (nth j m' dtri0)) with (V m' j 2). rewrite !HV by lia.
  assert (Hj' : j < length m) by (apply (L_lt m r i j); auto).
  destruct (H j Hj') as (Hw & _ & _).
  assert (N01 : V m j 0 <> V m j 1) by (intro X; apply Hw in X; lia).
  assert (N02 : V m j 0 <> V m j 2) by (intro X; apply Hw in X; lia).
  assert (N12 : V m j 1 <> V m j 2) by (intro X; apply Hw in X; lia).
  c3 k; [change (pv 0) with 2 in *; change (nx 0) with 1 in *|change (pv 1) with 0 in *; change (nx 1) with 2 in *
        |change (pv 2) with 1 in *; change (nx 2) with 0 in *]; rewrite H3, H4; rewrite ?Nat.eqb_refl; cbn [andb]; auto;
    repeat match goal with |- context[?x =? ?y] => destruct (Nat.eqb_spec x y); try congruence; cbn [andb] end; auto.
Qed.

Lemma relink_ok : forall m m' r i w, tri_ok m -> r < length m -> i < 3 -> length m <= length m' ->
  (forall j c, L m r i = Some j -> c < 3 -> V m' j c = V m j c) ->
  wp (relink (nth r m dtri0) i w m') (fun m'' =>
    length m'' = length m' /\ (forall t c, V m'' t c = V m' t c) /\
    (forall t c, c < 3 -> twin m r i t c -> L m'' t c = Some w) /\
    (forall t c, c < 3 -> ~ twin m r i t c -> L m'' t c = L m' t c)).
Proof.
  intros m m' r i w H Hr Hi Hlen HV. unfold relink. rewrite gs_lnk by auto.
  change (lnk (nth r m dtri0) i) with (L m r i). cbn [bind].
  destruct (L m r i) as [j|] eqn:E.
  - destruct (L_twin m r i j H Hr Hi E) as (k & HT).
    assert (Hj : j < length m) by (apply (L_lt m r i j); auto).
    apply wp_bind. apply wp_assertb. { apply Nat.ltb_lt. lia. }
    rewrite (FindAdj_ok m m' r i j k) by (auto; lia). cbn [bind].
    assert (Hk : k < 3) by apply HT.
    rewrite set_s2_ok by (auto; lia). apply wp_some. split; [lens; auto|]. split; [|split].
    + intros t c. rewrite V_upd by lia. destruct Nat.eq_dec; auto. subst. apply vtx_setl.
    + intros t c Hc HT'. destruct (twin_fun _ _ _ _ _ _ _ H Hr HT HT') as (-> & ->).
      rewrite L_upd by lia. destruct Nat.eq_dec; [|tauto]. rewrite lnk_setl by auto. destruct Nat.eq_dec; tauto.
    + intros t c Hc HN. rewrite L_upd by lia. destruct Nat.eq_dec; auto. subst t.
      rewrite lnk_setl by auto. destruct Nat.eq_dec; auto. subst c. tauto.
  - apply wp_some. split; auto. split; auto. split; auto.
    intros t c Hc (_ & _ & E' & _). congruence.
Qed.

(** Re-triangulation: triangles [R] of [m] are replaced by the triangles [R] and those beyond [length m] of [f]. *)
Section Retri.
Variables (m f : list dtri) (R : nat -> Prop) (own : nat -> nat -> nat).
Hypothesis Hm : tri_ok m.
Hypothesis Hlen : length m <= length f.
Hypothesis HR : forall r, R r -> r < length m.
Hypothesis Rdec : forall t, {R t} + {~ R t}.
Hypothesis old_V : forall t c, t < length m -> ~ R t -> c < 3 -> V f t c = V m t c.
Hypothesis old_L1 : forall t c r k, t < length m -> ~ R t -> R r -> twin m t c r k -> L f t c = Some (own r k).
Hypothesis old_L2 : forall t c, t < length m -> ~ R t -> c < 3 -> (forall r, R r -> L m t c <> Some r) -> L f t c = L m t c.
Hypothesis new_tri : forall n, R n \/ length m <= n < length f ->
  (forall i j, i < 3 -> j < 3 -> V f n i = V f n j -> i = j) /\
  (forall i j, i < 3 -> j < 3 -> L f n i = L f n j -> L f n i <> None -> i = j).
(** each edge of a new triangle is linked inside the new part or takes over an outer edge of the removed part *)
Hypothesis new_edge : forall n k, R n \/ length m <= n < length f -> k < 3 ->
  (exists n' k', n' < length f /\ twin f n k n' k') \/
  (exists r i, R r /\ i < 3 /\ (forall r', R r' -> L m r i <> Some r') /\ own r i = n /\
     L f n k = L m r i /\ V f n (nx k) = V m r (nx i) /\ V f n (pv k) = V m r (pv i)).
Hypothesis outer_edge : forall r i t, R r -> i < 3 -> L m r i = Some t -> ~ R t ->
  own r i < length f /\ (R (own r i) \/ length m <= own r i) /\
  exists k, k < 3 /\ L f (own r i) k = L m r i /\ V f (own r i) (nx k) = V m r (nx i) /\ V f (own r i) (pv k) = V m r (pv i).
Hypothesis own_inj : forall r i r' i' t, R r -> R r' -> i < 3 -> i' < 3 -> ~ R t ->
  L m r i = Some t -> L m r' i' = Some t -> own r i = own r' i' -> r = r' /\ i = i'.

Lemma retri_ok : tri_ok f.
Proof.
  intros t Ht.
  destruct (Rdec t) as [HRt|HRt]; [|destruct (lt_dec t (length m)) as [Htm|Htm]].
  1,3: (assert (HN : R t \/ length m <= t < length f) by (first [left; assumption|right; lia]);
    destruct (new_tri t HN) as (Q1 & Q2); split; [exact Q1|split; [exact Q2|]];
    intros i j Hi E; destruct (new_edge t i HN Hi) as [(n' & k' & Hn' & HT)|(r & i' & Hr & Hi' & Hno & Hown & EL & E1 & E2)];
    [ assert (j = n') by (destruct HT as (_ & _ & X & _); congruence); subst j; split; auto; exists k'; auto
    | rewrite EL in E; destruct (L_twin m r i' j Hm (HR r Hr) Hi' E) as (l & HT);
      assert (Hj : j < length m) by (apply (L_lt m r i' j); auto);
      assert (HRj : ~ R j) by (intro X; apply (Hno j X); auto);
      split; [lia|]; exists l; destruct HT as (T1 & T2 & T3 & T4 & T5 & T6);
      assert (HT' : twin m j l r i') by (unfold twin; repeat split; auto);
      assert (EJ : L f j l = Some t) by (rewrite (old_L1 j l r i'); auto; congruence);
      unfold twin; repeat split; auto; [congruence| |];
      rewrite ?E1, ?E2, ?old_V by auto; auto ]).
  destruct (Hm t Htm) as (Q1 & Q2 & Q3).
  split. { intros i j Hi Hj. rewrite !old_V by auto. auto. }
  (* classification of the links of an old triangle *)
  assert (CL : forall c, c < 3 ->
     (exists r k, R r /\ twin m t c r k /\ L f t c = Some (own r k)) \/
     ((forall r, R r -> L m t c <> Some r) /\ L f t c = L m t c)).
  { intros c Hc. destruct (L m t c) as [j|] eqn:E.
    - destruct (Rdec j) as [HRj|HRj].
      + left. destruct (L_twin m t c j Hm Htm Hc E) as (k & HT). exists j, k. split; [auto|]. split; [auto|]. apply old_L1; auto.
      + right. assert (forall r, R r -> Some j <> Some r) by (intros r Hr X; inversion X; subst; auto).
        split; auto. rewrite <- E. apply old_L2; auto. rewrite E. auto.
    - right. split. intros; discriminate. rewrite <- E. apply old_L2; auto. rewrite E. intros; discriminate. }
  split.
  - intros i j Hi Hj E Hn.
    destruct (CL i Hi) as [(r & k & Hr & HT & E1)|(Hno & E1)], (CL j Hj) as [(r' & k' & Hr' & HT' & E2)|(Hno' & E2)].
    + rewrite E1, E2 in E. inversion E as [EE].
      pose proof (twin_sym _ _ _ _ _ HT) as HTs. pose proof (twin_sym _ _ _ _ _ HT') as HTs'.
      destruct HTs as (A1 & A2 & A3 & A4 & _). destruct HTs' as (B1 & B2 & B3 & B4 & _).
      destruct (own_inj r k r' k' t) as (-> & ->); auto.
      apply (twin_fun m r' k' t i t j); auto using twin_sym.
    + exfalso. rewrite E1, E2 in E. symmetry in E.
      assert (HTs := twin_sym _ _ _ _ _ HT). destruct HTs as (A1 & A2 & A3 & A4 & _).
      destruct (outer_edge r k t Hr A1 A3 HRt) as (O1 & [O2|O2] & _).
      * apply (Hno' _ O2 E).
      * apply (L_lt m t j) in E; auto. lia.
    + exfalso. rewrite E1, E2 in E.
      assert (HTs := twin_sym _ _ _ _ _ HT'). destruct HTs as (A1 & A2 & A3 & A4 & _).
      destruct (outer_edge r' k' t Hr' A1 A3 HRt) as (O1 & [O2|O2] & _).
      * apply (Hno _ O2 E).
      * apply (L_lt m t i) in E; auto. lia.
    + rewrite E1, E2 in E. rewrite E1 in Hn. apply Q2; auto.
  - intros i j Hi E. destruct (CL i Hi) as [(r & k & Hr & HT & E1)|(Hno & E1)].
    + rewrite E1 in E. inversion E; subst j. clear E.
      assert (HTs := twin_sym _ _ _ _ _ HT). destruct HTs as (A1 & A2 & A3 & A4 & A5 & A6).
      destruct (outer_edge r k t Hr A1 A3 HRt) as (O1 & O2 & k' & O3 & O4 & O5 & O6).
      split; auto. exists k'. unfold twin. repeat split; auto; try congruence.
      * rewrite old_V by auto. congruence.
      * rewrite old_V by auto. congruence.
    + rewrite E1 in E. assert (Hj : j < length m) by (apply (L_lt m t i j); auto).
      assert (HRj : ~ R j) by (intro X; apply (Hno j X); auto).
      split; [lia|]. destruct (L_twin m t i j Hm Htm Hi E) as (k & HT). exists k.
      pose proof HT as (A1 & A2 & A3 & A4 & A5 & A6).
      unfold twin. repeat split; auto; try congruence; rewrite ?old_V by auto; auto.
      rewrite old_L2; auto. intros r Hr X. rewrite A4 in X. inversion X; subst; auto.
Qed.
End Retri.
