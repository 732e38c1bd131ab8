(** Turning around a point: fans as finite lists. *)
From Coq Require Import List Arith Lia Bool Relations.
Import ListNotations.
From Verif Require Import Imp DtriModel DtriSpec CollModel CollSpec DtriProofs1 DtriProofs2 DtriProofs4.

Lemma nx_pv : forall i, i < 3 -> nx (pv i) = i. Proof. intros i Hi. c3 i; reflexivity. Qed.
Lemma pv_nx : forall i, i < 3 -> pv (nx i) = i. Proof. intros i Hi. c3 i; reflexivity. Qed.
Lemma nx_nx : forall i, i < 3 -> nx (nx i) = pv i. Proof. intros i Hi. c3 i; reflexivity. Qed.
Lemma pv_pv : forall i, i < 3 -> pv (pv i) = nx i. Proof. intros i Hi. c3 i; reflexivity. Qed.
Lemma nx_ne : forall i, i < 3 -> nx i <> i. Proof. intros i Hi. c3 i; discriminate. Qed.
Lemma pv_ne : forall i, i < 3 -> pv i <> i. Proof. intros i Hi. c3 i; discriminate. Qed.
Lemma nx_ne_pv : forall i, i < 3 -> nx i <> pv i. Proof. intros i Hi. c3 i; discriminate. Qed.
Lemma ix3 : forall i j, i < 3 -> j < 3 -> j = i \/ j = nx i \/ j = pv i.
Proof. intros i j Hi Hj. c3 i; c3 j; auto. Qed.

Definition vc (m : list dtri) (c : nat * nat) : Prop := fst c < length m /\ snd c < 3.
Definition P (m : list dtri) (c : nat * nat) : nat := V m (fst c) (snd c).
Definition far (m : list dtri) (c : nat * nat) : nat := V m (fst c) (pv (snd c)).

(** FindAdjEdgeIndex from a local picture only *)
Lemma FindAdj_loc : forall m r i j k, r < length m -> j < length m -> twin m r i j k ->
  (forall a b, a < 3 -> b < 3 -> V m r a = V m r b -> a = b) ->
  (forall a b, a < 3 -> b < 3 -> V m j a = V m j b -> a = b) ->
  FindAdjEdgeIndex (nth r m dtri0) i m = Some k.
Proof.
  intros m r i j k Hr Hj HT Hv Hw. pose proof HT as (Hi & Hk & H1 & H2 & H3 & H4).
  unfold FindAdjEdgeIndex. change ((i + 1) mod 3) with (nx i). change ((i + 2) mod 3) with (pv i).
  rewrite !gv_vtx by auto. cbn [bind]. rewrite gs_lnk by auto. change (lnk (nth r m dtri0) i) with (L m r i).
  change (vtx (nth r m dtri0) (nx i)) with (V m r (nx i)). change (vtx (nth r m dtri0) (pv i)) with (V m r (pv i)).
  destruct (Nat.eqb_spec (V m r (nx i)) (V m r (pv i))) as [E|E].
  { apply Hv in E; auto. c3 i; discriminate. }
  cbn [negb assertb bind]. rewrite H1. cbn [bind]. rewrite (vget_nth _ dtri0) by auto. cbn [bind].
  change (tv0 (nth j m dtri0)) with (V m j 0). change (tv1 (nth j m dtri0)) with (V m j 1).
  change (tv2 (nth j m dtri0)) with (V m j 2).
  assert (N01 : V m j 0 <> V m j 1) by (intro X; apply Hw in X; lia).
  assert (N02 : V m j 0 <> V m j 2) by (intro X; apply Hw in X; lia).
  assert (N12 : V m j 1 <> V m j 2) by (intro X; apply Hw in X; lia).
  c3 k; [change (pv 0) with 2 in *; change (nx 0) with 1 in *|change (pv 1) with 0 in *; change (nx 1) with 2 in *
        |change (pv 2) with 1 in *; change (nx 2) with 0 in *]; rewrite H3, H4; rewrite ?Nat.eqb_refl; cbn [andb]; auto;
    repeat match goal with |- context[?x =? ?y] => destruct (Nat.eqb_spec x y); try congruence; cbn [andb] end; auto.
Qed.

(** One counter-clockwise move, with any sentinel *)
Lemma MoveCCW_go : forall m c c' s, vc m c -> vc m c' -> turn m c c' -> s <> Some (fst c') ->
  (forall a b, a < 3 -> b < 3 -> V m (fst c) a = V m (fst c) b -> a = b) ->
  (forall a b, a < 3 -> b < 3 -> V m (fst c') a = V m (fst c') b -> a = b) ->
  MoveCCW (fst c) (snd c) s m = Some (Some c').
Proof.
  intros m (t, i) (j, c) s (Ht & Hi) (Hj & Hc) (k & HT & E) Hs Hv Hw. cbn [fst snd] in *. subst c.
  pose proof HT as (_ & Hk & H1 & H2 & H3 & H4).
  unfold MoveCCW. rewrite (vget_nth _ dtri0) by auto. cbn [bind]. change ((i + 1) mod 3) with (nx i).
  rewrite gs_lnk by auto. cbn [bind]. change (lnk (nth t m dtri0) (nx i)) with (L m t (nx i)). rewrite H1.
  destruct (onat_eqP (Some j) s) as [X|_]; [congruence|]. cbn [bind].
  rewrite (vget_nth _ dtri0) by auto. cbn [bind]. rewrite (FindAdj_loc m t (nx i) j k) by auto. cbn [bind].
  change ((k + 1) mod 3) with (nx k). rewrite !gv_vtx by auto. cbn [bind].
  change (vtx (nth t m dtri0) i) with (V m t i). change (vtx (nth j m dtri0) (nx k)) with (V m j (nx k)).
  rewrite pv_nx in H4 by auto. rewrite H4, Nat.eqb_refl. reflexivity.
Qed.
Lemma MoveCCW_stop : forall m c s, vc m c -> L m (fst c) (nx (snd c)) = s -> MoveCCW (fst c) (snd c) s m = Some None.
Proof.
  intros m (t, i) s (Ht & Hi) E. cbn [fst snd] in *. unfold MoveCCW. rewrite (vget_nth _ dtri0) by auto. cbn [bind].
  change ((i + 1) mod 3) with (nx i). rewrite gs_lnk by auto. cbn [bind].
  change (lnk (nth t m dtri0) (nx i)) with (L m t (nx i)). rewrite E. destruct (onat_eqP s s); [reflexivity|congruence].
Qed.

Lemma NoDup_snoc : forall {T} (l : list T) x, NoDup l -> ~ In x l -> NoDup (l ++ [x]).
Proof.
  intros T l x Hl Hx. apply NoDup_rev in Hl. rewrite <- (rev_involutive (l ++ [x])). apply NoDup_rev. rewrite rev_app_distr. cbn.
  constructor; auto. rewrite <- in_rev. auto.
Qed.

Section Turn.
Variable m : list dtri.
Hypothesis Hm : tri_ok m.

Lemma turn_vc : forall c c', vc m c -> turn m c c' -> vc m c'.
Proof.
  intros c c' (Ht & Hi) (k & HT & E). split.
  - destruct HT as (H1 & _ & H2 & _). apply (L_lt m (fst c) (nx (snd c))); auto.
  - rewrite E. auto.
Qed.
Lemma turn_P : forall c c', vc m c -> turn m c c' -> P m c' = P m c.
Proof.
  intros c c' (Ht & Hi) (k & HT & E). unfold P. rewrite E. destruct HT as (_ & _ & _ & _ & _ & H). rewrite <- H, pv_nx; auto.
Qed.
Lemma turn_fun : forall c c1 c2, vc m c -> turn m c c1 -> turn m c c2 -> c1 = c2.
Proof.
  intros c (a1, b1) (a2, b2) (Ht & Hi) (k1 & T1 & E1) (k2 & T2 & E2). cbn [fst snd] in *.
  destruct (twin_fun _ _ _ _ _ _ _ Hm Ht T1 T2) as (-> & ->). congruence.
Qed.
Lemma turn_inj : forall c1 c2 c, vc m c1 -> vc m c2 -> turn m c1 c -> turn m c2 c -> c1 = c2.
Proof.
  intros (a1, b1) (a2, b2) c V1 V2 T1 T2. pose proof (turn_vc _ _ V1 T1) as (Hc & _).
  destruct T1 as (k1 & T1 & E1), T2 as (k2 & T2 & E2), V1 as (_ & B1), V2 as (_ & B2). cbn [fst snd] in *.
  assert (k1 = k2) by (apply nx_inj; [apply T1|apply T2|congruence]). subst k2.
  destruct (twin_fun _ _ _ _ _ _ _ Hm Hc (twin_sym _ _ _ _ _ T1) (twin_sym _ _ _ _ _ T2)) as (-> & X).
  apply nx_inj in X; auto; f_equal; auto.
Qed.
Lemma turn_next : forall c, vc m c -> (exists c', turn m c c') \/ L m (fst c) (nx (snd c)) = None.
Proof.
  intros c (Ht & Hi). destruct (L m (fst c) (nx (snd c))) as [j|] eqn:E; [left|auto].
  destruct (L_twin m _ _ j Hm Ht (nx_lt _) E) as (k & HT). exists (j, nx k). exists k. auto.
Qed.
Lemma turn_prev : forall c, vc m c -> (exists c', turn m c' c /\ vc m c') \/ L m (fst c) (pv (snd c)) = None.
Proof.
  intros c (Ht & Hi). destruct (L m (fst c) (pv (snd c))) as [j|] eqn:E; [left|auto].
  destruct (L_twin m _ _ j Hm Ht (pv_lt _) E) as (k & HT). assert (Hk : k < 3) by apply HT.
  exists (j, pv k). split; [|split; cbn; auto].
  - exists (pv (snd c)). cbn. rewrite !nx_pv by auto. split; auto. apply twin_sym; auto.
  - apply (L_lt m (fst c) (pv (snd c))); auto.
Qed.
Lemma turn_link : forall c c', turn m c c' -> L m (fst c) (nx (snd c)) = Some (fst c').
Proof. intros c c' (k & T & _). apply T. Qed.

Lemma around_vc : forall c c', vc m c -> around m c c' -> vc m c' /\ P m c' = P m c.
Proof.
  intros c c' Hc H. apply clos_rt_rt1n in H. revert Hc. induction H as [|c c1 c2 H1 H2 IH]; intros Hc; auto.
  pose proof (turn_vc _ _ Hc H1) as V1. destruct (IH V1) as (X & Y). split; auto. rewrite Y. apply turn_P; auto.
Qed.

(** two corners of one triangle at one point *)
Lemma corner_eq : forall c c', vc m c -> vc m c' -> P m c = P m c' -> fst c = fst c' -> c = c'.
Proof.
  intros (t, i) (t', i') (Ht & Hi) (Ht' & Hi') E E'. unfold P in E. cbn [fst snd] in *. subst t'. f_equal.
  destruct (Hm t Ht) as (Q & _). apply Q; auto.
Qed.

(** a path of turns *)
Fixpoint path (c : nat * nat) (l : list (nat * nat)) : Prop :=
  match l with [] => True | c' :: l' => turn m c c' /\ path c' l' end.
Definition lastc (c : nat * nat) (l : list (nat * nat)) := last (c :: l) (0, 0).
Lemma lastc_cons : forall c a l, lastc c (a :: l) = lastc a l.
Proof. reflexivity. Qed.
Lemma lastc_in : forall l c, In (lastc c l) (c :: l).
Proof. induction l as [|a l IH]; intros c; [left; reflexivity|]. rewrite lastc_cons. right. apply IH. Qed.
Lemma path_app : forall l1 c l2, path c (l1 ++ l2) <-> path c l1 /\ path (lastc c l1) l2.
Proof.
  induction l1 as [|a l1 IH]; intros c l2.
  - cbn. unfold lastc. cbn. tauto.
  - cbn [app path]. rewrite IH, lastc_cons. tauto.
Qed.
Lemma path_vc : forall l c, vc m c -> path c l -> forall x, In x (c :: l) -> vc m x /\ P m x = P m c.
Proof.
  induction l as [|a l IH]; intros c Hc Hp x Hx.
  - destruct Hx as [<-|[]]. auto.
  - destruct Hp as (T & Hp). destruct Hx as [<-|Hx]; [auto|].
    pose proof (turn_vc _ _ Hc T) as Va. destruct (IH a Va Hp x Hx) as (X & Y). split; auto. rewrite Y. apply turn_P; auto.
Qed.
Lemma path_around : forall l c, path c l -> forall x, In x (c :: l) -> around m c x.
Proof.
  induction l as [|a l IH]; intros c Hp x Hx.
  - destruct Hx as [<-|[]]. apply rt_refl.
  - destruct Hp as (T & Hp). destruct Hx as [<-|Hx]; [apply rt_refl|].
    apply rt_trans with a; [apply rt_step; auto|]. apply IH; auto.
Qed.
(** every element except the last one turns to an element *)
Lemma path_step : forall l c x, path c l -> In x (c :: l) -> x = lastc c l \/ exists y, In y l /\ turn m x y.
Proof.
  induction l as [|a l IH]; intros c x Hp Hx.
  - destruct Hx as [<-|[]]. auto.
  - destruct Hp as (T & Hp). rewrite lastc_cons. destruct Hx as [<-|Hx].
    + right. exists a. split; [left; auto|auto].
    + destruct (IH a x Hp Hx) as [E|(y & Hy & Ty)]; [auto|]. right. exists y. split; [right; auto|auto].
Qed.
(** every element except the first one is turned to *)
Lemma path_pred : forall l c x, path c l -> In x l -> exists y, In y (c :: l) /\ turn m y x.
Proof.
  induction l as [|a l IH]; intros c x Hp Hx; [destruct Hx|].
  destruct Hp as (T & Hp). destruct Hx as [<-|Hx].
  - exists c. split; [left; auto|auto].
  - destruct (IH a x Hp Hx) as (y & Hy & Ty). exists y. split; [right; auto|auto].
Qed.

Lemma path_fst : forall l c, vc m c -> path c l -> NoDup (c :: l) -> NoDup (map fst (c :: l)).
Proof.
  intros l c Hc Hp Hd.
  assert (K : forall k : list (nat * nat), NoDup k -> (forall x, In x k -> vc m x /\ P m x = P m c) -> NoDup (map fst k)).
  { induction k as [|a k IH]; intros Hk HI; cbn; constructor.
    - inversion Hk; subst. intros X. apply in_map_iff in X. destruct X as (b & E & Hb).
      assert (a = b) by (apply corner_eq; [apply HI; left; auto|apply HI; right; auto|
        rewrite (proj2 (HI a (or_introl eq_refl))), (proj2 (HI b (or_intror Hb))); auto|auto]).
      subst b. auto.
    - apply IH; [inversion Hk; auto|]. intros x Hx. apply HI. right; auto. }
  apply K; auto. intros x Hx. apply path_vc with l; auto.
Qed.
Lemma path_len : forall l c, vc m c -> path c l -> NoDup (c :: l) -> S (length l) <= length m.
Proof.
  intros l c Hc Hp Hd. pose proof (path_fst l c Hc Hp Hd) as H.
  assert (I : incl (map fst (c :: l)) (seq 0 (length m))).
  { intros x Hx. apply in_map_iff in Hx. destruct Hx as (y & <- & Hy). apply in_seq.
    destruct (path_vc l c Hc Hp y Hy) as ((X & _) & _). lia. }
  pose proof (NoDup_incl_length H I) as X. rewrite map_length, seq_length in X. cbn in X. auto.
Qed.

(** The fan of a corner: a path without repetition which ends at a boundary edge or comes back *)
Lemma orbit : forall c, vc m c -> exists l, path c l /\ NoDup (c :: l) /\
  (L m (fst (lastc c l)) (nx (snd (lastc c l))) = None \/ turn m (lastc c l) c).
Proof.
  intros c Hc.
  assert (K : forall n l, length m - length l <= n -> path c l -> NoDup (c :: l) -> exists l', path c l' /\ NoDup (c :: l') /\
    (L m (fst (lastc c l')) (nx (snd (lastc c l'))) = None \/ turn m (lastc c l') c)).
  { induction n as [|n IH]; intros l Hn Hp Hd.
    - pose proof (path_len l c Hc Hp Hd). lia.
    - pose proof (path_len l c Hc Hp Hd) as Hlen.
      assert (Vl : vc m (lastc c l)) by (apply (path_vc l c Hc Hp); apply lastc_in).
      destruct (turn_next _ Vl) as [(y & Ty)|E]; [|exists l; auto].
      destruct (in_dec (fun a b : nat * nat => ltac:(decide equality; apply Nat.eq_dec)) y (c :: l)) as [Hy|Hy].
      + destruct Hy as [<-|Hy]; [exists l; auto|]. exfalso.
        (* y is turned to by an earlier element *)
        assert (G : forall l c, vc m c -> path c l -> NoDup (c :: l) -> In y l -> turn m (lastc c l) y -> False).
        { clear - Hm. induction l as [|a l IH]; intros c Hc Hp Hd Hy Ty; [destruct Hy|].
          destruct Hp as (T & Hp). rewrite lastc_cons in Ty. pose proof (turn_vc _ _ Hc T) as Va.
          inversion Hd as [|? ? N1 N2]; subst. destruct Hy as [->|Hy].
          - assert (lastc y l = c).
            { apply turn_inj with y; auto. apply (path_vc l y Va Hp). apply lastc_in. }
            apply N1. rewrite <- H. apply lastc_in.
          - apply (IH a Va Hp N2 Hy Ty). }
        exact (G l c Hc Hp Hd Hy Ty).
      + apply (IH (l ++ [y])).
        * rewrite app_length. cbn. lia.
        * apply path_app. split; auto. cbn. auto.
        * change (NoDup ((c :: l) ++ [y])). apply NoDup_snoc; auto. }
  apply (K (length m) []); [cbn; lia|exact I|]. constructor; [intros []|constructor].
Qed.

(** In the closed case the list is everything around *)
Lemma orbit_around : forall c l, vc m c -> path c l -> turn m (lastc c l) c -> forall x, around m c x <-> In x (c :: l).
Proof.
  intros c l Hc Hp HT x. split; [|apply path_around; auto].
  intros H. apply clos_rt_rtn1 in H. induction H as [|y z H1 H2 IH]; [left; auto|].
  destruct (path_step l c y Hp IH) as [->|(w & Hw & Tw)].
  - assert (z = c). { apply turn_fun with (lastc c l); auto. apply (path_vc l c Hc Hp). apply lastc_in. } left; auto.
  - assert (z = w) by (apply turn_fun with y; auto; apply (path_vc l c Hc Hp); auto). subst z. right; auto.
Qed.
Lemma orbit_open : forall c l, vc m c -> path c l -> L m (fst (lastc c l)) (nx (snd (lastc c l))) = None ->
  forall x, around m c x <-> In x (c :: l).
Proof.
  intros c l Hc Hp HT x. split; [|apply path_around; auto].
  intros H. apply clos_rt_rtn1 in H. induction H as [|y z H1 H2 IH]; [left; auto|].
  destruct (path_step l c y Hp IH) as [->|(w & Hw & Tw)].
  - exfalso. apply turn_link in H1. congruence.
  - assert (z = w) by (apply turn_fun with y; auto; apply (path_vc l c Hc Hp); auto). subst z. right; auto.
Qed.
Lemma around_next : forall c x y, around m c x -> turn m x y -> around m c y.
Proof. intros. apply rt_trans with x; auto. apply rt_step; auto. Qed.
End Turn.
