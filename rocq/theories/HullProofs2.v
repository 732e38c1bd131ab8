(** The scan of ConvexHull2 over points that are sorted by angle. *)
From Coq Require Import List Arith Bool Reals Lia Lra Sorting.Sorted.
Import ListNotations.
From Verif Require Import Imp PrModel PolyModel HullModel HullSpec HullProofs1.
Open Scope R_scope.

Section S.
Variables (points : list pnt) (o f : nat).
Notation n := (length points).
Definition q (i : nat) : pnt := (fst (P points i) - fst (P points o), snd (P points i) - snd (P points o)).
Lemma q_o : q o = (0, 0). Proof. unfold q. f_equal; ring. Qed.
Lemma q_orient : forall a b c, orient (P points a) (P points b) (P points c) = turn (q a) (q b) (q c).
Proof. intros. unfold turn, orient, q. simpl. ring. Qed.
Lemma q_orient_o : forall a b, orient (P points o) (P points a) (P points b) = cr (q a) (q b).
Proof. intros. rewrite q_orient, q_o, turn_cr, !cr_0l. lra. Qed.
Hypothesis Ho : (o < n)%nat.
Hypothesis Hf : (f < n)%nat.

(** The stack above the bottom [f; o], top first. *)
Fixpoint chain (l : list nat) : Prop :=
  match l with c :: ((b :: a :: _) as t) => 0 < turn (q a) (q b) (q c) /\ chain t | _ => True end.
Definition above (l : list nat) : Prop := ForallOrdPairs (fun x y => ang (q y) (q x)) l.
Record Inv (u : list nat) : Prop := mkInv {
  I_rng : forall x, In x u -> (x < n)%nat;
  I_ch : chain (u ++ [f; o]);
  I_an : above (u ++ [f]);
  I_f : forall x, In x u -> 0 < cr (q f) (q x);
  I_cv : forall b a x, next2 (u ++ [f; o]) b a -> In x (u ++ [f; o]) -> 0 <= turn (q a) (q b) (q x) }.

Lemma next2_cons : forall x l b a, next2 (x :: l) b a -> (b = x /\ exists v, l = a :: v) \/ next2 l b a.
Proof. intros x l b a (u & v & E). destruct u as [|y u]; simpl in E. injection E as <- ->. left. eauto. injection E as -> ->. right. exists u, v. auto. Qed.
Lemma next2_tail : forall x l b a, next2 l b a -> next2 (x :: l) b a.
Proof. intros x l b a (u & v & ->). exists (x :: u), v. auto. Qed.

Lemma above_tail : forall x l, above (x :: l) -> above l. Proof. intros x l H. inversion H; auto. Qed.
Lemma above_hd : forall x l y, above (x :: l) -> In y l -> ang (q y) (q x).
Proof. intros x l y H Hy. inversion H; subst. rewrite Forall_forall in H2. auto. Qed.

Lemma Inv_tail : forall x u, Inv (x :: u) -> Inv u.
Proof.
  intros x u [R C A F V]. split.
  - intros. apply R. right. auto.
  - simpl app in C. destruct (u ++ [f; o]) as [|b [|a v]] eqn:E; simpl; auto. destruct C. auto.
  - apply (above_tail x). auto.
  - intros. apply F. right. auto.
  - intros b a y H1 H2. apply V. simpl. apply next2_tail. auto. right. auto.
Qed.

Section New.
Variable p3 : nat.
Hypothesis H3 : (p3 < n)%nat.

Lemma pops_step : forall p2 p1 rest, (p2 < n)%nat -> (p1 < n)%nat -> pops points p3 (p2 :: p1 :: rest) = if negb (ltR 0 (turn (q p1) (q p2) (q p3))) then pops points p3 (p1 :: rest) else Some (p2 :: p1 :: rest).
Proof.
  intros p2 p1 rest H2 H1. simpl pops. unfold vget. rewrite !nth_error_nth' with (d := (0, 0)) by auto. simpl bind. rewrite <- q_orient. unfold orient, P, subp. simpl. reflexivity.
Qed.

Definition tops (stk : list nat) : Prop := match stk with p2 :: p1 :: _ => 0 < turn (q p1) (q p2) (q p3) | _ => False end.

Lemma pops_ok : 0 < cr (q f) (q p3) -> forall u, Inv u -> (forall x, In x (u ++ [f]) -> ang (q x) (q p3)) ->
  exists w u', u = w ++ u' /\ pops points p3 (u ++ [f; o]) = Some (u' ++ [f; o]) /\ tops (u' ++ [f; o]) /\
    forall S : pnt -> Prop, (forall x, In x (u' ++ [f; o]) -> hull S (q x)) -> hull S (q p3) -> forall x, In x u -> hull S (q x).
Proof.
  intros Hf3. induction u as [|p2 u IH]; intros HI HA.
  - exists [], []. split; auto. simpl app. rewrite pops_step by auto. rewrite q_o, turn_cr, !cr_0l. assert (E : 0 < 0 + cr (q f) (q p3) - 0) by lra. unfold ltR. destruct (Rlt_dec 0 (0 + cr (q f) (q p3) - 0)); [|contradiction]. simpl negb. cbv iota.
    split; auto. split. unfold tops. rewrite q_o, turn_cr, !cr_0l. auto. intros S HS H x [].
  - assert (E : exists p1 v, u ++ [f; o] = p1 :: v /\ In p1 (u ++ [f])). { destruct u as [|p1 u]; simpl; eauto. }
    destruct E as (p1 & v & Ev & Hp1). pose proof (Inv_tail _ _ HI) as HI'.
    assert (R1 : (p1 < n)%nat). { apply in_app_iff in Hp1. destruct Hp1 as [Hp1|[<-|[]]]; auto. apply (I_rng _ HI'). auto. } assert (R2 : (p2 < n)%nat) by (apply (I_rng _ HI); left; auto).
    simpl app. rewrite Ev. rewrite pops_step by auto. unfold ltR. destruct (Rlt_dec 0 (turn (q p1) (q p2) (q p3))); simpl negb; cbv iota.
    + exists [], (p2 :: u). split; auto. split. simpl. rewrite Ev. auto. split. simpl app. rewrite Ev. simpl. auto. intros S HS H x Hx. apply HS. apply in_app_iff. auto.
    + destruct (IH HI') as (w & u' & E1 & E2 & E3 & E4). { intros. apply HA. right. auto. } rewrite Ev in E2. exists (p2 :: w), u'. split. simpl. f_equal. auto. split; auto. split; auto.
      intros S HS H x [<-|Hx]. 2: apply E4; auto.
      assert (A12 : ang (q p1) (q p2)) by (apply (above_hd p2 (u ++ [f])); auto; apply (I_an _ HI)).
      apply (popped S (q p1) (q p2) (q p3)); auto.
      * rewrite <- q_o. apply HS. apply in_app_iff. right. simpl. auto.
      * apply in_app_iff in Hp1. destruct Hp1 as [Hp1|[<-|[]]]. apply E4; auto. apply HS. apply in_app_iff. right. simpl. auto.
      * apply HA. simpl. auto.
      * apply ang_cr. apply HA. right. auto.
      * lra.
Qed.

(** The new point is on the left of all edges of the stack. *)
Lemma all_left : forall u, chain (u ++ [f; o]) -> above (u ++ [f]) -> (forall x, In x (u ++ [f]) -> 0 <= cr (q x) (q p3)) ->
  (forall b a v, u ++ [f; o] = b :: a :: v -> 0 <= turn (q a) (q b) (q p3) /\ (u <> [] -> 0 < cr (q a) (q b))) ->
  forall b a, next2 (u ++ [f; o]) b a -> 0 <= turn (q a) (q b) (q p3).
Proof.
  induction u as [|c u IH]; intros C A H0 HT b a Hn.
  - destruct Hn as (w & v & E). destruct w as [|x [|y [|z w]]]; simpl in E; try discriminate. injection E as <- <-. apply (HT f o []). auto.
  - simpl app in Hn. apply next2_cons in Hn. destruct Hn as [(-> & v & E)|Hn]. apply (HT c a v). simpl. f_equal. auto.
    assert (EX : exists b' a' v, u ++ [f; o] = b' :: a' :: v) by (destruct u as [|? [|]]; simpl; eauto). destruct EX as (b' & a' & v & Ev).
    assert (Hb' : In b' (u ++ [f])). { destruct u; simpl in Ev; injection Ev as <-; simpl; auto. }
    assert (Ha' : (u = [] /\ a' = o) \/ (u <> [] /\ In a' (tl u ++ [f]))). { destruct u as [|x u]; simpl in Ev. injection Ev as _ <-. auto. right. split. discriminate. simpl. injection Ev as _ Ev. destruct u; simpl in Ev; injection Ev as <-; simpl; auto. }
    simpl app in C. rewrite Ev in C. destruct C as (C1 & C2). rewrite <- Ev in C2.
    destruct (HT c b' (a' :: v)) as (T1 & T2). simpl. f_equal. auto. specialize (T2 ltac:(discriminate)).
    assert (Cab : u <> [] -> ang (q a') (q b')). { intros Hu. destruct Ha' as [(? & _)|(_ & Ha')]. contradiction. apply (above_hd b' (tl u ++ [f])); auto. apply above_tail in A. destruct u as [|x u]. contradiction. simpl in Ev. injection Ev as -> _. auto. }
    apply IH; auto.
    + apply (above_tail c). auto.
    + intros. apply H0. right. auto.
    + intros b'' a'' v'' E. rewrite Ev in E. injection E as <- <- <-. split.
      * apply (new_left (q a') (q b') (q c) (q p3)); auto. 2: apply H0; right; auto.
        destruct Ha' as [(_ & ->)|(Hu & _)]. rewrite q_o, cr_0l. lra. apply ang_cr. auto.
      * intros Hu. apply (strict_pair (q a') (q b') (q c)); auto. apply ang_cr. apply (above_hd c (u ++ [f])); auto. destruct Ha' as [(? & _)|(_ & Ha')]. contradiction. destruct u as [|x u]. contradiction. simpl in *. right. auto.
Qed.

Lemma push_ok : forall u, Inv u -> (forall x, In x (u ++ [f]) -> ang (q x) (q p3)) -> 0 < cr (q f) (q p3) -> tops (u ++ [f; o]) -> Inv (p3 :: u).
Proof.
  intros u HI HA Hf3 HT. assert (EX : exists p2 p1 v, u ++ [f; o] = p2 :: p1 :: v) by (destruct u as [|? [|]]; simpl; eauto). destruct EX as (p2 & p1 & v & Ev).
  pose proof HT as HT'. rewrite Ev in HT'. simpl in HT'.
  assert (Hp2 : In p2 (u ++ [f])). { destruct u; simpl in Ev; injection Ev as <-; simpl; auto. }
  assert (Hp1 : (u = [] /\ p1 = o) \/ (u <> [] /\ In p1 (tl u ++ [f]))). { destruct u as [|x u]; simpl in Ev. injection Ev as _ <-. auto. right. split. discriminate. simpl. injection Ev as _ Ev. destruct u; simpl in Ev; injection Ev as <-; simpl; auto. }
  assert (Cab : u <> [] -> ang (q p1) (q p2)). { intros Hu. destruct Hp1 as [(? & _)|(_ & Ha')]. contradiction. apply (above_hd p2 (tl u ++ [f])); auto. pose proof (I_an _ HI) as A. destruct u as [|x u]. contradiction. simpl in Ev. injection Ev as -> _. auto. }
  assert (St : u <> [] -> 0 < cr (q p1) (q p2)). { intros Hu. apply (strict_pair (q p1) (q p2) (q p3)); auto. apply ang_cr. apply HA. destruct Hp1 as [(? & _)|(_ & Ha')]. contradiction. destruct u as [|x u]. contradiction. simpl in *. auto. }
  split.
  - intros x [<-|Hx]; auto. apply (I_rng _ HI). auto.
  - simpl app. rewrite Ev. split; auto. rewrite <- Ev. apply (I_ch _ HI).
  - simpl. constructor. apply Forall_forall. auto. apply (I_an _ HI).
  - intros x [<-|Hx]; auto. apply (I_f _ HI). auto.
  - intros b a x Hn Hx. simpl app in Hn, Hx. apply next2_cons in Hn. destruct Hn as [(-> & v' & E)|Hn].
    + rewrite Ev in E. injection E as <- _. destruct Hx as [<-|Hx]. rewrite turn_cr, cr_self. lra.
      destruct Hp1 as [(-> & ->)|(Hu & Ha')].
      * simpl in Ev. injection Ev as <- _. simpl in Hx. destruct Hx as [<-|[<-|[]]]. rewrite turn_cr, cr_self, (cr_anti (q p3)). lra. rewrite q_o, turn_cr, !cr_0r. lra.
      * apply (old_left (q p1)); auto.
        -- apply ang_cr. auto.
        -- destruct (Nat.eq_dec x o) as [->|No]. rewrite q_o, cr_0l. lra. destruct (Nat.eq_dec x p2) as [->|]. rewrite cr_self. lra. apply ang_cr. apply (above_hd p2 (tl u ++ [f])).
           pose proof (I_an _ HI) as A. destruct u as [|y u]. contradiction. simpl in Ev. injection Ev as -> _. auto.
           destruct u as [|y u]. contradiction. simpl in Ev. injection Ev as -> Ev. simpl in Hx. destruct Hx as [Hx|Hx]. congruence. simpl. apply in_app_iff in Hx. apply in_app_iff. destruct Hx as [Hx|[Hx|[Hx|[]]]]; auto. right. left. auto. congruence.
        -- apply (I_cv _ HI). exists [], v. auto. auto.
    + destruct Hx as [<-|Hx]. 2: apply (I_cv _ HI); auto.
      apply (all_left u); auto. apply (I_ch _ HI). apply (I_an _ HI). intros; apply ang_cr; apply HA; auto.
      intros b' a' v' E. rewrite Ev in E. injection E as <- <- _. split; auto. lra.
Qed.
End New.
End S.
