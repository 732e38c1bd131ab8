(** DijkstraPoint_MeshTri3D. *)
From Coq Require Import List Arith Bool Lia Permutation Reals Lra.
Import ListNotations.
From Verif Require Import Imp BvModel BvSpec BvProofs1 BvProofs3 DijkModel DijkSpec DijkProofs1 DijkProofs2 DijkProofs4.
Open Scope nat_scope.

Lemma sum_deg : forall (ind : list nat) n, (forall i, i < n -> nth i ind 0 <= nth (i + 1) ind 0) ->
  list_sum (map (fun u => nth (u + 1) ind 0 - nth u ind 0) (seq 0 n)) + nth 0 ind 0 = nth n ind 0.
Proof.
  unfold list_sum. induction n; intros H; [cbn; auto|]. rewrite seq_S, map_app. cbn [map]. rewrite fold_right_app. cbn [fold_right].
  assert (A := H n ltac:(lia)). specialize (IHn ltac:(intros; apply H; lia)). cbn [plus] in *.
  assert (G : forall l c, fold_right Nat.add c l = fold_right Nat.add 0 l + c) by (induction l; intros; cbn [fold_right]; [lia|rewrite IHl; lia]).
  rewrite G. rewrite Nat.add_1_r in *. lia.
Qed.

Section Point.
Variables (xyz : list R) (ind adj : list nat) (ker : nat).
Notation n := (length xyz / 3).
Hypothesis J : jag_ok ind adj n.
Hypothesis Hker : ker < n.
Variable pq : pqueue R.
Hypothesis PQ : pq_ok R_dist pq.
Notation S := (fun s => s = ker).
Definition pwt (u v : nat) : R_dist := dist (point xyz u) (point xyz v).
Definition pdeg (u : nat) : nat := nth (u + 1) ind 0 - nth u ind 0.
Definition ptgt (u k : nat) : option nat := Some (nth (nth u ind 0 + k) adj 0).
Definition pstep (u v : nat) : Prop := u < n /\ jadj ind adj u v.
Notation Ed := (edge n pdeg ptgt).

Lemma pwt_pos : forall u v d, dle (o := R_dist) d (dadd d (pwt u v)).
Proof. intros. cbn. unfold pwt. pose proof (dist_pos (point xyz u) (point xyz v)). lra. Qed.
Lemma ind_le : forall i j, i <= j -> j <= n -> nth i ind 0 <= nth j ind 0.
Proof. destruct J as (_ & _ & A & _). intros i j H. induction H; intros; auto. specialize (A m ltac:(lia)). rewrite Nat.add_1_r in A. specialize (IHle ltac:(lia)). lia. Qed.
Lemma seg_lt : forall u k, u < n -> k < pdeg u -> nth u ind 0 + k < length adj.
Proof. intros u k Hu Hk. destruct J as (_ & _ & _ & <- & _). pose proof (ind_le (u + 1) n). unfold pdeg in Hk. lia. Qed.
Lemma ptgt_lt : forall u k v, u < n -> k < pdeg u -> ptgt u k = Some v -> v < n.
Proof. intros u k v Hu Hk E. injection E as <-. destruct J as (_ & _ & _ & _ & B). apply B. apply nth_In. apply seg_lt; auto. Qed.
Lemma p_edge : forall u v, Ed u v <-> pstep u v.
Proof.
  intros u v. unfold edge, pstep, jadj, ptgt, pdeg. split.
  - intros (A & k & B & C). injection C as <-. split; auto. exists (nth u ind 0 + k). split; auto. lia.
  - intros (A & k & B & <-). split; auto. exists (k - nth u ind 0). split; [lia|]. f_equal. f_equal. lia.
Qed.

(** Labels: the source counts as labelled 0, whatever the array holds there. *)
Definition pfun (a : list R) (v : nat) : option R_dist := if v =? ker then Some 0%R else rfun a v.
(** Value held for the source: the least round trip over the slots scanned so far. *)
Definition side (Rx : nat -> nat -> Prop) (log : list nat) (a : list R) : Prop :=
  ((0 <= nth ker a (-1))%R -> walk1 S Ed pwt ker (nth ker a (-1)%R)) /\
  (forall u k, Rx u k -> k < pdeg u -> ptgt u k = Some ker -> In u log /\ exists du, pfun a u = Some du /\ (0 <= nth ker a (-1) <= du + pwt u ker)%R).

Definition pmeas (s : list R * list (option nat) * list (nat * R) * nat * list nat) : nat :=
  let '(_, _, que, _, log) := s in length que + rest n pdeg log.
Definition pinv (s : list R * list (option nat) * list (nat * R) * nat * list nat) : Prop :=
  let '(aDist, aOrder, que, icnt, log) := s in
  outer R_dist n pdeg ptgt pwt S log (pfun aDist) que /\ side (fun u _ => In u log) log aDist /\
  lab_ok aDist /\ length aDist = n /\ length aOrder = n /\ rank_table log aOrder /\ icnt = length log.

Lemma side_weaken : forall (Rx Rx' : nat -> nat -> Prop) log log' a, (forall u k, k < pdeg u -> Rx' u k -> Rx u k) -> (forall u, In u log -> In u log') -> side Rx log a -> side Rx' log' a.
Proof. intros Rx Rx' log log' a H Hl (A & B). split; auto. intros u k X Y Z. destruct (B u k) as (C & D); auto. Qed.

Lemma point_loop : forall dbg, exists aDist aOrder log,
  DijkstraPoint_MeshTri3D dbg pq ker xyz ind adj = (assertb (negb dbg || (length log =? n)) ;;; Some (aDist, aOrder, log)) /\
  visit_order S pstep pwt log /\ rank_table log aOrder /\ length aDist = n /\ length aOrder = n /\
  (forall v d, shortest1 S pstep pwt v d -> nth v aDist (-1)%R = d) /\
  (forall v, (forall d, ~ walk1 S pstep pwt v d) -> nth v aDist (-1)%R = (-1)%R) /\
  (forall v d, walk1 S pstep pwt v d -> exists e, shortest1 S pstep pwt v e).
Proof.
  intros dbg. unfold DijkstraPoint_MeshTri3D. assert (J' := J). destruct J' as (J1 & J2 & J3 & J4 & J5).
  assert (SL : forall s, S s -> s < n) by (intros ? ->; auto).
  assert (WP : forall v d, walk S Ed pwt v d -> (0 <= d)%R).
  { intros v d W. exact (walk_pos R_dist n pdeg ptgt pwt S pwt_pos v d W). }
  assert (L3 : 3 * n <= length xyz) by (apply Nat.mul_div_le; lia).
  match goal with |- context [whilef ?a ?c ?f ?s0] => assert (X : wp (whilef a c f s0) (fun s => pinv s /\ let '(_, _, que, _, _) := s in que = [])) end.
  - apply (wp_whilef _ pmeas pinv).
    + unfold pmeas; cbv iota beta. rewrite (Permutation_length (proj1 (pq_R _ PQ) _ _)), rest_nil. cbn [length].
      pose proof (sum_deg ind n J3). change (fun u => nth (u + 1) ind 0 - nth u ind 0) with pdeg in H. lia.
    + unfold pinv. rewrite !repeat_length. split; [|split; [|split; [apply lab_rep|auto using rank_nil]]].
      * apply outer_start.
        -- intros s ->. unfold pfun. rewrite Nat.eqb_refl. auto.
        -- intros v d. unfold pfun. rewrite rfun_rep. destruct (Nat.eqb_spec v ker) as [->|]; [|discriminate].
           intros E. injection E as <-. split; auto. split; auto. apply (Permutation_in _ (Permutation_sym (proj1 (pq_R _ PQ) _ _))). left; auto.
        -- intros v d H. apply (Permutation_in _ (proj1 (pq_R _ PQ) _ _)) in H. destruct H as [H|[]]. injection H as <- <-. auto.
      * split; [rewrite nth_repeat; intros; lra|]. intros u k [].
    + intros ((((aDist & aOrder) & que) & icnt) & log) (O & SD & LO & L1 & L2 & RT & ->) C.
      assert (Q : que <> []) by (intros ->; discriminate). destruct (proj2 (pq_R _ PQ) que Q) as ((v & d) & q' & EP & PP & PM).
      assert (LQ : length que = Datatypes.S (length q')) by (rewrite (Permutation_length PP); auto).
      split; [unfold pmeas; cbv iota beta; rewrite LQ; apply Nat.lt_0_succ|]. rewrite EP. cbn [bind].
      assert (O' : outer R_dist n pdeg ptgt pwt S log (pfun aDist) ((v, d) :: q')) by exact (core_perm R_dist _ _ _ _ _ _ _ _ _ _ PP O).
      assert (W := c_q _ _ _ _ _ _ _ _ _ _ O' v d (or_introl eq_refl)).
      assert (Dp := WP v d W).
      assert (V : v < n) by (exact (walk_lt R_dist n pdeg ptgt pwt S ptgt_lt SL v d W)).
      apply wp_bind. apply wp_assertb; [apply Nat.ltb_lt; auto|].
      apply wp_bind. apply (wp_vget _ None); [lia|]. destruct (nth v aOrder None) as [o|] eqn:EO.
      * apply wp_some. split.
        -- split; [|split; [exact SD|split; [exact LO|auto 6]]]. eapply core_drop; eauto. apply RT in EO. eapply nth_error_In; eauto.
        -- unfold pmeas; cbv iota beta. lia.
      * assert (Nv : ~ In v log) by (apply (rank_none _ _ _ RT); auto).
        assert (I0 := inner_start R_dist n pdeg _ _ S ptgt_lt SL _ _ _ _ _ O' Nv ltac:(intros y Hy; apply (PM y); apply (Permutation_in _ (Permutation_sym PP)); right; auto)).
        apply wp_bind. apply wp_vset; [lia|].
        apply wp_bind. apply (wp_vget _ 0); [lia|]. apply wp_bind. apply (wp_vget _ 0); [lia|]. apply wp_bind.
        assert (RA : rank_table (log ++ [v]) (upd aOrder v (Some (length log)))) by (apply rank_add; auto; lia).
        set (RX := fun k u j => (In u (log ++ [v]) /\ u <> v) \/ (u = v /\ j < k)).
        apply (wp_forn _ (fun i (s : list R * list (nat * R)) => inner R_dist n pdeg ptgt pwt S v d (i - nth v ind 0) (log ++ [v]) (pfun (fst s)) (snd s) /\
           side (RX (i - nth v ind 0)) (log ++ [v]) (fst s) /\
           lab_ok (fst s) /\ length (fst s) = n /\ length (snd s) <= length q' + (i - nth v ind 0))).
        -- apply J3; auto.
        -- cbn [fst snd]. rewrite Nat.sub_diag. split; auto. split; [|split; [auto|split; [auto|lia]]].
           eapply side_weaken; [| |exact SD].
           ++ unfold RX. intros u k Hk [(A & B)|(_ & A)]; [|lia]. apply in_app_or in A. destruct A as [A|[A|[]]]; auto. congruence.
           ++ intros u Hu. apply in_or_app; auto.
        -- intros i (aDist1 & q1) Hi (I & SD1 & L0 & L4 & L5). cbn [fst snd] in *. assert (Hk : i - nth v ind 0 < pdeg v) by (unfold pdeg; lia).
           assert (Ei : i = nth v ind 0 + (i - nth v ind 0)) by lia.
           rewrite (Nat.sub_succ_l (nth v ind 0) i) by lia. set (k := i - nth v ind 0) in *.
           apply wp_bind. apply (wp_vget _ 0); [rewrite Ei; apply seg_lt; auto|].
           set (x := nth i adj 0). assert (KT : ptgt v k = Some x) by (unfold ptgt; rewrite <- Ei; auto). clearbody k x.
           assert (Xn : x < n) by (apply (ptgt_lt v k); auto).
           rewrite !getp_ok by lia. cbn [bind]. rewrite dDistance3_dist. apply wp_bind. apply (wp_vget _ (-1)%R); [lia|].
           change (dist (point xyz v) (point xyz x)) with (pwt v x).
           assert (NP : (0 <= d + pwt v x)%R) by (pose proof (dist_pos (point xyz v) (point xyz x)); unfold pwt; lra).
           assert (RXS : forall u j, j < pdeg u -> RX (Datatypes.S k) u j -> RX k u j \/ (u = v /\ j = k)).
           { intros u j Hj [A|(A & B)]; [left; left; auto|]. destruct (Nat.eq_dec j k); auto. left. right. split; auto. lia. }
           assert (I' := I). destruct I' as (IC & IV & IN & ID & IM).
           (* new side condition when slot k does not lead to the source *)
           assert (SK : x <> ker -> side (RX k) (log ++ [v]) aDist1 -> side (RX (Datatypes.S k)) (log ++ [v]) aDist1).
           { intros Nx (A & B). split; auto. intros u j Hx Hj Ht. destruct (RXS u j Hj Hx) as [Z|(-> & ->)]; [exact (B u j Z Hj Ht)|congruence]. }
           destruct (Rleb (-1 / 10) (nth x aDist1 (-1)%R) && Rltb (nth x aDist1 (-1)%R) (d + pwt v x)) eqn:ET.
           ++ apply wp_some. cbn [fst snd]. apply andb_true_iff in ET. destruct ET as (E1 & E2). apply Rleb_true in E1. apply Rltb_true in E2.
              destruct (L0 x) as [Z|Z]; [lra|]. split; [|split; [|split; [auto|split; [auto|lia]]]].
              ** destruct (Nat.eq_dec x ker) as [Ex|Nx].
                 --- apply (inner_noop R_dist n pdeg ptgt pwt S pwt_pos _ _ v d q1 k x 0%R I Hk KT); [unfold pfun; rewrite Ex, Nat.eqb_refl; auto|exact NP].
                 --- apply (inner_noop R_dist n pdeg ptgt pwt S pwt_pos _ _ v d q1 k x (nth x aDist1 (-1)%R) I Hk KT).
                     +++ unfold pfun. rewrite (proj2 (Nat.eqb_neq x ker)) by auto. apply rfun_some'; auto.
                     +++ cbn. lra.
              ** destruct (Nat.eq_dec x ker) as [Ex|Nx]; [|auto]. destruct SD1 as (A & B). split; auto.
                 intros u j Hx Hj Ht. destruct (RXS u j Hj Hx) as [Y|(-> & ->)]; [exact (B u j Y Hj Ht)|]. split; auto. exists d. split; auto. rewrite Ex in *. lra.
           ++ apply wp_bind. apply wp_vset; [lia|]. apply wp_some. cbn [fst snd]. rewrite upd_length, (Permutation_length (proj1 (pq_R _ PQ) _ _)). cbn [length].
              assert (LE : nth x aDist1 (-1)%R = (-1)%R \/ (0 <= nth x aDist1 (-1) /\ d + pwt v x <= nth x aDist1 (-1))%R).
              { apply andb_false_iff in ET. destruct (L0 x) as [Z|Z]; auto. right. split; auto. destruct ET as [ET|ET]; [apply Rleb_false in ET; lra|]. apply Rltb_false in ET. lra. }
              assert (WX : walk1 S Ed pwt x (d + pwt v x)%R).
              { exists v, d. split; [auto|split; [|reflexivity]]. split; [auto|]. exists k. auto. }
              split; [|split; [|split; [apply lab_upd; auto; lia|split; [auto|lia]]]].
              ** eapply inner_perm; [symmetry; apply (proj1 (pq_R _ PQ))|]. destruct (Nat.eq_dec x ker) as [Ex|Nx].
                 --- eapply inner_ext with (Dv := pfun aDist1).
                     +++ intros y. unfold pfun. destruct (Nat.eqb_spec y ker); auto. rewrite rfun_upd by (auto; lia). rewrite Ex, (proj2 (Nat.eqb_neq y ker)); auto.
                     +++ apply (inner_noop R_dist n pdeg ptgt pwt S pwt_pos _ _ v d q1 k x 0%R I Hk KT); [unfold pfun; rewrite Ex, Nat.eqb_refl; auto|exact NP].
                 --- assert (PX : forall y, pfun (upd aDist1 x (d + pwt v x)%R) y = if y =? x then Some (d + pwt v x)%R else pfun aDist1 y).
                     { intros y. unfold pfun. destruct (Nat.eqb_spec y ker) as [->|]; [rewrite (proj2 (Nat.eqb_neq ker x)); auto|]. apply rfun_upd; auto; lia. }
                     assert (PV : pfun aDist1 x = rfun aDist1 x) by (unfold pfun; rewrite (proj2 (Nat.eqb_neq x ker)); auto).
                     destruct (Req_dec (nth x aDist1 (-1)%R) (d + pwt v x)) as [EQ|NE].
                     +++ eapply inner_ext with (Dv := pfun aDist1).
                         *** intros y. rewrite PX. destruct (Nat.eqb_spec y x) as [->|]; auto. rewrite PV, <- EQ. symmetry. apply rfun_some'. lra.
                         *** apply (inner_noop R_dist n pdeg ptgt pwt S pwt_pos _ _ v d q1 k x (nth x aDist1 (-1)%R) I Hk KT); [rewrite PV; apply rfun_some'; lra|cbn; lra].
                     +++ eapply inner_ext; [exact PX|].
                         apply (inner_improve R_dist n pdeg ptgt pwt S pwt_pos _ (pfun aDist1) v d q1 k x I Hk KT).
                         rewrite PV. unfold rfun. destruct (Rltb (nth x aDist1 (-1)%R) 0) eqn:EN; auto. apply Rltb_false in EN. cbn. lra.
              ** destruct (Nat.eq_dec x ker) as [Ex|Nx].
                 --- rewrite Ex in *. destruct SD1 as (A & B). split.
                     +++ rewrite nth_upd_same by lia. auto.
                     +++ rewrite nth_upd_same by lia. intros u j Hx Hj Ht.
                         assert (PU : forall y, pfun (upd aDist1 ker (d + pwt v ker)%R) y = pfun aDist1 y).
                         { intros y. unfold pfun. destruct (Nat.eqb_spec y ker); auto. rewrite rfun_upd by (auto; lia). rewrite (proj2 (Nat.eqb_neq y ker)); auto. }
                         rewrite PU. destruct (RXS u j Hj Hx) as [Y|(-> & ->)].
                         *** destruct (B u j Y Hj Ht) as (Y1 & du & Y2 & Y3). split; auto. exists du. split; auto. lra.
                         *** split; auto. exists d. split; auto. lra.
                 --- destruct (SK Nx SD1) as (A & B). split; rewrite nth_upd_other by (auto; lia); [auto|].
                     intros u j Hx Hj Ht. destruct (B u j Hx Hj Ht) as (Y1 & du & Y2 & Y3). split; auto.
                     assert (PX : pfun (upd aDist1 x (d + pwt v x)%R) u = if u =? x then Some (d + pwt v x)%R else pfun aDist1 u).
                     { unfold pfun. destruct (Nat.eqb_spec u ker) as [->|]; [rewrite (proj2 (Nat.eqb_neq ker x)); auto|]. apply rfun_upd; auto; lia. }
                     exists du. split; auto. rewrite PX. destruct (Nat.eqb_spec u x) as [->|]; auto.
                     (* a fixed vertex is only rewritten with its own value *)
                     assert (Hu := IM x du Y1 Y2). cbn in Hu. unfold pfun in Y2. rewrite (proj2 (Nat.eqb_neq x ker)) in Y2 by auto.
                     apply rfun_some in Y2. destruct Y2 as (Y2 & Y4). unfold pwt in *. pose proof (dist_pos (point xyz v) (point xyz x)). rewrite Y2 in LE. destruct LE as [LE|LE]; [lra|]. apply (f_equal (@Some R)). lra.
        -- intros (aDist1 & q1) (I & SD1 & L0 & L4 & L5). cbn [fst snd] in *. apply wp_some. split.
           ++ split; [eapply (inner_end _ _ pdeg); eauto|]. rewrite upd_length, app_length. cbn [length]. split; auto.
              eapply side_weaken; [| |exact SD1]; auto. intros u k Hk Hu. unfold RX, pdeg in *. destruct (Nat.eq_dec u v) as [->|]; auto.
           ++ unfold pmeas; cbv iota beta. pose proof (rest_fix n pdeg log v Nv V). assert (pdeg v = nth (v + 1) ind 0 - nth v ind 0) by reflexivity. lia.
    + intros ((((aDist & aOrder) & que) & icnt) & log) H C. destruct que; [|discriminate]. auto.
  - destruct (wp_ex _ _ _ X) as (((((aDist & aOrder) & que) & icnt) & log) & E & ((O & SD & LO & L1 & L2 & RT & ->) & ->)). rewrite E. cbn [bind].
    exists aDist, aOrder, log. split; auto.
    destruct (core_final _ _ _ _ _ _ _ _ _ O) as (F1 & F2 & F3); [auto|].
    assert (S1 := shortest1_ext R_dist S S _ _ pwt pwt (fun s => iff_refl _) p_edge (fun _ _ _ => eq_refl)).
    assert (W1 := walk1_ext R_dist S S _ _ pwt pwt (fun s => iff_refl _) p_edge (fun _ _ _ => eq_refl)).
    assert (KEY : (forall v d, walk1 S Ed pwt v d -> exists e, shortest1 S Ed pwt v e /\ nth v aDist (-1)%R = e) /\
                  (forall v, (0 <= nth v aDist (-1))%R -> exists d, walk1 S Ed pwt v d)).
    { split.
      - intros v d (u & du & A & B & ->). destruct (Nat.eq_dec v ker) as [->|Nv].
        + destruct SD as (SA & SB). assert (P : forall u du, walk S Ed pwt u du -> Ed u ker -> (0 <= nth ker aDist (-1) <= du + pwt u ker)%R).
          { intros u0 du0 W0 (E0 & k & Hk & Ht). destruct (pfun aDist u0) as [e|] eqn:EF.
            - destruct (c_in _ _ _ _ _ _ _ _ _ _ O u0 e EF) as [In0|[]]. destruct (SB u0 k In0 Hk Ht) as (_ & e' & Q1 & Q2).
              rewrite EF in Q1. injection Q1 as <-. apply F1 in EF. destruct EF as (_ & EF). specialize (EF _ W0). cbn in EF. lra.
            - apply F2 in EF. exfalso. apply EF. eexists; eauto. }
          exists (nth ker aDist (-1)%R). split; auto. split; [apply SA; apply (P u du); auto|].
          intros d' (u' & du' & A' & B' & ->). apply P; auto.
        + assert (RV : reachable S Ed pwt v) by (exists (dadd du (pwt u v)); apply w_step; auto).
          destruct (pfun aDist v) as [e|] eqn:EF; [|apply F2 in EF; contradiction]. exists e. split.
          * assert (EF' := EF). apply F1 in EF. destruct EF as (W & MM). split.
            -- destruct W as [s Hs|u0 d0 v W0 E0]; [subst; congruence|]. exists u0, d0. auto.
            -- intros d' (u' & du' & A' & B' & ->). apply MM. apply w_step; auto.
          * unfold pfun in EF. rewrite (proj2 (Nat.eqb_neq v ker)) in EF by auto. apply rfun_some in EF. apply EF.
      - intros v Hv. destruct (Nat.eq_dec v ker) as [->|Nv]; [destruct SD as (SA & _); eauto|].
        assert (EF : pfun aDist v = Some (nth v aDist (-1)%R)) by (unfold pfun; rewrite (proj2 (Nat.eqb_neq v ker)) by auto; apply rfun_some'; auto).
        apply F1 in EF. destruct EF as (W & _). destruct W as [s Hs|u0 d0 v W0 E0]; [subst; congruence|]. exists (dadd d0 (pwt u0 v)), u0, d0. auto. }
    destruct KEY as (K1 & K2).
    split; [|split; [auto|split; [auto|split; [auto|split; [|split]]]]].
    + exact (proj1 (visit_ext _ S S _ _ pwt pwt (fun s => iff_refl _) p_edge (fun _ _ _ => eq_refl) log) F3).
    + intros v d H. apply S1 in H. destruct (K1 v d (proj1 H)) as (e & (H1 & H2) & ->). apply Rle_antisym; [apply H2, H|apply H, H1].
    + intros v H. destruct (LO v) as [|Z]; auto. destruct (K2 v Z) as (d & W). exfalso. apply (H d). apply W1. auto.
    + intros v d H. apply W1 in H. destruct (K1 v d H) as (e & A & _). exists e. apply S1. auto.
Qed.
End Point.
