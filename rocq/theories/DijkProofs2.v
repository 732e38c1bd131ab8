(** The hop-distance functions. *)
From Coq Require Import List Arith Bool Lia Permutation.
Import ListNotations.
From Verif Require Import Imp DijkModel DijkSpec DijkProofs1.

Section Ext.
Variable D : odist.
Variables (S S' : nat -> Prop) (E E' : nat -> nat -> Prop) (w w' : nat -> nat -> D).
Hypothesis HS : forall s, S s <-> S' s.
Hypothesis HE : forall u v, E u v <-> E' u v.
Hypothesis Hw : forall u v, E u v -> w u v = w' u v.
Lemma walk_ext : forall v d, walk S E w v d <-> walk S' E' w' v d.
Proof.
  intros v d. split; induction 1.
  - constructor. apply HS; auto.
  - rewrite Hw by auto. constructor; auto. apply HE; auto.
  - constructor. apply HS; auto.
  - rewrite <- Hw by (apply HE; auto). constructor; auto. apply HE; auto.
Qed.
Lemma walk1_ext : forall v d, walk1 S E w v d <-> walk1 S' E' w' v d.
Proof.
  intros v d. split; intros (u & e & A & B & C); exists u, e; (split; [apply walk_ext; auto|split; [apply HE; auto|]]).
  - rewrite C. f_equal. auto.
  - rewrite C. f_equal. symmetry. apply Hw. apply HE. auto.
Qed.
Lemma reach_ext : forall v, reachable S E w v <-> reachable S' E' w' v.
Proof. intros v. split; intros (d & A); exists d; apply walk_ext; auto. Qed.
Lemma shortest_ext : forall v d, shortest S E w v d <-> shortest S' E' w' v d.
Proof. intros v d. split; intros (A & B); (split; [apply walk_ext; auto|intros d' W; apply B; apply walk_ext; auto]). Qed.
Lemma shortest1_ext : forall v d, shortest1 S E w v d <-> shortest1 S' E' w' v d.
Proof. intros v d. split; intros (A & B); (split; [apply walk1_ext; auto|intros d' W; apply B; apply walk1_ext; auto]). Qed.
Lemma visit_ext : forall vis, visit_order S E w vis <-> visit_order S' E' w' vis.
Proof.
  intros vis. unfold visit_order. split; intros (A & B & C); (split; [auto|split]).
  - intros v. rewrite B. apply reach_ext.
  - intros i j u v d e Hij Hi Hj Su Sv. apply (C i j u v); auto; apply shortest_ext; auto.
  - intros v. rewrite B. symmetry. apply reach_ext.
  - intros i j u v d e Hij Hi Hj Su Sv. apply (C i j u v); auto; apply shortest_ext; auto.
Qed.
End Ext.


Lemma div_edge : forall n e, 0 < n -> n * e / n = e.
Proof. intros. rewrite Nat.mul_comm. apply Nat.div_mul. lia. Qed.
Lemma slot_lt : forall (tab : list (option nat)) n nedge u k, length tab = n * nedge -> u < n -> k < nedge -> u * nedge + k < length tab.
Proof. intros. rewrite H. nia. Qed.

Lemma pq_nat : forall pq : pqueue nat, pq_ok nat_dist pq -> (forall (q : list (nat * nat)) x, Permutation (pq_push pq q x) (x :: q)) /\
  (forall q : list (nat * nat), q <> [] -> exists (x : nat * nat) (q' : list (nat * nat)), pq_pop pq q = Some (x, q') /\ Permutation q (x :: q') /\ forall y, In y q -> snd x <= snd y).
Proof. intros pq H. exact H. Qed.

Section Topo.
Variables (tab : list (option nat)) (n nedge : nat).
Hypothesis T : table_ok tab n nedge.
Variable pq : pqueue nat.
Hypothesis PQ : pq_ok nat_dist pq.
Variable keep : nat -> bool.   (* elements that may be entered *)
Definition ktgt (u k : nat) : option nat := match slot tab nedge u k with Some v => if keep v then Some v else None | None => None end.
Definition one (u v : nat) : nat_dist := 1.
Lemma ktgt_lt : forall u k v, u < n -> k < nedge -> ktgt u k = Some v -> v < n.
Proof.
  intros u k v Hu Hk E. destruct T as (A & B & C). apply C. unfold ktgt, slot in E.
  destruct (nth (u * nedge + k) tab None) as [w|] eqn:F; [|discriminate]. destruct (keep w); [|discriminate]. injection E as ->.
  rewrite <- F. apply nth_In. eapply slot_lt; eauto.
Qed.
Lemma one_pos : forall u v d, dle (o := nat_dist) d (dadd d (one u v)).
Proof. intros. cbn. lia. Qed.
Definition dfun (aDist : list (option nat)) : nat -> option nat_dist := fun v => nth v aDist None.
Lemma dfun_upd : forall aDist x d y, x < length aDist -> dfun (upd aDist x (Some d)) y = if y =? x then Some d else dfun aDist y.
Proof. intros. unfold dfun. rewrite nth_upd by auto. destruct (Nat.eq_dec x y), (Nat.eqb_spec y x); subst; auto; lia. Qed.

Notation Outer S := (outer nat_dist n (fun _ => nedge) ktgt one S).
Notation Inner S := (inner nat_dist n (fun _ => nedge) ktgt one S).

Definition linv (S : nat -> Prop) (s : list (option nat) * list (option nat) * list (nat * nat) * nat) : Prop :=
  let '(aDist, aOrder, que, icnt) := s in
  exists done, Outer S done (dfun aDist) que /\ length aDist = n /\ length aOrder = n /\ rank_table done aOrder /\ icnt = length done.

Definition meas (s : list (option nat) * list (option nat) * list (nat * nat) * nat) : nat :=
  let '(_, _, que, icnt) := s in length que + (n - icnt) * nedge.

(** One relaxation, for every way the code tests. *)
Lemma relax_hop : forall S done aDist que v d k x, Inner S v d k done (dfun aDist) que -> length aDist = n -> v < n -> k < nedge -> ktgt v k = Some x ->
  (forall dx, nth x aDist None = Some dx -> dx <= d + 1 -> Inner S v d (Datatypes.S k) done (dfun aDist) que) /\
  ((forall dx, nth x aDist None = Some dx -> d + 1 < dx) ->
     Inner S v d (Datatypes.S k) done (dfun (upd aDist x (Some (d + 1)))) (pq_push pq que (x, d + 1))).
Proof.
  intros S done aDist que v d k x I L Hv Hk Hx. assert (X : x < n) by (eapply ktgt_lt; eauto). split.
  - intros dx E Hle. eapply inner_noop; eauto using one_pos.
  - intros H. eapply inner_ext; [intros y; apply dfun_upd; rewrite L; exact X|].
    eapply inner_perm; [symmetry; apply (proj1 (pq_nat _ PQ))|].
    apply (inner_improve nat_dist n (fun _ => nedge) ktgt one S one_pos done (dfun aDist) v d que k x I Hk Hx).
    unfold dfun. destruct (nth x aDist None) as [dx|]; auto. specialize (H dx eq_refl). intros G. exact (Nat.lt_irrefl _ (Nat.lt_le_trans _ _ _ H G)).
Qed.
End Topo.

Ltac um := unfold meas; cbv iota beta.

Section TopoRun.
Variables (tab : list (option nat)) (n nedge : nat).
Hypothesis T : table_ok tab n nedge.
Variable pq : pqueue nat.
Hypothesis PQ : pq_ok nat_dist pq.
Variable ker : nat.
Hypothesis Hker : ker < n.
Notation S := (fun s => s = ker).
Notation all := (fun _ : nat => true).

Lemma ktgt_all : forall u k, ktgt tab nedge all u k = slot tab nedge u k.
Proof. intros. unfold ktgt. destruct (slot tab nedge u k); auto. Qed.

Definition topo_post (s : list (option nat) * list (option nat) * list (nat * nat) * nat) : Prop :=
  let '(aDist, aOrder, que, icnt) := s in exists vis, visit_order S (step1 tab n nedge) one vis /\ rank_table vis aOrder /\ icnt = length vis /\
    length aDist = n /\ length aOrder = n /\ (forall v d, nth v aDist None = Some d <-> shortest S (step1 tab n nedge) one v d) /\
    (forall v, nth v aDist None = None <-> ~ reachable S (step1 tab n nedge) one v).

Lemma topo_edge : forall u v, edge n (fun _ => nedge) (ktgt tab nedge all) u v <-> step1 tab n nedge u v.
Proof. intros u v. split; intros (A & k & B & C); (split; [auto|exists k; split; auto]); rewrite ktgt_all in *; auto. Qed.

Lemma topo_loop : forall dbg, exists s, topo_post s /\
  DijkstraElem_MeshElemTopo dbg pq ker tab n = (let '(aDist, aOrder, _, icnt) := s in assertb (negb dbg || (icnt =? n)) ;;; Some (aDist, aOrder)).
Proof.
  intros dbg. unfold DijkstraElem_MeshElemTopo. destruct T as (Tn & Tl & Tv).
  assert (NE : length tab / n = nedge) by (rewrite Tl; apply div_edge; auto). rewrite NE. rewrite vset_upd by (rewrite repeat_length; auto). cbn [bind].
  match goal with |- context [bind ?e _] => assert (X : wp e topo_post) end.
  { apply (wp_whilef _ (meas n nedge) (linv tab n nedge all S)).
    - um. rewrite (Permutation_length (proj1 (pq_nat _ PQ) _ _)). cbn [length]. lia.
    - unfold linv. exists []. split; [|rewrite upd_length, !repeat_length; auto using rank_nil].
      apply outer_start.
      + intros s ->. unfold dfun. rewrite nth_upd_same by (rewrite repeat_length; auto). auto.
      + intros v d. rewrite dfun_upd by (rewrite repeat_length; auto). unfold dfun. rewrite nth_repeat. destruct (Nat.eqb_spec v ker) as [->|]; [|discriminate].
        intros E. injection E as <-. split; auto. split; auto. apply (Permutation_in _ (Permutation_sym (proj1 (pq_nat _ PQ) _ _))). left; auto.
      + intros v d H. apply (Permutation_in _ (proj1 (pq_nat _ PQ) _ _)) in H. destruct H as [H|[]]. injection H as <- <-. auto.
    - intros (((aDist & aOrder) & que) & icnt) (done & O & L1 & L2 & RT & ->) C.
      assert (Q : que <> []) by (intros ->; discriminate). destruct (proj2 (pq_nat _ PQ) que Q) as ((v & d) & q' & EP & PP & PM).
      assert (LQ : length que = Datatypes.S (length q')) by (rewrite (Permutation_length PP); auto).
      split; [um; rewrite LQ; apply Nat.lt_0_succ|]. rewrite EP. cbn [bind].
      assert (O' : outer nat_dist n (fun _ => nedge) (ktgt tab nedge all) one S done (dfun aDist) ((v, d) :: q')) by exact (core_perm nat_dist _ _ _ _ _ _ _ _ _ _ PP O).
      assert (V : v < n) by (apply (walk_lt nat_dist n (fun _ => nedge) (ktgt tab nedge all) one S (ktgt_lt tab n nedge T all) ltac:(intros ? ->; auto) v d); apply (c_q _ _ _ _ _ _ _ _ _ _ O'); left; auto).
      apply wp_bind. apply (wp_vget _ None); [lia|]. destruct (nth v aOrder None) as [o|] eqn:EO.
      + apply wp_some. split.
        * exists done. split; auto. eapply core_drop; eauto. apply RT in EO. eapply nth_error_In; eauto.
        * um. lia.
      + assert (Nv : ~ In v done) by (apply (rank_none _ _ _ RT); auto).
        assert (I0 := inner_start nat_dist n (fun _ => nedge) _ _ S (ktgt_lt tab n nedge T all) ltac:(intros ? ->; auto) _ _ _ _ _ O' Nv ltac:(intros y Hy; apply (PM y); apply (Permutation_in _ (Permutation_sym PP)); right; auto)).
        apply wp_bind. apply wp_vset; [lia|]. apply wp_bind.
        apply (wp_forn _ (fun k (s : list (option nat) * list (nat * nat)) => inner nat_dist n (fun _ => nedge) (ktgt tab nedge all) one S v d k (done ++ [v]) (dfun (fst s)) (snd s) /\ length (fst s) = n /\ length (snd s) <= length q' + k)).
        * lia.
        * cbn [fst snd]. split; auto. split; auto. lia.
        * intros k (aDist1 & q1) Hk (I & L3 & L4). cbn [fst snd] in *. apply wp_bind. apply (wp_vget _ None); [rewrite Tl; nia|].
          change (nth (v * nedge + k) tab None) with (slot tab nedge v k). rewrite <- ktgt_all.
          destruct (ktgt tab nedge all v k) as [x|] eqn:EX.
          -- destruct (relax_hop tab n nedge T pq PQ all S _ _ _ _ _ _ _ I L3 V ltac:(lia) EX) as (R1 & R2).
             assert (Xn : x < n) by (eapply ktgt_lt; eauto; lia).
             apply wp_bind. apply (wp_vget _ None); [lia|]. destruct (nth x aDist1 None) as [dx|] eqn:ED.
             ++ destruct (Nat.leb_spec dx (d + 1)).
                ** apply wp_some. cbn [fst snd]. split; [eapply R1; eauto|]. split; [auto|lia].
                ** apply wp_bind. apply wp_vset; [lia|]. apply wp_some. cbn [fst snd]. rewrite upd_length, (Permutation_length (proj1 (pq_nat _ PQ) _ _)). cbn [length].
                   split; [apply R2; intros ? E; injection E as <-; auto|]. split; auto. lia.
             ++ apply wp_bind. apply wp_vset; [lia|]. apply wp_some. cbn [fst snd]. rewrite upd_length, (Permutation_length (proj1 (pq_nat _ PQ) _ _)). cbn [length].
                split; [apply R2; discriminate|]. split; auto. lia.
          -- apply wp_some. cbn [fst snd]. split; [eapply inner_skip; eauto; lia|]. split; [auto|lia].
        * intros (aDist1 & q1) (I & L3 & L4). cbn [fst snd] in *. apply wp_some. split.
          -- exists (done ++ [v]). split; [eapply (inner_end _ _ (fun _ => nedge)); eauto|]. rewrite upd_length, app_length. cbn [length]. split; auto. split; auto.
             split; [apply rank_add; auto; lia|lia].
          -- um. assert (length (done ++ [v]) <= n).
             { destruct I as (I & _). apply (lt_length n); [apply (c_nd _ _ _ _ _ _ _ _ _ _ I)|apply (c_lt _ _ _ _ _ _ _ _ _ _ I)]. }
             rewrite app_length in H. cbn [length] in H. assert ((n - (length done + 1)) * nedge + nedge = (n - length done) * nedge).
             { replace (n - length done) with ((n - (length done + 1)) + 1) by lia. lia. } lia.
    - intros (((aDist & aOrder) & que) & icnt) (done & O & L1 & L2 & RT & ->) C. destruct que; [|discriminate].
      destruct (core_final _ _ _ _ _ _ _ _ _ O) as (F1 & F2 & F3); [auto|].
      exists done. split; [|split; [auto|split; [auto|split; [auto|split; [auto|split]]]]].
      + exact (proj1 (visit_ext _ S S _ _ one one (fun s => iff_refl _) topo_edge (fun _ _ _ => eq_refl) done) F3).
      + intros v d. rewrite <- (shortest_ext nat_dist S S _ _ one one (fun s => iff_refl _) topo_edge (fun _ _ _ => eq_refl) v d). apply F1.
      + intros v. rewrite <- (reach_ext nat_dist S S _ _ one one (fun s => iff_refl _) topo_edge (fun _ _ _ => eq_refl) v). apply F2. }
  destruct (wp_ex _ _ _ X) as (s & E & P). rewrite E. exists s. split; auto.
Qed.
End TopoRun.
