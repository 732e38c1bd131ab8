(** The geometric-distance functions. *)
From Coq Require Import List Arith Bool Lia Permutation Reals Lra.
Import ListNotations.
From Verif Require Import Imp BvModel BvSpec BvProofs1 BvProofs3 DijkModel DijkSpec DijkProofs1 DijkProofs2.
Open Scope nat_scope.

Lemma pq_R : forall pq : pqueue R, pq_ok R_dist pq -> (forall (q : list (nat * R)) x, Permutation (pq_push pq q x) (x :: q)) /\
  (forall q : list (nat * R), q <> [] -> exists (x : nat * R) (q' : list (nat * R)), pq_pop pq q = Some (x, q') /\ Permutation q (x :: q') /\ forall y, In y q -> (snd x <= snd y)%R).
Proof. intros pq H. exact H. Qed.
Lemma dDistance3_dist : forall p q, dDistance3 p q = dist p q.
Proof. intros. unfold dDistance3, dist. f_equal. ring. Qed.

(** -1 stands for no label. *)
Definition rfun (a : list R) : nat -> option R_dist := fun v => if Rltb (nth v a (-1)%R) 0 then None else Some (nth v a (-1)%R).
Definition lab_ok (a : list R) : Prop := forall v, (nth v a (-1) = -1 \/ 0 <= nth v a (-1))%R.
Lemma rfun_upd : forall a x d y, x < length a -> (0 <= d)%R -> rfun (upd a x d) y = if y =? x then Some d else rfun a y.
Proof.
  intros. unfold rfun. rewrite nth_upd by auto. destruct (Nat.eq_dec x y), (Nat.eqb_spec y x); subst; auto; try lia.
  rewrite (proj2 (Rltb_false d 0)) by lra. auto.
Qed.
Lemma lab_upd : forall a x d, lab_ok a -> x < length a -> (0 <= d)%R -> lab_ok (upd a x d).
Proof. intros a x d H Hx Hd v. rewrite nth_upd by auto. destruct (Nat.eq_dec x v); auto. Qed.
Lemma lab_rep : forall n, lab_ok (repeat (-1)%R n).
Proof. intros n v. rewrite nth_repeat. auto. Qed.
Lemma rfun_rep : forall n v, rfun (repeat (-1)%R n) v = None.
Proof. intros. unfold rfun. rewrite nth_repeat. rewrite (proj2 (Rltb_true (-1) 0)) by lra. auto. Qed.
Lemma rfun_some : forall a v d, rfun a v = Some d -> nth v a (-1)%R = d /\ (0 <= d)%R.
Proof. intros a v d. unfold rfun. destruct (Rltb (nth v a (-1)%R) 0) eqn:E; [discriminate|]. apply Rltb_false in E. intros F. injection F as <-. split; [auto|lra]. Qed.
Lemma rfun_none : forall a v, lab_ok a -> rfun a v = None -> nth v a (-1)%R = (-1)%R.
Proof. intros a v H. unfold rfun. destruct (Rltb (nth v a (-1)%R) 0) eqn:E; [|discriminate]. apply Rltb_true in E. destruct (H v); auto. lra. Qed.
Lemma rfun_some' : forall a v, (0 <= nth v a (-1))%R -> rfun a v = Some (nth v a (-1)%R).
Proof. intros a v H. unfold rfun. rewrite (proj2 (Rltb_false _ _)) by lra. auto. Qed.

(** ---- Geo3 ---- *)
Lemma Center_ok : forall xyz elem nelem nnoel o, mesh_ok xyz elem nelem nnoel -> o < nelem -> Center_Elem3 o elem nnoel xyz = Some (centre xyz elem nnoel o).
Proof.
  intros xyz elem nelem nnoel o (M1 & M2 & M3) Ho. unfold Center_Elem3.
  assert (X : wp (forn 0 nnoel (fun inoel p => ip0 <- vget elem (o * nnoel + inoel) ;; x <- getp xyz ip0 ;; Some (V3 (vx p + vx x) (vy p + vy x) (vz p + vz x))) (V3 0 0 0))
     (fun p => p = let m f := rsum nnoel (fun i => f (corner xyz elem nnoel o i)) in V3 (m vx) (m vy) (m vz))).
  { apply (wp_forn _ (fun k p => p = let m f := rsum k (fun i => f (corner xyz elem nnoel o i)) in V3 (m vx) (m vy) (m vz))); auto.
    - lia.
    - intros k p Hk ->. assert (L : o * nnoel + k < length elem) by (rewrite M2; nia).
      apply wp_bind. apply (wp_vget _ 0); [auto|]. rewrite getp_ok by (apply M3; apply nth_In; auto). cbn [bind]. apply wp_some. cbn. auto. }
  destruct (wp_ex _ _ _ X) as (p & E & ->). rewrite E. cbn. auto.
Qed.

Section Geo.
Variables (tab : list (option nat)) (n nedge : nat).
Hypothesis T : table_ok tab n nedge.
Variables (xyz : list R) (elem : list nat) (nnoel : nat).
Hypothesis M : mesh_ok xyz elem n nnoel.
Variable pq : pqueue R.
Hypothesis PQ : pq_ok R_dist pq.
Variable keep : nat -> bool.
Variable ker : nat.
Hypothesis Hker : ker < n.
Notation S := (fun s => s = ker).
Definition gwt (u v : nat) : R_dist := dist (centre xyz elem nnoel u) (centre xyz elem nnoel v).
Lemma gwt_pos : forall u v d, dle (o := R_dist) d (dadd d (gwt u v)).
Proof. intros. cbn. unfold gwt. pose proof (dist_pos (centre xyz elem nnoel u) (centre xyz elem nnoel v)). lra. Qed.
Definition gstep (u v : nat) : Prop := step1 tab n nedge u v /\ keep v = true.
Lemma gslot_lt : forall u k j, u < n -> k < nedge -> slot tab nedge u k = Some j -> j < n.
Proof. intros u k j Hu Hk E. destruct T as (A & B & C). apply C. rewrite <- E. unfold slot. apply nth_In. eapply slot_lt; eauto. Qed.
Lemma geo_edge : forall u v, edge n (fun _ => nedge) (ktgt tab nedge keep) u v <-> gstep u v.
Proof.
  intros u v. unfold gstep, step1, adjacent, edge, ktgt. split.
  - intros (A & k & B & C). destruct (slot tab nedge u k) as [j|] eqn:E; [|discriminate]. destruct (keep j) eqn:F; [|discriminate].
    injection C as ->. split; auto. split; auto. exists k. auto.
  - intros ((A & k & B & C) & F). split; auto. exists k. rewrite C, F. auto.
Qed.

Definition gmeas (s : list R * list (option nat) * list (nat * R) * nat * list nat) : nat :=
  let '(_, _, que, icnt, _) := s in length que + (n - icnt) * nedge.
Definition ginv (s : list R * list (option nat) * list (nat * R) * nat * list nat) : Prop :=
  let '(aDist, aOrder, que, icnt, log) := s in
  outer R_dist n (fun _ => nedge) (ktgt tab nedge keep) gwt S log (rfun aDist) que /\ lab_ok aDist /\ length aDist = n /\ length aOrder = n /\ rank_table log aOrder /\ icnt = length log.

Lemma geo_ok : wp (DijkstraElem_MeshElemGeo3 pq keep ker elem n xyz tab) (fun r => let '(aDist, aOrder, log) := r in
  visit_order S gstep gwt log /\ rank_table log aOrder /\ length aDist = n /\ length aOrder = n /\
  (forall v d, shortest S gstep gwt v d -> nth v aDist (-1)%R = d) /\ (forall v, ~ reachable S gstep gwt v -> nth v aDist (-1)%R = (-1)%R) /\
  (forall v, reachable S gstep gwt v -> exists d, shortest S gstep gwt v d)).
Proof.
  unfold DijkstraElem_MeshElemGeo3. destruct T as (Tn & Tl & Tv). assert (M' := M). destruct M' as (M1 & M2 & M3).
  assert (NE : length tab / n = nedge) by (rewrite Tl; apply div_edge; auto). rewrite NE.
  assert (NN : length elem / n = nnoel) by (rewrite M2; apply div_edge; auto). rewrite NN.
  assert (SL : forall s, S s -> s < n) by (intros ? ->; auto).
  assert (WP : forall v d, walk S (edge n (fun _ => nedge) (ktgt tab nedge keep)) gwt v d -> (0 <= d)%R).
  { intros v d W. exact (walk_pos R_dist n (fun _ => nedge) (ktgt tab nedge keep) gwt S gwt_pos v d W). }
  apply wp_bind. apply wp_vset; [rewrite repeat_length; auto|]. apply wp_bind.
  apply (wp_whilef _ gmeas ginv).
  - unfold gmeas; cbv iota beta. rewrite (Permutation_length (proj1 (pq_R _ PQ) _ _)). cbn [length]. lia.
  - unfold ginv. rewrite upd_length, !repeat_length. split; [|split; [apply lab_upd; [apply lab_rep|rewrite repeat_length; auto|lra]|auto using rank_nil]].
    apply outer_start.
    + intros s ->. rewrite rfun_upd by (try rewrite repeat_length; auto; lra). rewrite Nat.eqb_refl. auto.
    + intros v d. rewrite rfun_upd by (try rewrite repeat_length; auto; lra). rewrite rfun_rep. destruct (Nat.eqb_spec v ker) as [->|]; [|discriminate].
      intros E. injection E as <-. split; auto. split; auto. apply (Permutation_in _ (Permutation_sym (proj1 (pq_R _ PQ) _ _))). left; auto.
    + intros v d H. apply (Permutation_in _ (proj1 (pq_R _ PQ) _ _)) in H. destruct H as [H|[]]. injection H as <- <-. auto.
  - intros ((((aDist & aOrder) & que) & icnt) & log) (O & LO & L1 & L2 & RT & ->) C.
    assert (Q : que <> []) by (intros ->; discriminate). destruct (proj2 (pq_R _ PQ) que Q) as ((v & d) & q' & EP & PP & PM).
    assert (LQ : length que = Datatypes.S (length q')) by (rewrite (Permutation_length PP); auto).
    split; [unfold gmeas; cbv iota beta; rewrite LQ; apply Nat.lt_0_succ|]. rewrite EP. cbn [bind].
    assert (O' : outer R_dist n (fun _ => nedge) (ktgt tab nedge keep) gwt S log (rfun aDist) ((v, d) :: q')) by exact (core_perm R_dist _ _ _ _ _ _ _ _ _ _ PP O).
    assert (W := c_q _ _ _ _ _ _ _ _ _ _ O' v d (or_introl eq_refl)).
    assert (Dp := WP v d W).
    assert (V : v < n) by (exact (walk_lt R_dist n (fun _ => nedge) (ktgt tab nedge keep) gwt S (ktgt_lt tab n nedge T keep) SL v d W)).
    rewrite (Center_ok _ _ _ _ _ M V). cbn [bind].
    apply wp_bind. apply (wp_vget _ None); [lia|]. destruct (nth v aOrder None) as [o|] eqn:EO.
    + apply wp_some. split.
      * split; auto. eapply core_drop; eauto. apply RT in EO. eapply nth_error_In; eauto.
      * unfold gmeas; cbv iota beta. lia.
    + assert (Nv : ~ In v log) by (apply (rank_none _ _ _ RT); auto).
      assert (I0 := inner_start R_dist n (fun _ => nedge) _ _ S (ktgt_lt tab n nedge T keep) SL _ _ _ _ _ O' Nv ltac:(intros y Hy; apply (PM y); apply (Permutation_in _ (Permutation_sym PP)); right; auto)).
      apply wp_bind. apply wp_vset; [lia|]. apply wp_bind.
      assert (RA : rank_table (log ++ [v]) (upd aOrder v (Some (length log)))) by (apply rank_add; auto; lia).
      apply (wp_forn _ (fun k (s : list R * list (nat * R)) => inner R_dist n (fun _ => nedge) (ktgt tab nedge keep) gwt S v d k (log ++ [v]) (rfun (fst s)) (snd s) /\ lab_ok (fst s) /\ length (fst s) = n /\ length (snd s) <= length q' + k)).
      * lia.
      * cbn [fst snd]. split; auto. split; auto. split; auto. lia.
      * intros k (aDist1 & q1) Hk (I & L0 & L3 & L4). cbn [fst snd] in *. apply wp_bind. apply (wp_vget _ None); [rewrite Tl; nia|].
        change (nth (v * nedge + k) tab None) with (slot tab nedge v k).
        destruct (slot tab nedge v k) as [x|] eqn:ES.
        2:{ apply wp_some. cbn [fst snd]. split; [eapply inner_skip; eauto; [lia|unfold ktgt; rewrite ES; auto]|]. split; [auto|split; [auto|lia]]. }
        assert (Xn : x < n) by (apply (gslot_lt v k); auto; lia).
        apply wp_bind. apply (wp_vget _ None); [rewrite upd_length; lia|].
        assert (Skip : ktgt tab nedge keep v k = None -> inner R_dist n (fun _ => nedge) (ktgt tab nedge keep) gwt S v d (Datatypes.S k) (log ++ [v]) (rfun aDist1) q1).
        { intros E. eapply inner_skip; eauto. lia. }
        assert (KT : ktgt tab nedge keep v k = if keep x then Some x else None) by (unfold ktgt; rewrite ES; auto).
        destruct (nth x (upd aOrder v (Some (length log))) None) as [o1|] eqn:EO1.
        { apply wp_some. cbn [fst snd]. split; [|split; [auto|split; [auto|lia]]].
          destruct (keep x) eqn:EK; [|apply Skip; auto].
          destruct (inner_fixed R_dist n (fun _ => nedge) _ _ S gwt_pos _ _ _ _ _ k x I ltac:(lia) KT) as (dx & E1 & E2).
          - apply RA in EO1. eapply nth_error_In; eauto.
          - exact (proj1 (inner_noop R_dist n (fun _ => nedge) _ _ S gwt_pos _ _ _ _ _ k x dx I ltac:(lia) KT E1 E2)). }
        destruct (keep x) eqn:EK; cbn [negb].
        2:{ apply wp_some. cbn [fst snd]. split; [apply Skip; auto|split; [auto|split; [auto|lia]]]. }
        rewrite (Center_ok _ _ _ _ _ M Xn). cbn [bind]. rewrite dDistance3_dist.
        apply wp_bind. apply (wp_vget _ (-1)%R); [lia|].
        assert (NP : (0 <= d + dist (centre xyz elem nnoel v) (centre xyz elem nnoel x))%R) by (pose proof (dist_pos (centre xyz elem nnoel v) (centre xyz elem nnoel x)); lra).
        destruct (Rltb (nth x aDist1 (-1)%R) (-1 / 10) || Rltb (d + dist (centre xyz elem nnoel v) (centre xyz elem nnoel x)) (nth x aDist1 (-1)%R)) eqn:ET.
        -- apply wp_bind. apply wp_vset; [lia|]. apply wp_some. cbn [fst snd]. rewrite upd_length, (Permutation_length (proj1 (pq_R _ PQ) _ _)). cbn [length].
           split; [|split; [apply lab_upd; auto; lia|split; [auto|lia]]].
           eapply inner_ext; [intros y; apply rfun_upd; [rewrite L3; exact Xn|exact NP]|].
           eapply inner_perm; [symmetry; apply (proj1 (pq_R _ PQ))|].
           apply (inner_improve R_dist n (fun _ => nedge) (ktgt tab nedge keep) gwt S gwt_pos _ (rfun aDist1) v d q1 k x I ltac:(lia) KT).
           unfold rfun. destruct (Rltb (nth x aDist1 (-1)%R) 0) eqn:EN; auto. apply Rltb_false in EN.
           apply orb_true_iff in ET. destruct ET as [ET|ET]; apply Rltb_true in ET; [lra|]. cbn. unfold gwt. lra.
        -- apply wp_some. cbn [fst snd]. split; [|split; [auto|split; [auto|lia]]].
           apply orb_false_iff in ET. destruct ET as (E1 & E2). apply Rltb_false in E1, E2.
           destruct (L0 x) as [Z|Z]; [lra|].
           exact (proj1 (inner_noop R_dist n (fun _ => nedge) _ _ S gwt_pos _ _ _ _ _ k x (nth x aDist1 (-1)%R) I ltac:(lia) KT (rfun_some' _ _ Z) ltac:(cbn; unfold gwt; lra))).
      * intros (aDist1 & q1) (I & L0 & L3 & L4). cbn [fst snd] in *. apply wp_some. split.
        -- split; [eapply (inner_end _ _ (fun _ => nedge)); eauto|]. rewrite upd_length, app_length. cbn [length]. split; auto.
        -- unfold gmeas; cbv iota beta. assert (length (log ++ [v]) <= n).
           { destruct I as (I & _). apply (lt_length n); [apply (c_nd _ _ _ _ _ _ _ _ _ _ I)|apply (c_lt _ _ _ _ _ _ _ _ _ _ I)]. }
           rewrite app_length in H. cbn [length] in H. assert ((n - (length log + 1)) * nedge + nedge = (n - length log) * nedge).
           { replace (n - length log) with ((n - (length log + 1)) + 1) by lia. lia. } lia.
  - intros ((((aDist & aOrder) & que) & icnt) & log) (O & LO & L1 & L2 & RT & ->) C. destruct que; [|discriminate].
    destruct (core_final _ _ _ _ _ _ _ _ _ O) as (F1 & F2 & F3); [auto|]. apply wp_some.
    assert (SE := shortest_ext R_dist S S _ _ gwt gwt (fun s => iff_refl _) geo_edge (fun _ _ _ => eq_refl)).
    assert (RE := reach_ext R_dist S S _ _ gwt gwt (fun s => iff_refl _) geo_edge (fun _ _ _ => eq_refl)).
    split; [|split; [auto|split; [auto|split; [auto|split; [|split]]]]].
    + exact (proj1 (visit_ext _ S S _ _ gwt gwt (fun s => iff_refl _) geo_edge (fun _ _ _ => eq_refl) log) F3).
    + intros v d H. apply SE in H. apply F1 in H. apply rfun_some in H. apply H.
    + intros v H. rewrite <- RE in H. apply F2 in H. apply rfun_none; auto.
    + intros v H. apply RE in H. destruct (rfun aDist v) as [d|] eqn:E; [exists d; apply SE, F1; auto|]. apply F2 in E. contradiction.
Qed.
End Geo.
