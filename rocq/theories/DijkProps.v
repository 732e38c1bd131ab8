(** Properties C35, C36, C55: shortest path fields on meshes. *)
From Coq Require Import List Arith Bool Lia Permutation Reals Lra.
Import ListNotations.
From Verif Require Import Imp BvModel BvSpec BvProofs1 DijkModel DijkSpec DijkProofs1 DijkProofs2 DijkProofs3 DijkProofs4 DijkProofs5 DijkProofs6.
Open Scope nat_scope.

(** C35: hop distances from a seed element.  Without assert the function always returns: every entry is the least number of steps, unreachable
    elements keep the sentinel, and aOrder numbers the reachable elements in an order of non-decreasing distance. *)
Theorem C35_hops : forall tab n nedge (pq : pqueue nat) ker, table_ok tab n nedge -> pq_ok nat_dist pq -> ker < n ->
  exists aDist aOrder vis, DijkstraElem_MeshElemTopo false pq ker tab n = Some (aDist, aOrder) /\ length aDist = n /\ length aOrder = n /\
    (forall v d, nth v aDist None = Some d <-> shortest (D := nat_dist) (fun s => s = ker) (step1 tab n nedge) (fun _ _ => 1) v d) /\
    (forall v, nth v aDist None = None <-> ~ reachable (D := nat_dist) (fun s => s = ker) (step1 tab n nedge) (fun _ _ => 1) v) /\
    visit_order (D := nat_dist) (fun s => s = ker) (step1 tab n nedge) (fun _ _ => 1) vis /\ rank_table vis aOrder.
Proof.
  intros tab n nedge pq ker T PQ Hk.
  destruct (topo_loop tab n nedge T pq PQ ker Hk false) as ((((aDist & aOrder) & que) & icnt) & (vis & V & RT & EC & L1 & L2 & P1 & P2) & E).
  exists aDist, aOrder, vis. split; [exact E|]. split; [auto|split; [auto|split; [exact P1|split; [exact P2|split; [exact V|exact RT]]]]].
Qed.
(** With assert compiled in, it returns the same arrays when every element is reachable and aborts otherwise. *)
Theorem C35_assert : forall tab n nedge (pq : pqueue nat) ker, table_ok tab n nedge -> pq_ok nat_dist pq -> ker < n ->
  ((forall v, v < n -> reachable (D := nat_dist) (fun s => s = ker) (step1 tab n nedge) (fun _ _ => 1) v) ->
     DijkstraElem_MeshElemTopo true pq ker tab n = DijkstraElem_MeshElemTopo false pq ker tab n) /\
  ((exists v, v < n /\ ~ reachable (D := nat_dist) (fun s => s = ker) (step1 tab n nedge) (fun _ _ => 1) v) ->
     DijkstraElem_MeshElemTopo true pq ker tab n = None).
Proof.
  intros tab n nedge pq ker T PQ Hk.
  destruct (topo_loop tab n nedge T pq PQ ker Hk false) as ((((aDist & aOrder) & que) & icnt) & (vis & V & RT & EC & L1 & L2 & P1 & P2) & E).
  assert (E' : DijkstraElem_MeshElemTopo true pq ker tab n = (assertb (icnt =? n) ;;; Some (aDist, aOrder))).
  { destruct (topo_loop tab n nedge T pq PQ ker Hk true) as ((((aDist' & aOrder') & que') & icnt') & (vis' & V' & RT' & EC' & L1' & L2' & P1' & P2') & E').
    rewrite E'. unfold DijkstraElem_MeshElemTopo in E, E'. revert E E'. destruct (vset _ _ _); cbn [bind]; [|discriminate].
    destruct (whilef _ _ _ _) as [(((a & b) & c) & d)|]; cbn [bind negb orb]; intros E E'.
    - rewrite <- E'. unfold assertb in E. cbn in E. injection E as -> ->. subst icnt icnt'.
      destruct V as (V1 & V2 & _), V' as (V1' & V2' & _).
      assert (Permutation vis vis') by (apply NoDup_Permutation; auto; intros x; rewrite V2, V2'; tauto). rewrite (Permutation_length H).
      unfold assertb in E' |- *. destruct (length vis' =? n) eqn:E2, (d =? n) eqn:E3; cbn in *; auto; congruence.
    - unfold assertb in E. discriminate. }
  rewrite E, E'. cbn [negb orb]. destruct V as (V1 & V2 & _).
  assert (VL : forall v, In v vis -> v < n).
  { intros v Hv. destruct (nth v aOrder None) as [k|] eqn:EO; [|apply (rank_none _ _ v RT) in EO; contradiction].
    destruct (Nat.lt_ge_cases v n); auto. rewrite nth_overflow in EO by lia. discriminate. }
  destruct (lt_length n vis V1 VL) as (_ & IFF). subst icnt. split.
  - intros A. rewrite (proj2 IFF); [rewrite Nat.eqb_refl; auto|]. intros v Hv. apply V2. apply A; auto.
  - intros (v & Hv & NR). destruct (Nat.eqb_spec (length vis) n) as [EQ|NE]; [|auto]. exfalso. apply NR. apply V2. apply IFF; auto.
Qed.

(** C36: distances along the edges of a mesh.  Every entry is the least length of a walk with AT LEAST ONE edge from the source (-1 if there is none), so
    away from the source it is the shortest path length; the log of AddPoint calls is a visiting order by shortest path length. *)
Theorem C36_points : forall xyz ind adj (pq : pqueue R) ker, jag_ok ind adj (length xyz / 3) -> pq_ok R_dist pq -> ker < length xyz / 3 ->
  let S := fun s => s = ker in let E := fun u v => u < length xyz / 3 /\ jadj ind adj u v in let w := fun u v => dist (point xyz u) (point xyz v) in
  exists aDist aOrder log, DijkstraPoint_MeshTri3D false pq ker xyz ind adj = Some (aDist, aOrder, log) /\
    length aDist = length xyz / 3 /\ length aOrder = length xyz / 3 /\
    (forall v d, v <> ker -> shortest (D := R_dist) S E w v d -> nth v aDist (-1)%R = d) /\
    (forall v, v <> ker -> ~ reachable (D := R_dist) S E w v -> nth v aDist (-1)%R = (-1)%R) /\
    (forall v, reachable (D := R_dist) S E w v -> exists d, shortest (D := R_dist) S E w v d) /\
    (forall d, shortest1 (D := R_dist) S E w ker d -> nth ker aDist (-1)%R = d) /\
    visit_order (D := R_dist) S E w log /\ rank_table log aOrder.
Proof.
  intros xyz ind adj pq ker J PQ Hk S E w. destruct (point_loop xyz ind adj ker J Hk pq PQ false) as (aDist & aOrder & log & EQ & V & RT & L1 & L2 & P1 & P2 & P3).
  exists aDist, aOrder, log. split; [exact EQ|]. split; [auto|split; [auto|]].
  assert (W1 : forall v d, v <> ker -> walk (D := R_dist) S E w v d -> walk1 (D := R_dist) S E w v d).
  { intros v d N H. destruct H as [s Hs|u e v H ST]; [congruence|]. exists u, e. auto. }
  assert (W2 : forall v d, walk1 (D := R_dist) S E w v d -> walk (D := R_dist) S E w v d) by (intros v d (u & e & A & B & ->); apply w_step; auto).
  split; [|split; [|split; [|split; [|split; [exact V|exact RT]]]]].
  - intros v d N (A & B). apply P1. split; [apply (W1 v d N A)|]. intros d' H. apply B. apply W2. exact H.
  - intros v N H. apply P2. intros d A. apply H. exists d. apply W2. exact A.
  - intros v (d & A). destruct (Nat.eq_dec v ker) as [->|N].
    + exists 0%R. split; [constructor; reflexivity|]. intros d' H. exact (walk_pos R_dist (length xyz / 3) (pdeg ind) (ptgt ind adj) (pwt xyz) S (pwt_pos xyz) ker d'
        (proj2 (walk_ext R_dist S S _ _ (pwt xyz) (pwt xyz) (fun s => iff_refl _) (p_edge xyz ind adj ker Hk) (fun _ _ _ => eq_refl) ker d') H)).
    + destruct (P3 v d (W1 v d N A)) as (e & F & G). exists e. split; [apply W2; exact F|]. intros d' H. apply G. apply (W1 v d' N H).
  - intros d H. apply P1. exact H.
Qed.
(** With assert compiled in, it aborts unless every point is reachable. *)
Theorem C36_assert : forall xyz ind adj (pq : pqueue R) ker, jag_ok ind adj (length xyz / 3) -> pq_ok R_dist pq -> ker < length xyz / 3 ->
  let S := fun s => s = ker in let E := fun u v => u < length xyz / 3 /\ jadj ind adj u v in let w := fun u v => dist (point xyz u) (point xyz v) in
  (exists r, DijkstraPoint_MeshTri3D true pq ker xyz ind adj = Some r) <-> (forall v, v < length xyz / 3 -> reachable (D := R_dist) S E w v).
Proof.
  intros xyz ind adj pq ker J PQ Hk S E w. destruct (point_loop xyz ind adj ker J Hk pq PQ true) as (aDist & aOrder & log & EQ & V & RT & L1 & L2 & _).
  rewrite EQ. destruct V as (V1 & V2 & _).
  assert (VL : forall v, In v log -> v < length xyz / 3).
  { intros v Hv. destruct (nth v aOrder None) as [k|] eqn:EO; [|apply (rank_none _ _ v RT) in EO; contradiction].
    destruct (Nat.lt_ge_cases v (length xyz / 3)); auto. rewrite nth_overflow in EO by lia. discriminate. }
  destruct (lt_length _ log V1 VL) as (_ & IFF). cbn [negb orb]. split.
  - intros (r & H). unfold assertb in H. destruct (Nat.eqb_spec (length log) (length xyz / 3)) as [EL|]; [|discriminate]. intros v Hv. apply V2. apply IFF; auto.
  - intros H. rewrite (proj2 IFF), Nat.eqb_refl; [cbn; eauto|]. intros v Hv. apply V2. apply H; auto.
Qed.

(** A queue that satisfies the assumption: pop a least entry of a list. *)
Section MinPQ.
Variable D : odist.
Variable leb : D -> D -> bool.
Hypothesis leb_ok : forall a b, leb a b = true <-> dle a b.
Fixpoint pop_min (q : list (nat * D)) : option ((nat * D) * list (nat * D)) :=
  match q with
  | [] => None
  | x :: q => match pop_min q with None => Some (x, []) | Some (y, q') => if leb (snd x) (snd y) then Some (x, y :: q') else Some (y, x :: q') end
  end.
Definition min_pq : pqueue D := PQ (fun q x => x :: q) pop_min.
Lemma min_pq_ok : pq_ok D min_pq.
Proof.
  split; [intros; apply Permutation_refl|]. cbn [pq_pop min_pq]. induction q as [|x q IH]; [congruence|]. intros _. cbn [pop_min].
  destruct q as [|z q].
  - cbn. exists x, []. split; auto. split; auto. intros y [<-|[]]. apply dle_refl.
  - destruct IH as (y & q' & E & P & M); [discriminate|]. rewrite E. destruct (leb (snd x) (snd y)) eqn:L.
    + exists x, (y :: q'). split; auto. split; [constructor; auto|]. apply leb_ok in L. intros u [<-|Hu]; [apply dle_refl|]. eapply dle_trans; [apply L|]. apply M; auto.
    + exists y, (x :: q'). split; auto. split; [rewrite P; constructor|]. intros u [<-|Hu]; [|apply M; auto].
      destruct (dle_total D (snd y) (snd x)) as [F|F]; auto. apply leb_ok in F. congruence.
Qed.
End MinPQ.
Definition nat_pq : pqueue nat := min_pq nat_dist Nat.leb.
Lemma nat_pq_ok : pq_ok nat_dist nat_pq.
Proof. apply min_pq_ok. intros a b. apply Nat.leb_le. Qed.
Definition R_pq : pqueue R := min_pq R_dist Rleb.
Lemma R_pq_ok : pq_ok R_dist R_pq.
Proof. apply min_pq_ok. intros a b. apply Rleb_true. Qed.

(** The value at the source itself is not 0: with two points a unit apart it is the round trip, 2. *)
Theorem C36_source_refuted : exists xyz ind adj ker aDist aOrder log, jag_ok ind adj (length xyz / 3) /\ ker < length xyz / 3 /\
  DijkstraPoint_MeshTri3D true R_pq ker xyz ind adj = Some (aDist, aOrder, log) /\ nth ker aDist (-1)%R = 2%R.
Proof.
  set (xyz := [0; 0; 0; 1; 0; 0]%R). set (ind := [0; 1; 2]). set (adj := [1; 0]).
  assert (J : jag_ok ind adj (length xyz / 3)).
  { change (length xyz / 3) with 2. split; auto. split; auto. split; [intros [|[|i]] H; cbn; lia|]. split; auto. intros v [<-|[<-|[]]]; lia. }
  destruct (point_loop xyz ind adj 0 J ltac:(cbn; lia) R_pq R_pq_ok true) as (aDist & aOrder & log & EQ & V & RT & L1 & L2 & P1 & _).
  exists xyz, ind, adj, 0, aDist, aOrder, log. split; auto. split; [cbn; lia|].
  assert (W01 : pwt xyz 0 1 = 1%R) by (unfold pwt, dist; cbn; etransitivity; [|apply (sqrt_square 1); lra]; f_equal; ring).
  assert (W10 : pwt xyz 1 0 = 1%R) by (unfold pwt, dist; cbn; etransitivity; [|apply (sqrt_square 1); lra]; f_equal; ring).
  assert (S01 : pstep xyz ind adj 0 1) by (split; [cbn; lia|exists 0; cbn; auto]).
  assert (S10 : pstep xyz ind adj 1 0) by (split; [cbn; lia|exists 1; cbn; auto]).
  assert (A : forall u v, pstep xyz ind adj u v -> (u = 0 /\ v = 1) \/ (u = 1 /\ v = 0)).
  { intros u v (Hu & k & Hk & Hv). change (length xyz / 3) with 2 in Hu. destruct u as [|[|u]]; [| |lia]; cbn in Hk.
    - assert (k = 0) by lia. subst. cbn. auto.
    - assert (k = 1) by lia. subst. cbn. auto. }
  assert (W0 : walk (D := R_dist) (fun s => s = 0) (pstep xyz ind adj) (pwt xyz) 0 0%R) by (constructor; auto).
  assert (W1 := w_step R_dist _ _ (pwt xyz) _ _ _ W0 S01).
  split.
  - rewrite EQ. destruct V as (V1 & V2 & _).
    assert (I0 : In 0 log) by (apply V2; eexists; eauto). assert (I1 : In 1 log) by (apply V2; eexists; eauto).
    assert (L : length log = length xyz / 3).
    { apply (lt_length (length xyz / 3)); auto.
      - intros v Hv. destruct (nth v aOrder None) as [k|] eqn:EO; [|apply (rank_none _ _ v RT) in EO; contradiction].
        destruct (Nat.lt_ge_cases v (length xyz / 3)); auto. rewrite nth_overflow in EO by lia. discriminate.
      - intros v Hv. change (length xyz / 3) with 2 in Hv. destruct v as [|[|v]]; auto; lia. }
    rewrite L, Nat.eqb_refl. auto.
  - apply P1. split.
    + exists 1, (dadd (o := R_dist) 0%R (pwt xyz 0 1)). split; [exact W1|]. split; auto. rewrite W01, W10. cbn. lra.
    + intros d (u & e & H1 & H2 & ->). destruct (A u 0 H2) as [(_ & X)|(-> & _)]; [discriminate|]. rewrite W10. cbn.
      enough (1 <= e)%R by lra. inversion H1; subst; [discriminate|]. destruct (A u 1 H0) as [(-> & _)|(_ & X)]; [|discriminate]. rewrite W01. cbn.
      assert (0 <= d)%R by exact (walk_pos R_dist (length xyz / 3) (pdeg ind) (ptgt ind adj) (pwt xyz) (fun s => s = 0) (pwt_pos xyz) 0 d
        (proj2 (walk_ext R_dist _ _ _ _ (pwt xyz) (pwt xyz) (fun s => iff_refl _) (p_edge xyz ind adj 0 ltac:(cbn; lia)) (fun _ _ _ => eq_refl) 0 d) H)). lra.
Qed.

(** C55: the other fields.  Distances between element centres, entering only included elements. *)
Theorem C55_geo : forall tab n nedge xyz elem nnoel (pq : pqueue R) incl ker, table_ok tab n nedge -> mesh_ok xyz elem n nnoel -> pq_ok R_dist pq -> ker < n ->
  let S := fun s => s = ker in let E := fun u v => step1 tab n nedge u v /\ incl v = true in
  let w := fun u v => dist (centre xyz elem nnoel u) (centre xyz elem nnoel v) in
  exists aDist aOrder log, DijkstraElem_MeshElemGeo3 pq incl ker elem n xyz tab = Some (aDist, aOrder, log) /\ length aDist = n /\ length aOrder = n /\
    (forall v d, shortest (D := R_dist) S E w v d -> nth v aDist (-1)%R = d) /\
    (forall v, ~ reachable (D := R_dist) S E w v -> nth v aDist (-1)%R = (-1)%R) /\
    (forall v, reachable (D := R_dist) S E w v -> exists d, shortest (D := R_dist) S E w v d) /\
    visit_order (D := R_dist) S E w log /\ rank_table log aOrder.
Proof.
  intros tab n nedge xyz elem nnoel pq incl ker T M PQ Hk S E w. destruct (wp_ex _ _ _ (geo_ok tab n nedge T xyz elem nnoel M pq PQ incl ker Hk)) as (((aDist & aOrder) & log) & EQ & V & RT & L1 & L2 & P1 & P2 & P3).
  exists aDist, aOrder, log. split; auto. split; [auto|split; [auto|split; [exact P1|split; [exact P2|split; [exact P3|split; [exact V|exact RT]]]]]].
Qed.
(** Hop distance from the border of a region, walking inside the region. *)
Theorem C55_fill : forall tab flg nedge f (pq : pqueue nat), table_ok tab (length flg) nedge -> pq_ok nat_dist pq ->
  let S := border tab nedge flg f in let E := fun u v => step1 tab (length flg) nedge u v /\ nth v flg 0 = f in let w := fun _ _ : nat => 1 in
  exists aDist aOrder log, Dijkstra_FillFromBoundary pq f flg tab = Some (aDist, aOrder, log) /\ length aDist = length flg /\ length aOrder = length flg /\
    (forall v d, nth v aDist None = Some d <-> shortest (D := nat_dist) S E w v d) /\
    (forall v, nth v aDist None = None <-> ~ reachable (D := nat_dist) S E w v) /\
    visit_order (D := nat_dist) S E w log /\ rank_table log aOrder.
Proof.
  intros tab flg nedge f pq T PQ S E w. destruct (wp_ex _ _ _ (fill_ok tab flg nedge f T pq PQ)) as (((aDist & aOrder) & log) & EQ & V & RT & L1 & L2 & P1 & P2).
  exists aDist, aOrder, log. split; auto. split; [auto|split; [auto|split; [exact P1|split; [exact P2|split; [exact V|exact RT]]]]].
Qed.
(** Clustering: the kernels are the random first one and then, one by one, the first element farthest from the kernels so far; every
    element is given the index of its nearest kernel, the first in case of ties. *)
Theorem C55_clustering : forall dbg tab n nedge (pq : pqueue nat) ker ncluster, table_ok tab n nedge -> pq_ok nat_dist pq -> ker < n -> ncluster <= n ->
  (dbg = true -> forall c v, c < n -> v < n -> reachable (D := nat_dist) (fun s => s = c) (step1 tab n nedge) (fun _ _ => 1) v) ->
  exists flg ks, MeshClustering dbg pq ker ncluster tab n = Some flg /\ length flg = n /\ length ks = Nat.max 1 ncluster /\ nth 0 ks 0 = ker /\
    (forall j, 0 < j < length ks -> farthest tab n nedge (fun s => In s (firstn j ks)) (nth j ks 0)) /\
    (forall v, v < n -> nearest_kernel tab n nedge ks v (nth v flg 0)) /\
    (forall k, k < length ks -> nth (nth k ks 0) flg 0 = k).
Proof.
  intros dbg tab n nedge pq ker ncl T PQ Hk Hn A. destruct (wp_ex _ _ _ (cluster_ok tab n nedge T pq PQ dbg A ker ncl Hk Hn)) as (flg & E & L & ks & K). exists flg, ks.
  destruct K as (K1 & K2 & K3 & K4). do 5 (split; [assumption|]). split; [assumption|]. intros k Hk'.
  assert (KN : forall j, j < length ks -> nth j ks 0 < n) by (intros [|j] Hj; [lia|]; apply (K3 (S j)); lia).
  apply (nearest_own tab n nedge ks k); auto.
  - intros j j' Hj Hj'. assert (Q : forall a b, a < b -> b < length ks -> nth a ks 0 <> nth b ks 0).
    { intros a b Hab Hb X. destruct (K3 b ltac:(lia)) as (_ & NI & _). apply NI. rewrite <- X. rewrite <- (firstn_skipn b ks) at 1.
      rewrite app_nth1 by (rewrite firstn_length; lia). apply nth_In. rewrite firstn_length. lia. }
    intros X. destruct (Nat.lt_trichotomy j j') as [C|[C|C]]; auto; [destruct (Q j j')|destruct (Q j' j)]; auto.
  - intros j Hj. apply (hops_ex tab n nedge T pq PQ dbg A). auto.
Qed.
Print Assumptions C35_hops.
Print Assumptions C35_assert.
Print Assumptions C36_points.
Print Assumptions C36_assert.
Print Assumptions C36_source_refuted.
Print Assumptions C55_geo.
Print Assumptions C55_fill.
Print Assumptions C55_clustering.

(** The hypotheses are met: a strip of four triangles and an isolated fifth one. *)
Definition ex_tab : list (option nat) := [None; Some 1; None; Some 0; Some 2; None; Some 1; Some 3; None; Some 2; None; None; None; None; None].
Example C35_example : table_ok ex_tab 5 3 /\ DijkstraElem_MeshElemTopo false nat_pq 1 ex_tab 5 = Some ([Some 1; Some 0; Some 1; Some 2; None], [Some 2; Some 0; Some 1; Some 3; None]) /\
  DijkstraElem_MeshElemTopo true nat_pq 1 ex_tab 5 = None.
Proof. split; [|split; reflexivity]. split; [lia|]. split; [reflexivity|]. intros v H. cbn in H. repeat (destruct H as [H|H]; [try discriminate H; injection H as <-; lia|]). contradiction. Qed.
Example C55_example : table_ok (firstn 12 ex_tab) 4 3 /\ MeshClustering true nat_pq 1 2 (firstn 12 ex_tab) 4 = Some [0; 0; 0; 1] /\
  Dijkstra_FillFromBoundary nat_pq 7 [7; 7; 7; 1] [Some 3; Some 1; Some 2; Some 0; Some 2; None; Some 1; Some 0; Some 1; None; None; None] <> None /\
  mesh_ok [0;0;0; 1;0;0; 0;1;0; 1;1;0; 2;0;0; 2;1;0]%R [0;1;2; 1;3;2; 1;4;3; 4;5;3] 4 3.
Proof.
  split; [|split; [reflexivity|split; [discriminate|]]].
  - split; [lia|]. split; [reflexivity|]. intros v H. cbn in H. repeat (destruct H as [H|H]; [try discriminate H; injection H as <-; lia|]). contradiction.
  - split; [lia|split; [reflexivity|]]. intros v Hv. cbn in Hv. cbn [length]. intuition lia.
Qed.
