(** C51: pairing neighbouring points for multigrid coarsening. *)
From Coq Require Import List Arith Bool Reals Lra Lia Sorted Permutation.
Import ListNotations.
From Verif Require Import Imp JagModel JagSpec JagProofs JagProofs2 PrModel CluModel CluSpec CluProofs CluProofs2 CluProofs3.
Open Scope nat_scope.

(** The 2D function: pairs of neighbours, then singles, form a partition; without ties the pairs are the greedy matching. *)
Theorem C51_pairs_and_singles : forall adj psup_ind psup area map0,
  jagged psup_ind psup adj -> graph_ok adj -> length area = length adj ->
  (forall i, i < length adj -> (0 < nth i area 0)%R) -> length map0 = length adj ->
  exists pairs singles map01,
    BinaryClustering_Points2d map0 (length adj) area psup_ind psup = Some (map01, length pairs + length singles) /\
    partition_of (length adj) (groups_of pairs singles) map01 /\ edge_pairs adj pairs /\ StronglySorted lt singles /\
    (distinct_ratios adj (fun i => nth i area 0%R) -> greedy adj (fun i => nth i area 0%R) pairs).
Proof.
  intros adj ind arr area m0 HJ HG HA HP Hm.
  pose proof (cluster2d_ok adj ind arr area HJ HG HA HP m0 Hm) as W. apply wp_ex in W.
  destruct W as ([m np] & E & P & S & (H1 & H2 & H3 & H4) & En). cbn [fst snd] in *. subst np. exists P, S, m. auto.
Qed.
Print Assumptions C51_pairs_and_singles.

(** Without ties no two neighbours stay single. *)
Theorem C51_no_neighbours_left : forall adj psup_ind psup area map0,
  jagged psup_ind psup adj -> graph_ok adj -> length area = length adj ->
  (forall i, i < length adj -> (0 < nth i area 0)%R) -> length map0 = length adj ->
  distinct_ratios adj (fun i => nth i area 0%R) ->
  exists pairs singles map01,
    BinaryClustering_Points2d map0 (length adj) area psup_ind psup = Some (map01, length pairs + length singles) /\
    partition_of (length adj) (groups_of pairs singles) map01 /\
    forall i j, In i singles -> In j singles -> ~ In j (nth i adj []).
Proof.
  intros adj ind arr area m0 HJ HG HA HP Hm HD.
  destruct (C51_pairs_and_singles adj ind arr area m0 HJ HG HA HP Hm) as (P & S & m & E & HPa & _ & _ & HGr).
  destruct (HGr HD) as (_ & Hcov). exists P, S, m. split; [auto|]. split; [auto|].
  intros i j Hi Hj Hin. destruct (Hcov i j Hin) as (p & Hp & _ & Ht).
  assert (HN : NoDup (concat (groups_of P S))) by (eapply Permutation_NoDup; [apply Permutation_sym; apply HPa|apply seq_NoDup]).
  unfold groups_of in HN. rewrite concat_app in HN.
  assert (Hx : forall x, (fst p = x \/ snd p = x) -> In x S -> False).
  { intros x Hx Hxs.
    assert (In x (concat (map (fun p => [fst p; snd p]) P))) as HA1.
    { apply in_concat. exists [fst p; snd p]. split; [apply (in_map (fun p => [fst p; snd p])); auto|]. cbn. tauto. }
    assert (In x (concat (map (fun i => [i]) S))) as HA2.
    { apply in_concat. exists [x]. split; [apply (in_map (fun i => [i])); auto|]. left. auto. }
    clear - HN HA1 HA2. induction (concat (map (fun p => [fst p; snd p]) P)) as [|a l IH]; [auto|].
    cbn in HN. inversion HN as [|? ? Hni HN']; subst. destruct HA1 as [->|HA1]; [|auto]. apply Hni. apply in_or_app. auto. }
  destruct Ht as [H|[H|[H|H]]]; [apply (Hx i)|apply (Hx j)|apply (Hx i)|apply (Hx j)]; auto.
Qed.
Print Assumptions C51_no_neighbours_left.

(** With ties this fails: a chain of four points of equal area; the ordered set of edges keeps one edge per score. *)
Definition chain4 := [[1]; [0; 2]; [1; 3]; [2]].
Lemma ltR_self : forall s, ltR s s = false.
Proof. intros. apply ltR_no. lra. Qed.
Lemma chain4_run : BinaryClustering_Points2d (repeat None 4) 4 [1%R; 1%R; 1%R; 1%R] [0; 1; 3; 5; 6] [1; 0; 2; 1; 3; 2] = Some ([Some 0; Some 0; Some 1; Some 2], 3).
Proof.
  unfold BinaryClustering_Points2d.
  assert (E : edge_set 4 [1%R; 1%R; 1%R; 1%R] [0; 1; 3; 5; 6] [1; 0; 2; 1; 3; 2] = Some [CData (myMin (1 / 1) (1 / 1)) 0]).
  { unfold edge_set. cbn -[div cset_insert myMin]. rewrite !div_ok by lra. cbn -[cset_insert myMin].
    unfold cset_insert. cbn [score]. rewrite !ltR_self. reflexivity. }
  rewrite E. reflexivity.
Qed.
Lemma chain4_graph : graph_ok chain4.
Proof.
  intros i j H. destruct i as [|[|[|[|i]]]]; cbn in H.
  5:{ destruct i; destruct H. }
  all: repeat (destruct H as [<-|H]); try (destruct H); cbn; repeat split; try lia; auto.
Qed.
Theorem C51_ties_leave_neighbours_refuted : ~ (forall adj psup_ind psup area map0,
  jagged psup_ind psup adj -> graph_ok adj -> length area = length adj ->
  (forall i, i < length adj -> (0 < nth i area 0)%R) -> length map0 = length adj ->
  exists map01 np1, BinaryClustering_Points2d map0 (length adj) area psup_ind psup = Some (map01, np1) /\
    forall i j, In j (nth i adj []) -> exists x y, x <> y /\ (x = i \/ x = j) /\ y < length adj /\ nth x map01 None = nth y map01 None).
Proof.
  intros H. destruct (H chain4 [0; 1; 3; 5; 6] [1; 0; 2; 1; 3; 2] [1%R; 1%R; 1%R; 1%R] (repeat None 4)) as (m & np1 & E & Hc).
  - split; reflexivity.
  - apply chain4_graph.
  - reflexivity.
  - intros i Hi. destruct i as [|[|[|[|i]]]]; cbn in *; try lra; lia.
  - reflexivity.
  - change (length chain4) with 4 in E. rewrite chain4_run in E. injection E as <- <-.
    destruct (Hc 2 3) as (x & y & Hxy & Hx & Hy & Em); [cbn; auto|].
    cbn in Hy. destruct Hx as [-> | ->]; destruct y as [|[|[|[|y]]]]; cbn in Em; try discriminate; try lia.
Qed.
Print Assumptions C51_ties_leave_neighbours_refuted.

(** The 3D function: the same groups; area is the sum, position the area-weighted mean, normal the unit vector along the area-weighted mean (copied for a single point). *)
Theorem C51_merged_points : forall adj psup_ind psup area xyz norm,
  jagged psup_ind psup adj -> graph_ok adj -> length area = length adj ->
  (forall i, i < length adj -> (0 < nth i area 0)%R) ->
  length xyz = length adj * 3 -> length norm = length adj * 3 ->
  (forall i j, In j (nth i adj []) -> exists d, d < 3 /\ (nth i area 0 * at3 norm d i + nth j area 0 * at3 norm d j <> 0)%R) ->
  let ar := fun i => nth i area 0%R in
  exists pairs singles map01,
    partition_of (length adj) (groups_of pairs singles) map01 /\ edge_pairs adj pairs /\ StronglySorted lt singles /\
    (distinct_ratios adj ar -> greedy adj ar pairs) /\
    BinaryClustering_Points3d xyz area norm psup_ind psup = Some
      (flat_map (fun g => map (fun d => wmean ar (at3 xyz d) g) [0; 1; 2]) (groups_of pairs singles),
       map (fun g => sumL (map ar g)) (groups_of pairs singles),
       flat_map (fun p => unit3 (map (fun d => wmean ar (at3 norm d) [fst p; snd p]) [0; 1; 2])) pairs ++
       flat_map (fun i => map (fun d => at3 norm d i) [0; 1; 2]) singles,
       map01).
Proof.
  intros adj ind arr area xyz norm HJ HG HA HP HX HN HZ ar.
  pose proof (cluster3d_ok adj ind arr area HJ HG HA HP xyz norm HX HN HZ) as W. apply wp_ex in W.
  destruct W as ([[[x1 a1] n1] m] & E & P & S & (H1 & H2 & H3 & H4) & -> & -> & ->). exists P, S, m.
  split; [auto|]. split; [auto|]. split; [auto|]. split; [auto|]. exact E.
Qed.
Print Assumptions C51_merged_points.

Lemma sumL_app : forall a b, sumL (a ++ b) = (sumL a + sumL b)%R.
Proof. unfold sumL. induction a; cbn; intros; [lra|]. rewrite IHa. lra. Qed.
Lemma sumL_perm : forall a b, Permutation a b -> sumL a = sumL b.
Proof. unfold sumL. induction 1; cbn; lra. Qed.
Lemma sumL_groups : forall (f : nat -> R) G, sumL (map (fun g => sumL (map f g)) G) = sumL (map f (concat G)).
Proof. induction G; auto. cbn [map concat]. rewrite map_app, sumL_app, <- IHG. auto. Qed.
Lemma nth_flat3 : forall A (f : A -> list R) l c d x0, (forall x, length (f x) = 3) -> c < length l -> d < 3 -> nth (c * 3 + d) (flat_map f l) 0%R = nth d (f (nth c l x0)) 0%R.
Proof.
  intros A f. induction l as [|x l IH]; intros c d x0 Hf Hc Hd; [cbn in Hc; lia|]. cbn [flat_map]. destruct c as [|c].
  - rewrite app_nth1 by (rewrite Hf; lia). auto.
  - rewrite app_nth2 by (rewrite Hf; lia). rewrite Hf. replace (S c * 3 + d - 3) with (c * 3 + d) by lia. rewrite (IH c d x0) by (auto; cbn in Hc; lia). auto.
Qed.

Lemma flat3_length : forall A (f : A -> list R) l, (forall x, length (f x) = 3) -> length (flat_map f l) = length l * 3.
Proof. intros A f l H. induction l; cbn [flat_map length]; auto. rewrite app_length, H, IHl. lia. Qed.
(** Total area and total first moments do not change. *)
Theorem C51_area_and_moments : forall adj psup_ind psup area xyz norm,
  jagged psup_ind psup adj -> graph_ok adj -> length area = length adj ->
  (forall i, i < length adj -> (0 < nth i area 0)%R) ->
  length xyz = length adj * 3 -> length norm = length adj * 3 ->
  (forall i j, In j (nth i adj []) -> exists d, d < 3 /\ (nth i area 0 * at3 norm d i + nth j area 0 * at3 norm d j <> 0)%R) ->
  exists xyz1 area1 norm1 map01,
    BinaryClustering_Points3d xyz area norm psup_ind psup = Some (xyz1, area1, norm1, map01) /\
    length xyz1 = length area1 * 3 /\ length norm1 = length area1 * 3 /\
    sumL area1 = sumL area /\
    forall d, d < 3 -> sumL (map (fun c => (nth c area1 0 * at3 xyz1 d c)%R) (seq 0 (length area1)))
                     = sumL (map (fun i => (nth i area 0 * at3 xyz d i)%R) (seq 0 (length area))).
Proof.
  intros adj ind arr area xyz norm HJ HG HA HP HX HN HZ.
  destruct (C51_merged_points adj ind arr area xyz norm HJ HG HA HP HX HN HZ) as (P & S & m & HPa & HE & _ & _ & E).
  eexists _, _, _, _. split; [exact E|].
  set (ar := fun i => nth i area 0%R) in *. set (G := groups_of P S) in *.
  assert (LG : length G = length P + length S) by (unfold G, groups_of; rewrite app_length, !map_length; auto).
  split; [rewrite map_length, flat3_length; auto|]. split; [rewrite map_length, LG, app_length, !flat3_length by auto; lia|].
  assert (Hall : map ar (seq 0 (length area)) = area).
  { apply (list_ext _ 0%R); rewrite map_length, seq_length; auto. intros i Hi. rewrite (nth_indep _ 0%R (ar 0)) by (rewrite map_length, seq_length; auto). rewrite map_nth, seq_nth by auto. auto. }
  split.
  { rewrite sumL_groups. rewrite (sumL_perm _ _ (Permutation_map ar (proj1 HPa))). rewrite <- HA, Hall. auto. }
  intros d Hd. rewrite map_length.
  assert (Hg : forall g, In g G -> (0 < sumL (map ar g))%R).
  { intros g Hg. assert (Hgi : forall i, In i g -> (0 < ar i)%R).
    { intros i Hi. apply HP. assert (In i (seq 0 (length adj))) as Hs by (eapply Permutation_in; [apply HPa|]; apply in_concat; eauto). apply in_seq in Hs. lia. }
    unfold G, groups_of in Hg. apply in_app_or in Hg. destruct Hg as [Hg|Hg]; apply in_map_iff in Hg; destruct Hg as (p & <- & _); unfold sumL; cbn [map fold_right].
    - pose proof (Hgi (fst p) (or_introl eq_refl)). pose proof (Hgi (snd p) (or_intror (or_introl eq_refl))). lra.
    - pose proof (Hgi p (or_introl eq_refl)). lra. }
  rewrite HA. rewrite <- (sumL_perm _ _ (Permutation_map (fun i => (nth i area 0 * at3 xyz d i)%R) (proj1 HPa))). rewrite <- sumL_groups. fold G. f_equal.
  apply (list_ext _ 0%R); rewrite !map_length, seq_length; auto. intros c Hc.
  rewrite nth_map_seq by auto. rewrite Nat.add_0_l.
  rewrite (nth_indep (map (fun g => sumL (map ar g)) G) 0%R (sumL (map ar []))) by (rewrite map_length; auto). rewrite (map_nth (fun g => sumL (map ar g)) G [] c).
  unfold at3 at 1. rewrite (nth_flat3 _ _ _ _ _ []) by auto.
  rewrite (nth_indep (map (fun g => sumL (map (fun i => (nth i area 0 * at3 xyz d i)%R) g)) G) 0%R (sumL (map (fun i => (nth i area 0 * at3 xyz d i)%R) []))) by (rewrite map_length; auto).
  rewrite (map_nth (fun g => sumL (map (fun i => (nth i area 0 * at3 xyz d i)%R) g)) G [] c).
  assert (Hp := Hg (nth c G []) (nth_In _ _ Hc)).
  assert (Ew : nth d (map (fun d => wmean ar (at3 xyz d) (nth c G [])) [0; 1; 2]) 0%R = wmean ar (at3 xyz d) (nth c G [])) by (destruct d as [|[|[|]]]; [auto|auto|auto|lia]).
  rewrite Ew. unfold wmean. fold ar. unfold ar in Hp |- *. field. lra.
Qed.
Print Assumptions C51_area_and_moments.

(** The neighbour table of the groups. *)
Theorem C51_quotient_graph : forall adj psup_ind psup groups map01 psup1_0,
  jagged psup_ind psup adj -> (forall i j, In j (nth i adj []) -> j < length adj) ->
  partition_of (length adj) groups map01 ->
  exists rows psup_ind1 psup1,
    Clustering_Psup psup1_0 (length groups) (length adj) map01 psup_ind psup = Some (psup_ind1, psup1) /\
    jagged psup_ind1 psup1 rows /\ length rows = length groups /\
    (forall c, c < length groups -> quotient_row adj groups c (nth c rows [])) /\
    (graph_ok adj -> graph_ok rows).
Proof.
  intros adj ind arr G m a0 HJ HB (HP1 & HP2 & HP3).
  assert (Hcov : forall i, i < length adj <-> exists c, In i (nth c G [])).
  { intros i. rewrite <- in_group. split; intros H.
    - eapply Permutation_in; [apply Permutation_sym; apply HP1|]. apply in_seq. lia.
    - assert (In i (seq 0 (length adj))) as Hs by (eapply Permutation_in; [apply HP1|]; auto). apply in_seq in Hs. lia. }
  assert (HM : forall i, i < length adj -> exists c, nth i m None = Some c /\ c < length G).
  { intros i Hi. destruct (proj1 (Hcov i) Hi) as (c & Hc). exists c. split; [auto|]. destruct (lt_dec c (length G)); auto. rewrite nth_overflow in Hc by lia. destruct Hc. }
  assert (Hcl : forall c i, In i (clk m (length adj) c) <-> In i (nth c G [])).
  { intros c i. rewrite (clk_In adj m (length G) HP2 HM) by auto. unfold cm. split.
    - intros (Hi & Ec). destruct (proj1 (Hcov i) Hi) as (c' & Hc'). rewrite (HP3 _ _ Hc') in Ec. subst. auto.
    - intros Hi. split; [apply Hcov; eauto|]. rewrite (HP3 _ _ Hi). auto. }
  exists (map (nbr adj m) (seq 0 (length G))), (offsets (map (nbr adj m) (seq 0 (length G)))), (concat (map (nbr adj m) (seq 0 (length G)))).
  split; [apply (psup_ok adj ind arr m (length G) HJ HP2 HM HB)|]. split; [apply jagged_iff; auto|].
  split; [rewrite map_length, seq_length; auto|].
  assert (Hq : forall c, c < length G -> quotient_row adj G c (nth c (map (nbr adj m) (seq 0 (length G))) [])).
  { intros c Hc. rewrite nth_map_seq by auto. unfold nbr. split; [apply emit_NoDup|]. intros d. rewrite emit_In, in_flat_map. split.
    - intros ((i & Hi & Hd) & Hn). split; [intros ->; apply Hn; left; auto|]. apply in_map_iff in Hd. destruct Hd as (k & Ek & Hk).
      exists i, k. split; [apply Hcl; auto|]. split; [auto|]. apply Hcl. apply (clk_In adj m (length G) HP2 HM); [auto|]. split; [eapply HB; eauto|auto].
    - intros (Hn & i & k & Hi & Hk & Hd). split; [|intros [E|[]]; auto]. exists i. split; [apply Hcl; auto|]. apply in_map_iff. exists k. split; [|auto].
      apply Hcl in Hd. apply (clk_In adj m (length G) HP2 HM) in Hd; [|auto]. apply Hd. }
  split; [auto|]. intros HG c d Hd.
  destruct (lt_dec c (length G)) as [Hc|]; [|rewrite nth_overflow in Hd by (rewrite map_length, seq_length; lia); destruct Hd].
  destruct (Hq c Hc) as (_ & Hq1). apply Hq1 in Hd. destruct Hd as (Hn & i & k & Hi & Hk & Hkd).
  assert (Hdl : d < length G). { destruct (lt_dec d (length G)); auto. rewrite nth_overflow in Hkd by lia. destruct Hkd. }
  split; [rewrite map_length, seq_length; auto|]. split; [auto|]. apply (Hq d Hdl). split; [auto|].
  exists k, i. split; [auto|]. split; [apply (HG i k Hk)|auto].
Qed.
Print Assumptions C51_quotient_graph.

(** Witnesses: a chain of three points with areas 1, 2, 8. *)
Definition chain3 := [[1]; [0; 2]; [1]].
Lemma chain3_graph : graph_ok chain3.
Proof.
  intros i j H. destruct i as [|[|[|i]]]; cbn in H.
  4:{ destruct i; destruct H. }
  all: repeat (destruct H as [<-|H]); try (destruct H); cbn; repeat split; try lia; auto.
Qed.
Definition area3 : list R := [1%R; 2%R; 8%R].
Definition norm3 : list R := [0%R; 0%R; 1%R; 0%R; 0%R; 1%R; 0%R; 0%R; 1%R].
Example C51_hypotheses_met : jagged [0; 1; 3; 4] [1; 0; 2; 1] chain3 /\ graph_ok chain3 /\
  (forall i, i < 3 -> (0 < nth i area3 0)%R) /\ distinct_ratios chain3 (fun i => nth i area3 0%R) /\
  (forall i j, In j (nth i chain3 []) -> exists d, d < 3 /\ (nth i area3 0 * at3 norm3 d i + nth j area3 0 * at3 norm3 d j <> 0)%R).
Proof.
  split; [split; reflexivity|]. split; [apply chain3_graph|]. split; [intros i Hi; destruct i as [|[|[|i]]]; cbn; try lra; lia|]. split.
  - assert (E : forall i j, In j (nth i chain3 []) -> i < j -> (i = 0 /\ j = 1) \/ (i = 1 /\ j = 2)).
    { intros i j H Hl. destruct i as [|[|[|i]]]; cbn in H; [| | |destruct i; destruct H]; repeat (destruct H as [<-|H]); try (destruct H); auto; lia. }
    intros i j k l H1 H2 H3 H4 HE. apply E in H1; auto. apply E in H2; auto. destruct H1 as [(-> & ->)|(-> & ->)], H2 as [(-> & ->)|(-> & ->)]; auto; exfalso; unfold ratio, area3 in HE; cbn [nth] in HE.
    + rewrite Rmin_left in HE by lra. rewrite Rmin_left in HE by lra. lra.
    + rewrite Rmin_left in HE by lra. rewrite Rmin_left in HE by lra. lra.
  - intros i j H. exists 2. split; [lia|]. destruct i as [|[|[|i]]]; cbn in H; [| | |destruct i; destruct H]; repeat (destruct H as [<-|H]); try (destruct H); unfold at3, area3, norm3; cbn [nth Nat.mul Nat.add]; lra.
Qed.
Example C51_quotient_case : partition_of 4 [[0; 1]; [2; 3]] [Some 0; Some 0; Some 1; Some 1] /\
  Clustering_Psup [] 2 4 [Some 0; Some 0; Some 1; Some 1] [0; 1; 3; 5; 6] [1; 0; 2; 1; 3; 2] = Some ([0; 1; 2], [1; 0]).
Proof.
  split; [|reflexivity]. split; [reflexivity|]. split; [reflexivity|]. intros c i H. destruct c as [|[|c]]; cbn in H; [| |destruct c; destruct H]; repeat (destruct H as [<-|H]); try (destruct H); reflexivity.
Qed.
