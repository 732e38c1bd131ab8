(** Proofs for CluProps.v: the two clustering functions. *)
From Coq Require Import List Arith Bool Reals Lra Lia Sorted Permutation.
Import ListNotations.
From Verif Require Import Imp JagModel JagSpec JagProofs JagProofs2 PrModel CluModel CluSpec CluProofs.
Open Scope nat_scope.

Notation pr := (fun p : nat * nat => [fst p; snd p]).
Notation sg := (fun i : nat => [i]).

Lemma ss_snoc : forall A (R : A -> A -> Prop) l x, StronglySorted R l -> (forall y, In y l -> R y x) -> StronglySorted R (l ++ [x]).
Proof.
  intros A R. induction l as [|a l IH]; intros x H1 H2; cbn; [repeat constructor|].
  inversion H1 as [|? ? Hs Hf]; subst. constructor; [apply IH; auto; intros; apply H2; right; auto|].
  apply Forall_forall. intros y Hy. apply in_app_or in Hy. destruct Hy as [Hy|[<-|[]]]; [rewrite Forall_forall in Hf; auto|]. apply H2. left. auto.
Qed.
Lemma ss_mid : forall A (R : A -> A -> Prop) l1 x l2, StronglySorted R (l1 ++ x :: l2) -> forall y, In y l1 -> R y x.
Proof.
  intros A R. induction l1 as [|a l1 IH]; intros x l2 H y Hy; [destruct Hy|]. cbn in H. inversion H as [|? ? Hs Hf]; subst.
  destruct Hy as [->|Hy]; [|eauto]. rewrite Forall_forall in Hf. apply Hf. apply in_or_app. right. left. auto.
Qed.

Section G.
Variables (adj : list (list nat)) (psup_ind psup : list nat) (area : list R).
Hypothesis HJ : jagged psup_ind psup adj.
Hypothesis HG : graph_ok adj.
Hypothesis HA : length area = length adj.
Hypothesis HP : forall i, i < length adj -> (0 < nth i area 0)%R.
Let n := length adj.
Let ar := fun i => nth i area 0%R.
Let rt (p : nat * nat) := ratio ar (fst p) (snd p).
Let entry := entry adj psup area.

Definition ginv (l : list cdata) (P : list (nat * nat)) (m : list (option nat)) : Prop :=
  mapped n (map pr P) m /\ edge_pairs adj P /\ StronglySorted (fun p q => (rt p < rt q)%R) P /\
  (forall p, In p P -> exists d, In d l /\ score d = rt p) /\
  (forall d, In d l -> exists p i j, entry d i j /\ In p P /\ (rt p <= score d)%R /\ (fst p = i \/ fst p = j \/ snd p = i \/ snd p = j)).

Lemma ginv_nil : ginv [] [] (repeat None n).
Proof.
  split; [apply mapped_nil|]. split; [intros i j []|]. split; [constructor|]. split; [intros p []|intros d []].
Qed.
Lemma pair_in : forall P c i, In i (nth c (map pr P) []) -> exists p, In p P /\ (fst p = i \/ snd p = i).
Proof.
  intros P c i H. destruct (lt_dec c (length P)).
  - rewrite (nth_indep _ [] (pr (0, 0))) in H by (rewrite map_length; auto). rewrite (map_nth pr) in H.
    exists (nth c P (0, 0)). split; [apply nth_In; auto|]. destruct H as [|[|[]]]; auto.
  - rewrite nth_overflow in H by (rewrite map_length; lia). destruct H.
Qed.
Lemma ginv_step : forall l1 x l2 i j P m, StronglySorted slt (l1 ++ x :: l2) -> entry x i j -> ginv l1 P m ->
  i < n /\ j < n /\ i <> j /\
  (nth i m None = None -> nth j m None = None -> ginv (l1 ++ [x]) (P ++ [(i, j)]) (upd (upd m i (Some (length P))) j (Some (length P)))) /\
  (nth i m None <> None \/ nth j m None <> None -> ginv (l1 ++ [x]) P m).
Proof.
  intros l1 x l2 i j P m HS HE (M1 & M2 & M3 & M4 & M5).
  pose proof HE as (Hi & _ & _ & Hin & Hij & Hsc). destruct (HG _ _ Hin) as (Hj & Hne & _).
  pose proof (ss_mid _ _ _ _ _ HS) as Hlt.
  split; [auto|]. split; [auto|]. split; [auto|]. split.
  - intros Ei Ej. split; [|split; [|split; [|split]]].
    + rewrite map_app. cbn [map fst snd]. rewrite <- (map_length pr P). apply mapped_two; auto.
    + intros a b Hab. apply in_app_or in Hab. destruct Hab as [Hab|[E|[]]]; [auto|]. injection E as <- <-. auto.
    + apply ss_snoc; auto. intros p Hp. destruct (M4 p Hp) as (d & Hd & Ed). rewrite <- Ed.
      unfold rt. cbn [fst snd]. change (ratio ar i j) with (ratio (fun i => nth i area 0%R) i j). rewrite <- Hsc. apply (Hlt d Hd).
    + intros p Hp. apply in_app_or in Hp. destruct Hp as [Hp|[<-|[]]].
      * destruct (M4 p Hp) as (d & Hd & Ed). exists d. split; auto. apply in_or_app. auto.
      * exists x. split; [apply in_or_app; right; left; auto|]. exact Hsc.
    + intros d Hd. apply in_app_or in Hd. destruct Hd as [Hd|[<-|[]]].
      * destruct (M5 d Hd) as (p & a & b & Q1 & Q2 & Q3). exists p, a, b. split; [auto|]. split; [apply in_or_app; auto|auto].
      * exists (i, j), i, j. split; [auto|]. split; [apply in_or_app; right; left; auto|]. split; [|auto].
        right. symmetry. exact Hsc.
  - intros Hor. split; [auto|]. split; [auto|]. split; [auto|]. split.
    + intros p Hp. destruct (M4 p Hp) as (d & Hd & Ed). exists d. split; auto. apply in_or_app. auto.
    + intros d Hd. apply in_app_or in Hd. destruct Hd as [Hd|[<-|[]]]; [auto|].
      assert (exists p, In p P /\ (fst p = i \/ fst p = j \/ snd p = i \/ snd p = j)) as (p & Hp & Ht).
      { destruct M1 as (_ & _ & _ & Hm). destruct Hor as [Ho|Ho].
        - destruct (nth i m None) as [c|] eqn:E; [|congruence]. apply Hm in E; auto. destruct (pair_in _ _ _ E) as (p & Hp & Ht). exists p. split; auto. tauto.
        - destruct (nth j m None) as [c|] eqn:E; [|congruence]. apply Hm in E; auto. destruct (pair_in _ _ _ E) as (p & Hp & Ht). exists p. split; auto. tauto. }
      destruct (M4 p Hp) as (d & Hd & Ed). exists p, i, j. split; [auto|]. split; [auto|]. split; [|auto].
      rewrite <- Ed. left. apply (Hlt d Hd).
Qed.
Lemma ginv_greedy : forall D P m, (forall i j, i < j -> In j (nth i adj []) -> covered area D i j) -> ginv D P m ->
  edge_pairs adj P /\ (distinct_ratios adj ar -> greedy adj ar P).
Proof.
  intros D P m HC (M1 & M2 & M3 & M4 & M5). split; [auto|]. intros HD. split; [auto|].
  assert (Hmain : forall i j, i < j -> In j (nth i adj []) -> exists p, In p P /\ (rt p <= ratio ar i j)%R /\ (fst p = i \/ fst p = j \/ snd p = i \/ snd p = j)).
  { intros i j Hij Hin. destruct (HC i j Hij Hin) as (d & Hd & Ed).
    destruct (M5 d Hd) as (p & a & b & HE & Hp & Hle & Ht). destruct HE as (_ & _ & _ & Hab & Hlt & Hs).
    destruct (HD i j a b) as (<- & <-); auto. { exact (eq_trans (eq_sym Ed) Hs). }
    exists p. split; [auto|]. split; [|auto]. eapply Rle_trans; [exact Hle|]. right. exact Ed. }
  intros i j Hin. destruct (HG _ _ Hin) as (Hj & Hne & Hback). destruct (lt_dec i j).
  - apply Hmain; auto.
  - rewrite ratio_sym. destruct (Hmain j i) as (p & Hp & Hle & Ht); auto; [lia|]. exists p. split; [auto|]. split; [auto|tauto].
Qed.

(** second loop: points below k are mapped *)
Definition sinv (P : list (nat * nat)) (k : nat) (S : list nat) (m : list (option nat)) : Prop :=
  mapped n (groups_of P S) m /\ (forall i, i < k -> nth i m None <> None) /\ StronglySorted lt S /\ (forall i, In i S -> i < k).
Lemma sinv_start : forall D P m, ginv D P m -> sinv P 0 [] m.
Proof. intros D P m (M1 & _). split; [unfold groups_of; cbn [map]; rewrite app_nil_r; auto|]. split; [intros; lia|]. split; [constructor|intros i []]. Qed.
Lemma sinv_step : forall P k S m, k < n -> sinv P k S m ->
  (nth k m None = None -> sinv P (k + 1) (S ++ [k]) (upd m k (Some (length P + length S)))) /\
  (nth k m None <> None -> sinv P (k + 1) S m).
Proof.
  intros P k S m Hk (M1 & M2 & M3 & M4). split.
  - intros E. split; [|split; [|split]].
    + unfold groups_of. rewrite map_app. cbn [map]. rewrite app_assoc. fold (groups_of P S).
      replace (length P + length S) with (length (groups_of P S)) by (unfold groups_of; rewrite app_length, !map_length; auto).
      apply mapped_one; auto.
    + intros i Hi. destruct M1 as (Hl & _). rewrite nth_upd by lia. destruct (Nat.eq_dec k i); [discriminate|]. apply M2. lia.
    + apply ss_snoc; auto.
    + intros i Hi. apply in_app_or in Hi. destruct Hi as [Hi|[<-|[]]]; [specialize (M4 i Hi)|]; lia.
  - intros E. split; [auto|]. split; [|split; auto].
    + intros i Hi. destruct (Nat.eq_dec i k) as [->|]; auto. apply M2. lia.
    + intros i Hi. specialize (M4 i Hi). lia.
Qed.

Definition ok_result (P : list (nat * nat)) (S : list nat) (m : list (option nat)) : Prop :=
  partition_of n (groups_of P S) m /\ edge_pairs adj P /\ StronglySorted lt S /\ (distinct_ratios adj ar -> greedy adj ar P).

Lemma cluster2d_ok : forall m0, length m0 = n ->
  wp (BinaryClustering_Points2d m0 n area psup_ind psup) (fun r => exists P S, ok_result P S (fst r) /\ snd r = length P + length S).
Proof.
  intros m0 Hm0. unfold BinaryClustering_Points2d.
  apply wp_bind. apply (wp_forn _ (fun i m => length m = n /\ forall k, k < i -> nth k m None = None)); [lia| | |].
  { split; auto. intros; lia. }
  { intros i m Hi (L & Hn). apply wp_vset; [lia|]. rewrite upd_length. split; auto. intros k Hk. rewrite nth_upd by lia. destruct (Nat.eq_dec i k); auto. apply Hn. lia. }
  intros m1 (L1 & N1). assert (E1 : m1 = repeat None n).
  { apply (list_ext _ None). rewrite repeat_length. auto. intros i Hi. rewrite nth_repeat. apply N1. lia. }
  rewrite E1. clear m1 L1 N1 E1 m0 Hm0.
  apply wp_bind. eapply wp_mono; [apply (edge_set_ok adj psup_ind psup area HJ HG HA HP)|].
  intros D (HS & HE & HC). cbn beta in *.
  apply wp_bind. apply (wp_foldM _ _ (fun l1 s => exists P, ginv l1 P (fst s) /\ snd s = length P)).
  { exists []. split; [apply ginv_nil|auto]. }
  { intros l1 x l2 [m np1] El (P & HI & Ec). cbn [fst snd] in *. subst np1.
    destruct (HE x) as (i & j & Hx); [rewrite El; apply in_or_app; right; left; auto|].
    rewrite El in HS. destruct (ginv_step l1 x l2 i j P m HS Hx HI) as (Hi & Hj & Hij & HA1 & HA2).
    rewrite (edge_ends_ok adj psup_ind psup area HJ HG HA x i j Hx). cbn [bind].
    assert (Lm : length m = n) by (destruct HI as ((L & _) & _); auto).
    rewrite !(vget_nth _ None) by lia. cbn [bind].
    destruct (nth i m None) eqn:Ei; [apply wp_some; exists P; split; auto; apply HA2; left; discriminate|].
    destruct (nth j m None) eqn:Ej; [apply wp_some; exists P; split; auto; apply HA2; right; discriminate|].
    cbn [is_none negb orb]. rewrite vset_upd by lia. cbn [bind]. rewrite vset_upd by (rewrite upd_length; lia). cbn [bind].
    apply wp_some. exists (P ++ [(i, j)]). split; [auto|]. rewrite app_length. cbn. auto. }
  intros [m np1] (P & HI & Ec). cbn [fst snd] in *. subst np1.
  destruct (ginv_greedy D P m HC HI) as (HEP & HGr).
  apply (wp_forn _ (fun k s => exists S, sinv P k S (fst s) /\ snd s = length P + length S)); [lia| | |].
  { exists []. split; [eapply sinv_start; eauto|]. cbn. auto. }
  { intros k [m' c] Hk (S & HS' & Ec). cbn [fst snd] in *. subst c.
    destruct (sinv_step P k S m' (proj2 Hk) HS') as (HB1 & HB2).
    assert (Lm : length m' = n) by (destruct HS' as ((L & _) & _); auto).
    rewrite (vget_nth _ None) by lia. cbn [bind]. destruct (nth k m' None) eqn:Ek; cbn [is_none negb].
    - apply wp_some. exists S. split; [|auto]. replace (Datatypes.S k) with (k + 1) by lia. apply HB2. discriminate.
    - rewrite vset_upd by lia. cbn [bind]. apply wp_some. exists (S ++ [k]). replace (Datatypes.S k) with (k + 1) by lia.
      split; [auto|]. rewrite app_length. cbn. lia. }
  intros [m' c] (S & HS' & Ec). cbn [fst snd] in *. exists P, S. split; [|auto].
  destruct HS' as (M1 & M2 & M3 & M4). split; [apply mapped_partition; auto|]. auto.
Qed.

Variables (xyz norm : list R).
Hypothesis HX : length xyz = n * 3.
Hypothesis HN : length norm = n * 3.
Hypothesis HNZ : forall i j, In j (nth i adj []) -> exists d, d < 3 /\ (ar i * at3 norm d i + ar j * at3 norm d j <> 0)%R.

Definition pos_of (g : list nat) : list R := map (fun d => wmean ar (at3 xyz d) g) [0; 1; 2].
Definition area_of (g : list nat) : R := sumL (map ar g).
Definition norm_pair (p : nat * nat) : list R := unit3 (map (fun d => wmean ar (at3 norm d) [fst p; snd p]) [0; 1; 2]).
Definition norm_single (i : nat) : list R := map (fun d => at3 norm d i) [0; 1; 2].
Lemma len3 : forall A (f : A -> list R) l, (forall x, length (f x) = 3) -> length (flat_map f l) = length l * 3.
Proof. intros A f l H. induction l; cbn [flat_map length]; auto. rewrite app_length, H, IHl. lia. Qed.
Lemma div_ok : forall a b, b <> 0%R -> div a b = Some (a / b)%R.
Proof. intros. unfold div, eqR. destruct (Req_EM_T b 0); congruence. Qed.
Lemma at3_get : forall a d i, length a = n * 3 -> i < n -> d < 3 -> vget a (i * 3 + d) = Some (at3 a d i).
Proof. intros a d i Ha Hi Hd. unfold at3. apply vget_nth. lia. Qed.
Lemma sq3_nz : forall x y z : R, (x <> 0 \/ y <> 0 \/ z <> 0)%R -> sqrt (x * x + y * y + z * z) <> 0%R.
Proof.
  intros x y z H E. assert (0 < x * x + y * y + z * z)%R.
  { destruct H as [H|[H|H]]; [pose proof (Rsqr_pos_lt x H)|pose proof (Rsqr_pos_lt y H)|pose proof (Rsqr_pos_lt z H)]; unfold Rsqr in *; nra. }
  pose proof (sqrt_lt_R0 _ H0). lra.
Qed.
Lemma wmean_pair : forall x i j, i < n -> j < n -> wmean ar x [i; j] = ((ar i * x i + ar j * x j) / (ar i + ar j))%R.
Proof. intros. unfold wmean, sumL. cbn [map fold_right]. rewrite !Rplus_0_r. auto. Qed.
Lemma wmean_one : forall x i, i < n -> wmean ar x [i] = x i.
Proof. intros x i Hi. unfold wmean, sumL. cbn [map fold_right]. pose proof (HP i Hi). fold (ar i) in H. field. lra. Qed.
Lemma unit3_len : forall a b c, length (unit3 [a; b; c]) = 3.
Proof. intros. reflexivity. Qed.

Lemma cluster3d_ok : wp (BinaryClustering_Points3d xyz area norm psup_ind psup) (fun '(xyz1, area1, norm1, m) => exists P S, ok_result P S m /\
   area1 = map area_of (groups_of P S) /\ xyz1 = flat_map pos_of (groups_of P S) /\ norm1 = flat_map norm_pair P ++ flat_map norm_single S).
Proof.
  unfold BinaryClustering_Points3d. rewrite HX, Nat.div_mul by lia.
  rewrite HA. fold n. rewrite Nat.eqb_refl. cbn [assertb bind]. rewrite HN, Nat.eqb_refl. cbn [assertb bind].
  apply wp_bind. eapply wp_mono; [apply (edge_set_ok adj psup_ind psup area HJ HG HA HP)|].
  intros D (HS & HE & HC). cbn beta in *.
  assert (Lp : forall P, length (flat_map pos_of (map pr P)) = length P * 3) by (intros; rewrite len3, map_length; auto).
  assert (Ln : forall P, length (flat_map norm_pair P) = length P * 3) by (intros; rewrite len3; auto).
  apply wp_bind. apply (wp_foldM _ _ (fun l1 s => exists P, ginv l1 P (snd s) /\ fst s = (flat_map pos_of (map pr P), map area_of (map pr P), flat_map norm_pair P))).
  { exists []. split; [apply ginv_nil|auto]. }
  { intros l1 x l2 [[[xyz1 area1] norm1] m] El (P & HI & Es). cbn [fst snd] in *. injection Es as -> -> ->.
    destruct (HE x) as (i & j & Hx); [rewrite El; apply in_or_app; right; left; auto|].
    rewrite El in HS. destruct (ginv_step l1 x l2 i j P m HS Hx HI) as (Hi & Hj & Hij & HA1 & HA2).
    rewrite (edge_ends_ok adj psup_ind psup area HJ HG HA x i j Hx). cbn [bind].
    rewrite Lp, Ln, !map_length, Nat.div_mul, !Nat.eqb_refl by lia. cbn [andb assertb bind].
    assert (Lm : length m = n) by (destruct HI as ((L & _) & _); auto).
    rewrite !(vget_nth _ None) by lia. cbn [bind].
    destruct (nth i m None) eqn:Ei; [apply wp_some; exists P; split; auto; apply HA2; left; discriminate|].
    destruct (nth j m None) eqn:Ej; [apply wp_some; exists P; split; auto; apply HA2; right; discriminate|].
    cbn [is_none negb orb]. rewrite vset_upd by lia. cbn [bind]. rewrite vset_upd by (rewrite upd_length; lia). cbn [bind].
    rewrite !(vget_nth _ 0%R area) by (rewrite HA; auto). cbn [bind]. change (nth i area 0%R) with (ar i). change (nth j area 0%R) with (ar j).
    pose proof (HP i Hi) as Pi. pose proof (HP j Hj) as Pj. change (nth i area 0%R) with (ar i) in Pi. change (nth j area 0%R) with (ar j) in Pj.
    assert (Hs : (ar i + ar j <> 0)%R) by lra.
    rewrite !at3_get by auto. cbn [bind]. rewrite !(div_ok _ _ Hs). cbn [bind]. rewrite <- !wmean_pair by auto.
    set (n0 := wmean ar (at3 norm 0) [i; j]). set (n1 := wmean ar (at3 norm 1) [i; j]). set (n2 := wmean ar (at3 norm 2) [i; j]).
    assert (Hnz : Length3 n0 n1 n2 <> 0%R).
    { pose proof Hx as (_ & _ & _ & Hin & _). destruct (HNZ i j Hin) as (d & Hd & Hd0). apply sq3_nz.
      assert (Hw : forall d, (ar i * at3 norm d i + ar j * at3 norm d j <> 0)%R -> wmean ar (at3 norm d) [i; j] <> 0%R).
      { intros d' H. rewrite wmean_pair by auto. apply Rmult_integral_contrapositive_currified; auto. apply Rinv_neq_0_compat. auto. }
      destruct d as [|[|[|]]]; [left|right; left|right; right|lia]; apply Hw; auto. }
    rewrite !(div_ok _ _ Hnz). cbn [bind].
    apply wp_some. exists (P ++ [(i, j)]). cbn [fst snd]. split; [auto|].
    rewrite !map_app, !flat_map_app. cbn [map flat_map]. rewrite !app_nil_r.
    unfold pos_of, area_of, norm_pair, unit3. cbn [map fst snd]. unfold sumL. cbn [fold_right]. rewrite Rplus_0_r. reflexivity. }
  intros [[[xyz1 area1] norm1] m] (P & HI & Es). cbn [fst snd] in *. injection Es as -> -> ->.
  destruct (ginv_greedy D P m HC HI) as (HEP & HGr).
  assert (Lg : forall S, length (flat_map pos_of (groups_of P S)) = (length P + length S) * 3) by (intros; rewrite len3 by auto; unfold groups_of; rewrite app_length, !map_length; auto).
  assert (Ls : forall S, length (flat_map norm_pair P ++ flat_map norm_single S) = (length P + length S) * 3) by (intros; rewrite app_length, !len3 by auto; lia).
  apply (wp_forn _ (fun k s => exists S, sinv P k S (snd s) /\ fst s = (flat_map pos_of (groups_of P S), map area_of (groups_of P S), flat_map norm_pair P ++ flat_map norm_single S))); [lia| | |].
  { exists []. split; [eapply sinv_start; eauto|]. unfold groups_of. cbn. rewrite !app_nil_r. auto. }
  { intros k [[[xyz1 area1] norm1] m'] Hk (S & HS' & Es). cbn [fst snd] in *. injection Es as -> -> ->.
    destruct (sinv_step P k S m' (proj2 Hk) HS') as (HB1 & HB2).
    assert (Lm : length m' = n) by (destruct HS' as ((L & _) & _); auto).
    rewrite (vget_nth _ None) by lia. cbn [bind]. destruct (nth k m' None) eqn:Ek; cbn [is_none negb].
    - apply wp_some. exists S. split; [|auto]. replace (Datatypes.S k) with (k + 1) by lia. apply HB2. discriminate.
    - rewrite Lg, Ls, Nat.div_mul by lia. rewrite map_length. unfold groups_of at 1. rewrite app_length, !map_length, !Nat.eqb_refl. cbn [andb assertb bind].
      rewrite vset_upd by lia. cbn [bind]. rewrite !at3_get by (auto; lia). cbn [bind]. rewrite (vget_nth _ 0%R area) by (rewrite HA; unfold n in *; lia). cbn [bind].
      apply wp_some. exists (S ++ [k]). replace (Datatypes.S k) with (k + 1) by lia. cbn [fst snd].
      split; [auto|].
      assert (EG : groups_of P (S ++ [k]) = groups_of P S ++ [[k]]) by (unfold groups_of; rewrite map_app, app_assoc; auto).
      rewrite EG, !flat_map_app, map_app. cbn [flat_map map]. rewrite !app_nil_r, app_assoc.
      replace (pos_of [k]) with [at3 xyz 0 k; at3 xyz 1 k; at3 xyz 2 k] by (unfold pos_of; cbn [map]; rewrite !wmean_one by lia; auto).
      replace (area_of [k]) with (nth k area 0%R) by (unfold area_of, sumL; cbn [map fold_right]; rewrite Rplus_0_r; auto). reflexivity. }
  intros [[[xyz1 area1] norm1] m'] (S & HS' & Es). cbn [fst snd] in *. injection Es as -> -> ->. exists P, S. split; [|auto].
  destruct HS' as (M1 & M2 & M3 & M4). split; [apply mapped_partition; auto|]. auto.
Qed.
End G.
