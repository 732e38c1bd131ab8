(** MeshClustering. *)
From Coq Require Import List Arith Bool Lia Permutation.
Import ListNotations.
From Verif Require Import Imp DijkModel DijkSpec DijkProofs1 DijkProofs2.

Lemma ole_refl : forall a, ole a a.
Proof. destruct a; cbn; auto. Qed.
Lemma ole_trans : forall a b c, ole a b -> ole b c -> ole a c.
Proof. destruct a, b, c; cbn; auto; try lia; contradiction. Qed.
Lemma ole_antisym : forall a b, ole a b -> ole b a -> a = b.
Proof. destruct a, b; cbn; intros; try contradiction; auto. f_equal. lia. Qed.
Lemma ltU_true : forall a b, ltU a b = true <-> ole a b /\ b <> a.
Proof.
  destruct a as [x|], b as [y|]; cbn [ltU ole].
  - rewrite Nat.ltb_lt. split; [intros; split; [lia|intros E; injection E as ->; lia]|intros (A & B)]. destruct (Nat.eq_dec x y); [subst; congruence|lia].
  - split; [split; [auto|discriminate]|auto].
  - split; [discriminate|intros ([] & _)].
  - split; [discriminate|intros (_ & A); congruence].
Qed.
Lemma ltU_false : forall a b, ltU a b = false <-> ole b a.
Proof. destruct a as [x|], b as [y|]; cbn [ltU ole]; try rewrite Nat.ltb_ge; split; auto; try discriminate; contradiction. Qed.

Section Clu.
Variables (tab : list (option nat)) (n nedge : nat).
Hypothesis T : table_ok tab n nedge.
Variable pq : pqueue nat.
Hypothesis PQ : pq_ok nat_dist pq.
Notation hop := (hops tab n nedge).
Notation W S := (walk (D := nat_dist) S (step1 tab n nedge) (fun _ _ => 1)).

Lemma hops_le : forall S v a b, hop S v a -> (forall d, W S v d -> ole b (Some d)) -> ole b a.
Proof. intros S v [d|] b H G; [apply G, H|destruct b; cbn; auto]. Qed.
Lemma hops_walk : forall S v a d, hop S v a -> W S v d -> ole a (Some d).
Proof. intros S v [e|] d H G; [apply H in G; exact G|apply H; exists d; auto]. Qed.
Lemma hops_fun : forall S v a b, hop S v a -> hop S v b -> a = b.
Proof.
  intros S v a b A B. apply ole_antisym; [apply (hops_le S v b a B)|apply (hops_le S v a b A)]; intros; eapply hops_walk; eauto.
Qed.
Lemma walk_in : forall ks v d, W (fun s => In s ks) v d <-> exists c, In c ks /\ W (fun s => s = c) v d.
Proof.
  intros ks v d. split.
  - induction 1.
    + exists s. split; auto. constructor; auto.
    + destruct IHwalk as (c & A & B). exists c. split; auto. exact (w_step nat_dist _ _ (fun _ _ => 1) u d v B H0).
  - intros (c & A & B). induction B; [subst; constructor; auto|exact (w_step nat_dist _ _ (fun _ _ => 1) u d v IHB H)].
Qed.
Lemma walk0 : forall S v, W S v 0 -> S v.
Proof. intros S v H. inversion H; subst; auto. cbn in H0. lia. Qed.

(** The set distance is the distance from the nearest kernel. *)
Lemma hops_set : forall ks v i a, i < length ks -> hop (fun s => s = nth i ks 0) v a ->
  (forall j b, j < length ks -> hop (fun s => s = nth j ks 0) v b -> ole a b) -> (forall c, exists b, hop (fun s => s = c) v b) -> hop (fun s => In s ks) v a.
Proof.
  intros ks v i a Hi A M EX.
  assert (L : forall d, W (fun s => In s ks) v d -> ole a (Some d)).
  { intros d H. apply walk_in in H. destruct H as (c & Hc & H). destruct (In_nth ks c 0 Hc) as (j & Hj & E). destruct (EX c) as (b & B).
    eapply ole_trans; [apply (M j b Hj); rewrite E; exact B|]. eapply hops_walk; eauto. }
  destruct a as [d|].
  - split; [apply walk_in; exists (nth i ks 0); split; [apply nth_In; auto|apply A]|exact L].
  - intros (d & H). apply L in H. contradiction.
Qed.

Variable dbg : bool.
Hypothesis ALL : dbg = true -> forall c v, c < n -> v < n -> reachable (D := nat_dist) (fun s => s = c) (step1 tab n nedge) (fun _ _ => 1) v.

Lemma topo_hops : forall c, c < n -> exists aDist aOrder, DijkstraElem_MeshElemTopo dbg pq c tab n = Some (aDist, aOrder) /\ length aDist = n /\
  forall v, hop (fun s => s = c) v (nth v aDist None).
Proof.
  intros c Hc. destruct (topo_loop tab n nedge T pq PQ c Hc dbg) as ((((aDist & aOrder) & que) & icnt) & (vis & V & RT & EC & L1 & L2 & P1 & P2) & E).
  exists aDist, aOrder. split; [|split; auto].
  - rewrite E. destruct dbg eqn:ED; cbn [negb orb]; [|auto]. assert (icnt = n); [|subst; rewrite H, Nat.eqb_refl; auto].
    subst icnt. destruct V as (V1 & V2 & _). apply (lt_length n); auto.
    + intros v Hv. destruct (nth v aOrder None) as [k|] eqn:EO; [|apply (rank_none _ _ v RT) in EO; contradiction].
      destruct (Nat.lt_ge_cases v n); auto. rewrite nth_overflow in EO by lia. discriminate.
    + intros v Hv. apply V2. apply (ALL eq_refl); auto.
  - intros v. destruct (nth v aDist None) as [d|] eqn:ED; [apply P1; auto|apply P2; auto].
Qed.
Lemma hops_ex : forall c v, c < n -> exists b, hop (fun s => s = c) v b.
Proof. intros c v Hc. destruct (topo_hops c Hc) as (aDist & aOrder & _ & _ & H). eauto. Qed.

Definition cinv (ker i : nat) (s : list nat * list (option nat)) : Prop :=
  let '(flg, aDist0) := s in exists ks, length ks = i /\ nth 0 ks 0 = ker /\ (forall c, In c ks -> c < n) /\
    (forall j, 0 < j < i -> farthest tab n nedge (fun s => In s (firstn j ks)) (nth j ks 0)) /\ length flg = n /\ length aDist0 = n /\
    (forall v, v < n -> nth v flg 0 < i /\ hop (fun s => s = nth (nth v flg 0) ks 0) v (nth v aDist0 None) /\
       forall j b, j < i -> hop (fun s => s = nth j ks 0) v b -> ole (nth v aDist0 None) b /\ (j < nth v flg 0 -> b <> nth v aDist0 None)).

(** The search for the farthest element. *)
Lemma scan_ok : forall aDist0, length aDist0 = n -> wp (forn 0 n (fun it s =>
      let '(idist_max, itri_maxdist) := s in
      d <- vget aDist0 it ;;
      if negb (ltU idist_max d) then Some (idist_max, itri_maxdist) else Some (d, Some it)) (Some 0, None))
  (fun r => match snd r with
            | None => forall v, v < n -> nth v aDist0 None = Some 0
            | Some t => t < n /\ nth t aDist0 None <> Some 0 /\ forall v, v < n -> ole (nth v aDist0 None) (nth t aDist0 None) /\ (v < t -> nth v aDist0 None <> nth t aDist0 None)
            end).
Proof.
  intros a L. apply (wp_forn _ (fun k (r : option nat * option nat) => match snd r with
            | None => fst r = Some 0 /\ forall v, v < k -> nth v a None = Some 0
            | Some t => fst r = nth t a None /\ t < k /\ nth t a None <> Some 0 /\ forall v, v < k -> ole (nth v a None) (nth t a None) /\ (v < t -> nth v a None <> nth t a None)
            end)).
  - lia.
  - cbn. split; auto. lia.
  - intros k (m & t) Hk I. cbn [fst snd] in I. apply wp_bind, (wp_vget _ None); [lia|]. destruct (ltU m (nth k a None)) eqn:E; cbn [negb]; apply wp_some; cbn [fst snd].
    + apply ltU_true in E. destruct E as (E1 & E2). split; auto. split; [lia|]. destruct t as [t|].
      * destruct I as (-> & It & Ib & Ic). split.
        -- intros E3. rewrite E3 in E1. destruct (nth t a None) as [[|x]|]; cbn in E1; try congruence; try lia; auto.
        -- intros v Hv. destruct (Nat.eq_dec v k) as [->|]; [split; [apply ole_refl|lia]|]. destruct (Ic v ltac:(lia)) as (Id & Ie). split.
           ++ eapply ole_trans; eauto.
           ++ intros _ E3. rewrite E3 in Id. apply E2. apply ole_antisym; auto.
      * destruct I as (-> & Ia). split; auto. intros v Hv. destruct (Nat.eq_dec v k) as [->|]; [split; [apply ole_refl|lia]|].
        rewrite (Ia v) by lia. split; auto.
    + apply ltU_false in E. destruct t as [t|].
      * destruct I as (-> & It & Ib & Ic). split; auto. split; [lia|]. split; auto. intros v Hv. destruct (Nat.eq_dec v k) as [->|]; [split; [auto|lia]|].
        apply Ic; lia.
      * destruct I as (-> & Ia). split; auto. intros v Hv. destruct (Nat.eq_dec v k) as [->|]; [|apply Ia; lia].
        destruct (nth k a None) as [x|]; cbn in E; [f_equal; lia|contradiction].
  - intros (m & [t|]); cbn [fst snd]; intros H; tauto.
Qed.

Lemma cluster_step : forall ker i s, 0 < i -> i < n -> cinv ker i s -> wp (
    let '(aFlgElm, aDist0) := s in
    '(idist_max, itri_maxdist) <- forn 0 n (fun it s =>
      let '(idist_max, itri_maxdist) := s in
      d <- vget aDist0 it ;;
      if negb (ltU idist_max d) then Some (idist_max, itri_maxdist) else Some (d, Some it)) (Some 0, None) ;;
    itri_maxdist <- itri_maxdist ;;
    '(aDist1, _) <- DijkstraElem_MeshElemTopo dbg pq itri_maxdist tab n ;;
    forn 0 n (fun it s =>
      let '(aFlgElm, aDist0) := s in
      d1 <- vget aDist1 it ;; d0 <- vget aDist0 it ;;
      if ltU d1 d0 then
        aDist0 <- vset aDist0 it d1 ;;
        aFlgElm <- vset aFlgElm it i ;; Some (aFlgElm, aDist0)
      else Some (aFlgElm, aDist0)) (aFlgElm, aDist0)) (cinv ker (S i)).
Proof.
  intros ker i (flg & aDist0) Hi Hn (ks & Lk & K0 & Kn & KF & L1 & L2 & V).
  assert (HS : forall v, v < n -> hop (fun s => In s ks) v (nth v aDist0 None)).
  { intros v Hv. destruct (V v Hv) as (V1 & V2 & V3). apply (hops_set ks v (nth v flg 0)); auto; [lia| |].
    - intros j b Hj Hb. apply (V3 j b); auto. lia.
    - intros c. destruct T as (T1 & T2 & T3). (* any element *)
      destruct (Nat.lt_ge_cases c n); [apply hops_ex; auto|]. exists (if Nat.eq_dec v c then Some 0 else None). destruct (Nat.eq_dec v c) as [->|Ne]; [lia|].
      intros (d & H1). assert (forall u d, W (fun s => s = c) u d -> u = c). { intros u e X. induction X as [s Hs|u e w X IHX ST]; auto. destruct ST as (ST & _). lia. } apply Ne. eapply H0; eauto. }
  apply wp_bind. destruct (wp_ex _ _ _ (scan_ok aDist0 L2)) as ((m & t) & E & P). rewrite E. cbn [snd] in P. apply wp_some. destruct t as [t|]; cbn [bind].
  2:{ exfalso. assert (I : incl (seq 0 n) ks).
      { intros v Hv. apply in_seq in Hv. assert (H := HS v ltac:(lia)). rewrite P in H by lia. destruct H as (H & _). apply walk0 in H. auto. }
      apply NoDup_incl_length in I; [|apply seq_NoDup]. rewrite seq_length in I. lia. }
  destruct P as (Ht & P0 & P1). destruct (topo_hops t Ht) as (aDist1 & aOrder1 & ET & L3 & H1). rewrite ET. cbn [bind].
  apply (wp_forn _ (fun k (s : list nat * list (option nat)) => length (fst s) = n /\ length (snd s) = n /\
    forall v, v < n -> (nth v (fst s) 0, nth v (snd s) None) = if (v <? k) && ltU (nth v aDist1 None) (nth v aDist0 None) then (i, nth v aDist1 None) else (nth v flg 0, nth v aDist0 None))).
  - lia.
  - cbn [fst snd]. auto.
  - intros k (flg' & aDist') Hk (M1 & M2 & M3). cbn [fst snd] in *. apply wp_bind, (wp_vget _ None); [lia|]. apply wp_bind, (wp_vget _ None); [lia|].
    assert (M4 := M3 k ltac:(lia)). rewrite Nat.ltb_irrefl in M4. cbn [andb] in M4. injection M4 as M4 M5. rewrite M5.
    destruct (ltU (nth k aDist1 None) (nth k aDist0 None)) eqn:EL.
    + apply wp_bind, wp_vset; [lia|]. apply wp_bind, wp_vset; [lia|]. apply wp_some. cbn [fst snd]. rewrite !upd_length. split; auto. split; auto.
      intros v Hv. rewrite !nth_upd by lia. destruct (Nat.eq_dec k v) as [<-|Ne].
      * rewrite (proj2 (Nat.ltb_lt k (S k))), EL by lia. auto.
      * rewrite M3 by auto. replace (v <? S k) with (v <? k); auto. destruct (Nat.ltb_spec v k), (Nat.ltb_spec v (S k)); auto; lia.
    + apply wp_some. cbn [fst snd]. split; auto. split; auto. intros v Hv. rewrite M3 by auto. destruct (Nat.eq_dec k v) as [<-|Ne].
      * rewrite EL, !andb_false_r. auto.
      * replace (v <? S k) with (v <? k); auto. destruct (Nat.ltb_spec v k), (Nat.ltb_spec v (S k)); auto; lia.
  - intros (flg' & aDist') (M1 & M2 & M3). cbn [fst snd] in *. exists (ks ++ [t]). rewrite app_length. cbn [length].
    split; [lia|]. split; [rewrite app_nth1 by lia; auto|]. split; [intros c Hc; apply in_app_or in Hc; destruct Hc as [Hc|[<-|[]]]; auto|].
    split; [|split; [auto|split; [auto|]]].
    + intros j Hj. rewrite firstn_app. replace (j - length ks) with 0 by lia. cbn [firstn]. rewrite app_nil_r. destruct (Nat.eq_dec j i) as [->|].
      * rewrite <- Lk, firstn_all, app_nth2, Nat.sub_diag by lia. cbn [nth]. split; auto. split.
        -- intros It. apply P0. eapply hops_fun; [apply HS; auto|]. split; [constructor; auto|]. intros d _. cbn. lia.
        -- intros v a b Hv Ha Hb. rewrite (hops_fun _ _ _ _ Ha (HS t Ht)), (hops_fun _ _ _ _ Hb (HS v Hv)). apply P1; auto.
      * rewrite app_nth1 by lia. apply KF. lia.
    + intros v Hv. specialize (M3 v Hv). rewrite (proj2 (Nat.ltb_lt v n)) in M3 by auto. cbn [andb] in M3. destruct (V v Hv) as (V1 & V2 & V3).
      destruct (ltU (nth v aDist1 None) (nth v aDist0 None)) eqn:EL; injection M3 as -> ->.
      * apply ltU_true in EL. destruct EL as (E1 & E2). split; [lia|]. rewrite app_nth2, Lk, Nat.sub_diag by lia. cbn [nth]. split; [auto|].
        intros j b Hj Hb. destruct (Nat.eq_dec j i) as [->|].
        -- rewrite app_nth2, Lk, Nat.sub_diag in Hb by lia. cbn [nth] in Hb. rewrite (hops_fun _ _ _ _ Hb (H1 v)). split; [apply ole_refl|lia].
        -- rewrite app_nth1 in Hb by lia. destruct (V3 j b ltac:(lia) Hb) as (V4 & _). split; [eapply ole_trans; eauto|].
           intros _ ->. apply E2. apply ole_antisym; auto.
      * apply ltU_false in EL. split; [lia|]. rewrite app_nth1 by lia. split; auto. intros j b Hj Hb. destruct (Nat.eq_dec j i) as [->|].
        -- rewrite app_nth2, Lk, Nat.sub_diag in Hb by lia. cbn [nth] in Hb. rewrite (hops_fun _ _ _ _ Hb (H1 v)). split; [auto|lia].
        -- rewrite app_nth1 in Hb by lia. apply (V3 j b); auto. lia.
Qed.

Lemma cluster_ok : forall ker ncluster, ker < n -> ncluster <= n -> wp (MeshClustering dbg pq ker ncluster tab n)
  (fun flg => length flg = n /\ exists ks, length ks = Nat.max 1 ncluster /\ nth 0 ks 0 = ker /\
     (forall j, 0 < j < length ks -> farthest tab n nedge (fun s => In s (firstn j ks)) (nth j ks 0)) /\
     forall v, v < n -> nearest_kernel tab n nedge ks v (nth v flg 0)).
Proof.
  intros ker ncl Hk Hn. unfold MeshClustering. apply wp_bind, wp_assertb; [apply Nat.ltb_lt; auto|].
  destruct (topo_hops ker Hk) as (aDist & aOrder & E & L & H). rewrite E. cbn [bind].
  assert (I1 : cinv ker 1 (repeat 0 n, aDist)).
  { exists [ker]. split; auto. split; auto. split; [intros c [<-|[]]; auto|]. split; [lia|]. rewrite repeat_length. split; auto. split; auto.
    intros v Hv. rewrite nth_repeat. split; [lia|]. split; [apply H|]. intros j b Hj Hb. replace j with 0 in Hb by lia.
    rewrite (hops_fun _ _ _ _ Hb (H v)). split; [apply ole_refl|lia]. }
  assert (X : wp (forn 1 ncl (fun icluster s =>
    let '(aFlgElm, aDist0) := s in
    '(idist_max, itri_maxdist) <- forn 0 n (fun it s =>
      let '(idist_max, itri_maxdist) := s in
      d <- vget aDist0 it ;;
      if negb (ltU idist_max d) then Some (idist_max, itri_maxdist) else Some (d, Some it)) (Some 0, None) ;;
    itri_maxdist <- itri_maxdist ;;
    '(aDist1, _) <- DijkstraElem_MeshElemTopo dbg pq itri_maxdist tab n ;;
    forn 0 n (fun it s =>
      let '(aFlgElm, aDist0) := s in
      d1 <- vget aDist1 it ;; d0 <- vget aDist0 it ;;
      if ltU d1 d0 then
        aDist0 <- vset aDist0 it d1 ;;
        aFlgElm <- vset aFlgElm it icluster ;; Some (aFlgElm, aDist0)
      else Some (aFlgElm, aDist0)) (aFlgElm, aDist0)) (repeat 0 n, aDist)) (cinv ker (Nat.max 1 ncl))).
  { destruct ncl as [|ncl]; [exact I1|]. replace (Nat.max 1 (S ncl)) with (S ncl) by lia.
    apply (wp_forn _ (cinv ker)); auto; [lia|]. intros i s Hi I. apply cluster_step; auto; lia. }
  destruct (wp_ex _ _ _ X) as ((flg & aDist0) & E2 & (ks & K1 & K2 & K3 & K4 & K5 & K6 & K7)). rewrite E2. cbn [bind]. apply wp_some.
  split; auto. exists ks. split; auto. split; auto. rewrite K1. split; auto. intros v Hv. destruct (K7 v Hv) as (A & B & C). split; [lia|].
  intros j a b Hj Ha Hb. rewrite (hops_fun _ _ _ _ Ha B). apply (C j b); auto. lia.
Qed.
End Clu.

(** A kernel is nearest to itself. *)
Lemma nearest_own : forall tab n nedge (ks : list nat) k i, (forall j j', j < length ks -> j' < length ks -> nth j ks 0 = nth j' ks 0 -> j = j') ->
  (forall j, j < length ks -> exists a, hops tab n nedge (fun s => s = nth j ks 0) (nth k ks 0) a) -> k < length ks ->
  nearest_kernel tab n nedge ks (nth k ks 0) i -> i = k.
Proof.
  intros tab n nedge ks k i ND EX Hk (Hi & M). apply ND; auto. destruct (EX i Hi) as (a & Ha).
  assert (Z : hops tab n nedge (fun s => s = nth k ks 0) (nth k ks 0) (Some 0)). { split; [constructor; auto|]. intros d _. cbn. lia. }
  destruct (M k a (Some 0) Hk Ha Z) as (L & _). destruct a as [[|a]|]; cbn in L; try lia; try contradiction.
  destruct Ha as (W & _). apply walk0 in W. auto.
Qed.
