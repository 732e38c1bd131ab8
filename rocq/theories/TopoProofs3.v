From Coq Require Import List Arith Lia Bool Permutation Sorted.
Import ListNotations.
From Verif Require Import Imp JagModel JagSpec JagProofs JagProofs2 JagProofs3 TopoModel TopoSpec TopoProofs1.

(* ------------- C10 ------------- *)

Lemma flat3_length : forall ts, length (flat3 ts) = 3 * length ts.
Proof. induction ts as [|[[a b] c] ts]; auto. unfold flat3 in *. cbn [flat_map app length]. rewrite IHts. lia. Qed.

Lemma flat4_length : forall ts, length (flat4 ts) = 4 * length ts.
Proof. induction ts as [|[[[a b] c] d] ts]; auto. unfold flat4 in *. cbn [flat_map app length]. rewrite IHts. lia. Qed.

Definition tri_of (l : list nat) (t : nat) := (nth (t * 3) l 0, nth (t * 3 + 1) l 0, nth (t * 3 + 2) l 0).

Lemma flat3_nth : forall ts t d, t < length ts -> tri_of (flat3 ts) t = nth t ts d.
Proof.
  induction ts as [|[[a b] c] ts]; simpl; intros; [lia|].
  destruct t; [reflexivity|]. rewrite <- (IHts t d) by lia. unfold tri_of. simpl.
  rewrite <- !plus_n_Sm, <- !plus_n_O. reflexivity.
Qed.

Lemma flat3_ext : forall l ts, length l = 3 * length ts -> (forall t d, t < length ts -> tri_of l t = nth t ts d) -> l = flat3 ts.
Proof.
  intros l ts. revert l. induction ts as [|[[a b] c] ts]; simpl; intros.
  - destruct l; auto; discriminate.
  - destruct l as [|x [|y [|z l]]]; simpl in H; try lia.
    pose proof (H0 0 (0,0,0) ltac:(lia)) as E. unfold tri_of in E. simpl in E. inversion E; subst.
    do 3 f_equal. apply IHts. lia. intros t d Ht.
    specialize (H0 (S t) d ltac:(lia)). unfold tri_of in *. simpl in H0.
    rewrite <- !plus_n_Sm, <- !plus_n_O in *. auto.
Qed.


Lemma Flip_correct : forall ts, FlipElement_Tri (flat3 ts) = Some (flat3 (map flip_tri ts)).
Proof.
  intros ts.
  assert (H : wp (FlipElement_Tri (flat3 ts)) (fun r => r = flat3 (map flip_tri ts))).
  { unfold FlipElement_Tri. rewrite flat3_length.
    replace (3 * length ts / 3) with (length ts) by (rewrite Nat.mul_comm, Nat.div_mul; lia).
    apply (wp_forn _ (fun i l => length l = 3 * length ts /\
        (forall t d, t < length ts -> tri_of l t = if lt_dec t i then flip_tri (nth t ts d) else nth t ts d))); [lia| | |].
    - split. apply flat3_length. intros t d Ht. destruct (lt_dec t 0); [lia|]. apply flat3_nth; auto.
    - intros i l Hi (Hl & Ht).
      apply wp_bind. apply (wp_vget _ 0); [lia|]. apply wp_bind. apply (wp_vget _ 0); [lia|].
      apply wp_bind. apply wp_vset; [lia|]. apply wp_vset; [lens; lia|]. split; [lens; auto|].
      intros t d Hlt. specialize (Ht t d Hlt). unfold tri_of in *.
      destruct (Nat.eq_dec t i).
      + subst. destruct (lt_dec i (S i)); [|lia]. destruct (lt_dec i i); [lia|].
        rewrite <- Ht. unfold flip_tri.
        rewrite !nth_upd by (lens; lia). repeat destruct Nat.eq_dec; try lia; auto.
      + rewrite !nth_upd_other by lia. rewrite Ht.
        destruct (lt_dec t i), (lt_dec t (S i)); auto; lia.
    - intros l (Hl & Ht). apply flat3_ext. { rewrite map_length; auto. } intros t d Hlt. rewrite map_length in Hlt.
      rewrite (Ht t (0,0,0) Hlt). destruct (lt_dec t (length ts)); [|lia].
      rewrite (nth_indep (map flip_tri ts) d (flip_tri (0,0,0))) by (rewrite map_length; auto). rewrite map_nth. auto. }
  apply wp_ex in H. destruct H as (r & E & ->). auto.
Qed.

Definition quad_of (l : list nat) (t : nat) := (nth (t * 4) l 0, nth (t * 4 + 1) l 0, nth (t * 4 + 2) l 0, nth (t * 4 + 3) l 0).

Lemma flat4_nth : forall ts t d, t < length ts -> quad_of (flat4 ts) t = nth t ts d.
Proof.
  induction ts as [|[[[a b] c] e] ts]; simpl; intros; [lia|].
  destruct t; [reflexivity|]. rewrite <- (IHts t d) by lia. unfold quad_of. simpl.
  rewrite <- !plus_n_Sm, <- !plus_n_O. reflexivity.
Qed.


Lemma Quad2Tri_correct : forall tri0 qs, convert2Tri_Quad tri0 (flat4 qs) = Some (flat3 (flat_map split_quad qs)).
Proof.
  intros tri0 qs.
  assert (H : wp (convert2Tri_Quad tri0 (flat4 qs)) (fun r => r = flat3 (flat_map split_quad qs))).
  { unfold convert2Tri_Quad. rewrite flat4_length.
    replace (4 * length qs / 4) with (length qs) by (rewrite Nat.mul_comm, Nat.div_mul; lia).
    apply (wp_forn _ (fun i l => length l = length qs * 6 /\
        firstn (i * 6) l = flat3 (flat_map split_quad (firstn i qs)))); [lia| | |].
    - split. apply vresize_length. reflexivity.
    - intros i l Hi (Hl & Hf).
      destruct (nth i qs (0,0,0,0)) as [[[a b] c] d] eqn:Eq.
      pose proof (flat4_nth qs i (0,0,0,0) ltac:(lia)) as Hq. rewrite Eq in Hq. unfold quad_of in Hq. inversion Hq.
      pose proof (flat4_length qs) as H4.
      apply wp_bind. apply (wp_vget _ 0); [lia|]. apply wp_bind. apply (wp_vget _ 0); [lia|].
      apply wp_bind. apply (wp_vget _ 0); [lia|]. apply wp_bind. apply (wp_vget _ 0); [lia|].
      rewrite (Nat.add_0_r (i * 4)), H0, H1, H2, H3.
      do 5 (apply wp_bind; apply wp_vset; [lens; lia|]). apply wp_vset; [lens; lia|].
      split; [lens; auto|].
      rewrite (firstn_S_snoc _ (0,0,0,0)) by lia. rewrite Eq, flat_map_app. unfold flat3. rewrite flat_map_app.
      fold (flat3 (flat_map split_quad (firstn i qs))). rewrite <- Hf.
      change (flat_map (fun '(a, b, c) => [a; b; c]) (flat_map split_quad [(a, b, c, d)])) with [a; b; c; c; d; a].
      change (S i * 6) with (6 + i * 6).
      rewrite <- (firstn_skipn (i * 6) l) at 1.
      assert (Hk : length (firstn (i * 6) l) = i * 6) by (rewrite firstn_length; lia).
      rewrite !upd_app_r by lia. rewrite Hk.
      replace (i * 6 + 0 - i * 6) with 0 by lia. replace (i * 6 + 1 - i * 6) with 1 by lia.
      replace (i * 6 + 2 - i * 6) with 2 by lia. replace (i * 6 + 3 - i * 6) with 3 by lia.
      replace (i * 6 + 4 - i * 6) with 4 by lia. replace (i * 6 + 5 - i * 6) with 5 by lia.
      assert (Hsk : 6 <= length (skipn (i * 6) l)) by (rewrite skipn_length; lia).
      destruct (skipn (i * 6) l) as [|x0 [|x1 [|x2 [|x3 [|x4 [|x5 tl]]]]]]; simpl in Hsk; try lia.
      cbn [upd]. rewrite firstn_app, Hk. rewrite firstn_all2 by lia.
      replace (6 + i * 6 - i * 6) with 6 by lia. reflexivity.
    - intros l (Hl & Hf). rewrite firstn_all2 in Hf by lia. rewrite (firstn_all2 qs) in Hf by lia. auto. }
  apply wp_ex in H. destruct H as (r & E & ->). auto.
Qed.

Lemma split_quad_edges : forall a b c d,
  Permutation (flat_map tri_dedges (split_quad (a, b, c, d))) (quad_dedges (a, b, c, d) ++ [(a, c); (c, a)]).
Proof.
  intros. simpl. do 2 constructor.
  change ([(c,d);(d,a);(a,c);(c,a)]) with ([(c,d);(d,a);(a,c)] ++ [(c,a)]).
  change ((c, a) :: [(c, d); (d, a); (a, c)]) with ([(c,a)] ++ [(c,d);(d,a);(a,c)]).
  apply Permutation_app_comm.
Qed.

(* ------------- C08 ------------- *)

Lemma set_insert_In : forall s x y, In y (set_insert x s) <-> y = x \/ In y s.
Proof.
  induction s; simpl; intros. intuition.
  destruct (Nat.ltb_spec x a); simpl. intuition.
  destruct (Nat.eqb_spec x a); simpl. subst; intuition. rewrite IHs. intuition.
Qed.

Lemma set_insert_sorted : forall s x, StronglySorted lt s -> StronglySorted lt (set_insert x s).
Proof.
  induction s; simpl; intros. constructor; constructor.
  inversion H; subst.
  destruct (Nat.ltb_spec x a).
  - constructor; auto. constructor; auto. eapply Forall_impl; [|eassumption]. simpl; intros; lia.
  - destruct (Nat.eqb_spec x a); auto. constructor; auto. apply Forall_forall. intros y Hy.
    apply set_insert_In in Hy. destruct Hy. subst; lia. rewrite Forall_forall in H3. auto.
Qed.

Lemma StronglySorted_NoDup : forall s, StronglySorted lt s -> NoDup s.
Proof.
  intros s H. induction H; constructor; auto. intro Hin. rewrite Forall_forall in H0. apply H0 in Hin. lia.
Qed.

Definition edge_ok (elem : list nat) (nel nno : nat) (etab : list (nat * nat)) (bi : bool) (p q : nat) : Prop :=
  (bi = true \/ p < q) /\ exists e a b, e < nel /\ In (a, b) etab /\
    ((nth (e * nno + a) elem 0 = p /\ nth (e * nno + b) elem 0 = q) \/
     (nth (e * nno + b) elem 0 = p /\ nth (e * nno + a) elem 0 = q)).

Section Edge.
Variables (elem : list nat) (nel nno nv : nat) (etab : list (nat * nat)) (bi : bool).
Hypothesis HM : mesh_ok elem nel nno nv.
Hypothesis HT : Forall (fun p => fst p < nno /\ snd p < nno) etab.
Variables (elsup_ind elsup : list nat).
Hypothesis HJ : jagged elsup_ind elsup (map (elsup_row elem nno nel) (seq 0 nv)).

Let N k := nth k elem 0.

Definition edge_in (p e : nat) (ab : nat * nat) (q : nat) : Prop :=
  (bi = true \/ p < q) /\
  ((N (e * nno + fst ab) = p /\ N (e * nno + snd ab) = q) \/ (N (e * nno + snd ab) = p /\ N (e * nno + fst ab) = q)).

Lemma elem_edges_ok : forall p e s0, e < nel -> StronglySorted lt s0 ->
  wp (forn 0 (length etab) (fun ie setIP =>
        '(inoel0, inoel1) <- vget etab ie ;;
        ip0 <- vget elem (e * nno + inoel0) ;;
        ip1 <- vget elem (e * nno + inoel1) ;;
        if negb (ip0 =? p) && negb (ip1 =? p) then Some setIP else
        if ip0 =? p then
          if bi || (p <? ip1) then Some (set_insert ip1 setIP) else Some setIP
        else
          if bi || (p <? ip0) then Some (set_insert ip0 setIP) else Some setIP) s0)
     (fun s => StronglySorted lt s /\ forall q, In q s <-> In q s0 \/ exists ab, In ab etab /\ edge_in p e ab q).
Proof.
  intros p e s0 He Hs0.
  apply (wp_forn _ (fun i s => StronglySorted lt s /\
    forall q, In q s <-> In q s0 \/ exists ab, In ab (firstn i etab) /\ edge_in p e ab q)); [lia| | |].
  - split; auto. simpl. intros q. split; auto. intros [H|(ab & [] & _)]; auto.
  - intros i s Hi (Hs & Hq).
    assert (Hc : forall k, k < nno -> e * nno + k < length elem) by (intros; destruct HM as (-> & _); nia).
    apply wp_bind. apply (wp_vget _ (0,0)); [lia|].
    destruct (nth i etab (0,0)) as [a b] eqn:Eab.
    assert (Hin : In (a, b) etab) by (rewrite <- Eab; apply nth_In; lia).
    rewrite Forall_forall in HT. destruct (HT _ Hin) as (Ha & Hb). simpl in Ha, Hb.
    apply wp_bind. apply (wp_vget _ 0); [auto|]. apply wp_bind. apply (wp_vget _ 0); [auto|].
    rewrite (firstn_S_snoc _ (0,0)) by lia. rewrite Eab. fold (N (e * nno + a)). fold (N (e * nno + b)).
    assert (Hadd : forall s' (x : Prop), StronglySorted lt s' ->
       (forall q, In q s' <-> In q s \/ edge_in p e (a, b) q) ->
       StronglySorted lt s' /\ (forall q, In q s' <-> In q s0 \/ (exists ab, In ab (firstn i etab ++ [(a, b)]) /\ edge_in p e ab q))).
    { intros s' _ Hs' Hq'. split; auto. intros q. rewrite Hq', Hq. split.
      - intros [[H|(ab & H & H')]|H]; auto.
        + right. exists ab. rewrite in_app_iff. auto.
        + right. exists (a, b). rewrite in_app_iff. simpl. auto.
      - intros [H|(ab & H & H')]; auto. rewrite in_app_iff in H. destruct H as [H|[H|[]]].
        + left. right. exists ab. auto.
        + subst ab. auto. }
    unfold edge_in in Hadd. cbn [fst snd] in Hadd.
    destruct (Nat.eqb_spec (N (e * nno + a)) p) as [E0|E0], (Nat.eqb_spec (N (e * nno + b)) p) as [E1|E1]; cbn [negb andb].
    all: try match goal with |- context[bi || (?x <? ?y)] => destruct (bi || (x <? y)) eqn:Eb;
      [apply orb_true_iff in Eb; rewrite Nat.ltb_lt in Eb | apply orb_false_iff in Eb; rewrite Nat.ltb_ge in Eb; destruct Eb as (Eb1 & Eb2)] end.
    all: apply wp_some; apply (Hadd _ True); [try apply set_insert_sorted; auto|]; intros q; rewrite ?set_insert_In; intuition (subst; try lia; try congruence; auto).
    all: rewrite ?E0, ?E1 in *; subst; try (left; congruence); try lia; try congruence; intuition (subst; try lia; try congruence; auto).
  - rewrite firstn_all. auto.
Qed.

Lemma JArrayEdge_ok : forall ind0,
  exists ind arr rows, JArrayEdge_MeshElem ind0 [] elem nno etab elsup_ind elsup bi = Some (ind, arr) /\
    jagged ind arr rows /\ length rows = nv /\
    forall p, p < nv -> StronglySorted lt (nth p rows []) /\
       forall q, In q (nth p rows []) <-> edge_ok elem nel nno etab bi p q.
Proof.
  intros ind0. pose proof (jagged_len _ _ _ _ HJ) as HL. rewrite map_length, seq_length in HL.
  assert (H : wp (JArrayEdge_MeshElem ind0 [] elem nno etab elsup_ind elsup bi) (fun r =>
     exists rows, jagged (fst r) (snd r) rows /\ length rows = nv /\
    forall p, p < nv -> StronglySorted lt (nth p rows []) /\
       forall q, In q (nth p rows []) <-> edge_ok elem nel nno etab bi p q)).
  { unfold JArrayEdge_MeshElem. rewrite HL. replace (S nv - 1) with nv by lia.
    apply wp_bind. apply wp_vset. rewrite vresize_length; lia.
    apply (wp_forn _ (fun i s => length (fst s) = nv + 1 /\ exists rows, length rows = i /\ snd s = concat rows /\
       (forall k, k <= i -> nth k (fst s) 0 = offs rows k) /\
       forall p, p < i -> StronglySorted lt (nth p rows []) /\ forall q, In q (nth p rows []) <-> edge_ok elem nel nno etab bi p q)); [lia| | |].
    - cbn [fst snd]. split. rewrite upd_length, vresize_length; auto. exists []. split; auto. split; auto. split.
      + intros k Hk. replace k with 0 by lia. rewrite nth_upd_same by (rewrite vresize_length; lia). auto.
      + intros; lia.
    - intros p [ind arr] Hp (Hi & rows & Hr & Ha & Ho & Hrow). cbn [fst snd] in *.
      assert (HS : wp (lo <- vget elsup_ind p ;; hi <- vget elsup_ind (p + 1) ;;
         forn lo hi (fun ielsup setIP =>
      iq0 <- vget elsup ielsup ;;
      forn 0 (length etab) (fun ie setIP =>
        '(inoel0, inoel1) <- vget etab ie ;;
        ip0 <- vget elem (iq0 * nno + inoel0) ;;
        ip1 <- vget elem (iq0 * nno + inoel1) ;;
        if negb (ip0 =? p) && negb (ip1 =? p) then Some setIP else
        if ip0 =? p then
          if bi || (p <? ip1) then Some (set_insert ip1 setIP) else Some setIP
        else
          if bi || (p <? ip0) then Some (set_insert ip0 setIP) else Some setIP) setIP) [])
         (fun s => StronglySorted lt s /\ forall q, In q s <-> edge_ok elem nel nno etab bi p q)).
      { rewrite (jag_row_loop _ _ _ _ _ (fun iq0 setIP => forn 0 (length etab) (fun ie setIP =>
        '(inoel0, inoel1) <- vget etab ie ;;
        ip0 <- vget elem (iq0 * nno + inoel0) ;;
        ip1 <- vget elem (iq0 * nno + inoel1) ;;
        if negb (ip0 =? p) && negb (ip1 =? p) then Some setIP else
        if ip0 =? p then
          if bi || (p <? ip1) then Some (set_insert ip1 setIP) else Some setIP
        else
          if bi || (p <? ip0) then Some (set_insert ip0 setIP) else Some setIP) setIP) _ _ HJ)
        by (rewrite map_length, seq_length; lia).
        rewrite nth_map_seq by lia. simpl Nat.add.
        apply (wp_foldM _ _ (fun l s => StronglySorted lt s /\ forall q, In q s <-> exists e ab, In e l /\ In ab etab /\ edge_in p e ab q)).
        - split. constructor. simpl. intros q. split; [tauto|]. intros (e & ab & [] & _).
        - intros l1 e l2 s El (Hs & Hq).
          assert (He : e < nel). { assert (In e (elsup_row elem nno nel p)) by (rewrite El; apply in_or_app; right; left; auto).
            apply elsup_row_In in H. tauto. }
          eapply wp_mono. apply elem_edges_ok; auto.
          intros s' (Hs' & Hq'). split; auto. intros q. rewrite Hq', Hq. split.
          + intros [(e' & ab & H1 & H2 & H3)|(ab & H2 & H3)].
            * exists e', ab. rewrite in_app_iff. auto.
            * exists e, ab. rewrite in_app_iff. simpl. auto.
          + intros (e' & ab & H1 & H2 & H3). rewrite in_app_iff in H1. destruct H1 as [H1|[H1|[]]].
            * left. exists e', ab. auto.
            * right. subst. exists ab. auto.
        - intros s (Hs & Hq). split; auto. intros q. rewrite Hq. unfold edge_ok. split.
          + intros (e & [a b] & H1 & H2 & (H3 & H4)). split; auto. exists e, a, b. apply elsup_row_In in H1. simpl in H4. tauto.
          + intros (H3 & e & a & b & He & Hab & H4). exists e, (a, b). split; [|split; auto; split; auto].
            apply elsup_row_In. split; auto.
            rewrite Forall_forall in HT. destruct (HT _ Hab) as (Hla & Hlb). simpl in Hla, Hlb.
            assert (Hin : forall k, k < nno -> In (nth (e * nno + k) elem 0) (elem_verts elem nno e)).
            { intros k Hk. rewrite <- nth_skipn'. unfold elem_verts.
              assert (nno <= length (skipn (e * nno) elem)).
              { rewrite skipn_length. destruct HM as (-> & _). nia. }
              rewrite <- (firstn_skipn nno (skipn (e * nno) elem)) at 1.
              rewrite app_nth1 by (rewrite firstn_length; lia). apply nth_In. rewrite firstn_length. lia. }
            destruct H4 as [(<- & _)|(<- & _)]; apply Hin; auto. }
      destruct (vget elsup_ind p) as [lo|]; simpl in HS; [|contradiction]. cbn [bind].
      destruct (vget elsup_ind (p + 1)) as [hi|]; simpl in HS; [|contradiction]. cbn [bind].
      apply wp_bind. eapply wp_mono. exact HS. intros s (Hs & Hq). cbn beta.
      apply wp_bind. apply (wp_vget _ 0); [lia|]. apply wp_bind. apply wp_vset; [lia|]. apply wp_some.
      cbn [fst snd]. split; [lens; auto|]. exists (rows ++ [s]).
      split. { rewrite app_length; simpl; lia. }
      split. { rewrite concat_app. simpl. rewrite app_nil_r. subst; auto. }
      assert (Hoffs : forall k, k <= p -> offs (rows ++ [s]) k = offs rows k).
      { intros k Hk. unfold offs. rewrite firstn_app. replace (k - length rows) with 0 by lia. simpl.
        rewrite app_nil_r. auto. }
      split.
      { intros k Hk. rewrite nth_upd by lia. destruct (Nat.eq_dec (p + 1) k).
        - subst k. replace (p + 1) with (S p) by lia. rewrite offs_S by (rewrite app_length; simpl; lia).
          rewrite Hoffs by lia. rewrite Ho by lia. f_equal. rewrite app_nth2 by lia.
          replace (p - length rows) with 0 by lia. auto.
        - rewrite Ho by lia. rewrite Hoffs by lia. auto. }
      intros k Hk. destruct (Nat.eq_dec k p).
      + subst k. rewrite app_nth2 by lia. replace (p - length rows) with 0 by lia. simpl. auto.
      + rewrite app_nth1 by lia. apply Hrow. lia.
    - intros [ind arr] (Hi & rows & Hr & Ha & Ho & Hrow). cbn [fst snd] in *.
      exists rows. split; auto. split; auto. change (ind = offsets rows).
      apply (list_ext _ 0). rewrite offsets_length; lia. intros i Hi'. rewrite Ho, offsets_nth by lia. auto. }
  apply wp_ex in H. destruct H as ([ind arr] & E & rows & H). exists ind, arr, rows. tauto.
Qed.
End Edge.

Lemma MeshLine_ok : forall line0 ind arr rows, jagged ind arr rows ->
  MeshLine_JArrayEdge line0 ind arr =
    Some (line0 ++ flat_map (fun pq => [fst pq; snd pq])
      (concat (map (fun p => map (pair p) (nth p rows [])) (seq 0 (length rows))))).
Proof.
  intros line0 ind arr rows HJ. pose proof (jagged_len _ _ _ _ HJ) as HL.
  unfold MeshLine_JArrayEdge. rewrite HL. replace (S (length rows) - 1) with (length rows) by lia.
  rewrite forn_foldM, Nat.sub_0_r.
  assert (E : forall l s, foldM (fun pq line => Some (line ++ [fst pq; snd pq])) l s
     = Some (s ++ flat_map (fun pq : nat * nat => [fst pq; snd pq]) l)).
  { induction l; simpl; intros. rewrite app_nil_r; auto. rewrite IHl. f_equal. rewrite <- app_assoc. auto. }
  rewrite <- E. rewrite <- foldM_concat. apply foldM_ext. intros p s Hp. apply in_seq in Hp.
  rewrite foldM_map.
  apply (jag_row_loop _ _ ind arr rows (fun jp line => Some (line ++ [p; jp])) p s HJ). lia.
Qed.

Lemma concat_pairs_In : forall (f : nat -> list nat) n p q,
  In (p, q) (concat (map (fun p => map (pair p) (f p)) (seq 0 n))) <-> p < n /\ In q (f p).
Proof.
  intros. rewrite in_concat. split.
  - intros (l & Hl & Hin). apply in_map_iff in Hl. destruct Hl as (p' & <- & Hp').
    apply in_map_iff in Hin. destruct Hin as (q' & E & Hq). inversion E; subst. apply in_seq in Hp'. split; [lia|auto].
  - intros (Hp & Hq). exists (map (pair p) (f p)). split.
    + apply in_map_iff. exists p. split; auto. apply in_seq. lia.
    + apply in_map. auto.
Qed.

Lemma concat_pairs_NoDup : forall (f : nat -> list nat) n lo, (forall p, NoDup (f p)) ->
  NoDup (concat (map (fun p => map (pair p) (f p)) (seq lo n))).
Proof.
  induction n; simpl; intros. constructor.
  assert (Happ : forall A (l1 l2 : list A), NoDup l1 -> NoDup l2 -> (forall x, In x l1 -> ~ In x l2) -> NoDup (l1 ++ l2)).
  { induction l1; simpl; intros; auto. inversion H0; subst. constructor.
    - rewrite in_app_iff. intros [Hx|Hx]; [tauto|]. eapply H2; eauto.
    - apply IHl1; auto. }
  apply Happ; auto.
  - apply FinFun.Injective_map_NoDup; auto. intros x y E. inversion E; auto.
  - intros [p q] Hin Hin2. apply in_map_iff in Hin. destruct Hin as (q' & E & _). inversion E; subst.
    apply in_concat in Hin2. destruct Hin2 as (l & Hl & Hin2). apply in_map_iff in Hl. destruct Hl as (p' & <- & Hp').
    apply in_map_iff in Hin2. destruct Hin2 as (q'' & E' & _). inversion E'; subst. apply in_seq in Hp'. lia.
Qed.

Lemma MeshLine_MeshElem_ok : forall line0 elem nel nno nv etab,
  mesh_ok elem nel nno nv -> Forall (fun p => fst p < nno /\ snd p < nno) etab ->
  exists L, MeshLine_MeshElem line0 elem nel nno etab nv = Some (line0 ++ flat_map (fun pq => [fst pq; snd pq]) L) /\
    NoDup L /\ forall p q, In (p, q) L <-> edge_ok elem nel nno etab false p q.
Proof.
  intros line0 elem nel nno nv etab HM HT.
  destruct (ElSuP_correct [] elem nel nno nv HM) as (ind & arr & E & HJ).
  destruct (JArrayEdge_ok elem nel nno nv etab false HM HT ind arr HJ []) as (ei & ea & rows & E2 & HJ2 & Hlen & Hr).
  eexists. split.
  - unfold MeshLine_MeshElem. rewrite E. cbn [bind]. rewrite E2. cbn [bind]. apply MeshLine_ok. eauto.
  - split.
    + apply concat_pairs_NoDup. intros p. destruct (lt_dec p nv).
      * apply StronglySorted_NoDup. apply Hr; auto.
      * rewrite nth_overflow by lia. constructor.
    + intros p q. rewrite concat_pairs_In, Hlen. split.
      * intros (Hp & Hq). apply Hr in Hq; auto.
      * intros He.
        assert (Hp : p < nv).
        { destruct He as (_ & e & a & b & He & Hab & Hc). destruct HM as (HL & HF).
          rewrite Forall_forall in HT. destruct (HT _ Hab) as (Ha & Hb). simpl in Ha, Hb. rewrite Forall_forall in HF.
          destruct Hc as [(<- & _)|(<- & _)]; apply HF; apply nth_In; rewrite HL; nia. }
        split; auto. apply Hr; auto.
Qed.
