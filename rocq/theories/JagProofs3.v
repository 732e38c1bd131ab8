From Coq Require Import List Arith Lia Permutation Sorted Bool.
Import ListNotations.
From Verif Require Import Imp JagModel JagSpec JagProofs JagProofs2.

(* ---------- C02 ---------- *)

Definition psup_cand (elem : list nat) (nno nel p : nat) : list nat :=
  concat (map (elem_verts elem nno) (elsup_row elem nno nel p)).
Definition psup_row (elem : list nat) (nno nel p : nat) : list nat :=
  emit [p] (psup_cand elem nno nel p).

Lemma elsup_row_In : forall elem nno nel p e,
  In e (elsup_row elem nno nel p) <-> e < nel /\ In p (elem_verts elem nno e).
Proof.
  intros. unfold elsup_row. rewrite in_flat_map. split.
  - intros (x & Hx & Hr). apply in_seq in Hx. pose proof (repeat_spec _ _ _ Hr). subst x.
    split; [lia|]. apply (count_occ_In Nat.eq_dec).
    destruct (count_occ Nat.eq_dec (elem_verts elem nno e) p); simpl in Hr; [tauto|lia].
  - intros (He & Hp). exists e. split. apply in_seq; lia.
    apply (count_occ_In Nat.eq_dec) in Hp.
    destruct (count_occ Nat.eq_dec (elem_verts elem nno e) p); [lia|]. left; auto.
Qed.

Lemma psup_row_In : forall elem nno nel p q,
  In q (psup_row elem nno nel p) <-> q <> p /\ share_elem elem nel nno p q.
Proof.
  intros. unfold psup_row. rewrite emit_In. unfold psup_cand. rewrite in_concat. simpl. unfold share_elem. split.
  - intros ((l & Hl & Hq) & Hn). apply in_map_iff in Hl. destruct Hl as (e & <- & He).
    apply elsup_row_In in He. split. intuition. exists e. tauto.
  - intros (Hn & e & He & Hp & Hq). split; [|intuition].
    exists (elem_verts elem nno e). split; auto. apply in_map_iff. exists e. split; auto.
    apply elsup_row_In. tauto.
Qed.

Lemma psup_cand_lt : forall elem nel nno nv p, mesh_ok elem nel nno nv ->
  Forall (fun x => x < nv) (psup_cand elem nno nel p).
Proof.
  intros. apply Forall_forall. intros x Hx. apply in_concat in Hx. destruct Hx as (l & Hl & Hx).
  apply in_map_iff in Hl. destruct Hl as (e & <- & He). eapply elem_verts_lt; eauto.
Qed.

Lemma reset_flags : forall n (aflg : list (option nat)), length aflg = n ->
  forn 0 n (fun i aflg => vset aflg i None) aflg = Some (repeat None n).
Proof.
  intros n aflg Hl.
  assert (H : wp (forn 0 n (fun i aflg => vset aflg i None) aflg) (fun x => x = repeat None n)).
  { apply (wp_forn _ (fun i s => length s = n /\ forall j, j < i -> nth j s (Some 0) = None)); [lia| | |].
    - split; auto. intros; lia.
    - intros i s Hi (Hs & Hj). apply wp_vset; [lia|]. split; [lens; auto|].
      intros. rewrite nth_upd by lia. destruct (Nat.eq_dec i j); auto. apply Hj; lia.
    - intros s (Hs & Hj). apply (list_ext _ (Some 0)). rewrite repeat_length; auto.
      intros. rewrite nth_repeat' by lia. apply Hj; lia. }
  apply wp_ex in H. destruct H as (x & E & ->). auto.
Qed.

Lemma OneRing_correct : forall psup_0 elem nel nno nv elsup_ind elsup, mesh_ok elem nel nno nv ->
  jagged elsup_ind elsup (map (elsup_row elem nno nel) (seq 0 nv)) ->
  exists ind arr,
    JArrayPointSurPoint_MeshOneRingNeighborhood psup_0 elem elsup_ind elsup nno nv = Some (ind, arr) /\
    jagged ind arr (map (psup_row elem nno nel) (seq 0 nv)).
Proof.
  intros psup_0 elem nel nno nv elsup_ind elsup HM HJ.
  set (pairs := concat (map (fun p => map (pair p) (psup_row elem nno nel p)) (seq 0 nv))).
  assert (Hlt : Forall (fun p => fst p < nv) pairs) by apply rowpairs_lt.
  destruct (bucket_build nv pairs psup_0 Hlt) as (c & ind' & E1 & E2 & E3 & E4 & E5).
  assert (Hpass : forall S (g : nat * nat -> S -> option S) aflg, flags nv 0 [] aflg ->
    exists aflg', length aflg' = nv /\ forall s,
      forn 0 nv (fun ipoint s =>
      let '(aflg, s2) := s in
      aflg <- vset aflg ipoint (Some ipoint) ;;
      lo <- vget elsup_ind ipoint ;; hi <- vget elsup_ind (ipoint + 1) ;;
      forn lo hi (fun ielsup s =>
        jelem <- vget elsup ielsup ;;
        forn 0 nno (fun jnoel s =>
          let '(aflg, s2) := s in
          jnode <- vget elem (jelem * nno + jnoel) ;;
          t <- vget aflg jnode ;;
          if onat_eqb t ipoint then Some (aflg, s2) else
          aflg <- vset aflg jnode (Some ipoint) ;;
          s2 <- g (ipoint, jnode) s2 ;; Some (aflg, s2)) s) (aflg, s2)) (aflg, s)
      = bind (foldM g pairs s) (fun s' => Some (aflg', s'))).
  { intros S g aflg HF. apply rows_pass; auto.
    intros p aflg1 Hp HF1.
    destruct (visit_fold _ g nv p (psup_cand elem nno nel p) [p] (upd aflg1 p (Some p))) as (aflg2 & HF2 & E).
    { apply flags_mark; auto. } { apply psup_cand_lt; auto. }
    exists (rev (psup_cand elem nno nel p) ++ [p]), aflg2. split; auto.
    intros s. cbn beta iota. rewrite vset_upd by (destruct HF1; lia). cbn [bind].
    rewrite (jag_row_loop _ _ _ _ _ (fun jelem s => forn 0 nno (fun jnoel s =>
          let '(aflg, s2) := s in
          jnode <- vget elem (jelem * nno + jnoel) ;;
          t <- vget aflg jnode ;;
          if onat_eqb t p then Some (aflg, s2) else
          aflg <- vset aflg jnode (Some p) ;;
          s2 <- g (p, jnode) s2 ;; Some (aflg, s2)) s) _ _ HJ)
      by (rewrite map_length, seq_length; auto).
    rewrite nth_map_seq by auto. simpl Nat.add.
    unfold psup_row. rewrite <- E. unfold psup_cand. rewrite <- foldM_concat.
    apply foldM_ext. intros e s' He. apply elsup_row_In in He.
    rewrite <- (forn_slice_off _ _ (visit g p) elem (e * nno) nno)
      by (eapply elem_slice_ok; eauto; lia).
    apply forn_ext. intros i [a b] Hi. unfold visit. reflexivity. }
  exists (offsets (rows_of nv pairs)), (concat (rows_of nv pairs)). split.
  - unfold JArrayPointSurPoint_MeshOneRingNeighborhood.
    destruct (Hpass _ cnt_pair (repeat None nv) (flags_init _ _)) as (aflg1 & Hl1 & P1).
    destruct (Hpass _ put_pair (repeat None nv) (flags_init _ _)) as (aflg2 & Hl2 & P2).
    unfold cnt_pair, put_pair in P1, P2. cbn [fst snd] in P1, P2.
    rewrite P1. fold (cnt_pair). change (fun p : nat * nat => count1 (fst p)) with cnt_pair. rewrite E1. cbn [bind].
    rewrite E2. cbn [bind]. rewrite E3. cbn [bind].
    rewrite reset_flags by auto. cbn [bind]. rewrite P2.
    change (fun p : nat * nat => put1 (fst p) (snd p)) with put_pair. rewrite E4. cbn [bind].
    rewrite E5. reflexivity.
  - unfold pairs. rewrite rowpairs_rows_of. split; reflexivity.
Qed.

Lemma PSuP_correct : forall psup_0 elem nel nno nv, mesh_ok elem nel nno nv ->
  exists ind arr, JArray_PSuP_MeshElem psup_0 elem nel nno nv = Some (ind, arr) /\
    jagged ind arr (map (psup_row elem nno nel) (seq 0 nv)).
Proof.
  intros. destruct (ElSuP_correct [] elem nel nno nv H) as (i & a & E & HJ).
  unfold JArray_PSuP_MeshElem. rewrite E. cbn [bind]. apply OneRing_correct; auto.
Qed.

(* ---------- C04 ---------- *)

Definition diag_row (rows : list (list nat)) (p : nat) : list nat :=
  let r := nth p rows [] in if in_dec Nat.eq_dec p r then r else r ++ [p].

(** visiting with an assertion that the flag is not yet set *)
Definition visit_assert {S} (g : nat * nat -> S -> option S) (p x : nat) (s : list (option nat) * S)
  : option (list (option nat) * S) :=
  let '(aflg, s2) := s in
  t <- vget aflg x ;;
  assertb (negb (onat_eqb t p)) ;;;
  aflg <- vset aflg x (Some p) ;; s2 <- g (p, x) s2 ;; Some (aflg, s2).

Lemma visit_assert_fold : forall S (g : nat * nat -> S -> option S) np p l seen aflg,
  flags np p seen aflg -> Forall (fun x => x < np) l -> NoDup l -> (forall x, In x l -> ~ In x seen) ->
  exists aflg', flags np p (rev l ++ seen) aflg' /\
   forall s, foldM (visit_assert g p) l (aflg, s) =
     bind (foldM g (map (pair p) l) s) (fun s' => Some (aflg', s')).
Proof.
  induction l; simpl; intros seen aflg HF HL HN Hs0.
  - exists aflg. split; auto.
  - inversion HL; subst. inversion HN; subst.
    destruct HF as (Hl & Hs & Hq).
    assert (Eg : vget aflg a = Some (nth a aflg None)) by (apply vget_nth; lia).
    rewrite Eg. cbn [bind].
    assert (Et : onat_eqb (nth a aflg None) p = false).
    { destruct (onat_eqb (nth a aflg None) p) eqn:E; auto. apply onat_eqb_true in E. apply Hs in E; auto.
      exfalso. eapply Hs0; eauto. }
    rewrite Et. cbn [negb assertb bind]. rewrite vset_upd by lia. cbn [bind].
    destruct (IHl (a :: seen) (upd aflg a (Some p))) as (aflg' & HF' & He); auto.
    { apply flags_mark; auto. split; auto. }
    { intros x Hx [<-|Hi]; auto. eapply Hs0; eauto. }
    exists aflg'. split.
    + rewrite <- app_assoc. auto.
    + intros. simpl. destruct (g (p, a) s); simpl; auto.
Qed.

Definition rows_lt (np : nat) (rows : list (list nat)) := Forall (Forall (fun x => x < np)) rows.

Lemma rows_lt_nth : forall np rows p, rows_lt np rows -> Forall (fun x => x < np) (nth p rows []).
Proof.
  intros. destruct (le_lt_dec (length rows) p).
  - rewrite nth_overflow by auto. constructor.
  - unfold rows_lt in H. rewrite Forall_forall in H. apply H. apply nth_In. auto.
Qed.

Lemma AddDiagonal_correct : forall psup1_0 psup_ind psup rows,
  jagged psup_ind psup rows -> rows_lt (length rows) rows -> Forall (@NoDup nat) rows ->
  exists ind arr, JArray_AddDiagonal psup1_0 psup_ind psup = Some (ind, arr) /\
    jagged ind arr (map (diag_row rows) (seq 0 (length rows))).
Proof.
  intros psup1_0 psup_ind psup rows HJ HR HN.
  pose proof (jagged_len _ _ _ _ HJ) as HL.
  set (np := length rows) in *.
  set (pairs := concat (map (fun p => map (pair p) (diag_row rows p)) (seq 0 np))).
  assert (Hlt : Forall (fun p => fst p < np) pairs) by apply rowpairs_lt.
  destruct (bucket_build np pairs psup1_0 Hlt) as (c & ind' & E1 & E2 & E3 & E4 & E5).
  assert (HNr : forall p, NoDup (nth p rows [])).
  { intros. destruct (le_lt_dec (length rows) p). rewrite nth_overflow by auto. constructor.
    rewrite Forall_forall in HN. apply HN. apply nth_In. auto. }
  assert (Hpass1 : exists aflg', length aflg' = np /\ forall s,
     forn 0 np (fun ip s =>
      lo <- vget psup_ind ip ;; hi <- vget psup_ind (ip + 1) ;;
      '(tmp, ind1) <- forn lo hi (fun ipsup s =>
          let '(tmp, ind1) := s in
          jp <- vget psup ipsup ;;
          t <- vget tmp jp ;;
          assertb (negb (onat_eqb t ip)) ;;;
          tmp <- vset tmp jp (Some ip) ;;
          ind1 <- count1 ip ind1 ;; Some (tmp, ind1)) s ;;
      t <- vget tmp ip ;;
      if onat_eqb t ip then Some (tmp, ind1)
      else tmp <- vset tmp ip (Some ip) ;; ind1 <- count1 ip ind1 ;; Some (tmp, ind1)) (repeat None np, s)
      = bind (foldM cnt_pair pairs s) (fun s' => Some (aflg', s'))).
  { apply rows_pass. apply flags_init. intros p aflg Hp HF.
    destruct (visit_assert_fold _ cnt_pair np p (nth p rows []) [] aflg HF) as (aflg1 & HF1 & E); auto.
    { apply rows_lt_nth; auto. }
    rewrite app_nil_r in HF1.
    destruct (in_dec Nat.eq_dec p (nth p rows [])) as [Hin|Hni].
    - exists (rev (nth p rows [])), aflg1. split; auto. intros s.
      assert (EL : (lo <- vget psup_ind p ;; hi <- vget psup_ind (p + 1) ;; forn lo hi (fun i s => x <- vget psup i ;; visit_assert cnt_pair p x s) (aflg, s)) = bind (foldM cnt_pair (map (pair p) (nth p rows [])) s)
    (fun s' => Some (aflg1, s'))).
      { rewrite (jag_row_loop _ _ _ _ _ (visit_assert cnt_pair p) _ _ HJ) by auto. apply E. }
      rewrite <- (bind_ext _ _ (vget psup_ind p) (fun lo => bind (bind (vget psup_ind (p+1)) (fun hi => forn lo hi (fun i s => x <- vget psup i ;; visit_assert cnt_pair p x s) (aflg, s))) (fun s => let '(tmp,ind1) := s in t <- vget tmp p ;;
          if onat_eqb t p then Some (tmp, ind1)
          else tmp <- vset tmp p (Some p) ;; ind1 <- count1 p ind1 ;; Some (tmp, ind1)))).
      2:{ intros lo. rewrite bind_assoc. apply bind_ext. intros hi. f_equal.
          apply forn_ext. intros i [a b] _. reflexivity. }
      rewrite <- bind_assoc. rewrite EL.
      unfold diag_row. destruct (in_dec Nat.eq_dec p (nth p rows [])); [|tauto].
      destruct (foldM cnt_pair (map (pair p) (nth p rows [])) s); simpl; auto.
      destruct HF1 as (Hl1 & Hs1 & _).
      rewrite (vget_nth _ None) by lia. simpl.
      replace (onat_eqb (nth p aflg1 None) p) with true; auto.
      symmetry. apply onat_eqb_true. apply Hs1; auto. apply in_rev in Hin. auto.
    - exists (p :: rev (nth p rows [])), (upd aflg1 p (Some p)). split. apply flags_mark; auto.
      intros s.
      assert (EL : (lo <- vget psup_ind p ;; hi <- vget psup_ind (p + 1) ;; forn lo hi (fun i s => x <- vget psup i ;; visit_assert cnt_pair p x s) (aflg, s)) = bind (foldM cnt_pair (map (pair p) (nth p rows [])) s)
    (fun s' => Some (aflg1, s'))).
      { rewrite (jag_row_loop _ _ _ _ _ (visit_assert cnt_pair p) _ _ HJ) by auto. apply E. }
      rewrite <- (bind_ext _ _ (vget psup_ind p) (fun lo => bind (bind (vget psup_ind (p+1)) (fun hi => forn lo hi (fun i s => x <- vget psup i ;; visit_assert cnt_pair p x s) (aflg, s))) (fun s => let '(tmp,ind1) := s in t <- vget tmp p ;;
          if onat_eqb t p then Some (tmp, ind1)
          else tmp <- vset tmp p (Some p) ;; ind1 <- count1 p ind1 ;; Some (tmp, ind1)))).
      2:{ intros lo. rewrite bind_assoc. apply bind_ext. intros hi. f_equal.
          apply forn_ext. intros i [a b] _. reflexivity. }
      rewrite <- bind_assoc. rewrite EL.
      unfold diag_row. destruct (in_dec Nat.eq_dec p (nth p rows [])); [tauto|].
      rewrite map_app, foldM_app. simpl.
      destruct (foldM cnt_pair (map (pair p) (nth p rows [])) s) as [s1|]; simpl; auto.
      destruct HF1 as (Hl1 & Hs1 & _).
      rewrite (vget_nth _ None) by lia. simpl.
      replace (onat_eqb (nth p aflg1 None) p) with false.
      + rewrite vset_upd by lia. simpl. unfold cnt_pair. simpl. destruct (count1 p s1); auto.
      + symmetry. apply not_true_is_false. intro Ht. apply onat_eqb_true in Ht. apply Hs1 in Ht; auto.
        apply in_rev in Ht. tauto. }
  assert (Hpass2 : exists aflg', length aflg' = np /\ forall s,
     forn 0 np (fun ip s =>
      lo <- vget psup_ind ip ;; hi <- vget psup_ind (ip + 1) ;;
      '(tmp, s2) <- forn lo hi (fun ipsup s =>
          let '(tmp, s2) := s in
          jp <- vget psup ipsup ;;
          t <- vget tmp jp ;;
          assertb (negb (onat_eqb t ip)) ;;;
          tmp <- vset tmp jp (Some ip) ;;
          s2 <- put1 ip jp s2 ;; Some (tmp, s2)) s ;;
      t <- vget tmp ip ;;
      if onat_eqb t ip then Some (tmp, s2)
      else s2 <- put1 ip ip s2 ;; Some (tmp, s2)) (repeat None np, s)
      = bind (foldM put_pair pairs s) (fun s' => Some (aflg', s'))).
  { apply rows_pass. apply flags_init. intros p aflg Hp HF.
    destruct (visit_assert_fold _ put_pair np p (nth p rows []) [] aflg HF) as (aflg1 & HF1 & E); auto.
    { apply rows_lt_nth; auto. }
    rewrite app_nil_r in HF1.
    exists (rev (nth p rows [])), aflg1. split; auto. intros s.
    assert (EL : (lo <- vget psup_ind p ;; hi <- vget psup_ind (p + 1) ;; forn lo hi (fun i s => x <- vget psup i ;; visit_assert put_pair p x s) (aflg, s)) = bind (foldM put_pair (map (pair p) (nth p rows [])) s)
  (fun s' => Some (aflg1, s'))).
    { rewrite (jag_row_loop _ _ _ _ _ (visit_assert put_pair p) _ _ HJ) by auto. apply E. }
    rewrite <- (bind_ext _ _ (vget psup_ind p) (fun lo => bind (bind (vget psup_ind (p+1)) (fun hi => forn lo hi (fun i s => x <- vget psup i ;; visit_assert put_pair p x s) (aflg, s))) (fun s => let '(tmp,s2) := s in t <- vget tmp p ;;
        if onat_eqb t p then Some (tmp, s2)
        else s2 <- put1 p p s2 ;; Some (tmp, s2)))).
    2:{ intros lo. rewrite bind_assoc. apply bind_ext. intros hi. f_equal.
        apply forn_ext. intros i [a b] _. reflexivity. }
    rewrite <- bind_assoc. rewrite EL.
    destruct HF1 as (Hl1 & Hs1 & _).
    unfold diag_row. destruct (in_dec Nat.eq_dec p (nth p rows [])).
    - destruct (foldM put_pair (map (pair p) (nth p rows [])) s); simpl; auto.
      rewrite (vget_nth _ None) by lia. simpl.
      replace (onat_eqb (nth p aflg1 None) p) with true; auto.
      symmetry. apply onat_eqb_true. apply Hs1; auto. apply in_rev in i. auto.
    - rewrite map_app, foldM_app. simpl.
      destruct (foldM put_pair (map (pair p) (nth p rows [])) s) as [s1|]; simpl; auto.
      rewrite (vget_nth _ None) by lia. simpl.
      replace (onat_eqb (nth p aflg1 None) p) with false.
      + change (put_pair (p, p) s1) with (put1 p p s1). destruct (put1 p p s1); auto.
      + symmetry. apply not_true_is_false. intro Ht. apply onat_eqb_true in Ht. apply Hs1 in Ht; auto.
        apply in_rev in Ht. tauto. }
  destruct Hpass1 as (a1 & La1 & P1). destruct Hpass2 as (a2 & La2 & P2).
  exists (offsets (rows_of np pairs)), (concat (rows_of np pairs)). split.
  - unfold JArray_AddDiagonal. rewrite HL. cbn [assertb bind].
    replace (0 <? S np) with true by reflexivity. cbn [assertb bind].
    replace (S np - 1) with np by lia. rewrite P1, E1. cbn [bind]. rewrite E2. cbn [bind]. rewrite E3. cbn [bind].
    rewrite P2, E4. cbn [bind]. rewrite E5. reflexivity.
  - unfold pairs. rewrite rowpairs_rows_of. split; reflexivity.
Qed.

(* ---------- C05 ---------- *)

Definition extend_cand (rows : list (list nat)) (p : nat) : list nat :=
  concat (map (fun j => nth j rows []) (nth p rows [])).
Definition extend_row (rows : list (list nat)) (p : nat) : list nat :=
  emit [] (filter (fun k => negb (k =? p)) (extend_cand rows p)).

Lemma extend_row_In : forall rows p k,
  In k (extend_row rows p) <-> k <> p /\ exists j, In j (nth p rows []) /\ In k (nth j rows []).
Proof.
  intros. unfold extend_row, extend_cand. rewrite emit_In, filter_In, in_concat. split.
  - intros (((l & Hl & Hk) & Hn) & _). apply in_map_iff in Hl. destruct Hl as (j & <- & Hj).
    apply negb_true_iff, Nat.eqb_neq in Hn. split; auto. exists j; auto.
  - intros (Hn & j & Hj & Hk). split; [|intros []]. split.
    + exists (nth j rows []). split; auto. apply in_map_iff. exists j; auto.
    + apply negb_true_iff, Nat.eqb_neq. auto.
Qed.

Lemma Extend_correct : forall psup1_0 psup_ind psup rows,
  jagged psup_ind psup rows -> rows_lt (length rows) rows ->
  exists ind arr, JArray_Extend psup1_0 psup_ind psup = Some (ind, arr) /\
    jagged ind arr (map (extend_row rows) (seq 0 (length rows))).
Proof.
  intros psup1_0 psup_ind psup rows HJ HR.
  pose proof (jagged_len _ _ _ _ HJ) as HL.
  set (np := length rows) in *.
  set (pairs := concat (map (fun p => map (pair p) (extend_row rows p)) (seq 0 np))).
  assert (Hlt : Forall (fun p => fst p < np) pairs) by apply rowpairs_lt.
  destruct (bucket_build np pairs psup1_0 Hlt) as (c & ind' & E1 & E2 & E3 & E4 & E5).
  assert (Hpass : forall S (g : nat * nat -> S -> option S),
    exists aflg', length aflg' = np /\ forall s,
    forn 0 np (fun ip s =>
      lo <- vget psup_ind ip ;; hi <- vget psup_ind (ip + 1) ;;
      forn lo hi (fun ipsup s =>
        jp0 <- vget psup ipsup ;;
        lo <- vget psup_ind jp0 ;; hi <- vget psup_ind (jp0 + 1) ;;
        forn lo hi (fun jpsup s =>
          let '(aflg, s2) := s in
          kp0 <- vget psup jpsup ;;
          t <- vget aflg kp0 ;;
          if (onat_eqb t ip || (kp0 =? ip))%bool then Some (aflg, s2) else
          s2 <- g (ip, kp0) s2 ;;
          aflg <- vset aflg kp0 (Some ip) ;; Some (aflg, s2)) s) s) (repeat None np, s)
     = bind (foldM g pairs s) (fun s' => Some (aflg', s'))).
  { intros S g. apply rows_pass. apply flags_init. intros p aflg Hp HF.
    assert (Hcl : Forall (fun x => x < np) (extend_cand rows p)).
    { apply Forall_forall. intros x Hx. apply in_concat in Hx. destruct Hx as (l & Hl & Hx).
      apply in_map_iff in Hl. destruct Hl as (j & <- & Hj).
      pose proof (rows_lt_nth _ _ j HR) as Hf. rewrite Forall_forall in Hf. auto. }
    destruct (visit_fold _ g np p (filter (fun k => negb (k =? p)) (extend_cand rows p)) [] aflg HF) as (aflg1 & HF1 & E).
    { apply Forall_forall. intros x Hx. apply filter_In in Hx. rewrite Forall_forall in Hcl. apply Hcl. tauto. }
    rewrite app_nil_r in HF1.
    eexists. exists aflg1. split; [exact HF1|]. intros s.
    rewrite (jag_row_loop _ _ _ _ _ (fun jp0 s => lo <- vget psup_ind jp0 ;; hi <- vget psup_ind (jp0 + 1) ;;
        forn lo hi (fun jpsup s =>
          let '(aflg, s2) := s in
          kp0 <- vget psup jpsup ;;
          t <- vget aflg kp0 ;;
          if (onat_eqb t p || (kp0 =? p))%bool then Some (aflg, s2) else
          s2 <- g (p, kp0) s2 ;;
          aflg <- vset aflg kp0 (Some p) ;; Some (aflg, s2)) s) _ _ HJ) by auto.
    unfold extend_row. rewrite <- E. rewrite <- foldM_filter.
    unfold extend_cand. rewrite <- foldM_concat.
    (* prove equality while maintaining flag length *)
    assert (HB : forall l f1, length f1 = np -> Forall (fun j => j < np) l -> forall s,
      foldM (fun jp0 s => lo <- vget psup_ind jp0 ;; hi <- vget psup_ind (jp0 + 1) ;;
        forn lo hi (fun jpsup s =>
          let '(aflg, s2) := s in
          kp0 <- vget psup jpsup ;;
          t <- vget aflg kp0 ;;
          if (onat_eqb t p || (kp0 =? p))%bool then Some (aflg, s2) else
          s2 <- g (p, kp0) s2 ;;
          aflg <- vset aflg kp0 (Some p) ;; Some (aflg, s2)) s) l (f1, s) =
      foldM (fun x s => foldM (fun x s => if x =? p then Some s else visit g p x s) (nth x rows []) s) l (f1, s)).
    { assert (HI : forall l f1, length f1 = np -> Forall (fun j => j < np) l -> forall s,
         foldM (fun kp0 s => let '(aflg, s2) := s in
          t <- vget aflg kp0 ;;
          if (onat_eqb t p || (kp0 =? p))%bool then Some (aflg, s2) else
          s2 <- g (p, kp0) s2 ;;
          aflg <- vset aflg kp0 (Some p) ;; Some (aflg, s2)) l (f1, s) =
         foldM (fun x s => if x =? p then Some s else visit g p x s) l (f1, s) /\
         (forall f2 s2, foldM (fun x s => if x =? p then Some s else visit g p x s) l (f1, s) = Some (f2, s2) -> length f2 = np)).
      { induction l as [|k l IH]; intros f1 H1 HFl s1; simpl.
        - split; auto. intros f2 s2 EE; inversion EE; subst; auto.
        - inversion HFl; subst.
          rewrite (vget_nth _ None) by lia. simpl.
          destruct (k =? p) eqn:Ek.
          + rewrite orb_true_r. simpl. apply IH; auto.
          + rewrite orb_false_r. destruct (onat_eqb (nth k f1 None) p).
            * simpl. apply IH; auto.
            * rewrite !vset_upd by lia. simpl. destruct (g (p, k) s1); simpl.
              -- apply IH; auto. rewrite upd_length; auto.
              -- split; auto. discriminate. }
      induction l as [|j l IH]; intros f1 H1 HFl s1; simpl; auto.
      inversion HFl; subst.
      rewrite <- (bind_ext _ _ (vget psup_ind j) (fun lo => bind (vget psup_ind (j+1)) (fun hi => forn lo hi (fun i s => x <- vget psup i ;; (fun kp0 s => let '(aflg, s2) := s in
          t <- vget aflg kp0 ;;
          if (onat_eqb t p || (kp0 =? p))%bool then Some (aflg, s2) else
          s2 <- g (p, kp0) s2 ;;
          aflg <- vset aflg kp0 (Some p) ;; Some (aflg, s2)) x s) (f1, s1)))).
      2:{ intros lo. apply bind_ext. intros hi. apply forn_ext. intros i [a b] _. reflexivity. }
      rewrite (jag_row_loop _ _ _ _ _ (fun kp0 s => let '(aflg, s2) := s in
          t <- vget aflg kp0 ;;
          if (onat_eqb t p || (kp0 =? p))%bool then Some (aflg, s2) else
          s2 <- g (p, kp0) s2 ;;
          aflg <- vset aflg kp0 (Some p) ;; Some (aflg, s2)) _ _ HJ) by auto.
      destruct (HI (nth j rows []) f1 H1 (rows_lt_nth _ _ _ HR) s1) as (EI & EI2).
      rewrite EI.
      destruct (foldM (fun x s => if x =? p then Some s else visit g p x s) (nth j rows []) (f1, s1)) as [[f2 s2]|] eqn:E6; simpl; auto.
      apply IH; auto. eapply EI2; eauto. }
    apply HB. destruct HF; auto. apply rows_lt_nth; auto. }
  destruct (Hpass _ cnt_pair) as (a1 & La1 & P1). destruct (Hpass _ put_pair) as (a2 & La2 & P2).
  exists (offsets (rows_of np pairs)), (concat (rows_of np pairs)). split.
  - unfold JArray_Extend. rewrite HL. replace (S np - 1) with np by lia.
    unfold cnt_pair in P1 at 1. unfold put_pair in P2 at 1. cbn [fst snd] in P1, P2.
    rewrite P1, E1. cbn [bind]. rewrite E2. cbn [bind]. rewrite E3. cbn [bind].
    rewrite P2, E4. cbn [bind]. rewrite E5. reflexivity.
  - unfold pairs. rewrite rowpairs_rows_of. split; reflexivity.
Qed.
