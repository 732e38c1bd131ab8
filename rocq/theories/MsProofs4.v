(** The pattern extended for masters and slaves. *)
From Coq Require Import List Arith Bool Lia.
Import ListNotations.
From Verif Require Import Imp Alg JagModel JagSpec JagProofs JagProofs2 JagProofs3 SpModel MsModel MsSpec.

Section P.
Variables (n nno : nat) (ms : list (option nat)).
Hypothesis MS : ms_ok nno n ms.

Lemma node_facts : forall t a m, a < n -> nth (t * n + a) ms None = Some m -> m / n < nno /\ m = a + m / n * n /\ t < nno.
Proof.
  intros t a m Ha E. destruct MS as (L & H). destruct (H _ _ E) as (H1 & H2 & _).
  rewrite (Nat.add_comm _ a), Nat.mod_add, (Nat.mod_small a) in H2 by lia.
  pose proof (Nat.div_mod m n ltac:(lia)). repeat split.
  - apply Nat.div_lt_upper_bound; lia.
  - lia.
  - destruct (lt_dec (t * n + a) (length ms)); [nia|]. rewrite nth_overflow in E by lia. discriminate.
Qed.

Lemma mapM2S_ok : wp (mapM2S ms nno n) (fun m2s => length m2s = nno /\
  forall i s, i < nno -> In s (nth i m2s []) <-> node_slave n ms s i).
Proof.
  unfold mapM2S.
  apply (wp_forn _ (fun h m => length m = nno /\ forall i s, i < nno -> In s (nth i m []) <-> s < h /\ node_slave n ms s i)); [lia| | |].
  - split; [apply repeat_length|]. intros i s Hi. rewrite nth_repeat' by auto. cbn [In]. lia.
  - intros h m Hh (L & H).
    apply (wp_forn _ (fun k m => length m = nno /\ forall i s, i < nno -> In s (nth i m []) <->
       (s < h /\ node_slave n ms s i) \/ (s = h /\ exists a d, a < k /\ nth (h * n + a) ms None = Some d /\ d / n = i))); [lia| | |].
    + split; auto. intros i s Hi. rewrite H by auto. split; [auto|]. intros [X|(_ & a & d & X & _)]; [auto|lia].
    + intros k m1 Hk (L1 & H1). rewrite (vget_nth _ None) by (destruct MS; nia). cbn [bind].
      destruct (nth (h * n + k) ms None) as [d0|] eqn:E.
      * destruct (node_facts h k d0 ltac:(lia) E) as (F1 & F2 & _). cbv zeta.
        apply wp_bind, wp_assertb; [apply andb_true_iff; split; apply Nat.ltb_lt; lia|].
        apply wp_bind, wp_assertb; [apply Nat.eqb_eq; lia|].
        apply (wp_vmod _ []); [lia|]. split; [lens; auto|]. intros i s Hi. rewrite nth_upd by lia.
        destruct (Nat.eq_dec (d0 / n) i) as [Ei|Ni].
        -- rewrite in_app_iff, Ei, H1 by auto. cbn [In]. split.
           ++ intros [[X|(-> & a & d & Ha & X)]|[<-|[]]]; [auto|right; split; auto; exists a, d; split; [lia|auto]|].
              right. split; auto. exists k, d0. split; [lia|auto].
           ++ intros [X|(-> & a & d & Ha & X)]; auto.
        -- rewrite H1 by auto. split.
           ++ intros [X|(-> & a & d & Ha & X)]; [auto|right; split; auto; exists a, d; split; [lia|auto]].
           ++ intros [X|(-> & a & d & Ha & X1 & X2)]; [auto|]. right. split; auto. exists a, d. repeat split; auto.
              destruct (Nat.eq_dec a k) as [->|]; [|lia]. congruence.
      * apply wp_some. split; auto. intros i s Hi. rewrite H1 by auto. split.
        -- intros [X|(-> & a & d & Ha & X)]; [auto|right; split; auto; exists a, d; split; [lia|auto]].
        -- intros [X|(-> & a & d & Ha & X1 & X2)]; [auto|]. right. split; auto. exists a, d. repeat split; auto.
           destruct (Nat.eq_dec a k) as [->|]; [|lia]. congruence.
    + intros m1 (L1 & H1). split; auto. intros i s Hi. rewrite H1 by auto. split.
      * intros [(X1 & X2)|(-> & a & d & Ha & X)]; [split; auto|split; [lia|exists a, d; auto]].
      * intros (X1 & X2). destruct (Nat.eq_dec s h) as [->|]; [|left; split; [lia|auto]].
        right. split; auto.
  - intros m (L & H). split; auto. intros i s Hi. rewrite H by auto. split; [tauto|]. intros X. split; auto.
    destruct X as (a & d & Ha & E & _). apply (node_facts s a d); auto.
Qed.

Lemma mark_visit : forall S (g : nat * nat -> S -> option S) p x st, mark g p x st = visit g p x st.
Proof. intros S g p x (aflg, s). unfold mark, visit. destruct (vget aflg x) as [[k|]|]; reflexivity. Qed.

Variables (psup_ind psup : list nat) (rows : list (list nat)).
Hypothesis HJ : jagged psup_ind psup rows.
Hypothesis HL : length rows = nno.
Hypothesis HR : forall p j, In j (nth p rows []) -> j < nno.

Definition masters (j : nat) : list nat :=
  concat (map (fun a => match nth (j * n + a) ms None with Some m => [m / n] | None => [] end) (seq 0 n)).
Lemma masters_In : forall j i, In i (masters j) <-> node_slave n ms j i.
Proof.
  intros j i. unfold masters. rewrite in_concat. split.
  - intros (l & Hl & Hi). apply in_map_iff in Hl. destruct Hl as (a & <- & Ha). apply in_seq in Ha.
    destruct (nth (j * n + a) ms None) as [m|] eqn:E; [|destruct Hi]. destruct Hi as [<-|[]]. exists a, m. repeat split; auto; lia.
  - intros (a & m & Ha & E & <-). exists [m / n]. split; [|cbn; auto]. apply in_map_iff. exists a. rewrite E. split; auto. apply in_seq. lia.
Qed.
Definition cand (m2s : list (list nat)) (p : nat) : list nat :=
  nth p rows [] ++ concat (map (fun s => s :: nth s rows []) (nth p m2s [])) ++ concat (map masters (nth p rows [])).

Lemma forn_list : forall A S (g : A -> S -> option S) (l : list A) s,
  forn 0 (length l) (fun i s => x <- vget l i ;; g x s) s = foldM g l s.
Proof.
  intros A S g l s. pose proof (forn_slice_off A S g l 0 (length l) s ltac:(lia)) as H. cbn [skipn Nat.add] in H.
  rewrite firstn_all in H. exact H.
Qed.

Lemma row_eq : forall S (g : nat * nat -> S -> option S) m2s p aflg s, length m2s = nno ->
  (forall i s, i < nno -> In s (nth i m2s []) <-> node_slave n ms s i) -> p < nno -> length aflg = nno ->
  ms_row g ms n psup_ind psup m2s p (aflg, s) = foldM (visit g p) (cand m2s p) (upd aflg p (Some p), s).
Proof.
  intros S g m2s p aflg s Lm Hm Hp La. unfold ms_row. rewrite vset_upd by lia. cbn [bind].
  rewrite (jag_row_loop _ _ _ _ _ (fun jno st => mark g p jno st) _ _ HJ) by lia.
  unfold cand. rewrite foldM_app.
  rewrite (foldM_ext _ _ (fun jno st => mark g p jno st) (visit g p)) by (intros; apply mark_visit).
  destruct (foldM (visit g p) (nth p rows []) (upd aflg p (Some p), s)) as [st1|]; cbn [bind]; auto.
  rewrite (vget_nth _ []) by lia. cbn [bind].
  rewrite (forn_list _ _ (fun ino1 st => st <- mark g p ino1 st ;;
    (lo <- vget psup_ind ino1 ;; hi <- vget psup_ind (ino1 + 1) ;;
    forn lo hi (fun jcrs st => jno1 <- vget psup jcrs ;; mark g p jno1 st) st))).
  rewrite foldM_app.
  rewrite (foldM_ext _ _ _ (fun s st => foldM (visit g p) (s :: nth s rows []) st)).
  2:{ intros x st Hx. apply Hm in Hx; auto. assert (Hxn : x < nno) by (destruct Hx as (a & d & Ha & E & _); apply (node_facts x a d); auto).
      cbn [foldM]. rewrite mark_visit. destruct (visit g p x st) as [st2|]; cbn [bind]; auto.
      rewrite (jag_row_loop _ _ _ _ _ (fun jno st => mark g p jno st) _ _ HJ) by lia.
      apply foldM_ext. intros; apply mark_visit. }
  rewrite foldM_concat.
  destruct (foldM (visit g p) (concat (map (fun s => s :: nth s rows []) (nth p m2s []))) st1) as [st2|]; cbn [bind]; auto.
  rewrite (jag_row_loop _ _ _ _ _ (fun jno st => forn 0 n (fun jdim st =>
      f <- vget ms (jno * n + jdim) ;;
      match f with None => Some st | Some kdof => mark g p (kdof / n) st end) st) _ _ HJ) by lia.
  rewrite <- foldM_concat. apply foldM_ext. intros j st Hj. apply HR in Hj.
  rewrite forn_foldM, Nat.sub_0_r. unfold masters. rewrite <- foldM_concat. apply foldM_ext. intros a st' Ha. apply in_seq in Ha.
  rewrite (vget_nth _ None) by (destruct MS; nia). cbn [bind].
  destruct (nth (j * n + a) ms None) as [m|]; cbn [foldM]; auto. rewrite mark_visit. destruct (visit g p (m / n) st'); reflexivity.
Qed.

Lemma Pattern_ok : exists ind arr rows',
  JArray_AddMasterSlavePattern ms n psup_ind psup = Some (ind, arr) /\ jagged ind arr rows' /\ length rows' = nno /\
  forall p, p < nno -> NoDup (nth p rows' []) /\ forall j, In j (nth p rows' []) <->
     j <> p /\ (In j (nth p rows []) \/ node_slave n ms j p \/ (exists s, node_slave n ms s p /\ In j (nth s rows [])) \/
                (exists t, In t (nth p rows []) /\ node_slave n ms t j)).
Proof.
  pose proof mapM2S_ok as HM. apply wp_ex in HM. destruct HM as (m2s & EM & Lm & Hm).
  set (f := fun p => emit [p] (cand m2s p)).
  set (pairs := concat (map (fun p => map (pair p) (f p)) (seq 0 nno))).
  assert (Hlt : Forall (fun p => fst p < nno) pairs) by apply rowpairs_lt.
  assert (Hc : forall p, p < nno -> Forall (fun x => x < nno) (cand m2s p)).
  { intros p Hp. apply Forall_forall. intros x Hx. unfold cand in Hx. rewrite !in_app_iff in Hx. destruct Hx as [Hx|[Hx|Hx]].
    - eapply HR; eauto.
    - apply in_concat in Hx. destruct Hx as (l & Hl & Hx). apply in_map_iff in Hl. destruct Hl as (s & <- & Hs). destruct Hx as [<-|Hx]; [|eapply HR; eauto].
      apply Hm in Hs; auto. destruct Hs as (a & d & Ha & E & _). apply (node_facts s a d); auto.
    - apply in_concat in Hx. destruct Hx as (l & Hl & Hx). apply in_map_iff in Hl. destruct Hl as (s & <- & Hs).
      apply masters_In in Hx. destruct Hx as (a & d & Ha & E & <-). apply (node_facts s a d); auto. }
  destruct (bucket_build nno pairs [] Hlt) as (c & ind' & E1 & E2 & E3 & E4 & E5).
  assert (Hpass : forall S (g : nat * nat -> S -> option S) aflg, flags nno 0 [] aflg ->
    exists aflg', length aflg' = nno /\ forall s,
      forn 0 nno (ms_row g ms n psup_ind psup m2s) (aflg, s) = bind (foldM g pairs s) (fun s' => Some (aflg', s'))).
  { intros S g aflg HF. apply rows_pass; auto. intros p aflg1 Hp HF1.
    destruct (visit_fold _ g nno p (cand m2s p) [p] (upd aflg1 p (Some p))) as (aflg2 & HF2 & E).
    { apply flags_mark; auto. } { auto. }
    exists (rev (cand m2s p) ++ [p]), aflg2. split; auto. intros s. rewrite row_eq; auto. destruct HF1; auto. }
  exists (offsets (rows_of nno pairs)), (concat (rows_of nno pairs)), (map f (seq 0 nno)). split; [|split; [|split]].
  - unfold JArray_AddMasterSlavePattern. rewrite (jagged_len _ _ _ _ HJ), HL. cbn [Nat.ltb Nat.leb assertb bind]. cbv zeta.
    replace (Datatypes.S nno - 1) with nno by lia. rewrite EM. cbn [bind].
    destruct (Hpass _ cnt_pair (repeat None nno) (flags_init _ _)) as (aflg1 & Hl1 & P1).
    destruct (Hpass _ put_pair (repeat None nno) (flags_init _ _)) as (aflg2 & Hl2 & P2).
    change (fun p : nat * nat => count1 (fst p)) with cnt_pair. change (fun p : nat * nat => put1 (fst p) (snd p)) with put_pair.
    rewrite P1, E1. cbn [bind].
    rewrite E2. cbn [bind]. rewrite E3. cbn [bind].
    rewrite reset_flags by auto. cbn [bind]. rewrite P2, E4. cbn [bind]. rewrite E5. reflexivity.
  - unfold pairs. rewrite rowpairs_rows_of. split; reflexivity.
  - rewrite map_length, seq_length. auto.
  - intros p Hp. rewrite nth_map_seq by auto. cbn [Nat.add]. unfold f. split; [apply emit_NoDup|].
    intros j. rewrite emit_In. cbn [In]. unfold cand. rewrite !in_app_iff, !in_concat. split.
    + intros (X & Y). split; [intros ->; tauto|]. destruct X as [X|[X|X]]; [auto| |].
      * destruct X as (l & Hl & Hx). apply in_map_iff in Hl. destruct Hl as (s & <- & Hs). apply Hm in Hs; auto.
        destruct Hx as [<-|Hx]; [auto|]. right. right. left. exists s. auto.
      * destruct X as (l & Hl & Hx). apply in_map_iff in Hl. destruct Hl as (t & <- & Ht). apply masters_In in Hx.
        right. right. right. exists t. auto.
    + intros (Hn & X). split; [|intros [E|[]]; auto]. destruct X as [X|[X|[(s & X1 & X2)|(t & X1 & X2)]]]; [auto| | |].
      * right. left. exists (j :: nth j rows []). split; [|cbn; auto]. apply in_map_iff. exists j. split; auto. apply Hm; auto.
      * right. left. exists (s :: nth s rows []). split; [|cbn; auto]. apply in_map_iff. exists s. split; auto. apply Hm; auto.
      * right. right. exists (masters t). split; [|apply masters_In; auto]. apply in_map_iff. exists t. auto.
Qed.
End P.
