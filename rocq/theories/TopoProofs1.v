From Coq Require Import List Arith Lia Bool.
Import ListNotations.
From Verif Require Import Imp JagModel JagSpec JagProofs JagProofs2 JagProofs3 TopoModel TopoSpec.

Lemma jag_access : forall A (d : A) ind (arr : list A) rows k, jagged ind arr rows -> k < length rows ->
  exists lo hi, vget ind k = Some lo /\ vget ind (k + 1) = Some hi /\ lo <= hi /\ hi <= length arr /\
    hi - lo = length (nth k rows []) /\
    forall i, lo <= i < hi -> vget arr i = Some (nth (i - lo) (nth k rows []) d).
Proof.
  intros A d ind arr rows k (Ea & Ei) Hk. change (ind = offsets rows) in Ei. subst.
  exists (offs rows k), (offs rows (k + 1)).
  rewrite !(vget_nth _ 0) by (rewrite offsets_length; lia).
  rewrite !offsets_nth by lia. replace (k + 1) with (S k) by lia.
  pose proof (offs_S _ rows k Hk). pose proof (offs_le_total _ rows (S k)).
  repeat split; try lia.
  intros i Hi. rewrite (vget_nth _ d) by lia.
  f_equal. rewrite <- (concat_nth _ d) by lia. f_equal. lia.
Qed.

Lemma skipn_cons : forall A (d : A) l i, i < length l -> skipn i l = nth i l d :: skipn (S i) l.
Proof.
  induction l; intros i Hi; simpl in Hi; [lia|]. destruct i; auto.
  change (skipn i l = nth i l d :: skipn (S i) l). apply IHl. lia.
Qed.

Section ElSuEl.
Variables (elem : list nat) (nel nno nv nf nn : nat) (face : list (list nat)).
Hypothesis HM : mesh_ok elem nel nno nv.
Hypothesis Hnn : 0 < nn.
Hypothesis Hnf : length face = nf.
Hypothesis Hface : Forall (fun fc => length fc = nn /\ Forall (fun k => k < nno) fc) face.
Hypothesis HND : faces_nodup elem nel nno face.

Let fv := face_verts elem nno face.

Lemma face_nth : forall f, f < nf -> length (nth f face []) = nn /\ forall i, i < nn -> nth i (nth f face []) 0 < nno.
Proof.
  intros f Hf. rewrite Forall_forall in Hface. destruct (Hface (nth f face [])) as (Hl & Hk). apply nth_In; lia.
  split; auto. intros. rewrite Forall_forall in Hk. apply Hk. apply nth_In. lia.
Qed.

Lemma fv_length : forall e f, f < nf -> length (fv e f) = nn.
Proof. intros. unfold fv, face_verts. rewrite map_length. apply face_nth; auto. Qed.

Lemma fv_nth : forall e f i, f < nf -> i < nn -> nth i (fv e f) 0 = nth (e * nno + nth i (nth f face []) 0) elem 0.
Proof.
  intros. unfold fv, face_verts.
  etransitivity; [apply nth_indep | apply (map_nth (fun k => nth (e * nno + k) elem 0) _ 0)].
  rewrite map_length. destruct (face_nth f); auto; lia.
Qed.

Lemma corner_lt : forall e k, e < nel -> k < nno -> e * nno + k < length elem.
Proof. intros. destruct HM as (-> & _). nia. Qed.

Lemma elem_lt : forall i, i < length elem -> nth i elem 0 < nv.
Proof. intros. destruct HM as (_ & H0). rewrite Forall_forall in H0. apply H0. apply nth_In. auto. Qed.

Lemma fv_lt : forall e f v, e < nel -> f < nf -> In v (fv e f) -> v < nv.
Proof.
  intros e f v He Hf Hv. apply (In_nth _ _ 0) in Hv. destruct Hv as (i & Hi & <-).
  rewrite fv_length in Hi by auto. rewrite fv_nth by auto. apply elem_lt. apply corner_lt; auto. apply face_nth; auto.
Qed.

Lemma fv_in_elem : forall e f v, e < nel -> f < nf -> In v (fv e f) -> In v (elem_verts elem nno e).
Proof.
  intros e f v He Hf Hv. apply (In_nth _ _ 0) in Hv. destruct Hv as (i & Hi & <-).
  rewrite fv_length in Hi by auto. rewrite fv_nth by auto.
  destruct (face_nth f Hf) as (_ & Hk). specialize (Hk i Hi).
  rewrite <- nth_skipn'. unfold elem_verts.
  set (k := nth i (nth f face []) 0) in *.
  pose proof (corner_lt e k He Hk).
  rewrite <- (firstn_skipn nno (skipn (e * nno) elem)) at 1.
  assert (nno <= length (skipn (e * nno) elem)).
  { rewrite skipn_length. destruct HM as (-> & _). nia. }
  rewrite app_nth1 by (rewrite firstn_length; lia). apply nth_In. rewrite firstn_length. lia.
Qed.

(** flags mark exactly the vertices in F *)
Definition flg_is (F : list nat) (flg : list bool) :=
  length flg = nv /\ forall v, v < nv -> nth v flg false = true <-> In v F.

Lemma face_flagged_ok : forall F flg j g, flg_is F flg -> j < nel -> g < nf ->
  exists b, face_flagged elem nno nn face flg j g = Some b /\ (b = true <-> incl (fv j g) F).
Proof.
  intros F flg j g (Hl & Hf) Hj Hg.
  assert (wp (face_flagged elem nno nn face flg j g) (fun b => b = true <-> incl (fv j g) F)).
  { unfold face_flagged.
    apply (wp_forb _ (fun i b => b = true /\ forall k, k < i -> In (nth k (fv j g) 0) F)); [lia| | |].
    - split; auto. intros; lia.
    - intros i b Hi (Hb & Hk).
      destruct (face_nth g Hg) as (Hgl & Hgk).
      apply wp_bind. apply (wp_vget _ []); [lia|].
      apply wp_bind. apply (wp_vget _ 0); [lia|].
      apply wp_bind. apply (wp_vget _ 0). { apply corner_lt; auto. apply Hgk; lia. }
      rewrite <- fv_nth by (auto; lia).
      assert (Hin : In (nth i (fv j g) 0) (fv j g)) by (apply nth_In; rewrite fv_length; auto; lia).
      assert (nth i (fv j g) 0 < nv) by (eapply fv_lt; eauto).
      apply wp_bind. apply (wp_vget _ false); [lia|].
      destruct (nth (nth i (fv j g) 0) flg false) eqn:E; simpl.
      + split; auto. intros k Hki. destruct (Nat.eq_dec k i). subst k. apply Hf; auto. apply Hk; lia.
      + split; [discriminate|]. intros Hincl. apply Hincl in Hin. apply Hf in Hin; auto. congruence.
    - intros b (Hb & Hk). subst b. split; auto. intros _ v Hv.
      apply (In_nth _ _ 0) in Hv. destruct Hv as (i & Hi & <-). apply Hk. rewrite fv_length in Hi; auto. }
  apply wp_ex in H. auto.
Qed.

Definition entry_ok (e f : nat) (r : option nat) : Prop :=
  match r with
  | Some j => j < nel /\ j <> e /\ exists g, g < nf /\ same_face elem nno face e f j g
  | None => forall j g, j < nel -> g < nf -> j <> e -> ~ same_face elem nno face e f j g
  end.

Lemma incl_same : forall e f j g, e < nel -> f < nf -> j < nel -> g < nf ->
  incl (fv j g) (fv e f) -> same_face elem nno face e f j g.
Proof.
  intros. intros v. split; intros Hv.
  - assert (Hi : incl (fv e f) (fv j g)).
    { apply NoDup_length_incl; auto. apply HND; auto; lia. rewrite !fv_length; auto. }
    apply Hi. auto.
  - apply H3. auto.
Qed.

Definition jmatch (F : list nat) (j : nat) : Prop := exists g, g < nf /\ incl (fv j g) F.

Lemma inner_faces_ok : forall F flg e f j elsuel b0, flg_is F flg -> j < nel -> b0 = false ->
  e * nf + f < length elsuel ->
  wp (forb 0 nf (fun jfael s =>
              let '(elsuel, _) := s in
              iflg <- face_flagged elem nno nn face flg j jfael ;;
              if iflg : bool then
                elsuel <- vset elsuel (e * nf + f) (Some j) ;;
                Some ((elsuel, iflg), true)
              else Some ((elsuel, iflg), false)) (elsuel, b0))
     (fun s => (snd s = true /\ jmatch F j /\ fst s = upd elsuel (e * nf + f) (Some j)) \/
               (snd s = false /\ ~ jmatch F j /\ fst s = elsuel)).
Proof.
  intros F flg e f j elsuel b0 HF Hj Hb0 Hlen.
  apply (wp_forb _ (fun i s => s = (elsuel, false) /\ forall g, g < i -> ~ incl (fv j g) F)); [lia| | |].
  - subst b0. split; auto. intros; lia.
  - intros i s Hi (-> & Hg).
    destruct (face_flagged_ok F flg j i HF Hj) as (b & E & Hb); [lia|].
    rewrite E. cbn [bind]. destruct b.
    + rewrite vset_upd by auto. simpl. left. split; auto. split; auto. exists i. split; [lia|]. apply Hb; auto.
    + simpl. split; auto. intros g Hgi. destruct (Nat.eq_dec g i). subst g. intros Hc. apply Hb in Hc. discriminate.
      apply Hg. lia.
  - intros s (-> & Hg). right. simpl. split; auto. split; auto. intros (g & Hgl & Hi). eapply Hg; eauto.
Qed.

Lemma search_ok : forall F flg e f elsup_ind elsup v0 elsuel,
  flg_is F flg -> e * nf + f < length elsuel ->
  jagged elsup_ind elsup (map (elsup_row elem nno nel) (seq 0 nv)) -> v0 < nv ->
  wp (lo <- vget elsup_ind v0 ;; hi <- vget elsup_ind (v0 + 1) ;;
      forb lo hi (fun ielsup s =>
          let '(elsuel, iflg) := s in
          jelem0 <- vget elsup ielsup ;;
          if jelem0 =? e then Some ((elsuel, iflg), false) else
          '(elsuel, iflg) <- forb 0 nf (fun jfael s =>
              let '(elsuel, _) := s in
              iflg <- face_flagged elem nno nn face flg jelem0 jfael ;;
              if iflg : bool then
                elsuel <- vset elsuel (e * nf + f) (Some jelem0) ;;
                Some ((elsuel, iflg), true)
              else Some ((elsuel, iflg), false)) (elsuel, iflg) ;;
          Some ((elsuel, iflg), iflg)) (elsuel, false))
     (fun s => (snd s = true /\ exists j, j < nel /\ j <> e /\ jmatch F j /\ fst s = upd elsuel (e * nf + f) (Some j)) \/
               (snd s = false /\ fst s = elsuel /\
                forall j, j < nel -> In v0 (elem_verts elem nno j) -> j <> e -> ~ jmatch F j)).
Proof.
  intros F flg e f elsup_ind elsup v0 elsuel HF Hlen HJ Hv0.
  destruct (jag_access _ 0 _ _ _ v0 HJ) as (lo & hi & E1 & E2 & Hle & Hhi & Hrow & Hacc).
  { rewrite map_length, seq_length. auto. }
  rewrite E1, E2. cbn [bind]. rewrite nth_map_seq in Hrow by auto. simpl Nat.add in Hrow.
  assert (Hacc' : forall i, lo <= i < hi -> vget elsup i = Some (nth (i - lo) (elsup_row elem nno nel v0) 0)).
  { intros. rewrite Hacc by auto. rewrite nth_map_seq by auto. auto. }
  clear Hacc.
  set (row := elsup_row elem nno nel v0) in *.
  apply (wp_forb _ (fun i s => s = (elsuel, false) /\
      forall k, k < i - lo -> nth k row 0 <> e -> ~ jmatch F (nth k row 0))); [lia| | |].
  - split; auto. intros; lia.
  - intros i s Hi (-> & Hk).
    rewrite Hacc' by auto. cbn [bind].
    set (j := nth (i - lo) row 0) in *.
    assert (Hj : j < nel).
    { assert (In j row) by (apply nth_In; lia). apply elsup_row_In in H. tauto. }
    destruct (Nat.eqb_spec j e).
    + apply wp_some. cbn [fst snd]. split; auto. intros k Hki Hne. destruct (Nat.eq_dec k (i - lo)). subst k. fold j in Hne. tauto.
      apply Hk; auto. lia.
    + apply wp_bind. eapply wp_mono. apply (inner_faces_ok F flg e f j elsuel false HF Hj eq_refl Hlen).
      intros [el b]. cbn [fst snd]. intros [(-> & Hm & ->)|(-> & Hm & ->)]; apply wp_some; cbn [fst snd].
      * left. split; auto. exists j. auto.
      * split; auto. intros k Hki Hne. destruct (Nat.eq_dec k (i - lo)). subst k. auto. apply Hk; auto. lia.
  - intros s (-> & Hk). right. simpl. split; auto. split; auto.
    intros j Hj Hin Hne. assert (Hr : In j row) by (apply elsup_row_In; auto).
    apply (In_nth _ _ 0) in Hr. destruct Hr as (k & Hkl & <-). apply Hk; auto. lia.
Qed.

Lemma ElSuEl_core_ok : forall elsup_ind elsup,
  jagged elsup_ind elsup (map (elsup_row elem nno nel) (seq 0 nv)) ->
  wp (ElSuEl_core elem nel nno elsup_ind elsup nf nn face)
     (fun adj => length adj = nel * nf /\ forall e f, e < nel -> f < nf -> entry_ok e f (nth (e * nf + f) adj None)).
Proof.
  intros elsup_ind elsup HJ. pose proof (jagged_len _ _ _ _ HJ) as HL. rewrite map_length, seq_length in HL.
  unfold ElSuEl_core. apply wp_bind. apply wp_assertb. apply Nat.ltb_lt; lia.
  rewrite HL. replace (S nv - 1) with nv by lia.
  apply wp_bind.
  apply (wp_forn _ (fun iel s => let '(adj, flg, inp) := s in
     length adj = nel * nf /\ flg_is [] flg /\ length inp = nn /\
     forall e f, e < iel -> f < nf -> entry_ok e f (nth (e * nf + f) adj None))); [lia| | |].
  - split. apply repeat_length. split. split. apply repeat_length. intros. rewrite nth_repeat' by auto. simpl. split; [discriminate|tauto].
    split. apply repeat_length. intros; lia.
  - intros e [[adj flg] inp] He (Ha & Hf & Hi & Hent).
    apply (wp_forn _ (fun ifa s => let '(adj, flg, inp) := s in
     length adj = nel * nf /\ flg_is [] flg /\ length inp = nn /\
     (forall e' f, e' < e -> f < nf -> entry_ok e' f (nth (e' * nf + f) adj None)) /\
     (forall f, f < ifa -> entry_ok e f (nth (e * nf + f) adj None)))); [lia| | |].
    + repeat split; auto; try apply Hf; auto. intros; lia.
    + clear adj flg inp Ha Hf Hi Hent.
      intros f [[adj flg] inp] Hfi (Ha & Hf & Hi & Hent & Hent2).
      destruct (face_nth f) as (Hfl & Hfk); [lia|].
      assert (Hidx : e * nf + f < length adj) by (rewrite Ha; nia).
      (* flagging *)
      apply wp_bind.
      apply (wp_forn _ (fun i s => let '(flg, inp) := s in length inp = nn /\
         (forall k, k < i -> nth k inp 0 = nth k (fv e f) 0) /\
         length flg = nv /\ forall v, v < nv -> nth v flg false = true <-> In v (firstn i (fv e f)))); [lia| | |].
      * split; auto. split. intros; lia. exact Hf.
      * intros i [fl ip] Hil (Hip & Hk & Hlf & Hff).
        apply wp_bind. apply (wp_vget _ []); [lia|].
        apply wp_bind. apply (wp_vget _ 0); [lia|].
        apply wp_bind. apply (wp_vget _ 0). { apply corner_lt; auto; try lia. apply Hfk; lia. }
        rewrite <- fv_nth by (auto; lia).
        assert (Hvlt : nth i (fv e f) 0 < nv).
        { apply (fv_lt e f); try lia. apply nth_In. rewrite fv_length; lia. }
        apply wp_bind. apply wp_assertb. apply Nat.ltb_lt; auto.
        apply wp_bind. apply wp_vset; [lia|]. apply wp_bind. apply wp_vset; [lia|]. apply wp_some. cbn beta iota.
        split; [lens; auto|]. split.
        { intros k Hki. rewrite nth_upd by lia. destruct (Nat.eq_dec i k); [subst k|]; auto. apply Hk; lia. }
        split; [lens; auto|].
        intros v Hv. rewrite (firstn_S_snoc _ 0) by (rewrite fv_length; lia).
        rewrite in_app_iff. simpl. rewrite nth_upd by lia. destruct (Nat.eq_dec (nth i (fv e f) 0) v).
        { intuition. } { rewrite Hff by auto. intuition. }
      * intros [fl ip] (Hip & Hk & Hlf & Hff).
        rewrite firstn_all2 in Hff by (rewrite fv_length; lia).
        apply wp_bind. apply (wp_vget _ 0); [lia|]. rewrite Hk by lia.
        set (v0 := nth 0 (fv e f) 0).
        assert (Hv0 : In v0 (fv e f)) by (apply nth_In; rewrite fv_length; lia).
        assert (Hv0l : v0 < nv) by (apply (fv_lt e f); auto; lia).
        assert (HFl : flg_is (fv e f) fl) by (split; auto).
        pose proof (search_ok (fv e f) fl e f elsup_ind elsup v0 adj HFl Hidx HJ Hv0l) as HS.
        destruct (vget elsup_ind v0) as [lo|]; simpl in HS; [|contradiction]. cbn [bind].
        destruct (vget elsup_ind (v0 + 1)) as [hi|]; simpl in HS; [|contradiction]. cbn [bind].
        apply wp_bind. eapply wp_mono. apply HS. clear HS.
        intros [adj2 b] Hres. cbn [fst snd] in Hres.
        assert (Hadj : exists r, entry_ok e f r /\ (if b then Some adj2 else vset adj2 (e * nf + f) None) = Some (upd adj (e * nf + f) r)).
        { destruct Hres as [(-> & j & Hj & Hne & (g & Hg & Hin) & ->)|(-> & -> & Hno)].
          - exists (Some j). split; auto. split; auto. split; auto. exists g. split; auto. apply incl_same; auto; lia.
          - exists None. split. 2:{ apply vset_upd. auto. }
            intros j g Hj Hg Hne Hsame. apply (Hno j); auto.
            + eapply fv_in_elem; eauto. apply Hsame. auto.
            + exists g. split; auto. intros v Hv. apply Hsame. auto. }
        destruct Hadj as (r & Hr & ->). cbn [bind].
        (* unflagging *)
        apply wp_bind.
        apply (wp_forn _ (fun i fl => length fl = nv /\ forall v, v < nv -> nth v fl false = true -> In v (skipn i (fv e f)))); [lia| | |].
        { split; auto. intros v Hv Ht. simpl. apply Hff; auto. }
        { intros i fl2 Hil (Hl2 & Hf2).
          apply wp_bind. apply (wp_vget _ 0); [lia|]. rewrite Hk by lia.
          assert (Hvlt : nth i (fv e f) 0 < nv).
          { apply (fv_lt e f); try lia. apply nth_In. rewrite fv_length; lia. }
          apply wp_vset; [lia|]. split; [lens; auto|].
          intros v Hv. rewrite nth_upd by lia. destruct (Nat.eq_dec (nth i (fv e f) 0) v); [discriminate|].
          intros Ht. apply Hf2 in Ht; auto.
          assert (Esk : skipn i (fv e f) = nth i (fv e f) 0 :: skipn (S i) (fv e f)).
          { apply skipn_cons. rewrite fv_length; lia. }
          rewrite Esk in Ht. destruct Ht; [congruence|auto]. }
        intros fl2 (Hl2 & Hf2). simpl.
        rewrite skipn_all2 in Hf2 by (rewrite fv_length; lia).
        split; [lens; auto|]. split. { split; auto. intros v Hv. split; [|intros []]. intros Ht. apply (Hf2 v); auto. }
        split; auto. split.
        { intros e' f' He' Hf'. rewrite nth_upd_other by nia. apply Hent; auto. }
        intros f' Hf'. destruct (Nat.eq_dec f' f).
        { subst f'. rewrite nth_upd_same by auto. auto. }
        { rewrite nth_upd_other by lia. apply Hent2; lia. }
    + intros [[adj2 flg2] inp2] (Ha2 & Hf2 & Hi2 & He2 & He3).
      split; auto. split; auto. split; auto. intros e' f' He' Hf'.
      destruct (Nat.eq_dec e' e). subst e'. apply He3; auto. apply He2; auto; lia.
  - intros [[adj flg] inp] (Ha & Hf & Hi & Hent). simpl. split; auto.
Qed.
End ElSuEl.

Lemma ElSuEl_correct : forall elem nel nno nv face,
  mesh_ok elem nel nno nv -> face_table_ok nno face -> faces_nodup elem nel nno face ->
  exists adj, ElSuEl_MeshElem elem nel nno face nv = Some adj /\ length adj = nel * length face /\
    forall e f, e < nel -> f < length face -> entry_ok elem nel nno (length face) face e f (nth (e * length face + f) adj None).
Proof.
  intros elem nel nno nv face HM (n & Hn & Hne & HF) HND.
  destruct (ElSuP_correct [] elem nel nno nv HM) as (ind & arr & E & HJ).
  pose proof (ElSuEl_core_ok elem nel nno nv (length face) n face HM Hn eq_refl HF HND ind arr HJ) as H.
  apply wp_ex in H. destruct H as (adj & Ea & Hl & Hent).
  exists adj. split; auto. unfold ElSuEl_MeshElem. rewrite E. cbn [bind].
  destruct face as [|f0 face0]; [congruence|]. simpl vget. cbn [option_map bind].
  assert (length f0 = n) by (inversion HF; tauto). rewrite H. rewrite Ea. cbn [bind].
  rewrite Hl, Nat.eqb_refl. reflexivity.
Qed.

Lemma ElSuEl_symmetric : forall elem nel nno nv face adj,
  mesh_ok elem nel nno nv -> face_table_ok nno face -> faces_nodup elem nel nno face ->
  two_sided elem nel nno face ->
  ElSuEl_MeshElem elem nel nno face nv = Some adj ->
  forall e f j, e < nel -> f < length face -> nth (e * length face + f) adj None = Some j ->
    exists g, g < length face /\ same_face elem nno face e f j g /\ nth (j * length face + g) adj None = Some e.
Proof.
  intros elem nel nno nv face adj HM HF HND H2 E e f j He Hf Hj.
  destruct (ElSuEl_correct elem nel nno nv face HM HF HND) as (adj' & E' & Hl & Hent).
  rewrite E in E'. inversion E'; subst adj'. clear E'.
  pose proof (Hent e f He Hf) as H. rewrite Hj in H. destruct H as (Hjl & Hne & g & Hg & Hs).
  exists g. split; auto. split; auto.
  pose proof (Hent j g Hjl Hg) as H.
  assert (Hs' : same_face elem nno face j g e f) by (intros v; rewrite (Hs v); tauto).
  destruct (nth (j * length face + g) adj None) as [k|].
  - destruct H as (Hk & Hkj & h & Hh & Hs2). f_equal.
    apply (H2 j g k h e f); auto.
  - exfalso. apply (H e f); auto.
Qed.
