From Coq Require Import List Arith Lia Permutation Sorted Bool.
Import ListNotations.
From Verif Require Import Imp JagModel JagSpec JagProofs.

(* ---------- loops over slices ---------- *)

Lemma nth_skipn' : forall A (d : A) o v i, nth i (skipn o v) d = nth (o + i) v d.
Proof. induction o; simpl; intros; auto. destruct v; simpl; auto. destruct i; auto. Qed.

Lemma forn_slice_off : forall A S (g : A -> S -> option S) (v : list A) o n s,
  o + n <= length v ->
  forn 0 n (fun i s => x <- vget v (o + i) ;; g x s) s = foldM g (firstn n (skipn o v)) s.
Proof.
  intros A S g v o n s H. unfold forn. rewrite Nat.sub_0_r.
  assert (forall n k s, o + k + n <= length v ->
    forn_ n k (fun i s => x <- vget v (o + i) ;; g x s) s = foldM g (firstn n (skipn (o + k) v)) s).
  { clear n s H. induction n; simpl; intros; auto.
    destruct (skipn (o + k) v) as [|x t] eqn:E.
    - apply (f_equal (@length A)) in E. rewrite skipn_length in E. simpl in E. lia.
    - assert (vget v (o + k) = Some x).
      { unfold vget. rewrite <- (firstn_skipn (o + k) v). rewrite nth_error_app2 by (rewrite firstn_length; lia).
        rewrite firstn_length, Nat.min_l, Nat.sub_diag by lia. rewrite E. auto. }
      assert (skipn (o + Datatypes.S k) v = t).
      { replace (o + Datatypes.S k) with (1 + (o + k)) by lia. 
        change (skipn 1 (skipn (o+k) v) = t) || idtac.
        assert (skipn 1 (skipn (o + k) v) = t) by (rewrite E; auto).
        rewrite <- H1. generalize (o + k). clear. intros m. revert v. induction m; intros; auto.
        destruct v; auto. simpl. apply (IHm v). }
      rewrite H0. simpl. destruct (g x s); simpl; auto.
      rewrite IHn by lia. rewrite H1. auto. }
  rewrite H0 by lia. rewrite Nat.add_0_r. auto.
Qed.

Lemma forn_shift : forall S lo hi (f : nat -> S -> option S) s,
  forn lo hi f s = forn 0 (hi - lo) (fun i s => f (lo + i) s) s.
Proof.
  intros. unfold forn. rewrite Nat.sub_0_r. generalize (hi - lo).
  assert (forall n k s, forn_ n (lo + k) f s = forn_ n k (fun i s => f (lo + i) s) s).
  { induction n; simpl; intros; auto. destruct (f (lo + k) s0); simpl; auto.
    rewrite <- IHn. f_equal. lia. }
  intros. rewrite <- H. f_equal. lia.
Qed.

Lemma forn_slice : forall A S (g : A -> S -> option S) (v : list A) lo hi s,
  lo <= hi -> hi <= length v ->
  forn lo hi (fun i s => x <- vget v i ;; g x s) s = foldM g (firstn (hi - lo) (skipn lo v)) s.
Proof.
  intros. rewrite forn_shift. apply forn_slice_off. lia.
Qed.

Lemma concat_slice : forall A (rows : list (list A)) k, k < length rows ->
  firstn (offs rows (S k) - offs rows k) (skipn (offs rows k) (concat rows)) = nth k rows [].
Proof.
  induction rows; intros; simpl in H; [lia|].
  destruct k; simpl.
  - unfold offs. simpl. rewrite app_length, Nat.sub_0_r. simpl. rewrite Nat.add_0_r.
    rewrite firstn_app, Nat.sub_diag, firstn_all. simpl. apply app_nil_r.
  - unfold offs. simpl. rewrite !app_length.
    rewrite skipn_app. rewrite (skipn_all2 a) by lia. simpl.
    rewrite <- (IHrows k) by lia. unfold offs. f_equal; [simpl; lia|]. f_equal. lia.
Qed.

(** Loop over row [k] of a jagged array. *)
Lemma jag_row_loop : forall A S ind (arr : list A) rows (g : A -> S -> option S) k s,
  jagged ind arr rows -> k < length rows ->
  (lo <- vget ind k ;; hi <- vget ind (k + 1) ;; forn lo hi (fun i s => x <- vget arr i ;; g x s) s)
  = foldM g (nth k rows []) s.
Proof.
  intros A S ind arr rows g k s (Ea & Ei) Hk.
  fold (offs rows) in Ei. change (ind = offsets rows) in Ei. subst.
  rewrite !(vget_nth _ 0) by (rewrite offsets_length; lia). cbn [bind].
  rewrite !offsets_nth by lia. replace (k + 1) with (Datatypes.S k) by lia.
  rewrite forn_slice.
  - rewrite concat_slice; auto.
  - apply offs_mono. lia.
  - apply offs_le_total.
Qed.

Lemma jagged_len : forall A ind (arr : list A) rows, jagged ind arr rows -> length ind = S (length rows).
Proof. intros A ind arr rows (_ & ->). rewrite map_length, seq_length. auto. Qed.

Lemma bind_ext : forall A B (e : option A) (f g : A -> option B), (forall x, f x = g x) -> bind e f = bind e g.
Proof. intros. destruct e; simpl; auto. Qed.

Lemma bind_assoc : forall A B C (e : option A) (f : A -> option B) (g : B -> option C),
  bind (bind e f) g = bind e (fun x => bind (f x) g).
Proof. destruct e; simpl; auto. Qed.

(* ---------- C01 ---------- *)

Definition elsup_pairs (elem : list nat) (nno nel : nat) : list (nat * nat) :=
  concat (map (fun e => map (fun v => (v, e)) (elem_verts elem nno e)) (seq 0 nel)).

Lemma elem_slice_ok : forall elem nel nno nv e, mesh_ok elem nel nno nv -> e < nel -> e * nno + nno <= length elem.
Proof. intros elem nel nno nv e (Hl & _) He. rewrite Hl. nia. Qed.

Lemma foldM_map : forall A B S (h : A -> B) (f : B -> S -> option S) l s,
  foldM f (map h l) s = foldM (fun x => f (h x)) l s.
Proof. induction l; simpl; intros; auto. destruct (f (h a) s); simpl; auto. Qed.

Lemma elem_loop : forall S (g : nat * nat -> S -> option S) elem nel nno nv s,
  mesh_ok elem nel nno nv ->
  forn 0 nel (fun e s => forn 0 nno (fun i s => v <- vget elem (e * nno + i) ;; g (v, e) s) s) s
  = foldM g (elsup_pairs elem nno nel) s.
Proof.
  intros S g elem nel nno nv s H. rewrite forn_foldM. unfold elsup_pairs. rewrite <- foldM_concat.
  rewrite Nat.sub_0_r. apply foldM_ext. intros e s' He. apply in_seq in He.
  rewrite (forn_slice_off _ _ (fun v => g (v, e))).
  - rewrite foldM_map. reflexivity.
  - eapply elem_slice_ok; eauto. lia.
Qed.

Lemma In_firstn : forall A n (l : list A) x, In x (firstn n l) -> In x l.
Proof. intros. rewrite <- (firstn_skipn n l). apply in_or_app. auto. Qed.
Lemma In_skipn : forall A n (l : list A) x, In x (skipn n l) -> In x l.
Proof. intros. rewrite <- (firstn_skipn n l). apply in_or_app. auto. Qed.

Lemma elem_verts_in : forall elem nno e v, In v (elem_verts elem nno e) -> In v elem.
Proof. unfold elem_verts. intros. eapply In_skipn, In_firstn; eauto. Qed.

Lemma elem_verts_lt : forall elem nel nno nv e v, mesh_ok elem nel nno nv -> In v (elem_verts elem nno e) -> v < nv.
Proof. intros elem nel nno nv e v (_ & H) Hin. rewrite Forall_forall in H. apply H. eapply elem_verts_in; eauto. Qed.

Lemma elsup_pairs_lt : forall elem nel nno nv, mesh_ok elem nel nno nv ->
  Forall (fun p => fst p < nv) (elsup_pairs elem nno nel).
Proof.
  intros. apply Forall_forall. intros x Hx. unfold elsup_pairs in Hx.
  apply in_concat in Hx. destruct Hx as (l & Hl & Hx). apply in_map_iff in Hl. destruct Hl as (e & <- & He).
  apply in_map_iff in Hx. destruct Hx as (v & <- & Hv). simpl. eapply elem_verts_lt; eauto.
Qed.

Definition elsup_row (elem : list nat) (nno nel p : nat) : list nat :=
  flat_map (fun e => repeat e (count_occ Nat.eq_dec (elem_verts elem nno e) p)) (seq 0 nel).

Lemma prow_elsup : forall elem nno nel p, prow p (elsup_pairs elem nno nel) = elsup_row elem nno nel p.
Proof.
  intros. unfold elsup_pairs, elsup_row.
  assert (forall e l, prow p (map (fun v => (v, e)) l) = repeat e (count_occ Nat.eq_dec l p)).
  { induction l; simpl; auto. unfold prow in *. simpl.
    destruct (Nat.eq_dec a p); subst.
    - rewrite Nat.eqb_refl. simpl. rewrite IHl. auto.
    - replace (a =? p) with false by (symmetry; apply Nat.eqb_neq; auto). auto. }
  induction (seq 0 nel); simpl; auto.
  rewrite prow_app, H, IHl. auto.
Qed.

Lemma ElSuP_correct : forall elsup_0 elem nel nno nv, mesh_ok elem nel nno nv ->
  exists ind arr, JArray_ElSuP_MeshElem elsup_0 elem nel nno nv = Some (ind, arr) /\
    jagged ind arr (map (elsup_row elem nno nel) (seq 0 nv)).
Proof.
  intros. destruct (bucket_build nv _ elsup_0 (elsup_pairs_lt _ _ _ _ H)) as (c & ind' & E1 & E2 & E3 & E4 & E5).
  assert (Er : rows_of nv (elsup_pairs elem nno nel) = map (elsup_row elem nno nel) (seq 0 nv)).
  { unfold rows_of. apply map_ext. intros. apply prow_elsup. }
  exists (offsets (rows_of nv (elsup_pairs elem nno nel))), (concat (rows_of nv (elsup_pairs elem nno nel))).
  split.
  - unfold JArray_ElSuP_MeshElem.
    rewrite (elem_loop _ cnt_pair _ _ _ nv) by auto. rewrite E1. cbn [bind].
    rewrite E2. cbn [bind]. rewrite E3. cbn [bind].
    rewrite (elem_loop _ put_pair _ _ _ nv) by auto. rewrite E4. cbn [bind].
    rewrite E5. reflexivity.
  - rewrite Er. split; reflexivity.
Qed.

(* ---------- C06 ---------- *)

Definition unidir_pairs (rows : list (list nat)) : list (nat * nat) :=
  concat (map (fun p => map (pair p) (filter (fun q => p <? q) (nth p rows []))) (seq 0 (length rows))).

Lemma rowpairs_prow : forall (f : nat -> list nat) n k, k < n ->
  prow k (concat (map (fun p => map (pair p) (f p)) (seq 0 n))) = f k.
Proof.
  intros f n k Hk.
  assert (Hsame : forall l, prow k (map (pair k) l) = l).
  { induction l; unfold prow in *; simpl; auto. rewrite Nat.eqb_refl. simpl. f_equal. auto. }
  assert (Hoth : forall p l, p <> k -> prow k (map (pair p) l) = []).
  { intros p l Hp. unfold prow. induction l; simpl; auto.
    replace (p =? k) with false by (symmetry; apply Nat.eqb_neq; auto). auto. }
  assert (Hnone : forall l, ~ In k l -> prow k (concat (map (fun p => map (pair p) (f p)) l)) = []).
  { induction l; simpl; intros; auto. rewrite prow_app, Hoth, IHl; auto. }
  replace n with (k + S (n - k - 1)) by lia. rewrite seq_app. simpl.
  rewrite map_app, concat_app, prow_app, Hnone. simpl. rewrite prow_app, Hsame, Hnone.
  - apply app_nil_r.
  - intro. apply in_seq in H. lia.
  - intro. apply in_seq in H. lia.
Qed.

Lemma rowpairs_rows_of : forall (f : nat -> list nat) n,
  rows_of n (concat (map (fun p => map (pair p) (f p)) (seq 0 n))) = map f (seq 0 n).
Proof.
  intros. unfold rows_of. apply map_ext_in. intros. apply in_seq in H. apply rowpairs_prow. lia.
Qed.

Lemma rowpairs_lt : forall (f : nat -> list nat) n,
  Forall (fun p => fst p < n) (concat (map (fun p => map (pair p) (f p)) (seq 0 n))).
Proof.
  intros. apply Forall_forall. intros x Hx.
  apply in_concat in Hx. destruct Hx as (l & Hl & Hx). apply in_map_iff in Hl. destruct Hl as (e & <- & He).
  apply in_map_iff in Hx. destruct Hx as (v & <- & Hv). simpl. apply in_seq in He. lia.
Qed.

Lemma foldM_filter : forall A S (t : A -> bool) (f : A -> S -> option S) l s,
  foldM (fun x s => if t x then Some s else f x s) l s = foldM f (filter (fun x => negb (t x)) l) s.
Proof.
  induction l; simpl; intros; auto. destruct (t a); simpl; auto.
  destruct (f a s); simpl; auto.
Qed.

Definition edge_row (rows : list (list nat)) (p : nat) := filter (fun q => p <? q) (nth p rows []).

Lemma negb_leb : forall a b, negb (b <=? a) = (a <? b).
Proof. intros. destruct (Nat.leb_spec b a), (Nat.ltb_spec a b); auto; lia. Qed.

Lemma EdgeUnidir_correct : forall edge0 psup_ind psup rows, rows <> [] ->
  jagged psup_ind psup rows ->
  exists ind arr, JArrayEdgeUnidir_PointSurPoint [] edge0 psup_ind psup = Some (ind, arr) /\
    jagged ind arr (map (edge_row rows) (seq 0 (length rows))).
Proof.
  intros edge0 psup_ind psup rows Hne HJ.
  pose proof (jagged_len _ _ _ _ HJ) as HL.
  set (np := length rows) in *.
  set (pairs := concat (map (fun p => map (pair p) (edge_row rows p)) (seq 0 np))).
  assert (Hlt : Forall (fun p => fst p < np) pairs) by apply rowpairs_lt.
  destruct (bucket_build np pairs [] Hlt) as (c & ind' & E1 & E2 & E3 & E4 & E5).
  assert (Hloop : forall S (g : nat * nat -> S -> option S) s,
    forn 0 np (fun ip s => lo <- vget psup_ind ip ;; hi <- vget psup_ind (ip + 1) ;;
      forn lo hi (fun ipsup s => ip0 <- vget psup ipsup ;; if ip0 <=? ip then Some s else g (ip, ip0) s) s) s
    = foldM g pairs s).
  { intros. rewrite forn_foldM. unfold pairs. rewrite <- foldM_concat. rewrite Nat.sub_0_r.
    apply foldM_ext. intros p s' Hp. apply in_seq in Hp.
    rewrite (jag_row_loop _ _ _ _ _ (fun ip0 s => if ip0 <=? p then Some s else g (p, ip0) s) _ _ HJ) by (fold np; lia).
    rewrite foldM_filter, foldM_map. unfold edge_row.
    erewrite filter_ext; [reflexivity|]. intros. apply negb_leb. }
  exists (offsets (rows_of np pairs)), (concat (rows_of np pairs)). split.
  - unfold JArrayEdgeUnidir_PointSurPoint. rewrite HL.
    replace (2 <=? S np) with true by (symmetry; apply Nat.leb_le; unfold np; destruct rows; simpl; [congruence|lia]).
    cbn [assertb bind]. replace (S np - 1) with np by lia. rewrite vresize_nil.
    assert (E0 : vset (repeat 0 (np + 1)) 0 0 = Some (repeat 0 (np + 1))).
    { replace (np + 1) with (S np) by lia. reflexivity. }
    rewrite E0. cbn [bind].
    rewrite (Hloop _ cnt_pair). rewrite E1. cbn [bind]. rewrite E2. cbn [bind]. rewrite E3. cbn [bind].
    rewrite (Hloop _ put_pair). rewrite E4. cbn [bind]. rewrite E5. reflexivity.
  - unfold pairs. rewrite rowpairs_rows_of. split; reflexivity.
Qed.

(* ---------- visited-flag passes: C02, C04, C05 ---------- *)

Fixpoint emit (seen l : list nat) : list nat :=
  match l with
  | [] => []
  | x :: t => if in_dec Nat.eq_dec x seen then emit seen t else x :: emit (x :: seen) t
  end.

Lemma emit_In : forall l seen x, In x (emit seen l) <-> In x l /\ ~ In x seen.
Proof.
  induction l; simpl; intros; [tauto|].
  destruct (in_dec Nat.eq_dec a seen).
  - rewrite IHl. intuition. subst. tauto.
  - simpl. rewrite IHl. simpl. destruct (Nat.eq_dec a x); subst; intuition.
Qed.

Lemma emit_NoDup : forall l seen, NoDup (emit seen l).
Proof.
  induction l; simpl; intros; [constructor|].
  destruct (in_dec Nat.eq_dec a seen); auto. constructor; auto.
  rewrite emit_In. simpl. tauto.
Qed.

Definition visit {S} (g : nat * nat -> S -> option S) (p x : nat) (s : list (option nat) * S)
  : option (list (option nat) * S) :=
  let '(aflg, s2) := s in
  t <- vget aflg x ;;
  if onat_eqb t p then Some (aflg, s2) else
  aflg <- vset aflg x (Some p) ;; s2 <- g (p, x) s2 ;; Some (aflg, s2).

(** [flags np p seen aflg]: entry j is marked with p exactly for the j in [seen]; no entry is marked with a number
    greater than p. *)
Definition flags (np p : nat) (seen : list nat) (aflg : list (option nat)) : Prop :=
  length aflg = np /\
  (forall j, j < np -> nth j aflg None = Some p <-> In j seen) /\
  (forall j q, j < np -> nth j aflg None = Some q -> q <= p).

Lemma onat_eqb_true : forall o n, onat_eqb o n = true <-> o = Some n.
Proof.
  destruct o; simpl; intros; split; intros; try discriminate.
  - apply Nat.eqb_eq in H. congruence.
  - inversion H. apply Nat.eqb_refl.
Qed.

Lemma flags_mark : forall np p seen aflg x, flags np p seen aflg -> x < np ->
  flags np p (x :: seen) (upd aflg x (Some p)).
Proof.
  intros np p seen aflg x (Hl & Hs & Hq) Hx. split; [lens; auto|]. split.
  - intros j Hj. rewrite nth_upd by lia. simpl. destruct (Nat.eq_dec x j).
    + subst. intuition.
    + rewrite Hs by auto. intuition.
  - intros j q Hj. rewrite nth_upd by lia. destruct (Nat.eq_dec x j).
    + intro E; inversion E; auto.
    + apply Hq; auto.
Qed.

Lemma visit_fold : forall S (g : nat * nat -> S -> option S) np p l seen aflg,
  flags np p seen aflg -> Forall (fun x => x < np) l ->
  exists aflg', flags np p (rev l ++ seen) aflg' /\
   forall s, foldM (visit g p) l (aflg, s) =
     bind (foldM g (map (pair p) (emit seen l)) s) (fun s' => Some (aflg', s')).
Proof.
  induction l; simpl; intros seen aflg HF HL.
  - exists aflg. split; auto.
  - inversion HL; subst.
    destruct HF as (Hl & Hs & Hq).
    assert (Eg : vget aflg a = Some (nth a aflg None)) by (apply vget_nth; lia).
    rewrite Eg. cbn [bind].
    destruct (in_dec Nat.eq_dec a seen) as [Hin|Hni].
    + assert (Et : onat_eqb (nth a aflg None) p = true).
      { apply onat_eqb_true. apply Hs; auto. }
      rewrite Et.
      destruct (IHl seen aflg) as (aflg' & HF' & He). { split; auto. } { auto. }
      exists aflg'. split; auto.
      destruct HF' as (Hl' & Hs' & Hq'). split; auto. split; auto.
      intros j Hj. rewrite Hs' by auto. rewrite !in_app_iff. simpl. intuition. subst. auto.
    + assert (Et : onat_eqb (nth a aflg None) p = false).
      { destruct (onat_eqb (nth a aflg None) p) eqn:E; auto. apply onat_eqb_true in E. apply Hs in E; auto. tauto. }
      rewrite Et. rewrite vset_upd by lia. cbn [bind].
      destruct (IHl (a :: seen) (upd aflg a (Some p))) as (aflg' & HF' & He).
      { apply flags_mark; auto. split; auto. } { auto. }
      exists aflg'. split.
      * rewrite <- app_assoc. auto.
      * intros. simpl. destruct (g (p, a) s); simpl; auto.
Qed.

Lemma flags_next : forall np p seen aflg, flags np p seen aflg -> flags np (S p) [] aflg.
Proof.
  intros np p seen aflg (Hl & Hs & Hq). split; auto. split.
  - intros j Hj. split; [|intros []]. intros E. apply Hq in E; auto. lia.
  - intros j q Hj E. apply Hq in E; auto.
Qed.

Lemma flags_init : forall np p, flags np p [] (repeat None np).
Proof.
  intros. split; [apply repeat_length|]. split.
  - intros. rewrite nth_repeat' by auto. simpl. split; [discriminate|tauto].
  - intros. rewrite nth_repeat' in H0 by auto. discriminate.
Qed.

(** A pass over all rows: [body p] starts from flags without mark p and behaves like emitting [f p]. *)
Lemma rows_pass : forall S (g : nat * nat -> S -> option S) np (f : nat -> list nat)
    (body : nat -> list (option nat) * S -> option (list (option nat) * S)) aflg,
  flags np 0 [] aflg ->
  (forall p aflg, p < np -> flags np p [] aflg ->
     exists seen aflg', flags np p seen aflg' /\ forall s, body p (aflg, s) =
       bind (foldM g (map (pair p) (f p)) s) (fun s' => Some (aflg', s'))) ->
  exists aflg', length aflg' = np /\ forall s, forn 0 np body (aflg, s) =
     bind (foldM g (concat (map (fun p => map (pair p) (f p)) (seq 0 np))) s) (fun s' => Some (aflg', s')).
Proof.
  intros S g np f body aflg H0 Hb.
  assert (forall n p aflg, p + n = np -> flags np p [] aflg ->
     exists aflg', length aflg' = np /\ forall s, forn_ n p body (aflg, s) =
     bind (foldM g (concat (map (fun p => map (pair p) (f p)) (seq p n))) s) (fun s' => Some (aflg', s'))).
  { clear aflg H0. induction n; intros p aflg Hp HF; simpl.
    - exists aflg. split; auto. destruct HF; auto.
    - destruct (Hb p aflg) as (seen & aflg1 & HF1 & E1); auto. lia.
      destruct (IHn (Datatypes.S p) aflg1) as (aflg2 & HL2 & E2). lia. eapply flags_next; eauto.
      exists aflg2. split; auto. intros s. rewrite E1. rewrite foldM_app.
      destruct (foldM g (map (pair p) (f p)) s); simpl; auto. }
  destruct (H np 0 aflg) as (aflg' & Hl & He); auto.
  exists aflg'. split; auto. intros. unfold forn. rewrite Nat.sub_0_r. auto.
Qed.
