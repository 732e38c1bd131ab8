(** Every operation preserves [represents]; the checks and queries. *)
From Coq Require Import List Arith Bool Lia Permutation.
Import ListNotations.
From Verif Require Import Imp CadModel CadSpec CadProofs1.
Notation cnt := (count_occ Nat.eq_dec).
Definition one (n v : nat) : nat := if Nat.eq_dec n v then 1 else 0.

Lemma cnt_cons : forall x l v, cnt (x :: l) v = one x v + cnt l v. Proof. intros. unfold one. cbn [count_occ]. destruct (Nat.eq_dec x v); lia. Qed.
Lemma cnt_seq : forall n a v, cnt (seq a n) v = if (a <=? v) && (v <? a + n) then 1 else 0.
Proof.
  induction n as [|n IH]; intros a v; [rewrite Nat.add_0_r; cbn [seq count_occ]; destruct (Nat.leb_spec a v), (Nat.ltb_spec v a); cbn [andb]; lia|]. cbn [seq]. rewrite cnt_cons, IH. unfold one.
  destruct (Nat.eq_dec a v), (Nat.leb_spec (S a) v), (Nat.leb_spec a v), (Nat.ltb_spec v (S a + n)), (Nat.ltb_spec v (a + S n)); cbn [andb]; lia.
Qed.
Lemma nth_rotate : forall vs k d, k < length vs -> nth k (rotate vs) d = nth ((k + 1) mod length vs) vs d.
Proof.
  intros [|v vs] k d H; cbn [length] in H; [lia|]. cbn [rotate length]. destruct (Nat.eq_dec k (length vs)) as [->|N].
  - rewrite app_nth2, Nat.sub_diag, Nat.add_1_r, Nat.mod_same by lia. reflexivity.
  - rewrite app_nth1 by lia. rewrite Nat.mod_small by lia. rewrite Nat.add_1_r. reflexivity.
Qed.
Lemma rotate_length : forall vs, length (rotate vs) = length vs. Proof. intros [|v vs]; cbn; auto. rewrite app_length. cbn. lia. Qed.
Lemma nth_around : forall vs k d, k < length vs -> nth k (around vs) (d, d) = (nth k vs d, nth ((k + 1) mod length vs) vs d).
Proof. intros. unfold around. rewrite combine_nth by (rewrite rotate_length; auto). rewrite nth_rotate by auto. auto. Qed.

Lemma ends_ext : forall es x ie p, ends_of es ie = Some p -> ends_of (es ++ x) ie = Some p.
Proof. intros es x ie p H. unfold ends_of in *. destruct (nth_error es ie) eqn:E; [|discriminate]. rewrite nth_error_app1 by (apply nth_error_Some; congruence). rewrite E. auto. Qed.
Lemma describes_ends : forall es l s q, describes es l s -> In q (aIE l) -> exists p, ends_of es (fst q) = Some p /\ In p (shape_edges s).
Proof.
  intros es l [vs|v] q H I; cbn in H; [|destruct H as (_ & H); rewrite H in I; destruct I]. destruct H as (_ & M & _). apply (in_map (fun p => ends_of es (fst p))) in I. rewrite M in I. apply in_map_iff in I. destruct I as (p & <- & I). exists p. auto.
Qed.
Lemma describes_ext : forall es x l s, describes es l s -> describes (es ++ x) l s.
Proof.
  intros es x l s H. assert (E := describes_ends es l s). destruct s as [vs|v]; cbn in *; auto. destruct H as (A & M & F). split; auto. split; auto. rewrite <- M. apply map_ext_in. intros q Q. destruct (E q (conj A (conj M F)) Q) as (p & P & _). rewrite P. apply ends_ext; auto.
Qed.
Lemma Forall2_mono : forall {A B} (R R' : A -> B -> Prop) l m, Forall2 R l m -> (forall x y, In x l -> R x y -> R' x y) -> Forall2 R' l m.
Proof. intros A B R R' l m H. induction H as [|x y l m H F IH]; intros X; constructor; auto; [apply X; auto; left; auto|]. apply IH. intros; apply X; auto. right; auto. Qed.

(** polygon *)
Lemma forn_app_seq : forall {T} (f : nat -> T) n i l, forn_ n i (fun k l => Some (l ++ [f k])) l = Some (l ++ map f (seq i n)).
Proof. induction n as [|n IH]; intros i l; cbn [forn_ seq map bind]; [rewrite app_nil_r; auto|]. rewrite IH, <- app_assoc. auto. Qed.
Definition pedge (nv np k : nat) : edge := Edge (nv + (k + 0) mod np) (nv + (k + 1) mod np).
Lemma AddPolygon_eq : forall t np, AddPolygon t np = Some (Topo (num_vertex t + np) (edges t ++ map (pedge (num_vertex t) np) (seq 0 np)) (loops t ++ [Loop None (map (fun k => (length (edges t) + k, true)) (seq 0 np))]) (faces t ++ [[length (loops t)]])).
Proof.
  intros. unfold AddPolygon, forn. rewrite Nat.sub_0_r. change (fun iie es => Some (es ++ [Edge (num_vertex t + (iie + 0) mod np) (num_vertex t + (iie + 1) mod np)])) with (fun iie es => Some (es ++ [pedge (num_vertex t) np iie])).
  rewrite forn_app_seq. cbn [bind]. rewrite (forn_app_seq (fun iie => (length (edges t) + iie, true))). cbn [bind app]. rewrite app_length. cbn [length]. rewrite Nat.add_sub. reflexivity.
Qed.
Lemma polygon_describes : forall es nv np, describes (es ++ map (pedge nv np) (seq 0 np)) (Loop None (map (fun k => (length es + k, true)) (seq 0 np))) (cycle (seq nv np)).
Proof.
  intros. cbn [describes l_iv aIE]. split; auto. split; [|apply Forall_forall; intros x Hx; apply in_map_iff in Hx; destruct Hx as (k & <- & _); auto]. rewrite map_map.
  apply (nth_ext _ _ None None); [rewrite !map_length, around_length, !seq_length; auto|]. intros k Hk. rewrite map_length, seq_length in Hk.
  rewrite (nth_indep _ None ((fun x => ends_of (es ++ map (pedge nv np) (seq 0 np)) (fst (length es + x, true))) 0)) by (rewrite map_length, seq_length; auto). rewrite (map_nth (fun x => ends_of (es ++ map (pedge nv np) (seq 0 np)) (fst (length es + x, true)))). rewrite seq_nth by auto. cbn [fst Nat.add].
  rewrite (nth_indep _ None (Some (0, 0))) by (rewrite map_length, around_length, seq_length; auto). rewrite map_nth, nth_around by (rewrite seq_length; auto). rewrite seq_length.
  assert (M : (k + 1) mod np < np) by (apply Nat.mod_upper_bound; lia). rewrite !seq_nth by auto.
  unfold ends_of. rewrite nth_error_app2 by lia. replace (length es + k - length es) with k by lia. rewrite nth_error_map. rewrite (nth_error_nth' _ 0) by (rewrite seq_length; auto). rewrite seq_nth by auto. cbn [option_map]. unfold pedge. cbn [iv0 iv1]. rewrite Nat.add_0_r. cbn [Nat.add]. rewrite (Nat.mod_small k) by auto. auto.
Qed.
Lemma mod_succ_inj : forall n i j, i < n -> j < n -> (i + 1) mod n = (j + 1) mod n -> i = j.
Proof.
  intros n i j Hi Hj H. destruct (Nat.eq_dec (i + 1) n) as [A|A], (Nat.eq_dec (j + 1) n) as [B|B]; try lia.
  - rewrite A, Nat.mod_same, (Nat.mod_small (j + 1)) in H by lia. lia.
  - rewrite B, Nat.mod_same, (Nat.mod_small (i + 1)) in H by lia. lia.
  - rewrite !Nat.mod_small in H by lia. lia.
Qed.
Lemma cnt_new : forall f n v, (forall i j, i < n -> j < n -> f i = f j -> i = j) -> cnt (map f (seq 0 n)) v <= 1.
Proof.
  intros f n v H. assert (ND : NoDup (map f (seq 0 n))).
  { apply NoDup_nth with (d := f 0). intros i j Hi Hj E. rewrite map_length, seq_length in Hi, Hj. rewrite !map_nth, !seq_nth in E by auto. apply H; auto. }
  rewrite (NoDup_count_occ Nat.eq_dec) in ND. auto.
Qed.
Lemma cnt_disjoint : forall l m v, cnt l v <= 1 -> cnt m v <= 1 -> (In v l -> In v m -> False) -> cnt (l ++ m) v <= 1.
Proof.
  intros l m v A B H. rewrite count_occ_app. destruct (in_dec Nat.eq_dec v l) as [X|X]; [|apply (count_occ_not_In Nat.eq_dec) in X; lia]. destruct (in_dec Nat.eq_dec v m) as [Y|Y]; [tauto|]. apply (count_occ_not_In Nat.eq_dec) in Y. lia.
Qed.
Lemma rep_polygon : forall t D np, represents t D -> exists t', exec (OPolygon np) t = Some t' /\ represents t' (step (ends_of (edges t)) (OPolygon np) D).
Proof.
  intros t D np R. cbn [exec step]. rewrite AddPolygon_eq. eexists. split; [reflexivity|]. destruct R as [R1 R2 R3 R4 R5 R6 R7 R8].
  assert (PE : forall e, In e (map (pedge (num_vertex t) np) (seq 0 np)) -> exists k, k < np /\ e = pedge (num_vertex t) np k) by (intros e He; apply in_map_iff in He; destruct He as (k & <- & K); apply in_seq in K; exists k; split; auto; lia).
  assert (PB : forall k c, k < np -> (k + c) mod np < np) by (intros; apply Nat.mod_upper_bound; lia).
  split; cbn [num_vertex edges loops faces d_nv d_faces].
  - lia.
  - apply Forall2_app.
    + eapply Forall2_mono; [exact R2|]. intros f ss _ H. eapply Forall2_mono; [exact H|]. intros il s _ (l & E & Ds). exists l. split; [rewrite nth_error_app1 by (apply nth_error_Some; congruence); auto|]. apply describes_ext; auto.
    + constructor; [|constructor]. constructor; [|constructor]. eexists. rewrite nth_error_app2, Nat.sub_diag by lia. split; [reflexivity|]. rewrite R1. apply polygon_describes.
  - intros ie. rewrite map_app, concat_app, count_occ_app, R3. cbn [map concat aIE]. rewrite app_nil_r, map_map. cbn [fst]. rewrite app_length, map_length, seq_length.
    replace (map (fun x => length (edges t) + x) (seq 0 np)) with (seq (length (edges t)) np). 2:{ apply (nth_ext _ _ 0 0); [rewrite map_length, !seq_length; auto|]. intros k Hk. rewrite seq_length in Hk. rewrite seq_nth by auto. rewrite (nth_indep _ 0 (length (edges t) + 0)) by (rewrite map_length, seq_length; auto). rewrite (map_nth (fun x => length (edges t) + x)), !seq_nth by auto. auto. }
    rewrite cnt_seq. destruct (Nat.ltb_spec ie (length (edges t))), (Nat.leb_spec (length (edges t)) ie), (Nat.ltb_spec ie (length (edges t) + np)); cbn; lia.
  - intros il. rewrite concat_app, count_occ_app, R4. cbn [concat app]. rewrite cnt_cons, app_length. cbn [length count_occ]. unfold one. destruct (Nat.eq_dec (length (loops t)) il), (Nat.ltb_spec il (length (loops t))), (Nat.ltb_spec il (length (loops t) + 1)); lia.
  - intros e He. apply in_app_or in He. destruct He as [He|He]; [specialize (R5 e He); lia|]. destruct (PE e He) as (k & K & ->). unfold pedge. cbn [iv0 iv1]. assert (A := PB k 0 K). assert (B := PB k 1 K). lia.
  - intros v. rewrite map_app. apply cnt_disjoint; auto.
    + rewrite map_map. apply cnt_new. intros i j Hi Hj E. unfold pedge in E. cbn [iv0] in E. rewrite !Nat.add_0_r, !Nat.mod_small in E by auto. lia.
    + intros H1 H2. apply in_map_iff in H1. destruct H1 as (e & <- & H1). apply in_map_iff in H2. destruct H2 as (e' & E & H2). destruct (PE e' H2) as (k & K & ->). specialize (R5 e H1). cbn [pedge iv0] in E. lia.
  - intros v. rewrite map_app. apply cnt_disjoint; auto.
    + rewrite map_map. apply cnt_new. intros i j Hi Hj E. unfold pedge in E. cbn [iv1] in E. apply (mod_succ_inj np); auto. lia.
    + intros H1 H2. apply in_map_iff in H1. destruct H1 as (e & <- & H1). apply in_map_iff in H2. destruct H2 as (e' & E & H2). destruct (PE e' H2) as (k & K & ->). specialize (R5 e H1). cbn [pedge iv1] in E. lia.
  - intros v. rewrite concat_app, map_app, concat_app, count_occ_app, R8. cbn [concat app map shape_vertices]. rewrite app_nil_r, cnt_seq. destruct (Nat.ltb_spec v (d_nv D)), (Nat.leb_spec (d_nv D) v), (Nat.ltb_spec v (d_nv D + np)); cbn; lia.
Qed.

(** isolated vertex *)
Lemma vmod_append : forall {T} (F : list (list T)) i x, i < length F -> vmod F i (fun f => f ++ [x]) = Some (append_at F i x).
Proof.
  intros T F i x. unfold vmod, vget. revert i. induction F as [|f F IH]; intros i H; cbn [length] in H; [lia|]. destruct i as [|i]; [reflexivity|]. specialize (IH i ltac:(lia)). cbn [nth_error append_at]. destruct (nth_error F i) eqn:E; cbn [bind] in *; [|discriminate]. cbn [vset]. rewrite IH. reflexivity.
Qed.
Lemma append_perm : forall {T} (F : list (list T)) i x, i < length F -> Permutation (concat (append_at F i x)) (x :: concat F).
Proof.
  intros T F. induction F as [|f F IH]; intros i x H; cbn [length] in H; [lia|]. destruct i as [|i]; cbn [append_at concat].
  - rewrite <- app_assoc. cbn [app]. symmetry. apply Permutation_middle.
  - rewrite (IH i x) by lia. symmetry. apply Permutation_middle.
Qed.
Lemma Forall2_append : forall {A B} (R : A -> B -> Prop) F G i x y, Forall2 (Forall2 R) F G -> R x y -> Forall2 (Forall2 R) (append_at F i x) (append_at G i y).
Proof.
  intros A B R F G i x y H. revert i. induction H as [|f g F G H HF IH]; intros i XY; cbn [append_at]; auto. destruct i; constructor; auto. apply Forall2_app; auto.
Qed.
Lemma Forall2_len : forall {A B} (R : A -> B -> Prop) l m, Forall2 R l m -> length l = length m.
Proof. intros A B R l m H. induction H; cbn; auto. Qed.
Lemma rep_vtxface : forall t D i, represents t D -> exists t', exec (OVtxFace i) t = Some t' /\ represents t' (step (ends_of (edges t)) (OVtxFace i) D).
Proof.
  intros t D i R. assert (L : length (faces t) = length (d_faces D)) by exact (Forall2_len _ _ _ (rp_faces t D R)). cbn [exec step]. unfold AddVtx_Face. rewrite L. destruct (Nat.leb_spec (length (d_faces D)) i) as [G|G].
  - rewrite (proj2 (Nat.ltb_ge _ _)) by auto. eauto.
  - rewrite (proj2 (Nat.ltb_lt _ _)) by auto. rewrite vmod_append by lia. cbn [bind]. eexists. split; [reflexivity|]. rewrite app_length. cbn [length]. rewrite Nat.add_sub. destruct R as [R1 R2 R3 R4 R5 R6 R7 R8].
    split; cbn [num_vertex edges loops faces d_nv d_faces]; auto.
    + apply Forall2_append.
      * eapply Forall2_mono; [exact R2|]. intros f ss _ H. eapply Forall2_mono; [exact H|]. intros il s _ (l & E & Ds). exists l. split; [rewrite nth_error_app1 by (apply nth_error_Some; congruence); auto|]. auto.
      * eexists. rewrite nth_error_app2, Nat.sub_diag by lia. split; [reflexivity|]. cbn. rewrite R1. auto.
    + intros ie. rewrite map_app, concat_app, count_occ_app, R3. cbn. destruct (ie <? length (edges t)); lia.
    + intros il. rewrite (proj1 (Permutation_count_occ Nat.eq_dec _ _) (append_perm (faces t) i (length (loops t)) ltac:(lia)) il), cnt_cons, R4, app_length. cbn [length]. unfold one. destruct (Nat.eq_dec (length (loops t)) il), (Nat.ltb_spec il (length (loops t))), (Nat.ltb_spec il (length (loops t) + 1)); lia.
    + intros e He. specialize (R5 e He). lia.
    + intros v. assert (P : Permutation (concat (map shape_vertices (concat (append_at (d_faces D) i (dot (d_nv D)))))) (d_nv D :: concat (map shape_vertices (concat (d_faces D))))).
      { change (d_nv D :: concat (map shape_vertices (concat (d_faces D)))) with (concat (map shape_vertices (dot (d_nv D) :: concat (d_faces D)))). rewrite <- !flat_map_concat_map. apply Permutation_flat_map. apply append_perm; auto. }
      rewrite (proj1 (Permutation_count_occ Nat.eq_dec _ _) P v), cnt_cons, R8. unfold one. destruct (Nat.eq_dec (d_nv D) v), (Nat.ltb_spec v (d_nv D)), (Nat.ltb_spec v (d_nv D + 1)); lia.
Qed.

(** splitting an edge *)
Definition has (a : nat) (s : shape) : bool := match s with cycle vs => if in_dec Nat.eq_dec a vs then true else false | dot _ => false end.
Lemma cnt_insert : forall a n vs v, cnt (insert_after a n vs) v = cnt vs v + if in_dec Nat.eq_dec a vs then one n v else 0.
Proof.
  induction vs as [|x vs IH]; intros v; [cbn; lia|]. cbn [insert_after]. destruct (Nat.eqb_spec x a) as [->|N].
  - rewrite !cnt_cons. destruct (in_dec Nat.eq_dec a (a :: vs)) as [H|H]; [lia|exfalso; apply H; left; auto].
  - rewrite !cnt_cons, IH. destruct (in_dec Nat.eq_dec a vs) as [H|H], (in_dec Nat.eq_dec a (x :: vs)) as [K|K]; try lia; [exfalso; apply K; right; auto|]. destruct K; [congruence|tauto].
Qed.
Lemma cnt_shapes : forall a n L v, cnt (concat (map shape_vertices (map (shape_split a n) L))) v = cnt (concat (map shape_vertices L)) v + length (filter (has a) L) * one n v.
Proof.
  induction L as [|s L IH]; intros v; [cbn; auto|]. cbn [map concat filter]. rewrite !count_occ_app, IH. destruct s as [vs|w]; cbn [shape_split shape_vertices has].
  - rewrite cnt_insert. destruct (in_dec Nat.eq_dec a vs); cbn [length]; lia.
  - lia.
Qed.
Lemma has_le : forall a L, length (filter (has a) L) <= cnt (concat (map shape_vertices L)) a.
Proof.
  induction L as [|s L IH]; [cbn; auto|]. cbn [map concat filter]. rewrite count_occ_app. destruct s as [vs|w]; cbn [shape_vertices has]; [|lia]. destruct (in_dec Nat.eq_dec a vs) as [H|H]; cbn [length]; [|lia]. apply (count_occ_In Nat.eq_dec) in H. lia.
Qed.
Lemma filter_ge : forall {T} (f : T -> bool) L x, In x L -> f x = true -> 1 <= length (filter f L).
Proof. intros T f L x I E. assert (X : In x (filter f L)) by (apply filter_In; auto). destruct (filter f L); [destruct X|cbn; lia]. Qed.
Definition hase (ieo : nat) (l : loop) : bool := if in_dec Nat.eq_dec ieo (map fst (aIE l)) then true else false.
Lemma cnt_ins : forall ieo ien l v, cnt (map fst (ins ieo ien l)) v = cnt (map fst l) v + if in_dec Nat.eq_dec ieo (map fst l) then one ien v else 0.
Proof.
  induction l as [|(e, b) l IH]; intros v; [cbn; lia|]. cbn [ins fst]. destruct (Nat.eqb_spec e ieo) as [->|N].
  - cbn [map fst]. rewrite !cnt_cons. destruct (in_dec Nat.eq_dec ieo (ieo :: map fst l)) as [H|H]; [lia|exfalso; apply H; left; auto].
  - cbn [map fst]. rewrite !cnt_cons, IH. destruct (in_dec Nat.eq_dec ieo (map fst l)) as [H|H], (in_dec Nat.eq_dec ieo (e :: map fst l)) as [K|K]; try lia; [exfalso; apply K; right; auto|]. destruct K; [congruence|tauto].
Qed.
Lemma cnt_loops : forall ieo ien L v, cnt (concat (map (fun l => map fst (aIE l)) (map (gl ieo ien) L))) v = cnt (concat (map (fun l => map fst (aIE l)) L)) v + length (filter (hase ieo) L) * one ien v.
Proof.
  induction L as [|l L IH]; intros v; [cbn; auto|]. cbn [map concat filter]. rewrite !count_occ_app, IH. unfold gl at 1. cbn [aIE]. rewrite cnt_ins. unfold hase at 2. destruct (in_dec Nat.eq_dec ieo (map fst (aIE l))); cbn [length]; lia.
Qed.
Lemma hase_le : forall a L, length (filter (hase a) L) <= cnt (concat (map (fun l => map fst (aIE l)) L)) a.
Proof.
  induction L as [|s L IH]; [cbn; auto|]. cbn [map concat filter]. rewrite count_occ_app. unfold hase at 1. destruct (in_dec Nat.eq_dec a (map fst (aIE s))) as [H|H]; cbn [length]; [|lia]. apply (count_occ_In Nat.eq_dec) in H. lia.
Qed.
Lemma cnt_upd : forall l i y v, i < length l -> cnt (upd l i y) v + one (nth i l 0) v = cnt l v + one y v.
Proof. induction l as [|x l IH]; intros i y v H; cbn [length] in H; [lia|]. destruct i as [|i]; cbn [upd nth]; rewrite !cnt_cons; [lia|]. specialize (IH i y v ltac:(lia)). lia. Qed.
Lemma map_upd : forall {A B} (f : A -> B) l i y, map f (upd l i y) = upd (map f l) i (f y).
Proof. induction l as [|x l IH]; intros [|i] y; cbn; auto. f_equal. auto. Qed.
Lemma upd_id : forall l i (y : nat), nth_error l i = Some y -> upd l i y = l.
Proof. induction l as [|x l IH]; intros [|i] y H; cbn in *; auto; [congruence|]. f_equal. auto. Qed.
Lemma edge_loop : forall t D ie, represents t D -> ie < length (edges t) -> exists l, In l (loops t) /\ In ie (map fst (aIE l)).
Proof.
  intros t D ie R H. assert (C := rp_edge_once t D R ie). rewrite (proj2 (Nat.ltb_lt _ _)) in C by auto. assert (I : In ie (concat (map (fun l => map fst (aIE l)) (loops t)))) by (apply (count_occ_In Nat.eq_dec); lia).
  apply in_concat in I. destruct I as (x & X & Y). apply in_map_iff in X. destruct X as (l & <- & L). eauto.
Qed.
Lemma rep_vtxedge : forall t D ie, represents t D -> exists t', exec (OVtxEdge ie) t = Some t' /\ represents t' (step (ends_of (edges t)) (OVtxEdge ie) D).
Proof.
  intros t D ie R. cbn [exec step]. unfold AddVtx_Edge. destruct (Nat.leb_spec (length (edges t)) ie) as [G|G].
  - replace (ends_of (edges t) ie) with (@None (nat * nat)) by (unfold ends_of; rewrite (proj2 (nth_error_None _ _)) by auto; auto). eauto.
  - unfold vget at 1. destruct (nth_error (edges t) ie) as [e|] eqn:E; [|apply nth_error_None in E; lia]. cbn [bind]. assert (EO : ends_of (edges t) ie = Some (iv0 e, iv1 e)) by (unfold ends_of; rewrite E; auto). rewrite EO.
    set (n := num_vertex t). set (a := iv0 e) in *. set (b := iv1 e) in *.
    rewrite vset_upd by (rewrite app_length; lia). cbn [bind].
    assert (U : upd (edges t ++ [Edge 0 0]) ie (Edge a n) = upd (edges t) ie (Edge a n) ++ [Edge 0 0]). { clear - G. revert ie G. induction (edges t) as [|x l IH]; intros i H; cbn [length] in H; [lia|]. destruct i; cbn; auto. f_equal. apply IH. lia. }
    rewrite U. assert (VS : vset (upd (edges t) ie (Edge a n) ++ [Edge 0 0]) (length (edges t)) (Edge n b) = Some (esplit (edges t) ie n a b)).
    { rewrite <- (upd_length _ (edges t) ie (Edge a n)) at 1. apply vset_mid. } rewrite VS. cbn [bind].
    change (forn 0 (length (loops t)) _ (loops t)) with (forn 0 (length (loops t)) (lbody ie (length (edges t))) (loops t)). unfold forn. rewrite Nat.sub_0_r.
    assert (DIR : forall l, In l (loops t) -> Forall (fun p => snd p = true) (aIE l)) by (intros l Hl; destruct (loop_described t D l R Hl) as (s & _ & Ds); eapply describes_dirs; eauto).
    assert (LB := lbody_all ie (length (edges t)) (loops t) [] DIR). cbn [app length] in LB. rewrite LB. cbn [bind]. eexists. split; [reflexivity|].
    assert (RC := R). destruct R as [R1 R2 R3 R4 R5 R6 R7 R8].
    assert (Ra : a < d_nv D /\ b < d_nv D) by (apply R5; eapply nth_error_In; eauto).
    assert (LE : length (esplit (edges t) ie n a b) = length (edges t) + 1) by (unfold esplit; rewrite app_length, upd_length; auto).
    split; cbn [num_vertex edges loops faces d_nv d_faces]; auto.
    + apply (Forall2_mono _ _ _ _ R2 ltac:(intros ? ? ?; exact (fun x => x))) || idtac.
      assert (X : forall F G, Forall2 (Forall2 (fun il s => exists l, nth_error (loops t) il = Some l /\ describes (edges t) l s)) F G -> Forall2 (Forall2 (fun il s => exists l, nth_error (map (gl ie (length (edges t))) (loops t)) il = Some l /\ describes (esplit (edges t) ie n a b) l s)) F (map (map (shape_split a (d_nv D))) G)).
      { intros F G' H. induction H as [|f g F G' H HF IH]; cbn [map]; constructor; auto. clear - H E EO R1 RC. induction H as [|il s f g (l & L1 & L2) HF IH]; cbn [map]; constructor; auto. exists (gl ie (length (edges t)) l). split; [rewrite nth_error_map, L1; auto|].
        rewrite <- R1. apply describes_split; auto; [apply RC|eapply edge_in_loop_once; eauto; eapply nth_error_In; eauto|]. intros j Hj. eapply edge_in_range; eauto. eapply nth_error_In; eauto. }
      apply X; auto.
    + intros x. rewrite cnt_loops, R3, LE.
      assert (H1 : length (filter (hase ie) (loops t)) = 1). { assert (A := hase_le ie (loops t)). rewrite R3 in A. rewrite (proj2 (Nat.ltb_lt _ _)) in A by auto. destruct (edge_loop t D ie RC G) as (l & L1 & L2). assert (B : 1 <= length (filter (hase ie) (loops t))) by (apply (filter_ge _ _ l); auto; unfold hase; destruct (in_dec _ _ _); tauto). lia. }
      rewrite H1. unfold one. destruct (Nat.eq_dec (length (edges t)) x), (Nat.ltb_spec x (length (edges t))), (Nat.ltb_spec x (length (edges t) + 1)); lia.
    + intros il. rewrite map_length. apply R4.
    + intros f Hf. unfold esplit in Hf. apply in_app_or in Hf. destruct Hf as [Hf|[<-|[]]]; cbn [iv0 iv1]; [|lia]. apply In_nth_error in Hf. destruct Hf as (j & Hj). assert (J : j < length (edges t)) by (rewrite <- (upd_length _ (edges t) ie (Edge a n)); apply nth_error_Some; congruence).
      rewrite (nth_error_nth' _ (Edge 0 0)) in Hj by (rewrite upd_length; auto). injection Hj as <-. destruct (Nat.eq_dec ie j) as [->|NJ]; [rewrite nth_upd_same by auto; cbn; lia|]. rewrite nth_upd_other by auto. specialize (R5 (nth j (edges t) (Edge 0 0)) ltac:(apply nth_In; auto)). lia.
    + intros v. unfold esplit. rewrite map_app, map_upd. cbn [iv0 map]. rewrite upd_id by (rewrite nth_error_map, E; auto). apply cnt_disjoint; auto; [cbn; destruct (Nat.eq_dec n v); lia|]. intros H [H2|[]]. apply in_map_iff in H. destruct H as (f & F1 & F2). specialize (R5 f F2). unfold n in H2. lia.
    + intros v. unfold esplit. rewrite map_app, map_upd. cbn [iv1 map]. rewrite count_occ_app, cnt_cons. cbn [count_occ]. assert (X := cnt_upd (map iv1 (edges t)) ie n v ltac:(rewrite map_length; auto)). assert (NB : nth ie (map iv1 (edges t)) 0 = b) by (apply nth_error_nth; rewrite nth_error_map, E; auto). rewrite NB in X.
      assert (Y := R7 v). destruct (Nat.eq_dec n v) as [Z|Z]; [|unfold one in *; destruct (Nat.eq_dec n v); [congruence|]; lia].
      assert (cnt (map iv1 (edges t)) v = 0). { apply count_occ_not_In. intros I. apply in_map_iff in I. destruct I as (f & F1 & F2). specialize (R5 f F2). unfold n in Z. lia. } unfold one in *. destruct (Nat.eq_dec n v); [|congruence]. lia.
    + intros v. rewrite <- concat_map, cnt_shapes, R8. 
      assert (H1 : length (filter (has a) (concat (d_faces D))) = 1). { assert (A := has_le a (concat (d_faces D))). rewrite R8 in A. rewrite (proj2 (Nat.ltb_lt _ _)) in A by lia. destruct (edge_loop t D ie RC G) as (l & L1 & L2). destruct (loop_described t D l RC L1) as (s & S1 & S2).
        apply in_map_iff in L2. destruct L2 as (q & Q1 & Q2). destruct (describes_ends _ _ _ _ S2 Q2) as (p & P1 & P2). rewrite Q1, EO in P1. injection P1 as <-. assert (B : 1 <= length (filter (has a) (concat (d_faces D)))); [|lia]. apply (filter_ge _ _ s); auto. destruct s as [vs|w]; [|destruct P2]. cbn in *. apply (in_map fst) in P2. rewrite around_fst in P2. cbn [fst] in P2. destruct (in_dec Nat.eq_dec a vs); tauto. }
      rewrite H1. unfold one. destruct (Nat.eq_dec (d_nv D) v), (Nat.ltb_spec v (d_nv D)), (Nat.ltb_spec v (d_nv D + 1)); lia.
Qed.
Lemma rep_empty : represents topo0 (Drawing 0 []).
Proof. split; cbn; auto; intros; try destruct H. Qed.
Lemma rep_step : forall t D o, represents t D -> exists t', exec o t = Some t' /\ represents t' (step (ends_of (edges t)) o D).
Proof. intros t D [|np|i|ie] R; [exists topo0; split; auto; apply rep_empty|apply rep_polygon; auto|apply rep_vtxface; auto|apply rep_vtxedge; auto]. Qed.
Lemma reached_rep : forall P t D, reached P t D -> represents t D.
Proof. intros P t D H. induction H as [|t D o t' H IH Po E]; [apply rep_empty|]. destruct (rep_step t D o IH) as (t2 & E2 & R2). congruence. Qed.
