From Coq Require Import List Arith Bool Reals Lra Lia.
Import ListNotations.
From Verif Require Import Imp MortModel MortSpec BvModel BvSpec BvProofs1 BvProofs2.
Open Scope nat_scope.

Lemma getp_ok : forall xyz i, i * 3 + 2 < length xyz -> getp xyz i = Some (point xyz i).
Proof.
  intros. unfold getp, point. rewrite !(vget_nth _ 0%R) by lia. cbn [bind]. rewrite Nat.add_0_r. auto.
Qed.

Section Maker.
Context {BB : Type}.
Variable inact : BB -> BB.
Variable addp : BB -> v3 -> R -> option BB.
Variable ok : BB -> Prop.      (* a volume that may be extended *)
Variable act : BB -> Prop.
Variable pts : BB -> v3 -> Prop.
Variable near : v3 -> R -> v3 -> Prop.
Hypothesis Hin : forall b, ok (inact b).
Hypothesis Hact : forall b, act b -> ok b.
Hypothesis Hadd : forall b p e, ok b -> (0 <= e)%R -> exists b', addp b p e = Some b' /\ act b' /\
  (forall q, near p e q -> pts b' q) /\ (act b -> forall q, pts b q -> pts b' q).

Lemma mesh_set : forall margin xyz elem nElem nnoel, mesh_ok xyz elem nElem nnoel -> (0 <= margin)%R ->
  forall bb o, o < nElem -> exists bb', SetVolume_Mesh inact addp margin xyz elem nElem nnoel bb o = Some bb' /\
    (forall i q, i < nnoel -> near (corner xyz elem nnoel o i) margin q -> pts bb' q) /\ act bb'.
Proof.
  intros margin xyz elem nElem nnoel (M1 & M2 & M3) Hm bb o Ho. apply wp_ex. unfold SetVolume_Mesh.
  apply wp_bind. apply wp_assertb; [apply Nat.ltb_lt; auto|].
  apply (wp_forn _ (fun k b => ok b /\ (0 < k -> act b) /\ forall i q, i < k -> near (corner xyz elem nnoel o i) margin q -> pts b q)).
  - lia.
  - split; [apply Hin|split; [lia|intros; lia]].
  - intros k b Hk (A & B & C).
    assert (Idx : o * nnoel + k < length elem) by (rewrite M2; nia).
    rewrite (vget_nth _ 0) by auto. cbn [bind]. rewrite getp_ok by (apply M3; apply nth_In; auto). cbn [bind].
    destruct (Hadd b (point xyz (nth (o * nnoel + k) elem 0)) margin A Hm) as (b' & E & D1 & D2 & D3). rewrite E. apply wp_some.
    split; [auto|split; [auto|]]. intros i q Hi Q. destruct (Nat.eq_dec i k) as [->|]; [apply D2; auto|].
    apply D3; [apply B; lia|]. apply (C i); [lia|auto].
  - intros b (A & B & C). split; [auto|apply B; auto].
Qed.

Lemma point_set : forall xyz nv, nv * 3 <= length xyz -> forall bb o, ok bb -> o < nv ->
  exists bb', SetVolume_Point addp xyz nv bb o = Some bb' /\ (forall q, near (point xyz o) 0 q -> pts bb' q) /\ act bb'.
Proof.
  intros xyz nv Hx bb o Hb Ho. unfold SetVolume_Point. rewrite (proj2 (Nat.ltb_lt _ _) Ho). cbn [assertb bind].
  rewrite getp_ok by lia. cbn [bind]. destruct (Hadd bb (point xyz o) 0%R Hb (Rle_refl 0)) as (b' & E & D1 & D2 & D3).
  exists b'. auto.
Qed.
End Maker.

Definition box_addp (b : aabb) (p : v3) (e : R) : option aabb := Some (aabb_AddPoint b p e).
Definition box_add (a b : aabb) : option aabb := Some (aabb_add a b).

Lemma box_addp_ok : forall b p e, proper b \/ inactive b -> (0 <= e)%R -> exists b', box_addp b p e = Some b' /\ proper b' /\
  (forall q, near_box p e q -> inbox b' q) /\ (proper b -> forall q, inbox b q -> inbox b' q).
Proof.
  intros b p e H He. exists (aabb_AddPoint b p e). split; [auto|split; [apply aabb_AddPoint_proper; auto|split]].
  - intros. apply aabb_AddPoint_new; auto.
  - intros. apply aabb_AddPoint_old; auto.
Qed.
Lemma sph_addp_ok : forall b p e, True -> (0 <= e)%R -> exists b', sphere_AddPoint b p e = Some b' /\ (0 <= sr b')%R /\
  (forall q, near_ball p e q -> insphere b' q) /\ ((0 <= sr b)%R -> forall q, insphere b q -> insphere b' q).
Proof.
  intros b p e _ He. destruct (sphere_AddPoint_ok b p e He) as (s & E & A & B & C). exists s.
  split; [auto|split; [auto|split]].
  - intros q Hq. apply (sle_in _ _ q B). exact Hq.
  - intros H q Hq. apply (sle_in _ _ q (C H)). auto.
Qed.

Definition bcont (a b : aabb) : Prop := forall q, inbox a q -> inbox b q.
Lemma box_add_ok : forall a b, proper a -> proper b -> exists c, box_add a b = Some c /\ bcont a c /\ bcont b c /\ proper c.
Proof.
  intros a b Pa Pb. exists (aabb_add a b). split; [auto|split; [|split]].
  - intros q. apply aabb_add_l.
  - intros q. apply aabb_add_r.
  - apply aabb_add_proper; auto.
Qed.
Lemma sph_add_ok : forall a b, (0 <= sr a)%R -> (0 <= sr b)%R -> exists c, sphere_add a b = Some c /\ sle a c /\ sle b c /\ (0 <= sr c)%R.
Proof. intros a b Ha Hb. destruct (sphere_add_ok a b Hb) as (c & A & B & C & D). exists c. auto. Qed.

Lemma good_leaf : forall BB (def : BB) (cont : BB -> BB -> Prop) (act : BB -> Prop) (leafok : nat -> BB -> Prop) u t,
  (forall a, cont a a) -> (forall a b c, cont a b -> cont b c -> cont a c) -> good def cont act leafok u t ->
  forall s, subtree s t -> act (nth (root s) u def) /\ cont (nth (root s) u def) (nth (root t) u def) /\
    (forall k o, In (k, o) (leaves s) -> leafok o (nth k u def) /\ cont (nth k u def) (nth (root s) u def)).
Proof.
  intros BB def cont act leafok u t R T G s Hs.
  destruct (good_sub def cont act leafok R T s t u Hs G) as (G1 & C1).
  split; [apply (good_act _ _ _ _ _ _ G1)|split; [auto|]].
  intros k o H. apply leaf_sub in H. destruct (good_sub def cont act leafok R T _ _ u H G1) as (G2 & C2). cbn [good] in G2. cbn [root] in C2. tauto.
Qed.

Lemma near_ball_refl : forall p, near_ball p 0 p.
Proof. intros. unfold near_ball. rewrite dist_refl. lra. Qed.

Lemma sle_iff : forall s S, (0 <= sr s)%R -> (sle s S <-> forall q, insphere s q -> insphere S q).
Proof.
  intros s S Hs. pose proof (IsInclude_sphere_iff S s 0 Hs) as X. unfold sphere_IsInclude in X. rewrite Distance3_dist, Rleb_true in X.
  assert (E : Sph (sr S + 0) (sc S) = S) by (destruct S; cbn; f_equal; lra). rewrite E in X. unfold sle. rewrite <- X. split; lra.
Qed.
