From Coq Require Import List Arith Bool Reals Lra Lia.
Import ListNotations.
From Verif Require Import Imp MortModel MortSpec BvModel BvSpec BvProofs1.
Open Scope nat_scope.

Lemma sub_trans : forall a b c, subtree a b -> subtree b c -> subtree a c.
Proof. intros a b c H1 H2. induction H2; auto; [apply sub_l|apply sub_r]; auto. Qed.
Lemma root_in : forall t, In (root t) (node_ids t).
Proof. destruct t; cbn; auto. Qed.
Lemma sub_ids : forall s t, subtree s t -> forall k, In k (node_ids s) -> In k (node_ids t).
Proof. intros s t H. induction H; intros; cbn [node_ids]; auto; right; apply in_or_app; auto. Qed.
Lemma sub_objs : forall s t, subtree s t -> forall k, In k (objects s) -> In k (objects t).
Proof. intros s t H. induction H; intros; cbn [objects]; auto; apply in_or_app; auto. Qed.
Lemma leaf_sub : forall t k o, In (k, o) (leaves t) <-> subtree (BLeaf k o) t.
Proof.
  intros t k o. induction t; cbn [leaves].
  - split.
    + intros [E|[]]. inversion E; subst. constructor.
    + intros H. inversion H; subst. left. auto.
  - rewrite in_app_iff, IHt1, IHt2. split.
    + intros [H|H]; [apply sub_l|apply sub_r]; auto.
    + intros H. inversion H; subst; auto.
Qed.
Lemma leaf_obj : forall t o, In o (objects t) <-> exists k, In (k, o) (leaves t).
Proof.
  intros t o. induction t; cbn [objects leaves].
  - split; [intros [->|[]]; exists node; left; auto|intros (k & [E|[]]); inversion E; left; auto].
  - rewrite in_app_iff, IHt1, IHt2. split.
    + intros [(k & H)|(k & H)]; exists k; apply in_or_app; auto.
    + intros (k & H). apply in_app_or in H. destruct H; eauto.
Qed.
Lemma leaf_ids : forall t k o, In (k, o) (leaves t) -> In k (node_ids t).
Proof. intros t k o H. apply leaf_sub in H. apply (sub_ids _ _ H). cbn. auto. Qed.
Lemma rep_ids : forall nodes t par, represents nodes par t -> forall k, In k (node_ids t) -> k < length nodes.
Proof.
  intros nodes. induction t; intros par H k Hk; cbn in *.
  - destruct Hk as [<-|[]]. apply nth_error_Some. congruence.
  - destruct H as (A & B & C). destruct Hk as [<-|Hk]; [apply nth_error_Some; congruence|].
    apply in_app_or in Hk. destruct Hk; eauto.
Qed.
Lemma rep_root : forall nodes t par, represents nodes par t -> exists b, nth_error nodes (root t) = Some b /\ iparent b = par.
Proof. intros nodes [k o|k l r] par H; cbn in *; [|destruct H as (H & _)]; eauto. Qed.
Lemma ids_len : forall nodes t par, represents nodes par t -> NoDup (node_ids t) -> length (node_ids t) <= length nodes.
Proof.
  intros nodes t par H ND. rewrite <- (seq_length (length nodes) 0). apply NoDup_incl_length; auto.
  intros k Hk. apply in_seq. pose proof (rep_ids _ _ _ H k Hk). lia.
Qed.
Lemma nodup_l : forall k l r, NoDup (node_ids (BNode k l r)) -> NoDup (node_ids l) /\ NoDup (node_ids r) /\
  ~ In k (node_ids l) /\ ~ In k (node_ids r) /\ (forall x, In x (node_ids l) -> In x (node_ids r) -> False).
Proof.
  intros k l r H. cbn [node_ids] in H. apply NoDup_cons_iff in H. destruct H as (A & B).
  rewrite in_app_iff in A. 
  assert (C : forall (u v : list nat), NoDup (u ++ v) -> NoDup u /\ NoDup v /\ forall x, In x u -> In x v -> False).
  { induction u; intros v Hv; cbn in *.
    - split; [constructor|split; auto].
    - apply NoDup_cons_iff in Hv. destruct Hv as (V1 & V2). destruct (IHu v V2) as (I1 & I2 & I3). rewrite in_app_iff in V1.
      split; [constructor; auto|split; auto]. intros x [->|Hx] Hx'; eauto. }
  destruct (C _ _ B) as (C1 & C2 & C3). tauto.
Qed.

Lemma vget_err : forall A (v : list A) i x, nth_error v i = Some x -> vget v i = Some x.
Proof. auto. Qed.
Lemma vresize_same : forall A (d : A) v n, length v = n -> vresize d v n = v.
Proof. intros. subst. unfold vresize. rewrite firstn_all, Nat.sub_diag. cbn. apply app_nil_r. Qed.

Section Build.
Context {BB : Type}.
Variable def : BB.
Variable add : BB -> BB -> option BB.
Variable setvol : BB -> nat -> option BB.
Variable cont : BB -> BB -> Prop.
Variable act old : BB -> Prop.
Variable leafok : nat -> BB -> Prop.
Variable obj : nat -> Prop.
Hypothesis Hset : forall bb o, old bb -> obj o -> exists bb', setvol bb o = Some bb' /\ leafok o bb' /\ act bb'.
Hypothesis Hadd : forall a b, act a -> act b -> exists c, add a b = Some c /\ cont a c /\ cont b c /\ act c.
Hypothesis cont_refl : forall a, cont a a.
Hypothesis cont_trans : forall a b c, cont a b -> cont b c -> cont a c.

Fixpoint good (aBB : list BB) (t : btree) : Prop :=
  match t with
  | BLeaf k o => leafok o (nth k aBB def) /\ act (nth k aBB def)
  | BNode k l r => act (nth k aBB def) /\ cont (nth (root l) aBB def) (nth k aBB def) /\ cont (nth (root r) aBB def) (nth k aBB def) /\
                   good aBB l /\ good aBB r
  end.

Lemma good_frame : forall t u v, (forall k, In k (node_ids t) -> nth k u def = nth k v def) -> good u t -> good v t.
Proof.
  induction t; intros u v H G; cbn [good node_ids] in *.
  - rewrite <- (H node (or_introl eq_refl)). auto.
  - destruct G as (A & B & C & D & E).
    assert (H1 : forall k, In k (node_ids t1) -> nth k u def = nth k v def) by (intros; apply H; right; apply in_or_app; auto).
    assert (H2 : forall k, In k (node_ids t2) -> nth k u def = nth k v def) by (intros; apply H; right; apply in_or_app; auto).
    rewrite <- (H node (or_introl eq_refl)). rewrite <- (H1 (root t1)) by apply root_in. rewrite <- (H2 (root t2)) by apply root_in.
    split; [auto|split; [auto|split; [auto|split; [apply (IHt1 u v)|apply (IHt2 u v)]; auto]]].
Qed.
Lemma good_act : forall t u, good u t -> act (nth (root t) u def).
Proof. intros [k o|k l r] u H; cbn in *; tauto. Qed.

Lemma build_lemma : forall nodes t par fuel aBB, represents nodes par t -> NoDup (node_ids t) -> (forall o, In o (objects t) -> obj o) ->
  length (node_ids t) <= fuel -> length aBB = length nodes -> (forall k, In k (node_ids t) -> old (nth k aBB def)) ->
  exists aBB', BuildGeometry def add setvol fuel aBB (root t) nodes = Some aBB' /\ length aBB' = length nodes /\
    (forall k, ~ In k (node_ids t) -> nth k aBB' def = nth k aBB def) /\ good aBB' t.
Proof.
  intros nodes. induction t as [k o|k l IHl r IHr]; intros par fuel aBB Hrep ND Hobj Hf Hlen Hold;
    (destruct fuel as [|fuel]; [cbn in Hf; lia|]); pose proof (rep_ids _ _ _ Hrep _ (root_in _)) as Hk; cbn [root] in Hk.
  - cbn [represents] in Hrep. cbn [BuildGeometry root]. rewrite vresize_same by auto.
    rewrite (proj2 (Nat.ltb_lt _ _) Hk). cbn [assertb bind]. rewrite (vget_err _ _ _ _ Hrep). cbn [bind ichild0 ichild1].
    rewrite (vget_nth _ def) by lia. cbn [bind].
    destruct (Hset (nth k aBB def) o) as (bb & E & L & A); [apply Hold; cbn; auto|apply Hobj; cbn; auto|]. rewrite E. cbn [bind].
    rewrite vset_upd by lia. eexists. split; [reflexivity|]. rewrite upd_length. split; [auto|split].
    + intros j Hj. apply nth_upd_other. cbn in Hj. intros ->. auto.
    + cbn [good]. rewrite nth_upd_same by lia. auto.
  - destruct Hrep as (Hn & Hl & Hr). destruct (nodup_l _ _ _ ND) as (N1 & N2 & N3 & N4 & N5).
    cbn [BuildGeometry root]. rewrite vresize_same by auto.
    rewrite (proj2 (Nat.ltb_lt _ _) Hk). cbn [assertb bind]. rewrite (vget_err _ _ _ _ Hn). cbn [bind ichild0 ichild1].
    destruct (rep_root _ _ _ Hl) as (bl & El & Pl). destruct (rep_root _ _ _ Hr) as (br & Er & Pr).
    rewrite (vget_err _ _ _ _ El). cbn [bind]. rewrite Pl, Nat.eqb_refl. cbn [assertb bind].
    rewrite (vget_err _ _ _ _ Er). cbn [bind]. rewrite Pr, Nat.eqb_refl. cbn [assertb bind].
    cbn [node_ids objects length] in *. rewrite app_length in Hf.
    destruct (IHl (Some k) fuel aBB Hl N1) as (u & E1 & L1 & F1 & G1); auto; [intros; apply Hobj; apply in_or_app; auto|lia|
      intros; apply Hold; right; apply in_or_app; auto|].
    rewrite E1. cbn [bind].
    destruct (IHr (Some k) fuel u Hr N2) as (w & E2 & L2 & F2 & G2); auto; [intros; apply Hobj; apply in_or_app; auto|lia| |].
    { intros j Hj. rewrite F1; [apply Hold; right; apply in_or_app; auto|]. intros X. eauto. }
    rewrite E2. cbn [bind].
    pose proof (rep_ids _ _ _ Hl _ (root_in l)) as Kl. pose proof (rep_ids _ _ _ Hr _ (root_in r)) as Kr.
    assert (Kln : root l <> k) by (intros X; apply N3; rewrite <- X; apply root_in).
    assert (Krn : root r <> k) by (intros X; apply N4; rewrite <- X; apply root_in).
    rewrite (vget_nth _ def) by lia. cbn [bind]. rewrite vset_upd by lia. cbn [bind].
    rewrite !(vget_nth _ def) by (rewrite upd_length; lia). cbn [bind].
    rewrite nth_upd_same by lia. rewrite nth_upd_other by auto.
    assert (G1' : good w l). { apply good_frame with u; auto. intros j Hj. symmetry. apply F2. intros X. eauto. }
    destruct (Hadd (nth (root l) w def) (nth (root r) w def) (good_act _ _ G1') (good_act _ _ G2)) as (c & EC & C1 & C2 & C3).
    rewrite EC. cbn [bind]. rewrite vset_upd by (rewrite upd_length; lia).
    eexists. split; [reflexivity|]. rewrite !upd_length. split; [auto|].
    assert (EU : upd (upd w k (nth (root l) w def)) k c = upd w k c).
    { apply list_ext with (d := def); [rewrite !upd_length; auto|]. intros j _.
      destruct (Nat.eq_dec j k) as [->|]; [rewrite !nth_upd_same by (rewrite ?upd_length; lia); auto|rewrite !nth_upd_other by auto; auto]. }
    rewrite EU. split.
    + intros j Hj. rewrite nth_upd_other by (intros ->; apply Hj; left; auto). rewrite F2, F1; auto; intros X; apply Hj; right; apply in_or_app; auto.
    + assert (Fr : forall j, j <> k -> nth j w def = nth j (upd w k c) def) by (intros; rewrite nth_upd_other; auto).
      cbn [good]. rewrite nth_upd_same by lia. rewrite <- !Fr by auto. repeat split; auto.
      * apply good_frame with w; auto. intros j Hj. apply Fr. intros ->. auto.
      * apply good_frame with w; auto. intros j Hj. apply Fr. intros ->. auto.
Qed.

Lemma good_sub : forall s t u, subtree s t -> good u t -> good u s /\ cont (nth (root s) u def) (nth (root t) u def).
Proof.
  intros s t u H. induction H; intros G.
  - split; auto.
  - destruct G as (A & B & C & D & E). destruct (IHsubtree D). split; eauto.
  - destruct G as (A & B & C & D & E). destruct (IHsubtree E). split; eauto.
Qed.

Lemma build_top : forall nodes t par aBB, represents nodes par t -> NoDup (node_ids t) -> (forall o, In o (objects t) -> obj o) ->
  (forall k, In k (node_ids t) -> old (nth k (vresize def aBB (length nodes)) def)) ->
  exists aBB', BuildGeometry def add setvol (length nodes) aBB (root t) nodes = Some aBB' /\ length aBB' = length nodes /\ good aBB' t.
Proof.
  intros nodes t par aBB Hr ND Ho Hold. pose proof (ids_len _ _ _ Hr ND) as L.
  assert (P : 0 < length nodes). { pose proof (rep_ids _ _ _ Hr _ (root_in t)). lia. }
  assert (E : forall fuel, BuildGeometry def add setvol (S fuel) aBB (root t) nodes = BuildGeometry def add setvol (S fuel) (vresize def aBB (length nodes)) (root t) nodes).
  { intros. cbn [BuildGeometry]. rewrite (vresize_same _ def (vresize def aBB (length nodes))) by (apply vresize_length). auto. }
  destruct (length nodes) as [|m] eqn:EN; [lia|]. rewrite E, <- EN. rewrite <- EN in *.
  destruct (build_lemma nodes t par (S m) (vresize def aBB (length nodes)) Hr ND Ho) as (u & A & B & C & D); auto; [lia|apply vresize_length|].
  rewrite EN in *. exists u. auto.
Qed.
End Build.

(** queries *)
Section Query.
Context {BB : Type}.
Variable nodes : list bnode.
Variable aBB : list BB.
Variable pred : nat -> list BB -> option bool.
Variable P : nat -> bool.

Fixpoint hits (t : btree) : list nat :=
  match t with BLeaf k o => if P k then [o] else [] | BNode k l r => if P k then hits l ++ hits r else [] end.

Lemma query_lemma : forall t par fuel acc, represents nodes par t -> length (node_ids t) <= fuel ->
  (forall k, In k (node_ids t) -> pred k aBB = Some (P k)) -> (forall o, In o (objects t) -> o < length aBB) ->
  GetIndElem pred fuel acc (root t) nodes aBB = Some (acc ++ hits t).
Proof.
  induction t as [k o|k l IHl r IHr]; intros par fuel acc Hrep Hf HP Ho;
    (destruct fuel as [|fuel]; [cbn in Hf; lia|]); pose proof (rep_ids _ _ _ Hrep _ (root_in _)) as Hk; cbn [root] in Hk; cbn [GetIndElem root hits].
  - rewrite (proj2 (Nat.ltb_lt _ _) Hk). cbn [assertb bind]. rewrite HP by (cbn; auto). cbn [bind].
    destruct (P k); cbn [negb]; [|rewrite app_nil_r; auto].
    cbn [represents] in Hrep. rewrite (vget_err _ _ _ _ Hrep). cbn [bind ichild0 ichild1].
    rewrite (proj2 (Nat.ltb_lt _ _)) by (apply Ho; cbn; auto). auto.
  - rewrite (proj2 (Nat.ltb_lt _ _) Hk). cbn [assertb bind]. rewrite HP by (cbn; auto). cbn [bind].
    destruct (P k); cbn [negb]; [|rewrite app_nil_r; auto].
    destruct Hrep as (Hn & Hl & Hr). rewrite (vget_err _ _ _ _ Hn). cbn [bind ichild0 ichild1].
    cbn [node_ids objects length] in *. rewrite app_length in Hf.
    rewrite (IHl (Some k)); auto; [|lia|intros; apply HP; right; apply in_or_app; auto|intros; apply Ho; apply in_or_app; auto].
    cbn [bind]. rewrite (IHr (Some k)); auto; [|lia|intros; apply HP; right; apply in_or_app; auto|intros; apply Ho; apply in_or_app; auto].
    rewrite app_assoc. auto.
Qed.

Lemma hits_mono : forall t, (forall s s', subtree s t -> subtree s' s -> P (root s') = true -> P (root s) = true) ->
  hits t = map snd (filter (fun ko => P (fst ko)) (leaves t)).
Proof.
  induction t as [k o|k l IHl r IHr]; intros H; cbn [hits leaves].
  - cbn. destruct (P k); auto.
  - rewrite filter_app, map_app, <- IHl, <- IHr.
    + destruct (P k) eqn:E; auto.
      assert (Z : forall t, subtree t (BNode k l r) -> P (root t) = false -> hits t = []).
      { intros [a b|a b c] _ X; cbn in *; rewrite X; auto. }
      rewrite !Z; auto.
      * apply sub_r, sub_refl.
      * destruct (P (root r)) eqn:X; auto. rewrite <- E. symmetry. apply (H (BNode k l r) r); auto; [constructor|apply sub_r, sub_refl].
      * apply sub_l, sub_refl.
      * destruct (P (root l)) eqn:X; auto. rewrite <- E. symmetry. apply (H (BNode k l r) l); auto; [constructor|apply sub_l, sub_refl].
    + intros s s' A B. apply H; auto. apply sub_r; auto.
    + intros s s' A B. apply H; auto. apply sub_l; auto.
Qed.
End Query.

(** nearest point *)
Section Near.
Variable nodes : list bnode.
Variable aBB : list sphere.
Variable p : v3.
Variable pos : nat -> v3.
Open Scope R_scope.
Definition dd (k : nat) : R := dist (pos k) p.

Definition okst (st : nat * R) : Prop := snd st < 0 \/ snd st = dd (fst st).
(** [st'] is [st] improved by the objects of [t]. *)
Definition improved (st : nat * R) (objs : list nat) (st' : nat * R) : Prop :=
  (st' = st \/ In (fst st') objs /\ snd st' = dd (fst st')) /\
  (forall o, In o objs -> 0 <= snd st' <= dd o) /\ (0 <= snd st -> 0 <= snd st' <= snd st).

Lemma dd_pos : forall k, 0 <= dd k. Proof. intros. apply dist_pos. Qed.

Lemma near_lemma : forall t par fuel st, represents nodes par t -> (length (node_ids t) <= fuel)%nat -> length aBB = length nodes ->
  (forall s, subtree s t -> 0 <= sr (nth (root s) aBB sphere0) /\ forall o, In o (objects s) -> insphere (nth (root s) aBB sphere0) (pos o)) ->
  (forall k o, In (k, o) (leaves t) -> nth k aBB sphere0 = Sph 0 (pos o)) ->
  exists st', IndPoint_NearestPoint sphere_Range fuel st p (root t) nodes aBB = Some st' /\ improved st (objects t) st'.
Proof.
  induction t as [k o|k l IHl r IHr]; intros par fuel st Hrep Hf Hlen Hin Hleaf;
    (destruct fuel as [|fuel]; [cbn in Hf; lia|]); pose proof (rep_ids _ _ _ Hrep _ (root_in _)) as Hk; cbn [root] in Hk;
    cbn [IndPoint_NearestPoint root]; rewrite Hlen, Nat.eqb_refl; cbn [assertb bind];
    destruct st as [ip cur]; rewrite (vget_nth _ sphere0) by lia; cbn [bind];
    destruct (Hin _ (sub_refl _)) as (A & B); cbn [root] in A, B; pose proof (sphere_range_ok (nth k aBB sphere0) (1, -1) p A) as RR;
    destruct (sphere_Range (nth k aBB sphere0) (1, -1) p) as [mn mx] eqn:ER; destruct RR as (R1 & R2 & _);
    rewrite (proj2 (Rltb_false mx mn)) by lra.
  - rewrite (Hleaf k o) in * by (cbn; auto).
    assert (EE : mn = dd o /\ mx = dd o).
    { unfold sphere_Range in ER. cbn [sr sc] in ER. rewrite (proj2 (Rltb_false 0 0)) in ER by lra. rewrite Distance3_dist in ER.
      pose proof (dist_pos p (pos o)). unfold dd. rewrite (dist_sym (pos o)).
      rewrite (proj2 (Rltb_false _ 0)) in ER by lra. injection ER as <- <-. lra. }
    destruct EE as (-> & ->). clear R1 R2 ER A B.
    destruct (Rltb 0 cur && Rltb cur (dd o)) eqn:EP.
    { apply andb_true_iff in EP. rewrite !Rltb_true in EP. eexists. split; [reflexivity|]. split; [auto|]. cbn [fst snd objects In]. split; [|lra].
      intros o' [<-|[]]. lra. }
    cbn [represents] in Hrep. rewrite (vget_err _ _ _ _ Hrep). cbn [bind ichild0 ichild1].
    destruct (Req_EM_T (dd o) (dd o)) as [_|X]; [|congruence]. cbn [assertb bind]. pose proof (dd_pos o).
    destruct (Rltb cur 0 || Rltb (dd o) cur) eqn:EU.
    + apply orb_true_iff in EU. rewrite !Rltb_true in EU. eexists. split; [reflexivity|]. unfold improved. cbn [fst snd objects In].
      split; [right; auto|]. split; [intros o' [<-|[]]; lra|]. lra.
    + apply orb_false_iff in EU. rewrite !Rltb_false in EU. eexists. split; [reflexivity|]. unfold improved. cbn [fst snd objects In].
      split; [auto|]. split; [intros o' [<-|[]]; lra|]. lra.
  - destruct (Rltb 0 cur && Rltb cur mn) eqn:EP.
    { apply andb_true_iff in EP. rewrite !Rltb_true in EP. eexists. split; [reflexivity|]. unfold improved. cbn [fst snd].
      split; [auto|]. split; [|lra]. intros o Ho. specialize (R2 (pos o) (B o Ho)). unfold dd. lra. }
    destruct Hrep as (Hn & Hl & Hr). rewrite (vget_err _ _ _ _ Hn). cbn [bind ichild0 ichild1].
    cbn [node_ids length] in Hf. rewrite app_length in Hf.
    destruct (IHl (Some k) fuel (ip, cur) Hl) as (st1 & E1 & I1); auto; [lia|intros; apply Hin; apply sub_l; auto|intros; apply Hleaf; cbn; apply in_or_app; auto|].
    rewrite E1. cbn [bind].
    destruct (IHr (Some k) fuel st1 Hr) as (st2 & E2 & I2); auto; [lia|intros; apply Hin; apply sub_r; auto|intros; apply Hleaf; cbn; apply in_or_app; auto|].
    exists st2. split; auto. clear E1 E2 IHl IHr. destruct I1 as (P1 & Q1 & S1), I2 as (P2 & Q2 & S2). cbn [objects]. split; [|split].
    + destruct P2 as [->|(P2 & P2')].
      * destruct P1 as [->|(P1 & P1')]; auto. right. split; [apply in_or_app; auto|auto].
      * right. split; [apply in_or_app; auto|auto].
    + intros o Ho. apply in_app_or in Ho. destruct Ho as [Ho|Ho]; auto. specialize (Q1 o Ho). specialize (S2 ltac:(lra)). lra.
    + intros H. specialize (S1 H). specialize (S2 ltac:(lra)). lra.
Qed.

(** range of the distance to the nearest point *)
Definition lo (k : nat) : R := fst (sphere_Range (nth k aBB sphere0) (1, -1) p).
Definition hi (k : nat) : R := snd (sphere_Range (nth k aBB sphere0) (1, -1) p).
Definition least (f : nat -> R) (ks : list nat) (m0 : option R) (m : R) : Prop :=
  (m0 = Some m \/ exists k, In k ks /\ f k = m) /\ (forall k, In k ks -> m <= f k) /\ (forall x, m0 = Some x -> m <= x).
Definition valid (mm : R * R) : bool := Rleb (fst mm) (snd mm).
Definition start (mm : R * R) (x : R) : option R := if valid mm then Some x else None.

Lemma least_app : forall f u v m0 m1 m2, least f u m0 m1 -> least f v (Some m1) m2 -> least f (u ++ v) m0 m2.
Proof.
  intros f u v m0 m1 m2 (A & B & C) (A' & B' & C'). pose proof (C' m1 eq_refl). split; [|split].
  - destruct A' as [E|(k & K & E)].
    + injection E as <-. destruct A as [A|(k & K & E)]; auto. right. exists k. split; [apply in_or_app; auto|auto].
    + right. exists k. split; [apply in_or_app; auto|auto].
  - intros k Hk. apply in_app_or in Hk. destruct Hk as [Hk|Hk]; auto. specialize (B k Hk). lra.
  - intros x Hx. specialize (C x Hx). lra.
Qed.

Lemma range_lemma : forall t par fuel mm, represents nodes par t -> (length (node_ids t) <= fuel)%nat -> length aBB = length nodes ->
  (forall s, subtree s t -> 0 <= sr (nth (root s) aBB sphere0)) ->
  (forall s s', subtree s t -> subtree s' s -> lo (root s) <= lo (root s')) ->
  exists mm', Range_DistToNearestPoint sphere_Range fuel mm p (root t) nodes aBB = Some mm' /\ fst mm' <= snd mm' /\
    least lo (map fst (leaves t)) (start mm (fst mm)) (fst mm') /\ least hi (map fst (leaves t)) (start mm (snd mm)) (snd mm').
Proof.
  induction t as [k o|k l IHl r IHr]; intros par fuel mm Hrep Hf Hlen Hact Hin;
    (destruct fuel as [|fuel]; [cbn in Hf; lia|]); pose proof (rep_ids _ _ _ Hrep _ (root_in _)) as Hk; cbn [root] in Hk;
    cbn [Range_DistToNearestPoint root];
    destruct mm as [mn mx]; rewrite (vget_nth _ sphere0) by lia; cbn [bind];
    pose proof (Hact _ (sub_refl _)) as A; cbn [root] in A; pose proof (sphere_range_ok (nth k aBB sphere0) (1, -1) p A) as RR;
    assert (EL : lo k = fst (sphere_Range (nth k aBB sphere0) (1, -1) p)) by reflexivity;
    assert (EH : hi k = snd (sphere_Range (nth k aBB sphere0) (1, -1) p)) by reflexivity;
    destruct (sphere_Range (nth k aBB sphere0) (1, -1) p) as [m0 x0] eqn:ER; cbn [fst snd] in EL, EH; destruct RR as (R1 & _);
    rewrite (proj2 (Rltb_false x0 m0)) by lra.
  - cbn [leaves map fst].
    destruct (Rleb mn mx && Rltb mx m0) eqn:EP.
    { apply andb_true_iff in EP. rewrite Rleb_true, Rltb_true in EP. eexists. split; [reflexivity|]. cbn [fst snd]. split; [lra|].
      unfold start, valid. cbn [fst snd]. rewrite (proj2 (Rleb_true mn mx)) by lra. unfold least. cbn [In].
      split; (split; [auto|split]).
      - intros k' [<-|[]]. lra.
      - intros x E. injection E as <-. lra.
      - intros k' [<-|[]]. lra.
      - intros x E. injection E as <-. lra. }
    cbn [represents] in Hrep. rewrite (vget_err _ _ _ _ Hrep). cbn [bind ichild0 ichild1].
    destruct (Rltb mx mn) eqn:E1.
    + apply Rltb_true in E1. eexists. split; [reflexivity|]. cbn [fst snd]. split; [lra|].
      unfold start, valid. cbn [fst snd]. rewrite (proj2 (Rleb_false mn mx)) by lra. unfold least. cbn [In].
      split; (split; [right; exists k; auto|split; [|discriminate]]); intros k' [<-|[]]; lra.
    + apply Rltb_false in E1. rewrite (proj2 (Rleb_true mn mx)) in EP by auto. cbn [andb] in EP. apply Rltb_false in EP.
      eexists. split; [reflexivity|]. cbn [fst snd].
      unfold start, valid. cbn [fst snd]. rewrite (proj2 (Rleb_true mn mx)) by lra. unfold least. cbn [In].
      destruct (Rltb m0 mn) eqn:F1; destruct (Rltb x0 mx) eqn:F2; rewrite ?Rltb_true, ?Rltb_false in *;
      (split; [lra|]); (split; (split; [try (left; reflexivity); right; exists k; auto|split]));
      try (intros k' [<-|[]]; lra); intros x E; injection E as <-; lra.
  - cbn [leaves]. rewrite map_app.
    destruct (Rleb mn mx && Rltb mx m0) eqn:EP.
    { apply andb_true_iff in EP. rewrite Rleb_true, Rltb_true in EP. eexists. split; [reflexivity|]. cbn [fst snd]. split; [lra|].
      unfold start, valid. cbn [fst snd]. rewrite (proj2 (Rleb_true mn mx)) by lra.
      assert (Q : forall k', In k' (map fst (leaves l) ++ map fst (leaves r)) -> m0 <= lo k' /\ lo k' <= hi k').
      { intros k' Hk'. rewrite <- map_app in Hk'. apply in_map_iff in Hk'. destruct Hk' as ((k2 & o2) & E & HI). cbn in E. subst k2.
        change (leaves l ++ leaves r) with (leaves (BNode k l r)) in HI. apply leaf_sub in HI.
        pose proof (Hin _ _ (sub_refl _) HI) as X. cbn [root] in X. split; [lra|].
        pose proof (Hact _ HI) as Y. cbn [root] in Y. pose proof (sphere_range_ok (nth k' aBB sphere0) (1, -1) p Y) as W.
        unfold lo, hi. destruct (sphere_Range (nth k' aBB sphere0) (1, -1) p). cbn [fst snd]. lra. }
      unfold least.
      split; (split; [auto|split]).
      - intros k' Hk'. specialize (Q k' Hk'). lra.
      - intros x E. injection E as <-. lra.
      - intros k' Hk'. specialize (Q k' Hk'). lra.
      - intros x E. injection E as <-. lra. }
    destruct Hrep as (Hn & Hl & Hr). rewrite (vget_err _ _ _ _ Hn). cbn [bind ichild0 ichild1].
    cbn [node_ids length] in Hf. rewrite app_length in Hf.
    destruct (IHl (Some k) fuel (mn, mx) Hl) as (m1 & E1 & V1 & L1 & H1); auto; [lia|intros; apply Hact; apply sub_l; auto|intros; apply Hin; auto; apply sub_l; auto|].
    rewrite E1. cbn [bind].
    destruct (IHr (Some k) fuel m1 Hr) as (m2 & E2 & V2 & L2 & H2); auto; [lia|intros; apply Hact; apply sub_r; auto|intros; apply Hin; auto; apply sub_r; auto|].
    exists m2. split; [auto|split; [auto|]]. unfold start, valid in L2, H2. rewrite (proj2 (Rleb_true _ _) V1) in L2, H2.
    split; eapply least_app; eauto.
Qed.
End Near.
