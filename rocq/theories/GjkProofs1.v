(** Hulls, the furthest point and the support of the set of differences. *)
From Coq Require Import List Arith Bool Reals Lra Lia.
Import ListNotations.
From Verif Require Import Imp PrModel PolyModel HullSpec GjkModel GjkSpec.
Open Scope R_scope.

Lemma ltRs : forall a b, if ltR a b then a < b else b <= a. Proof. intros. unfold ltR. destruct (Rlt_dec a b); lra. Qed.
Lemma eqRs : forall a b, if eqR a b then a = b else a <> b. Proof. intros. unfold eqR. destruct (Req_EM_T a b); auto. Qed.

Definition lincomb (x y z : R) (a b c : pt) : pt := (x * fst a + y * fst b + z * fst c, x * snd a + y * snd b + z * snd c).
Lemma hull_mono : forall (S T : pt -> Prop) x, (forall y, S y -> T y) -> hull S x -> hull T x.
Proof. intros S T x H HS. induction HS; [apply hull_in; auto|apply hull_seg; auto]. Qed.
Lemma hull3 : forall (S : pt -> Prop) x y z a b c, S a -> S b -> S c -> 0 <= x -> 0 <= y -> 0 <= z -> x + y + z = 1 -> hull S (lincomb x y z a b c).
Proof.
  intros S x y z a b c Ha Hb Hc X Y Z E. destruct (Req_dec (y + z) 0) as [E0|N].
  - assert (y = 0) by lra. assert (z = 0) by lra. subst y z. assert (x = 1) by lra. subst x. replace (lincomb 1 0 0 a b c) with a; [apply hull_in; auto|].
    unfold lincomb. destruct a. cbn [fst snd]. f_equal; ring.
  - assert (Q : hull S ((1 - z / (y + z)) * fst b + z / (y + z) * fst c, (1 - z / (y + z)) * snd b + z / (y + z) * snd c)).
    { apply hull_seg; try (apply hull_in; auto). assert (0 < y + z) by lra. split; [apply Rmult_le_pos; auto; left; apply Rinv_0_lt_compat; auto|].
      apply Rmult_le_reg_r with (y + z); auto. field_simplify; lra. }
    pose proof (hull_seg S a _ (y + z) (hull_in S a Ha) Q ltac:(lra)) as Q2. cbn [fst snd] in Q2.
    replace (lincomb x y z a b c) with ((1 - (y + z)) * fst a + (y + z) * ((1 - z / (y + z)) * fst b + z / (y + z) * fst c), (1 - (y + z)) * snd a + (y + z) * ((1 - z / (y + z)) * snd b + z / (y + z) * snd c)); auto.
    unfold lincomb. assert (x = 1 - (y + z)) by lra. subst x. f_equal; field; auto.
Qed.
Lemma hull_bound : forall (S : pt -> Prop) u k x, (forall y, S y -> dotp u y <= k) -> hull S x -> dotp u x <= k.
Proof.
  intros S u k x H HS. induction HS; auto. unfold dotp in *. cbn [fst snd].
  replace (fst u * ((1 - t) * fst x + t * fst y) + snd u * ((1 - t) * snd x + t * snd y)) with ((1 - t) * (fst u * fst x + snd u * snd x) + t * (fst u * fst y + snd u * snd y)) by ring.
  assert ((1 - t) * (fst u * fst x + snd u * snd x) <= (1 - t) * k) by (apply Rmult_le_compat_l; lra).
  assert (t * (fst u * fst y + snd u * snd y) <= t * k) by (apply Rmult_le_compat_l; lra). lra.
Qed.

(** The differences of the points. *)
Definition diffs (A B : list pt) : list pt := map (fun p => subp (fst p) (snd p)) (list_prod A B).
Lemma in_diffs : forall A B x, In x (diffs A B) <-> exists a b, In a A /\ In b B /\ x = subp a b.
Proof.
  intros. unfold diffs. rewrite in_map_iff. split.
  - intros ((a, b) & E & H). apply in_prod_iff in H. exists a, b. subst x. cbn [fst snd]. tauto.
  - intros (a & b & Ha & Hb & ->). exists (a, b). split; auto. apply in_prod; auto.
Qed.
Lemma hull_add : forall (S : pt -> Prop) (T : pt -> Prop) (s : R) (b : pt) x, (forall y, S y -> T (fst y + s * fst b, snd y + s * snd b)) -> hull S x -> hull T (fst x + s * fst b, snd x + s * snd b).
Proof.
  intros S T s b x H HS. induction HS; [apply hull_in; auto|]. cbn [fst snd].
  replace ((1 - t) * fst x + t * fst y + s * fst b, (1 - t) * snd x + t * snd y + s * snd b) with
    ((1 - t) * fst (fst x + s * fst b, snd x + s * snd b) + t * fst (fst y + s * fst b, snd y + s * snd b), (1 - t) * snd (fst x + s * fst b, snd x + s * snd b) + t * snd (fst y + s * fst b, snd y + s * snd b))
    by (cbn [fst snd]; f_equal; ring).
  apply hull_seg; auto.
Qed.
(** The hulls have a common point if and only if the origin is in the hull of the differences. *)
Lemma hull_diffs : forall A B z, hull (fun x => In x (diffs A B)) z -> exists x y, hullof A x /\ hullof B y /\ z = subp x y.
Proof.
  intros A B z H. induction H as [z Hz|z z' t H1 IH1 H2 IH2 Ht].
  - apply in_diffs in Hz. destruct Hz as (a & b & Ha & Hb & ->). exists a, b. repeat split; try apply hull_in; auto.
  - destruct IH1 as (x1 & y1 & X1 & Y1 & ->). destruct IH2 as (x2 & y2 & X2 & Y2 & ->).
    exists ((1 - t) * fst x1 + t * fst x2, (1 - t) * snd x1 + t * snd x2), ((1 - t) * fst y1 + t * fst y2, (1 - t) * snd y1 + t * snd y2).
    split; [apply hull_seg; auto|]. split; [apply hull_seg; auto|]. unfold subp. cbn [fst snd]. f_equal; ring.
Qed.
Lemma collide_of : forall A B, hull (fun x => In x (diffs A B)) (0, 0) -> collide A B.
Proof.
  intros A B H. apply hull_diffs in H. destruct H as (x & y & X & Y & E). unfold subp in E. injection E as E1 E2.
  assert (x = y) by (destruct x, y; cbn [fst snd] in *; f_equal; lra). subst y. exists x. auto.
Qed.
(** A direction that separates strictly. *)
Lemma not_collide : forall A B d, (forall a b, In a A -> In b B -> dotp d (subp a b) < 0) -> A <> [] -> B <> [] -> ~ collide A B.
Proof.
  intros A B d H NA NB (x & HA & HB).
  assert (MX : forall d (l : list pt), l <> [] -> exists k, (exists a, In a l /\ dotp d a = k) /\ forall a, In a l -> dotp d a <= k).
  { clear. intros d. induction l as [|a l IH]; intros N; [congruence|]. destruct l as [|b l].
    - exists (dotp d a). split; [exists a; cbn; auto|]. intros q [<-|[]]; lra.
    - destruct IH as (k & (q & Q & E) & K); [discriminate|]. destruct (Rle_lt_dec (dotp d a) k).
      + exists k. split; [exists q; cbn; cbn in Q; tauto|]. intros z [<-|Z]; auto.
      + exists (dotp d a). split; [exists a; cbn; auto|]. intros z [<-|Z]; [lra|]. specialize (K z Z). lra. }
  destruct (MX d A NA) as (k & (a & Ha & Ea) & Ka).
  assert (X1 : dotp d x <= k) by (exact (hull_bound _ d k x Ka HA)).
  destruct (MX (- fst d, - snd d) B NB) as (k' & (b & Hb & Eb) & Kb).
  assert (X3 : dotp (- fst d, - snd d) x <= k') by (exact (hull_bound _ _ k' x Kb HB)).
  specialize (H a b Ha Hb). unfold dotp, subp in *. cbn [fst snd] in *. lra.
Qed.

(** The furthest point. *)
Lemma furthest_fold : forall u l r k, k = dotp u r ->
  exists r', fold_left (fun '(ret, max_dist) vert => let dist := ndot (Some u) vert in if nlt dist max_dist then (ret, max_dist) else (vert, dist)) l (r, Some k) = (r', Some (dotp u r'))
   /\ (r' = r \/ In r' l) /\ dotp u r <= dotp u r' /\ forall x, In x l -> dotp u x <= dotp u r'.
Proof.
  induction l as [|x l IH]; intros r k ->.
  - exists r. repeat split; auto; try lra. intros x [].
  - cbn [fold_left]. cbn [ndot option_map nlt]. pose proof (ltRs (dotp u x) (dotp u r)) as L. destruct (ltR (dotp u x) (dotp u r)).
    + destruct (IH r _ eq_refl) as (r' & E & I & L1 & L2). exists r'. split; [exact E|]. split; [cbn; tauto|]. split; auto. intros y [<-|Y]; auto. lra.
    + destruct (IH x _ eq_refl) as (r' & E & I & L1 & L2). exists r'. split; [exact E|]. split; [cbn; destruct I; subst; auto|]. split; [lra|]. intros y [<-|Y]; auto.
Qed.
Lemma FindFurthest_ok : forall u l, l <> [] -> exists r, FindFurthest l (Some u) = Some r /\ In r l /\ forall x, In x l -> dotp u x <= dotp u r.
Proof.
  intros u [|v0 l] N; [congruence|]. unfold FindFurthest. cbn [vget nth_error bind]. cbn [fold_left].
  replace (nlt (ndot (Some u) v0) None) with false by reflexivity.
  destruct (furthest_fold u l v0 _ eq_refl) as (r' & E & I & L1 & L2). cbn [ndot option_map]. cbn [ndot option_map] in E. rewrite E. cbn [fst]. exists r'. split; auto. split; [cbn; destruct I; auto|].
  intros x [<-|X]; auto.
Qed.
Lemma FindFurthest_nan : forall l, l <> [] -> exists r, FindFurthest l None = Some r /\ In r l.
Proof.
  intros [|v0 l] N; [congruence|]. unfold FindFurthest. cbn [vget nth_error bind].
  assert (Q : forall k r, In r (v0 :: l) -> (forall x, In x k -> In x (v0 :: l)) ->
    In (fst (fold_left (fun '(ret, max_dist) vert => let dist := ndot None vert in if nlt dist max_dist then (ret, max_dist) else (vert, dist)) k (r, None))) (v0 :: l)).
  { induction k as [|x k IH]; intros r Hr Hk; [exact Hr|]. cbn [fold_left]. cbn [ndot option_map nlt]. apply IH; [apply Hk; cbn; auto|]. intros y Y. apply Hk. cbn; auto. }
  eexists. split; [reflexivity|]. apply Q; cbn; auto.
Qed.
Lemma support_ok : forall A B u, A <> [] -> B <> [] -> exists p, support A B (Some u) = Some p /\ In p (diffs A B) /\ forall x, In x (diffs A B) -> dotp u x <= dotp u p.
Proof.
  intros A B u NA NB. unfold support. destruct (FindFurthest_ok u A NA) as (a & Ea & Ia & La). rewrite Ea. cbn [bind].
  cbn [nneg option_map]. destruct (FindFurthest_ok (- fst u, - snd u) B NB) as (b & Eb & Ib & Lb). rewrite Eb. cbn [bind]. eexists. split; [reflexivity|]. split.
  - apply in_diffs. exists a, b. auto.
  - intros x Hx. apply in_diffs in Hx. destruct Hx as (a' & b' & Ha & Hb & ->). specialize (La a' Ha). specialize (Lb b' Hb). unfold dotp, subp in *. cbn [fst snd] in *. lra.
Qed.
Lemma support_in : forall A B d, A <> [] -> B <> [] -> exists p, support A B d = Some p /\ In p (diffs A B).
Proof.
  intros A B [u|] NA NB; [destruct (support_ok A B u NA NB) as (p & E & I & _); exists p; auto|].
  unfold support. destruct (FindFurthest_nan A NA) as (a & Ea & Ia). rewrite Ea. cbn [bind nneg option_map]. destruct (FindFurthest_nan B NB) as (b & Eb & Ib). rewrite Eb. cbn [bind].
  eexists. split; [reflexivity|]. apply in_diffs. exists a, b. auto.
Qed.

(** The part of U across V is a multiple of V turned by a right angle. *)
Lemma dotp_zero : forall v, dotp v v = 0 -> v = (0, 0).
Proof. intros (x, y). unfold dotp. cbn [fst snd]. intros E. pose proof (Rle_0_sqr x). pose proof (Rle_0_sqr y). unfold Rsqr in *. f_equal; apply Rsqr_0_uniq; unfold Rsqr; lra. Qed.
Lemma dotp_pos : forall v, v <> (0, 0) -> 0 < dotp v v.
Proof. intros v N. destruct (Rle_lt_dec (dotp v v) 0) as [L|L]; auto. exfalso. apply N. apply dotp_zero. unfold dotp in *. pose proof (Rle_0_sqr (fst v)). pose proof (Rle_0_sqr (snd v)). unfold Rsqr in *. lra. Qed.
Lemma perp_nan : forall U, perp U (0, 0) = None.
Proof. intros. unfold perp. pose proof (eqRs (dotp (0, 0) (0, 0)) 0) as E. destruct (eqR _ 0); auto. exfalso. apply E. unfold dotp. cbn. ring. Qed.
Lemma perp_eq : forall U V, V <> (0, 0) -> perp U V = Some (crossp V U / dotp V V * - snd V, crossp V U / dotp V V * fst V).
Proof.
  intros U V N. pose proof (dotp_pos V N) as P. unfold perp. pose proof (eqRs (dotp V V) 0) as E. destruct (eqR _ 0); [lra|]. cbv zeta. f_equal. unfold crossp in *. destruct U as (a, b), V as (x, y).
  unfold dotp in *. cbn [fst snd] in *. f_equal; field; lra.
Qed.
