(** The penetration: what the expanding polygon returns. *)
From Coq Require Import List Arith Bool Reals Lra Lia.
Import ListNotations.
From Verif Require Import Imp PrModel PolyModel HullSpec GjkModel GjkSpec GjkProofs1 GjkProofs2.
Open Scope R_scope.

(** The edges of a closed polygon. *)
Fixpoint path (a : pt) (l : list pt) (z : pt) : list (pt * pt) := match l with [] => [(a, z)] | b :: l => (a, b) :: path b l z end.
Definition cyc (l : list pt) : list (pt * pt) := match l with [] => [] | a :: t => path a t a end.
Lemma path_app : forall l1 a b l2 z, path a (l1 ++ b :: l2) z = path a l1 b ++ path b l2 z.
Proof. induction l1 as [|c l1 IH]; intros; cbn [path app]; auto. rewrite IH. auto. Qed.
Lemma path_hd : forall l z, exists w r, forall x, path x l z = (x, w) :: r.
Proof. intros [|b l] z; eauto. exists z, []. auto. exists b, (path b l z). auto. Qed.
Lemma path_len : forall l a z, length (path a l z) = S (length l).
Proof. induction l; intros; cbn [path length]; auto. Qed.
Lemma path_nth : forall l a z d i, (i <= length l)%nat -> nth_error (path a l z) i = Some (nth i (a :: l) d, nth i (l ++ [z]) d).
Proof.
  induction l as [|b l IH]; intros a z d i Hi.
  - cbn [length] in Hi. assert (i = 0%nat) by lia. subst i. reflexivity.
  - destruct i; [reflexivity|]. cbn [path nth_error]. cbn [length] in Hi. rewrite (IH b z d i) by lia. reflexivity.
Qed.
Lemma cyc_len : forall l, length (cyc l) = length l. Proof. intros [|a t]; auto. apply path_len. Qed.
Lemma cyc_nth : forall l i, (i < length l)%nat -> nth_error (cyc l) i = Some (nth i l (0, 0), nth ((i + 1 + length l) mod length l) l (0, 0)).
Proof.
  intros [|a t] i Hi; [cbn in Hi; lia|]. cbn [cyc]. cbn [length] in Hi. rewrite (path_nth t a a (0, 0)) by lia. f_equal. f_equal.
  destruct (Nat.eq_dec i (length t)) as [->|N].
  - replace ((length t + 1 + length (a :: t)) mod length (a :: t))%nat with 0%nat; [rewrite app_nth2 by lia; rewrite Nat.sub_diag; reflexivity|]. cbn [length].
    replace (length t + 1 + S (length t))%nat with (2 * S (length t))%nat by lia. rewrite Nat.mod_mul; lia.
  - replace ((i + 1 + length (a :: t)) mod length (a :: t))%nat with (S i); [cbn [nth]; rewrite app_nth1 by lia; reflexivity|]. cbn [length].
    replace (i + 1 + S (length t))%nat with (S i + 1 * S (length t))%nat by lia. rewrite Nat.mod_add by lia. rewrite Nat.mod_small; lia.
Qed.
Lemma cyc_in : forall l v w, In (v, w) (cyc l) -> In v l /\ In w l.
Proof.
  intros l v w H. apply In_nth_error in H. destruct H as (i & E). assert (Hi : (i < length l)%nat) by (rewrite <- cyc_len; apply nth_error_Some; rewrite E; discriminate).
  rewrite cyc_nth in E by auto. injection E as <- <-. split; apply nth_In; auto. apply Nat.mod_upper_bound. lia.
Qed.
Lemma cyc_insert : forall l k v w p, nth_error (cyc l) k = Some (v, w) -> exists e1 e2, cyc l = e1 ++ (v, w) :: e2 /\ cyc (firstn (k + 1) l ++ p :: skipn (k + 1) l) = e1 ++ (v, p) :: (p, w) :: e2.
Proof.
  intros l k v w p E. assert (Hk : (k < length l)%nat) by (rewrite <- cyc_len; apply nth_error_Some; rewrite E; discriminate).
  assert (EV : nth_error l k = Some v) by (rewrite cyc_nth in E by auto; injection E as <- _; apply nth_error_nth'; auto).
  apply nth_error_split in EV. destruct EV as (l1 & l2 & -> & Lk). subst k.
  replace (firstn (length l1 + 1) (l1 ++ v :: l2)) with (l1 ++ [v]).
  2:{ replace (length l1 + 1)%nat with (length (l1 ++ [v]) + 0)%nat by (rewrite app_length; cbn; lia). replace (l1 ++ v :: l2) with ((l1 ++ [v]) ++ l2) by (rewrite <- app_assoc; auto). rewrite firstn_app_2. cbn. rewrite app_nil_r. auto. }
  replace (skipn (length l1 + 1) (l1 ++ v :: l2)) with l2.
  2:{ replace (l1 ++ v :: l2) with ((l1 ++ [v]) ++ l2) by (rewrite <- app_assoc; auto). rewrite skipn_app. replace (length l1 + 1)%nat with (length (l1 ++ [v])) by (rewrite app_length; cbn; lia). rewrite skipn_all, Nat.sub_diag. auto. }
  rewrite <- app_assoc. cbn [app]. destruct l1 as [|a t]; cbn [app cyc] in *.
  - destruct (path_hd l2 v) as (w' & r & P). rewrite P in E. cbn [length nth_error] in E. injection E as ->. exists [], r. cbn [path app]. rewrite !P. auto.
  - rewrite !path_app in *. cbn [path]. destruct (path_hd l2 a) as (w' & r & P). rewrite !P in *. rewrite nth_error_app2 in E by (rewrite path_len; cbn [length]; lia). rewrite path_len in E. cbn [length] in E. rewrite Nat.sub_diag in E. injection E as ->.
    exists (path a t v), r. auto.
Qed.

(** The outward normal and the distance of an edge. *)
Definition nrm (v w : pt) : pt := (snd (subp w v) / normp (subp w v), - fst (subp w v) / normp (subp w v)).
Definition dist (v w : pt) : R := dotp (nrm v w) v.
Lemma normp_pos : forall e, e <> (0, 0) -> 0 < normp e.
Proof. intros e N. unfold normp. apply sqrt_lt_R0. apply dotp_pos in N. unfold dotp in N. exact N. Qed.
Lemma normp_sq : forall e, normp e * normp e = dotp e e.
Proof. intros. unfold normp, dotp. apply sqrt_sqrt. pose proof (Rle_0_sqr (fst e)). pose proof (Rle_0_sqr (snd e)). unfold Rsqr in *. lra. Qed.
Lemma sub_ne : forall v w : pt, v <> w -> subp w v <> (0, 0).
Proof. intros v w N E. apply N. unfold subp in E. injection E as E1 E2. destruct v, w. cbn [fst snd] in *. f_equal; lra. Qed.
Lemma normalize_ok : forall v w, v <> w -> normalize (snd (subp w v), - fst (subp w v)) = Some (nrm v w).
Proof.
  intros v w N. unfold normalize. assert (E : normp (snd (subp w v), - fst (subp w v)) = normp (subp w v)) by (unfold normp; cbn [fst snd]; f_equal; ring). rewrite E.
  pose proof (normp_pos _ (sub_ne v w N)) as P. pose proof (eqRs (normp (subp w v)) 0) as Q. destruct (eqR _ 0); [lra|]. reflexivity.
Qed.
Lemma nrm_unit : forall v w, v <> w -> dotp (nrm v w) (nrm v w) = 1.
Proof.
  intros v w N. pose proof (normp_pos _ (sub_ne v w N)) as P. pose proof (normp_sq (subp w v)) as Q. unfold nrm. set (e := subp w v) in *. set (k := normp e) in *. clearbody k e. unfold dotp in *. cbn [fst snd].
  replace (snd e / k * (snd e / k) + - fst e / k * (- fst e / k)) with ((fst e * fst e + snd e * snd e) / (k * k)) by (field; lra). rewrite <- Q. field. lra.
Qed.
Lemma nrm_dot : forall v w x, v <> w -> dotp (nrm v w) x * normp (subp w v) = crossp x (subp w v).
Proof. intros v w x N. pose proof (normp_pos _ (sub_ne v w N)) as P. unfold nrm. set (e := subp w v) in *. set (k := normp e) in *. clearbody k e. unfold dotp, crossp. cbn [fst snd]. field. lra. Qed.
Lemma dist_w : forall v w, v <> w -> dotp (nrm v w) w = dist v w.
Proof.
  intros v w N. unfold dist. pose proof (normp_pos _ (sub_ne v w N)) as P. apply Rmult_eq_reg_r with (normp (subp w v)); [|lra]. rewrite !nrm_dot by auto. unfold crossp, subp. cbn [fst snd]. ring.
Qed.

Definition proper (l : list pt) : Prop := l <> [] /\ forall v w, In (v, w) (cyc l) -> v <> w.
Lemma closest_ok : forall l, proper l -> exists k v w, FindClosestEdge l = Some (Some k, Some (nrm v w)) /\ nth_error (cyc l) k = Some (v, w) /\ forall v' w', In (v', w') (cyc l) -> dist v w <= dist v' w'.
Proof.
  intros l (NE & H). assert (L0 : (0 < length l)%nat) by (destruct l; [congruence|cbn; lia]).
  assert (G : forall i, (i < length l)%nat -> vget l i = Some (nth i l (0, 0))) by (intros; apply nth_error_nth'; auto).
  assert (W : wp (FindClosestEdge l) (fun r => exists k v w, r = (Some k, Some (nrm v w)) /\ nth_error (cyc l) k = Some (v, w) /\ forall v' w', In (v', w') (cyc l) -> dist v w <= dist v' w')).
  { unfold FindClosestEdge. replace (length l =? 0)%nat with false by (symmetry; apply Nat.eqb_neq; lia). cbn [negb assertb bind]. apply wp_bind.
    apply wp_forn with (I := fun i st => (i = 0%nat /\ st = (None, None, None)) \/ exists k v w, (k < i)%nat /\ nth_error (cyc l) k = Some (v, w) /\ st = (Some (dist v w), Some k, Some (nrm v w)) /\ forall j v' w', (j < i)%nat -> nth_error (cyc l) j = Some (v', w') -> dist v w <= dist v' w').
    - lia.
    - left. auto.
    - intros i ((md, mi), rn) Hi I. set (j := ((i + 1 + length l) mod length l)%nat). assert (Hj : (j < length l)%nat) by (apply Nat.mod_upper_bound; lia). rewrite !G by lia. cbn [bind]. cbv zeta.
      pose proof (cyc_nth l i ltac:(lia)) as EC. fold j in EC. set (vi := nth i l (0, 0)) in *. set (vj := nth j l (0, 0)) in *.
      assert (NV : vi <> vj) by (apply H; eapply nth_error_In; eauto). rewrite normalize_ok by auto. cbn [ndot option_map]. fold (dist vi vj).
      destruct I as [(-> & E)|(k & v & w & Hk & Ek & E & L)]; injection E as -> -> ->; cbn [nge].
      + apply wp_some. right. exists 0%nat, vi, vj. split; [lia|]. split; auto. split; auto. intros j' v' w' Hj' E'. assert (j' = 0%nat) by lia. subst j'. rewrite EC in E'. injection E' as <- <-. lra.
      + pose proof (ltRs (dist vi vj) (dist v w)) as Q. destruct (ltR _ _); cbn [negb]; apply wp_some; right.
        * exists i, vi, vj. split; [lia|]. split; auto. split; auto. intros j' v' w' Hj' E'. destruct (Nat.eq_dec j' i) as [->|Nj]; [rewrite EC in E'; injection E' as <- <-; lra|]. specialize (L j' v' w' ltac:(lia) E'). lra.
        * exists k, v, w. split; [lia|]. split; auto. split; auto. intros j' v' w' Hj' E'. destruct (Nat.eq_dec j' i) as [->|Nj]; [rewrite EC in E'; injection E' as <- <-; lra|]. exact (L j' v' w' ltac:(lia) E').
    - intros ((md, mi), rn) [(E & _)|(k & v & w & Hk & Ek & E & L)]; [lia|]. injection E as -> -> ->. apply wp_some. exists k, v, w. split; auto. split; auto.
      intros v' w' I. apply In_nth_error in I. destruct I as (j & E). apply (L j); auto. rewrite <- cyc_len. apply nth_error_Some. rewrite E. discriminate. }
  apply wp_ex in W. destruct W as (r & E & k & v & w & -> & W). exists k, v, w. auto.
Qed.

Section Epa.
Variables A B : list pt.
Hypothesis NA : A <> [].
Hypothesis NB : B <> [].
Variable tol : R.
Hypothesis T0 : 0 < tol.
Notation M := (diffs A B).

(** Every direction is between the ends of an edge. *)
Definition cover (l : list pt) : Prop := forall u, exists v w, In (v, w) (cyc l) /\ 0 <= crossp v u /\ 0 <= crossp u w.
Definition inv (l : list pt) : Prop := proper l /\ (forall v, In v l -> In v M) /\ cover l.

Lemma epa_step_ok : forall l na, inv l -> exists v w, In (v, w) (cyc l) /\ (forall v' w', In (v', w') (cyc l) -> dist v w <= dist v' w') /\
  exists p, In p M /\ (forall m, In m M -> dotp (nrm v w) m <= dotp (nrm v w) p) /\
  ((dotp (nrm v w) p < dist v w + tol /\ epa_step A B tol (l, na) = Some ((l, Some (fst (nrm v w) * dist v w, snd (nrm v w) * dist v w)), true)) \/
   (dist v w + tol <= dotp (nrm v w) p /\ exists l' e1 e2, epa_step A B tol (l, na) = Some ((l', na), false) /\ cyc l = e1 ++ (v, w) :: e2 /\ cyc l' = e1 ++ (v, p) :: (p, w) :: e2 /\
      (forall x, In x l' -> In x l \/ x = p) /\ inv l')).
Proof.
  intros l na (P & IM & C). destruct (closest_ok l P) as (k & v & w & EF & EK & L). exists v, w. pose proof (nth_error_In _ _ EK) as IE. split; auto. split; auto.
  assert (NV : v <> w) by (apply P; auto).
  destruct (support_ok A B (nrm v w) NA NB) as (p & ES & IP & LP). exists p. split; auto. split; auto.
  assert (EV : vget l k = Some v). { assert (Hk : (k < length l)%nat) by (rewrite <- cyc_len; apply nth_error_Some; rewrite EK; discriminate). rewrite cyc_nth in EK by auto. injection EK as <- _. apply nth_error_nth'; auto. }
  unfold epa_step. rewrite EF. cbn [bind]. rewrite EV. cbn [bind ndot option_map]. fold (dist v w). rewrite ES. cbn [bind ndot option_map]. pose proof (ltRs (dotp (nrm v w) p - dist v w) tol) as Q. destruct (ltR _ tol).
  - left. split; [lra|auto].
  - right. split; [lra|]. destruct (cyc_insert l k v w p EK) as (e1 & e2 & E1 & E2).
    set (l' := firstn (k + 1) l ++ p :: skipn (k + 1) l) in *. exists l', e1, e2. split; auto. split; auto. split; auto.
    assert (IN : forall x, In x l' -> In x l \/ x = p). { intros x Hx. unfold l' in Hx. apply in_app_or in Hx. destruct Hx as [Hx|[->|Hx]]; auto; left; rewrite <- (firstn_skipn (k + 1) l); apply in_or_app; auto. }
    split; auto. assert (Nvp : v <> p) by (intros ->; unfold dist in *; lra). assert (Npw : p <> w) by (intros ->; rewrite dist_w in Q by auto; lra).
    split; [split|split].
    + unfold l'. destruct (firstn (k + 1) l); discriminate.
    + intros x y Hxy. rewrite E2 in Hxy. apply in_app_or in Hxy. destruct Hxy as [Hxy|[Hxy|[Hxy|Hxy]]]; try (injection Hxy as <- <-; auto; fail); apply P; rewrite E1; apply in_or_app; cbn; auto.
    + intros x Hx. destruct (IN x Hx) as [| ->]; auto.
    + intros u. destruct (C u) as (x & y & Hxy & X1 & X2). rewrite E1 in Hxy. rewrite E2. apply in_app_or in Hxy. destruct Hxy as [Hxy|[Hxy|Hxy]].
      * exists x, y. split; [apply in_or_app; auto|auto].
      * injection Hxy as <- <-. destruct (Rle_lt_dec 0 (crossp u p)) as [S|S].
        -- exists v, p. split; [apply in_or_app; cbn; auto|auto].
        -- exists p, w. split; [apply in_or_app; cbn; auto|]. split; auto. replace (crossp p u) with (- crossp u p) by (uv; ring). lra.
      * exists x, y. split; [apply in_or_app; cbn; auto|auto].
Qed.

(** The support function of the differences is at least the distance of the closest edge. *)
Lemma cauchy : forall a b, dotp a a = 1 -> dotp b b = 1 -> dotp a b <= 1.
Proof. intros a b Ha Hb. assert (0 <= dotp (subp a b) (subp a b)) by (unfold dotp; apply Rplus_le_le_0_compat; apply Rle_0_sqr). uv. lra. Qed.
Lemma at_least : forall l r, inv l -> hull (fun x => In x M) (0, 0) -> (forall v w, In (v, w) (cyc l) -> r <= dist v w) -> forall u, dotp u u = 1 -> exists m, In m M /\ r <= dotp u m.
Proof.
  intros l r (P & IM & C) H0 L u U. destruct (C u) as (v & w & Hvw & C1 & C2). specialize (L v w Hvw). assert (NV : v <> w) by (apply P; auto). destruct (cyc_in l v w Hvw) as (Iv & Iw). apply IM in Iv. apply IM in Iw.
  pose proof (normp_pos _ (sub_ne v w NV)) as Pn.
  assert (ED : dist v w * normp (subp w v) = crossp v w) by (unfold dist; rewrite nrm_dot by auto; uv; ring).
  destruct (Rle_lt_dec (crossp v w) 0) as [S|S].
  - assert (D0 : dist v w <= 0). { destruct (Rle_lt_dec (dist v w) 0); auto. assert (0 < dist v w * normp (subp w v)) by (apply Rmult_lt_0_compat; auto). lra. }
    destruct (support_ok A B u NA NB) as (p & _ & IP & LP). exists p. split; auto. assert (B0 : dotp u (0, 0) <= dotp u p) by (exact (hull_bound (fun x => In x M) u (dotp u p) (0, 0) LP H0)). unfold dotp in B0 at 1. cbn [fst snd] in B0. lra.
  - destruct (Rle_lt_dec r (dotp u v)) as [|Lv]; [eauto|]. destruct (Rle_lt_dec r (dotp u w)) as [|Lw]; [eauto|]. exfalso.
    pose proof (coord (nrm v w) v w u) as K1. pose proof (coord u v w u) as K2. rewrite U in K2. fold (dist v w) in K1. rewrite dist_w in K1 by auto.
    pose proof (cauchy _ _ (nrm_unit v w NV) U) as CS.
    assert (Q1 : crossp v w * dotp (nrm v w) u <= crossp v w * 1) by (apply Rmult_le_compat_l; lra).
    assert (SP : 0 < crossp u w + crossp v u).
    { destruct (Rle_lt_dec (crossp u w + crossp v u) 0) as [Z|]; auto. assert (Z1 : crossp u w = 0) by lra. assert (Z2 : crossp v u = 0) by lra. rewrite Z1, Z2 in K2. lra. }
    assert (Q2 : crossp u w * dotp u v <= crossp u w * dist v w) by (apply Rmult_le_compat_l; lra).
    assert (Q3 : crossp v u * dotp u w <= crossp v u * dist v w) by (apply Rmult_le_compat_l; lra).
    assert (Z1 : crossp u w = 0). { destruct C2 as [C2|C2]; auto. exfalso. assert (crossp u w * dotp u v < crossp u w * dist v w) by (apply Rmult_lt_compat_l; lra). lra. }
    assert (Z2 : crossp v u = 0). { destruct C1 as [C1|C1]; auto. exfalso. assert (crossp v u * dotp u w < crossp v u * dist v w) by (apply Rmult_lt_compat_l; lra). lra. }
    lra.
Qed.
Lemma in_move : forall t x, In x (diffs A (move t B)) <-> exists m, In m M /\ x = subp m t.
Proof.
  intros t x. rewrite in_diffs. unfold move. split.
  - intros (a & b' & Ha & Hb & ->). apply in_map_iff in Hb. destruct Hb as (b & <- & Hb). exists (subp a b). split; [apply in_diffs; eauto|]. unfold subp. cbn [fst snd]. f_equal; ring.
  - intros (m & Hm & ->). apply in_diffs in Hm. destruct Hm as (a & b & Ha & Hb & ->). exists a, (fst b + fst t, snd b + snd t). split; auto. split; [apply in_map_iff; eauto|]. unfold subp. cbn [fst snd]. f_equal; ring.
Qed.
Lemma move_ne : forall t, move t B <> []. Proof. intros t. unfold move. destruct B; [congruence|discriminate]. Qed.
Lemma disc : forall r s, (forall u, dotp u u = 1 -> exists m, In m M /\ r <= dotp u m) -> length2 s <= r -> collide A (move s B).
Proof.
  intros r s H Ls. destruct (gjk_ok A (move s B) NA (move_ne s) _ (le_n _)) as (q & _ & [(-> & d & Hd)|(s0 & s1 & s2 & -> & H0 & H1 & H2 & HH)]).
  2:{ apply collide_of. eapply hull_mono; [|exact HH]. intros y [->|[->| ->]]; auto. }
  exfalso. assert (D : forall m, In m M -> dotp d m < dotp d s). { intros m Hm. specialize (Hd (subp m s)). assert (I : In (subp m s) (diffs A (move s B))) by (apply in_move; eauto). specialize (Hd I). uv. lra. }
  assert (ND : d <> (0, 0)). { intros ->. assert (E : exists m, In m M) by (destruct (support_ok A B (0, 0) NA NB) as (p & _ & I & _); eauto). destruct E as (m & Hm). specialize (D m Hm). uv. lra. }
  pose proof (normp_pos d ND) as P. pose proof (normp_sq d) as Q. set (k := normp d) in *. clearbody k.
  assert (E : forall x, dotp (fst d / k, snd d / k) x * k = dotp d x) by (intros; unfold dotp; cbn [fst snd]; field; lra).
  assert (U : dotp (fst d / k, snd d / k) (fst d / k, snd d / k) = 1). { apply Rmult_eq_reg_r with (k * k); [|apply Rgt_not_eq; apply Rmult_lt_0_compat; auto]. transitivity (dotp d d); [unfold dotp; cbn [fst snd]; field; lra|rewrite <- Q; ring]. }
  destruct (H _ U) as (m & Hm & Rm). specialize (D m Hm). rewrite <- !E in D. apply Rmult_lt_reg_r in D; auto.
  assert (CS : dotp (fst d / k, snd d / k) s <= length2 s).
  { unfold length2. set (u := (fst d / k, snd d / k)) in *. clearbody u. apply Rsqr_incr_0_var; [|apply sqrt_pos]. rewrite Rsqr_sqrt by (apply Rplus_le_le_0_compat; apply Rle_0_sqr).
    assert (I : Rsqr (dotp u s) + Rsqr (crossp u s) = dotp u u * (fst s * fst s + snd s * snd s)) by (unfold Rsqr; uv; ring). rewrite U in I. pose proof (Rle_0_sqr (crossp u s)). lra. }
  lra.
Qed.
Lemma sep_of : forall n r, (forall m, In m M -> dotp n m < r) -> dotp n n = 1 -> ~ collide A (move (r * fst n, r * snd n) B).
Proof.
  intros n r H U. apply (not_collide A _ n); auto; [|apply move_ne]. intros a b Ha Hb. assert (I : In (subp a b) (diffs A (move (r * fst n, r * snd n) B))) by (apply in_diffs; eauto).
  apply in_move in I. destruct I as (m & Hm & ->). specialize (H m Hm). replace (dotp n (subp m (r * fst n, r * snd n))) with (dotp n m - r * dotp n n) by (uv; ring). rewrite U. lra.
Qed.
Lemma epa_loop : forall fuel l l' na na', inv l -> hull (fun x => In x M) (0, 0) -> loopf fuel (epa_step A B tol) (l, na) = Some (l', na') ->
  exists t, na' = Some t /\ shortest_separation A B tol t.
Proof.
  induction fuel as [|fuel IH]; intros l l' na na' I H0 E; [discriminate|]. cbn [loopf] in E.
  destruct (epa_step_ok l na I) as (v & w & Hvw & L & p & Hp & LP & [(Q & ES)|(Q & l2 & e1 & e2 & ES & _ & _ & _ & I2)]); rewrite ES in E; cbn [bind] in E.
  - injection E as <- <-. eexists. split; [reflexivity|]. assert (NV : v <> w) by (apply I; auto). pose proof (nrm_unit v w NV) as U.
    exists (nrm v w), (dist v w). split; [unfold length2; change (sqrt (dotp (nrm v w) (nrm v w)) = 1); rewrite U; apply sqrt_1|]. split; [apply injective_projections; cbn [fst snd]; apply Rmult_comm|]. split.
    + intros s Hs. apply (disc (dist v w)); auto. intros u Hu. apply (at_least l); auto.
    + apply sep_of; auto. intros m Hm. specialize (LP m Hm). lra.
  - eapply IH; eauto.
Qed.
End Epa.

(** The polygon of the start. *)
Lemma hull_tri : forall s0 s1 s2 x, hull (fun y => y = s0 \/ y = s1 \/ y = s2) x -> exists a b c, 0 <= a /\ 0 <= b /\ 0 <= c /\ a + b + c = 1 /\ x = lincomb a b c s0 s1 s2.
Proof.
  intros s0 s1 s2 x H. induction H as [x Hx|x y t H1 (a & b & c & Pa & Pb & Pc & S1 & ->) H2 (a' & b' & c' & Pa' & Pb' & Pc' & S2 & ->) Ht].
  - destruct Hx as [->|[->| ->]]; [exists 1, 0, 0|exists 0, 1, 0|exists 0, 0, 1]; (do 4 (split; [lra|])); unfold lincomb; rewrite (surjective_pairing _) at 1; f_equal; ring.
  - exists ((1 - t) * a + t * a'), ((1 - t) * b + t * b'), ((1 - t) * c + t * c').
    assert (PP : forall x y, 0 <= x -> 0 <= y -> 0 <= (1 - t) * x + t * y) by (intros; apply Rplus_le_le_0_compat; apply Rmult_le_pos; lra).
    split; [auto|]. split; [auto|]. split; [auto|]. split; [replace ((1 - t) * a + t * a' + ((1 - t) * b + t * b') + ((1 - t) * c + t * c')) with ((1 - t) * (a + b + c) + t * (a' + b' + c')) by ring; rewrite S1, S2; ring|].
    unfold lincomb. cbn [fst snd]. f_equal; ring.
Qed.
Lemma cover_tri : forall s0 s1 s2, hull (fun y => y = s0 \/ y = s1 \/ y = s2) (0, 0) -> cover [s0; s1; s2].
Proof.
  intros s0 s1 s2 H u. apply hull_tri in H. destruct H as (a & b & c & Ha & Hb & Hc & S1 & E). unfold lincomb in E. injection E as E1 E2. cbn [cyc path].
  assert (K : a * crossp s0 u + b * crossp s1 u + c * crossp s2 u = 0).
  { replace (a * crossp s0 u + b * crossp s1 u + c * crossp s2 u) with ((a * fst s0 + b * fst s1 + c * fst s2) * snd u - (a * snd s0 + b * snd s1 + c * snd s2) * fst u) by (uv; ring). rewrite <- E1, <- E2. ring. }
  assert (AS : forall x y, crossp x y = - crossp y x) by (intros; uv; ring).
  assert (NN : forall x y, 0 <= x -> 0 < y -> 0 <= x * y) by (intros; apply Rmult_le_pos; lra).
  assert (PS : ~ (0 < crossp s0 u /\ 0 < crossp s1 u /\ 0 < crossp s2 u)).
  { intros (P0 & P1 & P2). pose proof (NN _ _ Ha P0). pose proof (NN _ _ Hb P1). pose proof (NN _ _ Hc P2).
    assert (a = 0) by (destruct (Rmult_integral a (crossp s0 u)); lra). assert (b = 0) by (destruct (Rmult_integral b (crossp s1 u)); lra). assert (c = 0) by (destruct (Rmult_integral c (crossp s2 u)); lra). lra. }
  assert (NS : ~ (crossp s0 u < 0 /\ crossp s1 u < 0 /\ crossp s2 u < 0)).
  { intros (P0 & P1 & P2). assert (Q0 : 0 < - crossp s0 u) by lra. assert (Q1 : 0 < - crossp s1 u) by lra. assert (Q2 : 0 < - crossp s2 u) by lra. pose proof (NN _ _ Ha Q0). pose proof (NN _ _ Hb Q1). pose proof (NN _ _ Hc Q2).
    assert (a = 0) by (destruct (Rmult_integral a (crossp s0 u)); lra). assert (b = 0) by (destruct (Rmult_integral b (crossp s1 u)); lra). assert (c = 0) by (destruct (Rmult_integral c (crossp s2 u)); lra). lra. }
  pose proof (AS u s0) as A0. pose proof (AS u s1) as A1. pose proof (AS u s2) as A2.
  destruct (Rle_lt_dec 0 (crossp s0 u)) as [P0|P0], (Rle_lt_dec 0 (crossp s1 u)) as [P1|P1], (Rle_lt_dec 0 (crossp s2 u)) as [P2|P2];
    try (exists s0, s1; cbn; split; [auto|split; lra]); try (exists s1, s2; cbn; split; [auto|split; lra]); try (exists s2, s0; cbn; split; [auto|split; lra]).
  - destruct P0 as [P0|P0]; [|exists s2, s0; cbn; split; [auto|split; lra]]. destruct P1 as [P1|P1]; [|exists s0, s1; cbn; split; [auto|split; lra]]. destruct P2 as [P2|P2]; [|exists s1, s2; cbn; split; [auto|split; lra]]. exfalso. auto.
Qed.
