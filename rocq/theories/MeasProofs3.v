(** Proofs about closed surfaces and boundaries for MeasModel. *)
From Coq Require Import List Arith Bool ZArith Reals Lra Lia Permutation.
Import ListNotations.
From Verif Require Import Imp PrModel PolyModel QuatModel ProxModel IsecModel GjkProofs1 ProxSpec ProxProofs1 MeasModel MeasSpec MeasProofs1 MeasProofs2.
Open Scope R_scope.

Fixpoint lsum {A} (f : A -> R) (l : list A) : R := match l with [] => 0 | a :: r => f a + lsum f r end.
Lemma lsum_perm : forall A (f : A -> R) l l', Permutation l l' -> lsum f l = lsum f l'.
Proof. intros A f l l' H. induction H; cbn [lsum]; lra. Qed.
Lemma lsum_map : forall A B (g : A -> B) f l, lsum f (map g l) = lsum (fun a => f (g a)) l.
Proof. induction l; cbn [map lsum]; [reflexivity|]. rewrite IHl. reflexivity. Qed.
Lemma lsum_app : forall A (f : A -> R) l l', lsum f (l ++ l') = lsum f l + lsum f l'.
Proof. induction l; intros; cbn [app lsum]; [ring|]. rewrite IHl. ring. Qed.
Lemma lsum_ext : forall A (f g : A -> R) l, (forall a, f a = g a) -> lsum f l = lsum g l.
Proof. induction l; intros; cbn [lsum]; [reflexivity|]. rewrite IHl, H by exact H. reflexivity. Qed.
Lemma lsum_opp : forall A (f : A -> R) l, lsum (fun a => - f a) l = - lsum f l.
Proof. induction l; intros; cbn [lsum]; [ring|]. rewrite IHl. ring. Qed.
Lemma lsum_plus : forall A (f g : A -> R) l, lsum (fun a => f a + g a) l = lsum f l + lsum g l.
Proof. induction l; intros; cbn [lsum]; [ring|]. rewrite IHl. ring. Qed.
Lemma lsum_scale : forall A a (f : A -> R) l, lsum (fun x => a * f x) l = a * lsum f l.
Proof. induction l; intros; cbn [lsum]; [ring|]. rewrite IHl. ring. Qed.

Lemma sum_first : forall n f, sum (S n) f = f 0%nat + sum n (fun i => f (S i)).
Proof. induction n; intros; [cbn; ring|]. change (sum (S (S n)) f) with (sum (S n) f + f (S n)). rewrite IHn. cbn [sum]. ring. Qed.
Lemma list3_ind : forall (P : list nat -> Prop), P [] -> (forall a, P [a]) -> (forall a b, P [a; b]) -> (forall a b c l, P l -> P (a :: b :: c :: l)) -> forall l, P l.
Proof. intros P H0 H1 H2 H3. fix IH 1. intros [|a [|b [|c l]]]; [exact H0|apply H1|apply H2|apply H3, IH]. Qed.
Lemma list4_ind : forall (P : list nat -> Prop), (forall l, (length l < 4)%nat -> P l) -> (forall a b c d l, P l -> P (a :: b :: c :: d :: l)) -> forall l, P l.
Proof. intros P H0 H4. fix IH 1. intros [|a [|b [|c [|d l]]]]; [apply H0; cbn; lia..|apply H4, IH]. Qed.
Lemma sum_tris : forall (F : nat -> nat -> nat -> R) tri, sum (length tri / 3) (fun t => F (cor 3 tri t 0) (cor 3 tri t 1) (cor 3 tri t 2)) = lsum (fun s => let '(a, b, c) := s in F a b c) (tris tri).
Proof.
  intros F. apply list3_ind; [reflexivity..|]. intros a b c l IH.
  replace (length (a :: b :: c :: l) / 3)%nat with (S (length l / 3)). 2:{ cbn [length]. replace (S (S (S (length l)))) with (length l + 1 * 3)%nat by lia. rewrite Nat.div_add by lia. lia. }
  rewrite sum_first. cbn [tris lsum]. rewrite <- IH. f_equal. apply sum_ext. intros t Ht. unfold cor.
  replace (3 * S t + 0)%nat with (S (S (S (3 * t + 0)))) by lia. replace (3 * S t + 1)%nat with (S (S (S (3 * t + 1)))) by lia. replace (3 * S t + 2)%nat with (S (S (S (3 * t + 2)))) by lia. reflexivity.
Qed.

(** edges of a closed surface *)
Fixpoint edges (L : list (nat * nat * nat)) : list (nat * nat) := match L with (i, j, k) :: r => (i, j) :: (j, k) :: (k, i) :: edges r | [] => [] end.
Definition edge_dec : forall x y : nat * nat, {x = y} + {x <> y}.
Proof. decide equality; apply Nat.eq_dec. Defined.
Definition swap (e : nat * nat) : nat * nat := (snd e, fst e).
Lemma directed_count : forall tri a b, directed tri a b = count_occ edge_dec (edges (tris tri)) (a, b).
Proof.
  intros tri a b. revert tri. apply list3_ind; [reflexivity..|]. intros i j k l IH. cbn [directed tris edges count_occ]. rewrite IH.
  repeat match goal with |- context [edge_dec ?x ?y] => destruct (edge_dec x y) as [?E|?E] end;
  destruct (Nat.eqb_spec i a), (Nat.eqb_spec j b), (Nat.eqb_spec j a), (Nat.eqb_spec k b), (Nat.eqb_spec k a), (Nat.eqb_spec i b); cbn [andb]; try reflexivity; try (exfalso; congruence); lia.
Qed.
Lemma count_swap : forall L a b, count_occ edge_dec (map swap L) (a, b) = count_occ edge_dec L (b, a).
Proof.
  induction L as [|[x y] L IH]; intros; [reflexivity|]. cbn [map count_occ]. rewrite IH. change (swap (x, y)) with (y, x). destruct (edge_dec (y, x) (a, b)) as [E|E], (edge_dec (x, y) (b, a)) as [D|D]; try reflexivity; exfalso; [apply D; injection E; intros; subst; reflexivity|apply E; injection D; intros; subst; reflexivity].
Qed.
Lemma closed_sum : forall tri (E : nat -> nat -> R), closed tri -> (forall a b, E a b = - E b a) -> lsum (fun s => let '(a, b, c) := s in E a b + E b c + E c a) (tris tri) = 0.
Proof.
  intros tri E H A. set (f := fun e : nat * nat => E (fst e) (snd e)).
  assert (G : forall L, lsum (fun s => let '(a, b, c) := s in E a b + E b c + E c a) L = lsum f (edges L)).
  { induction L as [|[[a b] c] L IH]; [reflexivity|]. cbn [edges lsum]. rewrite IH. unfold f. cbn [fst snd]. ring. }
  rewrite G. assert (P : Permutation (edges (tris tri)) (map swap (edges (tris tri)))).
  { apply (Permutation_count_occ edge_dec). intros [a b]. rewrite count_swap, <- !directed_count. apply H. }
  pose proof (lsum_perm _ f _ _ P) as K. rewrite lsum_map in K. rewrite (lsum_ext _ (fun a => f (swap a)) (fun a => - f a)), lsum_opp in K by (intros [x y]; unfold f, swap; cbn [fst snd]; apply A). lra.
Qed.

(** translation *)
Definition det (p q r : vec3) : R := vx p * (vy q * vz r - vz q * vy r) + vy p * (vz q * vx r - vx q * vz r) + vz p * (vx q * vy r - vy q * vx r).
Lemma solid_w_det : forall l tri t, solid_w l tri t = det (pnt l (cor 3 tri t 0)) (pnt l (cor 3 tri t 1)) (pnt l (cor 3 tri t 2)) / 6.
Proof. intros. unfold solid_w, at_corner, volume, volume6, det, origin3. cbn [vx vy vz]. field. Qed.
Definition moment (f : vec3 -> R) (p q r : vec3) : R := det p q r * (f p + f q + f r) / 24.
Lemma solid_sum_w : forall l tri, sum (length tri / 3) (solid_w l tri) = lsum (fun s => let '(a, b, c) := s in det (pnt l a) (pnt l b) (pnt l c) / 6) (tris tri).
Proof. intros. rewrite <- (sum_tris (fun a b c => det (pnt l a) (pnt l b) (pnt l c) / 6)). apply sum_ext. intros. apply solid_w_det. Qed.
Definition mom3 (l : list R) (s : nat * nat * nat) : vec3 := let '(a, b, c) := s in V3 (moment vx (pnt l a) (pnt l b) (pnt l c)) (moment vy (pnt l a) (pnt l b) (pnt l c)) (moment vz (pnt l a) (pnt l b) (pnt l c)).
Lemma solid_sum_p : forall l tri, wsum (length tri / 3) (solid_w l tri) (solid_p l tri) = V3 (lsum (fun s => vx (mom3 l s)) (tris tri)) (lsum (fun s => vy (mom3 l s)) (tris tri)) (lsum (fun s => vz (mom3 l s)) (tris tri)).
Proof.
  intros. unfold wsum. f_equal.
  - transitivity (lsum (fun s => let '(a, b, c) := s in moment vx (pnt l a) (pnt l b) (pnt l c)) (tris tri)); [|apply lsum_ext; intros [[a b] c]; reflexivity].
    rewrite <- (sum_tris (fun a b c => moment vx (pnt l a) (pnt l b) (pnt l c))). apply sum_ext. intros t Ht. rewrite solid_w_det. unfold solid_p, at_corner, mid4, comb, origin3, moment. cbn [vx]. field.
  - transitivity (lsum (fun s => let '(a, b, c) := s in moment vy (pnt l a) (pnt l b) (pnt l c)) (tris tri)); [|apply lsum_ext; intros [[a b] c]; reflexivity].
    rewrite <- (sum_tris (fun a b c => moment vy (pnt l a) (pnt l b) (pnt l c))). apply sum_ext. intros t Ht. rewrite solid_w_det. unfold solid_p, at_corner, mid4, comb, origin3, moment. cbn [vy]. field.
  - transitivity (lsum (fun s => let '(a, b, c) := s in moment vz (pnt l a) (pnt l b) (pnt l c)) (tris tri)); [|apply lsum_ext; intros [[a b] c]; reflexivity].
    rewrite <- (sum_tris (fun a b c => moment vz (pnt l a) (pnt l b) (pnt l c))). apply sum_ext. intros t Ht. rewrite solid_w_det. unfold solid_p, at_corner, mid4, comb, origin3, moment. cbn [vz]. field.
Qed.
Lemma tris_in : forall tri a b c, In (a, b, c) (tris tri) -> In a tri /\ In b tri /\ In c tri.
Proof.
  intros tri a b c. induction tri as [|i|i j|i j k l IH] using list3_ind; [intros []..|]. cbn [tris]. intros Q. destruct Q as [E|Q]; [injection E; intros; subst; repeat split; cbn [In]; auto|]. apply IH in Q. destruct Q as (A & B & C). repeat split; do 3 right; assumption.
Qed.
Lemma lsum_ext_in : forall A (f g : A -> R) l, (forall a, In a l -> f a = g a) -> lsum f l = lsum g l.
Proof. induction l; intros; cbn [lsum]; [reflexivity|]. rewrite IHl, H by (intros; try apply H; cbn; auto). reflexivity. Qed.
Definition edge_w (l : list R) (t : vec3) (a b : nat) : R := det t (pnt l a) (pnt l b) / 6.
Lemma edge_w_anti : forall l t a b, edge_w l t a b = - edge_w l t b a.
Proof. intros. unfold edge_w, det. field. Qed.
Lemma translate_volume : forall l l' tri t, closed tri -> (forall i, In i tri -> pnt l' i = add3 (pnt l i) t) -> sum (length tri / 3) (solid_w l' tri) = sum (length tri / 3) (solid_w l tri).
Proof.
  intros l l' tri t C H. rewrite !solid_sum_w.
  rewrite (lsum_ext_in _ _ (fun s => (let '(a, b, c) := s in det (pnt l a) (pnt l b) (pnt l c) / 6) + (let '(a, b, c) := s in edge_w l t a b + edge_w l t b c + edge_w l t c a)) (tris tri)).
  - rewrite lsum_plus, (closed_sum tri (edge_w l t) C (edge_w_anti l t)). ring.
  - intros [[a b] c] I. destruct (tris_in _ _ _ _ I) as (A & B & D). rewrite !H by assumption. unfold edge_w, det, add3. cbn [vx vy vz]. field.
Qed.
Lemma translate_moment : forall l l' tri t (f : vec3 -> R), closed tri -> (forall i, In i tri -> pnt l' i = add3 (pnt l i) t) ->
  f = vx \/ f = vy \/ f = vz ->
  lsum (fun s => f (mom3 l' s)) (tris tri) = lsum (fun s => f (mom3 l s)) (tris tri) + f t * lsum (fun s => let '(a, b, c) := s in det (pnt l a) (pnt l b) (pnt l c) / 6) (tris tri).
Proof.
  intros l l' tri t f C H Hf.
  set (W := fun a b : nat => edge_w l t a b). set (M := fun a b : nat => edge_w l t a b * (f (pnt l a) + f (pnt l b)) / 4).
  rewrite (lsum_ext_in _ _ (fun s => (f (mom3 l s) + f t * (let '(a, b, c) := s in det (pnt l a) (pnt l b) (pnt l c) / 6)) + ((let '(a, b, c) := s in M a b + M b c + M c a) + (3 / 4 * f t) * (let '(a, b, c) := s in W a b + W b c + W c a))) (tris tri)).
  - rewrite !lsum_plus, !lsum_scale. rewrite (closed_sum tri W C) by (intros; apply edge_w_anti). rewrite (closed_sum tri M C) by (intros; unfold M; rewrite (edge_w_anti l t a b); field). ring.
  - intros [[a b] c] I. destruct (tris_in _ _ _ _ I) as (A & B & D). unfold mom3. rewrite !H by assumption. unfold M, W, edge_w. generalize (pnt l a) (pnt l b) (pnt l c). intros p q r.
    destruct Hf as [->|[->| ->]]; unfold moment, det, add3; cbn [vx vy vz]; field.
Qed.
Lemma translate_cg : forall l l' tri t c, valid tri l -> valid tri l' -> closed tri -> (forall i, In i tri -> pnt l' i = add3 (pnt l i) t) ->
  CG_MeshTri3_Solid l tri = Some c -> CG_MeshTri3_Solid l' tri = Some (add3 c t).
Proof.
  intros l l' tri t c V V' C H E.
  destruct (cg_solid_proof l tri V) as (P & N). destruct (Req_dec (sum (length tri / 3) (solid_w l tri)) 0) as [Z|Z]; [rewrite (N Z) in E; discriminate|].
  destruct (P Z) as (c1 & E1 & _ & Hc). rewrite E in E1. injection E1. intros <-. clear E1 P N.
  pose proof (translate_volume l l' tri t C H) as TV.
  destruct (cg_solid_proof l' tri V') as (P' & _). destruct P' as (c' & E' & Hc'); [rewrite TV; exact Z|]. rewrite E'. f_equal.
  apply (centre_unique _ _ _ _ _ Hc'). split; [rewrite TV; exact Z|]. rewrite TV, solid_sum_p.
  rewrite solid_sum_p in Hc. unfold comb, origin3 in Hc. cbn [vx vy vz] in Hc.
  pose proof (f_equal vx Hc) as Hx. pose proof (f_equal vy Hc) as Hy. pose proof (f_equal vz Hc) as Hz. cbn [vx vy vz] in Hx, Hy, Hz.
  rewrite (translate_moment l l' tri t vx C H), (translate_moment l l' tri t vy C H), (translate_moment l l' tri t vz C H) by auto. rewrite <- solid_sum_w, <- Hx, <- Hy, <- Hz.
  unfold comb, origin3, add3. apply v3_eq; cbn [vx vy vz]; ring.
Qed.

(** boundary of tetrahedra *)
Definition tri_dec : forall x y : nat * nat * nat, {x = y} + {x <> y}.
Proof. decide equality; [apply Nat.eq_dec|apply edge_dec]. Defined.
Definition le3 (s t : nat * nat * nat) : bool :=
  let '(a, b, c) := s in let '(i, j, k) := t in (a <? i) || ((a =? i) && ((b <? j) || ((b =? j) && (c <=? k)))).
Definition turn (s : nat * nat * nat) : nat * nat * nat := let '(a, b, c) := s in (b, c, a).
Definition min3 (s t : nat * nat * nat) : nat * nat * nat := if le3 s t then s else t.
Definition canon (s : nat * nat * nat) : nat * nat * nat := min3 s (min3 (turn s) (turn (turn s))).
Definition flip (s : nat * nat * nat) : nat * nat * nat := let '(a, b, c) := s in (a, c, b).
Lemma rot_turn : forall s t, rotation s t = true <-> (t = s \/ t = turn s \/ t = turn (turn s)).
Proof.
  intros [[a b] c] [[i j] k]. cbn [rotation turn]. rewrite !orb_true_iff, !andb_true_iff, !Nat.eqb_eq. split.
  - intros [[((-> & ->) & ->)|((-> & ->) & ->)]|((-> & ->) & ->)]; auto.
  - intros [E|[E|E]]; injection E; intros; subst; auto.
Qed.
Lemma le3_total : forall s t, le3 s t = true \/ le3 t s = true.
Proof.
  intros [[a b] c] [[i j] k]. cbn [le3]. rewrite !orb_true_iff, !andb_true_iff, !orb_true_iff, !andb_true_iff, !Nat.eqb_eq, !Nat.ltb_lt, !Nat.leb_le. lia.
Qed.
Lemma le3_anti : forall s t, le3 s t = true -> le3 t s = true -> s = t.
Proof.
  intros [[a b] c] [[i j] k]. cbn [le3]. rewrite !orb_true_iff, !andb_true_iff, !orb_true_iff, !andb_true_iff, !Nat.eqb_eq, !Nat.ltb_lt, !Nat.leb_le. intros. f_equal; [f_equal|]; lia.
Qed.
Lemma le3_trans : forall s t u, le3 s t = true -> le3 t u = true -> le3 s u = true.
Proof.
  intros [[a b] c] [[i j] k] [[x y] z]. cbn [le3]. rewrite !orb_true_iff, !andb_true_iff, !orb_true_iff, !andb_true_iff, !Nat.eqb_eq, !Nat.ltb_lt, !Nat.leb_le. lia.
Qed.
Lemma canon_min : forall s, (canon s = s \/ canon s = turn s \/ canon s = turn (turn s)) /\ le3 (canon s) s = true /\ le3 (canon s) (turn s) = true /\ le3 (canon s) (turn (turn s)) = true.
Proof.
  intros s. unfold canon, min3. assert (R : forall t, le3 t t = true) by (intros; destruct (le3_total t t); auto).
  destruct (le3 (turn s) (turn (turn s))) eqn:E1.
  - destruct (le3 s (turn s)) eqn:E2; repeat split; auto.
    + apply (le3_trans _ (turn s)); auto.
    + destruct (le3_total s (turn s)); congruence.
  - assert (E1' : le3 (turn (turn s)) (turn s) = true) by (destruct (le3_total (turn s) (turn (turn s))); congruence).
    destruct (le3 s (turn (turn s))) eqn:E2; repeat split; auto.
    + apply (le3_trans _ (turn (turn s))); auto.
    + destruct (le3_total s (turn (turn s))); congruence.
Qed.
Lemma turn3 : forall s, turn (turn (turn s)) = s.
Proof. intros [[a b] c]. reflexivity. Qed.
Lemma canon_turn : forall s, canon (turn s) = canon s.
Proof.
  intros s. destruct (canon_min s) as (A & A1 & A2 & A3). destruct (canon_min (turn s)) as (B & B1 & B2 & B3). rewrite turn3 in *. apply le3_anti.
  - destruct A as [->|[->| ->]]; assumption.
  - destruct B as [->|[->| ->]]; assumption.
Qed.
Lemma rot_canon : forall s t, rotation s t = true <-> canon t = canon s.
Proof.
  intros s t. rewrite rot_turn. split.
  - intros [->|[->| ->]]; rewrite ?canon_turn; reflexivity.
  - intros E. destruct (canon_min s) as (A & _). destruct (canon_min t) as (B & _). rewrite E in B.
    assert (K : s = t \/ s = turn t \/ s = turn (turn t) ) by (destruct A as [A|[A|A]]; destruct B as [B|[B|B]]; rewrite A in B;
      first [auto; fail | left; apply (f_equal turn) in B; rewrite ?turn3 in B; congruence | right; left; apply (f_equal turn) in B; rewrite ?turn3 in B; congruence | right; right; apply (f_equal turn) in B; rewrite ?turn3 in B; congruence
            | left; apply (f_equal turn), (f_equal turn) in B; rewrite ?turn3 in B; congruence | right; left; apply (f_equal turn), (f_equal turn) in B; rewrite ?turn3 in B; congruence | right; right; apply (f_equal turn), (f_equal turn) in B; rewrite ?turn3 in B; congruence]).
    destruct K as [->|[->| ->]]; [auto|right; right; rewrite turn3; reflexivity|right; left; rewrite turn3; reflexivity].
Qed.
Lemma times_count : forall L s, times s L = count_occ tri_dec (map canon L) (canon s).
Proof.
  induction L as [|t L IH]; intros s; [reflexivity|]. cbn [map count_occ]. unfold times in *. cbn [filter]. destruct (tri_dec (canon t) (canon s)) as [E|E].
  - replace (rotation s t) with true by (symmetry; apply rot_canon; exact E). cbn [length]. rewrite IH. reflexivity.
  - destruct (rotation s t) eqn:R; [apply rot_canon in R; contradiction|]. apply IH.
Qed.
Lemma flip_rot : forall s t, rotation (flip s) t = rotation s (flip t).
Proof.
  intros [[a b] c] [[i j] k]. cbn [flip rotation]. destruct (Nat.eqb_spec i a), (Nat.eqb_spec j c), (Nat.eqb_spec k b), (Nat.eqb_spec i c), (Nat.eqb_spec j b), (Nat.eqb_spec k a), (Nat.eqb_spec i b), (Nat.eqb_spec j a), (Nat.eqb_spec k c); try reflexivity; exfalso; congruence.
Qed.
Lemma times_flip : forall L s, times s (map flip L) = times (flip s) L.
Proof. induction L as [|t L IH]; intros s; [reflexivity|]. unfold times in *. cbn [map filter]. rewrite flip_rot. destruct (rotation s (flip t)); cbn [length]; rewrite IH; reflexivity. Qed.
Lemma times_app : forall s L M, times s (L ++ M) = (times s L + times s M)%nat.
Proof. intros. unfold times. rewrite filter_app, app_length. reflexivity. Qed.
Lemma canon_idem : forall s, canon (canon s) = canon s.
Proof. intros s. destruct (canon_min s) as ([E|[E|E]] & _); rewrite E at 1; rewrite ?canon_turn; reflexivity. Qed.
Lemma canon_perm : forall L M, (forall s, times s L = times s M) -> Permutation (map canon L) (map canon M).
Proof.
  intros L M H. apply (Permutation_count_occ tri_dec). intros s. destruct (tri_dec (canon s) s) as [E|E].
  - rewrite <- E, <- !times_count. apply H.
  - assert (Z : forall K, count_occ tri_dec (map canon K) s = 0%nat). { intros K. apply count_occ_not_In. intros I. apply in_map_iff in I. destruct I as (x & Ex & _). apply E. rewrite <- Ex. apply canon_idem. }
    rewrite !Z. reflexivity.
Qed.
Lemma boundary_sum : forall tri tet (G : nat * nat * nat -> R), boundary tri tet -> (forall s, G (turn s) = G s) -> (forall s, G (flip s) = - G s) -> lsum G (tris tri) = lsum G (faces tet).
Proof.
  intros tri tet G B T F.
  assert (P : Permutation (map canon (tris tri ++ map flip (faces tet))) (map canon (faces tet ++ map flip (tris tri)))).
  { apply canon_perm. intros [[a b] c]. rewrite !times_app, !times_flip. cbn [flip]. apply B. }
  pose proof (lsum_perm _ G _ _ P) as K. rewrite !lsum_map in K. rewrite !(lsum_ext _ (fun a => G (canon a)) G) in K by (intros s; destruct (canon_min s) as ([->|[->| ->]] & _); rewrite ?T; reflexivity).
  rewrite !lsum_app, !lsum_map, !(lsum_ext _ (fun a => G (flip a)) (fun a => - G a)), !lsum_opp in K by exact F. lra.
Qed.
Lemma sum_faces : forall (F : nat -> nat -> nat -> nat -> R) (G : nat * nat * nat -> R) tet, (forall a b c d, F a b c d = G (b, c, d) + G (a, d, c) + G (a, b, d) + G (a, c, b)) ->
  sum (length tet / 4) (fun t => F (cor 4 tet t 0) (cor 4 tet t 1) (cor 4 tet t 2) (cor 4 tet t 3)) = lsum G (faces tet).
Proof.
  intros F G tet H. revert tet. apply list4_ind.
  - intros l Hl. rewrite Nat.div_small by exact Hl. destruct l as [|a [|b [|c [|d l]]]]; try reflexivity. cbn [length] in Hl. lia.
  - intros a b c d l IH.
    replace (length (a :: b :: c :: d :: l) / 4)%nat with (S (length l / 4)). 2:{ cbn [length]. replace (S (S (S (S (length l))))) with (length l + 1 * 4)%nat by lia. rewrite Nat.div_add by lia. lia. }
    rewrite sum_first. cbn [faces lsum]. rewrite <- IH. 
    match goal with |- ?A + ?B = _ => replace A with (G (b, c, d) + G (a, d, c) + G (a, b, d) + G (a, c, b)) by (rewrite <- H; reflexivity) end.
    match goal with |- _ + ?B = _ => replace B with (sum (length l / 4) (fun t => F (cor 4 l t 0) (cor 4 l t 1) (cor 4 l t 2) (cor 4 l t 3))) end; [ring|].
    apply sum_ext. intros t Ht. unfold cor.
    replace (4 * S t + 0)%nat with (S (S (S (S (4 * t + 0))))) by lia. replace (4 * S t + 1)%nat with (S (S (S (S (4 * t + 1))))) by lia. replace (4 * S t + 2)%nat with (S (S (S (S (4 * t + 2))))) by lia. replace (4 * S t + 3)%nat with (S (S (S (S (4 * t + 3))))) by lia. reflexivity.
Qed.
Lemma boundary_volume : forall l tri tet, boundary tri tet -> sum (length tri / 3) (solid_w l tri) = sum (length tet / 4) (tet_vol l tet).
Proof.
  intros l tri tet B. rewrite solid_sum_w. rewrite (boundary_sum tri tet (fun s => let '(a, b, c) := s in det (pnt l a) (pnt l b) (pnt l c) / 6) B).
  - symmetry. apply (sum_faces (fun a b c d => volume (pnt l a) (pnt l b) (pnt l c) (pnt l d))). intros. unfold volume, volume6, det. cbn [vx vy vz]. field.
  - intros [[a b] c]. cbn [turn]. unfold det. field.
  - intros [[a b] c]. cbn [flip]. unfold det. field.
Qed.
Lemma boundary_moment : forall l tri tet (f : vec3 -> R), boundary tri tet -> f = vx \/ f = vy \/ f = vz ->
  lsum (fun s => f (mom3 l s)) (tris tri) = sum (length tet / 4) (fun t => tet_vol l tet t * f (tet_mid l tet t)).
Proof.
  intros l tri tet f B Hf. rewrite (boundary_sum tri tet (fun s => f (mom3 l s)) B).
  - symmetry. apply (sum_faces (fun a b c d => volume (pnt l a) (pnt l b) (pnt l c) (pnt l d) * f (mid4 (pnt l a) (pnt l b) (pnt l c) (pnt l d)))). intros a b c d. unfold mom3. generalize (pnt l a) (pnt l b) (pnt l c) (pnt l d). intros p q r s.
    destruct Hf as [->|[->| ->]]; cbn [vx vy vz]; unfold volume, volume6, mid4, comb, moment, det, origin3; cbn [vx vy vz]; field.
  - intros [[a b] c]. cbn [turn mom3]. destruct Hf as [->|[->| ->]]; cbn [vx vy vz]; unfold moment, det; field.
  - intros [[a b] c]. cbn [flip mom3]. destruct Hf as [->|[->| ->]]; cbn [vx vy vz]; unfold moment, det; field.
Qed.

Lemma boundary_cg : forall l tri tet c, valid tri l -> valid tet l -> boundary tri tet -> CG_MeshTri3_Solid l tri = Some c ->
  CG_MeshTet3 l tet = Some (sum (length tet / 4) (tet_vol l tet), c).
Proof.
  intros l tri tet c V V' B E.
  destruct (cg_solid_proof l tri V) as (P & N). destruct (Req_dec (sum (length tri / 3) (solid_w l tri)) 0) as [Z|Z]; [rewrite (N Z) in E; discriminate|].
  destruct (P Z) as (c1 & E1 & _ & Hc). rewrite E in E1. injection E1. intros <-. clear E1 P N.
  pose proof (boundary_volume l tri tet B) as TV.
  destruct (cg_tet_proof l tet V') as (P' & _). destruct P' as (c' & E' & Hc'); [rewrite <- TV; exact Z|]. rewrite E'. do 2 f_equal.
  apply (centre_unique _ _ _ _ _ Hc'). split; [rewrite <- TV; exact Z|]. rewrite <- TV, Hc, solid_sum_p. unfold wsum.
  rewrite (boundary_moment l tri tet vx B), (boundary_moment l tri tet vy B), (boundary_moment l tri tet vz B) by auto. reflexivity.
Qed.
