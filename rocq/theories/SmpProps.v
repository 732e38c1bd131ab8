(** C84: random points on meshes of triangles, and colours. *)
From Coq Require Import List Arith Bool ZArith Reals Lra Lia.
Import ListNotations.
From Verif Require Import Imp PrModel GjkProofs1 MeasSpec MeasProofs2 PlnProofs1 SmpModel SmpSpec SmpProofs1 SmpProofs2.
Open Scope R_scope.

(** The draws of two numbers give a point of selected triangle k exactly if the first falls into its share; a number at the end of a share gives no answer. *)
Definition draws (vtx : list R) (tri sel : list nat) (draw : R -> R -> option (nat * R * R)) : Prop := forall u v,
  (forall k a b, (k < length sel)%nat -> falls vtx tri sel u k -> folded (share vtx tri sel u k) v a b -> draw u v = Some (nth k sel 0%nat, a, b)) /\
  ((forall k, (k < length sel)%nat -> ~ falls vtx tri sel u k) -> draw u v = None).
Lemma draws_at : forall vtx tri sel cum, sums (fun i => area vtx tri (nth i sel 0%nat)) (length sel) cum -> forall u v,
  (forall k a b, (k < length sel)%nat -> falls vtx tri sel u k -> folded (share vtx tri sel u k) v a b -> sample_at cum (length sel) u v = Some (k, a, b)) /\
  ((forall k, (k < length sel)%nat -> ~ falls vtx tri sel u k) -> sample_at cum (length sel) u v = None).
Proof.
  intros vtx tri sel cum S u v. split.
  - intros k a b K F D. apply fold2_ok in D. rewrite (sample_some _ _ _ u v k (fun i => area_pos vtx tri (nth i sel 0%nat)) S K F).
    change ((u * sum (length sel) (fun i => area vtx tri (nth i sel 0%nat)) - sum k (fun i => area vtx tri (nth i sel 0%nat))) / area vtx tri (nth k sel 0%nat)) with (share vtx tri sel u k). rewrite D. reflexivity.
  - intros N. apply sample_none with (1 := S). exact N.
Qed.
Theorem C84_sample : forall vtx tri, valid vtx tri -> draws vtx tri (seq 0 (length tri / 3)) (Sample vtx tri).
Proof.
  intros vtx tri V u v. destruct (cum_ok vtx tri V) as (cum & E & S). unfold Sample. rewrite E. cbn [bind].
  assert (S' : sums (fun i => area vtx tri (nth i (seq 0 (length tri / 3)) 0%nat)) (length (seq 0 (length tri / 3))) cum) by (rewrite seq_length; apply sums_ext with (2 := S); intros i I; rewrite seq_nth by auto; reflexivity).
  destruct (draws_at _ _ _ _ S' u v) as (A & B). rewrite seq_length in A, B. split; rewrite seq_length; auto. intros k a b K F D. rewrite seq_nth by auto. apply A; auto.
Qed.
(** The same for the triangles that a predicate selects. *)
Theorem C84_sample_selective : forall vtx tri fnc, valid vtx tri -> draws vtx tri (filter fnc (seq 0 (length tri / 3))) (Sample_selective vtx tri fnc).
Proof.
  intros vtx tri fnc V u v. destruct (cum_sel_ok vtx tri fnc V) as (cum & E & S). unfold Sample_selective. rewrite E. cbn [bind]. destruct (draws_at _ _ _ _ S u v) as (A & B). split.
  - intros k a b K F D. rewrite (A k a b K F D). cbn [bind]. rewrite (vget_nth _ 0%nat) by auto. reflexivity.
  - intros N. rewrite (B N). reflexivity.
Qed.
(** So every answer is a selected triangle of positive area and a point in it, ... *)
Theorem C84_inside : forall vtx tri sel draw, draws vtx tri sel draw -> forall u v t a b, 0 <= v <= 1 -> draw u v = Some (t, a, b) -> In t sel /\ 0 < area vtx tri t /\ 0 <= a /\ 0 <= b /\ a + b <= 1.
Proof.
  intros vtx tri sel draw D u v t a b V E. destruct (D u v) as (A & B).
  assert (X : (exists k, (k < length sel)%nat /\ falls vtx tri sel u k) \/ (forall k, (k < length sel)%nat -> ~ falls vtx tri sel u k)).
  { generalize (length sel) as n. induction n; [right; lia|]. destruct IHn as [(k & K & F)|N]; [left; exists k; split; [lia|auto]|].
    unfold falls. destruct (Rlt_dec (before vtx tri sel n) (u * total vtx tri sel)); [destruct (Rlt_dec (u * total vtx tri sel) (before vtx tri sel (S n)))|]; [left; exists n; split; [lia|lra]| |]; right; intros k K (F & F'); (destruct (Nat.eq_dec k n) as [->|]; [lra|apply (N k); [lia|split; auto]]). }
  destruct X as [(k & K & F)|N]; [|rewrite B in E by auto; discriminate]. pose proof F as (F0 & F1). change (before vtx tri sel (S k)) with (before vtx tri sel k + area vtx tri (nth k sel 0%nat)) in F1.
  set (s := share vtx tri sel u k). assert (S01 : 0 < s < 1). { unfold s, share. split; [apply Rdiv_lt_0_compat; lra|]. apply Rmult_lt_reg_r with (area vtx tri (nth k sel 0%nat)); [lra|]. unfold Rdiv. rewrite Rmult_assoc, Rinv_l by lra. lra. }
  destruct (fold2 s v) as (a', b') eqn:G. apply fold2_ok in G. rewrite (A k a' b' K F G) in E. injection E as <- <- <-. split; [apply nth_In; auto|]. split; [lra|]. destruct G as [(? & -> & ->)|(? & -> & ->)]; lra.
Qed.
(** ... and every point inside of a triangle comes from exactly two pairs of numbers: where it is in the square, and mirrored at the diagonal. *)
Theorem C84_twice : forall vtx tri sel draw, draws vtx tri sel draw -> forall u v k a b, (k < length sel)%nat -> falls vtx tri sel u k -> a + b < 1 ->
  (draw u v = Some (nth k sel 0%nat, a, b) <-> (share vtx tri sel u k = a /\ v = b) \/ (share vtx tri sel u k = 1 - b /\ v = 1 - a)).
Proof.
  intros vtx tri sel draw D u v k a b K F AB. destruct (D u v) as (A & _). set (s := share vtx tri sel u k) in *. split.
  - intros E. destruct (fold2 s v) as (a', b') eqn:G. apply fold2_ok in G. rewrite (A k a' b' K F G) in E. injection E as -> ->. destruct G as [(? & -> & ->)|(? & -> & ->)]; [left|right]; split; ring.
  - intros [(S & ->)|(S & ->)]; apply A; auto; unfold folded; fold s; rewrite S; [left|right]; repeat split; lra.
Qed.
(** The engine may answer 0, which fails: not every pair of numbers gives a point. *)
Theorem C84_every_number_refuted : forall vtx tri v, valid vtx tri -> Sample vtx tri 0 v = None.
Proof.
  intros vtx tri v V. destruct (C84_sample vtx tri V 0 v) as (_ & B). apply B. intros k K (F & _). rewrite Rmult_0_l in F. assert (0 <= before vtx tri (seq 0 (length tri / 3)) k); [|lra].
  change 0 with (sum 0 (fun i => area vtx tri (nth i (seq 0 (length tri / 3)) 0%nat))). apply sum_mono; [intros; apply area_pos|lia].
Qed.
(** Hue, saturation and value: every channel is the value, less the fraction that it lacks at the hue of the chroma; the greatest channel is the value, and the least is the value times one minus the saturation. *)
Theorem C84_hsv : forall h s v r g b, 0 <= h <= 1 -> 0 <= s <= 1 -> 0 <= v -> GetRGB_HSV h s v = (r, g, b) ->
  r = hsv 5 h s v /\ g = hsv 3 h s v /\ b = hsv 1 h s v /\ (forall c, c = r \/ c = g \/ c = b -> v * (1 - s) <= c <= v) /\ (r = v \/ g = v \/ b = v) /\ (r = v * (1 - s) \/ g = v * (1 - s) \/ b = v * (1 - s)).
Proof.
  intros h s v r g b H S V E. rewrite hsv_eq in E by lra. injection E as <- <- <-. repeat (split; [reflexivity|]).
  assert (B : forall n, v * (1 - s) <= hsv n h s v <= v). { intros n. unfold hsv. pose proof (lack_range n h) as L. assert (0 <= v * s) by (apply Rmult_le_pos; lra). assert (0 <= v * s * lack n h <= v * s * 1) by (split; [apply Rmult_le_pos; lra|apply Rmult_le_compat_l; lra]). lra. }
  split; [intros c [->|[->| ->]]; apply B|]. destruct (some_full h H) as (F & G). unfold hsv. split.
  - clear G; destruct F as [G|[G|G]]; rewrite G; [left|right; left|right; right]; ring.
  - destruct G as [G|[G|G]]; rewrite G; [left|right; left|right; right]; ring.
Qed.
(** A colour map with increasing values: the first colour below, the last colour above, between two neighbours the straight mix, without a division by zero. *)
Theorem C84_color_map : forall x, getColor x [] = Some (Col 0 0 0 1) /\
  (forall v c m, increasing ((v, c) :: m) -> x < v -> getColor x ((v, c) :: m) = Some c) /\
  (forall pre v c, increasing (pre ++ [(v, c)]) -> v <= x -> getColor x (pre ++ [(v, c)]) = Some c) /\
  (forall pre v0 c0 v1 c1 post, increasing (pre ++ (v0, c0) :: (v1, c1) :: post) -> v0 <= x <= v1 -> exists c, getColor x (pre ++ (v0, c0) :: (v1, c1) :: post) = Some c /\
    forall ch, In ch [cr; cg; cb; ca] -> (v1 - v0) * ch c = (v1 - x) * ch c0 + (x - v0) * ch c1).
Proof.
  intros x. split; [reflexivity|]. split; [intros v c m _ X; cbn [getColor]; rewrite ltRt by auto; auto|]. split; [intros; apply map_last; auto|].
  intros pre v0 c0 v1 c1 post H X. eexists. split; [apply map_mid; auto|]. assert (L : v0 < v1). { clear X. induction pre as [|p pre IH]; [apply H|]. apply IH. apply inc_tail in H. exact H. }
  intros ch I. cbn in I. destruct I as [<-|[<-|[<-|[<-|[]]]]]; cbn; field; lra.
Qed.
(** The heat map runs straight from blue over cyan, green and yellow to red, and is the colour map of these five colours. *)
Theorem C84_heatmap : (forall t, heatmap t = (cut01 (4 * t - 2), cut01 (Rmin (4 * t) (4 - 4 * t)), cut01 (2 - 4 * t))) /\
  (forall min max alpha x, min < max -> getColor x (ColorMap_BlueCyanGreenYellowRed [] min max alpha) = let '(r, g, b) := heatmap ((x - min) / (max - min)) in Some (Col r g b alpha)).
Proof. split; [exact heat_eq|exact heat_map]. Qed.

(** *** Cases *)
(** A square of two triangles. *)
Definition ex_vtx : list R := [0;0;0; 1;0;0; 1;1;0; 0;1;0].
Definition ex_tri : list nat := [0;1;2; 0;2;3]%nat.
Lemma ex_valid : valid ex_vtx ex_tri.
Proof. intros i I. cbn in I |- *. destruct I as [<-|[<-|[<-|[<-|[<-|[<-|[]]]]]]]; lia. Qed.
Example ex_sample : Sample ex_vtx ex_tri (7 / 8) (3 / 4) = Some (1%nat, 1 / 4, 1 / 4) /\ Sample ex_vtx ex_tri (1 / 2) (3 / 4) = None.
Proof.
  assert (A : forall t, (t < 2)%nat -> area ex_vtx ex_tri t = 1 / 2). { intros t T. unfold area, dot, edge, coord. destruct t as [|[|t]]; [| |lia]; cbn [ex_vtx ex_tri nth Nat.add Nat.mul]; match goal with |- sqrt ?e / 2 = _ => replace e with (1 * 1) by ring end; rewrite sqrt_square; lra. }
  assert (B0 : before ex_vtx ex_tri [0; 1]%nat 0 = 0) by reflexivity. assert (B1 : before ex_vtx ex_tri [0; 1]%nat 1 = 1 / 2) by (unfold before; cbn [sum nth]; rewrite A by lia; lra). assert (B2 : before ex_vtx ex_tri [0; 1]%nat 2 = 1) by (unfold before; cbn [sum nth]; rewrite !A by lia; lra).
  pose proof (C84_sample ex_vtx ex_tri ex_valid) as D. change (seq 0 (length ex_tri / 3)) with [0; 1]%nat in D. split.
  - destruct (D (7 / 8) (3 / 4)) as (F & _). apply (F 1%nat); [cbn; lia|unfold falls, total; cbn [length]; rewrite B1, B2; lra|]. unfold share, total. cbn [length nth]. rewrite B1, B2, A by lia. right. lra.
  - destruct (D (1 / 2) (3 / 4)) as (_ & F). apply F. intros k K (P & Q). unfold total in P, Q. cbn [length] in K, P, Q. rewrite B2 in P, Q. destruct k as [|[|k]]; [| |lia]; rewrite ?B0, ?B1, ?B2 in P, Q; lra.
Qed.
Example ex_hsv : GetRGB_HSV (1 / 3) 1 1 = (0, 1, 0).
Proof. rewrite hsv_eq by lra. apply triple_eq; lk. Qed.

Print Assumptions C84_sample.
Print Assumptions C84_sample_selective.
Print Assumptions C84_inside.
Print Assumptions C84_twice.
Print Assumptions C84_every_number_refuted.
Print Assumptions C84_hsv.
Print Assumptions C84_color_map.
Print Assumptions C84_heatmap.
