(** C69: the collision of convex hulls in the plane. *)
From Coq Require Import List Arith Bool Reals Lra Lia.
Import ListNotations.
From Verif Require Import Imp PrModel PolyModel HullSpec GjkModel GjkSpec GjkProofs1 GjkProofs2 GjkProofs3 GjkProofs4 GjkProofs5.
Open Scope R_scope.

Lemma diffs_len : forall A B, length (diffs A B) = (length A * length B)%nat.
Proof. intros. unfold diffs. rewrite map_length, prod_length. auto. Qed.

(** For all finite sets of points that are not empty the GJK loop ends, and it says that the convex hulls have a common point if and only if they do. *)
Theorem C69_gjk : forall A B fuel, A <> [] -> B <> [] -> (2 * (length A * length B) + 3 <= fuel)%nat ->
  exists r, IsIntersect_Points2_Points2_Gjk fuel A B = Some r /\ (r = true <-> collide A B).
Proof.
  intros A B fuel NA NB F. rewrite <- diffs_len in F. destruct (gjk_ok A B NA NB fuel F) as (r & E & G). unfold IsIntersect_Points2_Points2_Gjk. rewrite E. cbn [bind]. eexists. split; [reflexivity|].
  destruct G as [(-> & d & Hd)|(s0 & s1 & s2 & -> & H0 & H1 & H2 & HH)].
  - split; [discriminate|]. intros C. exfalso. revert C. apply (not_collide A B d); auto. intros a b Ha Hb. apply Hd. apply in_diffs. eauto.
  - split; auto. intros _. apply collide_of. eapply hull_mono; [|exact HH]. intros y [->|[->| ->]]; auto.
Qed.
(** The triangle of a collision: its corners are differences of a point of A and one of B, and it contains the origin. *)
Theorem C69_simplex : forall A B fuel, A <> [] -> B <> [] -> (2 * (length A * length B) + 3 <= fuel)%nat -> collide A B ->
  exists s0 s1 s2, FindIntersectingSimplexForGjk2 fuel A B = Some [s0; s1; s2] /\
    (forall s, In s [s0; s1; s2] -> exists a b, In a A /\ In b B /\ s = (fst a - fst b, snd a - snd b)) /\ hullof [s0; s1; s2] (0, 0).
Proof.
  intros A B fuel NA NB F C. rewrite <- diffs_len in F. destruct (gjk_ok A B NA NB fuel F) as (r & E & [(-> & d & Hd)|(s0 & s1 & s2 & -> & H0 & H1 & H2 & HH)]).
  - exfalso. revert C. apply (not_collide A B d); auto. intros a b Ha Hb. apply Hd. apply in_diffs. eauto.
  - exists s0, s1, s2. split; auto. split.
    + intros s [<-|[<-|[<-|[]]]]; apply in_diffs; auto.
    + eapply hull_mono; [|exact HH]. cbn. intros y [->|[->| ->]]; auto.
Qed.

(** The test with separating axes always ends.  "Apart" is right; "collision" is right if the points are not all on parallel lines. *)
Theorem C69_sat : forall A B, A <> [] -> B <> [] -> exists r, IsIntersect_Points2_Points2_Sat A B = Some r /\
  (r = false -> ~ collide A B) /\ (not_parallel A B -> (r = true <-> collide A B)).
Proof.
  intros A B NA NB. destruct (sat_ok A B NA NB) as (r & E & H). exists r. split; auto.
  assert (S : r = false -> ~ collide A B) by (intros Er; apply H in Er; destruct Er as (v & w & _ & S); eapply sat_sep; eauto).
  split; auto. intros NP. split; intros C.
  - destruct (gjk_ok A B NA NB _ (le_n _)) as (q & _ & [(-> & d & Hd)|(s0 & s1 & s2 & -> & H0 & H1 & H2 & HH)]).
    + exfalso. assert (NC : ~ collide A B) by (apply (not_collide A B d); auto; intros a b Ha Hb; apply Hd; apply in_diffs; eauto).
      apply (sat_complete A B NA NB NP) in NC. apply H in NC. congruence.
    + apply collide_of. eapply hull_mono; [|exact HH]. intros y [->|[->| ->]]; auto.
  - destruct r; auto. exfalso. apply (S eq_refl). auto.
Qed.
(** Points on one line: the test always says "collision", also when the sets are apart. *)
Theorem C69_sat_line_refuted : forall o u A B, A <> [] -> B <> [] -> (forall x, In x A \/ In x B -> exists t, x = (fst o + t * fst u, snd o + t * snd u)) ->
  IsIntersect_Points2_Points2_Sat A B = Some true.
Proof.
  intros o u A B NA NB L. destruct (sat_ok A B NA NB) as (r & E & H). rewrite E. destruct r; auto. exfalso. destruct (proj1 H eq_refl) as (v & w & I & S).
  assert (Iv : In v A \/ In v B) by tauto. assert (Iw : In w A \/ In w B) by tauto. destruct (L v Iv) as (tv & ->). destruct (L w Iw) as (tw & ->).
  assert (Z : forall m, In m (diffs A B) -> dotp (axis (fst o + tv * fst u, snd o + tv * snd u) (fst o + tw * fst u, snd o + tw * snd u)) m = 0).
  { intros m Hm. apply in_diffs in Hm. destruct Hm as (a & b & Ha & Hb & ->). destruct (L a (or_introl Ha)) as (ta & ->). destruct (L b (or_intror Hb)) as (tb & ->). unfold axis. uv. ring. }
  destruct (support_ok A B (0, 0) NA NB) as (m & _ & Hm & _). specialize (Z m Hm). destruct S as [S|S]; specialize (S m Hm); lra.
Qed.

(** The penetration: apart gives false, whatever the tolerance. *)
Theorem C69_epa_apart : forall A B tol fuelg fuel, A <> [] -> B <> [] -> (2 * (length A * length B) + 3 <= fuelg)%nat -> ~ collide A B ->
  Penetration_Points2_Points2_Epa fuelg fuel A B tol = Some (false, None).
Proof. intros A B tol fuelg fuel NA NB F NC. rewrite <- diffs_len in F. apply epa_apart; auto. Qed.
(** Whenever the penetration is returned it is the shortest separation up to the tolerance, if the corners of the GJK triangle are different. *)
Theorem C69_epa_result : forall A B tol fuelg fuel s0 s1 s2 r, A <> [] -> B <> [] -> 0 < tol -> (2 * (length A * length B) + 3 <= fuelg)%nat ->
  FindIntersectingSimplexForGjk2 fuelg A B = Some [s0; s1; s2] -> s0 <> s1 -> s1 <> s2 -> s2 <> s0 ->
  Penetration_Points2_Points2_Epa fuelg fuel A B tol = Some r -> exists t, r = (true, Some t) /\ shortest_separation A B tol t.
Proof. intros A B tol fuelg fuel s0 s1 s2 r NA NB T0 F. rewrite <- diffs_len in F. apply epa_result; auto. Qed.
(** It is returned if these corners are on the boundary of the set of differences and not on a line. *)
Theorem C69_epa : forall A B tol fuelg fuel s0 s1 s2, A <> [] -> B <> [] -> 0 < tol -> (2 * (length A * length B) + 3 <= fuelg)%nat -> (3 * (length A * length B) + 1 <= fuel)%nat ->
  FindIntersectingSimplexForGjk2 fuelg A B = Some [s0; s1; s2] -> outermost A B s0 -> outermost A B s1 -> outermost A B s2 ->
  (fst s1 - fst s0) * (snd s2 - snd s0) - (snd s1 - snd s0) * (fst s2 - fst s0) <> 0 ->
  exists t, Penetration_Points2_Points2_Epa fuelg fuel A B tol = Some (true, Some t) /\ shortest_separation A B tol t.
Proof. intros A B tol fuelg fuel s0 s1 s2 NA NB T0 F F2 E O0 O1 O2 C. rewrite <- diffs_len in F, F2. apply (epa_total A B tol fuelg fuel s0 s1 s2); auto. Qed.
(** Two sets with the same first and the same last point (for example twice the same set): the loop of the penetration never ends. *)
Theorem C69_epa_same_refuted : forall A B tol fuelg fuel, A <> [] -> B <> [] -> hd (0, 0) A = hd (0, 0) B -> last A (0, 0) = last B (0, 0) ->
  Penetration_Points2_Points2_Epa fuelg fuel A B tol = None.
Proof. intros A B tol fuelg fuel NA NB HF HL. apply epa_same; auto. Qed.

(** Examples. *)
Definition ex_gjk_A : list pt := [(0, 0); (4, 0); (0, 4)].
Definition ex_gjk_B : list pt := [(1, 1); (5, 2); (2, 5)].
Ltac rd := repeat (match goal with |- context [ltR ?a ?b] => let Q := fresh "Q" in pose proof (ltRs a b) as Q; destruct (ltR a b); [try (exfalso; lra)|try (exfalso; lra)]; clear Q end; cbn [negb andb orb fst snd]).
Lemma ex_gjk_simplex : forall fuel, (3 <= fuel)%nat -> FindIntersectingSimplexForGjk2 fuel ex_gjk_A ex_gjk_B = Some [(-1, 3); (2, -5); (-5, -2)].
Proof.
  intros fuel F. unfold FindIntersectingSimplexForGjk2. cbn [vget nth_error bind ex_gjk_A ex_gjk_B].
  assert (SB : forall a b c d e f, a - c = e -> b - d = f -> subp (a, b) (c, d) = (e, f)) by (intros; subst; reflexivity).
  rewrite (SB 1 1 0 0 1 1) by lra.
  assert (S0 : support ex_gjk_A ex_gjk_B (Some (1, 1)) = Some (-1, 3)).
  { unfold support, FindFurthest, ex_gjk_A, ex_gjk_B. cbn [vget nth_error bind fold_left ndot option_map nneg nlt fst snd]. unfold dotp. cbn [fst snd]. rd. cbn [nlt ndot option_map bind fst snd]. unfold dotp. cbn [fst snd]. rd. cbn [bind fst snd]. f_equal. apply SB; lra. }
  assert (S1 : support ex_gjk_A ex_gjk_B (Some (1, -3)) = Some (2, -5)).
  { unfold support, FindFurthest, ex_gjk_A, ex_gjk_B. cbn [vget nth_error bind fold_left ndot option_map nneg nlt fst snd]. unfold dotp. cbn [fst snd]. rd. cbn [nlt ndot option_map bind fst snd]. unfold dotp. cbn [fst snd]. rd. cbn [bind fst snd]. f_equal. apply SB; lra. }
  assert (S2 : support ex_gjk_A ex_gjk_B (Some (-8 / 73, -3 / 73)) = Some (-5, -2)).
  { unfold support, FindFurthest, ex_gjk_A, ex_gjk_B. cbn [vget nth_error bind fold_left ndot option_map nneg nlt fst snd]. unfold dotp. cbn [fst snd]. rd. cbn [nlt ndot option_map bind fst snd]. unfold dotp. cbn [fst snd]. rd. cbn [bind fst snd]. f_equal. apply SB; lra. }
  assert (PE : perp (-2, 5) (-3, 8) = Some (-8 / 73, -3 / 73)).
  { rewrite perp_eq by (intros E; injection E; lra). unfold crossp, dotp. cbn [fst snd]. f_equal. f_equal; field. }
  change ([(0, 0); (4, 0); (0, 4)]) with ex_gjk_A. change ([(1, 1); (5, 2); (2, 5)]) with ex_gjk_B. rewrite S0. cbn [bind]. rewrite (SB 0 0 (-1) 3 1 (-3)) by lra.
  destruct fuel as [|[|fuel]]; try lia. cbn [loopf]. unfold gjk_step at 1. rewrite S1. cbn [bind ndot option_map nlt]. unfold dotp at 1. cbn [fst snd]. rd. cbn [app bind]. rewrite (SB (-1) 3 2 (-5) (-3) 8), (SB 0 0 2 (-5) (-2) 5), PE by lra.
  cbn [bind loopf]. unfold gjk_step at 1. rewrite S2. cbn [bind]. replace (nlt (ndot (Some (-8 / 73, -3 / 73)) (-5, -2)) (Some 0)) with false by (cbn [ndot option_map nlt]; unfold dotp; cbn [fst snd]; rd; reflexivity). cbn [app].
  rewrite (SB 2 (-5) (-5) (-2) 7 (-3)), (SB (-1) 3 (-5) (-2) 4 5), (SB 0 0 (-5) (-2) 5 2) by lra.
  rewrite nperp_no by (unfold crossp; cbn [fst snd]; lra). rewrite nperp_no by (unfold crossp; cbn [fst snd]; lra). reflexivity.
Qed.
Example C69_collide_example : collide ex_gjk_A ex_gjk_B.
Proof. exists (1, 1). split; [|apply hull_in; cbn; auto]. replace (1, 1) with (lincomb (1/2) (1/4) (1/4) (0, 0) (4, 0) (0, 4)) by (unfold lincomb; cbn [fst snd]; f_equal; lra). apply hull3; cbn; auto; lra. Qed.
Example C69_gjk_example : IsIntersect_Points2_Points2_Gjk 21 ex_gjk_A ex_gjk_B = Some true.
Proof. unfold IsIntersect_Points2_Points2_Gjk. rewrite ex_gjk_simplex by lia. reflexivity. Qed.
Example C69_not_parallel_example : not_parallel ex_gjk_A ex_gjk_B.
Proof. exists (4, 0), (0, 4). split; [exists (4, 0), (0, 0)|split; [exists (0, 4), (0, 0)|]]; try (split; [left; cbn; auto|cbn [fst snd]; f_equal; lra]). cbn [fst snd]. lra. Qed.
Example C69_sat_example : IsIntersect_Points2_Points2_Sat ex_gjk_A ex_gjk_B = Some true.
Proof. destruct (C69_sat ex_gjk_A ex_gjk_B) as (r & E & _ & H); try discriminate. rewrite E. f_equal. apply H; [apply C69_not_parallel_example|apply C69_collide_example]. Qed.
Example C69_outermost_example : outermost ex_gjk_A ex_gjk_B (-1, 3) /\ outermost ex_gjk_A ex_gjk_B (2, -5) /\ outermost ex_gjk_A ex_gjk_B (-5, -2).
Proof.
  split; [exists (1, 1)|split; [exists (1, -3)|exists (-8, -3)]]; (split; [intros E; injection E; lra|]); intros a b Ha Hb; cbn in Ha, Hb;
  destruct Ha as [<-|[<-|[<-|[]]]], Hb as [<-|[<-|[<-|[]]]]; cbn [fst snd]; lra.
Qed.
Example C69_epa_example : exists t, Penetration_Points2_Points2_Epa 21 28 ex_gjk_A ex_gjk_B (1/100) = Some (true, Some t) /\ shortest_separation ex_gjk_A ex_gjk_B (1/100) t.
Proof.
  destruct C69_outermost_example as (O0 & O1 & O2). apply (C69_epa ex_gjk_A ex_gjk_B (1/100) 21 28 (-1, 3) (2, -5) (-5, -2)); try discriminate; auto; try (cbn; lia); [lra|apply ex_gjk_simplex; lia|cbn [fst snd]; lra].
Qed.
Example C69_apart_example : ~ collide ex_gjk_A [(5, 0); (6, 1)] /\ IsIntersect_Points2_Points2_Gjk 21 ex_gjk_A [(5, 0); (6, 1)] = Some false.
Proof.
  assert (NC : ~ collide ex_gjk_A [(5, 0); (6, 1)]) by (apply (not_collide _ _ (1, 0)); try discriminate; intros a b Ha Hb; cbn in Ha, Hb; destruct Ha as [<-|[<-|[<-|[]]]], Hb as [<-|[<-|[]]]; uv; lra).
  split; auto. destruct (C69_gjk ex_gjk_A [(5, 0); (6, 1)] 21) as ([] & E & H); try discriminate; auto; [cbn; lia|]. exfalso. apply NC. apply H. auto.
Qed.
Example C69_sat_line_example : IsIntersect_Points2_Points2_Sat [(0, 0); (1, 0)] [(2, 0); (3, 0)] = Some true /\ ~ collide [(0, 0); (1, 0)] [(2, 0); (3, 0)].
Proof.
  split.
  - apply (C69_sat_line_refuted (0, 0) (1, 0)); try discriminate. intros x [[<-|[<-|[]]]|[<-|[<-|[]]]]; [exists 0|exists 1|exists 2|exists 3]; cbn [fst snd]; f_equal; lra.
  - apply (not_collide _ _ (1, 0)); try discriminate. intros a b Ha Hb; cbn in Ha, Hb; destruct Ha as [<-|[<-|[]]], Hb as [<-|[<-|[]]]; uv; lra.
Qed.
Example C69_epa_same_example : forall fuelg fuel, Penetration_Points2_Points2_Epa fuelg fuel ex_gjk_A ex_gjk_A (1/100) = None.
Proof. intros. apply C69_epa_same_refuted; try discriminate; reflexivity. Qed.

Print Assumptions C69_gjk.
Print Assumptions C69_simplex.
Print Assumptions C69_sat.
Print Assumptions C69_sat_line_refuted.
Print Assumptions C69_epa_apart.
Print Assumptions C69_epa_result.
Print Assumptions C69_epa.
Print Assumptions C69_epa_same_refuted.
