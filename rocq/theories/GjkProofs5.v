(** The penetration: the result, the end of the loop, and inputs on which the loop does not end. *)
From Coq Require Import List Arith Bool Reals Lra Lia.
Import ListNotations.
From Verif Require Import Imp PrModel PolyModel HullSpec GjkModel GjkSpec GjkProofs1 GjkProofs2 GjkProofs4.
Open Scope R_scope.

Lemma ccw_ok : forall s0 s1 s2, exists t1 t2, make_ccw [s0; s1; s2] = Some [s0; t1; t2] /\ (t1 = s1 /\ t2 = s2 \/ t1 = s2 /\ t2 = s1) /\ 0 <= crossp (subp t1 s0) (subp t2 s0).
Proof.
  intros. unfold make_ccw. cbn [vget nth_error bind]. cbv zeta. change (fst (subp s1 s0) * snd (subp s2 s0) - snd (subp s1 s0) * fst (subp s2 s0)) with (crossp (subp s1 s0) (subp s2 s0)).
  pose proof (ltRs (crossp (subp s1 s0) (subp s2 s0)) 0) as Q. destruct (ltR _ 0).
  - exists s2, s1. split; auto. split; auto. replace (crossp (subp s2 s0) (subp s1 s0)) with (- crossp (subp s1 s0) (subp s2 s0)) by (uv; ring). lra.
  - exists s1, s2. auto.
Qed.
Lemma start_inv : forall A B s0 s1 s2 t1 t2, A <> [] -> B <> [] -> In s0 (diffs A B) -> In s1 (diffs A B) -> In s2 (diffs A B) -> hull (fun y => y = s0 \/ y = s1 \/ y = s2) (0, 0) ->
  s0 <> s1 -> s1 <> s2 -> s2 <> s0 -> (t1 = s1 /\ t2 = s2 \/ t1 = s2 /\ t2 = s1) -> inv A B [s0; t1; t2].
Proof.
  intros A B s0 s1 s2 t1 t2 NA NB H0 H1 H2 HH N01 N12 N20 T. split; [split; [discriminate|]|split].
  - cbn [cyc path]. intros v w [E|[E|[E|[]]]]; injection E as <- <-; destruct T as [(-> & ->)|(-> & ->)]; congruence.
  - intros v [<-|[<-|[<-|[]]]]; auto; destruct T as [(-> & ->)|(-> & ->)]; auto.
  - apply cover_tri. eapply hull_mono; [|exact HH]. cbn beta. intros y Hy. destruct T as [(-> & ->)|(-> & ->)]; tauto.
Qed.
Lemma epa_result : forall A B tol fuelg fuel s0 s1 s2 r, A <> [] -> B <> [] -> 0 < tol -> (2 * length (diffs A B) + 3 <= fuelg)%nat ->
  FindIntersectingSimplexForGjk2 fuelg A B = Some [s0; s1; s2] -> s0 <> s1 -> s1 <> s2 -> s2 <> s0 ->
  Penetration_Points2_Points2_Epa fuelg fuel A B tol = Some r -> exists t, r = (true, Some t) /\ shortest_separation A B tol t.
Proof.
  intros A B tol fuelg fuel s0 s1 s2 r NA NB T0 F E N01 N12 N20 EP. destruct (gjk_ok A B NA NB fuelg F) as (q & Eq & G). rewrite E in Eq. injection Eq as <-.
  destruct G as [(? & _)|(a & b & c & X & H0 & H1 & H2 & HH)]; [discriminate|]. injection X as <- <- <-.
  unfold Penetration_Points2_Points2_Epa in EP. rewrite E in EP. cbn [bind length Nat.eqb assertb] in EP. destruct (ccw_ok s0 s1 s2) as (t1 & t2 & EC & T & _). rewrite EC in EP. cbn [bind] in EP.
  destruct (loopf fuel (epa_step A B tol) ([s0; t1; t2], None)) as [(l', na')|] eqn:EL; [|discriminate]. cbn [bind] in EP. injection EP as <-.
  assert (I : inv A B [s0; t1; t2]) by (exact (start_inv A B s0 s1 s2 t1 t2 NA NB H0 H1 H2 HH N01 N12 N20 T)).
  assert (HM : hull (fun x => In x (diffs A B)) (0, 0)) by (eapply hull_mono; [|exact HH]; intros y [->|[->| ->]]; auto).
  destruct (epa_loop A B NA NB tol T0 fuel _ _ _ _ I HM EL) as (t & -> & S). exists t. auto.
Qed.

(** The flag. *)
Lemma epa_apart : forall A B tol fuelg fuel, A <> [] -> B <> [] -> (2 * length (diffs A B) + 3 <= fuelg)%nat -> ~ collide A B -> Penetration_Points2_Points2_Epa fuelg fuel A B tol = Some (false, None).
Proof.
  intros A B tol fuelg fuel NA NB F NC. destruct (gjk_ok A B NA NB fuelg F) as (q & Eq & [(-> & _)|(a & b & c & X & H0 & H1 & H2 & HH)]).
  - unfold Penetration_Points2_Points2_Epa. rewrite Eq. reflexivity.
  - exfalso. apply NC. apply collide_of. eapply hull_mono; [|exact HH]. intros y [->|[->| ->]]; auto.
Qed.

(** The measure. *)
Definition rightb (v w m : pt) : bool := ltR (crossp (subp w v) (subp m v)) 0.
Lemma rights : forall v w m, rightb v w m = true <-> crossp (subp w v) (subp m v) < 0.
Proof. intros. unfold rightb. pose proof (ltRs (crossp (subp w v) (subp m v)) 0) as Q. destruct (ltR _ 0); split; auto; try discriminate. lra. Qed.
Lemma filter_split : forall {T} (f g h : T -> bool) l, (forall x, In x l -> f x = true -> h x = true) -> (forall x, In x l -> g x = true -> h x = true) -> (forall x, In x l -> f x = true -> g x = true -> False) ->
  (length (filter f l) + length (filter g l) <= length (filter h l))%nat.
Proof.
  intros T f g h l. induction l as [|x l IH]; intros F G D; [cbn; lia|]. cbn [filter].
  assert (IH' := IH (fun y Y => F y (or_intror Y)) (fun y Y => G y (or_intror Y)) (fun y Y => D y (or_intror Y))). pose proof (F x (or_introl eq_refl)) as Fx. pose proof (G x (or_introl eq_refl)) as Gx. pose proof (D x (or_introl eq_refl)) as Dx.
  destruct (f x), (g x); try (exfalso; auto; fail); try rewrite Fx by auto; try rewrite Gx by auto; destruct (h x); cbn [length]; lia.
Qed.
Lemma filter_split_lt : forall {T} (f g h : T -> bool) l y, (forall x, In x l -> f x = true -> h x = true) -> (forall x, In x l -> g x = true -> h x = true) -> (forall x, In x l -> f x = true -> g x = true -> False) ->
  In y l -> f y = false -> g y = false -> h y = true -> (length (filter f l) + length (filter g l) < length (filter h l))%nat.
Proof.
  intros T f g h l y F G D Hy Fy Gy Hh. apply in_split in Hy. destruct Hy as (l1 & l2 & ->). rewrite !filter_app. cbn [filter]. rewrite Fy, Gy, Hh. rewrite !app_length. cbn [length].
  pose proof (filter_split f g h l1) as S1. pose proof (filter_split f g h l2) as S2.
  assert (I1 : forall x, In x l1 -> In x (l1 ++ y :: l2)) by (intros; apply in_or_app; auto). assert (I2 : forall x, In x l2 -> In x (l1 ++ y :: l2)) by (intros; apply in_or_app; cbn; auto).
  specialize (S1 (fun x X => F x (I1 x X)) (fun x X => G x (I1 x X)) (fun x X => D x (I1 x X))). specialize (S2 (fun x X => F x (I2 x X)) (fun x X => G x (I2 x X)) (fun x X => D x (I2 x X))). lia.
Qed.
Lemma outl : forall e X P m z g, e <> (0, 0) -> dotp e X <= 0 -> dotp e P <= 0 -> dotp e m <= 0 -> dotp e z <= 0 -> 0 < g * crossp P X -> g * crossp m X <= 0 -> g * crossp P m < 0 -> 0 < g * crossp X z -> False.
Proof.
  intros e X P m z g Ne HX HP Hm Hz C1 C2 C3 C4. pose proof (coord e P X m) as K. assert (K' : (g * crossp P X) * dotp e m = (g * crossp m X) * dotp e P + (g * crossp P m) * dotp e X) by (rewrite !Rmult_assoc, K; ring).
  assert (Q1 : 0 <= (g * crossp P X) * - dotp e m) by (apply Rmult_le_pos; lra). assert (Q2 : 0 <= (- (g * crossp m X)) * - dotp e P) by (apply Rmult_le_pos; lra). assert (Q3 : 0 <= (- (g * crossp P m)) * - dotp e X) by (apply Rmult_le_pos; lra).
  assert (Z : (g * crossp P m) * dotp e X = 0) by lra. apply Rmult_integral in Z. destruct Z as [Z|Z]; [lra|].
  assert (NX : X <> (0, 0)) by (intros ->; replace (crossp P (0, 0)) with 0 in C1 by (uv; ring); lra).
  destruct (side e X z P NX Z) as (S1 & _).
  assert (gg : 0 <= g * g) by apply Rle_0_sqr.
  assert (CC : ~ 0 < crossp X z * crossp X P).
  { intros W. assert (0 < (g * crossp X z) * (g * crossp P X)) by (apply Rmult_lt_0_compat; auto). replace ((g * crossp X z) * (g * crossp P X)) with (- ((g * g) * (crossp X z * crossp X P))) in H by (uv; ring). assert (0 <= (g * g) * (crossp X z * crossp X P)) by (apply Rmult_le_pos; lra). lra. }
  destruct (Rlt_le_dec 0 (dotp e z * dotp e P)) as [W|W]; [auto|].
  assert (W' : 0 <= (- dotp e z) * (- dotp e P)) by (apply Rmult_le_pos; lra). assert (W0 : dotp e z * dotp e P = 0) by lra. apply Rmult_integral in W0. apply Ne. destruct W0 as [W0|W0].
  - apply (only0 e X z); auto. intros E. rewrite E in C4. lra.
  - apply (only0 e P X); auto. intros E. rewrite E in C1. lra.
Qed.

Section Epa.
Variables A B : list pt.
Hypothesis NA : A <> [].
Hypothesis NB : B <> [].
Variable tol : R.
Hypothesis T0 : 0 < tol.
Notation M := (diffs A B).
Definition cnt (e : pt * pt) : nat := length (filter (rightb (fst e) (snd e)) M).
Definition meas (l : list pt) : nat := list_sum (map cnt (cyc l)).
Definition inv2 (l : list pt) : Prop := (forall x, In x l -> outer A B x) /\ forall v w, In (v, w) (cyc l) -> exists z, In z M /\ 0 < crossp (subp w v) (subp z v).

Lemma split_count : forall v w p, In p M -> crossp (subp w v) (subp p v) < 0 -> (forall m, In m M -> crossp (subp w v) (subp p v) <= crossp (subp w v) (subp m v)) -> In v M -> In w M -> outer A B v -> outer A B w ->
  (exists z, In z M /\ 0 < crossp (subp w v) (subp z v)) -> (cnt (v, p) + cnt (p, w) < cnt (v, w))%nat.
Proof.
  intros v w p Hp C L Iv Iw (e & Ne & Oe) (f & Nf & Of) (z & Hz & Cz). unfold cnt. cbn [fst snd].
  assert (SB : forall u a b, dotp u (subp a b) = dotp u a - dotp u b) by (intros; uv; ring).
  apply (filter_split_lt _ _ _ M p); auto.
  - intros m Hm. rewrite !rights. intros R. destruct (Rlt_le_dec (crossp (subp w v) (subp m v)) 0) as [|G]; auto. exfalso.
    apply (outl e (subp w v) (subp p v) (subp m v) (subp z v) 1); auto; try (rewrite SB; match goal with |- dotp e ?x - _ <= 0 => assert (dotp e x <= dotp e v) by (apply Oe; auto) end; lra); clear - C R G Cz; uv; lra.
  - intros m Hm. rewrite !rights. intros R. destruct (Rlt_le_dec (crossp (subp w v) (subp m v)) 0) as [|G]; auto. exfalso.
    apply (outl f (subp v w) (subp p w) (subp m w) (subp z w) (-1)); auto; try (rewrite SB; match goal with |- dotp f ?x - _ <= 0 => assert (dotp f x <= dotp f w) by (apply Of; auto) end; lra); clear - C R G Cz; uv; lra.
  - intros m Hm. rewrite !rights. intros R1 R2. specialize (L m Hm). clear - C L R1 R2. uv. lra.
  - destruct (rightb v p p) eqn:E; auto. apply rights in E. exfalso. clear - E. uv. lra.
  - destruct (rightb p w p) eqn:E; auto. apply rights in E. exfalso. clear - E. uv. lra.
  - apply rights. auto.
Qed.
Lemma cross_nrm : forall v w x, v <> w -> crossp (subp w v) (subp x v) = (dist v w - dotp (nrm v w) x) * normp (subp w v).
Proof. intros v w x N. unfold dist. rewrite Rmult_minus_distr_r, !nrm_dot by auto. uv. ring. Qed.
Lemma epa_ends : forall fuel l na, inv A B l -> inv2 l -> (meas l < fuel)%nat -> exists st, loopf fuel (epa_step A B tol) (l, na) = Some st.
Proof.
  induction fuel as [|fuel IH]; intros l na I (O & Z) F; [lia|]. cbn [loopf].
  destruct (epa_step_ok A B NA NB tol T0 l na I) as (v & w & Hvw & L & p & Hp & LP & [(Q & ES)|(Q & l2 & e1 & e2 & ES & E1 & E2 & IN & I2)]); rewrite ES; cbn [bind]; [eauto|].
  pose proof I as (P & IM & _). assert (NV : v <> w) by (apply P; auto). pose proof (normp_pos _ (sub_ne v w NV)) as Pn. destruct (cyc_in l v w Hvw) as (Iv & Iw).
  assert (C : crossp (subp w v) (subp p v) < 0). { rewrite cross_nrm by auto. assert (0 < (dotp (nrm v w) p - dist v w) * normp (subp w v)) by (apply Rmult_lt_0_compat; lra). lra. }
  apply IH; auto.
  - split.
    + intros x Hx. destruct (IN x Hx) as [| ->]; auto. exists (nrm v w). split; auto. intros E. pose proof (nrm_unit v w NV) as U. rewrite E in U. uv. lra.
    + intros x y Hxy. rewrite E2 in Hxy. apply in_app_or in Hxy. destruct Hxy as [Hxy|[Hxy|[Hxy|Hxy]]]; try (apply Z; rewrite E1; apply in_or_app; cbn; auto; fail); injection Hxy as <- <-.
      * exists w. split; auto. clear - C. uv. lra.
      * exists v. split; auto. clear - C. uv. lra.
  - assert (S : (cnt (v, p) + cnt (p, w) < cnt (v, w))%nat).
    { apply split_count; auto. intros m Hm. rewrite !cross_nrm by auto. specialize (LP m Hm). apply Rmult_le_compat_r; lra. }
    unfold meas in *. rewrite E1 in F. rewrite E2. rewrite !map_app in *. cbn [map] in *. rewrite !list_sum_app in *. cbn [list_sum fold_right] in *. unfold list_sum in *. cbn [fold_right] in *. lia.
Qed.
End Epa.
Lemma outermost_outer : forall A B x, outermost A B x <-> outer A B x.
Proof.
  intros A B x. split; intros (e & Ne & H); exists e; split; auto.
  - intros m Hm. apply in_diffs in Hm. destruct Hm as (a & b & Ha & Hb & ->). exact (H a b Ha Hb).
  - intros a b Ha Hb. apply (H (subp a b)). apply in_diffs. eauto.
Qed.
Lemma epa_total : forall A B tol fuelg fuel s0 s1 s2, A <> [] -> B <> [] -> 0 < tol -> (2 * length (diffs A B) + 3 <= fuelg)%nat -> (3 * length (diffs A B) + 1 <= fuel)%nat ->
  FindIntersectingSimplexForGjk2 fuelg A B = Some [s0; s1; s2] -> outermost A B s0 -> outermost A B s1 -> outermost A B s2 -> crossp (subp s1 s0) (subp s2 s0) <> 0 ->
  exists t, Penetration_Points2_Points2_Epa fuelg fuel A B tol = Some (true, Some t) /\ shortest_separation A B tol t.
Proof.
  intros A B tol fuelg fuel s0 s1 s2 NA NB T0 F F2 E O0 O1 O2 C. apply outermost_outer in O0. apply outermost_outer in O1. apply outermost_outer in O2.
  assert (N01 : s0 <> s1) by (intros ->; apply C; uv; ring). assert (N12 : s1 <> s2) by (intros ->; apply C; uv; ring). assert (N20 : s2 <> s0) by (intros ->; apply C; uv; ring).
  destruct (gjk_ok A B NA NB fuelg F) as (q & Eq & G). rewrite E in Eq. injection Eq as <-.
  destruct G as [(? & _)|(a & b & c & X & H0 & H1 & H2 & HH)]; [discriminate|]. injection X as <- <- <-.
  assert (EX : exists r, Penetration_Points2_Points2_Epa fuelg fuel A B tol = Some r).
  { unfold Penetration_Points2_Points2_Epa. rewrite E. cbn [bind length Nat.eqb assertb]. destruct (ccw_ok s0 s1 s2) as (t1 & t2 & -> & T & CC). cbn [bind].
    assert (I : inv A B [s0; t1; t2]) by (exact (start_inv A B s0 s1 s2 t1 t2 NA NB H0 H1 H2 HH N01 N12 N20 T)).
    assert (C' : 0 < crossp (subp t1 s0) (subp t2 s0)). { destruct CC as [CC|CC]; auto. exfalso. apply C. destruct T as [(-> & ->)|(-> & ->)]; [lra|]. replace (crossp (subp s1 s0) (subp s2 s0)) with (- crossp (subp s2 s0) (subp s1 s0)) by (uv; ring). lra. }
    assert (I2 : inv2 A B [s0; t1; t2]).
    { pose proof I as (_ & IM & _). split.
      - intros x [<-|[<-|[<-|[]]]]; auto; destruct T as [(-> & ->)|(-> & ->)]; auto.
      - cbn [cyc path]. intros v w [X|[X|[X|[]]]]; injection X as <- <-; [exists t2|exists s0|exists t1]; (split; [apply IM; cbn; auto|clear - C'; uv; lra]). }
    destruct (epa_ends A B NA NB tol T0 fuel _ None I I2) as ((l', na') & ->); [|cbn [bind]; eauto].
    unfold meas, cyc, path, cnt. cbn [map fst snd]. unfold list_sum. cbn [fold_right]. pose proof (filter_all (rightb s0 t1) (diffs A B)). pose proof (filter_all (rightb t1 t2) (diffs A B)). pose proof (filter_all (rightb t2 s0) (diffs A B)). lia. }
  destruct EX as (r & Er). destruct (epa_result A B tol fuelg fuel s0 s1 s2 r NA NB T0 F E N01 N12 N20 Er) as (t & -> & S). eauto.
Qed.

(** The sets have the same first and the same last point: the loop does not end. *)
Lemma furthest_last : forall l d, l <> [] -> (forall x y, nlt (ndot d x) (ndot d y) = false) -> FindFurthest l d = Some (last l (0, 0)).
Proof.
  intros l d N H. destruct l as [|v0 l]; [congruence|]. unfold FindFurthest. cbn [vget nth_error bind]. f_equal.
  assert (Q : forall k r m, (m = None \/ exists y, m = ndot d y) -> fst (fold_left (fun '(ret, max_dist) vert => let dist := ndot d vert in if nlt dist max_dist then (ret, max_dist) else (vert, dist)) k (r, m)) = last k r).
  { induction k as [|x k IH]; intros r m Hm; [reflexivity|]. cbn [fold_left].
    assert (E : nlt (ndot d x) m = false) by (destruct Hm as [->|(y & ->)]; [destruct (ndot d x); reflexivity|apply H]). cbv zeta. rewrite E. rewrite IH by eauto. cbn [last]. destruct k as [|x' k]; auto. cbn [last]. clear. revert x'. induction k as [|y k IH]; intros; auto. apply (IH y). }
  rewrite Q by auto. cbn [last]. destruct l as [|x l]; auto. clear. revert x. induction l as [|y l IH]; intros; auto. apply (IH y).
Qed.
Lemma subp_self : forall x, subp x x = (0, 0). Proof. intros. unfold subp. f_equal; ring. Qed.
Lemma nlt_zero : forall d, d = None \/ (exists u, d = Some u /\ fst u = 0 /\ snd u = 0) -> forall x y, nlt (ndot d x) (ndot d y) = false.
Proof.
  intros d [->|(u & -> & U1 & U2)] x y; auto. cbn [ndot option_map nlt]. pose proof (ltRs (dotp u x) (dotp u y)) as Q. destruct (ltR _ _); auto. unfold dotp in Q. rewrite U1, U2 in Q. lra.
Qed.
Section Same.
Variables A B : list pt.
Hypothesis NA : A <> [].
Hypothesis NB : B <> [].
Hypothesis HF : hd (0, 0) A = hd (0, 0) B.
Hypothesis HL : last A (0, 0) = last B (0, 0).
Lemma support_zero : forall d, d = None \/ (exists u, d = Some u /\ fst u = 0 /\ snd u = 0) -> support A B d = Some (0, 0).
Proof.
  intros d D. unfold support. rewrite (furthest_last A d NA (nlt_zero d D)). cbn [bind]. rewrite (furthest_last B (nneg d) NB).
  - cbn [bind]. rewrite HL, subp_self. auto.
  - apply nlt_zero. destruct D as [->|(u & -> & U1 & U2)]; auto. right. eexists. split; [reflexivity|]. cbn [fst snd]. lra.
Qed.
Lemma gjk_zero : forall fuelg r, FindIntersectingSimplexForGjk2 fuelg A B = Some r -> r = [(0, 0); (0, 0); (0, 0)].
Proof.
  intros fuelg r. unfold FindIntersectingSimplexForGjk2. destruct A as [|a0 A'] eqn:EA; [congruence|]. destruct B as [|b0 B'] eqn:EB; [congruence|]. rewrite <- EA, <- EB in *. replace (vget A 0) with (Some a0) by (rewrite EA; auto). replace (vget B 0) with (Some b0) by (rewrite EB; auto). cbn [bind].
  assert (a0 = b0) by (rewrite EA, EB in HF; exact HF). subst b0. rewrite subp_self. rewrite support_zero by (right; eexists; split; [reflexivity|auto]). cbn [bind].
  assert (N0 : nlt (Some (dotp (subp (0, 0) (0, 0)) (0, 0))) (Some 0) = false) by (cbn [nlt]; pose proof (ltRs (dotp (subp (0, 0) (0, 0)) (0, 0)) 0) as Q; destruct (ltR _ 0); auto; uv; lra).
  destruct fuelg as [|fuelg]; [discriminate|]. cbn [loopf]. unfold gjk_step at 1. rewrite support_zero by (right; eexists; split; [reflexivity|rewrite subp_self; auto]). cbn [bind ndot option_map]. rewrite N0. cbn [app bind]. rewrite !subp_self, perp_nan.
  destruct fuelg as [|fuelg]; [discriminate|]. cbn [loopf]. unfold gjk_step at 1. rewrite support_zero by auto. cbn [bind ndot option_map nlt app]. rewrite !subp_self, perp_nan. cbn [nneg option_map ndot nlt bind]. intros E. injection E as <-. auto.
Qed.
Lemma closest_zero : forall l, l <> [] -> (forall x, In x l -> x = (0, 0)) -> exists k, FindClosestEdge l = Some (Some k, None) /\ (k < length l)%nat.
Proof.
  intros l N H. assert (L0 : (0 < length l)%nat) by (destruct l; [congruence|cbn; lia]).
  assert (G : forall i, (i < length l)%nat -> vget l i = Some (0, 0)). { intros i Hi. unfold vget. destruct (nth_error l i) eqn:E; [apply nth_error_In in E; rewrite (H _ E); auto|]. apply nth_error_None in E. lia. }
  assert (NZ : normalize (snd (subp (0, 0) (0, 0)), - fst (subp (0, 0) (0, 0))) = None).
  { unfold normalize. pose proof (eqRs (normp (snd (subp (0, 0) (0, 0)), - fst (subp (0, 0) (0, 0)))) 0) as Q. destruct (eqR _ 0); auto. exfalso. apply Q. unfold normp, subp. cbn [fst snd]. replace ((0 - 0) * (0 - 0) + - (0 - 0) * - (0 - 0)) with 0 by ring. apply sqrt_0. }
  assert (W : wp (FindClosestEdge l) (fun r => exists k, r = (Some k, None) /\ (k < length l)%nat)).
  { unfold FindClosestEdge. replace (length l =? 0)%nat with false by (symmetry; apply Nat.eqb_neq; lia). cbn [negb assertb bind]. apply wp_bind.
    apply wp_forn with (I := fun i st => snd st = None /\ (i = 0%nat \/ exists k, snd (fst st) = Some k /\ (k < length l)%nat)).
    - lia.
    - cbn. auto.
    - intros i ((md, mi), rn) Hi (I1 & I2). rewrite !G by (try apply Nat.mod_upper_bound; lia). cbn [bind]. cbv zeta. rewrite NZ. cbn [ndot option_map nge]. apply wp_some. cbn [fst snd]. split; auto. right. exists i. split; auto. lia.
    - intros ((md, mi), rn) (I1 & I2). cbn [fst snd] in *. subst rn. destruct I2 as [|(k & -> & Hk)]; [lia|]. apply wp_some. eauto. }
  apply wp_ex in W. destruct W as (r & E & k & -> & Hk). eauto.
Qed.
Lemma epa_stuck : forall tol fuel l na, l <> [] -> (forall x, In x l -> x = (0, 0)) -> loopf fuel (epa_step A B tol) (l, na) = None.
Proof.
  intros tol. induction fuel as [|fuel IH]; intros l na N H; [reflexivity|]. cbn [loopf]. destruct (closest_zero l N H) as (k & EK & Hk). unfold epa_step at 1. rewrite EK. cbn [bind].
  destruct (vget l k) eqn:EV; [|exfalso; apply nth_error_None in EV; lia]. cbn [bind]. rewrite support_zero by auto. cbn [bind ndot option_map]. apply IH.
  - destruct (firstn (k + 1) l); discriminate.
  - intros x Hx. apply in_app_or in Hx. destruct Hx as [Hx|[<-|Hx]]; auto; apply H; rewrite <- (firstn_skipn (k + 1) l); apply in_or_app; auto.
Qed.
Lemma epa_same : forall tol fuelg fuel, Penetration_Points2_Points2_Epa fuelg fuel A B tol = None.
Proof.
  intros tol fuelg fuel. unfold Penetration_Points2_Points2_Epa. destruct (FindIntersectingSimplexForGjk2 fuelg A B) as [r|] eqn:E; [|reflexivity]. rewrite (gjk_zero fuelg r E). cbn [bind length Nat.eqb assertb].
  destruct (ccw_ok (0, 0) (0, 0) (0, 0)) as (t1 & t2 & -> & T & _). cbn [bind]. rewrite epa_stuck; [reflexivity|discriminate|]. intros x [<-|[<-|[<-|[]]]]; auto; destruct T as [(-> & ->)|(-> & ->)]; auto.
Qed.
End Same.
