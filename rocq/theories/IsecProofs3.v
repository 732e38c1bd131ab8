(** Two triangles in space. *)
From Coq Require Import List Arith Bool Reals Lra Lia.
Import ListNotations.
From Verif Require Import Imp PrModel PolyModel QuatModel ProxModel ProxSpec IsecModel IsecSpec GjkProofs1 ProxProofs1 ProxProofs2 ProxProofs3 IsecProofs1 IsecProofs2.
Open Scope R_scope.

Definition cutp (d0 d1 : R) (p0 p1 : vec3) : vec3 := mul3 (1 / (d0 - d1)) (sub3 (mul3 d0 p1) (mul3 d1 p0)).
Lemma cut_ok : forall d0 d1 p0 p1, cut d0 d1 p0 p1 = if eqR (d0 - d1) 0 then None else Some (cutp d0 d1 p0 p1).
Proof. intros. unfold cut, ndiv. destruct (eqR (d0 - d1) 0); auto. Qed.
Lemma cut_some : forall d0 d1 p0 p1 x, cut d0 d1 p0 p1 = Some x -> d0 <> d1 /\ x = cutp d0 d1 p0 p1.
Proof. intros d0 d1 p0 p1 x H. rewrite cut_ok in H. pose proof (eqRs (d0 - d1) 0) as Q. destruct (eqR (d0 - d1) 0); [discriminate|]. split; [lra|congruence]. Qed.
Lemma cut_ne : forall d0 d1 p0 p1, d0 <> d1 -> cut d0 d1 p0 p1 = Some (cutp d0 d1 p0 p1).
Proof. intros. rewrite cut_ok. pose proof (eqRs (d0 - d1) 0) as Q. destruct (eqR (d0 - d1) 0); [lra|auto]. Qed.
Lemma cutp_sym : forall d0 d1 p0 p1, d0 <> d1 -> cutp d0 d1 p0 p1 = cutp d1 d0 p1 p0.
Proof. intros. unfold cutp. apply v3_eq; u3; field; lra. Qed.
Lemma cutp_seg : forall d0 d1 p0 p1, d0 <> d1 -> d0 * d1 <= 0 -> segment p0 p1 (cutp d0 d1 p0 p1).
Proof. intros d0 d1 p0 p1 N S. exists (d0 / (d0 - d1)). split; [apply ratio01; auto|]. unfold cutp. apply v3_eq; u3; field; lra. Qed.
Lemma seg_sym : forall p q x, segment p q x -> segment q p x.
Proof. intros p q x (t & T & ->). exists (1 - t). split; [lra|]. veq. Qed.
Lemma edges_tri : forall p q r x, edges p q r x -> triangle p q r x.
Proof. intros p q r x [(t & T & ->)|[(t & T & ->)|(t & T & ->)]]; [exists (1 - t), t, 0|exists 0, (1 - t), t|exists t, 0, (1 - t)]; repeat split; try lra; veq. Qed.
Lemma tri_seg : forall p q r x y z, triangle p q r x -> triangle p q r y -> segment x y z -> triangle p q r z.
Proof.
  intros p q r x y z (a & b & c & A & B & C & S & ->) (a' & b' & c' & A' & B' & C' & S' & ->) (t & T & ->). exists ((1 - t) * a + t * a'), ((1 - t) * b + t * b'), ((1 - t) * c + t * c').
  assert (K : forall u v, 0 <= u -> 0 <= v -> 0 <= (1 - t) * u + t * v). { intros. assert (0 <= (1 - t) * u) by (apply Rmult_le_pos; lra). assert (0 <= t * v) by (apply Rmult_le_pos; lra). lra. }
  repeat split; auto; [|veq]. transitivity ((1 - t) * (a + b + c) + t * (a' + b' + c')); [ring|rewrite S, S'; ring].
Qed.
(** The value d of the plane function at a combination. *)
Lemma dval_comb : forall a b c p0 p1 p2 o n, a + b + c = 1 -> dot3 (sub3 (comb a b c p0 p1 p2) o) n = a * dot3 (sub3 p0 o) n + b * dot3 (sub3 p1 o) n + c * dot3 (sub3 p2 o) n.
Proof. intros. replace a with (1 - b - c) by lra. u3. ring. Qed.
Lemma dval_cut : forall o n p0 p1, let d0 := dot3 (sub3 p0 o) n in let d1 := dot3 (sub3 p1 o) n in d0 <> d1 -> dot3 (sub3 (cutp d0 d1 p0 p1) o) n = 0.
Proof.
  intros o n p0 p1 d0 d1 N. unfold cutp. assert (E : dot3 (sub3 (mul3 (1 / (d0 - d1)) (sub3 (mul3 d0 p1) (mul3 d1 p0))) o) n = (d0 * d1 - d1 * d0) / (d0 - d1)). { transitivity ((d0 * dot3 (sub3 p1 o) n - d1 * dot3 (sub3 p0 o) n) / (d0 - d1)); [|reflexivity]. clearbody d0 d1. u3. field. lra. } rewrite E. field. lra.
Qed.
(** The corner c is alone on its side. *)
Lemma lone : forall dc da db c a b x al be ga, dc * da < 0 -> dc * db < 0 -> 0 <= be -> 0 <= ga -> al + be + ga = 1 -> al * dc + be * da + ga * db = 0 -> x = comb al be ga c a b -> segment (cutp dc da c a) (cutp dc db c b) x.
Proof.
  intros dc da db c a b x al be ga A B Hb Hg S Z ->.
  assert (Nc : dc <> 0) by (intros ->; lra). assert (Na : dc - da <> 0) by (intros E; replace da with dc in A by lra; pose proof (Rle_0_sqr dc); unfold Rsqr in *; lra). assert (Nb : dc - db <> 0) by (intros E; replace db with dc in B by lra; pose proof (Rle_0_sqr dc); unfold Rsqr in *; lra).
  assert (P2 : 0 < dc * dc) by (pose proof (Rsqr_pos_lt dc Nc); unfold Rsqr in *; lra).
  assert (W : forall d, dc * d < 0 -> 0 < (dc - d) / dc). { intros d D. replace ((dc - d) / dc) with ((dc * dc - dc * d) / (dc * dc)) by (field; auto). apply Rdiv_lt_0_compat; lra. }
  set (la := be * ((dc - da) / dc)). set (mu := ga * ((dc - db) / dc)). assert (0 <= la) by (apply Rmult_le_pos; [auto|left; auto]). assert (0 <= mu) by (apply Rmult_le_pos; [auto|left; auto]).
  assert (al = - (be * da + ga * db) / dc) by (apply Rmult_eq_reg_r with dc; auto; unfold Rdiv; rewrite Rmult_assoc, Rinv_l; lra).
  assert (E : la + mu = 1). { rewrite <- S. rewrite H1. unfold la, mu. field. auto. }
  exists mu. split; [lra|]. replace (1 - mu) with la by lra. rewrite H1. unfold la, mu, cutp. clear E S Z H1 H H0. clearbody la mu. apply v3_eq; u3; field; auto.
Qed.
Lemma mulneg : forall a b, a <> 0 -> b <> 0 -> ~ 0 < a * b -> a * b < 0.
Proof. intros a b A B H. apply Rnot_lt_le in H. destruct H; auto. exfalso. apply Rmult_integral in H. tauto. Qed.
Definition mixed (d0 d1 d2 : R) : Prop := ~ (ltR 0 d0 = ltR 0 d1 /\ ltR 0 d1 = ltR 0 d2).
Lemma mixed_check : forall d0 d1 d2, (Bool.eqb (ltR 0 d0) (ltR 0 d1) && Bool.eqb (ltR 0 d1) (ltR 0 d2)) = false <-> mixed d0 d1 d2.
Proof. intros. unfold mixed. destruct (ltR 0 d0), (ltR 0 d1), (ltR 0 d2); cbn; intuition congruence. Qed.
Lemma neg_le : forall a b, (0 < a /\ b <= 0) \/ (a <= 0 /\ 0 < b) -> a * b <= 0.
Proof. intros a b [(A & B)|(A & B)]; [apply Rmult_le_compat_l with (r := a) in B; lra|rewrite Rmult_comm; apply Rmult_le_compat_l with (r := b) in A; lra]. Qed.
Lemma pos_cases : forall a b, 0 < a * b -> (0 < a /\ 0 < b) \/ (a < 0 /\ b < 0).
Proof. intros a b H. destruct (Rtotal_order a 0) as [A|[->|A]]; [right|lra|left]; split; auto. - destruct (Rlt_le_dec b 0); auto. exfalso. assert (0 <= - a * b) by (apply Rmult_le_pos; lra). lra. - destruct (Rlt_le_dec 0 b); auto. exfalso. assert (0 <= a * - b) by (apply Rmult_le_pos; lra). lra. Qed.
Lemma section_sound : forall vz o n p0 p1 p2 ps pe, let d := fun p => dot3 (sub3 p o) n in mixed (d p0) (d p1) (d p2) -> section vz (d p0) (d p1) (d p2) p0 p1 p2 = Some (ps, pe) ->
  edges p0 p1 p2 ps /\ edges p0 p1 p2 pe /\ d ps = 0 /\ d pe = 0 /\ dot3 ps vz <= dot3 pe vz.
Proof.
  intros vz o n p0 p1 p2 ps pe d M H. unfold section in H. cbv zeta in H.
  set (cc := if ltR 0 (d p0 * d p1) then _ else _) in H.
  assert (K : forall u v, cc = (Some u, Some v) -> edges p0 p1 p2 u /\ edges p0 p1 p2 v /\ d u = 0 /\ d v = 0).
  { intros u v C. unfold cc in C. clear H cc.
    assert (S : forall a b x, cut (d a) (d b) a b = Some x -> d a * d b <= 0 -> segment a b x /\ d x = 0). { intros a b x C1 C2. apply cut_some in C1. destruct C1 as (C1 & ->). split; [apply cutp_seg; auto|apply dval_cut; auto]. }
    unfold mixed in M. pose proof (ltRs 0 (d p0)) as Q0. pose proof (ltRs 0 (d p1)) as Q1. pose proof (ltRs 0 (d p2)) as Q2. pose proof (ltRs 0 (d p0 * d p1)) as Q3. pose proof (ltRs 0 (d p1 * d p2)) as Q4.
    destruct (ltR 0 (d p0 * d p1)).
    - assert (E1 : cut (d p2) (d p0) p2 p0 = Some u) by congruence. assert (E2 : cut (d p1) (d p2) p1 p2 = Some v) by congruence. apply pos_cases in Q3.
      assert (L : d p2 * d p0 <= 0 /\ d p1 * d p2 <= 0). { destruct (ltR 0 (d p0)), (ltR 0 (d p1)), (ltR 0 (d p2)); try (exfalso; apply M; auto; fail); try (exfalso; lra); split; apply neg_le; lra. }
      destruct (S _ _ _ E1) as (A1 & A2); [tauto|]. destruct (S _ _ _ E2) as (B1 & B2); [tauto|]. unfold edges. tauto.
    - destruct (ltR 0 (d p1 * d p2)).
      + assert (E1 : cut (d p0) (d p1) p0 p1 = Some u) by congruence. assert (E2 : cut (d p2) (d p0) p2 p0 = Some v) by congruence. apply pos_cases in Q4.
        assert (L : d p2 * d p0 <= 0). { destruct (ltR 0 (d p0)), (ltR 0 (d p1)), (ltR 0 (d p2)); try (exfalso; apply M; auto; fail); try (exfalso; lra); apply neg_le; lra. }
        destruct (S _ _ _ E1) as (A1 & A2); [lra|]. destruct (S _ _ _ E2) as (B1 & B2); [auto|]. unfold edges. tauto.
      + assert (E1 : cut (d p1) (d p2) p1 p2 = Some u) by congruence. assert (E2 : cut (d p0) (d p1) p0 p1 = Some v) by congruence.
        destruct (S _ _ _ E1) as (A1 & A2); [lra|]. destruct (S _ _ _ E2) as (B1 & B2); [lra|]. unfold edges. tauto. }
  destruct cc as ([u|] & [v|]); try discriminate. cbn [bind] in H. destruct (K u v eq_refl) as (A & B & C & D). pose proof (ltRs (dot3 v vz) (dot3 u vz)) as Q. destruct (ltR (dot3 v vz) (dot3 u vz)) eqn:E.
  - pose proof (ltRs (dot3 u vz) (dot3 v vz)) as Q'. destruct (ltR (dot3 u vz) (dot3 v vz)); [discriminate|]. cbn [negb assertb bind] in H. injection H. intros -> ->. repeat split; auto; lra.
  - rewrite E in H. cbn [negb assertb bind] in H. injection H. intros -> ->. repeat split; auto.
Qed.
Lemma section_complete : forall vz o n p0 p1 p2, let d := fun p => dot3 (sub3 p o) n in mixed (d p0) (d p1) (d p2) -> d p0 <> 0 -> d p1 <> 0 -> d p2 <> 0 ->
  exists ps pe, section vz (d p0) (d p1) (d p2) p0 p1 p2 = Some (ps, pe) /\ forall x, triangle p0 p1 p2 x -> d x = 0 -> segment ps pe x.
Proof.
  intros vz o n p0 p1 p2 d M N0 N1 N2. unfold section. cbv zeta. set (cc := if ltR 0 (d p0 * d p1) then _ else _).
  assert (K : exists u v, cc = (Some u, Some v) /\ forall x, triangle p0 p1 p2 x -> d x = 0 -> segment u v x).
  { assert (S : forall a b, d a * d b < 0 -> cut (d a) (d b) a b = Some (cutp (d a) (d b) a b)). { intros a b C2. apply cut_ne. intros E. rewrite E in C2. pose proof (Rle_0_sqr (d b)). unfold Rsqr in *. lra. }
    assert (NE : forall a b, d a * d b < 0 -> d a <> d b) by (intros a b C2 E; rewrite E in C2; pose proof (Rle_0_sqr (d b)); unfold Rsqr in *; lra).
    assert (Sy : forall a b, d a * d b < 0 -> d b * d a < 0) by (intros; lra).
    unfold cc. unfold mixed in M. pose proof (ltRs 0 (d p0)) as Q0. pose proof (ltRs 0 (d p1)) as Q1. pose proof (ltRs 0 (d p2)) as Q2. pose proof (ltRs 0 (d p0 * d p1)) as Q3. pose proof (ltRs 0 (d p1 * d p2)) as Q4.
    destruct (ltR 0 (d p0 * d p1)).
    - apply pos_cases in Q3. assert (L : d p2 * d p0 < 0 /\ d p1 * d p2 < 0). { destruct (ltR 0 (d p0)), (ltR 0 (d p1)), (ltR 0 (d p2)); try (exfalso; apply M; auto; fail); try (exfalso; lra); split; apply mulneg; auto; intros P; apply pos_cases in P; lra. }
      destruct L as (L1 & L2). rewrite (S _ _ L1), (S _ _ L2). eexists _, _. split; [reflexivity|]. intros x (a & b & c & A & B & C & SS & X) Z. pose proof (dval_comb a b c p0 p1 p2 o n SS) as D. rewrite <- X in D. change (dot3 (sub3 x o) n) with (d x) in D. rewrite Z in D. change (0 = a * d p0 + b * d p1 + c * d p2) in D.
      rewrite (cutp_sym (d p1)) by auto. apply lone with (al := c) (be := a) (ga := b); auto; try lra. rewrite X. veq.
    - assert (L3 : d p0 * d p1 < 0) by (apply mulneg; auto; intros ?; lra). destruct (ltR 0 (d p1 * d p2)).
      + apply pos_cases in Q4. assert (L : d p2 * d p0 < 0). { destruct (ltR 0 (d p0)), (ltR 0 (d p1)), (ltR 0 (d p2)); try (exfalso; apply M; auto; fail); try (exfalso; lra); apply mulneg; auto; intros P; apply pos_cases in P; lra. }
        rewrite (S _ _ L3), (S _ _ L). eexists _, _. split; [reflexivity|]. intros x (a & b & c & A & B & C & SS & X) Z. pose proof (dval_comb a b c p0 p1 p2 o n SS) as D. rewrite <- X in D. change (dot3 (sub3 x o) n) with (d x) in D. rewrite Z in D. change (0 = a * d p0 + b * d p1 + c * d p2) in D.
        rewrite (cutp_sym (d p2)) by auto. apply lone with (al := a) (be := b) (ga := c); auto; lra.
      + assert (L4 : d p1 * d p2 < 0) by (apply mulneg; auto; intros ?; lra). rewrite (S _ _ L3), (S _ _ L4). eexists _, _. split; [reflexivity|]. intros x (a & b & c & A & B & C & SS & X) Z. pose proof (dval_comb a b c p0 p1 p2 o n SS) as D. rewrite <- X in D. change (dot3 (sub3 x o) n) with (d x) in D. rewrite Z in D. change (0 = a * d p0 + b * d p1 + c * d p2) in D.
        rewrite (cutp_sym (d p0)) by auto. apply lone with (al := b) (be := c) (ga := a); auto; try lra. rewrite X. veq. }
  destruct K as (u & v & -> & K). cbn [bind]. pose proof (ltRs (dot3 v vz) (dot3 u vz)) as Q. destruct (ltR (dot3 v vz) (dot3 u vz)) eqn:E.
  - pose proof (ltRs (dot3 u vz) (dot3 v vz)) as Q'. destruct (ltR (dot3 u vz) (dot3 v vz)); [lra|]. cbn [negb assertb bind]. exists v, u. split; auto. intros. apply seg_sym. auto.
  - rewrite E. cbn [negb assertb bind]. eauto.
Qed.
(** The line of the two planes. *)
Lemma dot_diff : forall x y o n, dot3 (sub3 x o) n = 0 -> dot3 (sub3 y o) n = 0 -> dot3 (sub3 x y) n = 0.
Proof. intros x y o n A B. u3. lra. Qed.
Lemma on_line : forall x y np nq, dot3 (sub3 x y) np = 0 -> dot3 (sub3 x y) nq = 0 -> let vz := cross3 np nq in 0 < dot3 vz vz -> sub3 x y = mul3 ((dot3 x vz - dot3 y vz) / dot3 vz vz) vz.
Proof.
  intros x y np nq A B vz P. replace (dot3 x vz - dot3 y vz) with (dot3 (sub3 x y) vz) by (clearbody vz; u3; ring). apply cross_zero_parallel; auto.
  assert (E : cross3 (sub3 x y) vz = sub3 (mul3 (dot3 (sub3 x y) nq) np) (mul3 (dot3 (sub3 x y) np) nq)) by (unfold vz; set (w := sub3 x y); clearbody w; veq). rewrite E, A, B. u3. ring.
Qed.
Lemma between : forall a b x w k1 k2, sub3 x a = mul3 ((dot3 x w - dot3 a w) / k1) w -> sub3 b a = mul3 ((dot3 b w - dot3 a w) / k1) w -> k1 <> 0 -> k2 = dot3 b w - dot3 a w -> dot3 a w <= dot3 x w <= dot3 b w -> segment a b x.
Proof.
  intros a b x w k1 k2 X B K -> O. destruct (Req_dec (dot3 b w) (dot3 a w)) as [E|E].
  - exists 0. split; [lra|]. assert (Z : dot3 x w - dot3 a w = 0) by lra. rewrite Z in X. clear - X. replace (0 / k1) with 0 in X by (unfold Rdiv; ring). apply v3_eq; [apply (f_equal vx) in X|apply (f_equal vy) in X|apply (f_equal vz) in X]; u3; lra.
  - set (t := (dot3 x w - dot3 a w) / (dot3 b w - dot3 a w)). exists t. assert (P : 0 < dot3 b w - dot3 a w) by lra. split.
    + unfold t. split; [apply Rmult_le_pos; [lra|left; apply Rinv_0_lt_compat; lra]|]. apply Rmult_le_reg_r with (dot3 b w - dot3 a w); auto. unfold Rdiv. rewrite Rmult_assoc, Rinv_l; lra.
    + assert (E1 : sub3 x a = mul3 t (sub3 b a)). { rewrite X, B. replace ((dot3 x w - dot3 a w) / k1) with (t * ((dot3 b w - dot3 a w) / k1)) by (unfold t; field; lra). set (q := (dot3 b w - dot3 a w) / k1). clearbody q t. veq. }
      clearbody t. clear - E1. apply v3_eq; [apply (f_equal vx) in E1|apply (f_equal vy) in E1|apply (f_equal vz) in E1]; u3; lra.
Qed.
Lemma normal_tn : forall p q r, Normal_Tri3 p q r = tn p q r. Proof. reflexivity. Qed.
Lemma mixed_ne : forall d0 d1 d2, mixed d0 d1 d2 -> ~ (d0 = d1 /\ d1 = d2).
Proof. intros d0 d1 d2 M (-> & ->). apply M. auto. Qed.
Lemma vz_pos : forall p0 p1 p2 q0 q1 q2, mixed (dot3 (sub3 p0 q0) (tn q0 q1 q2)) (dot3 (sub3 p1 q0) (tn q0 q1 q2)) (dot3 (sub3 p2 q0) (tn q0 q1 q2)) -> mixed (dot3 (sub3 q0 p0) (tn p0 p1 p2)) (dot3 (sub3 q1 p0) (tn p0 p1 p2)) (dot3 (sub3 q2 p0) (tn p0 p1 p2)) ->
  0 < dot3 (cross3 (tn p0 p1 p2) (tn q0 q1 q2)) (cross3 (tn p0 p1 p2) (tn q0 q1 q2)).
Proof.
  intros p0 p1 p2 q0 q1 q2 MP MQ. destruct (dot_pos (cross3 (tn p0 p1 p2) (tn q0 q1 q2))) as [|Z]; auto. exfalso. symmetry in Z. apply mixed_ne in MP, MQ.
  destruct (dot_pos (tn p0 p1 p2)) as [PN|PN].
  - assert (Z' : dot3 (cross3 (tn q0 q1 q2) (tn p0 p1 p2)) (cross3 (tn q0 q1 q2) (tn p0 p1 p2)) = 0) by (rewrite <- Z; set (a := tn p0 p1 p2); set (b := tn q0 q1 q2); clearbody a b; u3; ring). apply cross_zero_parallel in Z'; auto. set (k := dot3 (tn q0 q1 q2) _ / _) in Z'. clearbody k. apply MP. rewrite Z'. unfold tn. split; u3; ring.
  - symmetry in PN. apply dot_zero in PN. apply MQ. rewrite PN. split; u3; ring.
Qed.
Lemma tri_pair_sound : forall p0 p1 p2 q0 q1 q2 P0 P1, tri_pair p0 p1 p2 q0 q1 q2 = Some (Some (P0, P1)) -> (triangle p0 p1 p2 P0 /\ triangle q0 q1 q2 P0) /\ (triangle p0 p1 p2 P1 /\ triangle q0 q1 q2 P1).
Proof.
  intros p0 p1 p2 q0 q1 q2 P0 P1 H. unfold tri_pair in H. cbv zeta in H. change (Normal_Tri3 p0 p1 p2) with (tn p0 p1 p2) in H. change (Normal_Tri3 q0 q1 q2) with (tn q0 q1 q2) in H.
  set (np := tn p0 p1 p2) in *. set (nq := tn q0 q1 q2) in *.
  match type of H with (if ?c then _ else _) = _ => destruct c eqn:CP; [discriminate|] end. apply mixed_check in CP.
  match type of H with (if ?c then _ else _) = _ => destruct c eqn:CQ; [discriminate|] end. apply mixed_check in CQ.
  pose proof (vz_pos p0 p1 p2 q0 q1 q2 CP CQ) as VZ. fold np nq in VZ. set (w := cross3 np nq) in *.
  destruct (section w (dot3 (sub3 p0 q0) nq) _ _ p0 p1 p2) as [(ps & pe)|] eqn:SP; [|discriminate]. cbn [bind] in H. destruct (section w _ _ _ q0 q1 q2) as [(qs & qe)|] eqn:SQ; [|discriminate]. cbn [bind] in H.
  destruct (section_sound w q0 nq p0 p1 p2 ps pe CP SP) as (A1 & A2 & A3 & A4 & A5). destruct (section_sound w p0 np q0 q1 q2 qs qe CQ SQ) as (B1 & B2 & B3 & B4 & B5).
  assert (TP : forall x, triangle p0 p1 p2 x -> dot3 (sub3 x p0) np = 0). { intros x (a & b & c & _ & _ & _ & S & ->). rewrite dval_comb by auto. unfold np, tn. u3. ring. }
  assert (TQ : forall x, triangle q0 q1 q2 x -> dot3 (sub3 x q0) nq = 0). { intros x (a & b & c & _ & _ & _ & S & ->). rewrite dval_comb by auto. unfold nq, tn. u3. ring. }
  pose proof (edges_tri _ _ _ _ A1) as T1. pose proof (edges_tri _ _ _ _ A2) as T2. pose proof (edges_tri _ _ _ _ B1) as T3. pose proof (edges_tri _ _ _ _ B2) as T4.
  assert (BT : forall a b x, dot3 (sub3 a p0) np = 0 -> dot3 (sub3 a q0) nq = 0 -> dot3 (sub3 b p0) np = 0 -> dot3 (sub3 b q0) nq = 0 -> dot3 (sub3 x p0) np = 0 -> dot3 (sub3 x q0) nq = 0 -> dot3 a w <= dot3 x w <= dot3 b w -> segment a b x).
  { intros a b x E1 E2 E3 E4 E5 E6 O. apply between with (w := w) (k1 := dot3 w w) (k2 := dot3 b w - dot3 a w); auto; try lra; apply on_line; auto; eapply dot_diff; eauto. }
  assert (G1 : forall x, triangle p0 p1 p2 x -> dot3 (sub3 x q0) nq = 0 -> dot3 qs w <= dot3 x w <= dot3 qe w -> triangle p0 p1 p2 x /\ triangle q0 q1 q2 x). { intros x X1 X2 O. split; auto. apply tri_seg with qs qe; auto; apply BT; auto. }
  assert (G2 : forall x, triangle q0 q1 q2 x -> dot3 (sub3 x p0) np = 0 -> dot3 ps w <= dot3 x w <= dot3 pe w -> triangle p0 p1 p2 x /\ triangle q0 q1 q2 x). { intros x X1 X2 O. split; auto. apply tri_seg with ps pe; auto; apply BT; auto. }
  destruct (ltR (dot3 qe w) (dot3 ps w) || ltR (dot3 pe w) (dot3 qs w)); [discriminate|].
  pose proof (ltRs (dot3 qs w) (dot3 ps w)) as Q1. pose proof (ltRs (dot3 ps w) (dot3 qe w)) as Q2. pose proof (ltRs (dot3 qs w) (dot3 pe w)) as Q3. pose proof (ltRs (dot3 pe w) (dot3 qe w)) as Q4. pose proof (ltRs (dot3 ps w) (dot3 qs w)) as Q5. pose proof (ltRs (dot3 qe w) (dot3 pe w)) as Q6.
  assert (C1 : ltR (dot3 qs w) (dot3 ps w) && ltR (dot3 ps w) (dot3 qe w) = true -> triangle p0 p1 p2 ps /\ triangle q0 q1 q2 ps). { intros C. apply G1; auto. destruct (ltR (dot3 qs w) (dot3 ps w)), (ltR (dot3 ps w) (dot3 qe w)); try discriminate. lra. }
  assert (C2 : ltR (dot3 qs w) (dot3 pe w) && ltR (dot3 pe w) (dot3 qe w) = true -> triangle p0 p1 p2 pe /\ triangle q0 q1 q2 pe). { intros C. apply G1; auto. destruct (ltR (dot3 qs w) (dot3 pe w)), (ltR (dot3 pe w) (dot3 qe w)); try discriminate. lra. }
  assert (C3 : ltR (dot3 ps w) (dot3 qs w) && ltR (dot3 qs w) (dot3 pe w) = true -> triangle p0 p1 p2 qs /\ triangle q0 q1 q2 qs). { intros C. apply G2; auto. destruct (ltR (dot3 ps w) (dot3 qs w)), (ltR (dot3 qs w) (dot3 pe w)); try discriminate. lra. }
  assert (C4 : ltR (dot3 ps w) (dot3 qe w) && ltR (dot3 qe w) (dot3 pe w) = true -> triangle p0 p1 p2 qe /\ triangle q0 q1 q2 qe). { intros C. apply G2; auto. destruct (ltR (dot3 ps w) (dot3 qe w)), (ltR (dot3 qe w) (dot3 pe w)); try discriminate. lra. }
  clear - H C1 C2 C3 C4. destruct (ltR (dot3 qs w) (dot3 ps w) && ltR (dot3 ps w) (dot3 qe w)), (ltR (dot3 qs w) (dot3 pe w) && ltR (dot3 pe w) (dot3 qe w)), (ltR (dot3 ps w) (dot3 qs w) && ltR (dot3 qs w) (dot3 pe w)), (ltR (dot3 ps w) (dot3 qe w) && ltR (dot3 qe w) (dot3 pe w)); cbn [app] in H; try discriminate; injection H; intros <- <-; auto.
Qed.
Lemma off_val : forall p q r x, off_plane p q r x -> dot3 (sub3 x p) (tn p q r) <> 0.
Proof. intros p q r x H E. apply H. unfold volume6. transitivity (- dot3 (sub3 x p) (tn p q r)); [unfold tn; u3; ring|rewrite E; ring]. Qed.
Lemma off_val' : forall p q r x, dot3 (sub3 x p) (tn p q r) <> 0 -> off_plane p q r x.
Proof. intros p q r x H E. apply H. transitivity (- volume6 x p q r); [unfold volume6, tn; u3; ring|rewrite E; ring]. Qed.
Lemma not_mixed : forall d0 d1 d2 a b c, ltR 0 d0 = ltR 0 d1 -> ltR 0 d1 = ltR 0 d2 -> d0 <> 0 -> d1 <> 0 -> d2 <> 0 -> 0 <= a -> 0 <= b -> 0 <= c -> a + b + c = 1 -> a * d0 + b * d1 + c * d2 <> 0.
Proof.
  intros d0 d1 d2 a b c E1 E2 N0 N1 N2 A B C S. pose proof (ltRs 0 d0) as Q0. pose proof (ltRs 0 d1) as Q1. pose proof (ltRs 0 d2) as Q2. rewrite <- E2, <- E1 in *.
  assert (K : forall x y z, 0 < x -> 0 < y -> 0 < z -> 0 < a * x + b * y + c * z). { intros x y z X Y Z. assert (0 <= a * x) by (apply Rmult_le_pos; lra). assert (0 <= b * y) by (apply Rmult_le_pos; lra). assert (0 <= c * z) by (apply Rmult_le_pos; lra). assert (D : 0 < a \/ 0 < b \/ 0 < c) by lra. destruct D as [D|[D|D]]; [pose proof (Rmult_lt_0_compat _ _ D X)|pose proof (Rmult_lt_0_compat _ _ D Y)|pose proof (Rmult_lt_0_compat _ _ D Z)]; lra. }
  destruct (ltR 0 d0); [specialize (K d0 d1 d2)|specialize (K (- d0) (- d1) (- d2))]; lra.
Qed.
Lemma tri_pair_complete : forall p0 p1 p2 q0 q1 q2, general_position p0 p1 p2 q0 q1 q2 ->
  (tri_pair p0 p1 p2 q0 q1 q2 = Some None /\ forall x, triangle p0 p1 p2 x -> triangle q0 q1 q2 x -> False) \/
  (exists P0 P1, tri_pair p0 p1 p2 q0 q1 q2 = Some (Some (P0, P1)) /\ forall x, triangle p0 p1 p2 x /\ triangle q0 q1 q2 x <-> segment P0 P1 x).
Proof.
  intros p0 p1 p2 q0 q1 q2 (O1 & O2 & O3 & O4 & O5 & O6 & ED). apply off_val in O1, O2, O3, O4, O5, O6.
  assert (SND : forall P0 P1, tri_pair p0 p1 p2 q0 q1 q2 = Some (Some (P0, P1)) -> forall x, segment P0 P1 x -> triangle p0 p1 p2 x /\ triangle q0 q1 q2 x). { intros P0 P1 T x X. destruct (tri_pair_sound _ _ _ _ _ _ _ _ T) as ((A & B) & (C & D)). split; apply tri_seg with P0 P1; auto. }
  assert (CPL : (tri_pair p0 p1 p2 q0 q1 q2 = Some None /\ forall x, triangle p0 p1 p2 x -> triangle q0 q1 q2 x -> False) \/ (exists P0 P1, tri_pair p0 p1 p2 q0 q1 q2 = Some (Some (P0, P1)) /\ forall x, triangle p0 p1 p2 x /\ triangle q0 q1 q2 x -> segment P0 P1 x)); [|destruct CPL as [L|(P0 & P1 & T & L)]; [auto|right; exists P0, P1; split; auto; split; [auto|apply SND; auto]]].
  clear SND. unfold tri_pair. cbv zeta. change (Normal_Tri3 p0 p1 p2) with (tn p0 p1 p2). change (Normal_Tri3 q0 q1 q2) with (tn q0 q1 q2). set (np := tn p0 p1 p2) in *. set (nq := tn q0 q1 q2) in *.
  assert (TP : forall x, triangle p0 p1 p2 x -> dot3 (sub3 x p0) np = 0). { intros x (a & b & c & _ & _ & _ & S & ->). rewrite dval_comb by auto. unfold np, tn. u3. ring. }
  assert (TQ : forall x, triangle q0 q1 q2 x -> dot3 (sub3 x q0) nq = 0). { intros x (a & b & c & _ & _ & _ & S & ->). rewrite dval_comb by auto. unfold nq, tn. u3. ring. }
  match goal with |- ((if ?c then _ else _) = _ /\ _) \/ _ => destruct c eqn:CP end.
  { left. split; auto. apply andb_true_iff in CP. destruct CP as (C1 & C2). apply eqb_prop in C1, C2. intros x (a & b & c & A & B & C & S & ->) X. apply TQ in X. rewrite dval_comb in X by auto. revert X. apply not_mixed; auto. }
  match goal with |- ((if ?c then _ else _) = _ /\ _) \/ _ => destruct c eqn:CQ end.
  { left. split; auto. apply andb_true_iff in CQ. destruct CQ as (C1 & C2). apply eqb_prop in C1, C2. intros x X (a & b & c & A & B & C & S & ->). apply TP in X. rewrite dval_comb in X by auto. revert X. apply not_mixed; auto. }
  apply mixed_check in CP, CQ. pose proof (vz_pos p0 p1 p2 q0 q1 q2 CP CQ) as VZ. fold np nq in VZ. set (w := cross3 np nq) in *.
  destruct (section_complete w q0 nq p0 p1 p2 CP O1 O2 O3) as (ps & pe & SP & IP). destruct (section_complete w p0 np q0 q1 q2 CQ O4 O5 O6) as (qs & qe & SQ & IQ).
  rewrite SP, SQ. cbn [bind].
  destruct (section_sound w q0 nq p0 p1 p2 ps pe CP SP) as (A1 & A2 & A3 & A4 & A5). destruct (section_sound w p0 np q0 q1 q2 qs qe CQ SQ) as (B1 & B2 & B3 & B4 & B5).
  pose proof (edges_tri _ _ _ _ A1) as T1. pose proof (edges_tri _ _ _ _ A2) as T2. pose proof (edges_tri _ _ _ _ B1) as T3. pose proof (edges_tri _ _ _ _ B2) as T4.
  assert (BT : forall a b x, dot3 (sub3 a p0) np = 0 -> dot3 (sub3 a q0) nq = 0 -> dot3 (sub3 b p0) np = 0 -> dot3 (sub3 b q0) nq = 0 -> dot3 (sub3 x p0) np = 0 -> dot3 (sub3 x q0) nq = 0 -> dot3 a w <= dot3 x w <= dot3 b w -> segment a b x).
  { intros a b x E1 E2 E3 E4 E5 E6 O. apply between with (w := w) (k1 := dot3 w w) (k2 := dot3 b w - dot3 a w); auto; try lra; apply on_line; auto; eapply dot_diff; eauto. }
  assert (DF : forall a b, edges p0 p1 p2 a -> edges q0 q1 q2 b -> dot3 (sub3 a q0) nq = 0 -> dot3 (sub3 b p0) np = 0 -> dot3 a w <> dot3 b w).
  { intros a b EA EB Ea Eb E. pose proof (TP a (edges_tri _ _ _ _ EA)) as Ea'. pose proof (TQ b (edges_tri _ _ _ _ EB)) as Eb'. destruct (BT b b a) as (t & _ & X); auto; [lra|]. apply (ED a); auto. replace a with b; auto. rewrite X. veq. }
  pose proof (DF ps qs A1 B1 A3 B3) as D1. pose proof (DF ps qe A1 B2 A3 B4) as D2. pose proof (DF pe qs A2 B1 A4 B3) as D3. pose proof (DF pe qe A2 B2 A4 B4) as D4.
  assert (ZS : forall a b x, dot3 a w <= dot3 b w -> segment a b x -> dot3 a w <= dot3 x w <= dot3 b w). { intros a b x O (t & T & ->). assert (E : dot3 (comb (1 - t) t 0 a b origin3) w = (1 - t) * dot3 a w + t * dot3 b w) by (clearbody w; u3; ring). rewrite E. assert (0 <= t * (dot3 b w - dot3 a w)) by (apply Rmult_le_pos; lra). assert (0 <= (1 - t) * (dot3 b w - dot3 a w)) by (apply Rmult_le_pos; lra). lra. }
  assert (CM : forall x, triangle p0 p1 p2 x -> triangle q0 q1 q2 x -> dot3 (sub3 x p0) np = 0 /\ dot3 (sub3 x q0) nq = 0 /\ dot3 ps w <= dot3 x w <= dot3 pe w /\ dot3 qs w <= dot3 x w <= dot3 qe w). { intros x X Y. repeat split; auto; try (apply (ZS ps pe x A5); apply IP; auto; fail); apply (ZS qs qe x B5); apply IQ; auto. }
  pose proof (TP _ T1) as P1. pose proof (TP _ T2) as P2. pose proof (TQ _ T3) as P3. pose proof (TQ _ T4) as P4.
  pose proof (ltRs (dot3 qe w) (dot3 ps w)) as R1. pose proof (ltRs (dot3 pe w) (dot3 qs w)) as R2.
  pose proof (ltRs (dot3 qs w) (dot3 ps w)) as Q1. pose proof (ltRs (dot3 ps w) (dot3 qe w)) as Q2. pose proof (ltRs (dot3 qs w) (dot3 pe w)) as Q3. pose proof (ltRs (dot3 pe w) (dot3 qe w)) as Q4. pose proof (ltRs (dot3 ps w) (dot3 qs w)) as Q5. pose proof (ltRs (dot3 qe w) (dot3 pe w)) as Q6.
  destruct (ltR (dot3 qe w) (dot3 ps w)); [left; split; auto; intros x X Y; destruct (CM x X Y); lra|].
  destruct (ltR (dot3 pe w) (dot3 qs w)); [left; split; auto; intros x X Y; destruct (CM x X Y); lra|]. cbn [orb].
  right. destruct (ltR (dot3 qs w) (dot3 ps w)), (ltR (dot3 ps w) (dot3 qe w)), (ltR (dot3 qs w) (dot3 pe w)), (ltR (dot3 pe w) (dot3 qe w)), (ltR (dot3 ps w) (dot3 qs w)), (ltR (dot3 qe w) (dot3 pe w)); try (exfalso; lra); cbn [andb app];
    (eexists _, _; split; [reflexivity|]); intros x (X & Y); destruct (CM x X Y) as (X1 & X2 & X3 & X4); first [apply BT; auto; lra | apply seg_sym; apply BT; auto; lra].
Qed.
Lemma xyz_ok : forall aXYZ i p, point_at aXYZ i p -> xyz aXYZ i = Some p.
Proof. intros aXYZ i p (A & B & C). unfold xyz, vget. replace (i * 3 + 0)%nat with (3 * i)%nat by lia. replace (i * 3 + 1)%nat with (3 * i + 1)%nat by lia. replace (i * 3 + 2)%nat with (3 * i + 2)%nat by lia. rewrite A, B, C. destruct p. auto. Qed.
Lemma triPair_read : forall aTri aXYZ t u i0 i1 i2 j0 j1 j2 p0 p1 p2 q0 q1 q2, corners_of aTri aXYZ t i0 i1 i2 p0 p1 p2 -> corners_of aTri aXYZ u j0 j1 j2 q0 q1 q2 ->
  ((exists k, In k [i0; i1; i2] /\ In k [j0; j1; j2]) -> isIntersectTriPair t u aTri aXYZ = Some None) /\ ((forall k, In k [i0; i1; i2] -> ~ In k [j0; j1; j2]) -> isIntersectTriPair t u aTri aXYZ = tri_pair p0 p1 p2 q0 q1 q2).
Proof.
  intros aTri aXYZ t u i0 i1 i2 j0 j1 j2 p0 p1 p2 q0 q1 q2 (A1 & A2 & A3 & A4 & A5 & A6) (B1 & B2 & B3 & B4 & B5 & B6).
  unfold isIntersectTriPair, vget. replace (t * 3 + 0)%nat with (3 * t)%nat by lia. replace (t * 3 + 1)%nat with (3 * t + 1)%nat by lia. replace (t * 3 + 2)%nat with (3 * t + 2)%nat by lia. replace (u * 3 + 0)%nat with (3 * u)%nat by lia. replace (u * 3 + 1)%nat with (3 * u + 1)%nat by lia. replace (u * 3 + 2)%nat with (3 * u + 2)%nat by lia.
  rewrite A1, A2, A3, B1, B2, B3. cbn [bind]. rewrite (xyz_ok _ _ _ A4), (xyz_ok _ _ _ A5), (xyz_ok _ _ _ A6), (xyz_ok _ _ _ B4), (xyz_ok _ _ _ B5), (xyz_ok _ _ _ B6). cbn [bind].
  split.
  - intros (k & K1 & K2). destruct ((i0 =? j0) || (i0 =? j1) || (i0 =? j2))%nat eqn:E0; auto. destruct ((i1 =? j0) || (i1 =? j1) || (i1 =? j2))%nat eqn:E1; auto. destruct ((i2 =? j0) || (i2 =? j1) || (i2 =? j2))%nat eqn:E2; auto.
    exfalso. rewrite !orb_false_iff, !Nat.eqb_neq in *. cbn in K1, K2. intuition congruence.
  - intros N. pose proof (N i0 ltac:(cbn; auto)) as N0. pose proof (N i1 ltac:(cbn; auto)) as N1. pose proof (N i2 ltac:(cbn; auto)) as N2. cbn in N0, N1, N2.
    assert (E0 : ((i0 =? j0) || (i0 =? j1) || (i0 =? j2))%nat = false) by (rewrite !orb_false_iff, !Nat.eqb_neq; repeat split; intros ->; tauto).
    assert (E1 : ((i1 =? j0) || (i1 =? j1) || (i1 =? j2))%nat = false) by (rewrite !orb_false_iff, !Nat.eqb_neq; repeat split; intros ->; tauto).
    assert (E2 : ((i2 =? j0) || (i2 =? j1) || (i2 =? j2))%nat = false) by (rewrite !orb_false_iff, !Nat.eqb_neq; repeat split; intros ->; tauto).
    rewrite E0, E1, E2. auto.
Qed.
