(** The GJK loop ends with the right answer. *)
From Coq Require Import List Arith Bool Reals Lra Lia.
Import ListNotations.
From Verif Require Import Imp PrModel PolyModel HullSpec GjkModel GjkSpec GjkProofs1.
Open Scope R_scope.

Ltac uv := unfold dotp, crossp, subp in *; cbn [fst snd] in *.

(** A strictly smaller filter. *)
Lemma filter_le : forall {T} (f g : T -> bool) l, (forall x, In x l -> f x = true -> g x = true) -> (length (filter f l) <= length (filter g l))%nat.
Proof.
  intros T f g l. induction l as [|x l IH]; intros H; [cbn; lia|]. cbn [filter]. pose proof (H x (or_introl eq_refl)) as Hx. specialize (IH (fun y Y => H y (or_intror Y))).
  destruct (f x); [rewrite Hx by auto; cbn [length]; lia|]. destruct (g x); cbn [length]; lia.
Qed.
Lemma filter_lt : forall {T} (f g : T -> bool) l y, (forall x, In x l -> f x = true -> g x = true) -> In y l -> f y = false -> g y = true -> (length (filter f l) < length (filter g l))%nat.
Proof.
  intros T f g l y. induction l as [|x l IH]; intros H Hy F G; [destruct Hy|]. cbn [filter]. pose proof (H x (or_introl eq_refl)) as Hx. assert (H' : forall z, In z l -> f z = true -> g z = true) by (intros; apply H; cbn; auto).
  destruct Hy as [->|Hy].
  - rewrite F, G. cbn [length]. pose proof (filter_le f g l H'). lia.
  - specialize (IH H' Hy F G). destruct (f x); [rewrite Hx by auto; cbn [length]; lia|]. destruct (g x); cbn [length]; lia.
Qed.
Lemma filter_pos : forall {T} (f : T -> bool) l y, In y l -> f y = true -> (1 <= length (filter f l))%nat.
Proof. intros T f l y Hy F. assert (I : In y (filter f l)) by (apply filter_In; auto). destruct (filter f l); [destruct I|cbn; lia]. Qed.
Lemma filter_all : forall {T} (f : T -> bool) l, (length (filter f l) <= length l)%nat.
Proof. intros T f l. induction l; cbn [filter length]; [lia|]. destruct (f a); cbn [length]; lia. Qed.

(** Sides of a line. *)
Lemma side_eq : forall n v w, dotp n v = 0 -> dotp v v * dotp n w = dotp n (- snd v, fst v) * crossp v w.
Proof. intros (a, b) (x, y) (p, q). uv. intros H. replace ((x * x + y * y) * (a * p + b * q)) with ((a * x + b * y) * (x * p + y * q) + (a * - y + b * x) * (x * q - y * p)) by ring. rewrite H. ring. Qed.
Lemma side : forall n v w1 w2, v <> (0, 0) -> dotp n v = 0 -> (0 < dotp n w1 * dotp n w2 -> 0 < crossp v w1 * crossp v w2) /\ (dotp n w1 * dotp n w2 < 0 -> crossp v w1 * crossp v w2 < 0).
Proof.
  intros n v w1 w2 N H. pose proof (dotp_pos v N) as P. pose proof (side_eq n v w1 H) as E1. pose proof (side_eq n v w2 H) as E2. set (q := dotp n (- snd v, fst v)) in *.
  assert (E : (dotp v v * dotp v v) * (dotp n w1 * dotp n w2) = (q * q) * (crossp v w1 * crossp v w2)) by (replace ((q * q) * (crossp v w1 * crossp v w2)) with ((q * crossp v w1) * (q * crossp v w2)) by ring; rewrite <- E1, <- E2; ring).
  assert (PP : 0 < dotp v v * dotp v v) by (apply Rmult_lt_0_compat; auto). assert (QQ : 0 <= q * q) by (apply Rle_0_sqr).
  split; intros L.
  - assert (0 < (q * q) * (crossp v w1 * crossp v w2)) by (rewrite <- E; apply Rmult_lt_0_compat; auto).
    destruct (Rle_lt_dec (crossp v w1 * crossp v w2) 0); auto. assert ((q * q) * (crossp v w1 * crossp v w2) <= 0) by (rewrite <- (Rmult_0_r (q * q)); apply Rmult_le_compat_l; auto). lra.
  - assert ((q * q) * (crossp v w1 * crossp v w2) < 0) by (rewrite <- E; rewrite <- (Rmult_0_r (dotp v v * dotp v v)); apply Rmult_lt_compat_l; auto).
    destruct (Rle_lt_dec 0 (crossp v w1 * crossp v w2)); auto. assert (0 <= (q * q) * (crossp v w1 * crossp v w2)) by (apply Rmult_le_pos; auto). lra.
Qed.
(** Coordinates along two independent vectors. *)
Lemma coord : forall n u v w, crossp u v * dotp n w = crossp w v * dotp n u + crossp u w * dotp n v.
Proof. intros. uv. ring. Qed.
Lemma only0 : forall e u v, crossp u v <> 0 -> dotp e u = 0 -> dotp e v = 0 -> e = (0, 0).
Proof.
  intros (a, b) (x, y) (p, q) D H1 H2. uv. f_equal; apply Rmult_eq_reg_l with (x * q - y * p); auto; rewrite Rmult_0_r.
  - replace ((x * q - y * p) * a) with (q * (a * x + b * y) - y * (a * p + b * q)) by ring. rewrite H1, H2. ring.
  - replace ((x * q - y * p) * b) with (x * (a * p + b * q) - p * (a * x + b * y)) by ring. rewrite H1, H2. ring.
Qed.

Section Gjk.
Variables A B : list pt.
Hypothesis NA : A <> [].
Hypothesis NB : B <> [].
Notation M := (diffs A B).

Definition good (r : list pt) : Prop :=
  (r = [] /\ exists d, forall x, In x M -> dotp d x < 0) \/
  (exists s0 s1 s2, r = [s0; s1; s2] /\ In s0 M /\ In s1 M /\ In s2 M /\ hull (fun y => y = s0 \/ y = s1 \/ y = s2) (0, 0)).
Definition res (fuel : nat) (st : list pt * option pt) : Prop := exists r d, loopf fuel (gjk_step A B) st = Some (r, d) /\ good r.
Definition outer (x : pt) : Prop := exists e, e <> (0, 0) /\ forall m, In m M -> dotp e m <= dotp e x.

Lemma res_stop : forall fuel st r d, (1 <= fuel)%nat -> gjk_step A B st = Some ((r, d), true) -> good r -> res fuel st.
Proof. intros fuel st r d F E G. destruct fuel; [lia|]. exists r, d. cbn [loopf]. rewrite E. cbn [bind]. auto. Qed.
Lemma res_next : forall fuel st st', gjk_step A B st = Some (st', false) -> res fuel st' -> res (S fuel) st.
Proof. intros fuel st st' E (r & d & H & G). exists r, d. cbn [loopf]. rewrite E. cbn [bind]. auto. Qed.

(** The direction from a turned edge. *)
Lemma nperp : forall U V v, V <> (0, 0) -> ndot (nneg (perp U V)) v = Some (- (crossp V U / dotp V V) * crossp V v).
Proof. intros. rewrite perp_eq by auto. cbn [nneg option_map ndot]. f_equal. uv. ring. Qed.
Lemma nperp_pos : forall U V v, nlt (Some 0) (ndot (nneg (perp U V)) v) = true -> V <> (0, 0) /\ crossp V U * crossp V v < 0.
Proof.
  intros U V v H. destruct (Req_dec (dotp V V) 0) as [E|N]; [apply dotp_zero in E; subst V; rewrite perp_nan in H; discriminate|].
  assert (NV : V <> (0, 0)) by (intros ->; apply N; uv; ring). split; auto. rewrite nperp in H by auto. cbn [nlt] in H. pose proof (ltRs 0 (- (crossp V U / dotp V V) * crossp V v)) as L. rewrite H in L.
  pose proof (dotp_pos V NV) as P. assert (Q : 0 < dotp V V * (- (crossp V U / dotp V V) * crossp V v)) by (apply Rmult_lt_0_compat; auto).
  replace (dotp V V * (- (crossp V U / dotp V V) * crossp V v)) with (- (crossp V U * crossp V v)) in Q by (field; lra). lra.
Qed.
Lemma nperp_neg : forall U V v, nlt (Some 0) (ndot (nneg (perp U V)) v) = false -> V <> (0, 0) -> 0 <= crossp V U * crossp V v.
Proof.
  intros U V v H NV. rewrite nperp in H by auto. cbn [nlt] in H. pose proof (ltRs 0 (- (crossp V U / dotp V V) * crossp V v)) as L. rewrite H in L.
  pose proof (dotp_pos V NV) as P. assert (Q : dotp V V * (- (crossp V U / dotp V V) * crossp V v) <= dotp V V * 0) by (apply Rmult_le_compat_l; lra).
  replace (dotp V V * (- (crossp V U / dotp V V) * crossp V v)) with (- (crossp V U * crossp V v)) in Q by (field; lra). lra.
Qed.
Lemma nperp_no : forall U V v, 0 <= crossp V U * crossp V v -> nlt (Some 0) (ndot (nneg (perp U V)) v) = false.
Proof.
  intros U V v H. destruct (nlt _ _) eqn:E; auto. apply nperp_pos in E. lra.
Qed.

(** The origin is on the segment between the two points. *)
Lemma res_zero : forall fuel c b d k, (1 <= fuel)%nat -> In c M -> In b M -> d = None \/ d = Some (0, 0) -> 0 <= k <= 1 ->
  0 = k * fst c + (1 - k) * fst b -> 0 = k * snd c + (1 - k) * snd b -> res fuel ([c; b], d).
Proof.
  intros fuel c b d k F Hc Hb Hd Hk E1 E2. destruct (support_in A B d NA NB) as (p & Ep & Hp).
  apply (res_stop fuel _ [c; b; p] d F).
  - cbn [gjk_step]. rewrite Ep. cbn [bind].
    replace (nlt (ndot d p) (Some 0)) with false by (destruct Hd as [->| ->]; cbn [ndot option_map nlt]; auto; pose proof (ltRs (dotp (0, 0) p) 0) as L; destruct (ltR _ _); auto; uv; lra).
    cbn [app]. rewrite nperp_no, nperp_no; auto.
    + replace (crossp (subp c p) (subp b p) * crossp (subp c p) (subp (0, 0) p)) with ((1 - k) * (crossp (subp c p) (subp b p) * crossp (subp c p) (subp b p))).
      * apply Rmult_le_pos; [lra|]. apply Rle_0_sqr.
      * replace (subp (0, 0) p) with (k * fst c + (1 - k) * fst b - fst p, k * snd c + (1 - k) * snd b - snd p) by (unfold subp; cbn [fst snd]; f_equal; lra). uv. ring.
    + replace (crossp (subp b p) (subp c p) * crossp (subp b p) (subp (0, 0) p)) with (k * (crossp (subp b p) (subp c p) * crossp (subp b p) (subp c p))).
      * apply Rmult_le_pos; [lra|]. apply Rle_0_sqr.
      * replace (subp (0, 0) p) with (k * fst c + (1 - k) * fst b - fst p, k * snd c + (1 - k) * snd b - snd p) by (unfold subp; cbn [fst snd]; f_equal; lra). uv. ring.
  - right. exists c, b, p. repeat (split; [auto; fail|]). replace ((0, 0) : pt) with (lincomb k (1 - k) 0 c b p) by (unfold lincomb; f_equal; lra). apply hull3; auto; lra.
Qed.

Definition K2 (c b n : pt) : Prop := In c M /\ In b M /\ c <> b /\ dotp n c = dotp n b /\ dotp n b < 0.
Lemma step2 : forall c b n, K2 c b n -> exists p, In p M /\ (forall m, In m M -> dotp n m <= dotp n p) /\
  ((dotp n p < 0 /\ gjk_step A B ([c; b], Some n) = Some (([], Some n), true)) \/
   (0 <= dotp n p /\ ((gjk_step A B ([c; b], Some n) = Some (([c; b; p], Some n), true) /\ good [c; b; p]) \/
     (exists x y n', ((x = b /\ y = c) \/ (x = c /\ y = b)) /\ gjk_step A B ([c; b], Some n) = Some (([x; p], Some n'), false) /\ K2 x p n' /\ dotp n' y < dotp n' p)))).
Proof.
  intros c b n (Hc & Hb & N & E & L). destruct (support_ok A B n NA NB) as (p & Ep & Hp & Mp). exists p. split; auto. split; auto.
  cbn [gjk_step]. rewrite Ep. cbn [bind]. change (nlt (ndot (Some n) p) (Some 0)) with (ltR (dotp n p) 0). pose proof (ltRs (dotp n p) 0) as LP. destruct (ltR (dotp n p) 0); [left; auto|]. right. split; auto. cbn [app].
  set (AB := subp b p). set (AC := subp c p). set (AO := subp (0, 0) p).
  assert (nAB : dotp n AB = dotp n b - dotp n p) by (unfold AB; uv; ring). assert (nAC : dotp n AC = dotp n b - dotp n p) by (unfold AC; rewrite <- E; uv; ring). assert (nAO : dotp n AO = - dotp n p) by (unfold AO; uv; ring).
  assert (AB0 : AB <> (0, 0)) by (intros Q; rewrite Q in nAB; uv; lra). assert (AC0 : AC <> (0, 0)) by (intros Q; rewrite Q in nAC; uv; lra).
  assert (D : crossp AB AC <> 0).
  { intros D. apply N.
    assert (X : forall k, dotp n AB * k = dotp n AB * 0 -> k = 0) by (intros k Q; apply Rmult_eq_reg_l with (dotp n AB); [auto|lra]).
    assert (Ec : dotp n AB * (fst AC - fst AB) = dotp n AB * 0) by (rewrite Rmult_minus_distr_l; rewrite nAB at 2; rewrite <- nAC; rewrite Rmult_0_r; replace (dotp n AB * fst AC - dotp n AC * fst AB) with (- (crossp AB AC * snd n) ) by (clear; uv; ring); rewrite D; ring).
    assert (Ed : dotp n AB * (snd AC - snd AB) = dotp n AB * 0) by (rewrite Rmult_minus_distr_l; rewrite nAB at 2; rewrite <- nAC; rewrite Rmult_0_r; replace (dotp n AB * snd AC - dotp n AC * snd AB) with (crossp AB AC * fst n) by (clear; uv; ring); rewrite D; ring).
    apply X in Ec. apply X in Ed. unfold AB, AC in *. destruct b, c. uv. f_equal; lra. }
  assert (AN : crossp AC AB = - crossp AB AC) by (unfold crossp; ring).
  assert (SQ : 0 < crossp AB AC * crossp AB AC) by (apply Rsqr_pos_lt in D; exact D).
  assert (PB := dotp_pos AB AB0). assert (PC := dotp_pos AC AC0).
  destruct (nlt (Some 0) (ndot (nneg (perp AC AB)) AO)) eqn:T1.
  - right. apply nperp_pos in T1. destruct T1 as (_ & T1).
    exists b, c, (- (crossp AB AC / dotp AB AB * - snd AB), - (crossp AB AC / dotp AB AB * fst AB)). split; [auto|].
    rewrite perp_eq by auto. cbn [nneg option_map fst snd]. split; [reflexivity|].
    set (q := crossp AB AC / dotp AB AB). assert (Q : dotp AB AB * q = crossp AB AC) by (unfold q; field; lra).
    assert (F : forall v, dotp (- (q * - snd AB), - (q * fst AB)) v = - q * crossp AB v) by (intros; unfold dotp, crossp; cbn [fst snd]; ring).
    assert (F1 : dotp (- (q * - snd AB), - (q * fst AB)) b = dotp (- (q * - snd AB), - (q * fst AB)) p) by (rewrite !F; unfold AB; clear; uv; ring).
    split; [split; [auto|split; [auto|split; [intros ->; lra|split; [exact F1|]]]]|].
    + rewrite F. apply Rmult_lt_reg_l with (dotp AB AB); auto. rewrite Rmult_0_r. replace (dotp AB AB * (- q * crossp AB p)) with ((dotp AB AB * q) * - crossp AB p) by ring. rewrite Q.
      replace (- crossp AB p) with (crossp AB AO) by (unfold AO; clear; uv; ring). auto.
    + rewrite !F. apply Rmult_lt_reg_l with (dotp AB AB); auto. apply Rminus_gt_0_lt. replace (dotp AB AB * (- q * crossp AB p) - dotp AB AB * (- q * crossp AB c)) with ((dotp AB AB * q) * (crossp AB c - crossp AB p)) by ring. rewrite Q.
      replace (crossp AB c - crossp AB p) with (crossp AB AC) by (unfold AC; clear; uv; ring). auto.
  - destruct (nlt (Some 0) (ndot (nneg (perp AB AC)) AO)) eqn:T2.
    + right. apply nperp_pos in T2. destruct T2 as (_ & T2).
      exists c, b, (- (crossp AC AB / dotp AC AC * - snd AC), - (crossp AC AB / dotp AC AC * fst AC)). split; [auto|].
      rewrite (perp_eq AB AC) by auto. cbn [nneg option_map fst snd]. split; [reflexivity|].
      set (q := crossp AC AB / dotp AC AC). assert (Q : dotp AC AC * q = crossp AC AB) by (unfold q; field; lra).
      assert (F : forall v, dotp (- (q * - snd AC), - (q * fst AC)) v = - q * crossp AC v) by (intros; unfold dotp, crossp; cbn [fst snd]; ring).
      assert (F1 : dotp (- (q * - snd AC), - (q * fst AC)) c = dotp (- (q * - snd AC), - (q * fst AC)) p) by (rewrite !F; unfold AC; clear; uv; ring).
      split; [split; [auto|split; [auto|split; [intros Q0; rewrite Q0 in E; lra|split; [exact F1|]]]]|].
      * rewrite F. apply Rmult_lt_reg_l with (dotp AC AC); auto. rewrite Rmult_0_r. replace (dotp AC AC * (- q * crossp AC p)) with ((dotp AC AC * q) * - crossp AC p) by ring. rewrite Q.
        replace (- crossp AC p) with (crossp AC AO) by (unfold AO; clear; uv; ring). auto.
      * rewrite !F. apply Rmult_lt_reg_l with (dotp AC AC); auto. apply Rminus_gt_0_lt. replace (dotp AC AC * (- q * crossp AC p) - dotp AC AC * (- q * crossp AC b)) with ((dotp AC AC * q) * (crossp AC b - crossp AC p)) by ring. rewrite Q.
        replace (crossp AC b - crossp AC p) with (crossp AC AB) by (unfold AB; clear; uv; ring). rewrite AN. lra.
    + left. split; [reflexivity|]. right. exists c, b, p. do 4 (split; [auto; fail|]).
      apply nperp_neg in T1; auto. apply nperp_neg in T2; auto.
      set (Dd := crossp AB AC) in *. set (al := crossp AO AC / Dd). set (be := crossp AB AO / Dd).
      assert (EX : fst AO = al * fst AB + be * fst AC) by (apply Rmult_eq_reg_l with Dd; auto; unfold al, be; replace (Dd * (crossp AO AC / Dd * fst AB + crossp AB AO / Dd * fst AC)) with (crossp AO AC * fst AB + crossp AB AO * fst AC) by (field; auto); unfold Dd, crossp; ring).
      assert (EY : snd AO = al * snd AB + be * snd AC) by (apply Rmult_eq_reg_l with Dd; auto; unfold al, be; replace (Dd * (crossp AO AC / Dd * snd AB + crossp AB AO / Dd * snd AC)) with (crossp AO AC * snd AB + crossp AB AO * snd AC) by (field; auto); unfold Dd, crossp; ring).
      assert (Pbe : 0 <= be) by (unfold be; apply Rmult_le_reg_l with (Dd * Dd); auto; rewrite Rmult_0_r; replace (Dd * Dd * (crossp AB AO / Dd)) with (Dd * crossp AB AO) by (field; auto); auto).
      assert (Pal : 0 <= al) by (unfold al; apply Rmult_le_reg_l with (Dd * Dd); auto; rewrite Rmult_0_r; replace (Dd * Dd * (crossp AO AC / Dd)) with (crossp AC AB * crossp AC AO) by (rewrite AN; replace (crossp AC AO) with (- crossp AO AC) by (unfold crossp; ring); fold Dd; field; auto); auto).
      assert (Sum : al + be <= 1).
      { assert (Q : dotp n AO = (al + be) * dotp n AB) by (replace (dotp n AO) with (fst n * fst AO + snd n * snd AO) by reflexivity; rewrite EX, EY; rewrite Rmult_plus_distr_r; rewrite nAB at 2; rewrite <- nAC; unfold dotp; ring).
        rewrite nAO, nAB in Q. apply Rmult_le_reg_r with (dotp n p - dotp n b); [lra|]. lra. }
      replace ((0, 0) : pt) with (lincomb be al (1 - al - be) c b p); [apply hull3; auto; lra|].
      unfold lincomb, AO, AB, AC in *. uv. f_equal; lra.
Qed.

(** Both ends of the edge are on the boundary. *)
Definition beyond (n c : pt) : list pt := filter (fun m => negb (ltR (dotp n m) (dotp n c))) M.
Lemma in_beyond : forall n c m, (negb (ltR (dotp n m) (dotp n c)) = true) <-> dotp n c <= dotp n m.
Proof. intros. pose proof (ltRs (dotp n m) (dotp n c)) as L. destruct (ltR _ _); cbn [negb]; split; intros; auto; try discriminate; lra. Qed.
Lemma pocket : forall x y p q n n', outer x -> In y M -> In p M -> In q M -> dotp n x = dotp n y -> dotp n x < dotp n p -> dotp n' x = dotp n' p -> dotp n' y < dotp n' p -> dotp n' p < dotp n' q ->
  forall m, In m M -> dotp n' p <= dotp n' m -> dotp n x <= dotp n m.
Proof.
  intros x y p q n n' (e & Ne & He) Hy Hp Hq E1 L1 E2 L2 L3 m Hm L4. destruct (Rle_lt_dec (dotp n x) (dotp n m)) as [|L5]; auto. exfalso.
  set (Y := subp y x). set (P := subp p x). set (Q := subp q x). set (W := subp m x).
  assert (SB : forall a v, dotp a (subp v x) = dotp a v - dotp a x) by (intros; uv; ring).
  assert (eY : dotp e Y <= 0) by (unfold Y; rewrite SB; specialize (He y Hy); lra). assert (eP : dotp e P <= 0) by (unfold P; rewrite SB; specialize (He p Hp); lra).
  assert (eQ : dotp e Q <= 0) by (unfold Q; rewrite SB; specialize (He q Hq); lra). assert (eW : dotp e W <= 0) by (unfold W; rewrite SB; specialize (He m Hm); lra).
  assert (nY : dotp n Y = 0) by (unfold Y; rewrite SB; lra). assert (nP : 0 < dotp n P) by (unfold P; rewrite SB; lra). assert (nW : dotp n W < 0) by (unfold W; rewrite SB; lra).
  assert (nP' : dotp n' P = 0) by (unfold P; rewrite SB; lra). assert (nY' : dotp n' Y < 0) by (unfold Y; rewrite SB; lra). assert (nQ' : 0 < dotp n' Q) by (unfold Q; rewrite SB; lra). assert (nW' : 0 <= dotp n' W) by (unfold W; rewrite SB; lra).
  clearbody Y P Q W. clear - Ne eY eP eQ eW nY nP nW nP' nY' nQ' nW'.
  (* coordinates along Y and P *)
  assert (D : crossp Y P <> 0).
  { intros D. pose proof (side_eq n Y P nY) as S1. rewrite D, Rmult_0_r in S1. apply Rmult_integral in S1. destruct S1 as [S1|S1]; [|lra]. apply dotp_zero in S1. subst Y. uv. lra. }
  set (al := fun w => crossp w P / crossp Y P). set (be := fun w => crossp Y w / crossp Y P).
  assert (C : forall a w, dotp a w = al w * dotp a Y + be w * dotp a P).
  { intros a w. apply Rmult_eq_reg_l with (crossp Y P); auto. rewrite coord. unfold al, be. field. auto. }
  assert (bW : be W < 0) by (rewrite (C n W), nY, Rmult_0_r, Rplus_0_l in nW; destruct (Rle_lt_dec 0 (be W)); auto; assert (0 <= be W * dotp n P) by (apply Rmult_le_pos; lra); lra).
  assert (aW : al W <= 0) by (rewrite (C n' W), nP', Rmult_0_r, Rplus_0_r in nW'; destruct (Rle_lt_dec (al W) 0); auto; assert (al W * dotp n' Y < al W * 0) by (apply Rmult_lt_compat_l; auto); lra).
  assert (aQ : al Q < 0) by (rewrite (C n' Q), nP', Rmult_0_r, Rplus_0_r in nQ'; destruct (Rle_lt_dec 0 (al Q)); auto; assert (al Q * dotp n' Y <= al Q * 0) by (apply Rmult_le_compat_l; lra); lra).
  rewrite (C e W) in eW. assert (T1 : 0 <= al W * dotp e Y) by (replace (al W * dotp e Y) with ((- al W) * (- dotp e Y)) by ring; apply Rmult_le_pos; lra).
  assert (T2 : 0 <= be W * dotp e P) by (replace (be W * dotp e P) with ((- be W) * (- dotp e P)) by ring; apply Rmult_le_pos; lra).
  assert (eP0 : dotp e P = 0) by (assert (Z : be W * dotp e P = 0) by lra; apply Rmult_integral in Z; destruct Z; lra).
  rewrite (C e Q), eP0, Rmult_0_r, Rplus_0_r in eQ. assert (eY0 : dotp e Y = 0).
  { assert (T3 : 0 <= al Q * dotp e Y) by (replace (al Q * dotp e Y) with ((- al Q) * (- dotp e Y)) by ring; apply Rmult_le_pos; lra). assert (Z : al Q * dotp e Y = 0) by lra. apply Rmult_integral in Z; destruct Z; lra. }
  apply Ne. eapply only0; eauto.
Qed.
Lemma phase2 : forall k c b n fuel, K2 c b n -> outer c -> outer b -> (forall m, In m M -> dotp n m < 0) \/ (length (beyond n c) <= k)%nat -> (k + 1 <= fuel)%nat -> res fuel ([c; b], Some n).
Proof.
  induction k as [|k IH]; intros c b n fuel K Oc Ob H F; destruct (step2 c b n K) as (p & Hp & Mp & [(L & E)|(L & [(E & G)|(x & y & n' & XY & E & K' & L')])]);
  try (refine (res_stop fuel _ _ _ _ E _); [lia|]; left; split; auto; exists n; intros m Hm; specialize (Mp m Hm); lra); try (refine (res_stop fuel _ _ _ _ E G); lia).
  - exfalso. destruct H as [H|H]; [specialize (H p Hp); lra|]. pose proof (filter_pos (fun m => negb (ltR (dotp n m) (dotp n c))) M c) as Q. destruct K as (Hc & _). unfold beyond in H. specialize (Q Hc). assert (negb (ltR (dotp n c) (dotp n c)) = true) by (apply in_beyond; lra). specialize (Q H0). lia.
  - destruct H as [H|H]; [exfalso; specialize (H p Hp); lra|]. destruct fuel as [|fuel]; [lia|]. eapply res_next; [exact E|]. pose proof K as KK. destruct K as (Hc & Hb & Ncb & Ecb & Lb).
    assert (Hx : In x M /\ In y M /\ outer x /\ dotp n x = dotp n y /\ dotp n x = dotp n c /\ dotp n y = dotp n c) by (destruct XY as [(-> & ->)|(-> & ->)]; repeat split; auto; lra).
    destruct Hx as (Hx & Hy & Ox & Exy & Ex & Ey).
    assert (Op : outer p) by (exists n; split; [intros ->; uv; lra|auto]). apply IH; auto; [|lia].
    destruct (support_ok A B n' NA NB) as (q & _ & Hq & Mq). destruct (Rlt_le_dec (dotp n' q) 0) as [Lq|Lq]; [left; intros m Hm; specialize (Mq m Hm); lra|]. right.
    enough (length (beyond n' x) < length (beyond n c))%nat by lia. destruct K' as (_ & _ & _ & Ex' & Lp').
    apply (filter_lt _ _ M y); auto.
    + intros m Hm. rewrite !in_beyond. intros Lm. rewrite <- Ex. apply (pocket x y p q n n'); auto; try lra.
    + pose proof (in_beyond n' x y). destruct (negb _); auto. assert (dotp n' x <= dotp n' y) by (apply H0; auto). lra.
    + apply in_beyond. lra.
Qed.

(** The first point may be anywhere; the edge turns about it. *)
Definition wedge (s b : pt) (g : R) : list pt := filter (fun m => negb (ltR (g * crossp (subp b s) (subp m s)) 0) && negb (ltR (g * crossp (subp m s) (subp (0, 0) s)) 0))%bool M.
Lemma in_wedge : forall s b g m, (negb (ltR (g * crossp (subp b s) (subp m s)) 0) && negb (ltR (g * crossp (subp m s) (subp (0, 0) s)) 0) = true)%bool <-> 0 <= g * crossp (subp b s) (subp m s) /\ 0 <= g * crossp (subp m s) (subp (0, 0) s).
Proof. intros. rewrite andb_true_iff. pose proof (ltRs (g * crossp (subp b s) (subp m s)) 0). pose proof (ltRs (g * crossp (subp m s) (subp (0, 0) s)) 0). destruct (ltR _ 0), (ltR _ 0); cbn [negb]; split; intros; try split; try destruct H1; auto; try discriminate; lra. Qed.
Lemma phase1 : forall k s b n g fuel, K2 s b n -> outer b -> g <> 0 -> 0 < g * crossp (subp b s) (subp (0, 0) s) -> (length (wedge s b g) <= k)%nat -> (k + length M + 2 <= fuel)%nat -> res fuel ([s; b], Some n).
Proof.
  induction k as [|k IH]; intros s b n g fuel K Ob Ng Hg H F; pose proof K as KK; destruct K as (Hs & Hb & Nsb & Esb & Lb).
  - exfalso. pose proof (filter_pos (fun m => negb (ltR (g * crossp (subp b s) (subp m s)) 0) && negb (ltR (g * crossp (subp m s) (subp (0, 0) s)) 0))%bool M b Hb) as Q. unfold wedge in H.
    assert (W : (negb (ltR (g * crossp (subp b s) (subp b s)) 0) && negb (ltR (g * crossp (subp b s) (subp (0, 0) s)) 0))%bool = true) by (apply in_wedge; split; [replace (crossp (subp b s) (subp b s)) with 0 by (unfold crossp; ring); lra|lra]).
    specialize (Q W). lia.
  - destruct (step2 s b n KK) as (p & Hp & Mp & [(L & E)|(L & [(E & G)|(x & y & n' & XY & E & K' & L')])]);
    try (refine (res_stop fuel _ _ _ _ E _); [lia|]; left; split; auto; exists n; intros m Hm; specialize (Mp m Hm); lra); try (refine (res_stop fuel _ _ _ _ E G); lia).
    destruct fuel as [|fuel]; [lia|]. eapply res_next; [exact E|]. assert (Op : outer p) by (exists n; split; [intros ->; uv; lra|auto]).
    destruct XY as [(-> & ->)|(-> & ->)].
    + apply (phase2 (length M)); auto; [right; apply filter_all|lia].
    + destruct K' as (_ & _ & Nsp & Esp & Lp').
      assert (bs0 : subp b s <> (0, 0)) by (intros Q; apply Nsb; destruct b, s; unfold subp in Q; injection Q; cbn [fst snd]; intros; f_equal; lra).
      assert (ps0 : subp p s <> (0, 0)) by (intros Q; apply Nsp; destruct p, s; unfold subp in Q; injection Q; cbn [fst snd]; intros; f_equal; lra).
      assert (S1 : 0 < crossp (subp b s) (subp p s) * crossp (subp b s) (subp (0, 0) s)).
      { apply (side n); auto; [clear - Esb; uv; lra|]. replace (dotp n (subp p s)) with (dotp n p - dotp n s) by (clear; uv; ring). replace (dotp n (subp (0, 0) s)) with (- dotp n s) by (clear; uv; ring). apply Rmult_lt_0_compat; lra. }
      assert (S2 : crossp (subp p s) (subp b s) * crossp (subp p s) (subp (0, 0) s) < 0).
      { apply (side n'); auto; [clear - Esp; uv; lra|]. replace (dotp n' (subp b s)) with (dotp n' b - dotp n' s) by (clear; uv; ring). replace (dotp n' (subp (0, 0) s)) with (- dotp n' s) by (clear; uv; ring).
        rewrite <- (Rmult_0_r (dotp n' b - dotp n' s)). apply Ropp_lt_cancel. rewrite Rmult_0_r, Ropp_0. replace (- ((dotp n' b - dotp n' s) * - dotp n' s)) with ((dotp n' s - dotp n' b) * (- dotp n' s)) by ring. apply Rmult_lt_0_compat; lra. }
      set (bp := crossp (subp b s) (subp p s)) in *. set (bo := crossp (subp b s) (subp (0, 0) s)) in *. set (po := crossp (subp p s) (subp (0, 0) s)) in *.
      replace (crossp (subp p s) (subp b s)) with (- bp) in S2 by (unfold bp, crossp; ring).
      assert (gbp : 0 < g * bp).
      { assert (Q : 0 < (g * bp) * (g * bo)) by (replace ((g * bp) * (g * bo)) with ((g * g) * (bp * bo)) by ring; apply Rmult_lt_0_compat; auto; apply Rsqr_pos_lt in Ng; exact Ng).
        destruct (Rle_lt_dec (g * bp) 0); auto. assert ((g * bp) * (g * bo) <= 0 * (g * bo)) by (apply Rmult_le_compat_r; lra). lra. }
      assert (gpo : 0 < g * po).
      { assert (Q : 0 < (g * bp) * (g * po)) by (replace ((g * bp) * (g * po)) with ((g * g) * - (- bp * po)) by ring; apply Rmult_lt_0_compat; [apply Rsqr_pos_lt in Ng; exact Ng|lra]).
        destruct (Rle_lt_dec (g * po) 0); auto. assert ((g * bp) * (g * po) <= (g * bp) * 0) by (apply Rmult_le_compat_l; lra). lra. }
      apply (IH s p n' g fuel); auto; [split; [auto|split; [auto|split; [auto|split; auto]]]| |lia].
      enough (length (wedge s p g) < length (wedge s b g))%nat by lia. apply (filter_lt _ _ M b); auto.
      * intros m Hm. rewrite !in_wedge. intros (W1 & W2). split; auto.
        set (m' := subp m s) in *. set (p' := subp p s) in *. set (b' := subp b s) in *. set (o' := subp (0, 0) s) in *.
        assert (I : (g * po) * (g * crossp b' m') = (g * crossp m' o') * (g * bp) + (g * crossp p' m') * (g * bo)) by (unfold po, bp, bo; clear; unfold crossp; ring).
        assert (I1 : 0 <= (g * crossp m' o') * (g * bp)) by (apply Rmult_le_pos; lra). assert (I2 : 0 <= (g * crossp p' m') * (g * bo)) by (apply Rmult_le_pos; lra).
        destruct (Rle_lt_dec 0 (g * crossp b' m')); auto. assert ((g * po) * (g * crossp b' m') < (g * po) * 0) by (apply Rmult_lt_compat_l; auto). lra.
      * pose proof (in_wedge s p g b) as W. destruct (_ && _)%bool; auto. exfalso. assert (Q : 0 <= g * crossp (subp p s) (subp b s)) by (apply W; auto). replace (crossp (subp p s) (subp b s)) with (- bp) in Q by (unfold bp, crossp; ring). lra.
      * apply in_wedge. replace (crossp (subp b s) (subp b s)) with 0 by (unfold crossp; ring). fold bo. lra.
Qed.

(** The whole function. *)
Lemma gjk_ok : forall fuel, (2 * length M + 3 <= fuel)%nat -> exists r, FindIntersectingSimplexForGjk2 fuel A B = Some r /\ good r.
Proof.
  intros fuel F. unfold FindIntersectingSimplexForGjk2.
  assert (E0 : exists a0, vget A 0 = Some a0) by (destruct A; [congruence|eexists; reflexivity]). destruct E0 as (a0 & ->). cbn [bind].
  assert (E0 : exists b0, vget B 0 = Some b0) by (destruct B; [congruence|eexists; reflexivity]). destruct E0 as (b0 & ->). cbn [bind].
  destruct (support_in A B (Some (subp b0 a0)) NA NB) as (s & Es & Hs). rewrite Es. cbn [bind].
  enough (R : res fuel ([s], Some (subp (0, 0) s))) by (destruct R as (r & d & -> & G); cbn [bind]; eauto).
  set (d0 := subp (0, 0) s). destruct (support_ok A B d0 NA NB) as (p & Ep & Hp & Mp).
  destruct fuel as [|fuel]; [lia|]. pose proof (ltRs (dotp d0 p) 0) as L. destruct (ltR (dotp d0 p) 0) eqn:EL.
  { eapply res_stop; [lia| |].
    - cbn [gjk_step]. rewrite Ep. cbn [bind]. change (nlt (ndot (Some d0) p) (Some 0)) with (ltR (dotp d0 p) 0). rewrite EL. reflexivity.
    - left. split; auto. exists d0. intros m Hm. specialize (Mp m Hm). lra. }
  assert (Est : gjk_step A B ([s], Some d0) = Some (([s; p], perp (subp (0, 0) p) (subp s p)), false)).
  { cbn [gjk_step]. rewrite Ep. cbn [bind]. change (nlt (ndot (Some d0) p) (Some 0)) with (ltR (dotp d0 p) 0). rewrite EL. reflexivity. }
  eapply res_next; [exact Est|].
  assert (SP : dotp s p <= 0) by (unfold d0 in L; uv; lra).
  destruct (Req_dec (dotp (subp s p) (subp s p)) 0) as [Z|Z].
  { apply dotp_zero in Z. assert (s = p) by (destruct s, p; unfold subp in Z; injection Z; cbn [fst snd]; intros; f_equal; lra). subst p.
    rewrite Z, perp_nan. assert (Z0 : s = (0, 0)) by (apply dotp_zero; pose proof (Rle_0_sqr (fst s)); pose proof (Rle_0_sqr (snd s)); unfold Rsqr in *; uv; lra).
    apply (res_zero fuel s s None 0); auto; try lia; try lra; rewrite Z0; cbn [fst snd]; ring. }
  set (AB := subp s p) in *. set (AO := subp (0, 0) p).
  assert (AB0 : AB <> (0, 0)) by (intros Q; rewrite Q in Z; apply Z; uv; ring). pose proof (dotp_pos AB AB0) as PB.
  rewrite perp_eq by auto. set (q := crossp AB AO / dotp AB AB). assert (Q : dotp AB AB * q = crossp AB AO) by (unfold q; field; lra).
  set (n := (q * - snd AB, q * fst AB)). assert (Fn : forall v, dotp n v = q * crossp AB v) by (intros; unfold n, dotp, crossp; cbn [fst snd]; ring).
  destruct (Req_dec q 0) as [Q0|Q0].
  - (* the origin is on the line *)
    assert (C0 : crossp AB AO = 0) by (rewrite <- Q, Q0; ring).
    set (k := dotp AB AO / dotp AB AB).
    assert (K1 : 0 <= k) by (unfold k; apply Rmult_le_pos; [|left; apply Rinv_0_lt_compat; auto]; unfold AB, AO; uv; pose proof (Rle_0_sqr (fst p)); pose proof (Rle_0_sqr (snd p)); unfold Rsqr in *; lra).
    assert (K2' : k <= 1) by (unfold k; apply Rmult_le_reg_r with (dotp AB AB); auto; unfold Rdiv; rewrite Rmult_assoc, Rinv_l, Rmult_1_r, Rmult_1_l by lra; unfold AB, AO; uv; pose proof (Rle_0_sqr (fst s)); pose proof (Rle_0_sqr (snd s)); unfold Rsqr in *; lra).
    assert (EX : dotp AB AB * fst AO = dotp AB AO * fst AB) by (replace (dotp AB AB * fst AO) with (dotp AB AO * fst AB - crossp AB AO * snd AB) by (clear; uv; ring); rewrite C0; ring).
    assert (EY : dotp AB AB * snd AO = dotp AB AO * snd AB) by (replace (dotp AB AB * snd AO) with (dotp AB AO * snd AB + crossp AB AO * fst AB) by (clear; uv; ring); rewrite C0; ring).
    assert (EX' : fst AO = k * fst AB) by (apply Rmult_eq_reg_l with (dotp AB AB); [|lra]; rewrite EX; unfold k; field; lra).
    assert (EY' : snd AO = k * snd AB) by (apply Rmult_eq_reg_l with (dotp AB AB); [|lra]; rewrite EY; unfold k; field; lra).
    apply (res_zero fuel s p _ k); auto; try lia.
    + right. unfold n. rewrite Q0. f_equal. f_equal; ring.
    + unfold AO, AB in EX'. cbn [subp fst snd] in EX'. lra.
    + unfold AO, AB in EY'. cbn [subp fst snd] in EY'. lra.
  - assert (C0 : crossp AB AO <> 0) by (rewrite <- Q; intros C0; apply Rmult_integral in C0; lra).
    assert (np : dotp n p < 0).
    { rewrite Fn. replace (crossp AB p) with (- crossp AB AO) by (unfold AO; clear; uv; ring). rewrite <- Q. replace (q * - (dotp AB AB * q)) with (- (dotp AB AB * (q * q))) by ring.
      assert (0 < dotp AB AB * (q * q)) by (apply Rmult_lt_0_compat; auto; apply Rsqr_pos_lt in Q0; exact Q0). lra. }
    assert (KK : K2 s p n).
    { split; [auto|]. split; [auto|]. split; [intros E; apply AB0; unfold AB; rewrite E; unfold subp; f_equal; ring|]. split; [|exact np]. rewrite !Fn. unfold AB. clear. uv. ring. }
    assert (Op : outer p) by (exists d0; split; [|auto]; intros E; unfold d0 in E; destruct KK as (_ & _ & _ & E1 & _); assert (s = (0, 0)) by (destruct s; unfold subp in E; injection E; cbn [fst snd]; intros; f_equal; lra); subst s; clear - E1 np; uv; lra).
    set (c := crossp (subp p s) (subp (0, 0) s)).
    assert (Nc : c <> 0) by (intros E; apply C0; rewrite <- Ropp_0, <- E; unfold c, AB, AO; clear; uv; ring).
    apply (phase1 (length M) s p n c fuel); auto; [apply Rsqr_pos_lt in Nc; exact Nc|apply filter_all|lia].
Qed.
End Gjk.
