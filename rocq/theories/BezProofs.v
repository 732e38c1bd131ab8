From Coquelicot Require Import Coquelicot.
From Coq Require Import Reals Lra Lia List Arith Bool.
Import ListNotations.
From Verif Require Import Imp PrModel BezModel BezSpec.
Open Scope R_scope.

Lemma ltR_spec : forall a b, if ltR a b then a < b else b <= a. Proof. intros. unfold ltR. destruct (Rlt_dec a b); lra. Qed.
Lemma eqR_spec : forall a b, if eqR a b then a = b else a <> b. Proof. intros. unfold eqR. destruct (Req_EM_T a b); auto. Qed.
(** ** fl *)
Definition isfin (x : fl) : Prop := match x with Inf _ => False | _ => True end.
Lemma fmin_ok : forall l x, Forall isfin l -> exists m, fmin (Fin x) l = Fin m /\ (m = x \/ In (Fin m) l) /\ m <= x /\ (forall y, In (Fin y) l -> m <= y).
Proof.
  unfold fmin. induction l as [|z l IH]; intros x F.
  - exists x. split; [reflexivity|]. split; [auto|]. split; [lra|]. intros y [].
  - inversion F as [|? ? F1 F2]; subst. cbn [fold_left]. destruct z as [z| |]; [|contradiction|].
    + cbn [flt]. assert (T := ltR_spec z x). destruct (ltR z x).
      * destruct (IH z F2) as (m & E & A & B & C). exists m. rewrite E. split; auto. split; [destruct A as [->|A]; right; cbn [In]; auto|]. split; [lra|]. intros y [Y|Y]; [injection Y as <-; lra|auto].
      * destruct (IH x F2) as (m & E & A & B & C). exists m. rewrite E. split; auto. split; [destruct A as [->|A]; [left; auto|right; cbn [In]; auto]|]. split; [lra|]. intros y [Y|Y]; [injection Y as <-; lra|auto].
    + cbn [flt]. destruct (IH x F2) as (m & E & A & B & C). exists m. rewrite E. split; auto. split; [destruct A as [->|A]; [left; auto|right; cbn [In]; auto]|]. split; [lra|]. intros y [Y|Y]; [discriminate|auto].
Qed.
Lemma fmax_ok : forall l x, Forall isfin l -> exists m, fmax (Fin x) l = Fin m /\ (m = x \/ In (Fin m) l) /\ x <= m /\ (forall y, In (Fin y) l -> y <= m).
Proof.
  unfold fmax. induction l as [|z l IH]; intros x F.
  - exists x. split; [reflexivity|]. split; [auto|]. split; [lra|]. intros y [].
  - inversion F as [|? ? F1 F2]; subst. cbn [fold_left]. destruct z as [z| |]; [|contradiction|].
    + cbn [flt]. assert (T := ltR_spec x z). destruct (ltR x z).
      * destruct (IH z F2) as (m & E & A & B & C). exists m. rewrite E. split; auto. split; [destruct A as [->|A]; right; cbn [In]; auto|]. split; [lra|]. intros y [Y|Y]; [injection Y as <-; lra|auto].
      * destruct (IH x F2) as (m & E & A & B & C). exists m. rewrite E. split; auto. split; [destruct A as [->|A]; [left; auto|right; cbn [In]; auto]|]. split; [lra|]. intros y [Y|Y]; [injection Y as <-; lra|auto].
    + cbn [flt]. destruct (IH x F2) as (m & E & A & B & C). exists m. rewrite E. split; auto. split; [destruct A as [->|A]; [left; auto|right; cbn [In]; auto]|]. split; [lra|]. intros y [Y|Y]; [discriminate|auto].
Qed.
Lemma clamp_ok : forall v, match v with NaN => clamp v (Fin 0) (Fin 1) = NaN | Fin x => exists r, clamp v (Fin 0) (Fin 1) = Fin r /\ 0 <= r <= 1 /\ (0 <= x <= 1 -> r = x) | Inf _ => exists r, clamp v (Fin 0) (Fin 1) = Fin r /\ 0 <= r <= 1 end.
Proof.
  intros [x|[|]|]; unfold clamp; cbn [flt negb].
  - assert (T := ltR_spec x 0). destruct (ltR x 0); [exists 0; split; [auto|split; lra]|]. assert (T1 := ltR_spec 1 x). destruct (ltR 1 x); [exists 1; split; [auto|split; lra]|]. exists x. split; [auto|split; [lra|auto]].
  - exists 1. split; auto. lra.
  - exists 0. split; auto. lra.
  - auto.
Qed.

(** ** Ranges *)
Lemma range_lift : forall f f' x0 l, derivative f f' -> x0 = f 0 -> In (Fin (f 1)) l -> Forall isfin l ->
  (forall y, In (Fin y) l -> exists r, 0 <= r <= 1 /\ y = f r) ->
  (forall m, 0 < m < 1 -> f' m = 0 -> f m = f 0 \/ In (Fin (f m)) l) ->
  exists lo hi, fmin (Fin x0) l = Fin lo /\ fmax (Fin x0) l = Fin hi /\ range01 f lo hi.
Proof.
  intros f f' x0 l D -> L1 FL IN CR. destruct (fmin_ok l (f 0) FL) as (lo & E1 & A1 & B1 & C1). destruct (fmax_ok l (f 0) FL) as (hi & E2 & A2 & B2 & C2). exists lo, hi. split; auto. split; auto.
  assert (DF : forall c, derivable_pt f c) by (intros c; exists (f' c); apply D).
  assert (CT : forall c, 0 <= c <= 1 -> continuity_pt f c) by (intros; apply derivable_continuous_pt, DF).
  assert (EX : forall m, 0 <= m <= 1 -> (0 < m < 1 -> f' m = 0) -> f m = f 0 \/ In (Fin (f m)) l).
  { intros m M Z0. destruct (Req_dec m 0) as [->|N0]; [left; auto|]. destruct (Req_dec m 1) as [->|N1]; [right; auto|]. assert (MM : 0 < m < 1) by lra. apply CR; auto. }
  assert (DV : forall m pr, derive_pt f m pr = f' m) by (intros m pr; apply derive_pt_eq_0, D).
  split; [|split].
  - intros t T. destruct (continuity_ab_maj f 0 1 ltac:(lra) CT) as (M & MM & MI). destruct (continuity_ab_min f 0 1 ltac:(lra) CT) as (N & NN & NI). split.
    + assert (G : f N = f 0 \/ In (Fin (f N)) l). { apply EX; auto. intros I. assert (Q := deriv_minimum f 0 1 N (DF N) (proj1 I) (proj2 I)). rewrite DV in Q. apply Q. intros x X1 X2. apply NN. lra. }
      assert (lo <= f N) by (destruct G as [->|G]; auto). assert (NT := NN t T). lra.
    + assert (G : f M = f 0 \/ In (Fin (f M)) l). { apply EX; auto. intros I. assert (Q := deriv_maximum f 0 1 M (DF M) (proj1 I) (proj2 I)). rewrite DV in Q. apply Q. intros x X1 X2. apply MM. lra. }
      assert (f M <= hi) by (destruct G as [->|G]; auto). assert (MT := MM t T). lra.
  - destruct A1 as [->|A1]; [exists 0; split; [lra|auto]|]. destruct (IN _ A1) as (r & R1 & ->). exists r. auto.
  - destruct A2 as [->|A2]; [exists 0; split; [lra|auto]|]. destruct (IN _ A2) as (r & R1 & ->). exists r. auto.
Qed.

Lemma der_cubic : forall d c b a, derivative (fun t => d + t * (c + t * (b + t * a))) (fun t => c + t * (2 * b + t * (3 * a))).
Proof. intros d c b a t. apply is_derive_Reals. auto_derive; [auto|ring]. Qed.
Lemma der_ext : forall f g f' g', (forall t, f t = g t) -> (forall t, f' t = g' t) -> derivative f f' -> derivative g g'.
Proof. intros f g f' g' E E' D t. apply is_derive_Reals. apply (is_derive_ext f); auto. rewrite <- E'. apply is_derive_Reals, D. Qed.
Lemma der_unique : forall f f' f'', derivative f f' -> derivative f f'' -> forall t, f' t = f'' t.
Proof. intros f f' f'' A B t. apply (uniqueness_limite f t); auto. Qed.
Lemma integral_of : forall f F, derivative F f -> integral01 f (F 1 - F 0).
Proof.
  intros f F D. split; [exists F; auto|]. intros G DG. assert (Z : derivative (fun t => G t - F t) (fun _ => 0)). { intros t. replace 0 with (f t - f t) by ring. apply derivable_pt_lim_minus; auto. }
  assert (E : G 1 - F 1 = G 0 - F 0); [|lra]. set (h := fun t => G t - F t) in *. change (h 1 = h 0). assert (DH : derivable h) by (intros t; exists 0; apply Z). apply (null_derivative_1 h DH). intros x. apply derive_pt_eq_0. apply Z.
Qed.
Lemma integral_ext : forall f g v, (forall t, f t = g t) -> integral01 f v -> integral01 g v.
Proof. intros f g v E ((F & DF) & U). split; [exists F; apply (der_ext F F f g); auto|]. intros G DG. apply U. apply (der_ext G G g f); auto. Qed.

Lemma range_ext : forall f g lo hi, (forall t, f t = g t) -> range01 f lo hi -> range01 g lo hi.
Proof. intros f g lo hi E (A & (t1 & T1 & E1) & (t2 & T2 & E2)). split; [intros t T; rewrite <- E; auto|]. split; [exists t1; rewrite <- E; auto|exists t2; rewrite <- E; auto]. Qed.

Lemma aabb2_ok : forall sz (c b a : vec) i, exists lo hi, AABB_QuadraticCurve sz c b a i = (Fin lo, Fin hi) /\ range01 (fun t => c i + t * (b i + t * a i)) lo hi.
Proof.
  intros sz c b a i. unfold AABB_QuadraticCurve. cbv zeta. generalize (c i), (b i), (a i). clear c b a i. intros c b a.
  set (f := fun t => c + t * (b + t * a)). assert (D : derivative f (fun t => b + t * (2 * a))) by (eapply der_ext; [| |apply (der_cubic c b a 0)]; intros t; unfold f; cbv beta; ring).
  set (r := clamp (fdiv sz b (-2 * a)) (Fin 0) (Fin 1)). set (e := fadd (Fin c) (fmul r (fadd (Fin b) (fmul r (Fin a))))).
  assert (EF : (exists x, r = Fin x /\ 0 <= x <= 1 /\ e = Fin (f x) /\ (a <> 0 -> forall m, 0 < m < 1 -> b + m * (2 * a) = 0 -> x = m) /\ (a = 0 -> b <> 0)) \/ (r = NaN /\ e = NaN /\ a = 0 /\ b = 0)).
  { assert (C := clamp_ok (fdiv sz b (-2 * a))). fold r in C. unfold fdiv in C. assert (T := eqR_spec (-2 * a) 0). destruct (eqR (-2 * a) 0).
    - assert (T2 := eqR_spec b 0). destruct (eqR b 0); [right; unfold e; rewrite C; cbn [fmul fadd]; repeat split; auto; lra|]. left. assert (K : exists x, r = Fin x /\ 0 <= x <= 1) by (destruct (ltR 0 b); exact C). destruct K as (x & -> & X). exists x. split; auto. split; auto. split; [reflexivity|]. split; [lra|auto].
    - left. destruct C as (x & -> & X & XE). exists x. split; auto. split; auto. split; [reflexivity|]. split; [|lra]. intros A m M Z. rewrite XE; [apply (Rmult_eq_reg_r (2 * a)); [|lra]; transitivity (- b); [field; lra|lra]|]. replace (b / (-2 * a)) with m by (apply (Rmult_eq_reg_r (2 * a)); [|lra]; transitivity (- b); [lra|field; lra]). lra. }
  clearbody r e. replace (a + b + c) with (f 1) by (unfold f; ring).
  destruct (range_lift f (fun t => b + t * (2 * a)) c [Fin (f 1); e] D) as (lo & hi & E1 & E2 & RG); [unfold f; ring|left; auto| | | |].
  - destruct EF as [(x & _ & _ & -> & _)|(_ & -> & _)]; repeat constructor.
  - intros y [Y|[Y|[]]]; [injection Y as <-; exists 1; split; [lra|auto]|]. destruct EF as [(x & _ & X & -> & _)|(_ & -> & _)]; [|discriminate]. injection Y as <-. exists x. auto.
  - intros m M Z. destruct EF as [(x & _ & X & -> & K1 & K2)|(_ & _ & A0 & B0)]; [|left; unfold f; rewrite A0, B0; ring]. destruct (Req_dec a 0) as [A|A]; [exfalso; apply (K2 A); rewrite A in Z; lra|]. rewrite (K1 A m M Z). right. right. left. auto.
  - exists lo, hi. rewrite E1, E2. split; auto.
Qed.

(** The zeros of 3 a t^2 + 2 b t + c are the two numbers the code computes. *)
Lemma roots3 : forall a b c m, a <> 0 -> c + m * (2 * b + m * (3 * a)) = 0 -> 0 <= b * b - 3 * a * c /\ (m = (- b + sqrt (b * b - 3 * a * c)) / (3 * a) \/ m = (- b + - sqrt (b * b - 3 * a * c)) / (3 * a)).
Proof.
  intros a b c m A Z. assert (E : b * b - 3 * a * c = (3 * a * m + b) * (3 * a * m + b)) by nra. assert (P : 0 <= b * b - 3 * a * c) by (rewrite E; apply Rle_0_sqr). split; auto.
  assert (S := sqrt_sqrt _ P). set (q := sqrt (b * b - 3 * a * c)) in *. rewrite E in S. assert (G : (q - (3 * a * m + b)) * (q + (3 * a * m + b)) = 0) by lra. apply Rmult_integral in G. destruct G as [G|G]; [left|right]; apply (Rmult_eq_reg_r (3 * a)); try lra; [transitivity (- b + q); [lra|field; auto]|transitivity (- b + - q); [lra|field; auto]].
Qed.
Lemma aabb3_ok : forall sz (p0 p1 p2 p3 : vec) i, (let a := - p0 i + 3 * p1 i - 3 * p2 i + p3 i in a = 0 \/ 1 / 10 ^ 10 <= Rabs a) ->
  exists lo hi, AABB_CubicBezierCurve sz p0 p1 p2 p3 i = (Fin lo, Fin hi) /\ range01 (fun t => PointOnCubicBezierCurve t p0 p1 p2 p3 i) lo hi.
Proof.
  intros sz p0 p1 p2 p3 i. unfold AABB_CubicBezierCurve, PointOnCubicBezierCurve. cbv zeta. set (a := - p0 i + 3 * p1 i - 3 * p2 i + p3 i). set (b := 3 * p0 i - 6 * p1 i + 3 * p2 i). set (c := -3 * p0 i + 3 * p1 i). set (d := p0 i). intros HA.
  set (f := fun t => d + t * (c + t * (b + t * a))). assert (D := der_cubic d c b a). fold f in D.
  assert (EP : forall t, f t = t * t * t * p3 i + 3 * t * t * (1 - t) * p2 i + 3 * t * (1 - t) * (1 - t) * p1 i + (1 - t) * (1 - t) * (1 - t) * d) by (intros t; unfold f, a, b, c, d; ring).
  assert (P3 : p3 i = f 1) by (unfold f, a, b, c, d; ring). rewrite P3 in EP. rewrite P3. assert (F0 : d = f 0) by (unfold f; ring).
  assert (EV : forall x, fadd (Fin d) (fmul (Fin x) (fadd (Fin c) (fmul (Fin x) (fadd (Fin b) (fmul (Fin x) (Fin a)))))) = Fin (f x)) by reflexivity.
  assert (EN : fadd (Fin d) (fmul NaN (fadd (Fin c) (fmul NaN (fadd (Fin b) (fmul NaN (Fin a)))))) = NaN) by reflexivity.
  clearbody a b c d. assert (P10 : 0 < 1 / 10 ^ 10) by (apply Rdiv_lt_0_compat; [lra|apply pow_lt; lra]). set (eps := 1 / 10 ^ 10) in *. clearbody eps.
  assert (T := ltR_spec (Rabs a) eps). destruct (ltR (Rabs a) eps).
  - assert (A0 : a = 0) by (destruct HA; auto; lra). set (r := clamp (fdiv sz c (-2 * b)) (Fin 0) (Fin 1)).
    set (e := fadd (Fin d) (fmul r (fadd (Fin c) (fmul r (fadd (Fin b) (fmul r (Fin a))))))).
    assert (EF : (exists x, r = Fin x /\ 0 <= x <= 1 /\ e = Fin (f x) /\ (b <> 0 -> forall m, 0 < m < 1 -> c + m * (2 * b) = 0 -> x = m) /\ (b = 0 -> c <> 0)) \/ (r = NaN /\ e = NaN /\ b = 0 /\ c = 0)).
    { assert (C := clamp_ok (fdiv sz c (-2 * b))). fold r in C. unfold fdiv in C. assert (T1 := eqR_spec (-2 * b) 0). destruct (eqR (-2 * b) 0).
      - assert (T2 := eqR_spec c 0). destruct (eqR c 0); [right; unfold e; rewrite C; rewrite EN; repeat split; auto; lra|]. left. assert (K : exists x, r = Fin x /\ 0 <= x <= 1) by (destruct (ltR 0 c); exact C). destruct K as (x & RX & X). exists x. split; auto. split; auto. unfold e. rewrite RX. split; [reflexivity|]. split; [lra|auto].
      - left. destruct C as (x & RX & X & XE). exists x. split; auto. split; auto. unfold e. rewrite RX. split; [reflexivity|]. split; [|lra]. intros A m M Z. rewrite XE; [apply (Rmult_eq_reg_r (2 * b)); [|lra]; transitivity (- c); [field; lra|lra]|]. replace (c / (-2 * b)) with m by (apply (Rmult_eq_reg_r (2 * b)); [|lra]; transitivity (- c); [lra|field; lra]). lra. }
    clearbody r e.
    destruct (range_lift f (fun t => c + t * (2 * b + t * (3 * a))) d [Fin (f 1); e] D F0) as (lo & hi & E1 & E2 & RG); [left; auto| | | |].
    + destruct EF as [(x & _ & _ & -> & _)|(_ & -> & _)]; repeat constructor.
    + intros y [Y|[Y|[]]]; [injection Y as <-; exists 1; split; [lra|auto]|]. destruct EF as [(x & _ & X & -> & _)|(_ & -> & _)]; [|discriminate]. injection Y as <-. exists x. auto.
    + intros m M Z. rewrite A0 in Z. destruct EF as [(x & _ & X & -> & K1 & K2)|(_ & _ & B0 & C0)]; [|left; unfold f; rewrite A0, B0, C0; ring]. destruct (Req_dec b 0) as [B|B]; [exfalso; apply (K2 B); rewrite B in Z; lra|]. rewrite (K1 B m M) by lra. right. right. left. auto.
    + exists lo, hi. rewrite E1, E2. split; auto. apply (range_ext f); auto.
  - assert (A : a <> 0) by (intros A; rewrite A, Rabs_R0 in T; lra). unfold fsqrt. assert (T1 := ltR_spec (b * b - 3 * a * c) 0). destruct (ltR (b * b - 3 * a * c) 0).
    + change (fneg NaN) with NaN. change (fadd (Fin (- b)) NaN) with NaN. cbv beta iota. rewrite !(clamp_ok NaN). rewrite EN.
      destruct (range_lift f (fun t => c + t * (2 * b + t * (3 * a))) d [Fin (f 1); NaN; NaN] D F0) as (lo & hi & E1 & E2 & RG); [left; auto|repeat constructor| | |].
      * intros y [Y|[Y|[Y|[]]]]; try discriminate. injection Y as <-; exists 1; split; [lra|auto].
      * intros m M Z. destruct (roots3 a b c m A Z). exfalso. lra.
      * exists lo, hi. rewrite E1, E2. split; auto. apply (range_ext f); auto.
    + change (fneg (Fin ?x)) with (Fin (- x)). change (fadd (Fin (- b)) (Fin ?y)) with (Fin (- b + y)). cbv beta iota. unfold fdiv. assert (T3 := eqR_spec (3 * a) 0). destruct (eqR (3 * a) 0); [lra|].
      assert (C1 := clamp_ok (Fin ((- b + sqrt (b * b - 3 * a * c)) / (3 * a)))). destruct C1 as (x0 & -> & X0 & X0E). assert (C2 := clamp_ok (Fin ((- b + - sqrt (b * b - 3 * a * c)) / (3 * a)))). destruct C2 as (x1 & -> & X1 & X1E). rewrite !EV.
      destruct (range_lift f (fun t => c + t * (2 * b + t * (3 * a))) d [Fin (f 1); Fin (f x0); Fin (f x1)] D F0) as (lo & hi & E1 & E2 & RG); [left; auto|repeat constructor| | |].
      * intros y [Y|[Y|[Y|[]]]]; injection Y as <-; [exists 1; split; [lra|auto]|exists x0; auto|exists x1; auto].
      * intros m M Z. destruct (roots3 a b c m A Z) as (_ & [Q|Q]); rewrite <- Q in *; right; cbn [In]; [rewrite X0E by lra|rewrite X1E by lra]; auto.
      * exists lo, hi. rewrite E1, E2. split; auto. apply (range_ext f); auto.
Qed.
