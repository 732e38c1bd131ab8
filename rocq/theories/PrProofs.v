From Coq Require Import List Arith Bool Reals Lia Lra Psatz.
Import ListNotations.
From Verif Require Import Imp PrModel PrSpec.
Open Scope R_scope.

Lemma ltR_spec : forall a b, reflect (a < b) (ltR a b).
Proof. intros. unfold ltR. destruct (Rlt_dec a b); constructor; auto. Qed.
Lemma eqR_spec : forall a b, reflect (a = b) (eqR a b).
Proof. intros. unfold eqR. destruct (Req_EM_T a b); constructor; auto. Qed.
Lemma poly_from_S : forall a k x, poly_from a (S k) x = x * poly_from a k x.
Proof. induction a as [|c a IH]; intros k x; cbn [poly_from]; [ring|]. rewrite IH. cbn [pow]. ring. Qed.
Lemma poly_cons : forall c a x, poly (c :: a) x = c + x * poly a x.
Proof. intros. unfold poly. cbn [poly_from]. rewrite poly_from_S. cbn [pow]. ring. Qed.
Lemma skipn_nth : forall (a : list R) i, (i < length a)%nat -> skipn i a = nth i a 0 :: skipn (S i) a.
Proof. intros a i. revert a. induction i as [|i IH]; intros [|c a] H; cbn [length] in H; try lia; auto. cbn [skipn nth]. apply IH. lia. Qed.
Lemma Eval_ok : forall x a, a <> [] -> Eval_Polynomial x a (length a) = Some (poly a x).
Proof.
  intros x a N. unfold Eval_Polynomial. assert (L : (0 < length a)%nat) by (destruct a; [contradiction|cbn; lia]). destruct (Nat.eqb_spec (length a) 0); [lia|]. cbn [negb assertb bind].
  rewrite (vget_nth _ 0) by lia. cbn [bind].
  assert (W : wp (forn 1 (length a) (fun i v => c <- vget a (length a - 1 - i) ;; Some (v * x + c)) (nth (length a - 1) a 0)) (fun v => v = poly a x)).
  { apply (wp_forn _ (fun i v => v = poly (skipn (length a - i) a) x)); [lia| | |].
    - rewrite skipn_nth by lia. replace (S (length a - 1)) with (length a) by lia. rewrite skipn_all. rewrite poly_cons. unfold poly. cbn [poly_from]. ring.
    - intros i v (I1 & I2) ->. apply wp_bind. apply (wp_vget _ 0); [lia|]. apply wp_some. rewrite (skipn_nth a (length a - S i)) by lia. replace (S (length a - S i)) with (length a - i)%nat by lia. replace (length a - 1 - i)%nat with (length a - S i)%nat by lia. rewrite poly_cons. ring.
    - intros v ->. rewrite Nat.sub_diag. auto. }
  destruct (wp_ex _ _ _ W) as (v & -> & ->). auto.
Qed.
Lemma quad_roots : forall a b c x, a <> 0 -> 0 <= b * b - 4 * a * c -> (a * x * x + b * x + c = 0 <-> x = (- b - sqrt (b * b - 4 * a * c)) / (2 * a) \/ x = (- b + sqrt (b * b - 4 * a * c)) / (2 * a)).
Proof.
  intros a b c x A D. set (s := sqrt (b * b - 4 * a * c)). assert (S : s * s = b * b - 4 * a * c) by (apply sqrt_sqrt; auto).
  assert (F : a * x * x + b * x + c = a * ((x - (- b - s) / (2 * a)) * (x - (- b + s) / (2 * a)))).
  { assert (E : a * ((x - (- b - s) / (2 * a)) * (x - (- b + s) / (2 * a))) = a * x * x + b * x + (b * b - s * s) / (4 * a)) by (field; auto). rewrite E, S. field. auto. }
  rewrite F. split.
  - intros H. apply Rmult_integral in H. destruct H as [H|H]; [contradiction|]. apply Rmult_integral in H. destruct H; [left|right]; lra.
  - intros [-> | ->]; ring.
Qed.
Lemma quad_none : forall a b c x, b * b - 4 * a * c < 0 -> a * x * x + b * x + c <> 0.
Proof. intros a b c x D H. assert (E : (2 * a * x + b) * (2 * a * x + b) = 4 * a * (a * x * x + b * x + c) + (b * b - 4 * a * c)) by ring. rewrite H, Rmult_0_r, Rplus_0_l in E. assert (P := Rle_0_sqr (2 * a * x + b)). unfold Rsqr in P. lra. Qed.
Lemma Quad_ok : forall x0 x1 a b c, a <> 0 -> x0 <= x1 -> exists l, RootsInRange_QuadraticPolynomial x0 x1 a b c = Some l /\ forall x, In x l <-> x0 <= x <= x1 /\ a * x * x + b * x + c = 0.
Proof.
  intros x0 x1 a b c A X. unfold RootsInRange_QuadraticPolynomial. destruct (ltR_spec x1 x0); [lra|]. cbn [negb assertb bind]. cbv zeta. destruct (ltR_spec (b * b - 4 * a * c) 0) as [D|D].
  - exists []. split; auto. intros x. split; [intros []|]. intros (_ & H). exfalso. revert H. apply quad_none. auto.
  - destruct (eqR_spec a 0); [contradiction|]. unfold div. destruct (eqR_spec (2 * a) 0) as [Q|Q]; [lra|]. cbn [bind foldM].
    set (c0 := (- b - sqrt (b * b - 4 * a * c)) / (2 * a)). set (c1 := (- b + sqrt (b * b - 4 * a * c)) / (2 * a)). assert (QR := fun x => quad_roots a b c x A ltac:(lra)). fold c0 c1 in QR.
    destruct (ltR_spec c0 x0), (ltR_spec x1 c0); cbn [orb bind]; (destruct (ltR_spec c1 x0), (ltR_spec x1 c1); cbn [orb bind app]; eexists; (split; [reflexivity|]); intros x; rewrite QR; cbn [In]; (split; [intros H; repeat (destruct H as [H|H]; [subst x; split; [lra|auto]|]); destruct H | intros (H & [-> | ->]); try lra; auto])).
Qed.
Lemma Linear_wrong : forall x0 x1 b c l, b <> 0 -> c <> 0 -> RootsInRange_QuadraticPolynomial x0 x1 0 b c = Some l -> forall x, In x l -> b * x + c <> 0.
Proof.
  intros x0 x1 b c l B C H x I. unfold RootsInRange_QuadraticPolynomial in H. destruct (ltR x1 x0); [discriminate|]. cbn [negb assertb bind] in H. cbv zeta in H. destruct (ltR_spec (b * b - 4 * 0 * c) 0); [nra|]. destruct (eqR_spec 0 0); [|contradiction]. destruct (eqR_spec b 0); [contradiction|]. unfold div in H. destruct (eqR_spec b 0); [contradiction|]. cbn [bind] in H.
  destruct (_ || _); injection H as <-; [|destruct I]. destruct I as [<-|[]]. replace (b * (c / b) + c) with (2 * c) by (field; auto). lra.
Qed.
(** bisection *)
Lemma poly_cont : forall a, continuity (poly a).
Proof.
  induction a as [|c a IH].
  - intros x. apply continuity_pt_const. intros u v. reflexivity.
  - intros x. apply (continuity_pt_locally_ext (fun x => c + x * poly a x) _ 1); [lra|intros; symmetry; apply poly_cons|]. apply (continuity_pt_plus (fun _ => c) (fun x => x * poly a x)); [apply continuity_pt_const; intros u v; auto|]. apply (continuity_pt_mult (fun x => x) (poly a)); [apply derivable_continuous_pt, derivable_pt_id|apply IH].
Qed.
Lemma root_between : forall a u v, poly a u * poly a v < 0 -> exists r, Rmin u v <= r <= Rmax u v /\ poly a r = 0.
Proof.
  assert (W : forall a u v, u < v -> poly a u * poly a v < 0 -> exists r, u <= r <= v /\ poly a r = 0).
  { intros a u v UV H. destruct (Rlt_le_dec (poly a u) 0) as [N|N].
    - destruct (IVT (poly a) u v (poly_cont a) UV N ltac:(nra)) as (r & R1 & R2). eauto.
    - assert (P : 0 < poly a u) by (destruct N as [N|N]; [auto|rewrite <- N in H; lra]). destruct (IVT (fun x => - poly a x) u v ltac:(apply continuity_opp, poly_cont) UV ltac:(lra) ltac:(nra)) as (r & R1 & R2). exists r. split; auto. lra. }
  intros a u v H. destruct (Rtotal_order u v) as [L|[->|L]]; [|assert (P := Rle_0_sqr (poly a v)); unfold Rsqr in P; lra|].
  - rewrite Rmin_left, Rmax_right by lra. apply W; auto.
  - rewrite Rmin_right, Rmax_left by lra. apply W; auto. lra.
Qed.

(** one step of the bracket *)
Definition bstep (a : list R) (s : R * R * R * R) : R * R * R * R :=
  let '(x0, x1, fx0, fx1) := s in let x2 := (x0 + x1) / 2 in let fx2 := poly a x2 in if ltR (fx1 * fx2) 0 then (x1, x2, fx1, fx2) else (x0, x2, fx0, fx2).
Lemma iter_r : forall {A} m (f : A -> A) s, Nat.iter (S m) f s = Nat.iter m f (f s).
Proof. intros A m f s. induction m as [|m IH]; auto. cbn [Nat.iter nat_rect] in *. change (nat_rect _ s (fun _ => f) m) with (Nat.iter m f s) in *. change (nat_rect _ (f s) (fun _ => f) m) with (Nat.iter m f (f s)) in *. rewrite <- IH. auto. Qed.
Lemma Bisection_eq : forall l r a m, a <> [] -> RootInInterval_Bisection l r a (length a) m =
  (assertb (negb (ltR 0 (poly a l * poly a r))) ;;; let '(x0, x1, fx0, fx1) := Nat.iter m (bstep a) (l, r, poly a l, poly a r) in div (x0 * fx1 - x1 * fx0) (fx1 - fx0)).
Proof.
  intros l r a m N. unfold RootInInterval_Bisection. cbv zeta. rewrite !Eval_ok by auto. cbn [bind]. destruct (assertb _); auto. cbn [bind].
  assert (W : forall m s, forn_ m 0 (fun (_ : nat) '(x0, x1, fx0, fx1) => fx2 <- Eval_Polynomial ((x0 + x1) / 2) a (length a) ;; if ltR (fx1 * fx2) 0 then Some (x1, (x0 + x1) / 2, fx1, fx2) else Some (x0, (x0 + x1) / 2, fx0, fx2)) s = Some (Nat.iter m (bstep a) s)).
  { clear m. assert (W : forall m k s, forn_ m k (fun (_ : nat) '(x0, x1, fx0, fx1) => fx2 <- Eval_Polynomial ((x0 + x1) / 2) a (length a) ;; if ltR (fx1 * fx2) 0 then Some (x1, (x0 + x1) / 2, fx1, fx2) else Some (x0, (x0 + x1) / 2, fx0, fx2)) s = Some (Nat.iter m (bstep a) s)); [|intros; apply W].
    induction m as [|m IH]; intros k s; cbn [forn_]; auto. destruct s as [[[x0 x1] f0] f1]. rewrite Eval_ok by auto. cbn [bind].
    replace (if ltR (f1 * poly a ((x0 + x1) / 2)) 0 then Some (x1, (x0 + x1) / 2, f1, poly a ((x0 + x1) / 2)) else Some (x0, (x0 + x1) / 2, f0, poly a ((x0 + x1) / 2))) with (Some (bstep a (x0, x1, f0, f1))) by (unfold bstep; destruct (ltR _ 0); auto). cbn [bind]. rewrite IH. f_equal. symmetry. apply iter_r. }
  unfold forn. rewrite Nat.sub_0_r. rewrite W. cbn [bind]. destruct (Nat.iter m (bstep a) (l, r, poly a l, poly a r)) as [[[x0 x1] f0] f1]. auto.
Qed.

(** the bracket keeps a sign change as long as no midpoint is a root *)
Definition nodyadic (a : list R) (l r : R) : Prop := forall k j : nat, (j <= 2 ^ k)%nat -> poly a (l + (r - l) * INR j / 2 ^ k) <> 0.
Definition binv (a : list R) (l r : R) (m : nat) (s : R * R * R * R) : Prop :=
  let '(x0, x1, f0, f1) := s in f0 = poly a x0 /\ f1 = poly a x1 /\ f0 * f1 < 0 /\
  exists j0 j1 : nat, (j0 <= 2 ^ m)%nat /\ (j1 <= 2 ^ m)%nat /\ (j0 = S j1 \/ j1 = S j0) /\ x0 = l + (r - l) * INR j0 / 2 ^ m /\ x1 = l + (r - l) * INR j1 / 2 ^ m.
Lemma binv_iter : forall a l r m, nodyadic a l r -> poly a l * poly a r < 0 -> binv a l r m (Nat.iter m (bstep a) (l, r, poly a l, poly a r)).
Proof.
  intros a l r m ND H. induction m as [|m IH].
  - cbn [Nat.iter]. repeat split; auto. exists 0%nat, 1%nat. cbn [Nat.pow pow INR]. repeat split; auto; lra.
  - cbn [Nat.iter nat_rect]. change (nat_rect _ _ _ m) with (Nat.iter m (bstep a) (l, r, poly a l, poly a r)) in *. destruct (Nat.iter m (bstep a) (l, r, poly a l, poly a r)) as [[[x0 x1] f0] f1]. destruct IH as (F0 & F1 & SG & j0 & j1 & J0 & J1 & A & X0 & X1). unfold bstep.
    assert (P2 : (2 ^ S m = 2 * 2 ^ m)%nat) by (cbn [Nat.pow]; lia). assert (N2 : 2 ^ m <> 0) by (apply pow_nonzero; lra).
    assert (MID : (x0 + x1) / 2 = l + (r - l) * INR (j0 + j1) / 2 ^ S m) by (rewrite X0, X1, plus_INR; cbn [pow]; field; auto).
    assert (E0 : x0 = l + (r - l) * INR (2 * j0) / 2 ^ S m) by (rewrite X0, mult_INR; cbn [pow INR]; field; auto).
    assert (E1 : x1 = l + (r - l) * INR (2 * j1) / 2 ^ S m) by (rewrite X1, mult_INR; cbn [pow INR]; field; auto).
    assert (NZ : poly a ((x0 + x1) / 2) <> 0) by (rewrite MID; apply ND; lia).
    set (f2 := poly a ((x0 + x1) / 2)) in *. destruct (ltR_spec (f1 * f2) 0) as [Q|Q].
    + repeat split; auto. exists (2 * j1)%nat, (j0 + j1)%nat. repeat split; auto; lia.
    + repeat split; auto.
      * assert (f1 <> 0) by (intros Z; rewrite Z in SG; lra). assert (0 < f1 * f2) by (destruct (Rtotal_order (f1 * f2) 0) as [|[E|]]; [lra| |lra]; apply Rmult_integral in E; destruct E; contradiction).
        assert (0 < f1 * f1) by (destruct (Rtotal_order f1 0) as [|[|]]; nra). nra.
      * exists (2 * j0)%nat, (j0 + j1)%nat. repeat split; auto; lia.
Qed.
Lemma secant_between : forall x0 x1 f0 f1, f0 * f1 < 0 -> Rmin x0 x1 <= (x0 * f1 - x1 * f0) / (f1 - f0) <= Rmax x0 x1.
Proof.
  intros x0 x1 f0 f1 H. assert (D : f1 - f0 <> 0) by nra. set (t := f1 / (f1 - f0)). assert (T : 0 <= t <= 1).
  { assert (E : t * (f1 - f0) = f1) by (unfold t; field; auto). destruct (Rtotal_order f1 0) as [L|[L|L]]; [|rewrite L in H; lra|]; assert (f0 <> 0) by (intros Z; rewrite Z in H; lra); split; nra. }
  replace ((x0 * f1 - x1 * f0) / (f1 - f0)) with (x0 * t + x1 * (1 - t)) by (unfold t; field; auto). unfold Rmin, Rmax. destruct (Rle_dec x0 x1); nra.
Qed.
