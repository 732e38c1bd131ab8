(** The straight rod in space. *)
From Coq Require Import List Arith Bool Reals Lra Lia.
Import ListNotations.
From Verif Require Import PrModel MeasSpec EnerModel EnerSpec EnerProofs1 EnerProofs2.
Open Scope R_scope.

(** The directions of the two segments, and the tangent. *)
Definition has_rate (f : R -> vec) (t : R) (f' : vec) : Prop := forall d, (d < 3)%nat -> derivable_pt_lim (fun s => f s d) t (f' d).
Definition dir_rate (u e : vec) (l : R) : vec := fun d => (e d - u d * Dot3 u e) / l.
Definition tan_rate (c : R) (u0 u2 t a b : vec) : vec := fun d => (Cross a u2 d + Cross u0 b d - t d * (Dot3 a u2 + Dot3 u0 b)) / c.
Ltac three H := let h0 := fresh in let h1 := fresh in let h2 := fresh in pose proof (H 0%nat ltac:(lia)) as h0; pose proof (H 1%nat ltac:(lia)) as h1; pose proof (H 2%nat ltac:(lia)) as h2; cbv beta in h0, h1, h2.

Lemma rate_cos : forall (u0 u2 : R -> vec) x a b, has_rate u0 x a -> has_rate u2 x b -> derivable_pt_lim (fun s => 1 + Dot3 (u0 s) (u2 s)) x (Dot3 a (u2 x) + Dot3 (u0 x) b).
Proof. intros u0 u2 x a b A B. three A. three B. unfold Dot3. eapply rate_eq; [rt|]. ring. Qed.
Lemma rate_cross : forall (u0 u2 : R -> vec) x a b, has_rate u0 x a -> has_rate u2 x b -> has_rate (fun s => Cross (u0 s) (u2 s)) x (fun d => Cross a (u2 x) d + Cross (u0 x) b d).
Proof. intros u0 u2 x a b A B d D. three A. three B. unfold Cross. cases3 d D; cbn [nth]; (eapply rate_eq; [rt|]; ring). Qed.
Lemma rate_tan : forall (u0 u2 : R -> vec) x a b, has_rate u0 x a -> has_rate u2 x b -> NEARLY_ZERO < 1 + Dot3 (u0 x) (u2 x) ->
  has_rate (fun s d => sdiv (Cross (u0 s) (u2 s) d) (1 + Dot3 (u0 s) (u2 s))) x
    (tan_rate (1 + Dot3 (u0 x) (u2 x)) (u0 x) (u2 x) (fun d => sdiv (Cross (u0 x) (u2 x) d) (1 + Dot3 (u0 x) (u2 x))) a b).
Proof.
  intros u0 u2 x a b A B P d D. pose proof near_pos. pose proof (rate_cos _ _ _ _ _ A B) as C. pose proof (rate_cross _ _ _ _ _ A B d D) as X. cbv beta in X.
  eapply rate_eq; [rt; auto|]. unfold tan_rate. rewrite sdiv_big by auto. set (c := 1 + _) in *. clearbody c. field. lra.
Qed.
Lemma rate_segment : forall (c : R -> conf) x v i j, moves 3 3 c x v -> (i < 3)%nat -> (j < 3)%nat -> NEARLY_ZERO < Length3 (vsub (c x j) (c x i)) ->
  has_rate (fun s d => sdiv (c s j d - c s i d) (Length3 (vsub (c s j) (c s i)))) x
    (dir_rate (fun d => sdiv (c x j d - c x i d) (Length3 (vsub (c x j) (c x i)))) (vsub (v j) (v i)) (Length3 (vsub (c x j) (c x i)))) /\
  derivable_pt_lim (fun s => Length3 (vsub (c s j) (c s i))) x (Dot3 (fun d => sdiv (c x j d - c x i d) (Length3 (vsub (c x j) (c x i)))) (vsub (v j) (v i))).
Proof.
  intros c x v i j M I J P. pose proof near_pos.
  assert (D : forall d, (d < 3)%nat -> derivable_pt_lim (fun s => vsub (c s j) (c s i) d) x (vsub (v j) (v i) d)) by (intros d D; unfold vsub; pose proof (M i d I D); pose proof (M j d J D); rt).
  split.
  - intros d L. exact (rate_dir (fun s => vsub (c s j) (c s i)) _ x D P d L).
  - eapply rate_eq; [apply (rate_len (fun s => vsub (c s j) (c s i)) _ x D); lra|]. unfold Dot3. rewrite !sdiv_big by auto. unfold vsub. field. fold (vsub (c x j) (c x i)). lra.
Qed.
Definition rod3_ok (p : conf) : Prop :=
  let u0 := fun d => sdiv (p 1%nat d - p 0%nat d) (Length3 (vsub (p 1%nat) (p 0%nat))) in
  let u2 := fun d => sdiv (p 2%nat d - p 1%nat d) (Length3 (vsub (p 2%nat) (p 1%nat))) in
  NEARLY_ZERO < Length3 (vsub (p 1%nat) (p 0%nat)) /\ NEARLY_ZERO < Length3 (vsub (p 2%nat) (p 1%nat)) /\ NEARLY_ZERO < 1 + Dot3 u0 u2.

Lemma rod3_cg : forall p k, (k < 3)%nat -> rod3_ok p -> is_gradient 3 3 (fun q => fst (CdC_Rod3BendStraight q) k) p (snd (CdC_Rod3BendStraight p) k).
Proof.
  intros p k K (P0 & P2 & PC) c x v E M. subst p. pose proof near_pos.
  destruct (rate_segment c x v 0 1 M ltac:(lia) ltac:(lia) P0) as [U0 L0]. destruct (rate_segment c x v 1 2 M ltac:(lia) ltac:(lia) P2) as [U2 L2].
  pose proof (rate_tan _ _ _ _ _ U0 U2 PC k K) as T. cbv beta in T.
  eapply rate_eq; [exact T|]. rewrite power_3_3. cbn [CdC_Rod3BendStraight rod3_C fst snd nth]. change (fun d => sdiv (vsub ?a ?b d) ?l) with (fun d => sdiv (a d - b d) l).
  clear U0 U2 T L0 L2. cbv zeta in PC.
  set (u0 := fun d => sdiv (c x 1%nat d - c x 0%nat d) _) in *. set (u2 := fun d => sdiv (c x 2%nat d - c x 1%nat d) _) in *. clearbody u0 u2.
  set (tn := fun d => sdiv (Cross u0 u2 d) (1 + Dot3 u0 u2)). clearbody tn. set (cc := 1 + Dot3 u0 u2) in *. clearbody cc.
  set (l0 := Length3 (vsub (c x 1%nat) (c x 0%nat))) in *. set (l2 := Length3 (vsub (c x 2%nat) (c x 1%nat))) in *. clearbody l0 l2.
  unfold tan_rate, dir_rate, mmul, mdiv, msub, mneg, ident, op, Skew, Cross, Dot3, vsub.
  cases3 k K; cbn [nth Nat.eqb]; field; repeat split; lra.
Qed.

(** The energy. *)
Definition D0 (l : R) (u : vec) : mat := mdiv (mneg (msub (ident 1) (op u u))) l.
Definition D2 (l : R) (u : vec) : mat := mdiv (msub (ident 1) (op u u)) l.
Definition A0 (c : R) (u2 t : vec) : mat := mdiv (msub (mneg (Skew u2)) (op t u2)) c.
Definition A2 (c : R) (u0 t : vec) : mat := mdiv (msub (Skew u0) (op t u0)) c.
Definition T00 (c : R) (u2 t : vec) : mat := madd (madd (mdiv (mmul (mneg (Skew u2)) (op t u2)) (c * c)) (mdiv (mmul (op u2 t) (Skew u2)) (c * c)))
    (mdiv (mscale (mscale (op u2 u2) 2) (Dot3 t t)) (c * c)).
Definition T20 (c : R) (u0 u2 t : vec) : mat := madd (madd (madd (msub (mdiv (mneg (Skew t)) c) (mscale (ident 1) (Dot3 t t / c))) (mdiv (mmul (Skew t) (op u2 u0)) (c * c)))
    (mdiv (mmul (op u2 u0) (Skew t)) (c * c))) (mdiv (mscale (mscale (op u2 u0) 2) (Dot3 t t)) (c * c)).
Definition T22 (c : R) (u0 t : vec) : mat := madd (msub (mdiv (mmul (Skew u0) (op t u0)) (c * c)) (mdiv (mmul (op u0 t) (Skew u0)) (c * c)))
    (mdiv (mscale (mscale (op u0 u0) 2) (Dot3 t t)) (c * c)).
Definition XX (l : R) (u x : vec) : mat := mdiv (msub (msub (msub (mscale (mscale (op u u) 3) (Dot3 u x)) (op x u)) (op u x)) (mscale (ident 1) (Dot3 u x))) (l * l).
Definition mv (A : mat) (a : vec) : vec := fun i => A i 0%nat * a 0%nat + A i 1%nat * a 1%nat + A i 2%nat * a 2%nat.

Ltac open3 := unfold A0, A2, T00, T20, T22, XX, D0, D2, mv, vmat, tan_rate, dir_rate, mmul, mdiv, madd, msub, mneg, mscale, mtr, ident, op, Skew, Cross, Dot3; cbn [nth Nat.eqb].
Lemma rate_X0 : forall (c : R -> R) (u0 u2 t : R -> vec) x a b, has_rate u2 x b -> c x <> 0 ->
  derivable_pt_lim c x (Dot3 a (u2 x) + Dot3 (u0 x) b) -> has_rate t x (tan_rate (c x) (u0 x) (u2 x) (t x) a b) ->
  has_rate (fun s => vmat (t s) (A0 (c s) (u2 s) (t s))) x (fun j =>
    mv (madd (mmul (mtr (A0 (c x) (u2 x) (t x))) (A0 (c x) (u2 x) (t x))) (T00 (c x) (u2 x) (t x))) a j +
    mv (madd (mmul (mtr (A0 (c x) (u2 x) (t x))) (A2 (c x) (u0 x) (t x))) (T20 (c x) (u0 x) (u2 x) (t x))) b j).
Proof.
  intros c u0 u2 t x a b B N C T j J. three B. three T.
  cases3 j J; (eapply rate_eq; [open3; rt; auto|]);
    clear - N; open3; field; auto.
Qed.
Lemma rate_X2 : forall (c : R -> R) (u0 u2 t : R -> vec) x a b, has_rate u0 x a -> c x <> 0 ->
  derivable_pt_lim c x (Dot3 a (u2 x) + Dot3 (u0 x) b) -> has_rate t x (tan_rate (c x) (u0 x) (u2 x) (t x) a b) ->
  has_rate (fun s => vmat (t s) (A2 (c s) (u0 s) (t s))) x (fun j =>
    mv (mtr (madd (mmul (mtr (A0 (c x) (u2 x) (t x))) (A2 (c x) (u0 x) (t x))) (T20 (c x) (u0 x) (u2 x) (t x)))) a j +
    mv (madd (mmul (mtr (A2 (c x) (u0 x) (t x))) (A2 (c x) (u0 x) (t x))) (T22 (c x) (u0 x) (t x))) b j).
Proof.
  intros c u0 u2 t x a b B N C T j J. three B. three T.
  cases3 j J; (eapply rate_eq; [open3; rt; auto|]);
    clear - N; open3; field; auto.
Qed.
Lemma rate_D2 : forall (l : R -> R) (u y : R -> vec) x e y', has_rate y x y' -> l x <> 0 -> derivable_pt_lim l x (Dot3 (u x) e) -> has_rate u x (dir_rate (u x) e (l x)) ->
  has_rate (fun s => vmat (y s) (D2 (l s) (u s))) x (fun j => vmat y' (D2 (l x) (u x)) j + mv (XX (l x) (u x) (y x)) e j).
Proof.
  intros l u y x e y' Y N L U j J. three Y. three U.
  cases3 j J; (eapply rate_eq; [open3; rt; auto|]);
    clear - N; open3; field; auto.
Qed.
Lemma rate_D0 : forall (l : R -> R) (u y : R -> vec) x e y', has_rate y x y' -> l x <> 0 -> derivable_pt_lim l x (Dot3 (u x) e) -> has_rate u x (dir_rate (u x) e (l x)) ->
  has_rate (fun s => vmat (y s) (D0 (l s) (u s))) x (fun j => vmat y' (D0 (l x) (u x)) j - mv (XX (l x) (u x) (y x)) e j).
Proof.
  intros l u y x e y' Y N L U j J. three Y. three U.
  cases3 j J; (eapply rate_eq; [open3; rt; auto|]);
    clear - N; open3; field; auto.
Qed.

(** The second derivative in terms of the pieces. *)
Definition H00 (l0 c : R) (u0 u2 t : vec) : mat :=
  madd (madd (mmul (mmul (mmul (mtr (D0 l0 u0)) (mtr (A0 c u2 t))) (A0 c u2 t)) (D0 l0 u0)) (mmul (mmul (mtr (D0 l0 u0)) (T00 c u2 t)) (D0 l0 u0))) (XX l0 u0 (vmat t (A0 c u2 t))).
Definition H20 (l0 l2 c : R) (u0 u2 t : vec) : mat :=
  madd (mmul (mmul (mmul (mtr (D2 l2 u2)) (mtr (A2 c u0 t))) (A0 c u2 t)) (D0 l0 u0)) (mmul (mmul (mtr (D2 l2 u2)) (mtr (T20 c u0 u2 t))) (D0 l0 u0)).
Definition H22 (l2 c : R) (u0 u2 t : vec) : mat :=
  madd (madd (mmul (mmul (mmul (mtr (D2 l2 u2)) (mtr (A2 c u0 t))) (A2 c u0 t)) (D2 l2 u2)) (mmul (mmul (mtr (D2 l2 u2)) (T22 c u0 t)) (D2 l2 u2))) (XX l2 u2 (vmat t (A2 c u0 t))).
Definition rows (H00 H20 H22 : mat) : hess :=
  let H02 := mtr H20 in let H01 := mneg (madd H00 H02) in let H10 := mtr H01 in let H21 := mneg (madd H20 H22) in let H12 := mtr H21 in let H11 := mneg (madd H10 H12) in
  fun i j => nth j (nth i [[H00; H01; H02]; [H10; H11; H12]; [H20; H21; H22]] []) (fun _ _ => 0).
Lemma rod3_rows : forall l0 l2 c u0 u2 t, snd (rod3_ddW l0 l2 c u0 u2 t) = rows (H00 l0 c u0 u2 t) (H20 l0 l2 c u0 u2 t) (H22 l2 c u0 u2 t).
Proof. reflexivity. Qed.
Definition grow (l0 l2 c : R) (u0 u2 t : vec) : conf :=
  let g0 := vmat (vmat t (A0 c u2 t)) (D0 l0 u0) in let g2 := vmat (vmat t (A2 c u0 t)) (D2 l2 u2) in
  fun i => nth i [g0; (fun d => - (g0 d + g2 d)); g2] (fun _ => 0).
Lemma rod3_grow : forall l0 l2 c u0 u2 t, snd (fst (rod3_ddW l0 l2 c u0 u2 t)) = grow l0 l2 c u0 u2 t.
Proof. reflexivity. Qed.

Definition sym3 (A : mat) : Prop := forall d e, (d < 3)%nat -> (e < 3)%nat -> A d e = A e d.
Lemma sym_XX : forall l u x, sym3 (XX l u x).
Proof. intros l u x d e D E. unfold XX, mdiv, msub, mscale, op, ident. rewrite (Nat.eqb_sym d e). destruct (Nat.eqb e d); f_equal; ring. Qed.
Lemma sym_T00 : forall c u2 t, c <> 0 -> sym3 (T00 c u2 t).
Proof. intros c u2 t N d e D E. cases3 d D; cases3 e E; open3; field; auto. Qed.
Lemma sym_T22 : forall c u0 t, c <> 0 -> sym3 (T22 c u0 t).
Proof. intros c u0 t N d e D E. cases3 d D; cases3 e E; open3; field; auto. Qed.
Lemma sym_sand : forall D A T X, sym3 T -> sym3 X -> sym3 (madd (madd (mmul (mmul (mmul (mtr D) (mtr A)) A) D) (mmul (mmul (mtr D) T) D)) X).
Proof.
  intros D A T X ST SX d e Dd E. unfold madd. rewrite (SX d e Dd E). f_equal.
  pose proof (ST 0%nat 1%nat ltac:(lia) ltac:(lia)) as E1. pose proof (ST 0%nat 2%nat ltac:(lia) ltac:(lia)) as E2. pose proof (ST 1%nat 2%nat ltac:(lia) ltac:(lia)) as E3.
  unfold mmul, mtr. rewrite E1, E2, E3. ring.
Qed.
Lemma rows_sym : forall A B C, sym3 A -> sym3 C -> symmetric 3 3 (rows A B C).
Proof.
  intros A B C SA SC i j d e I J D E.
  cases3 i I; cases3 j J; cbn [rows nth]; unfold mtr, mneg, madd, mtr; rewrite ?(SA e d), ?(SC e d) by auto; try ring; auto.
Qed.
Lemma rows_apply : forall A B C (v : conf) d, (d < 3)%nat -> sym3 A -> sym3 C ->
  let e0 := vsub (v 1%nat) (v 0%nat) in let e2 := vsub (v 2%nat) (v 1%nat) in
  let r0 := - mv A e0 d + mv (mtr B) e2 d in let r2 := - mv B e0 d + mv C e2 d in
  power 3 3 (fun j f => rows A B C 0%nat j d f) v = r0 /\ power 3 3 (fun j f => rows A B C 1%nat j d f) v = - (r0 + r2) /\ power 3 3 (fun j f => rows A B C 2%nat j d f) v = r2.
Proof.
  intros A B C v d D SA SC. cbv zeta. rewrite !power_3_3. cbn [rows nth]. unfold mv, vsub.
  repeat split; unfold mtr, mneg, madd, mtr; rewrite ?(SA 0%nat d), ?(SA 1%nat d), ?(SA 2%nat d), ?(SC 0%nat d), ?(SC 1%nat d), ?(SC 2%nat d) by (auto; lia); ring.
Qed.
Lemma sand0 : forall (D A T X : mat) (D2 A2 T2 : mat) e0 e2 j, (j < 3)%nat ->
  vmat (fun k => mv (madd (mmul (mtr A) A) T) (fun m => - mv D e0 m) k + mv (madd (mmul (mtr A) A2) T2) (mv D2 e2) k) D j - mv X e0 j =
  - mv (madd (madd (mmul (mmul (mmul (mtr D) (mtr A)) A) D) (mmul (mmul (mtr D) T) D)) X) e0 j +
    mv (mtr (madd (mmul (mmul (mmul (mtr D2) (mtr A2)) A) D) (mmul (mmul (mtr D2) (mtr T2)) D))) e2 j.
Proof. intros. unfold vmat, mv, madd, mmul, mtr. ring. Qed.
Lemma sand2 : forall (D A T X : mat) (D2 A2 T2 : mat) e0 e2 j, (j < 3)%nat ->
  vmat (fun k => mv (mtr (madd (mmul (mtr A) A2) T2)) (fun m => - mv D e0 m) k + mv (madd (mmul (mtr A2) A2) T) (mv D2 e2) k) D2 j + mv X e2 j =
  - mv (madd (mmul (mmul (mmul (mtr D2) (mtr A2)) A) D) (mmul (mmul (mtr D2) (mtr T2)) D)) e0 j +
    mv (madd (madd (mmul (mmul (mmul (mtr D2) (mtr A2)) A2) D2) (mmul (mmul (mtr D2) T) D2)) X) e2 j.
Proof. intros. unfold vmat, mv, madd, mmul, mtr. ring. Qed.
Lemma dir_D0 : forall l u e d, l <> 0 -> (d < 3)%nat -> dir_rate u e l d = - mv (D0 l u) e d.
Proof. intros l u e d N D. cases3 d D; open3; field; auto. Qed.
Lemma dir_D2 : forall l u e d, l <> 0 -> (d < 3)%nat -> dir_rate u e l d = mv (D2 l u) e d.
Proof. intros l u e d N D. cases3 d D; open3; field; auto. Qed.
