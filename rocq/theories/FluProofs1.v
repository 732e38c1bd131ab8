(** Arrays, loops over cells, and sweeps of Gauss and Seidel. *)
From Coq Require Import List Arith Bool ZArith Reals Lra Lia.
Import ListNotations.
From Verif Require Import Imp PrModel ProxModel GjkProofs1 MeasSpec MeasProofs2 MeasProofs3 BspProofs1 BspProofs2 FluModel FluSpec.
Open Scope R_scope.

Lemma idx_inj : forall n i j k l, (i < n)%nat -> (k < n)%nat -> (i + n * j = k + n * l)%nat -> i = k /\ j = l.
Proof. intros n i j k l I K E. assert (j = l). { destruct (Nat.lt_trichotomy j l) as [H|[H|H]]; auto; exfalso; nia. } subst. split; lia. Qed.
Lemma idx_lt : forall ni nj i j, (i < ni)%nat -> (j < nj)%nat -> (i + ni * j < ni * nj)%nat. Proof. intros. nia. Qed.

Lemma has_size_ok : forall T (a : array2 T) ni nj, sized a ni nj -> has_size a ni nj = true.
Proof. intros T a ni nj (A & B & _). unfold has_size. rewrite A, B, !Nat.eqb_refl. reflexivity. Qed.
Lemma at2_ok : forall T (z : T) a ni nj i j, sized a ni nj -> (i < ni)%nat -> (j < nj)%nat -> at2 a i j = Some (cell z a i j).
Proof. intros T z a ni nj i j (A & B & L) I J. unfold at2, cell. rewrite A, B, (proj2 (Nat.ltb_lt i ni)), (proj2 (Nat.ltb_lt j nj)) by auto. cbn [andb assertb bind]. apply vget_nth. rewrite L. apply idx_lt; auto. Qed.
Lemma put2_ok : forall T (z : T) a ni nj i j x, sized a ni nj -> (i < ni)%nat -> (j < nj)%nat -> exists b, put2 a i j x = Some b /\ sized b ni nj /\
  forall k l, (k < ni)%nat -> (l < nj)%nat -> cell z b k l = if ((k =? i) && (l =? j))%nat then x else cell z a k l.
Proof.
  intros T z a ni nj i j x (A & B & L) I J. unfold put2. rewrite A, B, (proj2 (Nat.ltb_lt i ni)), (proj2 (Nat.ltb_lt j nj)) by auto. cbn [andb assertb bind]. rewrite vset_upd by (rewrite L; apply idx_lt; auto). cbn [bind]. eexists. split; [reflexivity|]. split; [split; [auto|split; [auto|cbn; rewrite upd_length; auto]]|].
  intros k l K M. unfold cell. cbn [a_ni a_v]. rewrite nth_upd by (rewrite L; apply idx_lt; auto). rewrite A. destruct (Nat.eq_dec (i + ni * j) (k + ni * l)) as [E|E].
  - apply idx_inj in E; auto. destruct E; subst. rewrite !Nat.eqb_refl. reflexivity.
  - destruct (Nat.eqb_spec k i); destruct (Nat.eqb_spec l j); auto. subst. congruence.
Qed.
Lemma fetch2_ok : forall T (z : T) a ni nj i j k l, sized a ni nj -> (0 < ni)%nat -> (0 < nj)%nat -> k = Z.to_nat (myclamp i 0 (Z.of_nat ni - 1)) -> l = Z.to_nat (myclamp j 0 (Z.of_nat nj - 1)) -> fetch2 a i j = Some (cell z a k l) /\ (k < ni)%nat /\ (l < nj)%nat.
Proof.
  intros T z a ni nj i j k l (A & B & L) I J K M. unfold fetch2. rewrite A, B. unfold myclamp in *. assert (k < ni)%nat by lia. assert (l < nj)%nat by lia. split; [|auto].
  replace (_ && _ && _ && _)%Z with true. 2:{ symmetry. rewrite !andb_true_iff. rewrite !Z.leb_le, !Z.ltb_lt. lia. }
  cbn [assertb bind]. rewrite <- K, <- M. unfold cell. rewrite A, (Nat.add_comm k). apply vget_nth. rewrite L, Nat.add_comm. apply idx_lt; auto.
Qed.
Lemma array_ext : forall T (z : T) a b ni nj, sized a ni nj -> sized b ni nj -> (forall i j, (i < ni)%nat -> (j < nj)%nat -> cell z a i j = cell z b i j) -> a = b.
Proof.
  intros T z [an am av] [bn bm bv] ni nj (A & B & L) (A' & B' & L') H. cbn in *. subst an am bn bm. f_equal. apply (nth_ext _ _ z z); [congruence|]. intros k K. rewrite L in K.
  assert (ni <> 0)%nat by nia. specialize (H (k mod ni)%nat (k / ni)%nat). unfold cell in H. cbn [a_ni a_v] in H. rewrite Nat.add_comm, <- Nat.div_mod in H by auto. apply H; [apply Nat.mod_upper_bound; auto|apply Nat.div_lt_upper_bound; auto; lia].
Qed.
Lemma new_sized : forall T (x : T) ni nj, sized (new_array2 ni nj x) ni nj. Proof. intros. split; [auto|split; [auto|apply repeat_length]]. Qed.
Lemma new_cell : forall T (z x : T) ni nj i j, (i < ni)%nat -> (j < nj)%nat -> cell z (new_array2 ni nj x) i j = x.
Proof. intros T z x ni nj i j I J. unfold cell, new_array2. cbn [a_ni a_v]. rewrite (nth_indep _ z x) by (rewrite repeat_length; apply idx_lt; auto). apply nth_repeat. Qed.

Lemma wp_forn2 : forall S (I : nat -> S -> Prop) lo hi f s (P : S -> Prop), I lo s -> (forall i s', (lo <= i < hi)%nat -> I i s' -> wp (f i s') (I (Datatypes.S i))) -> (forall s', I (Nat.max lo hi) s' -> P s') -> wp (forn lo hi f s) P.
Proof.
  intros S I lo hi f s P A B C. destruct (Nat.le_gt_cases lo hi) as [L|L].
  - apply wp_forn with (I := I); auto. rewrite Nat.max_r in C by auto. auto.
  - rewrite forn_zero by lia. apply wp_some. apply C. rewrite Nat.max_l by lia. auto.
Qed.

(** A loop over cells that gives each of them a new value. *)
Section FILL.
Context {T : Type} (z : T) (ni nj x0 x1 y0 y1 : nat) (ip jp : nat -> nat -> nat) (F : nat -> nat -> T -> T) (a0 : array2 T).
Definition rng (x y : nat) : Prop := (x0 <= x < x1)%nat /\ (y0 <= y < y1)%nat.
Definition filled (D : nat -> nat -> Prop) (b : array2 T) : Prop := sized b ni nj /\
  (forall x y, rng x y -> D x y -> cell z b (ip x y) (jp x y) = F x y (cell z a0 (ip x y) (jp x y))) /\
  (forall i j, (i < ni)%nat -> (j < nj)%nat -> (forall x y, rng x y -> D x y -> ~ (ip x y = i /\ jp x y = j)) -> cell z b i j = cell z a0 i j).
Hypothesis Hin : forall x y, rng x y -> (ip x y < ni)%nat /\ (jp x y < nj)%nat.
Hypothesis Hinj : forall x y x' y', rng x y -> rng x' y' -> ip x y = ip x' y' -> jp x y = jp x' y' -> x = x' /\ y = y'.
Lemma filled_step : forall D D' b x y, filled D b -> rng x y -> ~ D x y -> (forall x' y', rng x' y' -> (D' x' y' <-> D x' y' \/ x' = x /\ y' = y)) -> wp (put2 b (ip x y) (jp x y) (F x y (cell z b (ip x y) (jp x y)))) (filled D').
Proof.
  intros D D' b x y (S & A & B) R N E. destruct (Hin x y R) as (I & J). destruct (put2_ok T z b ni nj _ _ (F x y (cell z b (ip x y) (jp x y))) S I J) as (c & -> & Sc & V). apply wp_some. split; [auto|].
  assert (B0 : cell z b (ip x y) (jp x y) = cell z a0 (ip x y) (jp x y)). { apply B; auto. intros x' y' R' D0 (P & Q). destruct (Hinj x' y' x y R' R P Q); subst. auto. }
  split.
  - intros x' y' R' D0. destruct (Hin x' y' R') as (I' & J'). rewrite V by auto. apply E in D0; [|auto]. destruct (Nat.eqb_spec (ip x' y') (ip x y)) as [P|P]; destruct (Nat.eqb_spec (jp x' y') (jp x y)) as [Q|Q]; cbn [andb].
    + destruct (Hinj x' y' x y R' R P Q); subst. rewrite B0. reflexivity.
    + destruct D0 as [D0|(-> & ->)]; [apply A; auto|congruence].
    + destruct D0 as [D0|(-> & ->)]; [apply A; auto|congruence].
    + destruct D0 as [D0|(-> & ->)]; [apply A; auto|congruence].
  - intros i j I' J' H. rewrite V by auto. replace ((i =? ip x y) && (j =? jp x y))%nat with false. 2:{ symmetry. apply andb_false_iff. destruct (Nat.eqb_spec i (ip x y)) as [P|P]; [|auto]. destruct (Nat.eqb_spec j (jp x y)) as [Q|Q]; [|auto]. exfalso. apply (H x y R); [apply E; auto|auto]. }
    apply B; auto. intros x' y' R' D0. apply H; auto. apply E; auto.
Qed.
Lemma fill_ok : forall body, (forall x y b, rng x y -> sized b ni nj -> body y x b = put2 b (ip x y) (jp x y) (F x y (cell z b (ip x y) (jp x y)))) -> sized a0 ni nj ->
  wp (forn y0 y1 (fun y b => forn x0 x1 (fun x b => body y x b) b) a0) (fun b => sized b ni nj /\ (forall x y, rng x y -> cell z b (ip x y) (jp x y) = F x y (cell z a0 (ip x y) (jp x y))) /\
    (forall i j, (i < ni)%nat -> (j < nj)%nat -> (forall x y, rng x y -> ~ (ip x y = i /\ jp x y = j)) -> cell z b i j = cell z a0 i j)).
Proof.
  intros body H S. apply wp_forn2 with (I := fun y => filled (fun _ y' => (y' < y)%nat)).
  - split; [auto|]. split; [intros x y (_ & R) L; lia|auto].
  - intros y b Y Hb. apply wp_forn2 with (I := fun x => filled (fun x' y' => (y' < y)%nat \/ y' = y /\ (x' < x)%nat)).
    + destruct Hb as (Sb & A & B). split; [auto|]. split; [intros x' y' R [L|(L & M)]; [apply A; auto|destruct R; lia]|]. intros i j I J N. apply B; auto.
    + intros x b' X Hb'. rewrite H; [|split; auto|apply Hb']. apply filled_step with (D := fun x' y' => (y' < y)%nat \/ y' = y /\ (x' < x)%nat); auto; [split; auto|lia|]. intros x' y' _. lia.
    + intros b' (Sb & A & B). split; [auto|]. split; [intros x' y' R L; apply A; auto; destruct R; lia|]. intros i j I J N. apply B; auto. intros x' y' R D0. apply N; auto. lia.
  - intros b (Sb & A & B). split; [auto|]. split; [intros x y R; apply A; auto; destruct R; lia|]. intros i j I J N. apply B; auto.
Qed.
End FILL.

(** *** Gauss and Seidel *)
Lemma relax_ok : forall d s nx ny i j p, sized p nx ny -> sized d nx ny -> (i < nx)%nat -> (j < ny)%nat ->
  relax d s i j p = put2 p i j (((if (i + 1 <? nx)%nat then val p (i + 1) j else val p i j) + (if (0 <? i)%nat then val p (i - 1) j else val p i j) +
    (if (j + 1 <? ny)%nat then val p i (j + 1) else val p i j) + (if (0 <? j)%nat then val p i (j - 1) else val p i j) - val d i j * s) / 4).
Proof.
  intros d s nx ny i j p P D I J. unfold relax, val. assert (Fc : forall x y k l, k = Z.to_nat (myclamp x 0 (Z.of_nat nx - 1)) -> l = Z.to_nat (myclamp y 0 (Z.of_nat ny - 1)) -> fetch2 p x y = Some (cell 0 p k l)) by (intros; eapply fetch2_ok; eauto; lia).
  unfold myclamp in Fc.
  rewrite (Fc _ _ (if (i + 1 <? nx)%nat then i + 1 else i)%nat j) by (try destruct (Nat.ltb_spec (i + 1) nx); lia).
  rewrite (Fc _ _ (if (0 <? i)%nat then i - 1 else i)%nat j) by (try destruct (Nat.ltb_spec 0 i); lia).
  rewrite (Fc _ _ i (if (j + 1 <? ny)%nat then j + 1 else j)%nat) by (try destruct (Nat.ltb_spec (j + 1) ny); lia).
  rewrite (Fc _ _ i (if (0 <? j)%nat then j - 1 else j)%nat) by (try destruct (Nat.ltb_spec 0 j); lia).
  cbn [bind]. rewrite (at2_ok _ 0 d nx ny) by auto. cbn [bind].
  destruct (i + 1 <? nx)%nat, (0 <? i)%nat, (j + 1 <? ny)%nat, (0 <? j)%nat; reflexivity.
Qed.
Definition before (i j i' j' : nat) : Prop := (j' < j)%nat \/ j' = j /\ (i' < i)%nat.
Definition swept (nx ny : nat) (d : array2 R) (s : R) (p : array2 R) (i j : nat) (q : array2 R) : Prop := sized q nx ny /\
  (forall i' j', (i' < nx)%nat -> (j' < ny)%nat -> ~ before i j i' j' -> val q i' j' = val p i' j') /\
  (forall i' j', (i' < nx)%nat -> (j' < ny)%nat -> before i j i' j' -> 4 * val q i' j' = (if (i' + 1 <? nx)%nat then val p (i' + 1) j' else val p i' j') + (if (0 <? i')%nat then val q (i' - 1) j' else val p i' j') +
              (if (j' + 1 <? ny)%nat then val p i' (j' + 1) else val p i' j') + (if (0 <? j')%nat then val q i' (j' - 1) else val p i' j') - val d i' j' * s).
Lemma swept_step : forall nx ny d s p i j q, sized d nx ny -> (i < nx)%nat -> (j < ny)%nat -> swept nx ny d s p i j q -> wp (relax d s i j q) (swept nx ny d s p (S i) j).
Proof.
  intros nx ny d s p i j q D I J (Q & A & B). rewrite (relax_ok d s nx ny) by auto. match goal with |- wp (put2 q i j ?x) _ => set (X := x) end. destruct (put2_ok R 0 q nx ny i j X Q I J) as (r & -> & Rs & V). apply wp_some. fold (val q) in V.
  assert (V' : forall k l, (k < nx)%nat -> (l < ny)%nat -> (k <> i \/ l <> j) -> val r k l = val q k l). { intros k l K L N. unfold val. rewrite V by auto. replace ((k =? i) && (l =? j))%nat with false; auto. symmetry. apply andb_false_iff. destruct (Nat.eqb_spec k i); destruct (Nat.eqb_spec l j); auto. lia. }
  assert (V0 : val r i j = X). { unfold val. rewrite V by auto. rewrite !Nat.eqb_refl. reflexivity. }
  split; [auto|]. split.
  - intros k l K L N. unfold before in N. rewrite V' by (auto; lia). apply A; auto. unfold before. lia.
  - intros k l K L N. destruct (Nat.eq_dec k i) as [->|Nk]; [destruct (Nat.eq_dec l j) as [->|Nl]|].
    + rewrite V0. unfold X. rewrite (A i j) by (auto; unfold before; lia).
      replace (if (i + 1 <? nx)%nat then val q (i + 1) j else val p i j) with (if (i + 1 <? nx)%nat then val p (i + 1) j else val p i j). 2:{ destruct (Nat.ltb_spec (i + 1) nx); auto. symmetry. apply A; auto. unfold before. lia. }
      replace (if (j + 1 <? ny)%nat then val q i (j + 1) else val p i j) with (if (j + 1 <? ny)%nat then val p i (j + 1) else val p i j). 2:{ destruct (Nat.ltb_spec (j + 1) ny); auto. symmetry. apply A; auto. unfold before. lia. }
      replace (if (0 <? i)%nat then val r (i - 1) j else val p i j) with (if (0 <? i)%nat then val q (i - 1) j else val p i j). 2:{ destruct (Nat.ltb_spec 0 i); auto. symmetry. apply V'; lia. }
      replace (if (0 <? j)%nat then val r i (j - 1) else val p i j) with (if (0 <? j)%nat then val q i (j - 1) else val p i j). 2:{ destruct (Nat.ltb_spec 0 j); auto. symmetry. apply V'; lia. }
      field.
    + unfold before in N. rewrite V' by (auto; lia). rewrite B by (auto; unfold before; lia). f_equal. f_equal; [f_equal; f_equal|].
      * destruct (Nat.ltb_spec 0 i); auto. symmetry. apply V'; lia.
      * destruct (Nat.ltb_spec 0 l); auto. symmetry. apply V'; lia.
    + unfold before in N. rewrite V' by (auto; lia). rewrite B by (auto; unfold before; lia). f_equal. f_equal; [f_equal; f_equal|].
      * destruct (Nat.ltb_spec 0 k); auto. symmetry. apply V'; lia.
      * destruct (Nat.ltb_spec 0 l); auto. symmetry. apply V'; lia.
Qed.
Lemma sweep_ok : forall nx ny d s p, sized d nx ny -> sized p nx ny -> wp (forn 0 ny (fun j p => forn 0 nx (fun i p => relax d s i j p) p) p) (fun q => sized q nx ny /\ sweep nx ny (val d) s (val p) (val q)).
Proof.
  intros nx ny d s p D P. apply wp_forn with (I := fun j => swept nx ny d s p 0 j); [lia| | |].
  - split; [auto|]. split; [auto|]. intros i' j' _ _ [L|(_ & L)]; lia.
  - intros j q J Q. apply wp_forn with (I := fun i => swept nx ny d s p i j); [lia|auto| |].
    + intros i q' I Q'. apply swept_step; auto; lia.
    + intros q' (S0 & A & B). split; [auto|]. split; intros i' j' I' J' N; [apply A|apply B]; auto; unfold before in *; lia.
  - intros q (S0 & A & B). split; [auto|]. intros i j I J. apply B; auto. unfold before. lia.
Qed.
Lemma forn_snoc : forall S n (f : nat -> S -> option S) s, forn 0 (Datatypes.S n) f s = (x <- forn 0 n f s ;; f n x).
Proof.
  intros S n f s. unfold forn. rewrite !Nat.sub_0_r. change (f n) with (f (0 + n)%nat). generalize 0%nat. revert s. induction n; intros s k; cbn [forn_].
  - rewrite Nat.add_0_r. cbn [bind]. destruct (f k s); reflexivity.
  - cbn [forn_] in IHn. destruct (f k s) as [x|]; cbn [bind]; auto. rewrite IHn. replace (k + Datatypes.S n)%nat with (Datatypes.S k + n)%nat by lia. reflexivity.
Qed.
Lemma solver_chain : forall nx ny d s p n, sized d nx ny -> sized p nx ny -> exists f q, SolvePoissionEquationOnGrid2ByGaussSeidelMethod p d s nx ny n = Some q /\ f 0%nat = p /\ f n = q /\ (forall k, sized (f k) nx ny) /\ forall k, (k < n)%nat -> sweep nx ny (val d) s (val (f k)) (val (f (S k))).
Proof.
  intros nx ny d s p n D P. unfold SolvePoissionEquationOnGrid2ByGaussSeidelMethod. rewrite !has_size_ok by auto. cbn [assertb bind]. induction n as [|n (f & q & E & F0 & Fn & Fs & Fc)].
  - exists (fun _ => p), p. repeat split; auto; try apply P. lia.
  - destruct (wp_ex _ _ _ (sweep_ok nx ny d s q D ltac:(rewrite <- Fn; auto))) as (r & Er & Rs & Rw). exists (fun k => if (k <=? n)%nat then f k else r), r. rewrite forn_snoc, E. cbn [bind]. split; [auto|]. split; [auto|]. split; [rewrite (proj2 (Nat.leb_gt (S n) n)) by lia; auto|]. split.
    + intros k. destruct (k <=? n)%nat; auto.
    + intros k K. rewrite (proj2 (Nat.leb_le k n)) by lia. destruct (Nat.leb_spec (S k) n); [apply Fc; lia|]. assert (k = n) by lia. subst k. rewrite Fn. auto.
Qed.
(** Errors. *)
Lemma abs_inv : forall x b, Rabs x <= b -> - b <= x <= b. Proof. intros x b H. split_Rabs; lra. Qed.
Lemma sweep_error : forall nx ny d s p q r B, sweep nx ny d s p q -> solves nx ny d s r -> (forall i j, (i < nx)%nat -> (j < ny)%nat -> Rabs (p i j - r i j) <= B) -> forall i j, (i < nx)%nat -> (j < ny)%nat -> Rabs (q i j - r i j) <= B.
Proof.
  intros nx ny d s p q r B S L H. assert (G : forall m j, (j <= m)%nat -> (j < ny)%nat -> forall n i, (i <= n)%nat -> (i < nx)%nat -> Rabs (q i j - r i j) <= B); [|intros i j I J; eapply G; eauto].
  intros m. induction m as [m IHm] using lt_wf_ind. intros j Jm J n. induction n as [n IHn] using lt_wf_ind. intros i In I.
  specialize (S i j I J). specialize (L i j I J). unfold lap in L. pose proof (H i j I J) as H0.
  assert (H1 : (i + 1 < nx)%nat -> Rabs (p (i + 1)%nat j - r (i + 1)%nat j) <= B) by (intros; apply H; lia).
  assert (H2 : (j + 1 < ny)%nat -> Rabs (p i (j + 1)%nat - r i (j + 1)%nat) <= B) by (intros; apply H; lia).
  assert (H3 : (0 < i)%nat -> Rabs (q (i - 1)%nat j - r (i - 1)%nat j) <= B) by (intros; apply (IHn (n - 1)%nat); lia).
  assert (H4 : (0 < j)%nat -> Rabs (q i (j - 1)%nat - r i (j - 1)%nat) <= B) by (intros; apply (IHm (m - 1)%nat ltac:(lia) (j - 1)%nat ltac:(lia) ltac:(lia) nx i); lia).
  apply abs_inv in H0.
  destruct (Nat.ltb_spec (i + 1) nx) as [C1|C1]; [specialize (H1 C1); apply abs_inv in H1|clear H1];
  destruct (Nat.ltb_spec 0 i) as [C3|C3]; [specialize (H3 C3); apply abs_inv in H3|clear H3|specialize (H3 C3); apply abs_inv in H3|clear H3];
  (destruct (Nat.ltb_spec (j + 1) ny) as [C2|C2]; [specialize (H2 C2); apply abs_inv in H2|clear H2]);
  (destruct (Nat.ltb_spec 0 j) as [C4|C4]; [specialize (H4 C4); apply abs_inv in H4|clear H4]); apply Rabs_le; lra.
Qed.
Lemma sweep_fixed : forall nx ny d s p q, solves nx ny d s p -> sweep nx ny d s p q -> forall i j, (i < nx)%nat -> (j < ny)%nat -> q i j = p i j.
Proof.
  intros nx ny d s p q L S i j I J. pose proof (sweep_error nx ny d s p q p 0 S L ltac:(intros; rewrite Rminus_diag_eq by auto; rewrite Rabs_R0; lra) i j I J) as H. apply abs_inv in H. lra.
Qed.
Lemma sweep_same : forall nx ny d s p, sweep nx ny d s p p -> solves nx ny d s p.
Proof. intros nx ny d s p S i j I J. specialize (S i j I J). unfold lap. destruct (i + 1 <? nx)%nat, (0 <? i)%nat, (j + 1 <? ny)%nat, (0 <? j)%nat; lra. Qed.
Lemma solves_sweep : forall nx ny d s p, solves nx ny d s p -> sweep nx ny d s p p.
Proof. intros nx ny d s p S i j I J. specialize (S i j I J). unfold lap in S. destruct (i + 1 <? nx)%nat, (0 <? i)%nat, (j + 1 <? ny)%nat, (0 <? j)%nat; lra. Qed.
(** Sums over the grid. *)
Lemma sum_0 : forall n, sum n (fun _ => 0) = 0. Proof. intros. apply sum_nil. auto. Qed.
Lemma sum_swap : forall n m f, sum n (fun i => sum m (fun j => f i j)) = sum m (fun j => sum n (fun i => f i j)).
Proof. induction n; intros m f; cbn [sum]; [rewrite sum_0; auto|]. rewrite IHn, <- sum_plus. auto. Qed.
Lemma tele : forall n f, sum n (fun i => f (i + 1)%nat - f i) = f n - f 0%nat.
Proof. induction n; intros f; cbn [sum]; [ring|]. rewrite IHn, Nat.add_1_r. ring. Qed.
Lemma line_balance : forall n f, sum n (fun i => (if (i + 1 <? n)%nat then f (i + 1)%nat - f i else 0) + (if (0 <? i)%nat then f (i - 1)%nat - f i else 0)) = 0.
Proof.
  intros n f. destruct n as [|n]; [reflexivity|]. rewrite sum_plus. rewrite (sum_first n (fun i => if (0 <? i)%nat then f (i - 1)%nat - f i else 0)). rewrite (sum_S n (fun i => if (i + 1 <? S n)%nat then f (i + 1)%nat - f i else 0)). cbv beta. rewrite (proj2 (Nat.ltb_ge (n + 1) (S n))), Nat.ltb_irrefl by lia.
  rewrite (sum_ext n (fun i => if (0 <? S i)%nat then f (S i - 1)%nat - f (S i) else 0) (fun i => f (S i - 1)%nat - f (S i))) by (intros i I; rewrite (proj2 (Nat.ltb_lt 0 (S i))) by lia; auto).
  rewrite (sum_ext n (fun i => if (i + 1 <? S n)%nat then f (i + 1)%nat - f i else 0) (fun i => f (i + 1)%nat - f i)) by (intros i I; rewrite (proj2 (Nat.ltb_lt (i + 1) (S n))) by lia; auto).
  rewrite (sum_ext n (fun i => f (S i - 1)%nat - f (S i)) (fun i => -1 * (f (i + 1)%nat - f i))) by (intros i I; replace (S i - 1)%nat with i by lia; rewrite Nat.add_1_r; ring).
  rewrite sum_scale, tele. ring.
Qed.
Lemma lap_total : forall nx ny p, total nx ny (lap nx ny p) = 0.
Proof.
  intros nx ny p. unfold total, lap.
  rewrite (sum_ext ny _ (fun j => sum nx (fun i => ((if (i + 1 <? nx)%nat then p (i + 1)%nat j - p i j else 0) + (if (0 <? i)%nat then p (i - 1)%nat j - p i j else 0))) + sum nx (fun i => (if (j + 1 <? ny)%nat then p i (j + 1)%nat - p i j else 0) + (if (0 <? j)%nat then p i (j - 1)%nat - p i j else 0)))).
  2:{ intros j J. rewrite <- sum_plus. apply sum_ext. intros. ring. }
  rewrite sum_plus. rewrite (sum_nil ny (fun j => sum nx _)) by (intros j J; apply (line_balance nx (fun i => p i j))). rewrite (sum_swap ny nx (fun j i => (if (j + 1 <? ny)%nat then p i (j + 1)%nat - p i j else 0) + (if (0 <? j)%nat then p i (j - 1)%nat - p i j else 0))).
  rewrite sum_nil; [ring|]. intros i I. apply (line_balance ny (fun j => p i j)).
Qed.
Lemma total_ext : forall nx ny f g, (forall i j, (i < nx)%nat -> (j < ny)%nat -> f i j = g i j) -> total nx ny f = total nx ny g.
Proof. intros. unfold total. apply sum_ext. intros. apply sum_ext. auto. Qed.
Lemma total_scale : forall nx ny a f, total nx ny (fun i j => a * f i j) = a * total nx ny f.
Proof. intros. unfold total. rewrite <- sum_scale. apply sum_ext. intros. apply sum_scale. Qed.
Lemma outflow_total : forall nx ny u v, total nx ny (outflow u v) = sum ny (fun j => u nx j - u 0%nat j) + sum nx (fun i => v i ny - v i 0%nat).
Proof.
  intros. unfold total, outflow. rewrite (sum_ext ny _ (fun j => sum nx (fun i => u (i + 1)%nat j - u i j) + sum nx (fun i => v i (j + 1)%nat - v i j))) by (intros; apply sum_plus).
  rewrite sum_plus, (sum_swap ny nx (fun j i => v i (j + 1)%nat - v i j)). f_equal; apply sum_ext; intros k K; [apply (tele nx (fun i => u i k))|apply (tele ny (fun j => v k j))].
Qed.
