From Coquelicot Require Import Coquelicot.
From Coq Require Import Reals Lra Lia List Arith Bool Psatz.
Import ListNotations.
From Verif Require Import Imp PrModel JagSpec JagProofs BezProofs PolyModel PolySpec PolyProofs LoopSpec LoopProofs LoopProofs2 LoopProofs3.
Open Scope nat_scope.

(** * The edges of a resampled loop *)
Definition chain (m : nat) (e : (R * R) * (R * R)) : list ((R * R) * (R * R)) := combine (subdivide m e) (tl (subdivide m e) ++ [snd e]).
Lemma combine_app2 : forall A B (a1 a2 : list A) (b1 b2 : list B), length a1 = length b1 -> combine (a1 ++ a2) (b1 ++ b2) = combine a1 b1 ++ combine a2 b2.
Proof. intros A B. induction a1 as [|x a1 IH]; intros a2 [|y b1] b2 L; cbn in *; try lia; auto. f_equal. apply IH. lia. Qed.
Lemma edges_refine : forall (m : (R * R) * (R * R) -> nat) p, edges (flat_map (fun e => subdivide (m e) e) (edges p)) = flat_map (fun e => chain (m e) e) (edges p).
Proof.
  intros m [|a p]; auto. unfold edges at 2 3. cbn [tl firstn].
  assert (G : forall p a z, let es := combine (a :: p) (p ++ [z]) in let q := flat_map (fun e => subdivide (m e) e) es in (exists t, q = a :: t) /\ combine q (tl q ++ [z]) = flat_map (fun e => chain (m e) e) es).
  { clear. induction p as [|b p IH]; intros a z es q.
    - unfold q, es. cbn [app combine flat_map]. rewrite !app_nil_r. split; [eexists; reflexivity|]. reflexivity.
    - assert (E : es = (a, b) :: combine (b :: p) (p ++ [z])) by reflexivity. destruct (IH b z) as ((t & T) & C). cbv zeta in T, C. unfold q. rewrite E. cbn [flat_map]. rewrite T in *. split; [eexists; reflexivity|]. rewrite <- C. unfold chain. unfold subdivide. cbn [tl app]. rewrite app_comm_cons. set (s := map _ (seq 1 (m (a, b)))). cbn [snd]. replace ((s ++ b :: t) ++ [z]) with ((s ++ [b]) ++ (t ++ [z])) by (rewrite <- !app_assoc; reflexivity). apply combine_app2. rewrite app_length. cbn [length]. lia. }
  destruct (G p a a) as ((t & T) & C). cbv zeta in T, C. rewrite <- C. rewrite T. reflexivity.
Qed.
Definition lerp (e : (R * R) * (R * R)) (t : R) : R * R := ((1 - t) * fst (fst e) + t * fst (snd e), (1 - t) * snd (fst e) + t * snd (snd e))%R.
Lemma chain_map : forall m e, chain m e = map (fun j => (lerp e (INR j / INR (m + 1)), lerp e (INR (S j) / INR (m + 1)))) (seq 0 (m + 1)).
Proof.
  intros m (a, b). assert (NZ : INR (m + 1) <> 0%R) by (apply not_0_INR; lia).
  assert (S1 : subdivide m (a, b) = map (fun j => lerp (a, b) (INR j / INR (m + 1))) (seq 0 (m + 1))).
  { rewrite Nat.add_1_r. cbn [seq map subdivide]. f_equal; [|rewrite Nat.add_1_r; reflexivity]. unfold lerp. cbn [fst snd INR]. destruct a as (x, y), b as (z, w). cbn [fst snd]. f_equal; unfold Rdiv; ring. }
  assert (S2 : tl (subdivide m (a, b)) ++ [b] = map (fun j => lerp (a, b) (INR (S j) / INR (m + 1))) (seq 0 (m + 1))).
  { rewrite S1. replace (seq 0 (m + 1)) with (0 :: seq 1 m) at 1 by (rewrite Nat.add_1_r; auto). cbn [map tl]. replace (seq 0 (m + 1)) with (seq 0 m ++ [m]) by (rewrite Nat.add_1_r, seq_S; auto). rewrite map_app. f_equal.
    - rewrite <- seq_shift, map_map. auto.
    - cbn [map]. f_equal. rewrite Nat.add_1_r. unfold lerp, Rdiv. rewrite Rinv_r by (rewrite <- Nat.add_1_r; auto). cbn [fst snd]. destruct a as (x, y), b as (z, w). cbn [fst snd]. f_equal; ring. }
  unfold chain. cbn [snd]. rewrite S2, S1. clear. generalize (seq 0 (m + 1)). induction l as [|x l IH]; auto. cbn [map combine]. rewrite IH. auto.
Qed.
Lemma chain_dist : forall m e p q, In (p, q) (chain m e) -> (dist p q = dist (fst e) (snd e) / INR (m + 1))%R.
Proof.
  intros m e p q I. rewrite chain_map in I. apply in_map_iff in I. destruct I as (j & E & _). apply pair_equal_spec in E. destruct E as (<- & <-). assert (P : (0 < INR (m + 1))%R) by (apply lt_0_INR; lia). destruct e as ((x, y), (z, w)). unfold lerp, dist. cbn [fst snd]. set (k := INR (m + 1)) in *. rewrite S_INR.
  match goal with |- sqrt ?u = _ => replace u with (((x - z) * (x - z) + (y - w) * (y - w)) / (k * k))%R by (field; lra) end. rewrite sqrt_div; [|apply Rplus_le_le_0_compat; apply Rle_0_sqr|apply Rmult_lt_0_compat; auto]. rewrite sqrt_square by lra. auto.
Qed.
Lemma sum_app2 : forall a b, (sum (a ++ b) = sum a + sum b)%R.
Proof. induction a as [|x a IH]; intros b; cbn [app sum fold_right]; [unfold sum; cbn; ring|]. change (fold_right Rplus 0%R (a ++ b)) with (sum (a ++ b)). rewrite IH. change (fold_right Rplus 0%R a) with (sum a). ring. Qed.
Lemma sum_flat : forall A B (f : B -> R) (g : A -> list B) (h : A -> R) l, (forall x, In x l -> sum (map f (g x)) = h x) -> sum (map f (flat_map g l)) = sum (map h l).
Proof.
  intros A B f g h. induction l as [|x l IH]; intros H; auto. cbn [flat_map map]. rewrite map_app, sum_app2, IH by (intros; apply H; right; auto). rewrite H by (left; auto). reflexivity.
Qed.
Lemma sum_const : forall A (f : A -> R) c l, (forall x, In x l -> f x = c) -> sum (map f l) = (INR (length l) * c)%R.
Proof. intros A f c. induction l as [|x l IH]; intros H; [cbn; ring|]. cbn [map length]. rewrite S_INR. cbn [sum fold_right]. change (fold_right Rplus 0%R (map f l)) with (sum (map f l)). rewrite IH by (intros; apply H; right; auto). rewrite H by (left; auto). ring. Qed.
Lemma chain_sums : forall m e, sum (map (fun s => dist (fst s) (snd s)) (chain m e)) = dist (fst e) (snd e) /\
  sum (map (fun s => fst (fst s) * snd (snd s) - fst (snd s) * snd (fst s))%R (chain m e)) = (fst (fst e) * snd (snd e) - fst (snd e) * snd (fst e))%R.
Proof.
  intros m e. assert (P : (0 < INR (m + 1))%R) by (apply lt_0_INR; lia). assert (L : length (chain m e) = m + 1) by (rewrite chain_map, map_length, seq_length; auto). split.
  - rewrite (sum_const _ _ (dist (fst e) (snd e) / INR (m + 1))%R); [rewrite L; field; lra|]. intros (p, q) I. apply chain_dist in I. auto.
  - rewrite (sum_const _ _ ((fst (fst e) * snd (snd e) - fst (snd e) * snd (fst e)) / INR (m + 1))%R); [rewrite L; field; lra|]. intros (p, q) I. rewrite chain_map in I. apply in_map_iff in I. destruct I as (j & E & _). apply pair_equal_spec in E. destruct E as (<- & <-). unfold lerp. cbn [fst snd]. rewrite S_INR. destruct e as ((x, y), (z, w)). cbn [fst snd]. field. lra.
Qed.

(** * The search for crossing edges *)
Lemma bool_wp_forb : forall (P : Prop) (Q : nat -> Prop) lo hi (f : nat -> bool -> option (bool * bool)) (Ph : bool -> Prop),
  lo <= hi ->
  (forall i, lo <= i < hi -> (forall j, lo <= j < i -> Q j) -> wp (f i false) (fun r => snd r = fst r /\ (fst r = true -> P) /\ (fst r = false -> Q i))) ->
  (P -> Ph true) -> ((forall j, lo <= j < hi -> Q j) -> Ph false) ->
  wp (forb lo hi f false) Ph.
Proof.
  intros P Q lo hi f Ph LE ST PT PF. apply wp_forb with (I := fun i b => b = false /\ forall j, lo <= j < i -> Q j); auto.
  - split; auto. intros j J. lia.
  - intros i b I (-> & H). eapply wp_mono; [exact (ST i I H)|]. intros (r, s) (E & T & F). cbn [fst snd] in *. subst s. destruct r; [apply PT; auto|]. split; auto. intros j J. destruct (Nat.eq_dec j i) as [->|]; [auto|apply H; lia].
  - intros b (-> & H). apply PF. auto.
Qed.
Lemma mod_succ_inj : forall n i j, i < n -> j < n -> (i + 1) mod n = (j + 1) mod n -> i = j.
Proof.
  intros n i j I J E. destruct (Nat.eq_dec (i + 1) n) as [A|A], (Nat.eq_dec (j + 1) n) as [B|B]; [lia| | |rewrite !Nat.mod_small in E by lia; lia].
  - rewrite A, Nat.mod_same, Nat.mod_small in E by lia. lia.
  - rewrite B, Nat.mod_same, Nat.mod_small in E by lia. lia.
Qed.
Lemma check_ok : forall ind xy polys, jagged ind xy polys -> exists r, CheckIntersection ind xy = Some r /\
  (r = false -> forall k i j, let p := nth k polys [] in k < length polys -> i < length p -> j < length p -> ~ touching (length p) i j -> ~ meets (edge_at p i) (edge_at p j)) /\
  (r = true -> length polys = 1 -> exists i j, let p := nth 0 polys [] in i < length p /\ j < length p /\ ~ touching (length p) i j /\ meets (edge_at p i) (edge_at p j)).
Proof.
  intros ind xy polys J. set (P := length polys = 1 -> exists i j, let p := nth 0 polys [] in i < length p /\ j < length p /\ ~ touching (length p) i j /\ meets (edge_at p i) (edge_at p j)).
  set (Q := fun k => forall i j, let p := nth k polys [] in i < j < length p -> ~ touching (length p) i j -> ~ meets (edge_at p i) (edge_at p j)).
  assert (W : wp (CheckIntersection ind xy) (fun r => (r = true -> P) /\ (r = false -> forall k, k < length polys -> Q k))).
  { assert (J' := J). apply jagged_iff in J. destruct J as (EX & EO). change (ind = offsets polys) in EO. assert (LI : length ind - 1 = length polys) by (rewrite EO, offsets_length; lia).
    unfold CheckIntersection, check_edges. rewrite LI. apply bool_wp_forb with (P := P) (Q := Q).
    - lia.
    - intros k K _. rewrite (jag_vget _ _ _ _ k J'), (jag_vget _ _ _ _ (k + 1) J') by lia. cbn [bind]. rewrite Nat.add_1_r. assert (OS := offs_S _ polys k ltac:(lia)). set (p := nth k polys []) in *. replace (offs polys (S k) - offs polys k) with (length p) by lia. cbv zeta.
      assert (GP : forall t, t < length p -> vget xy (offs polys k + t) = Some (nth t p (0, 0)%R)) by (intros t T; rewrite EX; apply jag_nth; [lia|exact T]).
      apply wp_bind. apply bool_wp_forb with (P := P) (Q := fun i => forall j, i < j < length p -> ~ touching (length p) i j -> ~ meets (edge_at p i) (edge_at p j)).
      + lia.
      + intros i I _. rewrite Nat.add_0_r, (Nat.mod_small i) by lia. assert (MI : (i + 1) mod length p < length p) by (apply Nat.mod_upper_bound; lia). rewrite !GP by lia. cbn [bind]. apply wp_bind.
        apply bool_wp_forb with (P := P) (Q := fun j => ~ touching (length p) i j -> ~ meets (edge_at p i) (edge_at p j)).
        * lia.
        * intros j JJ _. rewrite Nat.add_0_r, (Nat.mod_small j) by lia. assert (MJ : (j + 1) mod length p < length p) by (apply Nat.mod_upper_bound; lia).
          destruct ((offs polys k + i =? offs polys k + j) || (offs polys k + i =? offs polys k + (j + 1) mod length p) || (offs polys k + (i + 1) mod length p =? offs polys k + j) || (offs polys k + (i + 1) mod length p =? offs polys k + (j + 1) mod length p)) eqn:TT.
          -- apply wp_some. cbn [fst snd]. split; [reflexivity|]. split; [discriminate|]. intros _ NT. exfalso. apply NT. rewrite !orb_true_iff, !Nat.eqb_eq in TT. destruct TT as [[[E|E]|E]|E]; [left; lia|right; right; lia|right; left; lia|left; apply (mod_succ_inj (length p)); lia].
          -- rewrite !orb_false_iff, !Nat.eqb_neq in TT. assert (NT : ~ touching (length p) i j) by (intros [E|[E|E]]; lia). rewrite !GP by lia. cbn [bind].
             destruct (boxes_apart _ _ _ _) eqn:AP; [apply wp_some; cbn [fst snd]; split; auto; split; [discriminate|]; intros _ _ M; apply meet_cross in M; destruct M as (M & _); cbn [fst snd edge_at] in M; rewrite AP in M; discriminate|].
             destruct (IsCrossLines _ _ _ _) eqn:CL; apply wp_some; cbn [fst snd]; split; auto; split; try discriminate.
             ++ intros _ ONE. exists i, j. assert (k = 0) by lia. subst k. fold p. cbv zeta. split; [lia|]. split; [lia|]. split; auto. apply cross_meet; auto.
             ++ intros _ _ M. apply meet_cross in M. destruct M as (_ & M). cbn [fst snd edge_at] in M. rewrite CL in M. discriminate.
        * intros HP. apply wp_some. cbn [fst snd]. split; [reflexivity|split; [auto|discriminate]].
        * intros HQ. apply wp_bind. apply bool_wp_forb with (P := 1 < length polys) (Q := fun _ => True).
          -- lia.
          -- intros jl JL _. rewrite (jag_vget _ _ _ _ jl J'), (jag_vget _ _ _ _ (jl + 1) J') by lia. cbn [bind]. rewrite (Nat.add_1_r jl). assert (OSJ := offs_S _ polys jl ltac:(lia)). set (pj := nth jl polys []) in *. replace (offs polys (S jl) - offs polys jl) with (length pj) by lia. cbv zeta.
             assert (GJ : forall t, t < length pj -> vget xy (offs polys jl + t) = Some (nth t pj (0, 0)%R)) by (intros t T; rewrite EX; apply jag_nth; [lia|exact T]).
             apply wp_bind. apply bool_wp_forb with (P := 1 < length polys) (Q := fun _ => True).
             ++ lia.
             ++ intros jb JB _. rewrite (GJ jb) by lia. cbn [bind]. assert (G1 : exists z, vget xy (if jb =? length pj - 1 then offs polys jl else offs polys jl + jb + 1) = Some z). { destruct (jb =? length pj - 1) eqn:E; [exists (nth 0 pj (0, 0)%R); rewrite <- (Nat.add_0_r (offs polys jl)); apply GJ; lia|]. apply Nat.eqb_neq in E. exists (nth (jb + 1) pj (0, 0)%R). rewrite <- Nat.add_assoc. apply GJ. lia. }
                destruct G1 as (z & ->). cbn [bind]. destruct (boxes_apart _ _ _ _); [apply wp_some; cbn [fst snd]; repeat split; auto; discriminate|]. destruct (IsCrossLines _ _ _ _); apply wp_some; cbn [fst snd]; repeat split; auto; lia.
             ++ intros HP. apply wp_some. cbn [fst snd]. repeat split; auto.
             ++ intros _. apply wp_some. cbn [fst snd]. repeat split; auto. discriminate.
          -- intros HP. apply wp_some. cbn [fst snd]. split; [reflexivity|]. split; [|discriminate]. intros _ ONE. lia.
          -- intros _. apply wp_some. cbn [fst snd]. split; [reflexivity|]. split; [discriminate|]. intros _ j JJ. apply HQ. lia.
      + intros HP. apply wp_some. cbn [fst snd]. split; [reflexivity|split; [auto|discriminate]].
      + intros HQ. apply wp_some. cbn [fst snd]. split; [reflexivity|]. split; [discriminate|]. intros _ i j pp. fold p in pp. subst pp. intros IJ. apply HQ; lia.
    - intros HP. split; auto. discriminate.
    - intros HQ. split; [discriminate|]. intros _ k K. apply HQ. lia. }
  apply wp_ex in W. destruct W as (r & E & H1 & H2). exists r. split; auto. split; [|exact H1]. intros R k i j p K I JJ NT M. specialize (H2 R k K). destruct (Nat.lt_trichotomy i j) as [L|[L|L]].
  - apply (H2 i j ltac:(fold p; lia) NT M).
  - apply NT. left. auto.
  - apply (H2 j i ltac:(fold p; lia)); [intros [T|[T|T]]; apply NT; [left|right; right|right; left]; auto|apply meet_sym; auto].
Qed.

(** * Naturality of the search, to run it on integers *)
Lemma forb_ext2 : forall S (f g : nat -> S -> option (S * bool)) lo hi s, (forall i s, f i s = g i s) -> forb lo hi f s = forb lo hi g s.
Proof. intros S f g lo hi s H. unfold forb. generalize (hi - lo) as k. intros k. revert s lo. induction k as [|k IH]; intros s i; auto. cbn [forb_]. rewrite H. destruct (g i s) as [(s', b)|]; cbn [bind]; auto. destruct b; auto. Qed.
Lemma bind_ext2 : forall A B (e e' : option A) (f g : A -> option B), e = e' -> (forall x, f x = g x) -> bind e f = bind e' g.
Proof. intros A B [x|] e' f g <- H; cbn; auto. Qed.
Lemma bind_map : forall A A' B (h : A -> A') (v : list A) i (f : A' -> option B), bind (vget (map h v) i) f = bind (vget v i) (fun x => f (h x)).
Proof. intros. unfold vget. rewrite nth_error_map. destruct (nth_error v i); auto. Qed.
Lemma check_map : forall A B (h : A -> B) apA crA yyA apB crB yyB ind v,
  (forall a b c d, apB (h a) (h b) (h c) (h d) = apA a b c d) -> (forall a b c d, crB (h a) (h b) (h c) (h d) = crA a b c d) -> (forall a, yyB (h a) = h (yyA a)) ->
  check_edges apB crB yyB ind (map h v) = check_edges apA crA yyA ind v.
Proof.
  intros A B h apA crA yyA apB crB yyB ind v HA HC HY. unfold check_edges. apply forb_ext2. intros k s. apply bind_ext2; auto. intros b. apply bind_ext2; auto. intros e. cbv zeta. apply bind_ext2; auto. apply forb_ext2. intros i s1. rewrite bind_map. apply bind_ext2; auto. intros p0. rewrite bind_map. apply bind_ext2; auto. intros p1. apply bind_ext2.
  - apply forb_ext2. intros j s2. destruct (_ || _); auto. rewrite bind_map. apply bind_ext2; auto. intros q0. rewrite bind_map. apply bind_ext2; auto. intros q1. rewrite HA, HC. auto.
  - intros r. destruct r; auto. apply bind_ext2; auto. apply forb_ext2. intros jl s3. apply bind_ext2; auto. intros bj. apply bind_ext2; auto. intros ej. apply bind_ext2; auto. apply forb_ext2. intros jb s4. rewrite bind_map. apply bind_ext2; auto. intros q0. rewrite bind_map. apply bind_ext2; auto. intros q1. rewrite HY, HA, HC. auto.
Qed.
