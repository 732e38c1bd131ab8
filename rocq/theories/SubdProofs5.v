(** Catmull-Clark positions. *)
From Coq Require Import Reals Lra Lia List Arith Bool Permutation.
Import ListNotations.
From Verif Require Import Imp JagModel JagSpec JagProofs JagProps TopoModel TopoSpec TopoProps SubdModel SubdSpec SubdProofs SubdProofs2 SubdProofs3.
Open Scope nat_scope.

Lemma wp_mod3 : forall x i (h : nat -> list R -> option (list R)) (g : nat -> R -> R) (P : list R -> Prop), (forall d x', d < 3 -> h d x' = vmod x' (i * 3 + d) (g d)) -> (i + 1) * 3 <= length x ->
  (forall x', length x' = length x -> (forall k d, d < 3 -> coord x' k d = if k =? i then g d (coord x k d) else coord x k d) -> P x') -> wp (forn 0 3 h x) P.
Proof.
  intros x i h g P F L H. apply wp_forn with (I := fun n x' => length x' = length x /\ forall k d, d < 3 -> coord x' k d = if (k =? i) && (d <? n) then g d (coord x k d) else coord x k d).
  - lia.
  - split; auto. intros k d D. rewrite andb_false_r. auto.
  - intros n x' N (L' & C). rewrite F by lia. apply (wp_vmod _ 0%R); [lia|]. split; [rewrite upd_length; auto|]. intros k d D. unfold coord at 1. destruct (Nat.eq_dec (i * 3 + n) (k * 3 + d)) as [E|E].
    + assert (k = i /\ d = n) by lia. destruct H0 as (-> & ->). rewrite Nat.eqb_refl, (proj2 (Nat.ltb_lt n (S n))) by lia. cbn [andb]. rewrite nth_upd_same by lia. fold (coord x' i n). rewrite C by auto. rewrite Nat.ltb_irrefl, andb_false_r. auto.
    + rewrite nth_upd_other by auto. fold (coord x' k d). rewrite C by auto. destruct (k =? i) eqn:K; cbn [andb]; auto. apply Nat.eqb_eq in K. subst k. assert (d <> n) by lia. destruct (Nat.ltb_spec d n), (Nat.ltb_spec d (S n)); auto; lia.
  - intros x' (L' & C). apply H; auto. intros k d D. rewrite C by auto. rewrite (proj2 (Nat.ltb_lt d 3)) by lia. rewrite andb_true_r. auto.
Qed.
Lemma wp_add3 : forall x i f (g : nat -> R) (P : list R -> Prop), (forall d, d < 3 -> f d = Some (g d)) -> (i + 1) * 3 <= length x ->
  (forall x', length x' = length x -> (forall k d, d < 3 -> coord x' k d = if k =? i then (coord x k d + g d)%R else coord x k d) -> P x') -> wp (add3 x i f) P.
Proof. intros x i f g P F L H. unfold add3. apply wp_mod3 with (i := i) (g := fun d y => (y + g d)%R); auto. intros d x' D. rewrite F by auto. reflexivity. Qed.
Definition inb (v : nat) (l : list nat) : bool := existsb (Nat.eqb v) l.
Lemma inb_iff : forall v l, inb v l = true <-> In v l.
Proof. intros. unfold inb. rewrite existsb_exists. split; [intros (x & I & E); apply Nat.eqb_eq in E; subst; auto|intros I; exists v; split; auto; apply Nat.eqb_refl]. Qed.
Lemma fold_add : forall p0 (p : nat -> R) l x (nf : list nat) (P : list R * list nat -> Prop), (forall d, d < 3 -> p0 d = Some (p d)) -> NoDup l -> (forall v, In v l -> (v + 1) * 3 <= length x /\ v < length nf) ->
  (forall x' nf', length x' = length x -> length nf' = length nf -> (forall k d, d < 3 -> coord x' k d = (coord x k d + (if inb k l then p d else 0))%R) -> (forall k, nth k nf' 0 = nth k nf 0 + (if inb k l then 1 else 0)) -> P (x', nf')) ->
  wp (foldM (fun jv0 '(xyz1, aNFace) => xyz1 <- add3 xyz1 jv0 p0 ;; aNFace <- vmod aNFace jv0 S ;; Some (xyz1, aNFace)) l (x, nf)) P.
Proof.
  intros p0 p l. induction l as [|a l IH]; intros x nf P F N B H.
  - cbn [foldM]. apply wp_some. apply H; auto. intros; cbn; ring.
  - cbn [foldM]. destruct (B a (or_introl eq_refl)) as (B1 & B2). inversion N as [|? ? N1 N2]; subst. apply wp_bind. apply wp_bind. apply wp_add3 with (g := p); auto. intros x' L' C'. apply wp_bind. apply (wp_vmod _ 0); auto. apply wp_some.
    apply IH; auto.
    + intros v V. rewrite upd_length. destruct (B v (or_intror V)). lia.
    + intros x2 nf2 L2 M2 C2 D2. apply H; [lia|rewrite M2, upd_length; auto| |].
      * intros k d D. rewrite C2, C' by auto. unfold inb. cbn [existsb]. destruct (k =? a) eqn:K; cbn [orb]; auto. apply Nat.eqb_eq in K. subst k. fold (inb a l). destruct (inb a l) eqn:E; [apply inb_iff in E; contradiction|]. ring.
      * intros k. rewrite D2. unfold inb. cbn [existsb]. destruct (k =? a) eqn:K; cbn [orb].
        -- apply Nat.eqb_eq in K. subst k. rewrite nth_upd_same by auto. fold (inb a l). destruct (inb a l) eqn:E; [apply inb_iff in E; contradiction|]. lia.
        -- apply Nat.eqb_neq in K. rewrite nth_upd_other by auto. auto.
Qed.
Lemma total_app : forall l m, total (l ++ m) = (total l + total m)%R.
Proof. unfold total. induction l as [|a l IH]; intros m; cbn [app fold_right]; [ring|]. rewrite IH. ring. Qed.
Lemma filter_snoc : forall A (f : A -> bool) l x, filter f (l ++ [x]) = filter f l ++ (if f x then [x] else []).
Proof. intros. rewrite filter_app. cbn [filter]. destruct (f x); auto. Qed.

Section CC.
Variables (elem : list nat) (nq nv : nat) (xyz0 : list R) (E : list (nat * nat)).
Hypothesis MO : mesh_ok elem nq 4 nv.
Hypothesis ND : forall e, e < nq -> NoDup (elem_verts elem 4 e).
Hypothesis LX : length xyz0 = nv * 3.
Hypothesis EB : forall a b, In (a, b) E -> a < b /\ a < nv /\ b < nv.
Hypothesis EW : forall a b, In (a, b) E -> 1 <= length (elems_with elem nq 4 a b) <= 2.
Let ne := length E.
Let x0 d v := coord xyz0 v d.
Let Fp d q := face_point (x0 d) elem q.
Let ends d (ab : nat * nat) := (coord xyz0 (fst ab) d + coord xyz0 (snd ab) d)%R.
Let W ab := elems_with elem nq 4 (fst ab) (snd ab).
Definition edge_pt (d : nat) (ab : nat * nat) : R := match W ab with f :: g :: _ => ((ends d ab + Fp d f + Fp d g) / 4)%R | _ => (ends d ab / 2)%R end.
Definition vert_sum (d v : nat) : R := (total (map (Fp d) (faces_at elem nq v)) + total (map (ends d) (edges_at E v)))%R.
Definition vert_pt (d v : nat) : R :=
  let n := length (faces_at elem nq v) in if n =? 0 then vert_sum d v else (vert_sum d v * (1 / INR (n * n)) + (INR n - 3) / INR n * coord xyz0 v d)%R.
Definition borderb (l : list (nat * nat)) (v : nat) : bool := existsb (fun ab => ((fst ab =? v) || (snd ab =? v)) && (length (W ab) =? 1)) l.
Lemma W_lt : forall ab q, In q (W ab) -> q < nq.
Proof. intros ab q I. unfold W, elems_with in I. apply filter_In in I. destruct I as (I & _). apply in_seq in I. lia. Qed.
Lemma cc_points : forall xyz1 psup, length psup = ne ->
  exists xyz, SubdivisionPoints_QuadCatmullClark xyz1 (flat_map (edge_faces elem nq) E) psup elem nq xyz0 nv = Some xyz /\ length xyz = (nv + ne + nq) * 3 /\
    forall d, d < 3 -> (forall q, q < nq -> coord xyz (nv + ne + q) d = Fp d q) /\
      (forall i ab, nth_error E i = Some ab -> coord xyz (nv + i) d = edge_pt d ab) /\
      (forall v, v < nv -> coord xyz v d = if borderb E v then coord xyz0 v d else vert_pt d v).
Proof.
  intros xyz1 psup LP. assert (LE := proj1 MO). unfold SubdivisionPoints_QuadCatmullClark. rewrite (flat_len _ _ _ 4) by (intros; reflexivity). rewrite LP. fold ne. rewrite Nat.eqb_refl. cbn [assertb bind]. cbv zeta.
  set (nv1 := nv + ne + nq) in *.
  apply wp_ex. set (z0 := vresize 0%R xyz1 _). assert (L0 : length z0 = nv1 * 3) by (apply vresize_length). clearbody z0.
  apply wp_bind. apply wp_sets with (base := 0) (f := fun _ _ => Some 0%R) (g := fun _ _ => 0%R); [reflexivity|reflexivity|lia|]. intros z1 L1 C1. cbn [Nat.add Nat.leb andb] in C1.
  assert (VB : forall q v, In v (elem_verts elem 4 q) -> v < nv) by (intros q v; apply (JagProofs2.elem_verts_lt _ nq); auto).
  assert (FPA : forall q d, q < nq -> d < 3 -> avg_of (/ 4) xyz0 (elem_verts elem 4 q) d = Some (Fp d q)).
  { intros q d Q D. rewrite avg8 by (intros a A; apply VB in A; lia). f_equal. unfold Fp, face_point, mean, total, x0. rewrite map_length, (elem_verts_len _ _ _ _ _ MO Q). cbn [INR]. replace (1 + 1 + 1 + 1)%R with 4%R by ring. reflexivity. }
  (* faces *)
  apply wp_bind. eapply wp_mono; [apply wp_forn with (I := fun q (s : list R * list nat) => length (fst s) = nv1 * 3 /\ length (snd s) = nv /\
      (forall v d, v < nv -> d < 3 -> coord (fst s) v d = total (map (Fp d) (filter (fun q => inb v (elem_verts elem 4 q)) (seq 0 q)))) /\
      (forall v, v < nv -> nth v (snd s) 0 = length (filter (fun q => inb v (elem_verts elem 4 q)) (seq 0 q))) /\
      (forall r d, r < q -> d < 3 -> coord (fst s) (nv + ne + r) d = Fp d r)) (P := fun s => length (fst s) = nv1 * 3 /\ length (snd s) = nv /\
      (forall v d, v < nv -> d < 3 -> coord (fst s) v d = total (map (Fp d) (faces_at elem nq v))) /\
      (forall v, v < nv -> nth v (snd s) 0 = length (faces_at elem nq v)) /\
      (forall r d, r < nq -> d < 3 -> coord (fst s) (nv + ne + r) d = Fp d r))|].
  { lia. }
  { cbn [fst snd]. split; [lia|]. split; [apply repeat_length|]. split; [|split].
    - intros v d V D. rewrite C1 by auto. rewrite (proj2 (Nat.ltb_lt v nv)) by auto. reflexivity.
    - intros v V. apply nth_repeat.
    - intros r d R. lia. }
  { intros q [x nf] Q (LS & LN & CV & CN & CF). cbn [fst snd] in *. assert (QN : q < nq) by lia. rewrite !(vget_nth _ 0) by lia. cbn [bind]. rewrite <- (verts4 _ _ _ _ MO QN).
    apply wp_bind. apply wp_set3 with (g := fun d => Fp d q); [intros; apply FPA; auto|unfold nv1 in *; lia|]. intros x2 L2 C2.
    apply fold_add with (p := fun d => Fp d q); [intros; apply FPA; auto|auto| |].
    - intros v V. apply VB in V. unfold nv1 in *. lia.
    - intros x3 nf3 L3 M3 C3 D3. cbn [fst snd]. split; [lia|]. split; [lia|]. rewrite seq_S. cbn [Nat.add]. split; [|split].
      + intros v d V D. rewrite C3, C2 by auto. destruct (Nat.eqb_spec v (nv + ne + q)); [lia|]. rewrite CV by auto. rewrite filter_snoc, map_app, total_app. f_equal. destruct (inb v (elem_verts elem 4 q)); cbn; ring.
      + intros v V. rewrite D3, CN by auto. rewrite filter_snoc, app_length. destruct (inb v (elem_verts elem 4 q)); reflexivity.
      + intros r d R D. rewrite C3, C2 by auto. assert (NI : inb (nv + ne + r) (elem_verts elem 4 q) = false). { destruct (inb (nv + ne + r) (elem_verts elem 4 q)) eqn:I; auto. apply inb_iff in I. apply VB in I. lia. } rewrite NI. destruct (Nat.eqb_spec (nv + ne + r) (nv + ne + q)) as [K|K]; [assert (r = q) by lia; subst; ring|]. rewrite CF by lia. ring. }
  { intros s H. exact H. }
  intros [z2 nf] (L2 & LN & CV & CN & CF). cbn [fst snd] in *.
  (* edges *)
  apply wp_bind. apply wp_forn with (I := fun i x => length x = nv1 * 3 /\
      (forall v d, v < nv -> d < 3 -> coord x v d = (total (map (Fp d) (faces_at elem nq v)) + total (map (ends d) (edges_at (firstn i E) v)))%R) /\
      (forall r d, r < nq -> d < 3 -> coord x (nv + ne + r) d = Fp d r) /\
      (forall j d ab, j < i -> d < 3 -> nth_error E j = Some ab -> coord x (nv + j) d = edge_pt d ab)).
  { lia. }
  { split; auto. split; [|split; auto]. { intros v d V D. rewrite CV by auto. cbn. ring. } intros j d ab J. lia. }
  { intros i x I (LS & DV & DF & DE). fold ne in I. assert (IL : i < length E) by (unfold ne in I; lia). set (ab := nth i E (0, 0)). assert (NE : nth_error E i = Some ab) by (apply nth_error_nth'; auto).
    rewrite !(vget_flat _ _ _ 4 E i ab) by (auto; lia). cbn [edge_faces nth_error bind]. fold (W ab). destruct (EB (fst ab) (snd ab)) as (B0 & B1 & B2); [rewrite <- surjective_pairing; apply nth_In; auto|].
    assert (WB := EW (fst ab) (snd ab)). specialize (WB ltac:(rewrite <- surjective_pairing; apply nth_In; auto)). change (elems_with elem nq 4 (fst ab) (snd ab)) with (W ab) in WB. assert (WL := W_lt ab).
    assert (FS : firstn (S i) E = firstn i E ++ [ab]) by (apply (firstn_S_snoc _ (0, 0)); auto).
    assert (GO : forall x2, length x2 = length x -> (forall k d, d < 3 -> coord x2 k d = if k =? nv + i then edge_pt d ab else coord x k d) ->
      wp (xyz1 <- add3 x2 (fst ab) (fun d => a <- vget xyz0 (fst ab * 3 + d)%nat ;; b <- vget xyz0 (snd ab * 3 + d)%nat ;; Some (a + b)%R) ;;
          add3 xyz1 (snd ab) (fun d => a <- vget xyz0 (fst ab * 3 + d)%nat ;; b <- vget xyz0 (snd ab * 3 + d)%nat ;; Some (a + b)%R)) (fun x => length x = nv1 * 3 /\
      (forall v d, v < nv -> d < 3 -> coord x v d = (total (map (Fp d) (faces_at elem nq v)) + total (map (ends d) (edges_at (firstn (S i) E) v)))%R) /\
      (forall r d, r < nq -> d < 3 -> coord x (nv + ne + r) d = Fp d r) /\
      (forall j d ab, j < S i -> d < 3 -> nth_error E j = Some ab -> coord x (nv + j) d = edge_pt d ab))).
    { intros x2 LL2 CC2. assert (GE : forall d, d < 3 -> (a <- vget xyz0 (fst ab * 3 + d)%nat ;; b <- vget xyz0 (snd ab * 3 + d)%nat ;; Some (a + b)%R) = Some (ends d ab)). { intros d D. rewrite !(vget_nth _ 0%R) by lia. reflexivity. }
      apply wp_bind. apply wp_add3 with (g := fun d => ends d ab); [exact GE|unfold nv1 in *; lia|]. intros x3 LL3 CC3. apply wp_add3 with (g := fun d => ends d ab); [exact GE|unfold nv1 in *; lia|]. intros x4 LL4 CC4.
      split; [lia|]. split; [|split].
      - intros v d V D. rewrite CC4, CC3, CC2 by auto. destruct (Nat.eqb_spec v (nv + i)); [lia|]. rewrite DV by auto. unfold edges_at. rewrite FS, filter_snoc, map_app, total_app. destruct (Nat.eqb_spec v (snd ab)), (Nat.eqb_spec v (fst ab)); try lia; destruct (Nat.eqb_spec (fst ab) v), (Nat.eqb_spec (snd ab) v); try lia; cbn; ring.
      - intros r d R D. rewrite CC4, CC3, CC2 by auto. destruct (Nat.eqb_spec (nv + ne + r) (snd ab)), (Nat.eqb_spec (nv + ne + r) (fst ab)), (Nat.eqb_spec (nv + ne + r) (nv + i)); try lia. apply DF; auto.
      - intros j d cd J D N. rewrite CC4, CC3, CC2 by auto. destruct (Nat.eqb_spec (nv + j) (snd ab)), (Nat.eqb_spec (nv + j) (fst ab)); try lia. destruct (Nat.eqb_spec (nv + j) (nv + i)) as [K|K]; [assert (j = i) by lia; subst j; congruence|]. apply DE; auto. lia. }
    destruct (W ab) as [|f [|g [|? ?]]] eqn:WE; cbn [length] in WB; try lia; cbn [nth_error bind].
    - assert (FL := WL f (or_introl eq_refl)). unfold nv1. rewrite (proj2 (Nat.ltb_lt (nv + i) (nv + ne + nq))), (proj2 (Nat.ltb_lt (nv + ne + f) (nv + ne + nq))) by lia. cbn [assertb bind]. apply wp_bind.
      apply wp_set3 with (g := fun d => edge_pt d ab); [|unfold nv1 in *; lia|exact GO]. intros d D. unfold edge_pt. rewrite WE. rewrite avg2 by lia. reflexivity.
    - assert (FL := WL f (or_introl eq_refl)). assert (GL := WL g (or_intror (or_introl eq_refl))). unfold nv1. rewrite (proj2 (Nat.ltb_lt (nv + i) (nv + ne + nq))), (proj2 (Nat.ltb_lt (nv + ne + f) (nv + ne + nq))), (proj2 (Nat.ltb_lt (nv + ne + g) (nv + ne + nq))) by lia. cbn [assertb bind]. apply wp_bind.
      apply wp_set3 with (g := fun d => edge_pt d ab); [|unfold nv1 in *; lia|exact GO]. intros d D. unfold edge_pt. rewrite WE. unfold nv1 in *. rewrite !(vget_nth _ 0%R) by lia. cbn [bind]. fold (coord x (nv + ne + f) d). fold (coord x (nv + ne + g) d). rewrite !DF by auto. reflexivity. }
  intros z3 (L3 & DV & DF & DE). unfold ne in DV. rewrite (firstn_all E) in DV.
  (* vertices *)
  apply wp_bind. apply wp_forn with (I := fun i x => length x = nv1 * 3 /\ (forall v d, v < nv -> d < 3 -> coord x v d = if v <? i then vert_pt d v else vert_sum d v) /\
      (forall k d, nv <= k -> d < 3 -> coord x k d = coord z3 k d)).
  { lia. }
  { split; auto. }
  { intros i x I (LS & HV & HK). rewrite (vget_nth _ 0) by lia. cbn [bind]. rewrite CN by lia.
    destruct (length (faces_at elem nq i) =? 0) eqn:N0.
    - apply wp_some. split; auto. split; auto. intros v d V D. rewrite HV by auto. destruct (Nat.ltb_spec v i), (Nat.ltb_spec v (S i)); auto; try lia. assert (v = i) by lia. subst v. unfold vert_pt. rewrite N0. auto.
    - set (n := length (faces_at elem nq i)) in *. apply wp_bind. apply wp_mod3 with (i := i) (g := fun d y => (y * (1 / INR (n * n)))%R); [reflexivity|unfold nv1 in *; lia|]. intros x2 LL2 CC2.
      apply wp_add3 with (g := fun d => ((INR n - 3) / INR n * coord xyz0 i d)%R).
      { intros d D. rewrite (vget_nth _ 0%R) by lia. reflexivity. } { unfold nv1 in *; lia. }
      intros x3 LL3 CC3. split; [lia|]. split.
      + intros v d V D. rewrite CC3, CC2, HV by auto. destruct (Nat.eqb_spec v i) as [->|K].
        * destruct (Nat.ltb_spec i i), (Nat.ltb_spec i (S i)); try lia. unfold vert_pt. fold n. rewrite N0. reflexivity.
        * destruct (Nat.ltb_spec v i), (Nat.ltb_spec v (S i)); auto; lia.
      + intros k d K D. rewrite CC3, CC2, HK by auto. destruct (Nat.eqb_spec k i); auto. lia. }
  intros z4 (L4 & HV & HK).
  (* border *)
  apply wp_forn with (I := fun i x => length x = nv1 * 3 /\ (forall v d, v < nv -> d < 3 -> coord x v d = if borderb (firstn i E) v then coord xyz0 v d else vert_pt d v) /\
      (forall k d, nv <= k -> d < 3 -> coord x k d = coord z3 k d)).
  { lia. }
  { split; auto. split; auto. intros v d V D. cbn. rewrite HV by auto. rewrite (proj2 (Nat.ltb_lt v nv)) by auto. auto. }
  { intros i x I (LS & GV & GK). fold ne in I. assert (IL : i < length E) by (unfold ne in I; lia). set (ab := nth i E (0, 0)). assert (NE : nth_error E i = Some ab) by (apply nth_error_nth'; auto).
    rewrite !(vget_flat _ _ _ 4 E i ab) by (auto; lia). cbn [edge_faces nth_error bind]. fold (W ab). destruct (EB (fst ab) (snd ab)) as (B0 & B1 & B2); [rewrite <- surjective_pairing; apply nth_In; auto|].
    assert (WB := EW (fst ab) (snd ab)). specialize (WB ltac:(rewrite <- surjective_pairing; apply nth_In; auto)). change (elems_with elem nq 4 (fst ab) (snd ab)) with (W ab) in WB.
    assert (FS : firstn (S i) E = firstn i E ++ [ab]) by (apply (firstn_S_snoc _ (0, 0)); auto).
    assert (BS : forall v, borderb (firstn (S i) E) v = borderb (firstn i E) v || (((fst ab =? v) || (snd ab =? v)) && (length (W ab) =? 1))). { intros v. unfold borderb. rewrite FS, existsb_app. cbn [existsb]. rewrite orb_false_r. auto. }
    destruct (W ab) as [|f [|g [|? ?]]] eqn:WE; cbn [length] in WB; try lia; cbn [nth_error bind].
    - apply wp_bind. apply wp_set3 with (g := fun d => coord xyz0 (fst ab) d); [intros d D; apply vget_nth; lia|unfold nv1 in *; lia|]. intros x2 LL2 CC2. apply wp_set3 with (g := fun d => coord xyz0 (snd ab) d); [intros d D; apply vget_nth; lia|unfold nv1 in *; lia|]. intros x3 LL3 CC3.
      split; [lia|]. split.
      + intros v d V D. rewrite CC3, CC2, GV, BS by auto. cbn [length Nat.eqb]. rewrite andb_true_r. rewrite (Nat.eqb_sym (fst ab)), (Nat.eqb_sym (snd ab)). destruct (Nat.eqb_spec v (snd ab)) as [->|]; [rewrite !orb_true_r; auto|]. destruct (Nat.eqb_spec v (fst ab)) as [->|]; [cbn [orb]; rewrite orb_true_r; auto|]. cbn [orb]. rewrite orb_false_r. auto.
      + intros k d K D. rewrite CC3, CC2, GK by auto. destruct (Nat.eqb_spec k (snd ab)), (Nat.eqb_spec k (fst ab)); try lia. auto.
    - apply wp_some. split; auto. split; auto. intros v d V D. rewrite GV, BS by auto. cbn [length Nat.eqb]. rewrite andb_false_r, orb_false_r. auto. }
  intros z5 (L5 & GV & GK). unfold ne in GV. rewrite (firstn_all E) in GV. split; [exact L5|]. intros d D. split; [|split].
  - intros q Q. rewrite GK by (auto; lia). apply DF; auto.
  - intros i ab N. assert (i < length E) by (apply nth_error_Some; congruence). rewrite GK by (auto; lia). apply DE; auto.
  - intros v V. apply GV; auto.
Qed.
End CC.
