(** New vertex positions. *)
From Coq Require Import Reals Lra Lia List Arith Bool Permutation.
Import ListNotations.
From Verif Require Import Imp JagModel JagSpec JagProofs JagProps TopoModel TopoSpec TopoProps SubdModel SubdSpec SubdProofs SubdProofs2.
Open Scope nat_scope.

Lemma wp_set3 : forall x i f (g : nat -> R) (P : list R -> Prop), (forall d, d < 3 -> f d = Some (g d)) -> (i + 1) * 3 <= length x ->
  (forall x', length x' = length x -> (forall k d, d < 3 -> coord x' k d = if k =? i then g d else coord x k d) -> P x') -> wp (set3 x i f) P.
Proof.
  intros x i f g P F L H. unfold set3. apply wp_forn with (I := fun n x' => length x' = length x /\ forall k d, d < 3 -> coord x' k d = if (k =? i) && (d <? n) then g d else coord x k d).
  - lia.
  - split; auto. intros k d D. rewrite andb_false_r. auto.
  - intros n x' N (L' & C). rewrite F by lia. cbn [bind]. rewrite vset_upd by lia. apply wp_some. split; [rewrite upd_length; auto|]. intros k d D. unfold coord at 1. destruct (Nat.eq_dec (i * 3 + n) (k * 3 + d)) as [E|E].
    + assert (k = i /\ d = n) by lia. destruct H0 as (-> & ->). rewrite Nat.eqb_refl, (proj2 (Nat.ltb_lt n (S n))) by lia. apply nth_upd_same. lia.
    + rewrite nth_upd_other by auto. fold (coord x' k d). rewrite C by auto. destruct (k =? i) eqn:K; cbn [andb]; auto. apply Nat.eqb_eq in K. subst k. assert (d <> n) by lia. destruct (Nat.ltb_spec d n), (Nat.ltb_spec d (S n)); auto; lia.
  - intros x' (L' & C). apply H; auto. intros k d D. rewrite C by auto. rewrite (proj2 (Nat.ltb_lt d 3)) by lia. rewrite andb_true_r. auto.
Qed.
Lemma wp_sets : forall n base (h : nat -> list R -> option (list R)) (f : nat -> nat -> option R) (g : nat -> nat -> R) x (P : list R -> Prop),
  (forall i x', i < n -> h i x' = set3 x' (base + i) (f i)) -> (forall i d, i < n -> d < 3 -> f i d = Some (g i d)) -> (base + n) * 3 <= length x ->
  (forall x', length x' = length x -> (forall k d, d < 3 -> coord x' k d = if (base <=? k) && (k <? base + n) then g (k - base) d else coord x k d) -> P x') -> wp (forn 0 n h x) P.
Proof.
  intros n base h f g x P H F L K. apply wp_forn with (I := fun i x' => length x' = length x /\ forall k d, d < 3 -> coord x' k d = if (base <=? k) && (k <? base + i) then g (k - base) d else coord x k d).
  - lia.
  - split; auto. intros k d D. destruct (Nat.leb_spec base k), (Nat.ltb_spec k (base + 0)); auto; lia.
  - intros i x' I (L' & C). rewrite H by lia. apply wp_set3 with (g := g i); [intros; apply F; lia|lia|]. intros x'' L'' C''. split; [lia|]. intros k d D. rewrite C'' by auto. rewrite C by auto. destruct (k =? base + i) eqn:E.
    + apply Nat.eqb_eq in E. subst k. destruct (Nat.leb_spec base (base + i)), (Nat.ltb_spec (base + i) (base + S i)); cbn [andb]; try lia. f_equal. lia.
    + apply Nat.eqb_neq in E. destruct (Nat.leb_spec base k), (Nat.ltb_spec k (base + i)), (Nat.ltb_spec k (base + S i)); cbn [andb]; auto; lia.
  - intros x' (L' & C). apply K; auto.
Qed.
Lemma avg2 : forall w xyz a b d, a * 3 + d < length xyz -> b * 3 + d < length xyz -> avg_of w xyz [a; b] d = Some ((coord xyz a d + coord xyz b d) * w)%R.
Proof. intros. unfold avg_of. cbn [foldM]. rewrite !(vget_nth _ 0%R) by auto. cbn [bind]. unfold coord. do 2 f_equal. ring. Qed.
Lemma avg4 : forall w xyz a b c e d, a * 3 + d < length xyz -> b * 3 + d < length xyz -> c * 3 + d < length xyz -> e * 3 + d < length xyz -> avg_of w xyz [a; b; c; e] d = Some ((coord xyz a d + coord xyz b d + coord xyz c d + coord xyz e d) * w)%R.
Proof. intros. unfold avg_of. cbn [foldM]. rewrite !(vget_nth _ 0%R) by auto. cbn [bind]. unfold coord. do 2 f_equal. ring. Qed.
Lemma avg8 : forall w xyz l d, (forall a, In a l -> a * 3 + d < length xyz) -> avg_of w xyz l d = Some (fold_right Rplus 0%R (map (fun a => coord xyz a d) l) * w)%R.
Proof.
  intros w xyz l d H. unfold avg_of.
  assert (G : forall s, foldM (fun p s => v <- vget xyz (p * 3 + d) ;; Some (s + v)%R) l s = Some (s + fold_right Rplus 0 (map (fun a => coord xyz a d) l))%R).
  { induction l as [|a l IH]; intros s; cbn [foldM map fold_right]; [f_equal; ring|]. rewrite (vget_nth _ 0%R) by (apply H; left; auto). cbn [bind]. rewrite IH by (intros; apply H; right; auto). unfold coord. f_equal. ring. }
  rewrite G. cbn [bind]. f_equal. ring.
Qed.
Lemma flat_len : forall A B (f : A -> list B) c l, (forall x, In x l -> length (f x) = c) -> length (flat_map f l) = length l * c.
Proof. induction l as [|a l IH]; intros H; cbn [flat_map length]; auto. rewrite app_length, IH, (H a) by (auto with datatypes). lia. Qed.
Lemma skipn_flat : forall A B (f : A -> list B) c l k, (forall x, In x l -> length (f x) = c) -> k <= length l -> skipn (k * c) (flat_map f l) = flat_map f (skipn k l).
Proof.
  induction l as [|a l IH]; intros k H K; [destruct k; cbn [length] in K; [reflexivity|lia]|]. destruct k; [reflexivity|]. cbn [skipn flat_map length] in *. rewrite skipn_app. rewrite (H a) by auto with datatypes. replace (S k * c - c) with (k * c) by lia. rewrite skipn_all2 by (rewrite (H a) by auto with datatypes; lia). cbn [app]. apply IH; [auto with datatypes|lia].
Qed.
Lemma vget_flat : forall A B (f : A -> list B) c l k x r, (forall x, length (f x) = c) -> nth_error l k = Some x -> r < c -> vget (flat_map f l) (k * c + r) = nth_error (f x) r.
Proof.
  induction l as [|a l IH]; intros k x r H N R; [destruct k; discriminate|]. destruct k; cbn [nth_error flat_map] in *.
  - injection N as ->. unfold vget. rewrite nth_error_app1; auto. rewrite H. lia.
  - unfold vget. rewrite nth_error_app2 by (rewrite H; lia). rewrite H. replace (S k * c + r - c) with (k * c + r) by lia. apply IH; auto.
Qed.
Lemma skipn_skipn2 : forall A (l : list A) a b, skipn a (skipn b l) = skipn (a + b) l.
Proof. intros A l a b. revert l. induction b as [|b IH]; intros l; [rewrite Nat.add_0_r; auto|]. rewrite Nat.add_succ_r. destruct l; [rewrite !skipn_nil; auto|]. cbn [skipn]. apply IH. Qed.
Lemma elem_verts_flat : forall (g : nat -> list nat) c nno n k j, (forall i, i < n -> length (g i) = c * nno) -> k < n -> j < c -> elem_verts (flat_map g (seq 0 n)) nno (k * c + j) = firstn nno (skipn (j * nno) (g k)).
Proof.
  intros g c nno n k j H K J. unfold elem_verts. replace ((k * c + j) * nno) with (j * nno + k * (c * nno)) by nia. rewrite <- skipn_skipn2. rewrite (skipn_flat _ _ _ (c * nno)); [|intros x X; apply in_seq in X; apply H; lia|rewrite seq_length; lia]. assert (SK : skipn k (seq 0 n) = k :: seq (S k) (n - S k)). { rewrite (skipn_nth _ 0) by (rewrite seq_length; auto). rewrite seq_nth by auto. f_equal. replace (seq 0 n) with (seq 0 (S k) ++ seq (S k) (n - S k)) by (rewrite <- seq_app; f_equal; lia). rewrite skipn_app, seq_length, Nat.sub_diag. rewrite skipn_all2 by (rewrite seq_length; auto). reflexivity. }
  rewrite SK. cbn [flat_map]. rewrite skipn_app, firstn_app. assert (D : nno - length (skipn (j * nno) (g k)) = 0). { rewrite skipn_length, H by auto. nia. } rewrite D. cbn [firstn]. rewrite app_nil_r. auto.
Qed.

(** * Quadrangle points *)
Lemma quad_points : forall xyz1 elem nq nv xyz0 E, mesh_ok elem nq 4 nv -> length xyz0 = nv * 3 -> (forall a b, In (a, b) E -> a < nv /\ b < nv) ->
  exists xyz, SubdivPoints3_MeshQuad xyz1 (flat_map (edge_faces elem nq) E) elem xyz0 = Some xyz /\ length xyz = (nv + length E + nq) * 3 /\
    forall d, d < 3 -> (forall v, v < nv -> coord xyz v d = coord xyz0 v d) /\
      (forall i a b, nth_error E i = Some (a, b) -> coord xyz (nv + i) d = ((coord xyz0 a d + coord xyz0 b d) / 2)%R) /\
      (forall q, q < nq -> coord xyz (nv + length E + q) d = (fold_right Rplus 0 (map (fun v => coord xyz0 v d) (elem_verts elem 4 q)) / 4)%R).
Proof.
  intros xyz1 elem nq nv xyz0 E MO LX EB. assert (LE := proj1 MO). unfold SubdivPoints3_MeshQuad. rewrite (flat_len _ _ _ 4) by (intros; reflexivity). rewrite LX, LE, !Nat.div_mul by lia. rewrite Nat.eqb_refl. cbn [assertb bind].
  apply wp_ex. set (x0 := vresize 0%R xyz1 _). assert (L0 : length x0 = (nv + length E + nq) * 3) by (apply vresize_length). clearbody x0.
  apply wp_bind. apply wp_sets with (base := 0) (f := fun iv d => vget xyz0 (iv * 3 + d)) (g := fun iv d => coord xyz0 iv d).
  - intros i x' I. reflexivity.
  - intros i d I D. apply vget_nth. lia.
  - lia.
  - intros x2 L2 C2. cbn [Nat.add] in C2. apply wp_bind.
    set (ea := fun i => nth i E (0, 0)). assert (EI : forall i, i < length E -> fst (ea i) < nv /\ snd (ea i) < nv). { intros i I. assert (T := nth_In E (0, 0) I). fold (ea i) in T. destruct (ea i) as [a b]. apply (EB a b) in T. auto. }
    apply wp_sets with (base := nv) (f := fun i => avg_of (/ 2) xyz0 [fst (ea i); snd (ea i)]) (g := fun i d => ((coord xyz0 (fst (ea i)) d + coord xyz0 (snd (ea i)) d) * / 2)%R).
    + intros i x' I. assert (NE : nth_error E i = Some (ea i)) by (apply nth_error_nth'; auto). rewrite !(vget_flat _ _ _ 4 E i (ea i)) by (auto; try lia). reflexivity.
    + intros i d I D. destruct (EI i I). apply avg2; lia.
    + lia.
    + intros x3 L3 C3.
      assert (VB : forall q v, In v (elem_verts elem 4 q) -> v < nv) by (intros q v; apply (JagProofs2.elem_verts_lt _ nq); auto).
      apply wp_sets with (base := nv + length E) (f := fun q => avg_of (/ 4) xyz0 (elem_verts elem 4 q)) (g := fun q d => (fold_right Rplus 0 (map (fun v => coord xyz0 v d) (elem_verts elem 4 q)) * / 4)%R).
      * intros q x' Q. rewrite (verts4 _ _ _ _ MO Q). rewrite !(vget_nth _ 0) by lia. reflexivity.
      * intros q d Q D. apply avg8. intros a A. apply VB in A. lia.
      * lia.
      * intros x4 L4 C4. split; [lia|]. intros d D. split; [|split].
        -- intros v V. rewrite C4, C3, C2 by auto. destruct (Nat.leb_spec (nv + length E) v), (Nat.leb_spec nv v), (Nat.ltb_spec v nv); cbn [andb Nat.leb]; try lia. f_equal. lia.
        -- intros i a b N. assert (I : i < length E) by (apply nth_error_Some; congruence). rewrite C4, C3 by auto. destruct (Nat.leb_spec (nv + length E) (nv + i)), (Nat.leb_spec nv (nv + i)), (Nat.ltb_spec (nv + i) (nv + length E)); cbn [andb]; try lia. replace (nv + i - nv) with i by lia. assert (EQ : ea i = (a, b)) by (apply nth_error_nth; auto). rewrite EQ. reflexivity.
        -- intros q Q. rewrite C4 by auto. destruct (Nat.leb_spec (nv + length E) (nv + length E + q)), (Nat.ltb_spec (nv + length E + q) (nv + length E + nq)); cbn [andb]; try lia. replace (nv + length E + q - (nv + length E)) with q by lia. reflexivity.
Qed.
Lemma mid_coord : forall E ed nv M (x x0 : nat -> R), lists_edges E ed -> (forall a b, ed a b -> ed b a) -> numbers_edges E nv M ->
  (forall i a b, nth_error E i = Some (a, b) -> x (nv + i) = ((x0 a + x0 b) / 2)%R) -> forall a b, ed a b -> a <> b -> x (M a b) = ((x0 a + x0 b) / 2)%R.
Proof.
  intros E ed nv M x x0 (N & LE) SY NM X a b AB NE. destruct (Nat.lt_ge_cases a b) as [C|C].
  - assert (I := proj2 (LE a b) (conj C AB)). apply In_nth_error in I. destruct I as (i & I). rewrite (proj1 (NM i a b I)). apply X; auto.
  - assert (C2 : b < a) by lia. assert (I := proj2 (LE b a) (conj C2 (SY _ _ AB))). apply In_nth_error in I. destruct I as (i & I). rewrite (proj2 (NM i b a I)). rewrite (X i b a I). f_equal. ring.
Qed.
Lemma mesh_edge_sym : forall elem nel nno (le : nat -> nat -> Prop) a b, (forall x y : nat, le x y -> le y x) -> mesh_edge elem nel nno le a b -> mesh_edge elem nel nno le b a.
Proof. intros elem nel nno le a b S (e & x & y & E & L & X & Y). exists e, y, x. auto. Qed.
Lemma edge_bound : forall elem nel nno nv (le : nat -> nat -> Prop) a b, mesh_ok elem nel nno nv -> (forall x y : nat, le x y -> x < nno) -> mesh_edge elem nel nno le a b -> a < nv.
Proof. intros elem nel nno nv le a b (L & F) S (e & x & y & E & LL & X & Y). subst a. rewrite Forall_forall in F. apply F. apply nth_In. apply S in LL. rewrite L. nia. Qed.
Lemma quad_edge_sym : forall x y, quad_edge x y -> quad_edge y x.
Proof. unfold quad_edge. intros. intuition auto. Qed.
Lemma hex_edge_sym : forall x y, hex_edge x y -> hex_edge y x.
Proof. intros a b (A & B & H). split; auto. split; auto. destruct (hex_corner a) as [[x y] z], (hex_corner b) as [[x' y'] z']. intuition auto. Qed.
Lemma quad_child_len : forall M c q, length q = 4 -> length (quad_children M c q) = 4 * 4.
Proof. intros M c q L. destruct q as [|a [|b [|e [|f [|? ?]]]]]; try discriminate L. reflexivity. Qed.
Lemma elem_verts_len : forall elem nel nno nv e, mesh_ok elem nel nno nv -> e < nel -> length (elem_verts elem nno e) = nno.
Proof. intros elem nel nno nv e (L & _) E. unfold elem_verts. rewrite firstn_length, skipn_length, L. nia. Qed.

Lemma quad_end : forall ind0 xyz1 elem nq nv xyz0, mesh_ok elem nq 4 nv -> (forall e, e < nq -> NoDup (elem_verts elem 4 e)) ->
  (forall a b, mesh_edge elem nq 4 quad_edge a b -> length (elems_with elem nq 4 a b) <= 2) -> length xyz0 = nv * 3 ->
  exists quad1 ind psup ef xyz, SubdivTopo_MeshQuad ind0 [] elem nq nv = Some (quad1, ind, psup, ef) /\
    SubdivPoints3_MeshQuad xyz1 ef elem xyz0 = Some xyz /\ mesh_ok quad1 (nq * 4) 4 (length xyz / 3) /\
    (forall d v, d < 3 -> v < nv -> coord xyz v d = coord xyz0 v d) /\
    forall d q c s t, d < 3 -> q < nq -> c < 4 ->
      bilinear (fun v => coord xyz v d) (elem_verts quad1 4 (q * 4 + c)) s t =
      bilinear (fun v => coord xyz0 v d) (elem_verts elem 4 q) (fst (quad_place c s t)) (snd (quad_place c s t)).
Proof.
  intros ind0 xyz1 elem nq nv xyz0 MO ND TW LX. destruct (quad_topo ind0 elem nq nv MO ND TW) as (ind & E & M & ET & LE & NM & _).
  assert (EB : forall a b, In (a, b) E -> a < nv /\ b < nv).
  { intros a b I. apply (proj2 LE) in I. destruct I as (_ & I). split; [|apply mesh_edge_sym in I; [|apply quad_edge_sym]]; eapply edge_bound in I; eauto; intros x y (X & _); auto. }
  destruct (quad_points xyz1 elem nq nv xyz0 E MO LX EB) as (xyz & EX & XL & XC).
  set (G := fun k => quad_children M (nv + length E + k) (elem_verts elem 4 k)) in *.
  assert (GL : forall k, k < nq -> length (G k) = 4 * 4) by (intros k K; apply quad_child_len; eapply elem_verts_len; eauto).
  assert (MB : forall q x y, q < nq -> quad_edge x y -> (nth (q * 4 + x) elem 0 <> nth (q * 4 + y) elem 0) /\ mesh_edge elem nq 4 quad_edge (nth (q * 4 + x) elem 0) (nth (q * 4 + y) elem 0)).
  { intros q x y Q XY. split; [|exists q, x, y; auto]. assert (N := ND q Q). rewrite (verts4 _ _ _ _ MO Q) in N. intros C.
    assert (L : forall k, k < 4 -> nth (q * 4 + k) elem 0 = nth k [nth (q * 4 + 0) elem 0; nth (q * 4 + 1) elem 0; nth (q * 4 + 2) elem 0; nth (q * 4 + 3) elem 0] 0). { intros k K. do 4 (destruct k as [|k]; [reflexivity|]). lia. }
    destruct XY as (X & Y & XY). assert (x = y). { apply (proj1 (NoDup_nth _ 0) N); [cbn [length]; lia|cbn [length]; lia|]. rewrite <- !L; auto. } subst y. destruct XY as [XY|XY]; do 4 (destruct x as [|x]; [discriminate XY|]); lia. }
  assert (Q01 : quad_edge 0 1) by (unfold quad_edge; cbn; lia). assert (Q12 : quad_edge 1 2) by (unfold quad_edge; cbn; lia). assert (Q23 : quad_edge 2 3) by (unfold quad_edge; cbn; lia). assert (Q30 : quad_edge 3 0) by (unfold quad_edge; cbn; lia).
  assert (MC : forall d a b, d < 3 -> a <> b /\ mesh_edge elem nq 4 quad_edge a b -> coord xyz (M a b) d = ((coord xyz0 a d + coord xyz0 b d) / 2)%R).
  { intros d a b D (N & I). apply (mid_coord E (mesh_edge elem nq 4 quad_edge) nv M (fun v => coord xyz v d) (fun v => coord xyz0 v d)); auto; [intros; apply mesh_edge_sym; auto; apply quad_edge_sym|apply XC; auto]. }
  assert (ML : forall a b, a <> b /\ mesh_edge elem nq 4 quad_edge a b -> M a b < nv + length E).
  { intros a b (N & I). destruct (Nat.lt_ge_cases a b) as [C|C].
    - assert (IE := proj2 (proj2 LE a b) (conj C I)). apply In_nth_error in IE. destruct IE as (i & IE). rewrite (proj1 (NM i a b IE)). assert (i < length E) by (apply nth_error_Some; congruence). lia.
    - assert (C2 : b < a) by lia. assert (IE := proj2 (proj2 LE b a) (conj C2 (mesh_edge_sym _ _ _ _ _ _ quad_edge_sym I))). apply In_nth_error in IE. destruct IE as (i & IE). rewrite (proj2 (NM i b a IE)). assert (i < length E) by (apply nth_error_Some; congruence). lia. }
  exists (flat_map G (seq 0 nq)), ind, (map snd E), (flat_map (edge_faces elem nq) E), xyz. split; [exact ET|]. split; [exact EX|]. split; [|split; [intros d v D V; apply XC; auto|]].
  - split; [rewrite (flat_len _ _ _ 16), seq_length; [lia|intros x X; apply in_seq in X; apply GL; lia]|]. rewrite XL, Nat.div_mul by lia. apply Forall_forall. intros v I. apply in_flat_map in I. destruct I as (q & Q & I). apply in_seq in Q. destruct Q as (_ & Q). cbn [Nat.add] in Q.
    assert (VB : forall w, In w (elem_verts elem 4 q) -> w < nv + length E + nq) by (intros w W; apply (JagProofs2.elem_verts_lt _ nq _ nv) in W; auto; lia).
    unfold G in I. rewrite (verts4 _ _ _ _ MO Q) in I, VB. cbn [quad_children app In] in I, VB.
    assert (B1 := ML _ _ (MB q 0 1 Q Q01)). assert (B2 := ML _ _ (MB q 1 2 Q Q12)). assert (B3 := ML _ _ (MB q 2 3 Q Q23)). assert (B4 := ML _ _ (MB q 3 0 Q Q30)).
    set (p0 := nth (q * 4 + 0) elem 0) in *. set (p1 := nth (q * 4 + 1) elem 0) in *. set (p2 := nth (q * 4 + 2) elem 0) in *. set (p3 := nth (q * 4 + 3) elem 0) in *.
    assert (V0 := VB p0 ltac:(auto)). assert (V1 := VB p1 ltac:(auto)). assert (V2 := VB p2 ltac:(auto)). assert (V3 := VB p3 ltac:(auto 6)).
    repeat (destruct I as [<-|I]; [lia|]). destruct I.
  - intros d q c s t D Q C. rewrite (elem_verts_flat G 4 4 nq q c GL Q C). unfold G. rewrite (verts4 _ _ _ _ MO Q).
    assert (B1 := MC d _ _ D (MB q 0 1 Q Q01)). assert (B2 := MC d _ _ D (MB q 1 2 Q Q12)). assert (B3 := MC d _ _ D (MB q 2 3 Q Q23)). assert (B4 := MC d _ _ D (MB q 3 0 Q Q30)).
    destruct (XC d D) as (X1 & _ & X3). specialize (X3 q Q). rewrite (verts4 _ _ _ _ MO Q) in X3. cbn [map fold_right] in X3.
    assert (VB : forall w, In w (elem_verts elem 4 q) -> w < nv) by (intros w W; apply (JagProofs2.elem_verts_lt _ nq _ nv) in W; auto). rewrite (verts4 _ _ _ _ MO Q) in VB. cbn [In] in VB.
    set (p0 := nth (q * 4 + 0) elem 0) in *. set (p1 := nth (q * 4 + 1) elem 0) in *. set (p2 := nth (q * 4 + 2) elem 0) in *. set (p3 := nth (q * 4 + 3) elem 0) in *.
    assert (V0 := X1 p0 (VB p0 ltac:(auto))). assert (V1 := X1 p1 (VB p1 ltac:(auto))). assert (V2 := X1 p2 (VB p2 ltac:(auto))). assert (V3 := X1 p3 (VB p3 ltac:(auto 6))).
    do 4 (destruct c as [|c]; [cbn [quad_children app firstn skipn Nat.mul Nat.add quad_place fst snd bilinear]; rewrite ?B1, ?B2, ?B3, ?B4, ?V0, ?V1, ?V2, ?V3, ?X3; field|]). lia.
Qed.
