(** Hexahedra: positions. *)
From Coq Require Import Reals Lra Lia List Arith Bool Permutation.
Import ListNotations.
From Verif Require Import Imp JagModel JagSpec JagProofs JagProps TopoModel TopoSpec TopoProps SubdModel SubdSpec SubdProofs SubdProofs2 SubdProofs3.
Open Scope nat_scope.

Lemma hex_points : forall xyz1 ind rows Q elem nh nv xyz0, mesh_ok elem nh 8 nv -> length xyz0 = nv * 3 -> jagged ind (map snd (elist rows)) rows -> length rows = nv ->
  (forall a b, In (a, b) (elist rows) -> a < nv /\ b < nv) -> mesh_ok (concat Q) (length Q) 4 nv ->
  exists xyz, SubdivisionPoints_Hex xyz1 ind (map snd (elist rows)) (concat Q) elem nh xyz0 nv = Some xyz /\ length xyz = (nv + length (elist rows) + length Q + nh) * 3 /\
    forall d, d < 3 -> (forall v, v < nv -> coord xyz v d = coord xyz0 v d) /\
      (forall i a b, nth_error (elist rows) i = Some (a, b) -> coord xyz (nv + i) d = ((coord xyz0 a d + coord xyz0 b d) / 2)%R) /\
      (forall q, q < length Q -> coord xyz (nv + length (elist rows) + q) d = (fold_right Rplus 0 (map (fun v => coord xyz0 v d) (elem_verts (concat Q) 4 q)) / 4)%R) /\
      (forall h, h < nh -> coord xyz (nv + length (elist rows) + length Q + h) d = (fold_right Rplus 0 (map (fun v => coord xyz0 v d) (elem_verts elem 8 h)) / 8)%R).
Proof.
  intros xyz1 ind rows Q elem nh nv xyz0 MO LX J RL EB MQ. assert (LE := proj1 MO). assert (LQ := proj1 MQ). unfold SubdivisionPoints_Hex. rewrite map_length, LQ, Nat.div_mul by lia.
  set (E := elist rows) in *.
  apply wp_ex. set (x0 := vresize 0%R xyz1 _). assert (L0 : length x0 = (nv + length E + length Q + nh) * 3) by (apply vresize_length). clearbody x0.
  apply wp_bind. apply wp_sets with (base := 0) (f := fun iv d => vget xyz0 (iv * 3 + d)) (g := fun iv d => coord xyz0 iv d).
  { intros i x' I. reflexivity. } { intros i d I D. apply vget_nth. lia. } { lia. }
  intros x2 L2 C2. cbn [Nat.add] in C2. apply wp_bind.
  set (ea := fun i => nth i E (0, 0)). assert (EI : forall i, i < length E -> fst (ea i) < nv /\ snd (ea i) < nv). { intros i I. assert (T := nth_In E (0, 0) I). fold (ea i) in T. destruct (ea i) as [a b]. apply (EB a b) in T. auto. }
  set (mid := fun i d => ((coord xyz0 (fst (ea i)) d + coord xyz0 (snd (ea i)) d) * / 2)%R).
  assert (OT : offs rows nv = length E). { rewrite (offs_all _ rows nv) by lia. unfold E. rewrite elist_length. auto. }
  apply wp_forn with (I := fun i x' => length x' = length x2 /\ forall k d, d < 3 -> coord x' k d = if (nv <=? k) && (k <? nv + offs rows i) then mid (k - nv) d else coord x2 k d).
  { lia. } { split; auto. intros k d D. rewrite offs_0. destruct (Nat.leb_spec nv k), (Nat.ltb_spec k (nv + 0)); auto; lia. }
  { intros p x' P (L' & C'). rewrite (jag_vget1 _ _ _ _ p J), (jag_vget1 _ _ _ _ (p + 1) J) by lia. cbn [bind]. rewrite Nat.add_1_r.
    assert (OS := offs_S _ rows p ltac:(lia)).
    apply wp_forn with (I := fun i x'' => length x'' = length x2 /\ forall k d, d < 3 -> coord x'' k d = if (nv <=? k) && (k <? nv + i) then mid (k - nv) d else coord x2 k d).
    - lia.
    - auto.
    - intros i x'' I (L'' & C''). replace i with (offs rows p + (i - offs rows p)) at 1 by lia. set (j := i - offs rows p). rewrite (proj1 J). rewrite (jag_nth1 _ 0) by lia. cbn [bind].
      assert (EQ : nth_error E i = Some (p, nth j (nth p rows []) 0)). { replace i with (offs rows p + j) by lia. apply elist_nth; lia. }
      assert (IE : i < length E) by (apply nth_error_Some; congruence). assert (EA : ea i = (p, nth j (nth p rows []) 0)) by (apply nth_error_nth; auto). destruct (EI i IE) as (B1 & B2). rewrite EA in B1, B2. cbn [fst snd] in B1, B2.
      apply wp_set3 with (g := mid i).
      + intros d D. unfold mid. rewrite EA. cbn [fst snd]. apply avg2; lia.
      + lia.
      + intros x3 L3 C3. split; [lia|]. intros k d D. rewrite C3, C'' by auto. destruct (k =? nv + i) eqn:K.
        * apply Nat.eqb_eq in K. subst k. destruct (Nat.leb_spec nv (nv + i)), (Nat.ltb_spec (nv + i) (nv + S i)); cbn [andb]; try lia. f_equal. lia.
        * apply Nat.eqb_neq in K. destruct (Nat.leb_spec nv k), (Nat.ltb_spec k (nv + i)), (Nat.ltb_spec k (nv + S i)); cbn [andb]; auto; lia.
    - auto. }
  intros x3 (L3 & C3). rewrite OT in C3. apply wp_bind.
  assert (VB : forall q v, In v (elem_verts (concat Q) 4 q) -> v < nv) by (intros q v; apply (JagProofs2.elem_verts_lt _ (length Q)); auto).
  apply wp_sets with (base := nv + length E) (f := fun q => avg_of (/ 4) xyz0 (elem_verts (concat Q) 4 q)) (g := fun q d => (fold_right Rplus 0 (map (fun v => coord xyz0 v d) (elem_verts (concat Q) 4 q)) * / 4)%R).
  { intros q x' K. rewrite (verts4 _ _ _ _ MQ K). rewrite !(vget_nth _ 0) by lia. reflexivity. } { intros q d K D. apply avg8. intros a A. apply VB in A. lia. } { lia. }
  intros x4 L4 C4.
  assert (VH : forall q v, In v (elem_verts elem 8 q) -> v < nv) by (intros q v; apply (JagProofs2.elem_verts_lt _ nh); auto).
  apply wp_sets with (base := nv + length E + length Q) (f := fun q => avg_of (/ 8) xyz0 (elem_verts elem 8 q)) (g := fun q d => (fold_right Rplus 0 (map (fun v => coord xyz0 v d) (elem_verts elem 8 q)) * / 8)%R).
  { intros q x' K. rewrite (verts8 _ _ _ _ MO K). cbn [seq foldM]. rewrite !(vget_nth _ 0) by lia. reflexivity. } { intros q d K D. apply avg8. intros a A. apply VH in A. lia. } { lia. }
  intros x5 L5 C5. split; [lia|]. intros d D. split; [|split; [|split]].
  - intros v V. rewrite C5, C4, C3, C2 by auto. destruct (Nat.leb_spec (nv + length E + length Q) v), (Nat.leb_spec (nv + length E) v), (Nat.leb_spec nv v), (Nat.ltb_spec v nv); cbn [andb Nat.leb]; try lia. f_equal. lia.
  - intros i a b N. assert (I : i < length E) by (apply nth_error_Some; congruence). rewrite C5, C4, C3 by auto. destruct (Nat.leb_spec (nv + length E + length Q) (nv + i)), (Nat.leb_spec (nv + length E) (nv + i)), (Nat.leb_spec nv (nv + i)), (Nat.ltb_spec (nv + i) (nv + length E)); cbn [andb]; try lia. replace (nv + i - nv) with i by lia. unfold mid. assert (EQ : ea i = (a, b)) by (apply nth_error_nth; auto). rewrite EQ. reflexivity.
  - intros q K. rewrite C5, C4 by auto. destruct (Nat.leb_spec (nv + length E + length Q) (nv + length E + q)), (Nat.leb_spec (nv + length E) (nv + length E + q)), (Nat.ltb_spec (nv + length E + q) (nv + length E + length Q)); cbn [andb]; try lia. replace (nv + length E + q - (nv + length E)) with q by lia. reflexivity.
  - intros h K. rewrite C5 by auto. destruct (Nat.leb_spec (nv + length E + length Q) (nv + length E + length Q + h)), (Nat.ltb_spec (nv + length E + length Q + h) (nv + length E + length Q + nh)); cbn [andb]; try lia. replace (nv + length E + length Q + h - (nv + length E + length Q)) with h by lia. reflexivity.
Qed.
Lemma sum_perm : forall l m, Permutation l m -> fold_right Rplus 0%R l = fold_right Rplus 0%R m.
Proof. induction 1; cbn [fold_right]; try congruence; lra. Qed.
Lemma hex_end : forall ind0 xyz1 elem nh nv xyz0, mesh_ok elem nh 8 nv -> (forall e, e < nh -> NoDup (elem_verts elem 8 e)) -> two_sided elem nh 8 noelElemFace_Hex -> length xyz0 = nv * 3 ->
  exists hex1 ind psup quad xyz, SubdivTopo_MeshHex ind0 [] elem nh nv = Some (hex1, ind, psup, quad) /\
    SubdivisionPoints_Hex xyz1 ind psup quad elem nh xyz0 nv = Some xyz /\ mesh_ok hex1 (nh * 8) 8 (length xyz / 3) /\
    (forall d v, d < 3 -> v < nv -> coord xyz v d = coord xyz0 v d) /\
    forall d h c u v w, d < 3 -> h < nh -> c < 8 ->
      let '(x, y, z) := hex_corner c in
      trilinear (fun p => coord xyz p d) (elem_verts hex1 8 (h * 8 + c)) u v w =
      trilinear (fun p => coord xyz0 p d) (elem_verts elem 8 h) ((INR x + u) / 2) ((INR y + v) / 2) ((INR z + w) / 2).
Proof.
  intros ind0 xyz1 elem nh nv xyz0 MO ND TS LX. destruct (hex_topo ind0 elem nh nv MO ND TS) as (ind & E & M & Q & Fn & ET & LE & NM & QF & QD & FO & rows & J & -> & RL).
  set (E := elist rows) in *.
  assert (EB : forall a b, In (a, b) E -> a < nv /\ b < nv).
  { intros a b I. apply (proj2 LE) in I. destruct I as (_ & I). split; [|apply mesh_edge_sym in I; [|apply hex_edge_sym]]; eapply edge_bound in I; eauto; intros x y (X & _); auto. }
  assert (QL : forall q, q < length Q -> length (nth q Q []) = 4 /\ NoDup (nth q Q []) /\ (forall v, In v (nth q Q []) -> v < nv)).
  { intros q K. destruct (QF _ (nth_In Q [] K)) as (e & f & EL & FL & ->). split; [apply fv_len; auto|]. split; [eapply fv_nodup; eauto|]. intros v. eapply fv_lt; eauto. }
  assert (QO : forall k, k <= length Q -> offs Q k = k * 4). { induction k as [|k IH]; intros K; [apply offs_0|]. rewrite offs_S by lia. rewrite IH by lia. rewrite (proj1 (QL k K)). lia. }
  assert (MQ : mesh_ok (concat Q) (length Q) 4 nv).
  { split; [rewrite <- (offs_all _ Q (length Q)) by auto; apply QO; auto|]. apply Forall_forall. intros v I. apply in_concat in I. destruct I as (q & IQ & I). apply (In_nth _ _ []) in IQ. destruct IQ as (k & K & EK). apply (QL k K). rewrite EK. auto. }
  assert (QV : forall k, k < length Q -> elem_verts (concat Q) 4 k = nth k Q []).
  { intros k K. destruct (QL k K) as (L4 & _). rewrite (verts4 _ _ _ _ MQ K). assert (G : forall i, i < 4 -> nth (k * 4 + i) (concat Q) 0 = nth i (nth k Q []) 0) by (intros i I; rewrite <- QO by lia; apply concat_nth; lia). rewrite !G by lia. destruct (nth k Q []) as [|a [|b [|c [|e [|? ?]]]]]; try discriminate L4. reflexivity. }
  destruct (hex_points xyz1 ind rows Q elem nh nv xyz0 MO LX J RL EB MQ) as (xyz & EX & XL & XC). fold E in EX, XL, XC.
  set (G := fun k => hex_children (elem_verts elem 8 k) M (fun f => nv + length E + Fn k f) (nv + length E + length Q + k)) in *.
  assert (GL : forall k, k < nh -> length (G k) = 8 * 8) by (intros; reflexivity).
  assert (MB : forall q x y, q < nh -> hex_edge x y -> (nth (q * 8 + x) elem 0 <> nth (q * 8 + y) elem 0) /\ mesh_edge elem nh 8 hex_edge (nth (q * 8 + x) elem 0) (nth (q * 8 + y) elem 0)).
  { intros q x y K XY. split; [|exists q, x, y; auto]. intros C. destruct XY as (X & Y & XY). eapply loc_inj in C; eauto. subst y. destruct (hex_corner x) as [[? ?] ?]. intuition congruence. }
  assert (MC : forall d a b, d < 3 -> a <> b /\ mesh_edge elem nh 8 hex_edge a b -> coord xyz (M a b) d = ((coord xyz0 a d + coord xyz0 b d) / 2)%R).
  { intros d a b D (N & I). apply (mid_coord E (mesh_edge elem nh 8 hex_edge) nv M (fun v => coord xyz v d) (fun v => coord xyz0 v d)); auto; [intros; apply mesh_edge_sym; auto; apply hex_edge_sym|apply XC; auto]. }
  assert (ML : forall a b, a <> b /\ mesh_edge elem nh 8 hex_edge a b -> M a b < nv + length E).
  { intros a b (N & I). destruct (Nat.lt_ge_cases a b) as [C|C].
    - assert (IE := proj2 (proj2 LE a b) (conj C I)). apply In_nth_error in IE. destruct IE as (i & IE). rewrite (proj1 (NM i a b IE)). assert (i < length E) by (apply nth_error_Some; congruence). lia.
    - assert (C2 : b < a) by lia. assert (IE := proj2 (proj2 LE b a) (conj C2 (mesh_edge_sym _ _ _ _ _ _ hex_edge_sym I))). apply In_nth_error in IE. destruct IE as (i & IE). rewrite (proj2 (NM i b a IE)). assert (i < length E) by (apply nth_error_Some; congruence). lia. }
  exists (flat_map G (seq 0 nh)), ind, (map snd E), (concat Q), xyz. split; [exact ET|]. split; [exact EX|]. split; [|split; [intros d v D V; apply XC; auto|]].
  - split; [rewrite (flat_len _ _ _ 64), seq_length; [lia|intros x X; reflexivity]|]. rewrite XL, Nat.div_mul by lia. apply Forall_forall. intros v I. apply in_flat_map in I. destruct I as (q & K & I). apply in_seq in K. destruct K as (_ & K). cbn [Nat.add] in K.
    assert (VB : forall k, k < 8 -> nth (q * 8 + k) elem 0 < nv). { intros k KL. destruct MO as (L & F). rewrite Forall_forall in F. apply F. apply nth_In. lia. }
    assert (FB : forall f, f < 6 -> Fn q f < length Q) by (intros f F; apply FO; auto).
    assert (EE : forall x y, hex_edge x y -> M (nth (q * 8 + x) elem 0) (nth (q * 8 + y) elem 0) < nv + length E) by (intros x y XY; apply ML; apply MB; auto).
    unfold G in I. rewrite (verts8 _ _ _ _ MO K) in I. clear - I VB FB EE K.
    unfold hex_children in I. cbn [flat_map seq map app hex_corner nth hex_grid Nat.add In] in I.
    assert (E1 := EE 0 1 ltac:(unfold hex_edge; cbn; lia)). assert (E2 := EE 1 2 ltac:(unfold hex_edge; cbn; lia)). assert (E3 := EE 2 3 ltac:(unfold hex_edge; cbn; lia)). assert (E4 := EE 3 0 ltac:(unfold hex_edge; cbn; lia)).
    assert (E5 := EE 4 5 ltac:(unfold hex_edge; cbn; lia)). assert (E6 := EE 5 6 ltac:(unfold hex_edge; cbn; lia)). assert (E7 := EE 6 7 ltac:(unfold hex_edge; cbn; lia)). assert (E8 := EE 7 4 ltac:(unfold hex_edge; cbn; lia)).
    assert (E9 := EE 0 4 ltac:(unfold hex_edge; cbn; lia)). assert (E10 := EE 1 5 ltac:(unfold hex_edge; cbn; lia)). assert (E11 := EE 2 6 ltac:(unfold hex_edge; cbn; lia)). assert (E12 := EE 3 7 ltac:(unfold hex_edge; cbn; lia)).
    assert (F0 := FB 0 ltac:(lia)). assert (F1 := FB 1 ltac:(lia)). assert (F2 := FB 2 ltac:(lia)). assert (F3 := FB 3 ltac:(lia)). assert (F4 := FB 4 ltac:(lia)). assert (F5 := FB 5 ltac:(lia)).
    assert (V0 := VB 0 ltac:(lia)). assert (V1 := VB 1 ltac:(lia)). assert (V2 := VB 2 ltac:(lia)). assert (V3 := VB 3 ltac:(lia)). assert (V4 := VB 4 ltac:(lia)). assert (V5 := VB 5 ltac:(lia)). assert (V6 := VB 6 ltac:(lia)). assert (V7 := VB 7 ltac:(lia)).
    clear EE FB VB. cbn [Nat.add] in *. repeat (destruct I as [<-|I]; [lia|]). destruct I.
  - intros d h c u v w D K C.
    assert (EV : elem_verts (flat_map G (seq 0 nh)) 8 (h * 8 + c) = firstn 8 (skipn (c * 8) (G h))) by (apply (elem_verts_flat G 8 8); auto).
    assert (EM : forall x y, hex_edge x y -> coord xyz (M (nth (h * 8 + x) elem 0) (nth (h * 8 + y) elem 0)) d = ((coord xyz0 (nth (h * 8 + x) elem 0)%nat d + coord xyz0 (nth (h * 8 + y) elem 0)%nat d) / 2)%R) by (intros x y XY; apply MC; auto).
    destruct (XC d D) as (X1 & _ & X3 & X4). specialize (X4 h K). rewrite (verts8 _ _ _ _ MO K) in X4. cbn [map fold_right] in X4.
    assert (VB : forall k, k < 8 -> coord xyz (nth (h * 8 + k) elem 0) d = coord xyz0 (nth (h * 8 + k) elem 0) d). { intros k KL. apply X1. destruct MO as (L & F). rewrite Forall_forall in F. apply F. apply nth_In. lia. }
    assert (FC : forall f, f < 6 -> coord xyz (nv + length E + Fn h f) d = (fold_right Rplus 0 (map (fun v => coord xyz0 v d) (face_verts elem 8 noelElemFace_Hex h f)) / 4)%R).
    { intros f F. destruct (FO h f K F) as (F1 & F2). rewrite (X3 _ F1), (QV _ F1). f_equal. apply sum_perm. apply Permutation_map. destruct (QL _ F1) as (_ & N1 & _). apply NoDup_Permutation; auto. eapply fv_nodup; eauto. }
    clear MC ML XC X1 X3 FO.
    assert (E1 := EM 0 1 ltac:(unfold hex_edge; cbn; lia)). assert (E2 := EM 1 2 ltac:(unfold hex_edge; cbn; lia)). assert (E3 := EM 2 3 ltac:(unfold hex_edge; cbn; lia)). assert (E4 := EM 3 0 ltac:(unfold hex_edge; cbn; lia)).
    assert (E5 := EM 4 5 ltac:(unfold hex_edge; cbn; lia)). assert (E6 := EM 5 6 ltac:(unfold hex_edge; cbn; lia)). assert (E7 := EM 6 7 ltac:(unfold hex_edge; cbn; lia)). assert (E8 := EM 7 4 ltac:(unfold hex_edge; cbn; lia)).
    assert (E9 := EM 0 4 ltac:(unfold hex_edge; cbn; lia)). assert (E10 := EM 1 5 ltac:(unfold hex_edge; cbn; lia)). assert (E11 := EM 2 6 ltac:(unfold hex_edge; cbn; lia)). assert (E12 := EM 3 7 ltac:(unfold hex_edge; cbn; lia)).
    assert (F0 := FC 0 ltac:(lia)). assert (F1 := FC 1 ltac:(lia)). assert (F2 := FC 2 ltac:(lia)). assert (F3 := FC 3 ltac:(lia)). assert (F4 := FC 4 ltac:(lia)). assert (F5 := FC 5 ltac:(lia)).
    unfold face_verts in F0, F1, F2, F3, F4, F5. cbn [map nth noelElemFace_Hex fold_right] in F0, F1, F2, F3, F4, F5.
    assert (V0 := VB 0 ltac:(lia)). assert (V1 := VB 1 ltac:(lia)). assert (V2 := VB 2 ltac:(lia)). assert (V3 := VB 3 ltac:(lia)). assert (V4 := VB 4 ltac:(lia)). assert (V5 := VB 5 ltac:(lia)). assert (V6 := VB 6 ltac:(lia)). assert (V7 := VB 7 ltac:(lia)).
    clear EM VB FC. rewrite EV. unfold G. rewrite (verts8 _ _ _ _ MO K).
    set (p0 := nth (h * 8 + 0) elem 0) in *. set (p1 := nth (h * 8 + 1) elem 0) in *. set (p2 := nth (h * 8 + 2) elem 0) in *. set (p3 := nth (h * 8 + 3) elem 0) in *. set (p4 := nth (h * 8 + 4) elem 0) in *. set (p5 := nth (h * 8 + 5) elem 0) in *. set (p6 := nth (h * 8 + 6) elem 0) in *. set (p7 := nth (h * 8 + 7) elem 0) in *.
    do 8 (destruct c as [|c]; [unfold hex_children; cbn [flat_map seq map app hex_corner nth hex_grid Nat.add Nat.mul firstn skipn trilinear bilinear INR]; rewrite ?E1, ?E2, ?E3, ?E4, ?E5, ?E6, ?E7, ?E8, ?E9, ?E10, ?E11, ?E12, ?F0, ?F1, ?F2, ?F3, ?F4, ?F5, ?V0, ?V1, ?V2, ?V3, ?V4, ?V5, ?V6, ?V7, ?X4; field|]). lia.
Qed.
