(** C66: Delaunay meshes of points in the plane. *)
From Coq Require Import List Arith Lia Bool Relations Reals Lra.
Import ListNotations.
From Verif Require Import Imp PrModel PolyModel DtriModel DtriSpec CollSpec FanModel FanSpec DelaModel DelaSpec.
From Verif Require Import DtriProofs1 CollProofs1 FanProofs1 FanProofs2 DelaProofs1 DelaProofs2 DelaProofs3 DelaProofs4 DelaProofs5 DelaProofs6.
Local Open Scope R_scope.

(** The circle test: 3 for thin triangles, otherwise it compares the distance to the centre of the circle through the corners. *)
Theorem C66_circle_test : forall p0 p1 p2 p3,
  (Rabs (Area_Tri2 p0 p1 p2) < / 10 ^ 10 -> DetDelaunay p0 p1 p2 p3 = 3%nat) /\
  (/ 10 ^ 10 <= Rabs (Area_Tri2 p0 p1 p2) -> exists o r, (forall q, q = p0 \/ q = p1 \/ q = p2 -> SquareDistance o q = r) /\
     (DetDelaunay p0 p1 p2 p3 = 0%nat <-> SquareDistance o p3 < r * (1 - / 10 ^ 20)) /\
     (DetDelaunay p0 p1 p2 p3 = 2%nat <-> r * (1 + / 10 ^ 20) < SquareDistance o p3) /\
     (DetDelaunay p0 p1 p2 p3 = 1%nat <-> r * (1 - / 10 ^ 20) <= SquareDistance o p3 <= r * (1 + / 10 ^ 20))).
Proof.
  intros p0 p1 p2 p3. rewrite DetDelaunay_eq. fold (pten 10) (pten 20). pose proof (ltRs (Rabs (Area_Tri2 p0 p1 p2)) (pten 10)) as Q.
  split; intros H; destruct (ltR (Rabs _) _); auto; try lra.
  assert (HN : Area_Tri2 p0 p1 p2 <> 0). { intros E. rewrite E, Rabs_R0 in H. pose proof (pten_pos 10). lra. }
  destruct (center_eq _ _ _ HN) as (C1 & C2). exists (center p0 p1 p2), (SquareDistance (center p0 p1 p2) p0).
  split; [intros q [-> | [-> | ->]]; auto|].
  pose proof (sd_pos (center p0 p1 p2) p0) as S0. pose proof (pten_pos 20) as S1.
  pose proof (Rmult_le_pos _ _ S0 (Rlt_le _ _ S1)) as S2. set (r := SquareDistance (center p0 p1 p2) p0) in *. set (D := SquareDistance (center p0 p1 p2) p3) in *.
  pose proof (ltRs (r * (1 + pten 20)) D) as Q1. pose proof (ltRs D (r * (1 - pten 20))) as Q2.
  destruct (ltR (r * (1 + pten 20)) D); [|destruct (ltR D (r * (1 - pten 20)))];
    (split; [|split]); (split; intros Z; [try discriminate Z; lra|try reflexivity; exfalso; lra]).
Qed.
Print Assumptions C66_circle_test.

(** Delaunay flips around a point always finish: nothing but the links and corners of triangles changes, every triangle stays
    counter-clockwise, the area and the boundary stay, and every edge opposite to the point is a Delaunay edge. *)
Theorem C66_delaunay : forall xy po m p, consistent po m -> positive xy m -> length xy = length po -> (p < length po)%nat ->
  exists po' f, DelaunayAroundPoint p po m xy = Some (po', f) /\
    consistent po' f /\ positive xy f /\ length po' = length po /\ length f = length m /\ total_area xy f = total_area xy m /\
    (forall q, (q < length po)%nat -> has_link po q -> has_link po' q) /\
    (forall a b, bedge f a b <-> bedge m a b) /\ (forall q, used f q -> used m q) /\
    (has_link po p -> exists t i, stored po' p t i /\ forall x, in_fan f (t, i) x -> delaunay_edge xy f x) /\
    (~ has_link po p -> po' = po /\ f = m).
Proof.
  intros xy po m p HC HP Hxy Hp. destruct (pe (nth p po (mkP None 0))) as [t|] eqn:E.
  - assert (HL : pe (nth p po (mkP None 0)) <> None) by congruence.
    destruct (wp_ex _ _ _ (dela_ok xy po m p Hxy Hp HC HP HL)) as ((po', f) & E' & (G1 & G2 & G3 & G4 & G5 & G6 & G7 & G8) & t' & i' & Hs & HF).
    exists po', f. split; auto. do 8 (split; [assumption|]). split.
    + intros _. exists t', i'. split; auto. intros x Hx. apply fine_delaunay. auto.
    + intros N. exfalso. apply N. exact HL.
  - exists po, m. split; [apply dela_unused; auto|]. split; auto. split; auto. do 3 (split; [reflexivity|]). split; auto. split; [tauto|]. split; auto.
    split; [intros H; exfalso; apply H; exact E|auto].
Qed.
Print Assumptions C66_delaunay.

(** Adding a point keeps the mesh; it succeeds if the point is inside some triangle, and a point is left out only if it is beyond
    (or within the tolerance of) a boundary edge. *)
Theorem C66_add_point : forall xy po m p mn, consistent po m -> positive xy m -> length xy = length po -> (p < length po)%nat -> 0 < mn ->
  (forall t, (t < length m)%nat -> inside_by xy m mn (pos2 xy p) t -> AddPointsMesh xy po m p mn <> None) /\
  (has_link po p -> AddPointsMesh xy po m p mn = Some (po, m)) /\
  (forall po' f, ~ has_link po p -> AddPointsMesh xy po m p mn = Some (po', f) ->
    (po' = po /\ f = m /\ exists a b, bedge m a b /\ Area_Tri2 (pos2 xy p) (pos2 xy a) (pos2 xy b) <= mn) \/
    (consistent po' f /\ positive xy f /\ length po' = length po /\ length f = (length m + 2)%nat /\ total_area xy f = total_area xy m /\
     (forall q, (q < length po)%nat -> has_link po q -> has_link po' q) /\ has_link po' p /\
     (forall a b, bedge f a b <-> bedge m a b) /\ (forall q, used f q -> used m q \/ q = p))).
Proof.
  intros xy po m p mn HC HP Hxy Hp Hmn. split; [|split].
  - intros t Ht HI. destruct (pe (nth p po (mkP None 0))) as [t'|] eqn:E.
    + rewrite (add_linked xy po m Hxy p mn Hp) by (unfold has_link; congruence). discriminate.
    + destruct (add_ok xy po m HC Hxy p mn HP Hp Hmn E) as [(_ & H)|[(H & _)|(po' & f & H & _)]]; try congruence. exfalso. apply (H t Ht). exact HI.
  - intros H. apply add_linked; auto.
  - intros po' f N E'. assert (E : pe (nth p po (mkP None 0)) = None). { unfold has_link in N. destruct (pe _); auto. exfalso. apply N. discriminate. }
    destruct (add_ok xy po m HC Hxy p mn HP Hp Hmn E) as [(H & _)|[(H & t & e & Ht & He & HL & HA)|(po2 & f2 & H & HA)]]; rewrite H in E'; try discriminate; injection E' as <- <-.
    + left. split; auto. split; auto. exists (V m t (nx e)), (V m t (pv e)). split; auto. exists t, e. auto.
    + right. exact HA.
Qed.
Print Assumptions C66_add_point.

(** The whole triangulation: if it finishes, three points are appended that form a triangle around all the given points, and the
    result is a mesh of that triangle with 2n+1 triangles, all counter-clockwise, in which every point is used. *)
Theorem C66_initialize : forall xy0 po m xy, Meshing_Initialize xy0 = Some (po, m, xy) -> let n := length xy0 in
  (exists i j, (i < n)%nat /\ (j < n)%nat /\
     (/ 10 ^ 4 <= fst (pos2 xy0 i) - fst (pos2 xy0 j) \/ / 10 ^ 4 <= snd (pos2 xy0 i) - snd (pos2 xy0 j))) ->
  firstn n xy = xy0 /\ length xy = (n + 3)%nat /\ length po = (n + 3)%nat /\ length m = (2 * n + 1)%nat /\
  (forall q, (q < n)%nat -> 0 < Area_Tri2 (pos2 xy q) (pos2 xy (n + 1)) (pos2 xy (n + 2)) /\
     0 < Area_Tri2 (pos2 xy q) (pos2 xy (n + 2)) (pos2 xy n) /\ 0 < Area_Tri2 (pos2 xy q) (pos2 xy n) (pos2 xy (n + 1))) /\
  consistent po m /\ positive xy m /\ total_area xy m = Area_Tri2 (pos2 xy n) (pos2 xy (n + 1)) (pos2 xy (n + 2)) /\
  (forall a b, bedge m a b <-> (a = n /\ b = n + 1 \/ a = n + 1 /\ b = n + 2 \/ a = n + 2 /\ b = n)%nat) /\
  (forall q, (q < n + 3)%nat -> has_link po q).
Proof.
  intros xy0 po m xy E n Hs. assert (HN : (0 < n)%nat) by (destruct Hs as (i & _ & H & _); lia).
  assert (H4 : 0 < / 10 ^ 4) by (apply Rinv_0_lt_compat, pow_lt; lra).
  assert (H10 : pten 10 < 9 / 10 * (/ 10 ^ 4 * / 10 ^ 4)) by (unfold pten; lra).
  destruct (initialize_ok xy0 po m xy (/ 10 ^ 4) HN H4 H10 Hs E) as ((S3 & EX & HS) & HI & HA). fold n in HI, HA.
  assert (ES : skipn n xy = S3) by (rewrite EX; unfold n; rewrite skipn_app, skipn_all, Nat.sub_diag; reflexivity). rewrite ES in HI.
  destruct HI as (I1 & I2 & I3 & I4 & I5 & I6 & I7 & I8). rewrite <- EX in I2, I5.
  split; [rewrite EX; unfold n; rewrite firstn_app, firstn_all, Nat.sub_diag; apply app_nil_r|].
  split; [rewrite EX, app_length, HS; reflexivity|]. split; auto. split; auto. split; auto. split; auto. split; auto. split; auto. split.
  - intros a b. rewrite I6. unfold base. fold n. tauto.
  - intros q Hq. apply I8; auto. fold n. lia.
Qed.
Print Assumptions C66_initialize.

(** Smoothing one point: an inner point moves to the mean of itself and its neighbours, a boundary point stays. *)
Theorem C66_laplacian : forall xy po m p t i, consistent po m -> length xy = length po -> stored po p t i ->
  (closed_fan m t i -> exists xy' l, LaplacianArroundPoint xy p po m = Some (true, xy') /\ fan_list m (t, i) l /\ length xy' = length xy /\
     (forall q, q <> p -> pos2 xy' q = pos2 xy q) /\
     (let k := INR (S (length l)) in let nb x := pos2 xy (V m (fst x) (nx (snd x))) in
      fst (pos2 xy' p) * k = fst (pos2 xy p) + fold_right Rplus 0 (map (fun x => fst (nb x)) l) /\
      snd (pos2 xy' p) * k = snd (pos2 xy p) + fold_right Rplus 0 (map (fun x => snd (nb x)) l))) /\
  (~ closed_fan m t i -> LaplacianArroundPoint xy p po m = Some (false, xy)).
Proof.
  intros xy po m p t i HC Hxy Hs. destruct (laplacian_ok xy po m HC Hxy p t i Hs) as (R1 & R2). split; [|exact R2].
  intros Hcl. destruct (R1 Hcl) as (l & Hl & E). eexists. exists l. split; [exact E|]. split; auto. split; [apply upd_length|].
  assert (Hp : (p < length xy)%nat) by (rewrite Hxy; apply Hs).
  split; [intros q Nq; unfold pos2; apply nth_upd_other; auto|]. cbn zeta.
  match goal with |- context [upd xy p ?v] => assert (EP : pos2 (upd xy p v) p = v) by (unfold pos2; apply nth_upd_same; auto); rewrite EP end. cbn [fst snd].
  assert (K : INR (S (length l)) <> 0) by (apply not_0_INR; discriminate). split; field; auto.
Qed.
Print Assumptions C66_laplacian.

(** A square cut along a diagonal that is not Delaunay, with point 0 at (0,0), 1 at (4,0), 2 at (4,4) and 3 at (1,3). *)
Definition ex_dela_po : list dpnt := [mkP (Some 0%nat) 0; mkP (Some 0%nat) 1; mkP (Some 0%nat) 2; mkP (Some 1%nat) 0].
Definition ex_dela_m : list dtri := [mkT 0 1 2 None (Some 1%nat) None; mkT 3 0 2 (Some 0%nat) None None].
Definition ex_dela_xy : list pt := [(0, 0); (4, 0); (4, 4); (1, 3)].
Lemma assert_consistent : forall po m, AssertDTri m = Some tt -> (forall t i, (t < length m)%nat -> (i < 3)%nat -> (V m t i < length po)%nat) ->
  AssertMeshDTri po m = Some tt -> consistent po m.
Proof. intros po m H1 H2 H3. split; [apply AssertDTri_iff; auto|]. split; auto. apply (proj1 (AssertMesh_iff po m) H3). Qed.
Ltac rv := unfold tri_area, V, pos2, Area_Tri2, SquareDistance, ex_dela_m, ex_dela_xy in *; cbn [nth vtx tv0 tv1 tv2 fst snd] in *.
Ltac tcases t Ht := repeat (destruct t as [|t]; [|try (exfalso; cbn in Ht; lia)]).
Example C66_delaunay_inst : consistent ex_dela_po ex_dela_m /\ positive ex_dela_xy ex_dela_m /\ length ex_dela_xy = length ex_dela_po /\ has_link ex_dela_po 1 /\
  (exists u k, twin ex_dela_m 0 1 u k /\ ~ delaunay_edge ex_dela_xy ex_dela_m (0, 1)%nat).
Proof.
  split; [|split; [|split; [reflexivity|split; [discriminate|]]]].
  - apply assert_consistent; [vm_compute; reflexivity| |vm_compute; reflexivity].
    intros t i Ht Hi. tcases t Ht; c3 i; vm_compute; lia.
  - intros t Ht. tcases t Ht; rv; lra.
  - exists 1%nat, 0%nat. assert (T : twin ex_dela_m 0 1 1 0) by (repeat split; auto). split; auto. intros H.
    specialize (H 1%nat 0%nat T). assert (K : / 10 ^ 10 <= tri_area ex_dela_xy ex_dela_m 0) by (rv; lra). specialize (H K (2, 2)).
    assert (K2 : forall i j, (i < 3)%nat -> (j < 3)%nat -> SquareDistance (2, 2) (pos2 ex_dela_xy (V ex_dela_m (fst (0, 1)%nat) i)) = SquareDistance (2, 2) (pos2 ex_dela_xy (V ex_dela_m (fst (0, 1)%nat) j))).
    { intros i j Hi Hj. c3 i; c3 j; rv; lra. }
    specialize (H K2). rv. lra.
Qed.

(** Meshing two points finishes. *)
Definition ex_init_po : list dpnt := [mkP (Some 0%nat) 0; mkP None 0; mkP (Some 1%nat) 2; mkP (Some 2%nat) 2; mkP (Some 0%nat) 2].
Definition ex_init_m : list dtri :=
  [mkT 0 3 4 None (Some 1%nat) (Some 2%nat); mkT 0 4 2 None (Some 2%nat) (Some 0%nat); mkT 0 2 3 None (Some 0%nat) (Some 1%nat)].
Lemma ex_flips : forall a b c d e : pt, DelaunayAroundPoint 0 ex_init_po ex_init_m [a; b; c; d; e] = Some (ex_init_po, ex_init_m).
Proof. intros. reflexivity. Qed.
Lemma ltR_yes : forall a b, a < b -> ltR a b = true. Proof. intros a b H. pose proof (ltRs a b). destruct (ltR a b); auto; lra. Qed.
Lemma ltR_no : forall a b, b <= a -> ltR a b = false. Proof. intros a b H. pose proof (ltRs a b). destruct (ltR a b); auto; lra. Qed.
Definition ex_init_xy : list pt := [(0, 1); (0, 0)].
Example C66_initialize_inst : let xy0 := ex_init_xy in
  (exists i j, (i < length xy0)%nat /\ (j < length xy0)%nat /\
     (/ 10 ^ 4 <= fst (pos2 xy0 i) - fst (pos2 xy0 j) \/ / 10 ^ 4 <= snd (pos2 xy0 i) - snd (pos2 xy0 j))) /\
  Meshing_Initialize xy0 <> None.
Proof.
  intros xy0. split.
  - exists 0%nat, 1%nat. split; [cbn; lia|]. split; [cbn; lia|]. right. cbn. lra.
  - unfold xy0, Meshing_Initialize. cbn [ex_init_xy length repeat vget nth_error bind].
    unfold forn at 1. cbn [forn_ ex_init_xy Nat.sub vget nth_error bind fst snd].
    rewrite (ltR_no 0 0) by lra. rewrite (ltR_yes 0 1) by lra. rewrite (ltR_no 1 0) by lra. cbn [bind].
    set (S0 := sup 0 0 0 1 0). set (S1 := sup 0 0 0 1 1). set (S2 := sup 0 0 0 1 2).
    change (MakeSuperTriangle ex_init_xy [mkP None 0; mkP None 0] 0 0 0 1) with
      (Some ([(0, 1); (0, 0); S0; S1; S2], po_ini ex_init_xy, m_ini ex_init_xy)). cbn [bind].
    change (length (po_ini ex_init_xy) - 3)%nat with 2%nat.
    unfold forn. cbn [forn_ Nat.sub].
    pose proof (sup_area 0 0 0 1 (0, 1) 1 ltac:(cbn; lra) ltac:(cbn; lra) ltac:(lra) ltac:(lra)) as (A1 & A2 & A3).
    fold S0 S1 S2 in A1, A2, A3. pose proof (pten_lt1 10 ltac:(lia)) as HT.
    assert (HT' : pten 10 < 1 / 10) by (unfold pten; lra).
    assert (E1 : AddPointsMesh [(0, 1); (0, 0); S0; S1; S2] (po_ini ex_init_xy) (m_ini ex_init_xy) 0 (pten 10) = Some (ex_init_po, ex_init_m)).
    { unfold AddPointsMesh. change (length (po_ini ex_init_xy) =? _)%nat with true. cbn [assertb bind].
      change (vget (po_ini ex_init_xy) 0) with (Some (mkP None 0)). cbn [bind pe]. change (vget [(0, 1); (0, 0); S0; S1; S2] 0) with (Some (0, 1) : option pt). cbn [bind].
      change (length (m_ini ex_init_xy)) with 1%nat.
      assert (EA : add_try [(0, 1); (0, 0); S0; S1; S2] (m_ini ex_init_xy) (0, 1) (pten 10) 0 = Some VInside).
      { unfold add_try. change (vget (m_ini ex_init_xy) 0) with (Some (mkT 2 3 4 None None None)). cbn [bind tv0 tv1 tv2 vget nth_error].
        rewrite !ltR_yes by lra. reflexivity. }
      unfold forb. cbn [forb_ Nat.sub]. rewrite EA. cbn [bind fst snd]. vm_compute. reflexivity. }
    rewrite E1. cbn [bind]. rewrite ex_flips. cbn [bind].
    assert (HC : consistent ex_init_po ex_init_m).
    { apply assert_consistent; [vm_compute; reflexivity| |vm_compute; reflexivity]. intros t i Ht Hi. tcases t Ht; c3 i; vm_compute; lia. }
    assert (HP : positive [(0, 1); (0, 0); S0; S1; S2] ex_init_m).
    { intros t Ht. tcases t Ht; unfold tri_area, V, pos2, ex_init_m; cbn [vtx nth tv0 tv1 tv2]; lra. }
    assert (HI : inside_by [(0, 1); (0, 0); S0; S1; S2] ex_init_m (pten 10) (0, 0) 0).
    { pose proof (sup_area 0 0 0 1 (0, 0) 1 ltac:(cbn; lra) ltac:(cbn; lra) ltac:(lra) ltac:(lra)) as (B1 & _). fold S1 S2 in B1.
      destruct sqrt3 as (Q1 & _). intros e He. c3 e.
      - change (pten 10 < Area_Tri2 (0, 0) S1 S2). lra.
      - change (pten 10 < Area_Tri2 (0, 0) S2 (0, 1)). unfold S2, sup, Area_Tri2. rewrite (ltR_no (1 - 0) (0 - 0)) by lra. cbn [fst snd]. lra.
      - change (pten 10 < Area_Tri2 (0, 0) (0, 1) S1). unfold S1, sup, Area_Tri2. rewrite (ltR_no (1 - 0) (0 - 0)) by lra. cbn [fst snd]. lra. }
    destruct (C66_add_point [(0, 1); (0, 0); S0; S1; S2] ex_init_po ex_init_m 1 (pten 10) HC HP eq_refl ltac:(cbn; lia) (pten_pos 10)) as (R1 & _ & R3).
    specialize (R1 0%nat ltac:(cbn; lia) HI).
    destruct (AddPointsMesh [(0, 1); (0, 0); S0; S1; S2] ex_init_po ex_init_m 1 (pten 10)) as [(po', f)|] eqn:E2; [|congruence]. cbn [bind].
    assert (NL : ~ has_link ex_init_po 1) by (intros H; apply H; reflexivity).
    assert (G : consistent po' f /\ positive [(0, 1); (0, 0); S0; S1; S2] f /\ length po' = 5%nat).
    { destruct (R3 po' f NL eq_refl) as [(-> & -> & _)|(G1 & G2 & G3 & _)]; auto. }
    destruct G as (G1 & G2 & G3).
    destruct (C66_delaunay [(0, 1); (0, 0); S0; S1; S2] po' f 1 G1 G2 ltac:(cbn; lia) ltac:(lia)) as (po2 & f2 & E3 & _). rewrite E3. discriminate.
Qed.

(** A point inside a triangle is not inserted when an earlier triangle of the list has the point behind its boundary edge. *)
Definition ex_out_xy : list pt := [(0, 0); (1, 0); (0, 1); (3, -1); (3, 3); (5 / 2, 1)].
Definition ex_out_m : list dtri :=
  [mkT 0 1 2 None None (Some 1%nat); mkT 1 0 3 None (Some 2%nat) (Some 0%nat); mkT 1 3 4 None None (Some 1%nat)].
Definition ex_out_po : list dpnt :=
  [mkP (Some 0%nat) 0; mkP (Some 0%nat) 1; mkP (Some 0%nat) 2; mkP (Some 1%nat) 2; mkP (Some 2%nat) 2; mkP None 0].
Lemma ex_out_consistent : consistent ex_out_po ex_out_m.
Proof. apply assert_consistent; [vm_compute; reflexivity| |vm_compute; reflexivity]. intros t i Ht Hi. tcases t Ht; c3 i; vm_compute; lia. Qed.
Theorem C66_add_outside_refuted : ~ (forall xy po m p t, consistent po m -> positive xy m -> length po = length xy -> (p < length po)%nat ->
  ~ has_link po p -> (t < length m)%nat -> inside_by xy m (pten 10) (pos2 xy p) t ->
  forall po' m', AddPointsMesh xy po m p (pten 10) = Some (po', m') -> used m' p).
Proof.
  intros H. assert (HT : pten 10 < 1 / 10) by (unfold pten; lra). pose proof (pten_pos 10) as HT0.
  assert (HP : positive ex_out_xy ex_out_m).
  { intros t Ht. tcases t Ht; unfold tri_area, V, pos2, ex_out_m, ex_out_xy, Area_Tri2; cbn [vtx nth tv0 tv1 tv2 fst snd]; lra. }
  assert (HI : inside_by ex_out_xy ex_out_m (pten 10) (pos2 ex_out_xy 5) 2).
  { intros e He. c3 e.
    - change (pten 10 < Area_Tri2 (5 / 2, 1) (3, -1) (3, 3)). unfold Area_Tri2; cbn [fst snd]; lra.
    - change (pten 10 < Area_Tri2 (5 / 2, 1) (3, 3) (1, 0)). unfold Area_Tri2; cbn [fst snd]; lra.
    - change (pten 10 < Area_Tri2 (5 / 2, 1) (1, 0) (3, -1)). unfold Area_Tri2; cbn [fst snd]; lra. }
  assert (E : AddPointsMesh ex_out_xy ex_out_po ex_out_m 5 (pten 10) = Some (ex_out_po, ex_out_m)).
  { unfold AddPointsMesh. change (length ex_out_po =? _)%nat with true. cbn [assertb bind].
    change (vget ex_out_po 5) with (Some (mkP None 0)). cbn [bind pe]. change (vget ex_out_xy 5) with (Some (5 / 2, 1) : option pt). cbn [bind].
    change (length ex_out_m) with 3%nat.
    assert (EA : add_try ex_out_xy ex_out_m (5 / 2, 1) (pten 10) 0 = Some VReturn).
    { unfold add_try. change (vget ex_out_m 0) with (Some (mkT 0 1 2 None None (Some 1%nat))). cbn [bind tv0 tv1 tv2 vget nth_error ex_out_xy].
      rewrite (ltR_no (pten 10) (Area_Tri2 (5 / 2, 1) (1, 0) (0, 1))) by (unfold Area_Tri2; cbn [fst snd]; lra).
      rewrite (ltR_yes (pten 10) (Area_Tri2 (5 / 2, 1) (0, 1) (0, 0))) by (unfold Area_Tri2; cbn [fst snd]; lra).
      rewrite (ltR_yes (pten 10) (Area_Tri2 (5 / 2, 1) (0, 0) (1, 0))) by (unfold Area_Tri2; cbn [fst snd]; lra).
      reflexivity. }
    unfold forb. cbn [forb_ Nat.sub]. rewrite EA. cbn [bind fst snd]. reflexivity. }
  specialize (H ex_out_xy ex_out_po ex_out_m 5%nat 2%nat ex_out_consistent HP eq_refl ltac:(cbn; lia) ltac:(intros Q; apply Q; reflexivity) ltac:(cbn; lia) HI _ _ E).
  destruct H as (t & Ht & i & Hi & Q). tcases t Ht; c3 i; vm_compute in Q; lia.
Qed.

(** A point repeated at the position of a corner makes the insertion abort. *)
Definition ex_dup_xy : list pt := [(0, 0); (1, 0); (0, 1); (0, 0)].
Definition ex_dup_m : list dtri := [mkT 0 1 2 None None None].
Definition ex_dup_po : list dpnt := [mkP (Some 0%nat) 0; mkP (Some 0%nat) 1; mkP (Some 0%nat) 2; mkP None 0].
Theorem C66_duplicate_refuted : ~ (forall xy po m p, consistent po m -> positive xy m -> length po = length xy -> (p < length po)%nat ->
  AddPointsMesh xy po m p (pten 10) <> None).
Proof.
  intros H. assert (HT : pten 10 < 1 / 10) by (unfold pten; lra). pose proof (pten_pos 10) as HT0.
  assert (HC : consistent ex_dup_po ex_dup_m).
  { apply assert_consistent; [vm_compute; reflexivity| |vm_compute; reflexivity]. intros t i Ht Hi. tcases t Ht; c3 i; vm_compute; lia. }
  assert (HP : positive ex_dup_xy ex_dup_m).
  { intros t Ht. tcases t Ht; unfold tri_area, V, pos2, ex_dup_m, ex_dup_xy, Area_Tri2; cbn [vtx nth tv0 tv1 tv2 fst snd]; lra. }
  apply (H ex_dup_xy ex_dup_po ex_dup_m 3%nat HC HP eq_refl ltac:(cbn; lia)).
  unfold AddPointsMesh. change (length ex_dup_po =? _)%nat with true. cbn [assertb bind].
  change (vget ex_dup_po 3) with (Some (mkP None 0)). cbn [bind pe]. change (vget ex_dup_xy 3) with (Some (0, 0) : option pt). cbn [bind].
  change (length ex_dup_m) with 1%nat.
  assert (EA : add_try ex_dup_xy ex_dup_m (0, 0) (pten 10) 0 = Some VNext).
  { unfold add_try. change (vget ex_dup_m 0) with (Some (mkT 0 1 2 None None None)). cbn [bind tv0 tv1 tv2 vget nth_error ex_dup_xy].
    rewrite (ltR_yes (pten 10) (Area_Tri2 (0, 0) (1, 0) (0, 1))) by (unfold Area_Tri2; cbn [fst snd]; lra).
    rewrite (ltR_no (pten 10) (Area_Tri2 (0, 0) (0, 1) (0, 0))) by (unfold Area_Tri2; cbn [fst snd]; lra).
    rewrite (ltR_no (pten 10) (Area_Tri2 (0, 0) (0, 0) (1, 0))) by (unfold Area_Tri2; cbn [fst snd]; lra).
    reflexivity. }
  unfold forb. cbn [forb_ Nat.sub]. rewrite EA. cbn [bind fst snd]. reflexivity.
Qed.
