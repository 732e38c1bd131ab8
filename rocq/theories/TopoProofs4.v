From Coq Require Import List Arith Lia Bool Permutation Sorted.
Import ListNotations.
From Verif Require Import Imp JagModel JagSpec JagProofs JagProofs2 JagProofs3 TopoModel TopoSpec TopoProofs1 TopoProofs3.

(* ------------- C12 ------------- *)
Section Dihedral.
Variables (tri : list nat) (ntri nv : nat).
Hypothesis HM : mesh_ok tri ntri 3 nv.
Hypothesis HO : oriented_manifold tri ntri.

Lemma fv_tri : forall e f, f < 3 ->
  face_verts tri 3 noelElemFace_Tri e f = [fst (dedge tri e f); snd (dedge tri e f)].
Proof. intros e f Hf. destruct f as [|[|[|f]]]; try lia; reflexivity. Qed.

Lemma dedge_neq : forall e f, e < ntri -> f < 3 -> fst (dedge tri e f) <> snd (dedge tri e f).
Proof.
  intros e f He Hf. destruct HO as (H1 & _). unfold dedge. simpl fst. simpl snd. intro E.
  assert (E2 : (f + 1) mod 3 = (f + 2) mod 3) by (apply (H1 e); auto; apply Nat.mod_upper_bound; lia).
  destruct f as [|[|[|f]]]; try lia; discriminate.
Qed.

Lemma tri_faces_nodup : faces_nodup tri ntri 3 noelElemFace_Tri.
Proof.
  intros e f He Hf. rewrite fv_tri by auto. pose proof (dedge_neq e f He Hf).
  constructor. simpl. intuition. constructor. simpl; tauto. constructor.
Qed.

Lemma tri_table_ok : face_table_ok 3 noelElemFace_Tri.
Proof. exists 2. split; [lia|]. split; [discriminate|]. repeat (constructor; [split; [reflexivity|]; repeat constructor|]). constructor. Qed.

Lemma same_face_swap : forall t i j g, t < ntri -> i < 3 -> j < ntri -> g < 3 -> t <> j ->
  same_face tri 3 noelElemFace_Tri t i j g <-> dedge tri j g = (snd (dedge tri t i), fst (dedge tri t i)).
Proof.
  intros t i j g Ht Hi Hj Hg Hne. unfold same_face. rewrite !fv_tri by auto. split.
  - intros H. pose proof (dedge_neq t i Ht Hi) as N1. pose proof (dedge_neq j g Hj Hg) as N2.
    pose proof (proj1 (H (fst (dedge tri t i))) (or_introl eq_refl)) as A.
    pose proof (proj1 (H (snd (dedge tri t i))) (or_intror (or_introl eq_refl))) as B.
    destruct (dedge tri j g) as [c d] eqn:E1. destruct (dedge tri t i) as [a b] eqn:E2. simpl in *.
    destruct A as [A|[A|[]]], B as [B|[B|[]]]; subst; try congruence.
    exfalso. apply Hne. destruct HO as (_ & H2). destruct (H2 t i j g Ht Hj Hi Hg); congruence.
  - intros ->. simpl. intros v. tauto.
Qed.

Lemma FindAdj_ok : forall t i j g, t < ntri -> i < 3 -> j < ntri -> g < 3 ->
  dedge tri j g = (snd (dedge tri t i), fst (dedge tri t i)) ->
  FindAdjEdgeIndex t i j tri = Some (Some g).
Proof.
  intros t i j g Ht Hi Hj Hg HE.
  assert (HL : forall e k, e < ntri -> k < 3 -> vget tri (e * 3 + k) = Some (tv tri e k)).
  { intros. apply vget_nth. destruct HM as (-> & _). nia. }
  unfold FindAdjEdgeIndex.
  rewrite !HL by (auto; try (apply Nat.mod_upper_bound); lia). cbn [bind].
  change (tv tri t ((i + 1) mod 3)) with (fst (dedge tri t i)).
  change (tv tri t ((i + 2) mod 3)) with (snd (dedge tri t i)).
  pose proof (dedge_neq t i Ht Hi). destruct (Nat.eqb_spec (fst (dedge tri t i)) (snd (dedge tri t i))); [tauto|].
  cbn [negb assertb bind].
  assert (U : forall k, k < 3 -> dedge tri j k = (snd (dedge tri t i), fst (dedge tri t i)) -> k = g).
  { intros k Hk Ek. destruct HO as (_ & H2). rewrite <- HE in Ek. apply H2 in Ek; auto. tauto. }
  destruct ((tv tri j 1 =? snd (dedge tri t i)) && (tv tri j 2 =? fst (dedge tri t i))) eqn:E0.
  { apply andb_true_iff in E0. rewrite !Nat.eqb_eq in E0. rewrite <- (U 0); auto; try lia. unfold dedge at 1. simpl. f_equal; tauto. }
  destruct ((tv tri j 2 =? snd (dedge tri t i)) && (tv tri j 0 =? fst (dedge tri t i))) eqn:E1.
  { apply andb_true_iff in E1. rewrite !Nat.eqb_eq in E1. rewrite <- (U 1); auto; try lia. unfold dedge at 1. simpl. f_equal; tauto. }
  destruct ((tv tri j 0 =? snd (dedge tri t i)) && (tv tri j 1 =? fst (dedge tri t i))) eqn:E2.
  { apply andb_true_iff in E2. rewrite !Nat.eqb_eq in E2. rewrite <- (U 2); auto; try lia. unfold dedge at 1. simpl. f_equal; tauto. }
  exfalso. apply andb_false_iff in E0, E1, E2. rewrite !Nat.eqb_neq in *.
  unfold dedge at 1 in HE. destruct g as [|[|[|g]]]; try lia; simpl in HE; inversion HE; tauto.
Qed.

Definition hinge_lt (m : nat) (q : nat * nat * nat * nat) : Prop :=
  let '(o1, o2, a, b) := q in
  exists t i j k, t * 3 + i < m /\ t < j /\ j < ntri /\ i < 3 /\ k < 3 /\
    dedge tri t i = (a, b) /\ dedge tri j k = (b, a) /\ tv tri t i = o1 /\ tv tri j k = o2.


Definition dih_inv (quad0 : list nat) (m : nat) (q : list nat) : Prop :=
  exists Q, q = quad0 ++ flat4 Q /\ NoDup (map quad_mid Q) /\ forall x, In x Q <-> hinge_lt m x.

Lemma dih_skip : forall quad0 t i q, t < ntri -> i < 3 -> dih_inv quad0 (t * 3 + i) q ->
  (forall j k, t < j -> j < ntri -> k < 3 -> dedge tri j k <> (snd (dedge tri t i), fst (dedge tri t i))) ->
  dih_inv quad0 (t * 3 + S i) q.
Proof.
  intros quad0 t i q Ht Hi (Q & E & ND & HQ) Hno. exists Q. split; auto. split; auto.
  intros [[[o1 o2] a] b]. rewrite HQ. unfold hinge_lt. split.
  - intros (t' & i' & j & k & H & R). exists t', i', j, k. split; [lia|auto].
  - intros (t' & i' & j & k & H & R). exists t', i', j, k. split; [|auto].
    destruct (Nat.eq_dec (t' * 3 + i') (t * 3 + i)); [|lia]. exfalso.
    assert (t' = t /\ i' = i) as (-> & ->) by lia.
    destruct R as (H1 & H2 & H3 & H4 & H5 & H6 & _). apply (Hno j k); auto. rewrite H5. auto.
Qed.

Lemma Dihedral_ok : forall quad0,
  exists Q, ElemQuad_DihedralTri quad0 tri ntri nv = Some (quad0 ++ flat4 Q) /\ NoDup (map quad_mid Q) /\
    forall o1 o2 a b, In (o1, o2, a, b) Q <->
      exists t i j k, t < j /\ j < ntri /\ i < 3 /\ k < 3 /\
        dedge tri t i = (a, b) /\ dedge tri j k = (b, a) /\ tv tri t i = o1 /\ tv tri j k = o2.
Proof.
  intros quad0.
  destruct (ElSuEl_correct _ _ _ _ _ HM tri_table_ok tri_faces_nodup) as (adj & EA & LA & HA).
  change (length noelElemFace_Tri) with 3 in *.
  assert (HL : forall e k, e < ntri -> k < 3 -> vget tri (e * 3 + k) = Some (tv tri e k)).
  { intros. apply vget_nth. destruct HM as (-> & _). nia. }
  assert (H : wp (ElemQuad_DihedralTri quad0 tri ntri nv) (dih_inv quad0 (ntri * 3))).
  { unfold ElemQuad_DihedralTri. rewrite EA. cbn [bind]. rewrite LA, Nat.eqb_refl. cbn [assertb bind].
    apply (wp_forn _ (fun t q => dih_inv quad0 (t * 3) q)); [lia| | |auto].
    - exists []. split. simpl. rewrite app_nil_r; auto. split. constructor.
      intros [[[o1 o2] a] b]. simpl. split; [tauto|]. intros (t & i & j & k & H & _). lia.
    - intros t q (_ & Ht) HI.
      apply (wp_forn _ (fun i q => dih_inv quad0 (t * 3 + i) q)); [lia|rewrite Nat.add_0_r; auto| |].
      2:{ intros s Hs. replace (S t * 3) with (t * 3 + 3) by lia. auto. }
      clear q HI. intros i q (_ & Hi) HI.
      apply wp_bind. apply (wp_vget _ None); [rewrite LA; nia|].
      specialize (HA t i Ht Hi). destruct (nth (t * 3 + i) adj None) as [j|]; simpl in HA.
      + destruct HA as (Hj & Hjt & g & Hg & HS). rewrite same_face_swap in HS by auto.
        destruct (Nat.ltb_spec j t).
        * apply wp_some. apply dih_skip; auto. intros j' k' Hj1 Hj2 Hk' E. rewrite <- HS in E.
          destruct HO as (_ & H2). apply H2 in E; auto. lia.
        * rewrite (FindAdj_ok t i j g) by auto. cbn [bind].
          rewrite !HL by (auto; try (apply Nat.mod_upper_bound); lia). cbn [bind].
          change (tv tri t ((i + 1) mod 3)) with (fst (dedge tri t i)).
          change (tv tri t ((i + 2) mod 3)) with (snd (dedge tri t i)).
          change (tv tri j ((g + 1) mod 3)) with (fst (dedge tri j g)).
          change (tv tri j ((g + 2) mod 3)) with (snd (dedge tri j g)).
          rewrite HS. cbn [fst snd]. rewrite !Nat.eqb_refl. cbn [assertb bind].
          apply wp_some. destruct HI as (Q & E & ND & HQ).
          destruct (dedge tri t i) as [a b] eqn:Ed. cbn [fst snd] in *.
          exists (Q ++ [(tv tri t i, tv tri j g, a, b)]).
          split. { unfold flat4. rewrite flat_map_app. simpl. subst q. rewrite <- app_assoc. auto. }
          split.
          { rewrite map_app. simpl. apply (Permutation_NoDup (l := (a, b) :: map quad_mid Q)).
            apply Permutation_cons_append. constructor; auto. intros Hin. apply in_map_iff in Hin.
            destruct Hin as ([[[o1 o2] a'] b'] & Em & Hin). simpl in Em. inversion Em; subst a' b'.
            apply HQ in Hin. destruct Hin as (t' & i' & j' & k' & R1 & R2 & R3 & R4 & R5 & R6 & _).
            destruct HO as (_ & H2). assert (t' = t /\ i' = i) by (apply H2; auto; try lia; congruence). lia. }
          intros x. rewrite in_app_iff, HQ. destruct x as [[[o1 o2] a'] b']. simpl. split.
          { intros [(t' & i' & j' & k' & R1 & R)|[E'|[]]].
            - exists t', i', j', k'. split; [lia|auto].
            - inversion E'; subst. exists t, i, j, g. repeat (split; [auto; lia|]). auto. }
          { intros (t' & i' & j' & k' & R1 & R).
            destruct (Nat.eq_dec (t' * 3 + i') (t * 3 + i)).
            - right. left. assert (t' = t /\ i' = i) as (-> & ->) by lia.
              destruct R as (R2 & R3 & R4 & R5 & R6 & R7 & R8 & R9). rewrite Ed in R6. inversion R6; subst a' b'.
              destruct HO as (_ & H2). assert (j' = j /\ k' = g) as (-> & ->) by (apply H2; auto; congruence).
              congruence.
            - left. exists t', i', j', k'. split; [lia|auto]. }
      + apply wp_some. apply dih_skip; auto. intros j k H1 H2 H3 E.
        apply (HA j k H2 H3); [lia|]. apply same_face_swap; auto. lia. }
  apply wp_ex in H. destruct H as (q & E & Q & -> & ND & HQ). exists Q. split; auto. split; auto.
  intros. rewrite HQ. simpl. split.
  - intros (t & i & j & k & _ & R). exists t, i, j, k. auto.
  - intros (t & i & j & k & R). exists t, i, j, k. split; auto. lia.
Qed.
End Dihedral.

(* ------------- C11 ------------- *)

Lemma set_of_gen : forall l s, StronglySorted lt s ->
  StronglySorted lt (fold_left (fun s x => set_insert x s) l s) /\
  forall y, In y (fold_left (fun s x => set_insert x s) l s) <-> In y l \/ In y s.
Proof.
  induction l; simpl; intros s Hs. split; auto. intuition.
  destruct (IHl (set_insert a s) (set_insert_sorted _ _ Hs)) as (H1 & H2). split; auto.
  intros y. rewrite H2, set_insert_In. intuition.
Qed.

Lemma set_of_ok : forall l, NoDup (set_of l) /\ forall y, In y (set_of l) <-> In y l.
Proof.
  intros l. destruct (set_of_gen l [] ltac:(constructor)) as (H1 & H2). split.
  apply StronglySorted_NoDup; auto. intros y. unfold set_of. rewrite H2. simpl. tauto.
Qed.

Lemma jag_slice : forall ind (arr : list nat) rows k, jagged ind arr rows -> k < length rows ->
  exists lo hi, vget ind k = Some lo /\ vget ind (k + 1) = Some hi /\ firstn (hi - lo) (skipn lo arr) = nth k rows [].
Proof.
  intros ind arr rows k (Ea & Ei) Hk. change (ind = offsets rows) in Ei. subst.
  exists (offs rows k), (offs rows (k + 1)). rewrite !(vget_nth _ 0) by (rewrite offsets_length; lia).
  rewrite !offsets_nth by lia. split; auto. split; auto. replace (k + 1) with (S k) by lia. apply concat_slice; auto.
Qed.

Lemma elem_verts3 : forall elem n nv t x, mesh_ok elem n 3 nv -> t < n ->
  In x (elem_verts elem 3 t) <-> exists i, i < 3 /\ tv elem t i = x.
Proof.
  intros elem n nv t x (HL & _) Ht. unfold elem_verts, tv.
  assert (3 <= length (skipn (t * 3) elem)) by (rewrite skipn_length; lia).
  assert (forall i, nth (t * 3 + i) elem 0 = nth i (skipn (t * 3) elem) 0) as E by (intros; rewrite nth_skipn'; auto).
  destruct (skipn (t * 3) elem) as [|a [|b [|c l]]]; simpl in H; try lia.
  simpl. split.
  - intros [H1|[H1|[H1|[]]]]; [exists 0|exists 1|exists 2]; rewrite E; simpl; auto.
  - intros (i & Hi & H1). rewrite E in H1. destruct i as [|[|[|i]]]; simpl in H1; auto; lia.
Qed.

Section Unify.
Variables (exyz etex : list nat) (n nxyz ntex : nat).
Hypothesis HX : mesh_ok exyz n 3 nxyz.
Hypothesis HT : mesh_ok etex n 3 ntex.
Hypothesis HD : forall t i j, t < n -> i < 3 -> j < 3 -> tv exyz t i = tv exyz t j -> i = j.
Hypothesis HC : forall t i t' j k, t < n -> t' < n -> i < 3 -> j < 3 -> k < 3 ->
  tv exyz t' j = tv exyz t i -> tv etex t' k = tv etex t i -> tv etex t' j = tv etex t i.

Let P c := (nth c exyz 0, nth c etex 0).

Definition uni_inv (m : nat) (s : list (option nat) * list nat * list nat) : Prop :=
  let '(tu, ux, ut) := s in
  length tu = n * 3 /\ length ux = length ut /\ NoDup (combine ux ut) /\
  (forall c k, c < n * 3 -> nth c tu None = Some k -> k < length ut /\ nth k (combine ux ut) (0,0) = P c) /\
  (forall p, In p (combine ux ut) -> exists c, c < n * 3 /\ P c = p) /\
  (forall c, c < n * 3 -> nth c tu None = None -> ~ In (P c) (combine ux ut)) /\
  (forall c, c < m -> nth c tu None <> None).

Lemma FindIndexTri_ok : forall t i, t < n -> i < 3 -> FindIndexTri exyz t (tv exyz t i) = Some i.
Proof.
  intros t i Ht Hi. assert (HL : forall k, k < 3 -> vget exyz (t * 3 + k) = Some (tv exyz t k)).
  { intros. apply vget_nth. destruct HX as (-> & _). nia. }
  unfold FindIndexTri. rewrite !HL by lia. cbn [bind].
  destruct (Nat.eqb_spec (tv exyz t 0) (tv exyz t i)) as [E|E]. { apply HD in E; auto; try lia; subst; auto. }
  destruct (Nat.eqb_spec (tv exyz t 1) (tv exyz t i)) as [E1|E1]. { apply HD in E1; auto; try lia; subst; auto. }
  destruct (Nat.eqb_spec (tv exyz t 2) (tv exyz t i)) as [E2|E2]. { apply HD in E2; auto; try lia; subst; auto. }
  exfalso. destruct i as [|[|[|i]]]; auto. lia.
Qed.

Lemma combine_snoc : forall (ux ut : list nat) x y, length ux = length ut ->
  combine (ux ++ [x]) (ut ++ [y]) = combine ux ut ++ [(x, y)].
Proof.
  induction ux; destruct ut; simpl; intros; try discriminate; auto. f_equal. apply IHux. lia.
Qed.

Lemma Unify_ok : wp (UnifySeparateIndexing nxyz ntex exyz etex) (uni_inv (n * 3)).
Proof.
  destruct (ElSuP_correct [] exyz n 3 nxyz HX) as (ind0 & es0 & E0 & J0).
  destruct (ElSuP_correct [] etex n 3 ntex HT) as (ind1 & es1 & E1 & J1).
  assert (LX : length exyz = n * 3) by apply HX. assert (LT : length etex = n * 3) by apply HT.
  unfold UnifySeparateIndexing. rewrite LX, LT. rewrite Nat.div_mul by lia. rewrite Nat.eqb_refl. cbn [assertb bind].
  rewrite E0. cbn [bind]. rewrite E1. cbn [bind].
  apply (wp_forn _ (fun t s => uni_inv (t * 3) s)); [lia| | |auto].
  { unfold uni_inv. rewrite repeat_length. split; auto. split; auto. split. { constructor. }
    split. { intros c k Hc E. rewrite nth_repeat' in E by auto. discriminate. }
    split. { simpl. tauto. } split; [simpl; tauto|]. intros; lia. }
  intros t s (_ & Ht) HI.
  apply (wp_forn _ (fun i s => uni_inv (t * 3 + i) s)); [lia|rewrite Nat.add_0_r; auto| |].
  2:{ intros s' Hs. replace (S t * 3) with (t * 3 + 3) by lia. auto. }
  clear s HI. intros i [[tu ux] ut] (_ & Hi) HI. pose proof HI as (HL & HU & HN & HB & HQ & HF & HS).
  set (c := t * 3 + i) in *.
  apply wp_bind. apply (wp_vget _ None); [unfold c; nia|].
  destruct (nth c tu None) as [k|] eqn:Ec.
  { apply wp_some. unfold uni_inv. do 6 (split; [assumption|]). intros c' Hc'.
    destruct (Nat.eq_dec c' c). subst; congruence. apply HS. lia. }
  apply wp_bind. apply (wp_vget _ 0); [unfold c; nia|]. apply wp_bind. apply (wp_vget _ 0); [unfold c; nia|].
  assert (Hxv : nth c exyz 0 < nxyz). { destruct HX as (_ & H). rewrite Forall_forall in H. apply H, nth_In. unfold c; nia. }
  assert (Htv : nth c etex 0 < ntex). { destruct HT as (_ & H). rewrite Forall_forall in H. apply H, nth_In. unfold c; nia. }
  destruct (jag_slice _ _ _ (nth c exyz 0) J0) as (lo0 & h0 & G1 & G2 & G3). { rewrite map_length, seq_length; auto. }
  destruct (jag_slice _ _ _ (nth c etex 0) J1) as (lo1 & h1 & G4 & G5 & G6). { rewrite map_length, seq_length; auto. }
  rewrite G1, G2, G4, G5. cbn [bind]. rewrite G3, G6. rewrite !nth_map_seq by auto. simpl Nat.add.
  cbn zeta.
  set (tris := filter _ _).
  assert (Hnd : NoDup tris) by (apply NoDup_filter; apply set_of_ok).
  assert (Htris : forall j, In j tris <-> j < n /\ (exists a, a < 3 /\ tv exyz j a = nth c exyz 0) /\ (exists b, b < 3 /\ tv etex j b = nth c etex 0)).
  { intros j. unfold tris. rewrite filter_In. rewrite (proj2 (set_of_ok _)). rewrite existsb_exists.
    rewrite elsup_row_In. split.
    - intros ((Hj & Hv) & (x & Hx & Ex)). apply Nat.eqb_eq in Ex. subst x. rewrite (proj2 (set_of_ok _)) in Hx.
      apply elsup_row_In in Hx. split; auto. split.
      + eapply elem_verts3 in Hv; eauto.
      + destruct Hx as (_ & Hx). eapply elem_verts3 in Hx; eauto.
    - intros (Hj & Ha & Hb). split. split; auto. eapply elem_verts3; eauto.
      exists j. split; [|apply Nat.eqb_refl]. apply (proj2 (set_of_ok _)). apply elsup_row_In. split; auto.
      eapply elem_verts3; eauto. }
  assert (Hself : In t tris). { apply Htris. split; auto. split; exists i; auto. }
  assert (Hcorner : forall j, In j tris -> exists a, j < n /\ a < 3 /\ tv exyz j a = nth c exyz 0 /\ tv etex j a = nth c etex 0).
  { intros j Hj. apply Htris in Hj. destruct Hj as (Hj & (a & Ha & Ea) & (b & Hb & Eb)). exists a.
    repeat (split; [auto|]). apply (HC t i j a b); auto. }
  assert (Hgoal : wp (tri_uni <- foldM (fun jtri tri_uni =>
              jno <- FindIndexTri exyz jtri (nth c exyz 0) ;;
              a <- vget exyz (jtri * 3 + jno) ;; assertb (a =? nth c exyz 0) ;;;
              b <- vget etex (jtri * 3 + jno) ;; assertb (b =? nth c etex 0) ;;;
              c <- vget tri_uni (jtri * 3 + jno) ;;
              assertb (match c with None => true | Some _ => false end) ;;;
              vset tri_uni (jtri * 3 + jno) (Some (length ut))) tris tu ;;
          Some (tri_uni, ux ++ [nth c exyz 0], ut ++ [nth c etex 0])) (uni_inv (t * 3 + S i))).
  2:{ destruct tris; [destruct Hself|]. exact Hgoal. }
  apply wp_bind.
  apply (wp_foldM _ _ (fun l tu' => length tu' = n * 3 /\
     forall c', c' < n * 3 -> nth c' tu' None = if in_dec Nat.eq_dec (c' / 3) l then (if Nat.eq_dec (nth c' exyz 0) (nth c exyz 0) then Some (length ut) else nth c' tu None) else nth c' tu None)).
  - split; auto.
  - intros l1 j l2 tu' El (HL' & HV).
    assert (Hj : In j tris) by (rewrite El; apply in_or_app; right; left; auto).
    assert (Hnot : ~ In j l1). { intros Hin. rewrite El in Hnd. apply NoDup_remove_2 in Hnd. apply Hnd. apply in_or_app; auto. }
    destruct (Hcorner j Hj) as (a & Hjn & Ha & Ea & Eb).
    rewrite <- Ea at 1. rewrite FindIndexTri_ok by auto. cbn [bind].
    rewrite (vget_nth _ 0) by nia. cbn [bind]. change (nth (j * 3 + a) exyz 0) with (tv exyz j a). rewrite Ea, Nat.eqb_refl. cbn [assertb bind].
    rewrite (vget_nth _ 0) by nia. cbn [bind]. change (nth (j * 3 + a) etex 0) with (tv etex j a). rewrite Eb, Nat.eqb_refl. cbn [assertb bind].
    assert (Hdiv : (j * 3 + a) / 3 = j) by (symmetry; apply (Nat.div_unique _ 3 j a); lia).
    apply wp_bind. apply (wp_vget _ None); [nia|].
    assert (Hnone : nth (j * 3 + a) tu' None = None).
    { rewrite HV by nia. rewrite Hdiv. destruct (in_dec Nat.eq_dec j l1); [tauto|].
      destruct (nth (j * 3 + a) tu None) as [k|] eqn:Ek; auto. exfalso.
      apply HB in Ek; [|nia]. destruct Ek as (Hk & Ek). apply (HF c); [unfold c; nia|auto|].
      replace (P c) with (P (j * 3 + a)). rewrite <- Ek. apply nth_In. rewrite combine_length. lia.
      unfold P. unfold tv in Ea, Eb. rewrite Ea, Eb. auto. }
    rewrite Hnone. cbn [assertb bind]. apply wp_vset; [nia|]. split; [lens; auto|].
    intros c' Hc'. rewrite nth_upd by nia.
    destruct (Nat.eq_dec (j * 3 + a) c').
    + subst c'. rewrite Hdiv. destruct (in_dec Nat.eq_dec j (l1 ++ [j])) as [_|Hx]; [|exfalso; apply Hx; apply in_or_app; right; left; auto].
      change (nth (j * 3 + a) exyz 0) with (tv exyz j a).
      destruct (Nat.eq_dec (tv exyz j a) (nth c exyz 0)); [auto|congruence].
    + rewrite HV by auto.
      destruct (in_dec Nat.eq_dec (c' / 3) l1) as [H1|H1], (in_dec Nat.eq_dec (c' / 3) (l1 ++ [j])) as [H2|H2]; auto.
      * exfalso. apply H2. apply in_or_app. auto.
      * apply in_app_iff in H2. destruct H2 as [H2|[H2|[]]]; [tauto|].
        destruct (Nat.eq_dec (nth c' exyz 0) (nth c exyz 0)) as [E|E]; auto. exfalso.
        pose proof (Nat.div_mod c' 3 ltac:(lia)) as Hdm. pose proof (Nat.mod_upper_bound c' 3 ltac:(lia)).
        assert (c' mod 3 = a). { apply (HD j); auto. rewrite Ea. unfold tv. rewrite <- E. f_equal. lia. }
        lia.
  - intros tu' (HL' & HV). apply wp_some.
    assert (HV' : forall c', c' < n * 3 -> nth c' tu' None = if (fst (P c') =? fst (P c)) && (snd (P c') =? snd (P c)) then Some (length ut) else nth c' tu None).
    { intros c' Hc'. rewrite HV by auto.
      pose proof (Nat.div_mod c' 3 ltac:(lia)) as Hdm. pose proof (Nat.mod_upper_bound c' 3 ltac:(lia)) as Hm.
      assert (Hd3 : c' / 3 < n) by (apply Nat.div_lt_upper_bound; lia).
      assert (Etv : forall el, tv el (c' / 3) (c' mod 3) = nth c' el 0) by (intros; unfold tv; f_equal; lia).
      unfold P. cbn [fst snd].
      destruct (Nat.eqb_spec (nth c' exyz 0) (nth c exyz 0)) as [E|E]; cbn [andb].
      - destruct (Nat.eqb_spec (nth c' etex 0) (nth c etex 0)) as [E'|E'].
        + destruct (in_dec Nat.eq_dec (c' / 3) tris) as [H|H].
          * destruct Nat.eq_dec; [auto|congruence].
          * exfalso. apply H. apply Htris. split; auto. split; exists (c' mod 3); rewrite Etv; auto.
        + destruct (in_dec Nat.eq_dec (c' / 3) tris) as [H|H]; auto. exfalso.
          destruct (Hcorner _ H) as (a & _ & Ha & Ea & Eb).
          assert (c' mod 3 = a). { apply (HD (c' / 3)); auto. rewrite Etv. congruence. }
          subst a. rewrite Etv in Eb. auto.
      - destruct (in_dec Nat.eq_dec (c' / 3) tris) as [H|H]; auto. destruct Nat.eq_dec; [congruence|auto]. }
    assert (HPn : ~ In (P c) (combine ux ut)) by (apply HF; auto; unfold c; nia).
    unfold uni_inv. rewrite combine_snoc by auto. rewrite !app_length. change (nth c exyz 0, nth c etex 0) with (P c).
    assert (HPe : forall c', (fst (P c') =? fst (P c)) && (snd (P c') =? snd (P c)) = true <-> P c' = P c).
    { intros c'. rewrite andb_true_iff, !Nat.eqb_eq. destruct (P c'), (P c). simpl. split; [intros (->&->); auto|intros E; inversion E; auto]. }
    split; auto. split. { simpl; lia. }
    split. { apply (Permutation_NoDup (l := P c :: combine ux ut)). apply Permutation_cons_append. constructor; auto. }
    assert (Lc : length (combine ux ut) = length ut) by (rewrite combine_length; lia).
    split.
    { intros c' k Hc' Ek. rewrite HV' in Ek by auto.
      destruct ((fst (P c') =? fst (P c)) && (snd (P c') =? snd (P c))) eqn:Eb.
      - apply HPe in Eb. inversion Ek; subst k. split; [simpl; lia|]. rewrite app_nth2 by lia. rewrite Lc, Nat.sub_diag. simpl. auto.
      - apply HB in Ek; auto. destruct Ek as (Hk & Ek). split; [simpl; lia|]. rewrite app_nth1 by lia. auto. }
    split.
    { intros p Hp. apply in_app_iff in Hp. destruct Hp as [Hp|[Hp|[]]]; auto. exists c. split; auto. unfold c; nia. }
    split.
    { intros c' Hc' En. rewrite HV' in En by auto.
      destruct ((fst (P c') =? fst (P c)) && (snd (P c') =? snd (P c))) eqn:Eb; [discriminate|].
      rewrite in_app_iff. intros [Hx|[Hx|[]]]. apply (HF c'); auto. symmetry in Hx. apply HPe in Hx. congruence. }
    intros c' Hc'. rewrite HV' by (unfold c in *; nia).
    destruct ((fst (P c') =? fst (P c)) && (snd (P c') =? snd (P c))) eqn:Eb; [discriminate|].
    apply HS. destruct (Nat.eq_dec c' c). { subst c'. rewrite !Nat.eqb_refl in Eb. discriminate. } unfold c in *; lia.
Qed.
End Unify.
