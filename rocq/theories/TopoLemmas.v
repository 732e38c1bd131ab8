(** Statements of TopoProps.v proved from the correctness lemmas. *)
From Coq Require Import List Arith Lia Bool Permutation Sorted.
Import ListNotations.
From Verif Require Import Imp JagModel JagSpec JagProofs JagProofs2 TopoModel TopoSpec TopoProofs1 TopoProofs2 TopoProofs3 TopoProofs4.

Lemma C07_l : forall elem nel nno nv face,
  mesh_ok elem nel nno nv -> face_table_ok nno face -> faces_nodup elem nel nno face ->
  exists adj, ElSuEl_MeshElem elem nel nno face nv = Some adj /\ length adj = nel * length face /\
    (forall e f, e < nel -> f < length face ->
       match nth (e * length face + f) adj None with
       | Some j => j < nel /\ j <> e /\ exists g, g < length face /\ same_face elem nno face e f j g
       | None => forall j g, j < nel -> g < length face -> j <> e -> ~ same_face elem nno face e f j g
       end) /\
    (two_sided elem nel nno face ->
     forall e f j, e < nel -> f < length face -> nth (e * length face + f) adj None = Some j ->
       exists g, g < length face /\ same_face elem nno face e f j g /\ nth (j * length face + g) adj None = Some e).
Proof.
  intros. destruct (ElSuEl_correct elem nel nno nv face H H0 H1) as (adj & E & L & HE).
  exists adj. split; auto. split; auto. split.
  - exact HE.
  - intros H2. exact (ElSuEl_symmetric elem nel nno nv face adj H H0 H1 H2 E).
Qed.

Ltac table := split; [reflexivity|]; intros f a Hf; destruct f as [|[|[|[|[|[|f]]]]]]; try lia;
  (split; [repeat (constructor; [simpl; lia|]); constructor|]; simpl;
   split; [intros; repeat match goal with H : _ \/ _ |- _ => destruct H end; subst; try tauto; split; try lia; simpl; try lia; auto
          |intros (Ha & Hb); destruct a as [|[|[|[|[|[|[|[|a]]]]]]]]; simpl in *; try lia; try tauto]).

Lemma C07_tables_l :
  table_lists noelElemFace_Line 2 2 (fun a f => a = f) /\
  table_lists noelElemFace_Tri 3 3 (fun a f => a <> f) /\
  table_lists noelElemFace_Tet 4 4 (fun a f => a <> f) /\
  table_lists noelElemFace_Quad 4 4 (fun a f => a = f \/ a = (f + 1) mod 4) /\
  table_lists noelElemFace_Vox 8 6 (fun a f => on_plane (vox_corner a) f) /\
  table_lists noelElemFace_Hex 8 6 (fun a f => on_plane (hex_corner a) f).
Proof.
  split; [table|]. split; [table|]. split; [table|]. split; [table|]. split; table.
Qed.

Lemma edge_ok_iff : forall elem nel nno etab le bi p q, edge_table_lists etab nno le ->
  edge_ok elem nel nno etab bi p q <-> (bi = true \/ p < q) /\ mesh_edge elem nel nno le p q.
Proof.
  intros elem nel nno etab le bi p q (_ & HT). unfold edge_ok, mesh_edge. split.
  - intros (Hb & e & a & b & He & Hin & [(E1 & E2)|(E1 & E2)]); split; auto.
    + exists e, a, b. rewrite HT. auto.
    + exists e, b, a. rewrite HT. auto.
  - intros (Hb & e & a & b & He & Hl & E1 & E2). split; auto. apply HT in Hl. destruct Hl.
    + exists e, a, b. auto.
    + exists e, b, a. auto.
Qed.

Lemma C08_l : forall line0 elem nel nno nv etab le,
  mesh_ok elem nel nno nv -> edge_table_lists etab nno le ->
  exists L, MeshLine_MeshElem line0 elem nel nno etab nv = Some (line0 ++ flat_map (fun pq => [fst pq; snd pq]) L) /\
    NoDup L /\ forall p q, In (p, q) L <-> p < q /\ mesh_edge elem nel nno le p q.
Proof.
  intros line0 elem nel nno nv etab le HM HT.
  assert (HF : Forall (fun p => fst p < nno /\ snd p < nno) etab).
  { apply Forall_forall. intros [a b] Hin. apply HT in Hin. auto. }
  destruct (MeshLine_MeshElem_ok line0 _ _ _ _ _ HM HF) as (L & E & ND & HL).
  exists L. split; auto. split; auto. intros. rewrite HL. rewrite (edge_ok_iff _ _ _ _ le) by auto.
  intuition discriminate.
Qed.

Lemma C08_jagged_l : forall ind0 elem nel nno nv etab le bi,
  mesh_ok elem nel nno nv -> edge_table_lists etab nno le ->
  exists elsup_ind elsup ind arr rows,
    JArray_ElSuP_MeshElem [] elem nel nno nv = Some (elsup_ind, elsup) /\
    JArrayEdge_MeshElem ind0 [] elem nno etab elsup_ind elsup bi = Some (ind, arr) /\
    jagged ind arr rows /\ length rows = nv /\
    forall p, p < nv -> StronglySorted lt (nth p rows []) /\
      forall q, In q (nth p rows []) <-> (bi = true \/ p < q) /\ mesh_edge elem nel nno le p q.
Proof.
  intros ind0 elem nel nno nv etab le bi HM HT.
  assert (HF : Forall (fun p => fst p < nno /\ snd p < nno) etab).
  { apply Forall_forall. intros [a b] Hin. apply HT in Hin. auto. }
  destruct (ElSuP_correct [] elem nel nno nv HM) as (ei & ea & E & HJ).
  destruct (JArrayEdge_ok elem nel nno nv etab bi HM HF ei ea HJ ind0) as (ind & arr & rows & E2 & HJ2 & HL & HR).
  exists ei, ea, ind, arr, rows. repeat (split; [assumption|]). intros p Hp. destruct (HR p Hp) as (H1 & H2).
  split; auto. intros q. rewrite H2. apply edge_ok_iff. auto.
Qed.

Ltac etable := split;
  [intros a b H; simpl in H; repeat match goal with H : _ \/ _ |- _ => destruct H as [H|H] end; try tauto; inversion H; subst; lia|].

Lemma C08_tables_l :
  edge_table_lists noelElemEdge_Tri 3 (simplex_edge 3) /\
  edge_table_lists noelElemEdge_Quad 4 quad_edge /\
  edge_table_lists noelElemEdge_Hex 8 hex_edge.
Proof.
  split; [etable|split; etable].
  - intros a b. split.
    + intros (Ha & Hb & Hn). do 3 (destruct a as [|a]; [do 3 (destruct b as [|b]; [simpl; try tauto; lia|]); lia|]). lia.
    + intros H. simpl in H. unfold simplex_edge. intuition; match goal with H : (_, _) = _ |- _ => inversion H; subst end; lia.
  - intros a b. split.
    + intros (Ha & Hb & Hn). do 4 (destruct a as [|a]; [do 4 (destruct b as [|b]; [simpl in Hn; simpl; try tauto; lia|]); lia|]). lia.
    + intros H. simpl in H. unfold quad_edge.
      repeat match goal with H : _ \/ _ |- _ => destruct H as [H|H] end; try tauto; inversion H; subst; simpl; lia.
  - intros a b. split.
    + intros (Ha & Hb & Hn).
      do 8 (destruct a as [|a]; [do 8 (destruct b as [|b]; [simpl in Hn; simpl; try tauto; lia|]); lia|]). lia.
    + intros H. simpl in H. unfold hex_edge.
      repeat match goal with H : _ \/ _ |- _ => destruct H as [H|H] end; try tauto; inversion H; subst; simpl; lia.
Qed.

Lemma C11_l : forall exyz etex n nxyz ntex,
  mesh_ok exyz n 3 nxyz -> mesh_ok etex n 3 ntex ->
  (forall t i j, t < n -> i < 3 -> j < 3 -> tv exyz t i = tv exyz t j -> i = j) ->
  (forall t i t' j k, t < n -> t' < n -> i < 3 -> j < 3 -> k < 3 ->
     tv exyz t' j = tv exyz t i -> tv etex t' k = tv etex t i -> tv etex t' j = tv etex t i) ->
  exists tri_uni uni_xyz uni_tex,
    UnifySeparateIndexing nxyz ntex exyz etex = Some (tri_uni, uni_xyz, uni_tex) /\
    length tri_uni = n * 3 /\ length uni_xyz = length uni_tex /\ NoDup (combine uni_xyz uni_tex) /\
    (forall c, c < n * 3 -> exists k, nth c tri_uni None = Some k /\ k < length uni_xyz /\
       nth k uni_xyz 0 = nth c exyz 0 /\ nth k uni_tex 0 = nth c etex 0) /\
    (forall k, k < length uni_xyz -> exists c, c < n * 3 /\ nth c tri_uni None = Some k).
Proof.
  intros exyz etex n nxyz ntex HX HT HD HC.
  pose proof (Unify_ok exyz etex n nxyz ntex HX HT HD HC) as H. apply wp_ex in H.
  destruct H as ([[tu ux] ut] & E & H1 & H2 & H3 & H4 & H5 & H6 & H7).
  exists tu, ux, ut. split; auto. split; auto. split; auto. split; auto.
  assert (Hall : forall c, c < n * 3 -> exists k, nth c tu None = Some k /\ k < length ux /\
       nth k (combine ux ut) (0,0) = (nth c exyz 0, nth c etex 0)).
  { intros c Hc. destruct (nth c tu None) as [k|] eqn:Ek; [|exfalso; apply (H7 c); auto].
    exists k. split; auto. apply H4 in Ek; auto. destruct Ek. split; [lia|auto]. }
  split.
  - intros c Hc. destruct (Hall c Hc) as (k & Ek & Hk & Ep). exists k. split; auto. split; auto.
    rewrite combine_nth in Ep by auto. inversion Ep. auto.
  - intros k Hk. destruct (H5 (nth k (combine ux ut) (0,0))) as (c & Hc & Ec).
    { apply nth_In. rewrite combine_length. lia. }
    exists c. split; auto. destruct (Hall c Hc) as (k' & Ek' & Hk' & Ep').
    rewrite Ek'. f_equal. rewrite Ec in Ep'.
    rewrite (NoDup_nth _ (0,0)) in H3. apply H3; auto; rewrite combine_length; lia.
Qed.
