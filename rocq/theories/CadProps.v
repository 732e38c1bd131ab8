(** C40: the topology of the CAD model after any editing history. *)
From Coq Require Import List Arith Bool Lia.
Import ListNotations.
From Verif Require Import Imp CadModel CadSpec CadProofs1 CadProofs2 CadProofs3.

(** After any history of operations with any arguments the stored topology represents the drawing, the checks of Assert hold, and no further operation can fail. *)
Theorem C40_history : forall t D, reached (fun _ => True) t D ->
  represents t D /\ Assert t = Some tt /\ forall o, exists t', exec o t = Some t'.
Proof.
  intros t D H. assert (R := reached_rep _ _ _ H). split; auto. split; [eapply Assert_ok; eauto|]. intros o. destruct (rep_step t D o R) as (t' & E & _). eauto.
Qed.
Print Assumptions C40_history.

(** The insertions report whether the index was valid, and change nothing when it was not. *)
Theorem C40_flags : forall t D i, reached (fun _ => True) t D ->
  (exists t', AddVtx_Face t i = Some (t', i <? length (d_faces D)) /\ (length (d_faces D) <= i -> t' = t)) /\
  (exists t', AddVtx_Edge t i = Some (t', i <? length (edges t)) /\ (length (edges t) <= i -> t' = t)).
Proof.
  intros t D i H. assert (R := reached_rep _ _ _ H). assert (LF : length (faces t) = length (d_faces D)) by (eapply Forall2_len; apply (rp_faces t D R)). split.
  - destruct (rep_step t D (OVtxFace i) R) as (t' & E & _). cbn [exec] in E. destruct (AddVtx_Face t i) as [(t1, b)|] eqn:X; [|discriminate]. injection E as ->. exists t'. unfold AddVtx_Face in X. rewrite LF in X. destruct (Nat.leb_spec (length (d_faces D)) i) as [G|G].
    + injection X as <- <-. rewrite (proj2 (Nat.ltb_ge _ _)) by auto. auto.
    + destruct (vmod _ _ _); cbn [bind] in X; [|discriminate]. injection X as _ <-. rewrite (proj2 (Nat.ltb_lt _ _)) by auto. split; auto. lia.
  - destruct (rep_step t D (OVtxEdge i) R) as (t' & E & _). cbn [exec] in E. destruct (AddVtx_Edge t i) as [(t1, b)|] eqn:X; [|discriminate]. injection E as ->. exists t'. unfold AddVtx_Edge in X. destruct (Nat.leb_spec (length (edges t)) i) as [G|G].
    + injection X as <- <-. rewrite (proj2 (Nat.ltb_ge _ _)) by auto. auto.
    + destruct (vget (edges t) i); cbn [bind] in X; [|discriminate]. destruct (vset _ i _); cbn [bind] in X; [|discriminate]. destruct (vset l _ _); cbn [bind] in X; [|discriminate]. destruct (forn _ _ _ _); cbn [bind] in X; [|discriminate]. injection X as _ <-. rewrite (proj2 (Nat.ltb_lt _ _)) by auto. split; auto. lia.
Qed.
Print Assumptions C40_flags.

(** The edges listed for a face are the boundary edges of its shapes, in order and forward. *)
Theorem C40_EdgeIndexes_Face : forall t D i ss, reached (fun _ => True) t D -> nth_error (d_faces D) i = Some ss ->
  exists r, EdgeIndexes_Face t i = Some r /\ Forall (fun p => snd p = true) r /\
    map (fun p => VertexIndexs_EdgeEndPoints t (fst p)) r = map Some (concat (map shape_edges ss)).
Proof.
  intros t D i ss H E. destruct (EdgeIndexes_ok t D i ss (reached_rep _ _ _ H) E) as (r & A & B & C). exists r. split; auto.
Qed.
Print Assumptions C40_EdgeIndexes_Face.

(** An edge is found in exactly one face, one that has its end points consecutive on a boundary. *)
Theorem C40_FindFaceIndexes_IncludeEdge : forall t D ie p, reached (fun _ => True) t D -> VertexIndexs_EdgeEndPoints t ie = Some p ->
  exists i ss s, FindFaceIndexes_IncludeEdge t ie = Some [i] /\ nth_error (d_faces D) i = Some ss /\ In s ss /\ In p (shape_edges s).
Proof.
  intros t D ie p H E. apply find_edge_ok; [eapply reached_rep; eauto|]. rewrite <- E. unfold VertexIndexs_EdgeEndPoints, ends_of, vget. destruct (nth_error (edges t) ie); auto.
Qed.
Print Assumptions C40_FindFaceIndexes_IncludeEdge.

(** Without isolated vertices, the vertices listed for a face are its boundary, and a vertex is found in exactly the face that has it. *)
Theorem C40_VertexIndexs_Face : forall t D, reached (fun o => forall i, o <> OVtxFace i) t D ->
  (forall i, i < length (d_faces D) -> exists vs, VertexIndexs_Face t i = Some vs /\ nth_error (d_faces D) i = Some [cycle vs]) /\
  (forall v, v < d_nv D -> exists i vs, FindFaceIndexes_IncludeVeretx t v = Some [i] /\ nth_error (d_faces D) i = Some [cycle vs] /\ In v vs).
Proof.
  intros t D H. assert (R := reached_rep _ _ _ H). assert (LF : length (faces t) = length (d_faces D)) by (eapply Forall2_len; apply (rp_faces t D R)). split; intros x L.
  - apply VertexIndexs_ok; auto. lia.
  - apply find_vertex_ok; auto. rewrite (rp_nv t D R). auto.
Qed.
Print Assumptions C40_VertexIndexs_Face.

(** With isolated vertices the same two queries are wrong: a face is looked up as a loop, and a loop with an isolated vertex claims every vertex. *)
Definition run (os : list op) : option topo := foldM exec os topo0.
Fixpoint draw (os : list op) (t : topo) (D : drawing) : drawing := match os with [] => D | o :: os => match exec o t with Some t' => draw os t' (step (ends_of (edges t)) o D) | None => D end end.
Lemma run_reached : forall (P : op -> Prop) os t D t', reached P t D -> Forall P os -> foldM exec os t = Some t' -> reached P t' (draw os t D).
Proof.
  intros P. induction os as [|o os IH]; intros t D t' H F E; cbn [foldM draw] in *; [injection E as <-; auto|]. apply Forall_cons_iff in F. destruct F as (F1 & F2). destruct (exec o t) as [t1|] eqn:X; [|discriminate]. cbn [bind] in E. apply IH; auto. econstructor; eauto.
Qed.
Definition history1 := [OPolygon 3; OVtxFace 0; OPolygon 3].
Theorem C40_isolated_refuted : exists t D, reached (fun _ => True) t D /\
  nth_error (d_faces D) 1 = Some [cycle [4; 5; 6]] /\ VertexIndexs_Face t 1 = Some [] /\
  nth_error (d_faces D) 0 = Some [cycle [0; 1; 2]; dot 3] /\ FindFaceIndexes_IncludeVeretx t 5 = Some [0; 1].
Proof.
  destruct (run history1) as [t|] eqn:E; [|discriminate]. exists t, (draw history1 topo0 (Drawing 0 [])). split.
  - apply run_reached; [constructor| |exact E]. repeat constructor.
  - injection E as <-. vm_compute. auto.
Qed.
Print Assumptions C40_isolated_refuted.

(** Non-trivial histories: two polygons, a split edge, a rejected index, an isolated vertex, another split of a split edge. *)
Definition history2 := [OPolygon 4; OVtxEdge 1; OPolygon 3; OVtxEdge 4; OVtxEdge 99; OVtxEdge 6].
Example history2_no_dots : exists t, reached (fun o => forall i, o <> OVtxFace i) t (draw history2 topo0 (Drawing 0 [])) /\ draw history2 topo0 (Drawing 0 []) = Drawing 10 [[cycle [0; 1; 4; 8; 2; 3]]; [cycle [5; 6; 9; 7]]].
Proof.
  destruct (run history2) as [t|] eqn:E; [|discriminate]. exists t. split; [|reflexivity]. apply run_reached; [constructor| |exact E]. repeat constructor; intros i; discriminate.
Qed.
Example history3 : exists t, reached (fun _ => True) t (draw (history2 ++ [OVtxFace 1; OVtxFace 7; OVtxEdge 0]) topo0 (Drawing 0 [])) /\ draw (history2 ++ [OVtxFace 1; OVtxFace 7; OVtxEdge 0]) topo0 (Drawing 0 []) = Drawing 12 [[cycle [0; 11; 1; 4; 8; 2; 3]]; [cycle [5; 6; 9; 7]; dot 10]].
Proof.
  destruct (run (history2 ++ [OVtxFace 1; OVtxFace 7; OVtxEdge 0])) as [t|] eqn:E; [|discriminate]. exists t. split; [|reflexivity]. apply run_reached; [constructor| |exact E]. repeat constructor.
Qed.
