(** C64: collapsing an edge of a dynamic triangle mesh. *)
From Coq Require Import List Arith Lia Bool Relations.
Import ListNotations.
From Verif Require Import Imp TopoSpec DtriModel DtriSpec CollModel CollSpec DtriProps DtriProofs1 DtriProofs2 DtriProofs4 CollProofs1 CollProofs2 CollProofs3 CollProofs4 CollProofs5 CollProofs6 CollProofs7 CollProofs8.

(** An edge between two triangles that no third triangle has: the call never fails; "false" leaves everything as it was;
    "true" gives a consistent mesh which is the merged one. *)
Theorem C64_collapse : forall po m t e u k, consistent po m -> t < length m -> twin m t e u k -> edge_once m t e u ->
  exists b po' f, CollapseEdge_MeshDTri t e po m = Some (b, (po', f)) /\ consistent po' f /\ length po' = length po /\
    (b = false -> po' = po /\ f = m) /\
    (b = true -> (exists o, merged m f t e u k o) /\
       (forall q, q < length po -> q <> V m t (pv e) -> has_link po q -> has_link po' q)).
Proof.
  intros po m t e u k HC Ht TB Ho. destruct (wp_ex _ _ _ (collapse_main po m t e u k HC Ht TB Ho)) as ((b & po' & f) & E & H).
  exists b, po', f. split; auto. destruct H as [(-> & -> & -> & _)|(-> & H1 & H2 & H3 & H4 & _)].
  - split; auto. split; auto. split; auto. discriminate.
  - split; auto. split; auto. split; [discriminate|]. auto.
Qed.
Print Assumptions C64_collapse.

(** When it is collapsed. *)
Theorem C64_when : forall po m t e u k, consistent po m -> simple_edges m -> t < length m -> twin m t e u k ->
  whole_fan m t (pv e) -> whole_fan m t (nx e) ->
  exists b st, CollapseEdge_MeshDTri t e po m = Some (b, st) /\ (b = true <-> link_ok m t e u k).
Proof.
  intros po m t e u k HC Hs Ht TB WZ WX. pose proof (proj1 HC) as Hm.
  destruct (wp_ex _ _ _ (collapse_main po m t e u k HC Ht TB (simple_once m t e u k Hm Hs Ht TB))) as ((b & po' & f) & E & H).
  exists b, (po', f). split; auto. destruct H as [(-> & _ & _ & H)|(-> & _ & _ & _ & _ & H)].
  - split; [discriminate|]. intros Q. exfalso. apply (bad_not m t e u k Hm Ht TB Hs H); auto.
  - split; auto. intros _. apply good_ok; auto.
Qed.
Print Assumptions C64_when.

(** Manifold meshes stay manifold, and the merged point is no longer used. *)
Theorem C64_manifold : forall po m t e, consistent po m -> manifold m -> t < length m -> e < 3 -> L m t e <> None ->
  exists b po' f, CollapseEdge_MeshDTri t e po m = Some (b, (po', f)) /\ consistent po' f /\ manifold f /\
    (b = true -> (forall s i, s < length f -> i < 3 -> V f s i <> V m t (pv e)) /\ ~ has_link po' (V m t (pv e))).
Proof.
  intros po m t e HC (Hs & Wh) Ht He Hl. pose proof (proj1 HC) as Hm.
  destruct (L m t e) as [u|] eqn:Lu; [|congruence]. destruct (L_twin m t e u Hm Ht He Lu) as (k & TB).
  destruct (wp_ex _ _ _ (collapse_main po m t e u k HC Ht TB (simple_once m t e u k Hm Hs Ht TB))) as ((b & po' & f) & E & H).
  exists b, po', f. split; auto. destruct H as [(-> & -> & -> & H)|(-> & H1 & H2 & _ & (o & Mg) & H)].
  - split; auto. split; [split; auto|discriminate].
  - pose proof (good_ok m t e u k Hm Ht TB Hs (Wh _ _ Ht (pv_lt e)) (Wh _ _ Ht (nx_lt e)) H) as Lk.
    destruct H as (C & c & D & d & E0 & g & F & f0 & l & l' & (TC & TD & TE & TF) & _ & _ & _ & F1 & F2 & _).
    pose proof (proj1 H1) as Hf.
    pose proof (keep_simple m f t e u k o Hm Ht TB Hs Wh Lk Mg) as K1.
    pose proof (keep_whole m f t e u k o Hm Hf Ht TB Wh Lk Mg C c D d E0 g F f0 l l' TC TD TE TF F1 F2) as K2.
    pose proof (no_Z m f t e u k o Hm Ht TB Wh Lk Mg) as K3.
    split; auto. split; [split; auto|]. intros _. split; auto.
    intros Hz. unfold has_link in Hz. destruct (pe (nth (V m t (pv e)) po' (mkP None 0))) as [q|] eqn:Eq; [|congruence].
    assert (Hlt : V m t (pv e) < length po') by (rewrite H2; apply HC; auto).
    destruct H1 as (_ & _ & Q). destruct (Q _ q Hlt Eq) as (Q1 & Q2 & Q3). apply (K3 q _ Q1 Q2 Q3).
Qed.
Print Assumptions C64_manifold.

(** Any history of insertions, flips, deletions and collapses. *)
Theorem C64_history : forall eds po m, consistent po m -> allowed_all2 eds (po, m) ->
  exists po' m', foldM run2 eds (po, m) = Some (po', m') /\ consistent po' m'.
Proof.
  induction eds as [|ed eds IH]; intros po m HC HA.
  - exists po, m. split; auto.
  - destruct HA as (H1 & H2). cbn [fst snd] in *.
    assert (S : exists po1 m1, run2 ed (po, m) = Some (po1, m1) /\ consistent po1 m1).
    { destruct ed as [ed|t e]; cbn [run2 allowed2] in *.
      - destruct (C17_history [ed] po m HC) as (po1 & m1 & E & HC1 & _).
        { split; auto. intros; exact I. }
        cbn [foldM] in E. exists po1, m1. destruct (run1 ed (po, m)) as [x|] eqn:Er; [|discriminate]. cbn [bind] in E. auto.
      - destruct H1 as (Ht & u & k & TB & Ho). destruct (C64_collapse po m t e u k HC Ht TB Ho) as (b & po1 & m1 & E & HC1 & _).
        exists po1, m1. cbn [fst snd]. rewrite E. cbn [bind]. auto. }
    destruct S as (po1 & m1 & E & HC1). cbn [foldM]. rewrite E. cbn [bind]. apply IH; auto.
Qed.
Print Assumptions C64_history.

(** Examples: the octahedron. *)
Fixpoint ex_walk (m : list dtri) (n : nat) (c : nat * nat) : list (nat * nat) :=
  c :: match n with
       | 0 => []
       | S n => match MoveCCW (fst c) (snd c) None m with Some (Some c') => ex_walk m n c' | _ => [] end
       end.
Lemma ex_walk_around : forall m n c, tri_ok m -> vc m c -> forall x, In x (ex_walk m n c) -> around m c x.
Proof.
  intros m n. induction n as [|n IH]; intros c Hm Hc x Hx.
  - destruct Hx as [<-|[]]. apply rt_refl.
  - destruct Hx as [<-|Hx]; [apply rt_refl|].
    destruct (turn_next m Hm c Hc) as [(c' & T)|Hn].
    + pose proof (turn_vc m Hm c c' Hc T) as Vc'.
      rewrite (MoveCCW_go m c c' None Hc Vc' T) in Hx; [|discriminate|apply (Hm _ (proj1 Hc))|apply (Hm _ (proj1 Vc'))].
      apply rt_trans with c'; [apply rt_step; auto|]. apply IH; auto.
    + rewrite (MoveCCW_stop m c None Hc Hn) in Hx. destruct Hx.
Qed.
Definition ex_whole (m : list dtri) : bool :=
  forallb (fun t => forallb (fun i => forallb (fun s => forallb (fun j =>
    negb (V m s j =? V m t i) || (if in_dec cdec (s, j) (ex_walk m (length m) (t, i)) then true else false) ||
    (if in_dec cdec (t, i) (ex_walk m (length m) (s, j)) then true else false))
    [0;1;2]) (seq 0 (length m))) [0;1;2]) (seq 0 (length m)).
Lemma ex_in3 : forall i, i < 3 -> In i [0;1;2].
Proof. intros i Hi. c3 i; cbn; auto. Qed.
Lemma ex_whole_ok : forall m, tri_ok m -> ex_whole m = true -> forall t i, t < length m -> i < 3 -> whole_fan m t i.
Proof.
  intros m Hm H t i Ht Hi s j Hsl Hj E. unfold ex_whole in H. rewrite forallb_forall in H.
  specialize (H t ltac:(apply in_seq; lia)). rewrite forallb_forall in H. specialize (H i (ex_in3 i Hi)).
  rewrite forallb_forall in H. specialize (H s ltac:(apply in_seq; lia)). rewrite forallb_forall in H. specialize (H j (ex_in3 j Hj)).
  rewrite E, Nat.eqb_refl in H. cbn [negb orb] in H. destruct in_dec as [I|]; cbn [orb] in H.
  - left. apply (ex_walk_around m (length m)); auto. split; auto.
  - destruct in_dec as [I|]; [|discriminate]. right. apply (ex_walk_around m (length m)); auto. split; auto.
Qed.
Definition ex_simple (m : list dtri) : bool :=
  forallb (fun t => forallb (fun i => forallb (fun t' => forallb (fun i' =>
    negb ((V m t (nx i) =? V m t' (nx i')) && (V m t (pv i) =? V m t' (pv i'))) || ((t =? t') && (i =? i')))
    [0;1;2]) (seq 0 (length m))) [0;1;2]) (seq 0 (length m)).
Lemma ex_simple_ok : forall m, ex_simple m = true -> simple_edges m.
Proof.
  intros m H t i s j Ht Hsl Hi Hj E1 E2. unfold ex_simple in H. rewrite forallb_forall in H.
  specialize (H t ltac:(apply in_seq; lia)). rewrite forallb_forall in H. specialize (H i (ex_in3 i Hi)).
  rewrite forallb_forall in H. specialize (H s ltac:(apply in_seq; lia)). rewrite forallb_forall in H. specialize (H j (ex_in3 j Hj)).
  rewrite E1, E2, !Nat.eqb_refl in H. cbn [negb orb andb] in H. apply andb_true_iff in H. destruct H as (H1 & H2).
  apply Nat.eqb_eq in H1, H2. auto.
Qed.

Definition ex_octa : list nat := [0;1;2; 0;2;3; 0;3;4; 0;4;1; 5;2;1; 5;3;2; 5;4;3; 5;1;4].
Definition ex_octa_mesh : list dpnt * list dtri :=
  match InitializeMesh [] ex_octa 8 6 with Some st => st | None => ([], []) end.
Ltac c8 t := destruct t as [|[|[|[|[|[|[|[|t]]]]]]]]; [| | | | | | | |lia].

Lemma ex_octa_ok : consistent (fst ex_octa_mesh) (snd ex_octa_mesh).
Proof.
  destruct (C19_InitializeMesh [] ex_octa 8 6) as (po & f & E & HC & _).
  - split; [reflexivity|]. unfold ex_octa. repeat constructor.
  - split.
    + intros t i j Ht Hi Hj. c8 t; c3 i; c3 j; cbv; auto; discriminate.
    + intros t i t' i' Ht Ht' Hi Hi'. c8 t; c3 i; c8 t'; c3 i'; cbv; auto; discriminate.
  - intros t t' Ht Ht' N.
    assert (Go : forall i, i < 3 -> existsb (fun q => nth (t * 3 + i) ex_octa 0 =? nth (t' * 3 + q) ex_octa 0) [0;1;2] = false ->
      exists i, i < 3 /\ forall j, j < 3 -> nth (t * 3 + i) ex_octa 0 <> nth (t' * 3 + j) ex_octa 0).
    { intros i Hi H. exists i. split; auto. intros j Hj E0. 
      assert (existsb (fun q => nth (t * 3 + i) ex_octa 0 =? nth (t' * 3 + q) ex_octa 0) [0;1;2] = true); [|congruence].
      apply existsb_exists. exists j. split; [apply ex_in3; auto|]. apply Nat.eqb_eq; auto. }
    c8 t; c8 t'; try congruence;
      first [apply (Go 0); [lia|reflexivity]|apply (Go 1); [lia|reflexivity]|apply (Go 2); [lia|reflexivity]].
  - unfold ex_octa_mesh. rewrite E. auto.
Qed.
Lemma ex_octa_manifold : manifold (snd ex_octa_mesh).
Proof.
  split; [apply ex_simple_ok; vm_compute; reflexivity|].
  apply ex_whole_ok; [apply ex_octa_ok|vm_compute; reflexivity].
Qed.

(** All hypotheses are met, the edge 0-1 is collapsed, six triangles are left. *)
Example C64_inst : exists po f,
  consistent (fst ex_octa_mesh) (snd ex_octa_mesh) /\ manifold (snd ex_octa_mesh) /\ 0 < length (snd ex_octa_mesh) /\
  twin (snd ex_octa_mesh) 0 2 3 1 /\ edge_once (snd ex_octa_mesh) 0 2 3 /\ link_ok (snd ex_octa_mesh) 0 2 3 1 /\
  CollapseEdge_MeshDTri 0 2 (fst ex_octa_mesh) (snd ex_octa_mesh) = Some (true, (po, f)) /\ length f = 6 /\
  allowed_all2 [Collapse 0 2] ex_octa_mesh.
Proof.
  assert (TB : twin (snd ex_octa_mesh) 0 2 3 1) by (vm_compute; repeat split; lia).
  pose proof ex_octa_ok as HC. pose proof ex_octa_manifold as (Hs & Wh).
  assert (H0 : 0 < length (snd ex_octa_mesh)) by (vm_compute; lia).
  pose proof (simple_once _ _ _ _ _ (proj1 HC) Hs H0 TB) as Ho.
  destruct (C64_when _ _ 0 2 3 1 HC Hs H0 TB) as (b & (po & f) & E & Hb); try (apply Wh; auto; lia).
  assert (Q : CollapseEdge_MeshDTri 0 2 (fst ex_octa_mesh) (snd ex_octa_mesh) = Some (b, (po, f)) -> b = true /\ length f = 6).
  { intros Q. vm_compute in Q. inversion Q; subst. auto. }
  destruct (Q E) as (Q1 & Q2). exists po, f.
  split; [auto|]. split; [split; auto|]. split; [auto|]. split; [auto|]. split; [auto|]. split; [apply Hb; auto|].
  split; [rewrite E, Q1; auto|]. split; [auto|]. split; [|intros; exact I]. split; [exact H0|]. exists 3, 1. auto.
Qed.

(** A disk: the edge 0-1 is inside, the other six points are on the boundary. *)
Definition ex_disk : list nat := [0;2;3; 0;3;4; 0;4;5; 0;5;1; 0;1;2; 1;5;6; 1;6;7; 1;7;2].
Definition ex_disk_mesh : list dpnt * list dtri :=
  match InitializeMesh [] ex_disk 8 8 with Some st => st | None => ([], []) end.
Lemma ex_disk_ok : consistent (fst ex_disk_mesh) (snd ex_disk_mesh).
Proof.
  destruct (C19_InitializeMesh [] ex_disk 8 8) as (po & f & E & HC & _).
  - split; [reflexivity|]. unfold ex_disk. repeat constructor.
  - split.
    + intros t i j Ht Hi Hj. c8 t; c3 i; c3 j; cbv; auto; discriminate.
    + intros t i t' i' Ht Ht' Hi Hi'. c8 t; c3 i; c8 t'; c3 i'; cbv; auto; discriminate.
  - intros t t' Ht Ht' N.
    assert (Go : forall i, i < 3 -> existsb (fun q => nth (t * 3 + i) ex_disk 0 =? nth (t' * 3 + q) ex_disk 0) [0;1;2] = false ->
      exists i, i < 3 /\ forall j, j < 3 -> nth (t * 3 + i) ex_disk 0 <> nth (t' * 3 + j) ex_disk 0).
    { intros i Hi H. exists i. split; auto. intros j Hj E0. 
      assert (existsb (fun q => nth (t * 3 + i) ex_disk 0 =? nth (t' * 3 + q) ex_disk 0) [0;1;2] = true); [|congruence].
      apply existsb_exists. exists j. split; [apply ex_in3; auto|]. apply Nat.eqb_eq; auto. }
    c8 t; c8 t'; try congruence;
      first [apply (Go 0); [lia|reflexivity]|apply (Go 1); [lia|reflexivity]|apply (Go 2); [lia|reflexivity]].
  - unfold ex_disk_mesh. rewrite E. auto.
Qed.
Example C64_open_inst : consistent (fst ex_disk_mesh) (snd ex_disk_mesh) /\ manifold (snd ex_disk_mesh) /\
  L (snd ex_disk_mesh) 3 1 = Some 4 /\ ~ closed_fan (snd ex_disk_mesh) 0 1 /\
  exists st, CollapseEdge_MeshDTri 3 1 (fst ex_disk_mesh) (snd ex_disk_mesh) = Some (true, st).
Proof.
  split; [apply ex_disk_ok|]. split.
  { split; [apply ex_simple_ok; vm_compute; reflexivity|]. apply ex_whole_ok; [apply ex_disk_ok|vm_compute; reflexivity]. }
  split; [vm_compute; reflexivity|]. split.
  { intros H. apply (H 7 2); [|vm_compute; reflexivity].
    apply (ex_walk_around _ 8); [apply ex_disk_ok|split; vm_compute; lia|vm_compute; tauto]. }
  eexists. vm_compute. reflexivity.
Qed.

(** [edge_once] is needed: in the octahedron with the points 1 and 3 identified, the edge 0-1 is in four triangles; it is
    collapsed, and the result has a triangle with twice the same corner. *)
Definition ex_pinch : list dpnt * list dtri :=
  let ren v := if v =? 3 then 1 else v in
  (firstn 3 (fst ex_octa_mesh) ++ [mkP None 0] ++ skipn 4 (fst ex_octa_mesh),
   map (fun t => mkT (ren (tv0 t)) (ren (tv1 t)) (ren (tv2 t)) (ts0 t) (ts1 t) (ts2 t)) (snd ex_octa_mesh)).
Theorem C64_edge_once_refuted : exists po m t e u k po' f,
  consistent po m /\ t < length m /\ twin m t e u k /\
  CollapseEdge_MeshDTri t e po m = Some (true, (po', f)) /\ ~ consistent po' f.
Proof.
  exists (fst ex_pinch), (snd ex_pinch), 3, 1, 0, 2.
  assert (E : exists po f, CollapseEdge_MeshDTri 3 1 (fst ex_pinch) (snd ex_pinch) = Some (true, (po, f)) /\
    exists t i j, t < length f /\ i < 3 /\ j < 3 /\ i <> j /\ V f t i = V f t j).
  { vm_compute. do 2 eexists. split; [reflexivity|]. first
     [exists 0, 0, 1; vm_compute; repeat split; lia|exists 0, 0, 2; vm_compute; repeat split; lia|exists 0, 1, 2; vm_compute; repeat split; lia
     |exists 1, 0, 1; vm_compute; repeat split; lia|exists 1, 0, 2; vm_compute; repeat split; lia|exists 1, 1, 2; vm_compute; repeat split; lia
     |exists 2, 0, 1; vm_compute; repeat split; lia|exists 2, 0, 2; vm_compute; repeat split; lia|exists 2, 1, 2; vm_compute; repeat split; lia]. }
  destruct E as (po & f & E & t & i & j & H1 & H2 & H3 & H4 & H5). exists po, f.
  split; [|split; [vm_compute; lia|split; [vm_compute; repeat split; lia|split; [exact E|]]]].
  - split.
    + intros t0 Ht. vm_compute in Ht. repeat split.
      * intros a b Ha Hb. c8 t0; c3 a; c3 b; vm_compute; auto; discriminate.
      * intros a b Ha Hb. c8 t0; c3 a; c3 b; vm_compute; auto; discriminate.
      * intros. c8 t0; c3 i0; vm_compute in H0; inversion H0; subst; vm_compute; lia.
      * intros. c8 t0; c3 i0; vm_compute in H0; inversion H0; subst;
          first [exists 0; vm_compute; repeat split; lia|exists 1; vm_compute; repeat split; lia|exists 2; vm_compute; repeat split; lia].
    + split.
      * intros t0 a Ht Ha. vm_compute in Ht. c8 t0; c3 a; vm_compute; lia.
      * intros p q Hp. vm_compute in Hp. destruct p as [|[|[|[|[|[|p]]]]]]; [| | | | | |lia]; vm_compute; intros Eq; inversion Eq; subst; lia.
  - intros (Hf & _). destruct (Hf t H1) as (Q & _). apply H4. apply Q; auto.
Qed.
Print Assumptions C64_edge_once_refuted.
