(** Theorems on the dynamic triangle mesh (properties C13 - C20). *)
From Coq Require Import List Arith Lia Bool.
Import ListNotations.
From Verif Require Import Imp JagSpec TopoSpec DtriModel DtriSpec.
From Verif Require Import DtriProofs1 DtriProofs2 DtriProofs3 DtriProofs4 DtriProofs5 DtriProofs6.

(** C13: t is replaced by the three triangles joining p to its edges. *)
Theorem C13_InsertPoint_Elem : forall po m p t,
  consistent po m -> t < length m -> p < length po -> ~ corner_of m t p ->
  exists po' f, InsertPoint_Elem p t po m = Some (po', f) /\ consistent po' f /\
    length po' = length po /\ length f = length m + 2 /\
    (let n := length m in let v := V m t in let l := L m t in
     nth t f dtri0 = mkT p (v 1) (v 2) (l 0) (Some n) (Some (n + 1)) /\
     nth n f dtri0 = mkT p (v 2) (v 0) (l 1) (Some (n + 1)) (Some t) /\
     nth (n + 1) f dtri0 = mkT p (v 0) (v 1) (l 2) (Some t) (Some n)) /\
    (forall u i, u < length m -> u <> t -> V f u i = V m u i) /\
    (forall u i, u < length m -> u <> t -> i < 3 -> (L f u i = None <-> L m u i = None)) /\
    (forall q, q < length po -> has_link po q -> has_link po' q) /\ has_link po' p.
Proof.
  intros po m p t HC Ht Hp Hc.
  destruct (wp_ex _ _ _ (InsertPoint_Elem_lem po m p t HC Ht Hp ltac:(intros i Hi E; apply Hc; exists i; auto)))
    as ((po' & f) & E & A & B & C & D1 & D2 & D3 & F & G & H & I).
  exists po', f. do 4 (split; [assumption|]). split; [auto|]. do 3 (split; [assumption|]). assumption.
Qed.
Print Assumptions C13_InsertPoint_Elem.

(** C14: the two triangles at an interior edge are replaced by the four triangles joining p to the outer edges. *)
Theorem C14_InsertPoint_ElemEdge : forall po m p t e u k,
  consistent po m -> t < length m -> p < length po -> twin m t e u k -> ~ corner_of m t p -> ~ corner_of m u p ->
  exists po' f, InsertPoint_ElemEdge p t e po m = Some (po', f) /\ consistent po' f /\
    length po' = length po /\ length f = length m + 2 /\
    (let n := length m in
     nth t f dtri0 = mkT p (V m t (pv e)) (V m t e) (L m t (nx e)) (Some u) (Some (n + 1)) /\
     nth u f dtri0 = mkT p (V m t e) (V m t (nx e)) (L m t (pv e)) (Some n) (Some t) /\
     nth n f dtri0 = mkT p (V m u (pv k)) (V m u k) (L m u (nx k)) (Some (n + 1)) (Some u) /\
     nth (n + 1) f dtri0 = mkT p (V m u k) (V m u (nx k)) (L m u (pv k)) (Some t) (Some n)) /\
    (forall x i, x < length m -> x <> t -> x <> u -> V f x i = V m x i) /\
    (forall x i, x < length m -> x <> t -> x <> u -> i < 3 -> (L f x i = None <-> L m x i = None)) /\
    (forall q, q < length po -> has_link po q -> has_link po' q) /\ has_link po' p.
Proof.
  intros po m p t e u k HC Ht Hp HT Hc1 Hc2.
  destruct (wp_ex _ _ _ (InsertPoint_ElemEdge_lem po m t e u k HC Ht HT p Hp
     ltac:(intros i Hi E; apply Hc1; exists i; auto) ltac:(intros i Hi E; apply Hc2; exists i; auto)))
    as ((po' & f) & E & A & B & C & D1 & D2 & D3 & D4 & F & G & H & I).
  exists po', f. do 4 (split; [assumption|]). split; [auto|]. do 3 (split; [assumption|]). assumption.
Qed.
Print Assumptions C14_InsertPoint_ElemEdge.

(** C15: flip of an interior edge; boundary edges are left alone. *)
Theorem C15_FlipEdge : forall po m t e u k,
  consistent po m -> t < length m -> twin m t e u k -> flippable m t e ->
  exists po' f, FlipEdge t e po m = Some (true, (po', f)) /\ consistent po' f /\
    length po' = length po /\ length f = length m /\
    nth t f dtri0 = mkT (V m t (nx e)) (V m u k) (V m t e) (Some u) (L m t (pv e)) (L m u (nx k)) /\
    nth u f dtri0 = mkT (V m u (nx k)) (V m t e) (V m u k) (Some t) (L m u (pv k)) (L m t (nx e)) /\
    (forall x i, x < length m -> x <> t -> x <> u -> V f x i = V m x i) /\
    (forall x i, x < length m -> x <> t -> x <> u -> i < 3 -> (L f x i = None <-> L m x i = None)) /\
    (forall q, q < length po -> has_link po q -> has_link po' q) /\
    (forall x i, x < length m -> x <> t -> x <> u -> i < 3 -> L m x i <> Some t -> L m x i <> Some u -> L f x i = L m x i) /\
    (forall q, q < length po -> ~ corner_of m t q -> ~ corner_of m u q -> nth q po' (mkP None 0) = nth q po (mkP None 0)).
Proof.
  intros po m t e u k HC Ht HT HF. destruct (HF u k HT) as (F1 & F2 & F3).
  destruct (wp_ex _ _ _ (FlipEdge_lem po m t e u k HC Ht HT F1 F2 F3))
    as ((b & po' & f) & E & -> & A & B & C & D1 & D2 & F & G & H & LK & PO).
  exists po', f. do 10 (split; [assumption|]).
  intros q Hq N1 N2. rewrite PO by auto.
  repeat (destruct Nat.eq_dec; [exfalso; first [apply N1; eexists; split; [|eassumption]; first [apply HT|apply nx_lt]
    |apply N2; eexists; split; [|eassumption]; first [apply HT|apply nx_lt]]|]). auto.
Qed.
Print Assumptions C15_FlipEdge.

Theorem C15_FlipEdge_boundary : forall po m t e, t < length m -> e < 3 -> L m t e = None ->
  FlipEdge t e po m = Some (false, (po, m)).
Proof. exact FlipEdge_boundary. Qed.
Print Assumptions C15_FlipEdge_boundary.

(** C16: the last triangle takes the place of the deleted one; all links are renamed accordingly. *)
Theorem C16_DeleteTri : forall po m x,
  consistent po m -> x < length m -> (forall i, i < 3 -> L m x i = None) ->
  (forall p, p < length po -> pe (nth p po (mkP None 0)) <> Some x) ->
  exists po' f, DeleteTri x po m = Some (po', f) /\ consistent po' f /\
    length po' = length po /\ length f = length m - 1 /\
    (let last := length m - 1 in
     let old t := if Nat.eq_dec t x then last else t in
     let new t := if Nat.eq_dec t last then x else t in
     forall t i, t < length m - 1 -> i < 3 -> V f t i = V m (old t) i /\ L f t i = option_map new (L m (old t) i)) /\
    (forall q, q < length po -> has_link po q -> has_link po' q).
Proof.
  intros po m x HC Hx Hi Hp.
  destruct (wp_ex _ _ _ (DeleteTri_lem po m x HC Hx Hi Hp)) as ((po' & f) & E & A & B & C & D & F & G).
  exists po', f. do 4 (split; [assumption|]). split; [|assumption].
  cbv zeta. intros t i Ht Hi3. split; [apply D; auto|apply F; auto].
Qed.
Print Assumptions C16_DeleteTri.

(** C17: every history of allowed edits runs to the end without an out-of-range access or failed assertion and keeps
    the mesh consistent; the number of triangles is the one obtained by adding two per insertion, subtracting one per
    deletion and none per flip. *)
Theorem C17_history : forall eds po m, consistent po m -> allowed_all eds (po, m) ->
  exists po' m', foldM run1 eds (po, m) = Some (po', m') /\ consistent po' m' /\
    length m' = fold_left (fun n ed => grow ed n) eds (length m).
Proof. exact run_ok. Qed.
Print Assumptions C17_history.

(** C18: the two moves are defined on every corner, stay on the same vertex, and undo each other. *)
Theorem C18_moves : forall po m t i, consistent po m -> t < length m -> i < 3 ->
  (match L m t (nx i) with
   | None => MoveCCW t i None m = Some None
   | Some j => exists c, MoveCCW t i None m = Some (Some (j, c)) /\ j < length m /\ c < 3 /\ V m j c = V m t i /\
                 MoveCW j c None m = Some (Some (t, i))
   end) /\
  (match L m t (pv i) with
   | None => MoveCW t i None m = Some None
   | Some j => exists c, MoveCW t i None m = Some (Some (j, c)) /\ j < length m /\ c < 3 /\ V m j c = V m t i /\
                 MoveCCW j c None m = Some (Some (t, i))
   end).
Proof. intros po m t i HC. apply Move_lem. apply HC. Qed.
Print Assumptions C18_moves.

(** C19: the mesh built from an oriented manifold list (no two triangles on the same three corners) is consistent, has
    the same triangles, links every pair of triangles that share an edge, and links every used point.  [a0] is the
    caller's triangle vector on entry. *)
Theorem C19_InitializeMesh : forall a0 tri nt np,
  mesh_ok tri nt 3 np -> oriented_manifold tri nt -> no_same_corners tri nt ->
  exists po f, InitializeMesh a0 tri nt np = Some (po, f) /\ consistent po f /\ length po = np /\ length f = nt /\
    (forall t i, t < nt -> i < 3 -> V f t i = tv tri t i) /\
    (forall t i t' i', t < nt -> t' < nt -> i < 3 -> i' < 3 ->
       dedge tri t i = (snd (dedge tri t' i'), fst (dedge tri t' i')) -> L f t i = Some t') /\
    (forall t i, t < nt -> i < 3 -> has_link po (tv tri t i)).
Proof.
  intros a0 tri nt np HM HO HS.
  destruct (wp_ex _ _ _ (InitializeMesh_lem tri nt np HM HO HS a0)) as ((po & f) & E & A & B & (C1 & C2) & D & F).
  exists po, f. do 6 (split; [assumption|]). assumption.
Qed.
Print Assumptions C19_InitializeMesh.

(** C20: exact rows for every vertex except vertex 0, whose row is always empty. *)
Theorem C20_PSuP_dtri : forall m np,
  (forall t i, t < length m -> i < 3 -> V m t i < np) ->
  exists ind elsup, JArray_MakeElSuP [] m np = Some (ind, elsup) /\
  forall psup_ind0 psup0, length psup_ind0 = np + 1 ->
  exists pind psup rows, JArray_PSuP_dtri psup_ind0 psup0 m np ind elsup = Some (pind, psup) /\
    jagged pind psup rows /\ length rows = np /\
    (forall p, p < np -> NoDup (nth p rows [])) /\
    (forall p q, p < np -> p <> 0 ->
      (In q (nth p rows []) <-> q <> p /\ exists t, t < length m /\ corner_of m t p /\ corner_of m t q)) /\
    nth 0 rows [] = [].
Proof. exact PSuP_dtri_full. Qed.
Print Assumptions C20_PSuP_dtri.

(* ---------- concrete instances and refutations ---------- *)

Ltac small n := match goal with H : n < ?k |- _ => let k' := eval compute in k in
  do 9 (try (destruct n as [|n]; [|])); try lia; clear H end.

(** Two triangles 0-1-2, 0-2-3 and a free point 4. *)
Definition ex_tri := [0;1;2; 0;2;3].
Lemma ex_mesh : mesh_ok ex_tri 2 3 5.
Proof. split; [reflexivity|]. repeat constructor. Qed.
Lemma ex_oriented : oriented_manifold ex_tri 2.
Proof.
  split.
  - intros t i j Ht Hi Hj. destruct t as [|[|t]]; [| |lia]; c3 i; c3 j; cbv; auto; discriminate.
  - intros t i t' i' Ht Ht' Hi Hi'. destruct t as [|[|t]]; [| |lia]; (destruct t' as [|[|t']]; [| |lia]); c3 i; c3 i'; cbv; auto; discriminate.
Qed.
Lemma ex_nosame : no_same_corners ex_tri 2.
Proof.
  intros t t' Ht Ht' Hne. destruct t as [|[|t]]; [| |lia]; (destruct t' as [|[|t']]; [| |lia]); try tauto.
  - exists 1. split; [lia|]. intros j Hj. c3 j; cbv; discriminate.
  - exists 2. split; [lia|]. intros j Hj. c3 j; cbv; discriminate.
Qed.
Definition ex_po := [mkP (Some 1) 0; mkP (Some 0) 1; mkP (Some 1) 1; mkP (Some 1) 2; mkP None 0].
Definition ex_m := [mkT 0 1 2 None (Some 1) None; mkT 0 2 3 None None (Some 0)].
Example ex_init : InitializeMesh [] ex_tri 2 5 = Some (ex_po, ex_m).
Proof. reflexivity. Qed.
Lemma ex_cons : consistent ex_po ex_m.
Proof.
  destruct (C19_InitializeMesh [] ex_tri 2 5 ex_mesh ex_oriented ex_nosame) as (po & f & E & HC & _).
  rewrite ex_init in E. inversion E; subst. auto.
Qed.
Lemma ex_corner : forall t, t < 2 -> ~ corner_of ex_m t 4.
Proof. intros t Ht (i & Hi & E). destruct t as [|[|t]]; [| |lia]; c3 i; cbv in E; discriminate. Qed.
Lemma ex_twin : twin ex_m 0 1 1 2.
Proof. cbv. repeat split; lia. Qed.
Example C13_inst : consistent ex_po ex_m /\ 0 < length ex_m /\ 4 < length ex_po /\ ~ corner_of ex_m 0 4.
Proof. split; [apply ex_cons|]. split; [cbv; lia|]. split; [cbv; lia|]. apply ex_corner; lia. Qed.
Example C14_inst : twin ex_m 0 1 1 2 /\ ~ corner_of ex_m 0 4 /\ ~ corner_of ex_m 1 4.
Proof. split; [apply ex_twin|]. split; apply ex_corner; lia. Qed.
Lemma ex_flip : flippable ex_m 0 1.
Proof.
  intros j k (_ & Hk & E & E2 & _). cbv in E. inversion E; subst. c3 k; cbv in E2; try discriminate.
  cbv. repeat split; auto; lia.
Qed.
Example C15_inst : consistent ex_po ex_m /\ 0 < length ex_m /\ twin ex_m 0 1 1 2 /\ flippable ex_m 0 1.
Proof. split; [apply ex_cons|]. split; [cbv; lia|]. split; [apply ex_twin|apply ex_flip]. Qed.

(** A history: insert point 4 into triangle 0, add a point, put it on the edge between triangles 2 and 0, flip. *)
Definition ex_eds := [Insert 4 0; AddPoint; InsertOnEdge 5 0 1; Flip 1 2].
Example C17_inst : exists po' m', foldM run1 ex_eds (ex_po, ex_m) = Some (po', m') /\ length m' = 6 /\ consistent po' m'.
Proof.
  assert (HA : allowed_all ex_eds (ex_po, ex_m)).
  { split. { repeat split; try (cbv; lia). apply ex_corner; lia. }
    intros st1 E1. cbv in E1. inversion E1; subst st1; clear E1.
    split; [exact I|]. intros st2 E2. cbv in E2. inversion E2; subst st2; clear E2.
    split. { simpl. repeat split; try (cbv; lia).
      - intros (i & Hi & E). c3 i; cbv in E; discriminate.
      - eexists. split; [reflexivity|]. intros (i & Hi & E). c3 i; cbv in E; discriminate. }
    intros st3 E3. cbv in E3. inversion E3; subst st3; clear E3.
    split; [|intros; exact I]. simpl. repeat split; try (cbv; lia).
    all: destruct H as (_ & Hk & E & E2 & _); cbv in E; inversion E; subst; c3 k; cbv in E2; try discriminate; cbv; try lia; auto; try discriminate. }
  destruct (C17_history ex_eds ex_po ex_m ex_cons HA) as (po' & m' & E & HC & HL). exists po', m'. auto.
Qed.

(** A deletable triangle: two separate triangles, no point refers to the first. *)
Example C16_inst : let po := [mkP (Some 1) 0; mkP (Some 1) 1; mkP (Some 1) 2; mkP None 0] in
  let m := [mkT 0 1 3 None None None; mkT 0 1 2 None None None] in
  consistent po m /\ (forall i, i < 3 -> L m 0 i = None) /\
  (forall p, p < length po -> pe (nth p po (mkP None 0)) <> Some 0).
Proof.
  cbv zeta. split; [split; [|split]|split].
  - intros t Ht. cbn [length] in Ht. destruct t as [|[|t]]; [| |lia]; (split; [|split]).
    all: intros i j Hi.
    1, 4: intros Hj; c3 i; c3 j; cbv; auto; discriminate.
    1, 3: intros Hj E E'; exfalso; apply E'; c3 i; reflexivity.
    all: c3 i; cbv; discriminate.
  - intros t i Ht Hi. cbn [length] in Ht. destruct t as [|[|t]]; [| |lia]; c3 i; cbv; lia.
  - intros p t Hp. cbn [length] in Hp. destruct p as [|[|[|[|p]]]]; [| | | |lia]; cbn; intro E; inversion E; subst; repeat split; cbv; lia.
  - intros i Hi. c3 i; reflexivity.
  - intros p Hp. cbn [length] in Hp. destruct p as [|[|[|[|p]]]]; [| | | |lia]; cbn; discriminate.
Qed.

(** Without [flippable], FlipEdge reports success and leaves an inconsistent mesh: point 3 inserted into a single
    triangle has three triangles around it; flipping one of its edges links a triangle twice to the same neighbour. *)
Theorem C15_FlipEdge_refuted : exists po m t e po' f,
  consistent po m /\ t < length m /\ L m t e <> None /\ FlipEdge t e po m = Some (true, (po', f)) /\ ~ consistent po' f.
Proof.
  assert (HO : oriented_manifold [0;1;2] 1).
  { split.
    - intros t i j Ht Hi Hj. assert (t = 0) by lia. subst. c3 i; c3 j; cbv; auto; discriminate.
    - intros t i t' i' Ht Ht' Hi Hi'. assert (t = 0) by lia. assert (t' = 0) by lia. subst. c3 i; c3 i'; cbv; auto; discriminate. }
  destruct (C19_InitializeMesh [] [0;1;2] 1 4) as (po0 & m0 & E & HC & _); auto.
  { split; [reflexivity|repeat constructor]. }
  { intros t t'. lia. }
  cbv in E. inversion E; subst po0 m0; clear E.
  edestruct (C13_InsertPoint_Elem) with (p := 3) (t := 0) as (po & m & E & HC' & _); [exact HC|cbv; lia|cbv; lia| |].
  { intros (i & Hi & E). c3 i; cbv in E; discriminate. }
  cbv in E. inversion E; subst po m; clear E.
  do 2 eexists. exists 0, 1. do 2 eexists. split; [exact HC'|]. split; [cbv; lia|]. split; [cbv; discriminate|]. split; [reflexivity|].
  intros (H & _). destruct (H 1 ltac:(cbv; lia)) as (_ & D & _).
  first [specialize (D 1 2 ltac:(lia) ltac:(lia) eq_refl); cbv in D; assert (X : 1 = 2) by (apply D; discriminate); discriminate
        |destruct (H 0 ltac:(cbv; lia)) as (_ & D' & _); specialize (D' 1 2 ltac:(lia) ltac:(lia) eq_refl); cbv in D';
         assert (X : 1 = 2) by (apply D'; discriminate); discriminate].
Qed.
Print Assumptions C15_FlipEdge_refuted.

(** Two triangles on the same three corners (a pillow) are an oriented manifold list, but the built mesh fails the
    library's own consistency assertion (a triangle is linked three times to the same neighbour). *)
Theorem C19_InitializeMesh_refuted : exists tri nt np po f,
  mesh_ok tri nt 3 np /\ oriented_manifold tri nt /\ InitializeMesh [] tri nt np = Some (po, f) /\ ~ consistent po f.
Proof.
  exists [0;1;2;0;2;1], 2, 3. do 2 eexists. split; [split; [reflexivity|repeat constructor]|]. split; [split|split; [reflexivity|]].
  - intros t i j Ht Hi Hj. destruct t as [|[|t]]; [| |lia]; c3 i; c3 j; cbv; auto; discriminate.
  - intros t i t' i' Ht Ht' Hi Hi'. destruct t as [|[|t]]; [| |lia]; (destruct t' as [|[|t']]; [| |lia]); c3 i; c3 i'; cbv; auto; discriminate.
  - intros (H & _). destruct (H 0 ltac:(cbv; lia)) as (_ & D & _).
    specialize (D 1 2 ltac:(lia) ltac:(lia) eq_refl). cbv in D. assert (X : 1 = 2) by (apply D; discriminate). discriminate.
Qed.
Print Assumptions C19_InitializeMesh_refuted.

(** Vertex 0 has neighbours 1 and 2 but its row is empty. *)
Theorem C20_vertex0_refuted : exists m np ind elsup pind psup rows,
  JArray_MakeElSuP [] m np = Some (ind, elsup) /\
  JArray_PSuP_dtri (repeat 0 (np + 1)) [] m np ind elsup = Some (pind, psup) /\ jagged pind psup rows /\
  corner_of m 0 0 /\ corner_of m 0 1 /\ ~ In 1 (nth 0 rows []).
Proof.
  exists [mkT 0 1 2 None None None], 3. do 4 eexists. exists [[];[0;2];[0;1]].
  split; [reflexivity|]. split; [reflexivity|]. split; [split; reflexivity|].
  split; [exists 0; split; [lia|reflexivity]|]. split; [exists 1; split; [lia|reflexivity]|]. cbv. tauto.
Qed.
Print Assumptions C20_vertex0_refuted.

Example C20_inst : forall t i, t < length ex_m -> i < 3 -> V ex_m t i < 5.
Proof. intros t i Ht Hi. cbn [length ex_m] in Ht. destruct t as [|[|t]]; [| |lia]; c3 i; cbv; lia. Qed.
Example C19_inst : mesh_ok ex_tri 2 3 5 /\ oriented_manifold ex_tri 2 /\ no_same_corners ex_tri 2.
Proof. split; [apply ex_mesh|]. split; [apply ex_oriented|apply ex_nosame]. Qed.
