(** Proofs of the bounding boxes of MeasModel. *)
From Coq Require Import List Arith Bool ZArith Reals Lra Lia.
Import ListNotations.
From Verif Require Import Imp PrModel PolyModel QuatModel ProxModel IsecModel GjkProofs1 ProxSpec ProxProofs1 MeasModel MeasSpec.
Open Scope R_scope.

Lemma vgetn : forall A (d : A) l i, (i < length l)%nat -> vget l i = Some (nth i l d).
Proof. intros. apply vget_nth. exact H. Qed.
Lemma xyz_pnt : forall l i, (3 * i + 2 < length l)%nat -> xyz l i = Some (pnt l i).
Proof.
  intros l i H. unfold xyz, pnt. rewrite !(vgetn R 0) by lia. cbn [bind].
  replace (i * 3 + 0)%nat with (3 * i)%nat by lia. replace (i * 3 + 1)%nat with (3 * i + 1)%nat by lia. replace (i * 3 + 2)%nat with (3 * i + 2)%nat by lia. reflexivity.
Qed.
Lemma forn_eq : forall S (I : nat -> S) lo hi f, (lo <= hi)%nat -> (forall i, (lo <= i < hi)%nat -> f i (I i) = Some (I (Datatypes.S i))) -> forn lo hi f (I lo) = Some (I hi).
Proof.
  intros S I lo hi f Hle H. unfold forn. remember (hi - lo)%nat as k. revert lo Hle H Heqk.
  induction k; intros; simpl; [f_equal; f_equal; lia|]. rewrite H by lia. simpl. apply IHk; [lia| |lia]. intros. apply H. lia.
Qed.

Lemma upd_box : forall (S : vec3 -> Prop) b p, box_of S (fst b) (snd b) -> box_of (fun q => S q \/ q = p) (fst (updateMinMaxXYZ b p)) (snd (updateMinMaxXYZ b p)).
Proof.
  intros S [mn mx] p (Hin & (px & Sx & Ex) & (py & Sy & Ey) & (pz & Sz & Ez) & (qx & Tx & Fx) & (qy & Ty & Fy) & (qz & Tz & Fz)). cbn [fst snd] in *.
  unfold updateMinMaxXYZ. pose proof (ltRs (vx mx) (vx mn)) as Q. destruct (ltR (vx mx) (vx mn)); [pose proof (Hin _ Sx); lra|]. cbn [fst snd].
  unfold box_of. cbn [vx vy vz].
  pose proof (ltRs (vx mn) (vx p)) as Q1. pose proof (ltRs (vy mn) (vy p)) as Q2. pose proof (ltRs (vz mn) (vz p)) as Q3.
  pose proof (ltRs (vx p) (vx mx)) as Q4. pose proof (ltRs (vy p) (vy mx)) as Q5. pose proof (ltRs (vz p) (vz mx)) as Q6.
  split; [|repeat split].
  - intros q [Hq|Hq]; [pose proof (Hin _ Hq)|subst q];
    destruct (ltR (vx mn) (vx p)), (ltR (vy mn) (vy p)), (ltR (vz mn) (vz p)), (ltR (vx p) (vx mx)), (ltR (vy p) (vy mx)), (ltR (vz p) (vz mx)); repeat split; lra.
  - destruct (ltR (vx mn) (vx p)); [exists px; auto|exists p; auto].
  - destruct (ltR (vy mn) (vy p)); [exists py; auto|exists p; auto].
  - destruct (ltR (vz mn) (vz p)); [exists pz; auto|exists p; auto].
  - destruct (ltR (vx p) (vx mx)); [exists qx; auto|exists p; auto].
  - destruct (ltR (vy p) (vy mx)); [exists qy; auto|exists p; auto].
  - destruct (ltR (vz p) (vz mx)); [exists qz; auto|exists p; auto].
Qed.
Lemma one_box : forall p, box_of (fun q => q = p) p p.
Proof. intros. unfold box_of. repeat split; try (subst; lra); try (exists p; auto). Qed.
Lemma box_ext : forall (S T : vec3 -> Prop) a b, (forall p, S p <-> T p) -> box_of S a b -> box_of T a b.
Proof.
  intros S T a b H (Hin & (px & Sx & Ex) & (py & Sy & Ey) & (pz & Sz & Ez) & (qx & Tx & Fx) & (qy & Ty & Fy) & (qz & Tz & Fz)). split; [|repeat split].
  - intros. apply Hin, H. exact H0.
  - exists px. rewrite <- H. auto.
  - exists py. rewrite <- H. auto.
  - exists pz. rewrite <- H. auto.
  - exists qx. rewrite <- H. auto.
  - exists qy. rewrite <- H. auto.
  - exists qz. rewrite <- H. auto.
Qed.
Lemma upd_empty : forall b p, vx (snd b) < vx (fst b) -> updateMinMaxXYZ b p = (p, p).
Proof. intros [mn mx] p H. cbn [fst snd] in H. unfold updateMinMaxXYZ. pose proof (ltRs (vx mx) (vx mn)) as Q. destruct (ltR (vx mx) (vx mn)); [reflexivity|lra]. Qed.
Lemma box_cw : forall S b, box_of S (fst b) (snd b) -> box_of_cw S (fst (CenterWidth_MinMaxXYZ b)) (snd (CenterWidth_MinMaxXYZ b)).
Proof.
  intros S [mn mx] H. cbn [fst snd] in H. unfold box_of_cw, CenterWidth_MinMaxXYZ. cbn [fst snd vx vy vz].
  match goal with |- box_of _ ?a ?b => replace a with mn; [replace b with mx; [exact H|]|]; apply v3_eq; cbn [vx vy vz]; field end.
Qed.

(** a loop over points: the box of a first point and of the others *)
Lemma box_loop : forall (f : nat -> vec3) (g : nat -> (vec3 * vec3) -> option (vec3 * vec3)) n b0 (S0 : vec3 -> Prop),
  (forall i b, (i < n)%nat -> g i b = Some (updateMinMaxXYZ b (f i))) -> box_of S0 (fst b0) (snd b0) ->
  exists b, forn 0 n g b0 = Some b /\ box_of (fun q => S0 q \/ exists i, (i < n)%nat /\ q = f i) (fst b) (snd b).
Proof.
  intros f g n b0 S0 Hg H0. apply wp_iff.
  apply (wp_forn _ (fun k b => box_of (fun q => S0 q \/ exists i, (i < k)%nat /\ q = f i) (fst b) (snd b))); [lia| | |auto].
  - eapply box_ext; [|exact H0]. intros. split; [auto|]. intros [H|(i & Hi & _)]; [exact H|lia].
  - intros i b Hi Hb. rewrite Hg by lia. cbn [wp]. eapply box_ext; [|apply upd_box; exact Hb]. intros q. split.
    + intros [[H|(j & Hj & E)]|E]; [auto|right; exists j; split; [lia|exact E]|right; exists i; split; [lia|exact E]].
    + intros [H|(j & Hj & E)]; [auto|]. destruct (Nat.eq_dec j i); [subst; auto|left; right; exists j; split; [lia|exact E]].
Qed.

Lemma div3_lt : forall l i, (i < length l / 3)%nat -> (3 * i + 2 < length (A:=R) l)%nat.
Proof. intros l i H. pose proof (Nat.div_mod (length l) 3 ltac:(lia)). lia. Qed.

Lemma bbox_proof : forall ini l n, (0 < n)%nat -> (3 * n <= length l)%nat ->
  exists mn mx, BoundingBox3_Points3 ini l n = Some (mn, mx) /\ box_of (fun q => exists i, (i < n)%nat /\ q = pnt l i) mn mx.
Proof.
  intros ini l n Hn Hl.
  assert (W : wp (BoundingBox3_Points3 ini l n) (fun b => box_of (fun q => exists i, (i < n)%nat /\ q = pnt l i) (fst b) (snd b))).
  { unfold BoundingBox3_Points3.
    apply (wp_forn _ (fun k b => (k = 0%nat /\ vx (snd b) < vx (fst b)) \/ box_of (fun q => exists i, (i < k)%nat /\ q = pnt l i) (fst b) (snd b))); [lia| | |].
    - left. cbn [fst snd vx]. split; [reflexivity|lra].
    - intros i b Hi Hb. rewrite xyz_pnt by lia. cbn [bind wp]. right. destruct Hb as [(E & Hb)|Hb].
      + subst i. rewrite upd_empty by exact Hb. cbn [fst snd]. eapply box_ext; [|apply one_box]. intros q. split; [intros ->; exists 0%nat; split; [lia|reflexivity]|].
        intros (j & Hj & ->). f_equal. lia.
      + eapply box_ext; [|apply upd_box; exact Hb]. intros q. split.
        * intros [(j & Hj & E)|E]; [exists j; split; [lia|exact E]|exists i; split; [lia|exact E]].
        * intros (j & Hj & E). destruct (Nat.eq_dec j i); [subst; auto|left; exists j; split; [lia|exact E]].
    - intros b [(E & _)|Hb]; [lia|exact Hb]. }
  apply wp_iff in W. destruct W as ([mn mx] & E & H). exists mn, mx. split; [exact E|exact H].
Qed.

Lemma cw_proof : forall l n, (0 < n)%nat -> (3 * n <= length l)%nat ->
  exists c w, CenterWidth_Point3 l n = Some (c, w) /\ box_of_cw (fun q => exists i, (i < n)%nat /\ q = pnt l i) c w.
Proof.
  intros l n Hn Hl. unfold CenterWidth_Point3. rewrite xyz_pnt by lia. cbn [bind].
  destruct (box_loop (pnt l) (fun ino b => p <- xyz l ino ;; Some (updateMinMaxXYZ b p)) n (pnt l 0, pnt l 0) (fun q => q = pnt l 0)) as (b & E & Hb).
  - intros. rewrite xyz_pnt by lia. reflexivity.
  - apply one_box.
  - rewrite E. cbn [bind]. exists (fst (CenterWidth_MinMaxXYZ b)), (snd (CenterWidth_MinMaxXYZ b)). rewrite <- surjective_pairing. split; [reflexivity|].
    apply box_cw. eapply box_ext; [|exact Hb]. intros q. split; [|auto]. intros [->|H]; [exists 0%nat; auto|exact H].
Qed.
Lemma cws_proof : forall l, (length l < 3 -> CenterWidth_Points3 l = Some (V3 0 0 0, V3 1 1 1))%nat /\
  ((3 <= length l)%nat -> exists c w, CenterWidth_Points3 l = Some (c, w) /\ box_of_cw (points l) c w).
Proof.
  intros l. unfold CenterWidth_Points3. split; intros H.
  - rewrite Nat.div_small by lia. reflexivity.
  - assert (G : (0 < length l / 3)%nat) by (apply Nat.div_str_pos; lia). destruct (Nat.eqb_spec (length l / 3) 0); [lia|].
    apply cw_proof; [exact G|]. pose proof (Nat.div_mod (length l) 3 ltac:(lia)). lia.
Qed.
Lemma local_proof : forall l ex ey ez, (length l < 3 -> GetCenterWidthLocal l ex ey ez = Some (V3 0 0 0, V3 1 1 1))%nat /\
  ((3 <= length l)%nat -> exists c w, GetCenterWidthLocal l ex ey ez = Some (c, w) /\ box_of_cw (fun q => exists p, points l p /\ q = V3 (dot3 p ex) (dot3 p ey) (dot3 p ez)) c w).
Proof.
  intros l ex ey ez. unfold GetCenterWidthLocal. split; intros H.
  - rewrite Nat.div_small by lia. reflexivity.
  - assert (G : (0 < length l / 3)%nat) by (apply Nat.div_str_pos; lia). destruct (Nat.eqb_spec (length l / 3) 0); [lia|].
    rewrite xyz_pnt by lia. cbn [bind]. pose (loc := fun p => V3 (dot3 p ex) (dot3 p ey) (dot3 p ez)).
    destruct (box_loop (fun i => loc (pnt l i)) (fun ino b => p <- xyz l ino ;; Some (updateMinMaxXYZ b (loc p))) (length l / 3) (loc (pnt l 0), loc (pnt l 0)) (fun q => q = loc (pnt l 0))) as (b & E & Hb).
    + intros. rewrite xyz_pnt by (apply div3_lt; lia). reflexivity.
    + apply one_box.
    + unfold loc in E, Hb; cbv beta in E. rewrite E. cbn [bind]. exists (fst (CenterWidth_MinMaxXYZ b)), (snd (CenterWidth_MinMaxXYZ b)). rewrite <- surjective_pairing. split; [reflexivity|].
      apply box_cw. eapply box_ext; [|exact Hb]. intros q. cbv beta. split.
      * intros [->|(i & Hi & ->)]; [exists (pnt l 0)|exists (pnt l i)]; (split; [|reflexivity]); eexists; (split; [|reflexivity]); lia.
      * intros (p & (i & Hi & ->) & ->). right. exists i. split; [exact Hi|reflexivity].
Qed.

(** groups *)
Definition opt_box (b : option (vec3 * vec3)) (S : vec3 -> Prop) : Prop :=
  match b with None => forall q, ~ S q | Some b => box_of S (fst b) (snd b) end.
Lemma add_point_box : forall b S p, opt_box b S -> opt_box (add_point b p) (fun q => S q \/ q = p).
Proof.
  intros [b|] S p H; cbn [add_point opt_box] in *; [apply upd_box; exact H|]. eapply box_ext; [|apply one_box]. intros q. split; [auto|]. intros [K|K]; [destruct (H _ K)|exact K].
Qed.
Lemma opt_box_ext : forall b (S T : vec3 -> Prop), (forall q, S q <-> T q) -> opt_box b S -> opt_box b T.
Proof. intros [b|] S T H K; cbn [opt_box] in *; [eapply box_ext; [exact H|exact K]|]. intros q Hq. apply (K q), H, Hq. Qed.
Lemma finish_box : forall b S, opt_box b S -> ((exists q, S q) -> box_of_cw S (fst (finish b)) (snd (finish b))) /\ ((forall q, ~ S q) -> finish b = (V3 0 0 0, V3 1 1 1)).
Proof.
  intros [b|] S H; cbn [opt_box finish] in *; split; intros K.
  - apply box_cw. exact H.
  - destruct H as (_ & (p & Hp & _) & _). destruct (K _ Hp).
  - destruct K as (q & Hq). destruct (H _ Hq).
  - reflexivity.
Qed.
Lemma group_inner : forall xyz_ elem lo hi b (S : vec3 -> Prop) (off : nat -> nat), opt_box b S ->
  (forall i, (lo <= i < hi)%nat -> (off i < length elem)%nat) -> valid elem xyz_ -> 
  exists b', forn lo hi (fun i b => ip <- vget elem (off i) ;; p <- xyz xyz_ ip ;; Some (add_point b p)) b = Some b' /\
    opt_box b' (fun q => S q \/ exists i, (lo <= i < hi)%nat /\ q = pnt xyz_ (nth (off i) elem 0%nat)).
Proof.
  intros l elem lo hi b S off Hb Ho V. destruct (le_lt_dec lo hi) as [L|L].
  2:{ exists b. split; [unfold forn; replace (hi - lo)%nat with 0%nat by lia; reflexivity|]. eapply opt_box_ext; [|exact Hb]. intros q. split; [auto|]. intros [K|(i & Hi & _)]; [exact K|lia]. }
  apply wp_iff. apply (wp_forn _ (fun k b => opt_box b (fun q => S q \/ exists i, (lo <= i < k)%nat /\ q = pnt l (nth (off i) elem 0%nat)))); [exact L| | |auto].
  - eapply opt_box_ext; [|exact Hb]. intros q. split; [auto|]. intros [K|(i & Hi & _)]; [exact K|lia].
  - intros i c Hi Hc. rewrite (vgetn nat 0%nat) by (apply Ho; exact Hi). cbn [bind]. rewrite xyz_pnt by (apply V, nth_In, Ho, Hi). cbn [bind wp].
    eapply opt_box_ext; [|apply add_point_box; exact Hc]. intros q. cbv beta. split.
    + intros [[K|(j & Hj & E)]|E]; [auto|right; exists j; split; [lia|exact E]|right; exists i; split; [lia|exact E]].
    + intros [K|(j & Hj & E)]; [auto|]. destruct (Nat.eq_dec j i); [subst; auto|left; right; exists j; split; [lia|exact E]].
Qed.
Lemma group3_proof : forall l elem g grp, length elem = (3 * length grp)%nat -> valid elem l ->
  exists c w, GetCenterWidthGroup l elem 3 g grp = Some (c, w) /\
    ((exists q, in_group 3 l elem g grp q) -> box_of_cw (in_group 3 l elem g grp) c w) /\ ((forall q, ~ in_group 3 l elem g grp q) -> (c, w) = (V3 0 0 0, V3 1 1 1)).
Proof.
  intros l elem g grp Hl V.
  assert (D : (length elem / 3 = length grp)%nat) by (rewrite Hl, Nat.mul_comm; apply Nat.div_mul; lia).
  assert (W : wp (GetCenterWidthGroup l elem 3 g grp) (fun cw => ((exists q, in_group 3 l elem g grp q) -> box_of_cw (in_group 3 l elem g grp) (fst cw) (snd cw)) /\ ((forall q, ~ in_group 3 l elem g grp q) -> cw = (V3 0 0 0, V3 1 1 1)))).
  { unfold GetCenterWidthGroup. apply wp_bind, wp_assertb; [reflexivity|]. rewrite D. apply wp_bind, wp_assertb; [apply Nat.eqb_eq; lia|]. apply wp_bind, wp_assertb; [apply Nat.eqb_refl|].
    apply wp_bind. apply (wp_forn _ (fun n b => opt_box b (fun q => exists e k, (e < n)%nat /\ nth e grp 0%Z = g /\ (k < 3)%nat /\ q = at_corner l 3 elem e k))); [lia| | |].
    - cbn [opt_box]. intros q (e & k & He & _). lia.
    - intros e b He Hb. rewrite (vgetn Z 0%Z) by lia. cbn [bind]. destruct (Z.eqb_spec (nth e grp 0%Z) g) as [E|E]; cbn [negb].
      + destruct (group_inner l elem 0 3 b _ (fun i => e * 3 + i)%nat Hb ltac:(intros; cbv beta; lia) V) as (b' & E' & Hb'). rewrite E'. cbn [wp].
        eapply opt_box_ext; [|exact Hb']. intros q. cbv beta. split.
        * intros [(e' & k & He' & Hg & Hk & Eq)|(k & Hk & Eq)]; [exists e', k; split; [lia|auto]|]. exists e, k. repeat split; [lia|exact E|lia|].
          rewrite Eq. unfold at_corner, cor. do 2 f_equal. lia.
        * intros (e' & k & He' & Hg & Hk & Eq). destruct (Nat.eq_dec e' e) as [->|N]; [right; exists k; split; [lia|]; rewrite Eq; unfold at_corner, cor; do 2 f_equal; lia|].
          left. exists e', k. split; [lia|auto].
      + cbn [wp]. eapply opt_box_ext; [|exact Hb]. intros q. split.
        * intros (e' & k & He' & Hg & Hk & Eq). exists e', k. split; [lia|auto].
        * intros (e' & k & He' & Hg & Hk & Eq). exists e', k. split; [|auto]. destruct (Nat.eq_dec e' e) as [->|N]; [contradiction|lia].
    - intros b Hb. cbn [wp]. apply (finish_box b _ Hb). }
  apply wp_iff in W. destruct W as ([c w] & E & H). exists c, w. split; [exact E|exact H].
Qed.
Lemma group_jag_proof : forall l ind elem g grp, length ind = (length grp + 1)%nat -> (forall i, In i ind -> (i <= length elem)%nat) -> valid elem l ->
  exists c w, GetCenterWidthGroup_jag l ind elem g grp = Some (c, w) /\
    ((exists q, in_group_jag l ind elem g grp q) -> box_of_cw (in_group_jag l ind elem g grp) c w) /\ ((forall q, ~ in_group_jag l ind elem g grp q) -> (c, w) = (V3 0 0 0, V3 1 1 1)).
Proof.
  intros l ind elem g grp Hl Hi V.
  assert (W : wp (GetCenterWidthGroup_jag l ind elem g grp) (fun cw => ((exists q, in_group_jag l ind elem g grp q) -> box_of_cw (in_group_jag l ind elem g grp) (fst cw) (snd cw)) /\ ((forall q, ~ in_group_jag l ind elem g grp q) -> cw = (V3 0 0 0, V3 1 1 1)))).
  { unfold GetCenterWidthGroup_jag. apply wp_bind, wp_assertb; [destruct (Nat.eqb_spec (length ind) 0); [lia|reflexivity]|]. replace (length ind - 1)%nat with (length grp) by lia. apply wp_bind, wp_assertb; [apply Nat.eqb_refl|].
    apply wp_bind. apply (wp_forn _ (fun n b => opt_box b (fun q => exists e i, (e < n)%nat /\ nth e grp 0%Z = g /\ (nth e ind 0 <= i < nth (e + 1) ind 0)%nat /\ q = pnt l (nth i elem 0%nat)))); [lia| | |].
    - cbn [opt_box]. intros q (e & k & He & _). lia.
    - intros e b He Hb. rewrite (vgetn Z 0%Z) by lia. cbn [bind]. destruct (Z.eqb_spec (nth e grp 0%Z) g) as [E|E]; cbn [negb].
      + rewrite !(vgetn nat 0%nat ind) by lia. cbn [bind].
        assert (B : (nth (e + 1) ind 0 <= length elem)%nat) by (apply Hi, nth_In; lia).
        destruct (group_inner l elem (nth e ind 0%nat) (nth (e + 1) ind 0%nat) b _ (fun i => i) Hb ltac:(intros; cbv beta; lia) V) as (b' & E' & Hb'). rewrite E'. cbn [wp].
        eapply opt_box_ext; [|exact Hb']. intros q. cbv beta. split.
        * intros [(e' & k & He' & Hg & Hk & Eq)|(k & Hk & Eq)]; [exists e', k; split; [lia|auto]|]. exists e, k. split; [lia|auto].
        * intros (e' & k & He' & Hg & Hk & Eq). destruct (Nat.eq_dec e' e) as [->|N]; [right; exists k; auto|].
          left. exists e', k. split; [lia|auto].
      + cbn [wp]. eapply opt_box_ext; [|exact Hb]. intros q. split.
        * intros (e' & k & He' & Hg & Hk & Eq). exists e', k. split; [lia|auto].
        * intros (e' & k & He' & Hg & Hk & Eq). exists e', k. split; [|auto]. destruct (Nat.eq_dec e' e) as [->|N]; [contradiction|lia].
    - intros b Hb. cbn [wp]. apply (finish_box b _ Hb). }
  apply wp_iff in W. destruct W as ([c w] & E & H). exists c, w. split; [exact E|exact H].
Qed.
Lemma size_proof : forall l, (3 <= length l)%nat -> exists s, Size_Points3D_LongestAABBEdge l = Some s /\
  (forall p q, points l p -> points l q -> Rabs (vx p - vx q) <= s /\ Rabs (vy p - vy q) <= s /\ Rabs (vz p - vz q) <= s) /\
  (exists p q, points l p /\ points l q /\ (s = vx p - vx q \/ s = vy p - vy q \/ s = vz p - vz q)).
Proof.
  intros l H. destruct (proj2 (cws_proof l) H) as (c & w & E & B). unfold Size_Points3D_LongestAABBEdge. rewrite E. cbn [bind]. exists (largest (vx w) (vy w) (vz w)). split; [reflexivity|].
  destruct B as (Hin & (px & Sx & Ex) & (py & Sy & Ey) & (pz & Sz & Ez) & (qx & Tx & Fx) & (qy & Ty & Fy) & (qz & Tz & Fz)). cbn [vx vy vz] in *.
  assert (Wx : vx w = vx qx - vx px) by lra. assert (Wy : vy w = vy qy - vy py) by lra. assert (Wz : vz w = vz qz - vz pz) by lra.
  assert (L : (vx w <= largest (vx w) (vy w) (vz w) /\ vy w <= largest (vx w) (vy w) (vz w) /\ vz w <= largest (vx w) (vy w) (vz w)) /\ (largest (vx w) (vy w) (vz w) = vx w \/ largest (vx w) (vy w) (vz w) = vy w \/ largest (vx w) (vy w) (vz w) = vz w)).
  { unfold largest. pose proof (ltRs (vx w) (vy w)) as Q. destruct (ltR (vx w) (vy w)).
    - pose proof (ltRs (vy w) (vz w)) as Q2. destruct (ltR (vy w) (vz w)); split; repeat split; try lra; auto.
    - pose proof (ltRs (vx w) (vz w)) as Q2. destruct (ltR (vx w) (vz w)); split; repeat split; try lra; auto. }
  destruct L as ((L1 & L2 & L3) & L4). split.
  - intros p q Hp Hq. pose proof (Hin _ Hp). pose proof (Hin _ Hq). repeat split; unfold Rabs; destruct Rcase_abs; lra.
  - destruct L4 as [L4|[L4|L4]]; [exists qx, px|exists qy, py|exists qz, pz]; repeat split; auto; [left|right; left|right; right]; lra.
Qed.
