(** Adding a point to a Delaunay mesh. *)
From Coq Require Import List Arith Lia Bool Relations Reals Lra.
Import ListNotations.
From Verif Require Import Imp PrModel PolyModel DtriModel DtriSpec CollSpec FanSpec DelaModel DelaSpec DtriProps.
From Verif Require Import DtriProofs1 DtriProofs2 DtriProofs3 CollProofs1 CollProofs2 CollProofs7 FanProofs1 FanProofs2 DelaProofs1 DelaProofs2 DelaProofs3 DelaProofs4.
Local Open Scope nat_scope.

Section Add.
Variables (xy : list pt) (po : list dpnt) (m : list dtri).
Notation X := (pos2 xy).
Notation ar q a b := (Area_Tri2 q (X a) (X b)).
Hypothesis HC : consistent po m.
Hypothesis Hxy : length xy = length po.
Let Hm : tri_ok m := proj1 HC.

Definition edge_stage (q : pt) (mn : R) (itri : nat) (t : dtri) (ied0 : nat) : option verdict :=
    ipo_e0 <- gv t ((ied0 + 1) mod 3)%nat ;;
    ipo_e1 <- gv t ((ied0 + 2) mod 3)%nat ;;
    s <- gs t ied0 ;;
    match s with
    | None => Some VReturn
    | Some itri_s =>
      jno0 <- FindAdjEdgeIndex t ied0 m ;;
      ts <- vget m itri_s ;;
      a <- gv ts ((jno0 + 2) mod 3)%nat ;; assertb (a =? ipo_e0)%nat ;;;
      b <- gv ts ((jno0 + 1) mod 3)%nat ;; assertb (b =? ipo_e1)%nat ;;;
      l <- gs ts jno0 ;; assertb (onat_eq l (Some itri)) ;;;
      ipo_d <- gv ts jno0 ;;
      va <- gv t ied0 ;;
      e0 <- vget xy ipo_e0 ;; e1 <- vget xy ipo_e1 ;; d <- vget xy ipo_d ;; a <- vget xy va ;;
      assertb (ltR mn (Area_Tri2 q e1 a)) ;;;
      assertb (ltR mn (Area_Tri2 q a e0)) ;;;
      if ltR (Area_Tri2 q e0 d) mn then Some VNext else
      if ltR (Area_Tri2 q d e1) mn then Some VNext else
      let det_d := DetDelaunay q e0 e1 d in
      if ((det_d =? 2) || (det_d =? 1))%nat then Some VNext else Some (VEdge ied0)
    end.

Definition inside (mn : R) (q : pt) (t : nat) : Prop := forall e, e < 3 -> (mn < ar q (V m t (nx e)) (V m t (pv e)))%R.
Definition verdict_ok (mn : R) (q : pt) (t : nat) (v : verdict) : Prop :=
  match v with
  | VNext => ~ inside mn q t
  | VReturn => exists e, e < 3 /\ L m t e = None /\ (ar q (V m t (nx e)) (V m t (pv e)) <= mn)%R
  | VInside => inside mn q t
  | VEdge e => exists u k, twin m t e u k /\ (mn < ar q (V m t (pv e)) (V m t e))%R /\ (mn < ar q (V m t e) (V m t (nx e)))%R /\
     (mn <= ar q (V m t (nx e)) (V m u k))%R /\ (mn <= ar q (V m u k) (V m t (pv e)))%R
  end.

Lemma edge_stage_ok : forall q mn t e, t < length m -> e < 3 ->
  (ar q (V m t (nx e)) (V m t (pv e)) <= mn)%R -> (mn < ar q (V m t (pv e)) (V m t e))%R -> (mn < ar q (V m t e) (V m t (nx e)))%R ->
  wp (edge_stage q mn t (nth t m dtri0) e) (verdict_ok mn q t).
Proof.
  intros q mn t e Ht He H1 H2 H3. unfold edge_stage. pose proof HC as (_ & Hv & _).
  rewrite gv_nx, gv_pv by auto. cbn [bind]. rewrite gs_lnk by auto. cbn [bind]. change (lnk (nth t m dtri0) e) with (L m t e).
  assert (NI : ~ inside mn q t) by (intros Q; specialize (Q e He); lra).
  destruct (L m t e) as [u|] eqn:E; [|apply wp_some; exists e; auto].
  destruct (L_twin m t e u Hm Ht He E) as (k & TB). pose proof (L_lt m t e u Hm Ht He E) as Hu. pose proof TB as (_ & Hk & _ & E' & E1 & E2).
  rewrite (tt_FindAdj po m t e u k HC Ht TB). cbn [bind]. rewrite (vget_nth _ dtri0) by auto. cbn [bind].
  rewrite gv_pv, gv_nx by auto. cbn [bind].
  apply wp_bind, wp_assertb; [apply Nat.eqb_eq; auto|]. apply wp_bind, wp_assertb; [apply Nat.eqb_eq; auto|].
  rewrite gs_lnk by auto. cbn [bind]. change (lnk (nth u m dtri0) k) with (L m u k). rewrite E'.
  apply wp_bind, wp_assertb; [destruct (onat_eqP (Some t) (Some t)); auto|].
  rewrite gv_vtx by auto. cbn [bind]. change (vtx (nth u m dtri0) k) with (V m u k). rewrite gv_vtx by auto. cbn [bind]. change (vtx (nth t m dtri0) e) with (V m t e).
  rewrite !(vget_nth _ (0, 0)%R) by (rewrite Hxy; apply Hv; auto). cbn [bind].
  fold (X (V m t (nx e))) (X (V m t (pv e))) (X (V m u k)) (X (V m t e)).
  assert (T : forall a b, (a < b)%R -> ltR a b = true). { intros a b Q. pose proof (ltRs a b). destruct (ltR a b); auto; lra. }
  rewrite !T by auto. cbn [assertb bind].
  pose proof (ltRs (ar q (V m t (nx e)) (V m u k)) mn) as C1. destruct (ltR (ar q (V m t (nx e)) (V m u k)) mn); [apply wp_some; auto|].
  pose proof (ltRs (ar q (V m u k) (V m t (pv e))) mn) as C2. destruct (ltR (ar q (V m u k) (V m t (pv e))) mn); [apply wp_some; auto|].
  destruct ((_ =? 2) || _); apply wp_some; auto. exists u, k. auto.
Qed.

Lemma add_try_ok : forall q mn t, t < length m -> wp (add_try xy m q mn t) (verdict_ok mn q t).
Proof.
  intros q mn t Ht. unfold add_try. pose proof HC as (_ & Hv & _).
  rewrite (vget_nth _ dtri0) by auto. cbn [bind].
  change (tv0 (nth t m dtri0)) with (V m t 0). change (tv1 (nth t m dtri0)) with (V m t 1). change (tv2 (nth t m dtri0)) with (V m t 2).
  rewrite !(vget_nth _ (0, 0)%R) by (rewrite Hxy; apply Hv; auto). cbn [bind]. fold (X (V m t 0)) (X (V m t 1)) (X (V m t 2)).
  pose proof (ltRs mn (ar q (V m t 1) (V m t 2))) as A0. pose proof (ltRs mn (ar q (V m t 2) (V m t 0))) as A1. pose proof (ltRs mn (ar q (V m t 0) (V m t 1))) as A2.
  assert (N0 : inside mn q t -> (mn < ar q (V m t 1) (V m t 2))%R /\ (mn < ar q (V m t 2) (V m t 0))%R /\ (mn < ar q (V m t 0) (V m t 1))%R).
  { intros Q. split; [apply (Q 0); auto|split; [apply (Q 1); auto|apply (Q 2); auto]]. }
  destruct (ltR mn (ar q (V m t 1) (V m t 2))), (ltR mn (ar q (V m t 2) (V m t 0))), (ltR mn (ar q (V m t 0) (V m t 1)));
    cbn [Nat.add Nat.eqb Nat.sub]; try (apply wp_some; intros Q; apply N0 in Q; lra).
  - apply wp_some. intros e He. c3 e; auto.
  - apply (edge_stage_ok q mn t 2); auto.
  - apply (edge_stage_ok q mn t 1); auto.
  - apply (edge_stage_ok q mn t 0); auto.
Qed.

(** the search *)
Lemma search_ok : forall q mn, wp (forb 0 (length m) (fun itri _ =>
      v <- add_try xy m q mn itri ;; Some ((itri, v), match v with VNext => false | _ => true end)) (0, VNext))
  (fun r => let '(it, v) := r in match v with VNext => forall t, t < length m -> ~ inside mn q t | _ => it < length m /\ verdict_ok mn q it v end).
Proof.
  intros q mn. apply wp_forb with (I := fun i (r : nat * verdict) => snd r = VNext /\ forall t, t < i -> ~ inside mn q t).
  - lia.
  - split; auto. intros t Ht. lia.
  - intros i r Hi (E & HI). apply wp_bind. eapply wp_mono; [apply add_try_ok; lia|]. intros v Hv. apply wp_some. cbn [fst snd].
    destruct v; try (split; [lia|exact Hv]). split; auto. intros t Ht. destruct (Nat.eq_dec t i) as [->|N]; [exact Hv|apply HI; lia].
  - intros (it, v) (E & HI). cbn [snd] in E. subst v. exact HI.
Qed.

(** what one insertion leaves *)
Definition added (p : nat) (po' : list dpnt) (f : list dtri) : Prop :=
  consistent po' f /\ positive xy f /\ length po' = length po /\ length f = length m + 2 /\ total_area xy f = total_area xy m /\
  (forall q, q < length po -> has_link po q -> has_link po' q) /\ has_link po' p /\
  (forall a b, bedge f a b <-> bedge m a b) /\ (forall q, used f q -> used m q \/ q = p).

Lemma sum_app : forall (f : nat -> R) l l', fold_right Rplus 0%R (map f (l ++ l')) = (fold_right Rplus 0%R (map f l) + fold_right Rplus 0%R (map f l'))%R.
Proof. induction l as [|a l IH]; intros l'; cbn; [lra|]. rewrite IH. lra. Qed.
Lemma seq2 : forall k, seq 0 (k + 2) = seq 0 k ++ [k; k + 1].
Proof. intros k. rewrite seq_app. cbn. rewrite Nat.add_1_r. reflexivity. Qed.

Lemma insert_elem : forall p t, positive xy m -> t < length m -> p < length po -> inside 0 (X p) t ->
  wp (InsertPoint_Elem p t po m) (fun r => added p (fst r) (snd r)).
Proof.
  intros p t HP Ht Hp HI. pose proof (HI 0 ltac:(auto)) as I0. pose proof (HI 1 ltac:(auto)) as I1. pose proof (HI 2 ltac:(auto)) as I2.
  change (nx 0) with 1 in I0. change (pv 0) with 2 in I0. change (nx 1) with 2 in I1. change (pv 1) with 0 in I1. change (nx 2) with 0 in I2. change (pv 2) with 1 in I2.
  assert (Hc : ~ corner_of m t p).
  { intros (i & Hi & E). c3 i; rewrite E in *; [rewrite area_dup in I2|rewrite area_dup in I0|rewrite area_dup in I1]; lra. }
  destruct (C13_InsertPoint_Elem po m p t HC Ht Hp Hc) as (po' & f & E & A1 & A2 & A3 & (D1 & D2 & D3) & A4 & A5 & A6 & A7).
  rewrite E. cbn [wp fst snd]. set (n := length m) in *.
  assert (T1 : tri_area xy f t = ar (X p) (V m t 1) (V m t 2)) by (unfold tri_area, V at 1 2 3; rewrite D1; reflexivity).
  assert (T2 : tri_area xy f n = ar (X p) (V m t 2) (V m t 0)) by (unfold tri_area, V at 1 2 3; rewrite D2; reflexivity).
  assert (T3 : tri_area xy f (n + 1) = ar (X p) (V m t 0) (V m t 1)) by (unfold tri_area, V at 1 2 3; rewrite D3; reflexivity).
  assert (T0 : forall x, x < n -> x <> t -> tri_area xy f x = tri_area xy m x) by (intros x Hx N; unfold tri_area; rewrite !A4 by auto; auto).
  split; auto. split; [|split; auto; split; auto; split; [|split; auto; split; auto; split]].
  - intros x Hx. rewrite A3 in Hx. destruct (Nat.eq_dec x t) as [->|N1]; [rewrite T1; auto|]. destruct (Nat.eq_dec x n) as [->|N2]; [rewrite T2; auto|].
    destruct (Nat.eq_dec x (n + 1)) as [->|N3]; [rewrite T3; auto|]. rewrite T0 by lia. apply HP. fold n. lia.
  - unfold total_area. rewrite A3. fold n. rewrite seq2, sum_app. cbn [map fold_right]. rewrite T2, T3.
    pose proof (sum_one (tri_area xy f) (tri_area xy m) (seq 0 n) t (seq_NoDup n 0)) as S. rewrite T1 in S.
    assert (S' : (fold_right Rplus 0 (map (tri_area xy f) (seq 0 n)) - ar (X p) (V m t 1) (V m t 2) = fold_right Rplus 0 (map (tri_area xy m) (seq 0 n)) - tri_area xy m t)%R).
    { apply S; [apply in_seq; lia|]. intros y Hy N. apply in_seq in Hy. apply T0; auto. lia. }
    unfold tri_area at 3 in S'. pose proof (area_split (X (V m t 0)) (X (V m t 1)) (X (V m t 2)) (X p)). lra.
  - intros a b.
    assert (L1 : L f t 0 = L m t 0 /\ L f t 1 <> None /\ L f t 2 <> None) by (unfold L at 1 3 4; rewrite D1; repeat split; discriminate).
    assert (L2 : L f n 0 = L m t 1 /\ L f n 1 <> None /\ L f n 2 <> None) by (unfold L at 1 3 4; rewrite D2; repeat split; discriminate).
    assert (L3 : L f (n + 1) 0 = L m t 2 /\ L f (n + 1) 1 <> None /\ L f (n + 1) 2 <> None) by (unfold L at 1 3 4; rewrite D3; repeat split; discriminate).
    assert (V1 : V f t 1 = V m t 1 /\ V f t 2 = V m t 2) by (unfold V at 1 3; rewrite D1; auto).
    assert (V2 : V f n 1 = V m t 2 /\ V f n 2 = V m t 0) by (unfold V at 1 3; rewrite D2; auto).
    assert (V3 : V f (n + 1) 1 = V m t 0 /\ V f (n + 1) 2 = V m t 1) by (unfold V at 1 3; rewrite D3; auto).
    split.
    + intros (x & i & Hx & Hi & EN & Ea & Eb). rewrite A3 in Hx.
      destruct (Nat.eq_dec x t) as [->|N1]; [|destruct (Nat.eq_dec x n) as [->|N2]; [|destruct (Nat.eq_dec x (n + 1)) as [->|N3]]].
      * c3 i; [|tauto|tauto]. exists t, 0. change (nx 0) with 1 in *. change (pv 0) with 2 in *. repeat split; auto; try congruence; intuition congruence.
      * c3 i; [|tauto|tauto]. exists t, 1. change (nx 0) with 1 in *. change (pv 0) with 2 in *. change (nx 1) with 2. change (pv 1) with 0. repeat split; auto; intuition congruence.
      * c3 i; [|tauto|tauto]. exists t, 2. change (nx 0) with 1 in *. change (pv 0) with 2 in *. change (nx 2) with 0. change (pv 2) with 1. repeat split; auto; intuition congruence.
      * exists x, i. rewrite !A4 in * by lia. repeat split; auto; [fold n; lia|]. apply A5; auto. lia.
    + intros (x & i & Hx & Hi & EN & Ea & Eb). fold n in Hx.
      destruct (Nat.eq_dec x t) as [->|N1].
      * c3 i; [exists t, 0|exists n, 0|exists (n + 1), 0]; change (nx 0) with 1 in *; change (pv 0) with 2 in *; rewrite A3;
          (split; [lia|]); (split; [auto|]); (split; [intuition congruence|]).
        -- intuition congruence.
        -- change (nx 1) with 2 in *. change (pv 1) with 0 in *. intuition congruence.
        -- change (nx 2) with 0 in *. change (pv 2) with 1 in *. intuition congruence.
      * exists x, i. rewrite A3, !A4 by lia. repeat split; auto; [lia|]. apply A5; auto.
  - intros q (x & Hx & i & Hi & Eq). rewrite A3 in Hx.
    destruct (Nat.eq_dec x t) as [->|N1]; [|destruct (Nat.eq_dec x n) as [->|N2]; [|destruct (Nat.eq_dec x (n + 1)) as [->|N3]]].
    + unfold V in Eq. rewrite D1 in Eq. c3 i; cbn [vtx tv0 tv1 tv2] in Eq; [auto| |]; left; exists t; (split; [auto|]); [exists 1|exists 2]; auto.
    + unfold V in Eq. rewrite D2 in Eq. c3 i; cbn [vtx tv0 tv1 tv2] in Eq; [auto| |]; left; exists t; (split; [auto|]); [exists 2|exists 0]; auto.
    + unfold V in Eq. rewrite D3 in Eq. c3 i; cbn [vtx tv0 tv1 tv2] in Eq; [auto| |]; left; exists t; (split; [auto|]); [exists 0|exists 1]; auto.
    + left. exists x. split; [fold n; lia|]. exists i. split; auto. rewrite <- A4; auto. lia.
Qed.

Lemma sum_two' : forall (f g : nat -> R) l x y, NoDup l -> In x l -> In y l -> x <> y -> (forall z, In z l -> z <> x -> z <> y -> f z = g z) ->
  (fold_right Rplus 0 (map f l) - f x - f y = fold_right Rplus 0 (map g l) - g x - g y)%R.
Proof.
  intros f g l x y Nd Hx Hy N H. set (h := fun z => if Nat.eq_dec z x then g z else f z).
  assert (Q1 : (fold_right Rplus 0 (map f l) - f x = fold_right Rplus 0 (map h l) - h x)%R).
  { apply sum_one; auto. intros z Hz Nz. unfold h. destruct Nat.eq_dec; congruence. }
  assert (Q2 : (fold_right Rplus 0 (map h l) - h y = fold_right Rplus 0 (map g l) - g y)%R).
  { apply sum_one; auto. intros z Hz Nz. unfold h. destruct Nat.eq_dec as [->|]; auto. }
  assert (h x = g x) by (unfold h; destruct Nat.eq_dec; congruence). assert (h y = f y) by (unfold h; destruct Nat.eq_dec; congruence).
  lra.
Qed.

Lemma insert_edge : forall p t e u k, positive xy m -> t < length m -> p < length po -> twin m t e u k ->
  (0 < ar (X p) (V m t (pv e)) (V m t e))%R -> (0 < ar (X p) (V m t e) (V m t (nx e)))%R ->
  (0 < ar (X p) (V m t (nx e)) (V m u k))%R -> (0 < ar (X p) (V m u k) (V m t (pv e)))%R ->
  wp (InsertPoint_ElemEdge p t e po m) (fun r => added p (fst r) (snd r)).
Proof.
  intros p t e u k HP Ht Hp TB H1 H2 H3 H4. pose proof TB as (He & Hk & EL & EL' & E1 & E2).
  pose proof (L_lt m t e u Hm Ht He EL) as Hu.
  assert (Ntu : t <> u). { intros E. pose proof TB as TB'. rewrite <- E in TB'. apply (not_twin_self m t e k Hm); auto. }
  assert (Z1 : forall a b, Area_Tri2 a a b = 0%R) by (intros; unfold Area_Tri2; lra).
  assert (Z2 : forall a b, Area_Tri2 a b a = 0%R) by (intros; unfold Area_Tri2; lra).
  assert (F1 : p <> V m t (pv e)) by (intros ->; rewrite Z1 in H1; lra).
  assert (F2 : p <> V m t e) by (intros ->; rewrite Z1 in H2; lra).
  assert (F3 : p <> V m t (nx e)) by (intros ->; rewrite Z1 in H3; lra).
  assert (F4 : p <> V m u k) by (intros ->; rewrite Z1 in H4; lra).
  assert (Hc1 : ~ corner_of m t p). { intros (i & Hi & E). destruct (ix3 e i He Hi) as [->|[->| ->]]; congruence. }
  assert (Hc2 : ~ corner_of m u p). { intros (i & Hi & E). destruct (ix3 k i Hk Hi) as [->|[->| ->]]; congruence. }
  destruct (C14_InsertPoint_ElemEdge po m p t e u k HC Ht Hp TB Hc1 Hc2) as (po' & f & E & A1 & A2 & A3 & (D1 & D2 & D3 & D4) & A4 & A5 & A6 & A7).
  rewrite E. cbn [wp fst snd]. set (n := length m) in *.
  assert (T1 : tri_area xy f t = ar (X p) (V m t (pv e)) (V m t e)) by (unfold tri_area, V at 1 2 3; rewrite D1; reflexivity).
  assert (T2 : tri_area xy f u = ar (X p) (V m t e) (V m t (nx e))) by (unfold tri_area, V at 1 2 3; rewrite D2; reflexivity).
  assert (T3 : tri_area xy f n = ar (X p) (V m t (nx e)) (V m u k)) by (unfold tri_area, V at 1 2 3; rewrite D3, E1; reflexivity).
  assert (T4 : tri_area xy f (n + 1) = ar (X p) (V m u k) (V m t (pv e))) by (unfold tri_area, V at 1 2 3; rewrite D4, E2; reflexivity).
  assert (T0 : forall x, x < n -> x <> t -> x <> u -> tri_area xy f x = tri_area xy m x) by (intros x Hx N N'; unfold tri_area; rewrite !A4 by auto; auto).
  assert (V1 : V f t 0 = p /\ V f t 1 = V m t (pv e) /\ V f t 2 = V m t e) by (unfold V at 1 2 4; rewrite D1; auto).
  assert (V2 : V f u 0 = p /\ V f u 1 = V m t e /\ V f u 2 = V m t (nx e)) by (unfold V at 1 2 4; rewrite D2; auto).
  assert (V3 : V f n 0 = p /\ V f n 1 = V m t (nx e) /\ V f n 2 = V m u k) by (unfold V at 1 2 4; rewrite D3, E1; auto).
  assert (V4 : V f (n + 1) 0 = p /\ V f (n + 1) 1 = V m u k /\ V f (n + 1) 2 = V m t (pv e)) by (unfold V at 1 2 4; rewrite D4, E2; auto).
  split; auto. split; [|split; auto; split; auto; split; [|split; auto; split; auto; split]].
  - intros x Hx. rewrite A3 in Hx. destruct (Nat.eq_dec x t) as [->|N1]; [rewrite T1; auto|]. destruct (Nat.eq_dec x u) as [->|N4]; [rewrite T2; auto|].
    destruct (Nat.eq_dec x n) as [->|N2]; [rewrite T3; auto|].
    destruct (Nat.eq_dec x (n + 1)) as [->|N3]; [rewrite T4; auto|]. rewrite T0 by lia. apply HP. fold n. lia.
  - unfold total_area. rewrite A3. fold n. rewrite seq2, sum_app. cbn [map fold_right]. rewrite T3, T4.
    pose proof (sum_two' (tri_area xy f) (tri_area xy m) (seq 0 n) t u (seq_NoDup n 0)) as S.
    specialize (S ltac:(apply in_seq; lia) ltac:(apply in_seq; lia) Ntu).
    specialize (S ltac:(intros z Hz Z3 Z4; apply in_seq in Hz; apply T0; auto; lia)).
    rewrite T1, T2, (tri_area_rot xy m t e), (tri_area_rot xy m u k), <- E1, <- E2 in S by auto. unfold Area_Tri2 in *. lra.
  - intros a b.
    assert (L1 : L f t 0 = L m t (nx e) /\ L f t 1 <> None /\ L f t 2 <> None) by (unfold L at 1 3 4; rewrite D1; repeat split; discriminate).
    assert (L2 : L f u 0 = L m t (pv e) /\ L f u 1 <> None /\ L f u 2 <> None) by (unfold L at 1 3 4; rewrite D2; repeat split; discriminate).
    assert (L3 : L f n 0 = L m u (nx k) /\ L f n 1 <> None /\ L f n 2 <> None) by (unfold L at 1 3 4; rewrite D3; repeat split; discriminate).
    assert (L4 : L f (n + 1) 0 = L m u (pv k) /\ L f (n + 1) 1 <> None /\ L f (n + 1) 2 <> None) by (unfold L at 1 3 4; rewrite D4; repeat split; discriminate).
    split.
    + intros (x & i & Hx & Hi & EN & Ea & Eb). rewrite A3 in Hx.
      destruct (Nat.eq_dec x t) as [->|N1]; [|destruct (Nat.eq_dec x u) as [->|N4]; [|destruct (Nat.eq_dec x n) as [->|N2]; [|destruct (Nat.eq_dec x (n + 1)) as [->|N3]]]].
      * c3 i; [|tauto|tauto]. change (nx 0) with 1 in *. change (pv 0) with 2 in *. exists t, (nx e). rewrite nx_nx, pv_nx by auto. repeat split; auto; intuition congruence.
      * c3 i; [|tauto|tauto]. change (nx 0) with 1 in *. change (pv 0) with 2 in *. exists t, (pv e). rewrite nx_pv, pv_pv by auto. repeat split; auto; intuition congruence.
      * c3 i; [|tauto|tauto]. change (nx 0) with 1 in *. change (pv 0) with 2 in *. exists u, (nx k). rewrite nx_nx, pv_nx by auto. repeat split; auto; intuition congruence.
      * c3 i; [|tauto|tauto]. change (nx 0) with 1 in *. change (pv 0) with 2 in *. exists u, (pv k). rewrite nx_pv, pv_pv by auto. repeat split; auto; intuition congruence.
      * exists x, i. rewrite !A4 in * by lia. repeat split; auto; [fold n; lia|]. apply A5; auto. lia.
    + intros (x & i & Hx & Hi & EN & Ea & Eb). fold n in Hx.
      destruct (Nat.eq_dec x t) as [->|N1]; [|destruct (Nat.eq_dec x u) as [->|N2]].
      * destruct (ix3 e i He Hi) as [->|[->| ->]]; [congruence|exists t, 0|exists u, 0]; change (nx 0) with 1; change (pv 0) with 2; rewrite A3;
          (split; [lia|]); (split; [auto|]); (split; [intuition congruence|]).
        -- rewrite nx_nx in Ea by auto. rewrite pv_nx in Eb by auto. intuition congruence.
        -- rewrite nx_pv in Ea by auto. rewrite pv_pv in Eb by auto. intuition congruence.
      * destruct (ix3 k i Hk Hi) as [->|[->| ->]]; [congruence|exists n, 0|exists (n + 1), 0]; change (nx 0) with 1; change (pv 0) with 2; rewrite A3;
          (split; [lia|]); (split; [auto|]); (split; [intuition congruence|]).
        -- rewrite nx_nx in Ea by auto. rewrite pv_nx in Eb by auto. intuition congruence.
        -- rewrite nx_pv in Ea by auto. rewrite pv_pv in Eb by auto. intuition congruence.
      * exists x, i. rewrite A3, !A4 by lia. repeat split; auto; [lia|]. apply A5; auto.
  - intros q (x & Hx & i & Hi & Eq). rewrite A3 in Hx.
    assert (Ut : forall j, j < 3 -> V m t j = q -> used m q) by (intros j Hj Ej; exists t; split; auto; exists j; auto).
    assert (Uu : forall j, j < 3 -> V m u j = q -> used m q) by (intros j Hj Ej; exists u; split; auto; exists j; auto).
    destruct (Nat.eq_dec x t) as [->|N1]; [|destruct (Nat.eq_dec x u) as [->|N4]; [|destruct (Nat.eq_dec x n) as [->|N2]; [|destruct (Nat.eq_dec x (n + 1)) as [->|N3]]]].
    + destruct V1 as (Q0 & Q1 & Q2). c3 i; [right; congruence|left; apply (Ut (pv e)); auto; congruence|left; apply (Ut e); auto; congruence].
    + destruct V2 as (Q0 & Q1 & Q2). c3 i; [right; congruence|left; apply (Ut e); auto; congruence|left; apply (Ut (nx e)); auto; congruence].
    + destruct V3 as (Q0 & Q1 & Q2). c3 i; [right; congruence|left; apply (Ut (nx e)); auto; congruence|left; apply (Uu k); auto; congruence].
    + destruct V4 as (Q0 & Q1 & Q2). c3 i; [right; congruence|left; apply (Uu k); auto; congruence|left; apply (Ut (pv e)); auto; congruence].
    + left. exists x. split; [fold n; lia|]. exists i. split; auto. rewrite <- A4; auto. lia.
Qed.

(** AddPointsMesh *)
Lemma add_ok : forall p mn, positive xy m -> p < length po -> (0 < mn)%R -> pe (nth p po (mkP None 0)) = None ->
  (AddPointsMesh xy po m p mn = None /\ forall t, t < length m -> ~ inside mn (X p) t) \/
  (AddPointsMesh xy po m p mn = Some (po, m) /\ exists t e, t < length m /\ e < 3 /\ L m t e = None /\ (ar (X p) (V m t (nx e)) (V m t (pv e)) <= mn)%R) \/
  (exists po' f, AddPointsMesh xy po m p mn = Some (po', f) /\ added p po' f).
Proof.
  intros p mn HP Hp Hmn HE. unfold AddPointsMesh. rewrite Hxy, Nat.eqb_refl. cbn [assertb bind].
  rewrite (vget_nth _ (mkP None 0)) by auto. cbn [bind]. rewrite HE. rewrite (vget_nth _ (0, 0)%R) by lia. cbn [bind]. fold (X p).
  destruct (wp_ex _ _ _ (search_ok (X p) mn)) as ((it, v) & ES & HV). rewrite ES. cbn [bind]. destruct v as [| | |e].
  - left. auto.
  - right; left. destruct HV as (Hit & e & He & HL & HA). split; auto. exists it, e. auto.
  - right; right. destruct HV as (Hit & HI). assert (HI' : inside 0 (X p) it) by (intros j Hj; specialize (HI j Hj); lra).
    destruct (wp_ex _ _ _ (insert_elem p it HP Hit Hp HI')) as ((po', f) & E & A). exists po', f. auto.
  - right; right. destruct HV as (Hit & u & k & TB & H1 & H2 & H3 & H4).
    destruct (wp_ex _ _ _ (insert_edge p it e u k HP Hit Hp TB ltac:(lra) ltac:(lra) ltac:(lra) ltac:(lra))) as ((po', f) & E & A). exists po', f. auto.
Qed.
Lemma add_linked : forall p mn, p < length po -> has_link po p -> AddPointsMesh xy po m p mn = Some (po, m).
Proof.
  intros p mn Hp HE. unfold AddPointsMesh. rewrite Hxy, Nat.eqb_refl. cbn [assertb bind].
  rewrite (vget_nth _ (mkP None 0)) by auto. cbn [bind]. unfold has_link in HE. destruct (pe (nth p po (mkP None 0))); congruence.
Qed.
End Add.
