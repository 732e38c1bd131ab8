(** C59: the loops that are given to the mesh generator - packing, orientation, resampling and the search for crossing edges. *)
From Coquelicot Require Import Coquelicot.
From Coq Require Import Reals Lra Lia List Arith Bool Permutation ZArith Psatz.
Import ListNotations.
From Verif Require Import Imp PrModel JagSpec JagProofs BezProofs PolyModel PolySpec PolyProofs LoopSpec LoopProofs LoopProofs2 LoopProofs3 LoopProofs4.
Open Scope nat_scope.

(** Packing: the k-th row of the result is the k-th input array read as points (an odd last number is dropped); vertex indices are 0, 1, 2, ... *)
Theorem C59_JArray : forall vv, exists ind ip xy, JArray_FromVecVec_XY vv = Some (ind, ip, xy) /\ jagged ind xy (map points vv) /\ ip = seq 0 (length xy).
Proof. exact jarray_ok. Qed.

Lemma area2_rev : forall l, area2 (rev l) = (- area2 l)%R.
Proof.
  intros l. unfold area2. rewrite total_rev. set (f := fun a b : R * R => (fst a * snd b - fst b * snd a)%R). transitivity (total (fun a b => (-1) * f a b + 0 * f a b)%R l); [apply total_ext; intros a b; unfold f; ring|]. rewrite total_lin. ring.
Qed.
(** Orientation: every loop is kept or reversed, so that the first one is counterclockwise and all others clockwise; lengths and offsets do not change. *)
Theorem C59_FixLoopOrientation : forall ind ip ls xy, jagged ind ip ls -> ls <> [] -> Forall (fun v => v < length xy) ip ->
  let pos := fun v => nth v xy (0, 0)%R in
  exists ip' ls', FixLoopOrientation ip ind xy = Some ip' /\ jagged ind ip' ls' /\ length ls' = length ls /\
  forall k, k < length ls -> let p := nth k ls [] in let p' := nth k ls' [] in
    (p' = p \/ p' = rev p) /\ area2 (map pos p') = ((if k =? 0 then 1 else -1) * Rabs (area2 (map pos p)))%R.
Proof.
  intros ind ip ls xy J NE FA pos. destruct (fix_ok ind ip ls xy J NE FA) as (ip' & E & J'). exists ip', (map (fun k => orient pos k (nth k ls [])) (seq 0 (length ls))). split; auto. split; auto. split; [rewrite map_length, seq_length; auto|]. intros k K p p'.
  assert (EP : p' = orient pos k p) by (unfold p'; rewrite nth_map_seq by auto; auto). rewrite EP. unfold orient. assert (T := ltR_spec 0 (area2 (map pos p))).
  assert (RV : area2 (map pos (rev p)) = (- area2 (map pos p))%R) by (rewrite map_rev; apply area2_rev).
  destruct (ltR 0 (area2 (map pos p))), (k =? 0); cbn [Bool.eqb]; (split; [auto|]); rewrite ?RV; unfold Rabs; destruct (Rcase_abs _); lra.
Qed.

(** Resampling of loops whose vertices are stored in order: every edge of length d is cut into trunc(d / l) + 1 equal parts; the old points keep their indices; every index is used exactly once. *)
Theorem C59_ResamplingLoop : forall ind xy polys l, (0 < l)%R -> jagged ind xy polys -> Forall (fun p => p <> []) polys -> 2 <= length xy ->
  exists m, (forall a b, INR (m (a, b)) * l <= dist a b < (INR (m (a, b)) + 1) * l)%R /\
  let polys' := map (fun p => flat_map (fun e => subdivide (m e) e) (edges p)) polys in
  exists ind' ip' xy', ResamplingLoop ind (seq 0 (length xy)) xy l = Some (ind', ip', xy') /\
    jagged ind' (map (fun v => nth v xy' (0, 0)%R) ip') polys' /\ Permutation ip' (seq 0 (length xy')) /\ firstn (length xy) xy' = xy.
Proof.
  intros ind xy polys l LP J NE N2. exists (cuts l). split; [|apply resample_ok; auto].
  intros a b. unfold cuts. cbn [fst snd]. assert (D0 : (0 <= dist a b)%R) by (unfold dist; apply sqrt_pos). assert (T := trunc_spec (dist a b / l) ltac:(apply Rle_mult_inv_pos; auto)). set (t := INR (trunc (dist a b / l))) in *. assert (EQ : dist a b = (dist a b / l * l)%R) by (field; lra). set (q := (dist a b / l)%R) in *. clearbody t q. rewrite EQ. split; [apply Rmult_le_compat_r; lra|apply Rmult_lt_compat_r; lra].
Qed.
(** Such a cut makes all edges shorter than l and keeps the perimeter and the area. *)
Theorem C59_resampled_edges : forall m l p, (forall a b, INR (m (a, b)) * l <= dist a b < (INR (m (a, b)) + 1) * l)%R ->
  let p' := flat_map (fun e => subdivide (m e) e) (edges p) in
  (forall a b, In (a, b) (edges p') -> (dist a b < l)%R) /\ total dist p' = total dist p /\ area2 p' = area2 p.
Proof.
  intros m l p M p'. unfold p', area2, total. rewrite edges_refine. split; [|split].
  - intros a b I. apply in_flat_map in I. destruct I as (e & _ & I). rewrite (chain_dist _ _ _ _ I). destruct e as (x, y). cbn [fst snd]. specialize (M x y). assert (P : (0 < INR (m (x, y) + 1))%R) by (apply lt_0_INR; lia). apply (Rmult_lt_reg_r (INR (m (x, y) + 1))); auto. unfold Rdiv. rewrite Rmult_assoc, Rinv_l by lra. rewrite plus_INR. cbn [INR]. lra.
  - apply sum_flat. intros e _. apply chain_sums.
  - apply sum_flat. intros e _. apply chain_sums.
Qed.
(** The whole preparation of GenMesh for loops that are already oriented (first counterclockwise, others clockwise): the result describes the same boundary with edges shorter than l. *)
Theorem C59_pipeline : forall vv l, (0 < l)%R -> vv <> [] -> (forall k, k < length vv -> 2 <= length (points (nth k vv []))) -> (forall k, k < length vv -> if k =? 0 then (0 < area2 (points (nth k vv [])))%R else (area2 (points (nth k vv [])) <= 0)%R) ->
  exists ind ip xy ip2 ind' ip' xy' polys', JArray_FromVecVec_XY vv = Some (ind, ip, xy) /\ FixLoopOrientation ip ind xy = Some ip2 /\ ResamplingLoop ind ip2 xy l = Some (ind', ip', xy') /\
    jagged ind' (map (fun v => nth v xy' (0, 0)%R) ip') polys' /\ Permutation ip' (seq 0 (length xy')) /\
    Forall2 (fun v p' => (forall a b, In (a, b) (edges p') -> (dist a b < l)%R) /\ total dist p' = total dist (points v) /\ area2 p' = area2 (points v)) vv polys'.
Proof.
  intros vv l LP NE L2 OR. destruct (C59_JArray vv) as (ind & ip & xy & E1 & J1 & IP). exists ind, ip, xy. assert (PN : forall k, nth k (map points vv) [] = points (nth k vv [])) by (intros k; exact (map_nth points vv [] k)).
  assert (JG := group_jagged _ _ _ J1). rewrite <- IP in JG. assert (EX : xy = concat (map points vv)) by apply J1.
  destruct (fix_ok ind ip (group (map points vv)) xy JG) as (ip2 & E2 & J2).
  { intros H. apply NE. apply length_zero_iff_nil. rewrite <- (map_length points vv), <- group_length, H. auto. }
  { rewrite IP. apply Forall_forall. intros v V. apply in_seq in V. lia. }
  assert (OG : map (fun k => orient (fun v => nth v xy (0, 0)%R) k (nth k (group (map points vv)) [])) (seq 0 (length (group (map points vv)))) = group (map points vv)).
  { apply (list_ext _ []); [rewrite map_length, seq_length; auto|]. intros k K. rewrite map_length, seq_length in K. rewrite nth_map_seq by auto. cbn [Nat.add]. rewrite group_length, map_length in K. set (p := nth k (group (map points vv)) []). assert (MP : map (fun v => nth v xy (0, 0)%R) p = points (nth k vv [])). { rewrite EX. transitivity (nth k (map (map (fun v => nth v (concat (map points vv)) (0, 0)%R)) (group (map points vv))) []); [symmetry; exact (map_nth (map (fun v => nth v (concat (map points vv)) (0, 0)%R)) (group (map points vv)) [] k)|]. rewrite group_pos. apply PN. }
    unfold orient. rewrite MP. specialize (OR k K). assert (T := ltR_spec 0 (area2 (points (nth k vv [])))). destruct (ltR 0 (area2 _)), (k =? 0); cbn [Bool.eqb]; auto; lra. }
  rewrite OG in J2. assert (I2 : ip2 = seq 0 (length xy)). { destruct J2 as (J2 & _). rewrite J2, EX. apply group_concat. }
  exists ip2. assert (NEs : Forall (fun p => p <> []) (map points vv)). { apply Forall_forall. intros p P. apply (In_nth _ _ []) in P. destruct P as (k & K & <-). rewrite map_length in K. rewrite PN. specialize (L2 k K). intros H. rewrite H in L2. cbn in L2. lia. }
  assert (N2 : 2 <= length xy). { rewrite EX. destruct vv as [|v vv]; [contradiction|]. specialize (L2 0 ltac:(cbn; lia)). cbn [nth] in L2. cbn [map concat]. rewrite app_length. lia. }
  destruct (C59_ResamplingLoop ind xy (map points vv) l LP J1 NEs N2) as (m & M & ind' & ip' & xy' & E3 & J3 & PE & _). exists ind', ip', xy'. eexists. split; [exact E1|]. split; [exact E2|]. split; [rewrite I2; exact E3|]. split; [exact J3|]. split; [exact PE|].
  clear - M. induction vv as [|v vv IH]; [constructor|]. cbn [map]. constructor; [|exact IH]. apply (C59_resampled_edges m l (points v) M).
Qed.

(** The same preparation fails if the outer loop is given clockwise: with its vertices reversed the resampling indexes one table by vertex and by position, and reads out of bounds. The loop is the rectangle 2 x 1, the edge length 9/10. *)
Lemma cuts_val : forall l a b n d, (0 < l)%R -> dist a b = d -> (INR n * l <= d < (INR n + 1) * l)%R -> cuts l (a, b) = n.
Proof.
  intros l a b n d LP E B. unfold cuts. cbn [fst snd]. rewrite E. assert (T := trunc_spec (d / l) ltac:(apply Rle_mult_inv_pos; auto; destruct B as (B & _); assert (0 <= INR n)%R by apply pos_INR; nra)). set (t := trunc (d / l)) in *.
  assert (A1 : (INR n <= d / l)%R) by (apply (Rmult_le_reg_r l); auto; unfold Rdiv; rewrite Rmult_assoc, Rinv_l by lra; lra). assert (A2 : (d / l < INR n + 1)%R) by (apply (Rmult_lt_reg_r l); auto; unfold Rdiv; rewrite Rmult_assoc, Rinv_l by lra; lra).
  rewrite <- S_INR in *. assert (INR n < INR (S t))%R by lra. assert (INR t < INR (S n))%R by lra. apply INR_lt in H, H0. lia.
Qed.
Theorem C59_clockwise_refuted : exists ind ip xy ip2, JArray_FromVecVec_XY [[0; 0; 0; 1; 2; 1; 2; 0]%R] = Some (ind, ip, xy) /\ FixLoopOrientation ip ind xy = Some ip2 /\ ip2 = [3; 2; 1; 0] /\ ResamplingLoop ind ip2 xy (9 / 10) = None.
Proof.
  exists [0; 4], [0; 1; 2; 3], [(0, 0); (0, 1); (2, 1); (2, 0)]%R, [3; 2; 1; 0]. set (xy := [(0, 0); (0, 1); (2, 1); (2, 0)]%R).
  split; [reflexivity|]. assert (J : forall l : list nat, length l = 4 -> jagged [0; 4] l [l]). { intros l L. split; [symmetry; apply app_nil_r|]. cbn [length seq map firstn concat]. rewrite app_nil_r, L. auto. }
  split; [|split; [reflexivity|]].
  - destruct (fix_ok [0; 4] [0; 1; 2; 3] [[0; 1; 2; 3]] xy) as (ip' & E & J2); [apply J; auto|discriminate|repeat constructor|]. rewrite E. f_equal. destruct J2 as (-> & _). cbn [length seq map nth concat]. unfold orient. assert (T := ltR_spec 0 (area2 (map (fun v => nth v xy (0, 0)%R) [0; 1; 2; 3]))). assert (AV : area2 (map (fun v => nth v xy (0, 0)%R) [0; 1; 2; 3]) = (-4)%R) by (unfold area2, total, edges, sum; cbn [map nth xy tl firstn app combine fst snd fold_right]; lra). rewrite AV in *. destruct (ltR 0 _); [exfalso; lra|reflexivity].
  - rewrite (resample_eq [0; 4] [3; 2; 1; 0] [[3; 2; 1; 0]] xy); [|lra|apply J; auto|auto|cbn; lia|repeat constructor|repeat constructor; discriminate]. cbv zeta. unfold eds, edges. cbn [map concat tl firstn app combine nth xy].
    assert (D : forall a b d, (0 <= d)%R -> ((fst a - fst b) * (fst a - fst b) + (snd a - snd b) * (snd a - snd b) = d * d)%R -> dist a b = d) by (intros a b d P E; unfold dist; rewrite E; apply sqrt_square; auto).
    assert (N : forall a b n d, (0 <= d)%R -> ((fst a - fst b) * (fst a - fst b) + (snd a - snd b) * (snd a - snd b) = d * d)%R -> (INR n * (9 / 10) <= d < (INR n + 1) * (9 / 10))%R -> length (newp (9 / 10) (a, b)) = n) by (intros a b n d P E B; rewrite newp_length; apply (cuts_val _ _ _ _ d); auto; lra).
    assert (N0 := N (2, 0)%R (2, 1)%R 1 1%R ltac:(lra) ltac:(cbn; lra) ltac:(cbn; lra)). assert (N1 := N (2, 1)%R (0, 1)%R 2 2%R ltac:(lra) ltac:(cbn; lra) ltac:(cbn; lra)). assert (N2 := N (0, 1)%R (0, 0)%R 1 1%R ltac:(lra) ltac:(cbn; lra) ltac:(cbn; lra)). assert (N3 := N (0, 0)%R (2, 0)%R 2 2%R ltac:(lra) ltac:(cbn; lra) ltac:(cbn; lra)). clear N D.
    destruct (newp (9 / 10) ((2, 0), (2, 1))%R) as [|a [|]]; try discriminate N0. destruct (newp (9 / 10) ((2, 1), (0, 1))%R) as [|b0 [|b1 [|]]]; try discriminate N1. destruct (newp (9 / 10) ((0, 1), (0, 0))%R) as [|c [|]]; try discriminate N2. destruct (newp (9 / 10) ((0, 0), (2, 0))%R) as [|d0 [|d1 [|]]]; try discriminate N3. reflexivity.
Qed.

(** The search for crossing edges: if it finds nothing, no two edges of a loop that are not neighbours have a common point; with one loop it reports only true crossings. *)
Theorem C59_self_crossing : forall ind xy polys, jagged ind xy polys -> exists r, CheckIntersection ind xy = Some r /\
  (r = false -> forall k i j, let p := nth k polys [] in k < length polys -> i < length p -> j < length p -> ~ touching (length p) i j -> ~ meets (edge_at p i) (edge_at p j)) /\
  (r = true -> length polys = 1 -> exists i j, let p := nth 0 polys [] in i < length p /\ j < length p /\ ~ touching (length p) i j /\ meets (edge_at p i) (edge_at p j)).
Proof. exact check_ok. Qed.

(** Edges of different loops are compared with the second coordinate read twice, so crossings between loops are missed: the triangle below crosses the U shape, with all its vertices inside. *)
Definition apartZ (a b c d : Z * Z) : bool :=
  let max := fun a b => if (a <? b)%Z then b else a in
  let min := fun a b => if (b <? a)%Z then b else a in
  ((max (fst a) (fst b) <? min (fst c) (fst d))%Z || (max (fst c) (fst d) <? min (fst a) (fst b))%Z)
  || ((max (snd a) (snd b) <? min (snd c) (snd d))%Z || (max (snd c) (snd d) <? min (snd a) (snd b))%Z).
Definition crossZ (s0 e0 s1 e1 : Z * Z) : bool :=
  let area := fun v1 v2 v3 : Z * Z => ((fst v2 - fst v1) * (snd v3 - snd v1) - (fst v3 - fst v1) * (snd v2 - snd v1))%Z in
  if (0 <? area s0 e0 s1 * area s0 e0 e1)%Z then false else if (0 <? area s1 e1 s0 * area s1 e1 e0)%Z then false else true.
Definition toR (p : Z * Z) : R * R := (IZR (fst p), IZR (snd p)).
Lemma ltR_IZR : forall a b, ltR (IZR a) (IZR b) = (a <? b)%Z.
Proof. intros a b. assert (T := ltR_spec (IZR a) (IZR b)). destruct (ltR _ _); symmetry; [apply Z.ltb_lt; apply lt_IZR; auto|apply Z.ltb_ge; apply le_IZR; auto]. Qed.
Lemma if_IZR : forall (c : bool) a b, (if c then IZR a else IZR b) = IZR (if c then a else b).
Proof. intros []; auto. Qed.
Theorem C59_cross_loops_refuted : exists ind outer inner, jagged ind (outer ++ inner) [outer; inner] /\ CheckIntersection ind (outer ++ inner) = Some false /\
  exists i j, i < length outer /\ j < length inner /\ meets (edge_at outer i) (edge_at inner j).
Proof.
  set (o := [(-3, -3); (6, -3); (6, 6); (3, 6); (3, 0); (0, 0); (0, 6); (-3, 6)]%Z). set (t := [(-1, 4); (2, -1); (3, -2)]%Z).
  exists [0; 8; 11], (map toR o), (map toR t). split; [|split].
  - split; reflexivity.
  - rewrite <- map_app. unfold CheckIntersection. rewrite (check_map _ _ toR apartZ crossZ (fun p => (snd p, snd p))); [vm_compute; reflexivity| | |auto].
    + intros a b c d. unfold boxes_apart, apartZ, toR. cbn [fst snd]. cbv zeta. rewrite !ltR_IZR, !if_IZR, !ltR_IZR. reflexivity.
    + intros a b c d. unfold IsCrossLines, crossZ, Area_Tri2, toR. cbn [fst snd]. cbv zeta. rewrite <- !minus_IZR, <- !mult_IZR, <- !minus_IZR.
      assert (G : forall x y, ltR 0 (IZR x / 2 * (IZR y / 2)) = (0 <? x * y)%Z). { intros x y. rewrite <- ltR_IZR, mult_IZR. assert (T1 := ltR_spec 0 (IZR x / 2 * (IZR y / 2))). assert (T2 := ltR_spec 0 (IZR x * IZR y)). destruct (ltR 0 (_ / 2 * _)), (ltR 0 (IZR x * IZR y)); auto; exfalso; lra. }
      rewrite !G. reflexivity.
  - exists 5, 0. split; [cbn; lia|]. split; [cbn; lia|]. unfold edge_at. cbn [map o t nth length Nat.add Nat.modulo Nat.divmod Nat.sub fst snd toR]. exists (0, 7 / 3)%R. split; [exists (7 / 18)%R|exists (1 / 3)%R]; unfold toR; repeat split; cbn [fst snd]; lra.
Qed.

(** The hypotheses hold for a square with a square hole. *)
Example C59_example : exists ind ip xy ip2 ind' ip' xy', JArray_FromVecVec_XY [[0; 0; 4; 0; 4; 4; 0; 4]; [1; 1; 1; 2; 2; 2; 2; 1]]%R = Some (ind, ip, xy) /\ FixLoopOrientation ip ind xy = Some ip2 /\ ResamplingLoop ind ip2 xy (3 / 2) = Some (ind', ip', xy').
Proof.
  destruct (C59_pipeline [[0; 0; 4; 0; 4; 4; 0; 4]; [1; 1; 1; 2; 2; 2; 2; 1]]%R (3 / 2)%R) as (ind & ip & xy & ip2 & ind' & ip' & xy' & _ & A & B & C & _); [lra|discriminate| | |exists ind, ip, xy, ip2, ind', ip', xy'; auto].
  - intros [|[|k]] K; cbn [nth points length]; [lia|lia|cbn in K; lia].
  - intros [|[|k]] K; [| |cbn in K; lia]; cbn [nth Nat.eqb points]; unfold area2, total, edges, sum; cbn [map tl firstn app combine fst snd fold_right]; lra.
Qed.
(** A bow tie is reported. *)
Example C59_bow_tie : CheckIntersection [0; 4] (map toR [(0, 0); (2, 2); (2, 0); (0, 2)]%Z) = Some true.
Proof.
  destruct (C59_self_crossing [0; 4] (map toR [(0, 0); (2, 2); (2, 0); (0, 2)]%Z) [map toR [(0, 0); (2, 2); (2, 0); (0, 2)]%Z]) as (r & E & F & _); [split; reflexivity|]. rewrite E. destruct r; auto. exfalso. refine (F eq_refl 0 0 2 _ _ _ _ _); cbn [nth]; try (cbn; lia).
  - unfold touching. cbn. lia.
  - unfold edge_at. cbn [map nth length Nat.add Nat.modulo Nat.divmod Nat.sub fst snd toR]. exists (1, 1)%R. split; exists (1 / 2)%R; unfold toR; repeat split; cbn [fst snd]; lra.
Qed.

Print Assumptions C59_JArray.
Print Assumptions C59_FixLoopOrientation.
Print Assumptions C59_ResamplingLoop.
Print Assumptions C59_resampled_edges.
Print Assumptions C59_pipeline.
Print Assumptions C59_clockwise_refuted.
Print Assumptions C59_self_crossing.
Print Assumptions C59_cross_loops_refuted.
