From Coquelicot Require Import Coquelicot.
From Coq Require Import Reals Lra Lia List Arith Bool Permutation.
Import ListNotations.
From Verif Require Import Imp PrModel JagSpec JagProofs BezProofs PolyModel PolySpec PolyProofs LoopSpec.
Open Scope nat_scope.

Lemma firstn_upd : forall A (v : list A) i x, i < length v -> firstn (S i) (upd v i x) = firstn i v ++ [x].
Proof. induction v as [|a v IH]; intros [|i] x L; cbn [length] in L; try lia; cbn [upd firstn app]; auto. rewrite <- IH by lia. reflexivity. Qed.
Lemma jag_vget : forall A ind (l : list A) ls k, jagged ind l ls -> k <= length ls -> vget ind k = Some (offs ls k).
Proof. intros A ind l ls k J K. apply jagged_iff in J. destruct J as (_ & J). change (ind = offsets ls) in J; subst ind. rewrite (vget_nth _ 0) by (rewrite offsets_length; lia). rewrite offsets_nth; auto. Qed.
Lemma offs_in : forall A (ls : list (list A)) k j, k < length ls -> j < length (nth k ls []) -> offs ls k + j < length (concat ls).
Proof. intros A ls k j K J. assert (S1 := offs_S _ ls k K). assert (T := offs_le_total _ ls (S k)). lia. Qed.
Lemma jag_nth : forall A (d : A) ls k j, k < length ls -> j < length (nth k ls []) -> vget (concat ls) (offs ls k + j) = Some (nth j (nth k ls []) d).
Proof. intros. rewrite (vget_nth _ d) by (apply offs_in; auto). f_equal. apply concat_nth; auto. Qed.

(** * JArray_FromVecVec_XY *)
Lemma points_length : forall v, length (points v) = length v / 2.
Proof.
  assert (H : forall n v, length v <= n -> length (points v) = length v / 2).
  { induction n as [|n IH]; intros v L. - destruct v; cbn in L; [reflexivity|lia]. - destruct v as [|x [|y r]]; [reflexivity|reflexivity|]. cbn [points length] in *. rewrite IH by lia. replace (S (S (length r))) with (length r + 1 * 2) by lia. rewrite Nat.div_add by lia. lia. }
  intros v. apply (H (length v)). auto.
Qed.
Lemma points_nth : forall j v, j < length (points v) -> vget v (j * 2 + 0) = Some (fst (nth j (points v) (0%R, 0%R))) /\ vget v (j * 2 + 1) = Some (snd (nth j (points v) (0%R, 0%R))).
Proof.
  induction j as [|j IH]; intros v L; destruct v as [|x [|y r]]; cbn [points length] in L; try lia.
  - split; reflexivity.
  - cbn [points nth]. destruct (IH r ltac:(lia)) as (A & B). replace (S j * 2 + 0) with (S (S (j * 2 + 0))) by lia. replace (S j * 2 + 1) with (S (S (j * 2 + 1))) by lia. unfold vget in *. cbn [nth_error]. auto.
Qed.
Lemma jarray_ok : forall vv, exists ind ip xy, JArray_FromVecVec_XY vv = Some (ind, ip, xy) /\ jagged ind xy (map points vv) /\ ip = seq 0 (length xy).
Proof.
  intros vv. set (ps := map points vv). assert (PL : length ps = length vv) by apply map_length. assert (PN : forall k, k < length vv -> nth k ps [] = points (nth k vv [])) by (intros k K; unfold ps; change (@nil (R * R)) with (points []); apply map_nth).
  assert (W : wp (JArray_FromVecVec_XY vv) (fun r => jagged (fst (fst r)) (snd r) ps /\ snd (fst r) = seq 0 (length (snd r)))).
  { unfold JArray_FromVecVec_XY. apply wp_bind. apply wp_vset; [rewrite repeat_length; lia|]. apply wp_bind.
    apply wp_forn with (I := fun i '(ind, n) => length ind = length vv + 1 /\ n = offs ps i /\ forall k, k <= i -> nth k ind 0 = offs ps k).
    - lia.
    - split; [rewrite upd_length, repeat_length; auto|]. split; [auto|]. intros k K. replace k with 0 by lia. rewrite nth_upd_same by (rewrite repeat_length; lia). auto.
    - intros i (ind, n) I (L & N & H). apply wp_bind. apply (wp_vget _ []); [lia|]. cbv zeta. apply wp_bind. apply (wp_vget _ 0); [lia|]. apply wp_bind. apply wp_vset; [lia|]. apply wp_some. assert (OS := offs_S _ ps i ltac:(lia)). rewrite PN, points_length in OS by lia. rewrite upd_length. split; auto. split; [lia|]. intros k K. destruct (Nat.eq_dec k (S i)) as [->|NE]; [replace (i + 1) with (S i) by lia; rewrite nth_upd_same by lia; rewrite H by lia; lia|rewrite nth_upd_other by lia; apply H; lia].
    - intros (ind, n) (L & N & H). cbv zeta.
      assert (J1 : ind = offsets ps). { apply (list_ext _ 0); [rewrite offsets_length; lia|]. intros k K. rewrite H by lia. rewrite offsets_nth; auto. lia. }
      apply wp_bind. apply wp_forn with (I := fun i '(xy, m) => length xy = n /\ m = offs ps i /\ firstn m xy = concat (firstn i ps)).
      + lia.
      + split; [apply repeat_length|]. split; auto.
      + intros i (xy, m) I (LX & M & F). apply wp_bind. apply (wp_vget _ []); [lia|]. cbv zeta. set (v := nth i vv []). assert (PI := PN i ltac:(lia)). fold v in PI. rewrite <- points_length. assert (OS := offs_S _ ps i ltac:(lia)). rewrite PI in OS. assert (OT := offs_le_total _ ps (S i)). rewrite (offs_all _ ps (length vv) ltac:(lia)) in N.
        apply wp_forn with (I := fun j '(xy, m) => length xy = n /\ m = offs ps i + j /\ firstn m xy = concat (firstn i ps) ++ firstn j (points v)).
        * lia.
        * rewrite app_nil_r. repeat split; auto. lia.
        * intros j (xy', m') JJ (LX' & M' & F'). destruct (points_nth j v ltac:(lia)) as (-> & ->). cbn [bind]. apply wp_bind. apply wp_vset; [lia|]. apply wp_some. rewrite upd_length. split; auto. split; [lia|]. rewrite Nat.add_1_r, firstn_upd by lia. rewrite F', (firstn_S_snoc _ (0%R, 0%R)) by lia. rewrite <- app_assoc. rewrite <- surjective_pairing. reflexivity.
        * intros (xy', m') (LX' & M' & F'). split; auto. split; [lia|]. rewrite F', (firstn_S_snoc _ []) by lia. rewrite concat_app. cbn [concat]. rewrite app_nil_r, PI, firstn_all. reflexivity.
      + intros (xy, m) (LX & M & F). rewrite (firstn_all2 ps) in F by lia. rewrite M in F. rewrite <- N, <- LX, firstn_all in F. apply wp_bind. apply wp_forn with (I := fun i l => length l = length xy /\ firstn i l = seq 0 i).
        * lia.
        * split; [apply repeat_length|reflexivity].
        * intros i l I (LL & FL). apply wp_vset; [lia|]. rewrite upd_length. split; auto. rewrite firstn_upd by lia. rewrite FL, seq_S. reflexivity.
        * intros l (LL & FL). rewrite <- LL, firstn_all in FL. apply wp_some. cbn [fst snd]. rewrite <- LL. split; auto. apply jagged_iff. auto. }
  apply wp_iff in W. destruct W as (((ind, ip), xy) & E & J & S1). exists ind, ip, xy. auto.
Qed.

(** * FixLoopOrientation *)
Definition orient (pos : nat -> R * R) (k : nat) (p : list nat) : list nat := if Bool.eqb (ltR 0 (area2 (map pos p))) (k =? 0) then p else rev p.
Lemma area_loop_ok : forall (xy : list (R * R)) (ls : list (list nat)) i, i < length ls -> Forall (fun v => v < length xy) (concat ls) -> let p := nth i ls [] in let nbar := length p in
  forn 0 nbar (fun ibar area_loop =>
      let iipo0 := offs ls i + (ibar + 0) mod nbar in
      let iipo1 := offs ls i + (ibar + 1) mod nbar in
      ipo0 <- vget (concat ls) iipo0 ;;
      ipo1 <- vget (concat ls) iipo1 ;;
      p0 <- vget xy ipo0 ;;
      p1 <- vget xy ipo1 ;;
      Some (area_loop + Area_Tri2 (0, 0) p0 p1)%R) 0%R = Some (area2 (map (fun v => nth v xy (0, 0)%R) p) / 2)%R.
Proof.
  intros xy ls i I FA p nbar. set (pos := fun v => nth v xy (0, 0)%R). replace nbar with (length (map pos p)) at 1 by apply map_length.
  assert (IN : forall j, j < nbar -> nth j p 0 < length xy). { intros j J. rewrite Forall_forall in FA. apply FA. apply in_concat. exists p. split; [apply nth_In; auto|apply nth_In; auto]. }
  rewrite (edge_loop _ (map pos p) _ (fun a b s => s + Area_Tri2 (0, 0) a b)%R).
  - f_equal. rewrite (fold_sum _ (fun e : (R * R) * (R * R) => Area_Tri2 (0, 0)%R (fst e) (snd e))). rewrite Rplus_0_l. fold (total (Area_Tri2 (0, 0)%R) (map pos p)). unfold area2. transitivity (total (fun a b => / 2 * (fst a * snd b - fst b * snd a) + 0 * 0)%R (map pos p)); [apply total_ext; intros (ax, ay) (bx, by_); unfold Area_Tri2; cbn [fst snd]; field|]. rewrite (total_lin _ (fun a b => fst a * snd b - fst b * snd a)%R (fun _ _ => 0%R)). field.
  - intros j s J. rewrite map_length in *. fold nbar in J |- *. cbv zeta. rewrite Nat.add_0_r, (Nat.mod_small j) by auto. assert (M : (j + 1) mod nbar < nbar) by (apply Nat.mod_upper_bound; lia). rewrite !(jag_nth _ 0) by auto. cbn [bind]. fold p. rewrite !(vget_nth _ (0, 0)%R) by (apply IN; auto). cbn [bind].
    rewrite !(nth_indep (map pos p) (0, 0)%R (pos 0)) by (rewrite map_length; auto). rewrite !map_nth. reflexivity.
Qed.
Lemma fix_ok : forall ind ip ls xy, jagged ind ip ls -> ls <> [] -> Forall (fun v => v < length xy) ip ->
  exists ip', FixLoopOrientation ip ind xy = Some ip' /\ jagged ind ip' (map (fun k => orient (fun v => nth v xy (0, 0)%R) k (nth k ls [])) (seq 0 (length ls))).
Proof.
  intros ind ip ls xy J NE FA. assert (J' := J). apply jagged_iff in J. destruct J as (EI & EO). change (ind = offsets ls) in EO. subst ip.
  set (pos := fun v => nth v xy (0, 0)%R). set (ls' := map (fun k => orient pos k (nth k ls [])) (seq 0 (length ls))).
  assert (LL : length ls' = length ls) by (unfold ls'; rewrite map_length, seq_length; auto).
  assert (N' : forall k, k < length ls -> nth k ls' [] = orient pos k (nth k ls [])). { intros k K. unfold ls'. rewrite (nth_indep _ [] (orient pos 0 (nth 0 ls []))) by (rewrite map_length, seq_length; auto). rewrite (map_nth (fun k => orient pos k (nth k ls []))). rewrite seq_nth by auto. reflexivity. }
  assert (LK : forall k, k < length ls -> length (nth k ls' []) = length (nth k ls [])) by (intros k K; rewrite N' by auto; unfold orient; destruct (Bool.eqb _ _); auto; apply rev_length).
  assert (OO : forall k, k <= length ls -> offs ls' k = offs ls k). { induction k as [|k IH]; intros K; [auto|]. rewrite !offs_S by lia. rewrite IH, LK by lia. auto. }
  assert (LC : length (concat ls') = length (concat ls)) by (rewrite <- (offs_all _ ls' (length ls)), <- (offs_all _ ls (length ls)) by lia; apply OO; auto).
  assert (W : wp (FixLoopOrientation (concat ls) ind xy) (fun ip' => ip' = concat ls')).
  { unfold FixLoopOrientation. assert (LI : length ind = S (length ls)) by (rewrite EO; apply offsets_length). assert (1 <= length ls) by (destruct ls; [contradiction|cbn; lia]). apply wp_bind. apply wp_assertb; [apply Nat.ltb_lt; lia|]. cbv zeta. replace (length ind - 1) with (length ls) by lia. apply wp_bind.
    apply wp_forn with (I := fun i '(ip', m) => length ip' = length (concat ls) /\ m = offs ls i /\ firstn m ip' = concat (firstn i ls')).
    - lia.
    - repeat split; auto.
    - intros i (ip', m) I (L1 & M1 & F1). rewrite (jag_vget _ _ _ _ i J'), (jag_vget _ _ _ _ (i + 1) J') by lia. cbn [bind]. assert (OS := offs_S _ ls i ltac:(lia)). assert (OT := offs_le_total _ ls (S i)). rewrite Nat.add_1_r. replace (offs ls (S i) - offs ls i) with (length (nth i ls [])) by lia.
      apply wp_bind. assert (AL := area_loop_ok xy ls i ltac:(lia) FA). cbv zeta in AL. rewrite AL. clear AL. apply wp_some. assert (P2 : ltR 0 (area2 (map (fun v => nth v xy (0, 0)%R) (nth i ls [])) / 2) = ltR 0 (area2 (map pos (nth i ls [])))). { fold pos. set (x := area2 (map pos (nth i ls []))). assert (A := ltR_spec 0 (x / 2)). assert (B := ltR_spec 0 x). destruct (ltR 0 (x / 2)), (ltR 0 x); auto; lra. }
      rewrite P2. clear P2. assert (NI := N' i ltac:(lia)). unfold orient in NI.
      assert (FIN : forall q ip'', nth i ls' [] = q -> length q = length (nth i ls []) -> firstn (offs ls i + length q) ip'' = concat (firstn i ls') ++ q -> firstn (offs ls (S i)) ip'' = concat (firstn (S i) ls')). { intros q ip'' E EL F. rewrite (firstn_S_snoc _ []) by lia. rewrite concat_app. cbn [concat]. rewrite app_nil_r, E, <- F. f_equal. lia. }
      destruct (Bool.eqb _ _).
      + apply wp_forn with (I := fun j '(ip', m) => length ip' = length (concat ls) /\ m = offs ls i + j /\ firstn m ip' = concat (firstn i ls') ++ firstn j (nth i ls [])).
        * lia.
        * rewrite app_nil_r. repeat split; auto. lia.
        * intros j (ip2, m2) JJ (L2 & M2 & F2). apply wp_bind. rewrite (jag_nth _ 0) by lia. apply wp_some. apply wp_bind. apply wp_vset; [lia|]. apply wp_some. rewrite upd_length. split; auto. split; [lia|]. rewrite Nat.add_1_r, firstn_upd by lia. rewrite F2, (firstn_S_snoc _ 0) by lia. rewrite <- app_assoc. reflexivity.
        * intros (ip2, m2) (L2 & M2 & F2). split; auto. split; [lia|]. rewrite M2 in F2. rewrite firstn_all in F2. rewrite <- OS in M2. rewrite M2. apply (FIN (nth i ls [])); auto.
      + apply wp_forn with (I := fun j '(ip', m) => length ip' = length (concat ls) /\ m = offs ls i + j /\ firstn m ip' = concat (firstn i ls') ++ firstn j (rev (nth i ls []))).
        * lia.
        * rewrite app_nil_r. repeat split; auto. lia.
        * intros j (ip2, m2) JJ (L2 & M2 & F2). apply wp_bind. replace (offs ls (S i) - 1 - j) with (offs ls i + (length (nth i ls []) - S j)) by lia. rewrite (jag_nth _ 0) by lia. apply wp_some. apply wp_bind. apply wp_vset; [lia|]. apply wp_some. rewrite upd_length. split; auto. split; [lia|]. rewrite Nat.add_1_r, firstn_upd by lia. rewrite F2, (firstn_S_snoc _ 0) by (rewrite rev_length; lia). rewrite rev_nth by lia. rewrite <- app_assoc. reflexivity.
        * intros (ip2, m2) (L2 & M2 & F2). split; auto. split; [lia|]. rewrite M2 in F2. rewrite <- (rev_length (nth i ls [])) in F2 at 2. rewrite firstn_all in F2. rewrite <- OS in M2. rewrite M2. apply (FIN (rev (nth i ls []))); auto; rewrite rev_length; auto.
    - intros (ip', m) (L1 & M1 & F1). apply wp_some. rewrite (firstn_all2 ls') in F1 by lia. rewrite M1, offs_all, <- L1, firstn_all in F1 by lia. auto. }
  apply wp_iff in W. destruct W as (x & E & ->). exists (concat ls'). split; auto. apply jagged_iff. split; auto. change (ind = offsets ls'). rewrite EO. apply (list_ext _ 0); [rewrite !offsets_length; lia|]. intros k K. rewrite offsets_length in K. rewrite !offsets_nth by lia. symmetry. apply OO. lia.
Qed.
