From Coquelicot Require Import Coquelicot.
From Coq Require Import Reals Lra Lia List Arith Bool Permutation.
Import ListNotations.
From Verif Require Import Imp PrModel JagSpec JagProofs BezProofs PolyModel PolySpec PolyProofs LoopSpec LoopProofs.
Open Scope nat_scope.

Lemma wp_eq : forall A (e : option A) v, wp e (fun x => x = v) -> e = Some v.
Proof. intros A [x|] v H; cbn in H; [subst; auto|contradiction]. Qed.
Lemma trunc_spec : forall x, (0 <= x)%R -> (INR (trunc x) <= x < INR (trunc x) + 1)%R.
Proof.
  intros x X. unfold trunc. destruct (base_Int_part x) as (A & B). assert (Z0 : (0 <= Int_part x)%Z). { assert (IZR (-1) < IZR (Int_part x))%R by lra. apply lt_IZR in H. lia. }
  rewrite INR_IZR_INZ, Z2Nat.id by auto. lra.
Qed.
Definition cuts (l : R) (e : (R * R) * (R * R)) : nat := trunc (dist (fst e) (snd e) / l).
Definition newp (l : R) (e : (R * R) * (R * R)) : list (R * R) := tl (subdivide (cuts l e) e).
Lemma newp_length : forall l e, length (newp l e) = cuts l e.
Proof. intros l (a, b). unfold newp, subdivide. cbn [tl]. rewrite map_length, seq_length. auto. Qed.
Lemma newp_nth : forall l a b j, j < cuts l (a, b) -> let m := cuts l (a, b) in nth j (newp l (a, b)) (0, 0)%R = ((1 - INR (j + 1) / INR (m + 1)) * fst a + INR (j + 1) / INR (m + 1) * fst b, (1 - INR (j + 1) / INR (m + 1)) * snd a + INR (j + 1) / INR (m + 1) * snd b)%R.
Proof.
  intros l a b j J m. unfold newp, subdivide. cbn [tl]. fold m. match goal with |- nth j (map ?f _) _ = _ => rewrite (nth_indep _ (0, 0)%R (f 0)) by (rewrite map_length, seq_length; auto); rewrite (map_nth f) end. rewrite seq_nth by auto. replace (1 + j) with (j + 1) by lia. reflexivity.
Qed.
(** The last part of ResamplingLoop (geo_polygon2.cpp:331-351). *)
Definition tail3 (loopIP0_ind loopIP0 : list nat) (aPoInEd : list (list nat)) (loopIP1_ind : list nat) (aVec2 : list (R * R)) : option (list nat * list nat * list (R * R)) :=
  last <- vget loopIP1_ind (length loopIP0_ind - 1) ;;
  let loopIP1 := vresize 0%nat loopIP0 last in
  '(loopIP1, ivtx0) <- forn 0 (length loopIP0_ind - 1) (fun iloop '(loopIP1, ivtx0) =>
    b <- vget loopIP0_ind iloop ;;
    e <- vget loopIP0_ind (iloop + 1) ;;
    forn b e (fun iip_loop '(loopIP1, ivtx0) =>
      ip_loop <- vget loopIP0 iip_loop ;;
      loopIP1 <- vset loopIP1 ivtx0 ip_loop ;;
      let ivtx0 := (ivtx0 + 1)%nat in
      lb <- vget aPoInEd ip_loop ;;
      forn 0 (length lb) (fun iadd '(loopIP1, ivtx0) =>
        l <- vget aPoInEd iip_loop ;;
        v <- vget l iadd ;;
        loopIP1 <- vset loopIP1 ivtx0 v ;;
        Some (loopIP1, (ivtx0 + 1)%nat)) (loopIP1, ivtx0)) (loopIP1, ivtx0)) (loopIP1, 0%nat) ;;
  assertb (length loopIP1 =? length aVec2)%nat ;;;
  assertb (length loopIP1 =? ivtx0)%nat ;;;
  Some (loopIP1_ind, loopIP1, aVec2).
Definition eds (pos : nat -> R * R) (ls : list (list nat)) := concat (map (fun p => edges (map pos p)) ls).
Lemma eds_offs : forall (pos : nat -> R * R) ls k, offs (map (fun p => edges (map pos p)) ls) k = offs ls k.
Proof.
  intros pos ls. assert (L : forall m, length (concat (map (fun p => edges (map pos p)) m)) = length (concat m)). { induction m as [|a m IH]; auto. cbn [map concat]. rewrite !app_length, IH, edges_length, map_length. auto. }
  intros k. unfold offs. rewrite firstn_map. apply L.
Qed.
Lemma eds_length : forall pos ls, length (eds pos ls) = length (concat ls).
Proof. intros. unfold eds. rewrite <- (offs_all _ _ (length ls)) by (rewrite map_length; auto). rewrite eds_offs. apply offs_all. auto. Qed.
Lemma eds_nth : forall pos ls k j d, k < length ls -> j < length (nth k ls []) -> let p := nth k ls [] in nth (offs ls k + j) (eds pos ls) (d, d) = (pos (nth j p 0), pos (nth ((j + 1) mod length p) p 0)).
Proof.
  intros pos ls k j d K J p. unfold eds. rewrite <- (eds_offs pos). assert (E : nth k (map (fun p => edges (map pos p)) ls) [] = edges (map pos p)) by exact (map_nth (fun p => edges (map pos p)) ls [] k).
  rewrite concat_nth; [rewrite E|rewrite map_length; auto|rewrite E, edges_length, map_length; auto]. rewrite edges_nth by (rewrite map_length; auto). rewrite map_length. assert (M : (j + 1) mod length p < length p) by (apply Nat.mod_upper_bound; unfold p; lia). rewrite !(nth_indep (map pos p) d (pos 0)) by (rewrite map_length; auto). rewrite !map_nth. auto.
Qed.
(** The first two parts, for any arrangement of the vertices. *)
Lemma resample_eq : forall ind ip ls xy l, (0 < l)%R -> jagged ind ip ls -> length ip = length xy -> 2 <= length xy -> Forall (fun v => v < length xy) ip -> Forall (fun p => p <> []) ls ->
  let es := eds (fun v => nth v xy (0, 0)%R) ls in let news := map (newp l) es in
  ResamplingLoop ind ip xy l = tail3 ind ip (map (fun i => seq (length xy + offs news i) (length (nth i news []))) (seq 0 (length ip))) (map (fun k => offs ls k + offs news (offs ls k)) (seq 0 (S (length ls)))) (xy ++ concat news).
Proof.
  intros ind ip ls xy l LP J NX N2 FA NE es news. set (pos := fun v => nth v xy (0, 0)%R) in *. assert (J' := J). apply jagged_iff in J. destruct J as (EI & EO). change (ind = offsets ls) in EO. set (N := length ip) in *. assert (LN : length news = N) by (unfold news, es; rewrite map_length, eds_length, <- EI; auto).
  assert (LI : length ind = S (length ls)) by (rewrite EO; apply offsets_length). assert (NN : length (concat ls) = N) by (rewrite <- EI; auto).
  assert (NK : forall k, k < length ls -> 0 < length (nth k ls [])). { intros k K. rewrite Forall_forall in NE. specialize (NE (nth k ls []) ltac:(apply nth_In; auto)). destruct (nth k ls []); [contradiction|cbn; lia]. }
  unfold ResamplingLoop. rewrite (proj2 (Nat.eqb_eq _ _)) by lia. cbn [assertb bind]. rewrite (proj2 (Nat.leb_le _ _)) by lia. cbn [assertb bind]. rewrite (proj2 (Nat.leb_le 1 (length ind))) by lia. cbn [assertb bind].
  set (ED := map (fun i => seq (length xy + offs news i) (length (nth i news []))) (seq 0 N)).
  assert (EDN : forall i, i < N -> nth i ED [] = seq (length xy + offs news i) (length (nth i news []))). { intros i I. unfold ED. rewrite nth_map_seq by auto. auto. }
  match goal with |- bind ?e ?f = _ => assert (E1 : e = Some (ED, xy ++ concat news)) end.
  { apply wp_eq. replace (length ind - 1) with (length ls) by lia.
    set (I1 := fun i '(ed, xy') => length ed = N /\ (forall t, nth t ed [] = if t <? i then seq (length xy + offs news t) (length (nth t news [])) else []) /\ xy' = xy ++ concat (firstn i news)).
    apply wp_forn with (I := fun k => I1 (offs ls k)).
    - lia.
    - split; [apply repeat_length|]. split; [|cbn; rewrite app_nil_r; auto]. intros t. rewrite offs_0. cbn [Nat.ltb]. destruct (Nat.lt_ge_cases t N); [apply nth_repeat|apply nth_overflow; rewrite repeat_length; auto].
    - intros k (ed, xy') K IH. rewrite (jag_vget _ _ _ _ k J'), (jag_vget _ _ _ _ (k + 1) J') by lia. cbn [bind]. rewrite Nat.add_1_r. assert (OS := offs_S _ ls k ltac:(lia)). assert (OT := offs_le_total _ ls (S k)). specialize (NK k ltac:(lia)). rewrite (proj2 (Nat.ltb_lt _ _)) by lia. cbn [assertb bind]. set (p := nth k ls []) in *. replace (offs ls (S k) - offs ls k) with (length p) by lia.
      apply wp_forn with (I := fun j => I1 (offs ls k + j)).
      + lia.
      + rewrite Nat.add_0_r. auto.
      + intros j (ed2, xy2) JJ (L2 & H2 & X2). rewrite Nat.add_0_r, (Nat.mod_small j) by lia. assert (M : (j + 1) mod length p < length p) by (apply Nat.mod_upper_bound; lia). set (j1 := (j + 1) mod length p) in *. cbv zeta.
        rewrite !(proj2 (Nat.ltb_lt _ _)) by lia. cbn [assertb bind]. assert (GP : forall t, t < length p -> vget ip (offs ls k + t) = Some (nth t p 0)) by (intros t T; rewrite EI; apply jag_nth; [lia|exact T]). rewrite !GP by lia. cbn [bind]. set (v0 := nth j p 0). set (v1 := nth j1 p 0).
        assert (IN : forall t, t < length p -> nth t p 0 < length xy). { intros t T. rewrite Forall_forall in FA. apply FA. rewrite EI. apply in_concat. exists p. split; [apply nth_In; lia|apply nth_In; auto]. }
        assert (V0 : v0 < length xy) by (apply IN; lia). assert (V1 : v1 < length xy) by (apply IN; lia). assert (LX : length xy <= length xy2) by (rewrite X2, app_length; lia).
        rewrite !(proj2 (Nat.ltb_lt _ _)) by lia. cbn [assertb bind]. rewrite !(vget_nth _ (0, 0)%R) by lia. cbn [bind]. assert (P0 : forall v, v < length xy -> nth v xy2 (0, 0)%R = pos v) by (intros v V; rewrite X2, app_nth1 by auto; auto). rewrite !P0 by auto. clear P0.
        set (i := offs ls k + j) in *. assert (EN : nth i es ((0, 0), (0, 0))%R = (pos v0, pos v1)) by (unfold es, i; rewrite (eds_nth pos ls k j (0, 0)%R); [reflexivity|lia|apply JJ]). assert (NI : nth i news [] = newp l (pos v0, pos v1)). { unfold news. rewrite (nth_indep _ [] (newp l ((0, 0), (0, 0))%R)) by (rewrite map_length; unfold es; rewrite eds_length; lia). rewrite map_nth, EN. auto. }
        unfold div. assert (EL := eqR_spec l 0). destruct (eqR l 0); [lra|]. cbn [bind]. change (normp (subp (pos v0) (pos v1))) with (dist (pos v0) (pos v1)). change (trunc (dist (pos v0) (pos v1) / l)) with (cuts l (pos v0, pos v1)). set (c := cuts l (pos v0, pos v1)). assert (LC : length (nth i news []) = c) by (rewrite NI; apply newp_length).
        assert (STEP : forall ed3 xy3, length ed3 = N -> (forall t, t <> i -> nth t ed3 [] = nth t ed2 []) -> nth i ed3 [] = seq (length xy + offs news i) c -> xy3 = xy ++ concat (firstn i news) ++ newp l (pos v0, pos v1) -> I1 (offs ls k + S j) (ed3, xy3)).
        { intros ed3 xy3 L3 H3 H4 X3. replace (offs ls k + S j) with (S i) by (unfold i; lia). split; auto. split.
          - intros t. destruct (Nat.eq_dec t i) as [->|NT]; [rewrite H4, LC, (proj2 (Nat.ltb_lt _ _)) by lia; auto|]. rewrite H3, H2 by auto. destruct (t <? i) eqn:T1, (t <? S i) eqn:T2; auto; rewrite ?Nat.ltb_lt, ?Nat.ltb_ge in *; lia.
          - rewrite X3. rewrite (firstn_S_snoc _ []) by lia. rewrite concat_app. cbn [concat]. rewrite app_nil_r, NI. auto. }
        destruct (c =? 0) eqn:C0.
        * apply Nat.eqb_eq in C0. apply wp_some. apply STEP; auto. { rewrite H2, Nat.ltb_irrefl, C0. auto. } { rewrite X2. assert (NL := newp_length l (pos v0, pos v1)). fold c in NL. rewrite C0 in NL. destruct (newp l (pos v0, pos v1)); [rewrite app_nil_r; auto|discriminate]. }
        * apply wp_forn with (I := fun a '(ed3, xy3) => length ed3 = N /\ (forall t, t <> i -> nth t ed3 [] = nth t ed2 []) /\ nth i ed3 [] = seq (length xy + offs news i) a /\ xy3 = xy ++ concat (firstn i news) ++ firstn a (newp l (pos v0, pos v1))).
          -- lia.
          -- split; auto. split; auto. split; [rewrite H2, Nat.ltb_irrefl; auto|rewrite X2, app_nil_r; auto].
          -- intros a (ed3, xy3) A (L3 & H3 & H4 & X3). assert (CN : INR (c + 1) <> 0%R) by (apply not_0_INR; lia). assert (EC := eqR_spec (INR (c + 1)) 0). destruct (eqR (INR (c + 1)) 0); [contradiction|]. cbn [bind]. assert (LX3 : length xy3 = length xy + offs news i + a). { rewrite X3, !app_length, firstn_length, newp_length. fold c. unfold offs. lia. }
             rewrite (proj2 (Nat.ltb_lt _ _)) by lia. cbn [assertb bind]. apply wp_bind. apply (wp_vmod _ []); [lia|]. apply wp_some. rewrite upd_length. split; auto. split; [intros t T; rewrite nth_upd_other by auto; auto|]. split.
             ++ rewrite nth_upd_same by lia. rewrite H4, seq_S. f_equal. rewrite LX3. auto.
             ++ rewrite X3. rewrite (firstn_S_snoc _ (0, 0)%R) by (rewrite newp_length; auto; lia). rewrite newp_nth by (auto; lia). fold c. rewrite <- !app_assoc. reflexivity.
          -- intros (ed3, xy3) (L3 & H3 & H4 & X3). apply STEP; auto. rewrite X3. rewrite (firstn_all2 (newp l (pos v0, pos v1))); auto. rewrite newp_length. auto.
      + intros (ed2, xy2) H. rewrite OS. exact H.
    - intros (ed, xy') (L1 & H1 & X1). rewrite offs_all in H1, X1 by auto. rewrite NN in H1, X1. f_equal.
      + apply (list_ext _ []); [unfold ED; rewrite map_length, seq_length; auto|]. intros t T. rewrite H1, EDN by lia. rewrite (proj2 (Nat.ltb_lt _ _)) by lia. auto.
      + rewrite X1, firstn_all2; auto. lia. }
  rewrite E1. cbn [bind]. clear E1. assert (VR : vresize 0 ind (length ind - 1 + 1) = ind). { replace (length ind - 1 + 1) with (length ind) by lia. unfold vresize. rewrite firstn_all, Nat.sub_diag. cbn [repeat]. apply app_nil_r. } rewrite VR. clear VR.
  rewrite vset_upd by lia. cbn [bind].
  match goal with |- bind ?e ?f = _ => assert (E2 : e = Some (map (fun k => offs ls k + offs news (offs ls k)) (seq 0 (S (length ls))))) end.
  { apply wp_eq. replace (length ind - 1) with (length ls) by lia. apply wp_forn with (I := fun i v => length v = S (length ls) /\ forall k, k <= i -> nth k v 0 = offs ls k + offs news (offs ls k)).
    - lia.
    - rewrite upd_length. split; auto. intros k K. replace k with 0 by lia. rewrite nth_upd_same by lia. rewrite !offs_0. auto.
    - intros i v I (L & H). rewrite (jag_vget _ _ _ _ i J'), (jag_vget _ _ _ _ (i + 1) J') by lia. cbn [bind]. rewrite Nat.add_1_r. assert (OS := offs_S _ ls i ltac:(lia)). assert (OT := offs_le_total _ ls (S i)). set (p := nth i ls []) in *. replace (offs ls (S i) - offs ls i) with (length p) by lia.
      apply wp_bind. apply wp_forn with (I := fun j n1 => n1 = length p + (offs news (offs ls i + j) - offs news (offs ls i)) /\ offs news (offs ls i) <= offs news (offs ls i + j)).
      + lia.
      + rewrite Nat.add_0_r. lia.
      + intros j n1 JJ (N1 & LE). rewrite (vget_nth _ []) by (unfold ED; rewrite map_length, seq_length; lia). cbn [bind]. apply wp_some. rewrite EDN, seq_length by lia. rewrite Nat.add_succ_r. rewrite offs_S by lia. lia.
      + intros n1 (N1 & LE). apply wp_bind. apply (wp_vget _ 0); [lia|]. apply wp_vset; [lia|]. rewrite upd_length. split; auto. intros k K. destruct (Nat.eq_dec k (S i)) as [->|NEQ]; [rewrite nth_upd_same by lia; rewrite H by lia; rewrite N1, <- OS in *; lia|rewrite nth_upd_other by lia; apply H; lia].
    - intros v (L & H). apply (list_ext _ 0); [rewrite map_length, seq_length; lia|]. intros k K. rewrite H by lia. rewrite nth_map_seq by lia. auto. }
  rewrite E2. cbn [bind]. unfold tail3. reflexivity.
Qed.

Lemma concat_seq_offs : forall A (rows : list (list A)) b k, k <= length rows -> concat (map (fun i => seq (b + offs rows i) (length (nth i rows []))) (seq 0 k)) = seq b (offs rows k).
Proof.
  intros A rows b. induction k as [|k IH]; intros K; [rewrite offs_0; auto|]. rewrite seq_S, map_app, concat_app, IH by lia. cbn [map concat Nat.add]. rewrite app_nil_r, offs_S by lia. rewrite seq_app. auto.
Qed.
Lemma firstn_concat_offs : forall A (rows : list (list A)) k, firstn (offs rows k) (concat rows) = concat (firstn k rows).
Proof.
  intros A rows k. rewrite <- (firstn_skipn k rows) at 2. rewrite concat_app, firstn_app. unfold offs. rewrite Nat.sub_diag, firstn_all. cbn [firstn]. apply app_nil_r.
Qed.
Lemma perm_heads : forall (g : nat -> list nat) L, Permutation (concat (map (fun i => i :: g i) L)) (L ++ concat (map g L)).
Proof.
  intros g. induction L as [|i L IH]; [apply perm_nil|]. cbn [map concat app]. apply perm_skip. rewrite Permutation_app_swap_app. apply Permutation_app_head. exact IH.
Qed.
Lemma fst_edges : forall A (l : list A), map fst (edges l) = l.
Proof.
  intros A [|a l]; [auto|]. unfold edges. cbn [tl firstn]. assert (G : forall (u v : list A), length u = length v -> map fst (combine u v) = u). { induction u as [|x u IH]; intros [|y v] E; cbn in E |- *; try lia; auto. rewrite IH by lia. auto. } apply G. rewrite app_length. cbn [length]. lia.
Qed.
Lemma map_seq_nth : forall A (d : A) l, map (fun i => nth i l d) (seq 0 (length l)) = l.
Proof. intros. apply (list_ext _ d); [rewrite map_length, seq_length; auto|]. intros i I. rewrite map_length, seq_length in I. rewrite nth_map_seq by auto. auto. Qed.
Definition group (rows : list (list (R * R))) : list (list nat) := map (fun k => seq (offs rows k) (length (nth k rows []))) (seq 0 (length rows)).
Lemma group_length : forall rows, length (group rows) = length rows.
Proof. intros. unfold group. rewrite map_length, seq_length. auto. Qed.
Lemma group_nth : forall rows k, k < length rows -> nth k (group rows) [] = seq (offs rows k) (length (nth k rows [])).
Proof. intros. unfold group. rewrite nth_map_seq by auto. auto. Qed.
Lemma group_offs : forall rows k, k <= length rows -> offs (group rows) k = offs rows k.
Proof.
  intros rows k. induction k as [|k IH]; intros K; [rewrite !offs_0; auto|]. rewrite !offs_S by (rewrite ?group_length; lia). rewrite IH by lia. rewrite group_nth, seq_length by lia. auto.
Qed.
Lemma group_concat : forall rows, concat (group rows) = seq 0 (length (concat rows)).
Proof. intros. unfold group. rewrite <- (offs_all _ rows (length rows)) by auto. apply (concat_seq_offs _ rows 0). auto. Qed.
Lemma group_jagged : forall ind xy rows, jagged ind xy rows -> jagged ind (seq 0 (length xy)) (group rows).
Proof.
  intros ind xy rows J. apply jagged_iff in J. destruct J as (E & O). change (ind = offsets rows) in O. subst. apply jagged_iff. split; [symmetry; apply group_concat|]. unfold offsets. rewrite group_length. apply map_ext_in. intros k K. apply in_seq in K. rewrite group_offs; auto. lia.
Qed.
Lemma nth_firstn2 : forall A (d : A) n l i, i < n -> nth i (firstn n l) d = nth i l d.
Proof. intros A d. induction n as [|n IH]; intros [|a l] [|i] I; cbn; auto; try lia. apply IH. lia. Qed.
Lemma nth_skipn2 : forall A (d : A) o v i, nth i (skipn o v) d = nth (o + i) v d.
Proof. intros A d. induction o as [|o IH]; intros [|a v] i; cbn; auto. destruct i; auto. Qed.
Lemma map_pos_seq : forall A (d : A) l b n, b + n <= length l -> map (fun v => nth v l d) (seq b n) = firstn n (skipn b l).
Proof.
  intros. apply (list_ext _ d); [rewrite map_length, seq_length, firstn_length, skipn_length; lia|]. intros i I. rewrite map_length, seq_length in I. rewrite nth_map_seq by auto. rewrite nth_firstn2 by auto. rewrite nth_skipn2. auto.
Qed.
Lemma row_slice : forall A (rows : list (list A)) k, k < length rows -> firstn (length (nth k rows [])) (skipn (offs rows k) (concat rows)) = nth k rows [].
Proof.
  intros A rows k K. assert (C : concat rows = concat (firstn k rows) ++ concat (skipn k rows)) by (rewrite <- concat_app, firstn_skipn; auto). rewrite C, skipn_app. unfold offs. rewrite skipn_all, Nat.sub_diag. cbn [app skipn]. destruct (nth_split rows [] K) as (l1 & l2 & E & L). assert (SK : skipn k rows = nth k rows [] :: l2) by (rewrite E at 1; rewrite skipn_app, L, Nat.sub_diag, skipn_all2 by lia; reflexivity). rewrite SK. cbn [concat]. rewrite firstn_app, Nat.sub_diag, firstn_all. cbn [firstn]. apply app_nil_r.
Qed.
Lemma group_pos : forall rows, map (map (fun v => nth v (concat rows) (0, 0)%R)) (group rows) = rows.
Proof.
  intros rows. apply (list_ext _ []); [rewrite map_length; apply group_length|]. intros k K. rewrite map_length, group_length in K. rewrite (nth_indep _ [] (map (fun v => nth v (concat rows) (0, 0)%R) [])) by (rewrite map_length, group_length; auto). rewrite map_nth, group_nth by auto. assert (OS := offs_S _ rows k K). assert (OT := offs_le_total _ rows (S k)). rewrite map_pos_seq by lia. apply row_slice. auto.
Qed.
Lemma sub_length : forall l es, length (flat_map (fun e => subdivide (cuts l e) e) es) = length es + length (flat_map (newp l) es).
Proof.
  intros l. induction es as [|e es IH]; auto. cbn [flat_map length]. rewrite !app_length, IH. assert (length (subdivide (cuts l e) e) = S (length (newp l e))) by (destruct e as (a, b); unfold newp, subdivide; reflexivity). lia.
Qed.
Lemma resample_ok : forall ind xy polys l, (0 < l)%R -> jagged ind xy polys -> Forall (fun p => p <> []) polys -> 2 <= length xy ->
  exists ind' ip' xy', ResamplingLoop ind (seq 0 (length xy)) xy l = Some (ind', ip', xy') /\
    jagged ind' (map (fun v => nth v xy' (0, 0)%R) ip') (map (fun p => flat_map (fun e => subdivide (cuts l e) e) (edges p)) polys) /\
    Permutation ip' (seq 0 (length xy')) /\ firstn (length xy) xy' = xy.
Proof.
  intros ind xy polys l LP J NE N2. assert (JG := group_jagged _ _ _ J). assert (J0 := J). apply jagged_iff in J0. destruct J0 as (EX & EO). change (ind = offsets polys) in EO. set (n := length xy) in *.
  set (pos := fun v => nth v xy (0, 0)%R). set (ls := group polys) in *. set (es := eds pos ls). set (news := map (newp l) es).
  assert (EE : es = concat (map edges polys)). { unfold es, eds, ls. f_equal. transitivity (map edges (map (map pos) (group polys))); [rewrite map_map; auto|]. f_equal. unfold pos. rewrite EX. apply group_pos. }
  assert (LE : length es = n) by (unfold es; rewrite eds_length; unfold ls; rewrite group_concat, seq_length, <- EX; auto).
  assert (LN : length news = n) by (unfold news; rewrite map_length; auto).
  assert (FE : map fst es = xy). { rewrite EE, concat_map, map_map. rewrite (map_ext _ (fun x => x)) by (intros; apply fst_edges). rewrite map_id. auto. }
  rewrite (resample_eq ind (seq 0 n) ls xy l); auto.
  2:{ rewrite seq_length. auto. }
  2:{ apply Forall_forall. intros v V. apply in_seq in V. fold n. lia. }
  2:{ apply Forall_forall. intros p P. apply (In_nth _ _ []) in P. destruct P as (k & K & <-). unfold ls in K |- *. rewrite group_length in K. rewrite group_nth by auto. rewrite Forall_forall in NE. specialize (NE _ (nth_In _ [] K)). destruct (nth k polys []); [contradiction|discriminate]. }
  cbv zeta. fold pos es news n. rewrite seq_length.
  set (ED := map (fun i => seq (n + offs news i) (length (nth i news []))) (seq 0 n)).
  set (R3 := map (fun i => i :: seq (n + offs news i) (length (nth i news []))) (seq 0 n)).
  assert (RN : forall i, i < n -> nth i R3 [] = i :: seq (n + offs news i) (length (nth i news []))) by (intros i I; unfold R3; rewrite nth_map_seq by auto; auto).
  assert (EDN : forall i, i < n -> vget ED i = Some (seq (n + offs news i) (length (nth i news [])))). { intros i I. rewrite (vget_nth _ []) by (unfold ED; rewrite map_length, seq_length; auto). unfold ED. rewrite nth_map_seq by auto. auto. }
  assert (LR : length R3 = n) by (unfold R3; rewrite map_length, seq_length; auto).
  assert (RO : forall i, i <= n -> offs R3 i = i + offs news i). { induction i as [|i IH]; intros I; [rewrite !offs_0; auto|]. rewrite !offs_S by lia. rewrite IH, RN by lia. cbn [length]. rewrite seq_length. lia. }
  assert (LS : length ls = length polys) by apply group_length. assert (LI : length ind = S (length ls)) by (rewrite EO, offsets_length; lia).
  assert (TOT : offs ls (length ls) = n) by (rewrite offs_all by auto; unfold ls; rewrite group_concat, seq_length, <- EX; auto).
  assert (TN : offs news n = length (concat news)) by (apply offs_all; lia).
  set (ind' := map (fun k => offs ls k + offs news (offs ls k)) (seq 0 (S (length ls)))).
  assert (T3 : tail3 ind (seq 0 n) ED ind' (xy ++ concat news) = Some (ind', concat R3, xy ++ concat news)).
  { apply wp_eq. unfold tail3. replace (length ind - 1) with (length ls) by lia. assert (LA : vget ind' (length ls) = Some (n + length (concat news))). { rewrite (vget_nth _ 0) by (unfold ind'; rewrite map_length, seq_length; lia). unfold ind'. rewrite nth_map_seq by lia. cbn [Nat.add]. rewrite TOT, TN. auto. }
    rewrite LA. cbn [bind]. apply wp_bind. set (M := n + length (concat news)) in *.
    set (I1 := fun i '(lp, iv) => length lp = M /\ iv = offs R3 i /\ firstn iv lp = concat (firstn i R3)).
    apply wp_forn with (I := fun k => I1 (offs ls k)).
    - lia.
    - rewrite offs_0. split; [apply vresize_length|]. rewrite offs_0. auto.
    - intros k (lp, iv) K IH. rewrite (jag_vget _ _ _ _ k JG), (jag_vget _ _ _ _ (k + 1) JG) by lia. cbn [bind]. rewrite Nat.add_1_r. assert (OS := offs_S _ ls k ltac:(lia)). assert (OT := offs_mono _ ls (S k) (length ls) ltac:(lia)). rewrite TOT in OT.
      apply wp_forn with (I := I1).
      + lia.
      + exact IH.
      + intros i (lp2, iv2) I (L2 & V2 & F2). assert (IN : i < n) by lia. rewrite (vget_nth _ 0) by (rewrite seq_length; auto). rewrite seq_nth by auto. cbn [Nat.add bind]. assert (RB : offs R3 (S i) <= M). { rewrite RO by lia. assert (X := offs_mono _ news (S i) n ltac:(lia)). unfold M. lia. }
        assert (RS : offs R3 (S i) = offs R3 i + S (length (nth i news []))). { rewrite offs_S by lia. rewrite RN by auto. cbn [length]. rewrite seq_length. auto. }
        rewrite vset_upd by lia. cbn [bind]. cbv zeta. rewrite EDN by auto. cbn [bind]. rewrite seq_length. set (c := length (nth i news [])) in *.
        apply wp_forn with (I := fun a '(lp3, iv3) => length lp3 = M /\ iv3 = offs R3 i + 1 + a /\ firstn iv3 lp3 = concat (firstn i R3) ++ i :: seq (n + offs news i) a).
        * lia.
        * rewrite upd_length. split; auto. split; [lia|]. rewrite Nat.add_1_r. rewrite firstn_upd by lia. rewrite F2. auto.
        * intros a (lp3, iv3) A (L3 & V3 & F3). rewrite (vget_nth _ 0) by (rewrite seq_length; lia). rewrite seq_nth by lia. cbn [bind]. rewrite vset_upd by lia. cbn [bind]. apply wp_some. rewrite upd_length. split; auto. split; [lia|]. rewrite Nat.add_1_r, firstn_upd by lia. rewrite F3, seq_S, <- app_assoc. auto.
        * intros (lp3, iv3) (L3 & V3 & F3). split; auto. split; [lia|]. rewrite F3. rewrite (firstn_S_snoc _ []) by lia. rewrite concat_app, RN by auto. cbn [concat]. rewrite app_nil_r. auto.
      + auto.
    - intros (lp, iv) (L1 & V1 & F1). rewrite TOT in V1, F1. rewrite (firstn_all2 R3) in F1 by lia. rewrite RO in V1 by lia. rewrite TN in V1. rewrite firstn_all2 in F1 by lia. rewrite app_length. fold n. rewrite !(proj2 (Nat.eqb_eq _ _)) by lia. cbn [assertb bind]. apply wp_some. rewrite F1. auto. }
  rewrite T3. do 3 eexists. split; [reflexivity|]. set (xy' := xy ++ concat news). split; [|split].
  - assert (PR : map (fun v => nth v xy' (0, 0)%R) (concat R3) = flat_map (fun e => subdivide (cuts l e) e) es).
    { rewrite flat_map_concat_map, concat_map. f_equal. rewrite <- (map_seq_nth _ ((0, 0), (0, 0))%R es), LE. unfold R3. rewrite !map_map. apply map_ext_in. intros i I. apply in_seq in I. cbn [map]. assert (NI : nth i news [] = newp l (nth i es ((0, 0), (0, 0))%R)). { unfold news. rewrite (nth_indep _ [] (newp l ((0, 0), (0, 0))%R)) by (rewrite map_length; lia). apply map_nth. }
      assert (OS := offs_S _ news i ltac:(lia)). assert (OT := offs_le_total _ news (S i)). rewrite (map_pos_seq _ (0, 0)%R) by (unfold xy'; rewrite app_length; fold n; lia). unfold xy' at 2. rewrite skipn_app. fold n. rewrite skipn_all2 by (fold n; lia). cbn [app]. replace (n + offs news i - n) with (offs news i) by lia. rewrite row_slice by lia. rewrite NI. unfold xy'. rewrite app_nth1 by (fold n; lia).
      assert (F0 : nth i xy (0, 0)%R = fst (nth i es ((0, 0), (0, 0))%R)) by (rewrite <- FE; exact (map_nth fst es ((0, 0), (0, 0))%R i)). rewrite F0. destruct (nth i es _) as (a, b). reflexivity. }
    rewrite PR. apply jagged_iff. split.
    + rewrite EE, flat_map_concat_map, concat_map, map_map. clear. induction polys as [|p ps IH]; auto. cbn [map concat]. rewrite concat_app, IH, flat_map_concat_map. auto.
    + change (ind' = offsets (map (fun p => flat_map (fun e => subdivide (cuts l e) e) (edges p)) polys)). unfold ind', offsets. rewrite map_length, LS. apply map_ext_in. intros k K. apply in_seq in K. unfold ls. rewrite group_offs by lia. unfold offs at 4. rewrite firstn_map.
      assert (G : forall ps : list (list (R * R)), concat (map (fun p => flat_map (fun e => subdivide (cuts l e) e) (edges p)) ps) = flat_map (fun e => subdivide (cuts l e) e) (concat (map edges ps))). { induction ps as [|p ps IH]; auto. cbn [map concat]. rewrite flat_map_app, IH. auto. }
      rewrite G, sub_length. assert (OE : offs (map edges polys) k = offs polys k). { clear - polys. unfold offs. rewrite firstn_map. generalize (firstn k polys). induction l as [|p l IH]; auto. cbn [map concat]. rewrite !app_length, IH, edges_length. auto. }
      assert (FC : concat (map edges (firstn k polys)) = firstn (offs polys k) es) by (rewrite EE, <- OE, firstn_concat_offs, firstn_map; auto). rewrite FC. f_equal.
      * rewrite firstn_length, LE. assert (X := offs_le_total _ polys k). rewrite <- EX in X. fold n in X. lia.
      * unfold offs at 1, news. rewrite firstn_map, flat_map_concat_map. auto.
  - unfold R3. rewrite perm_heads. rewrite concat_seq_offs by lia. unfold xy'. rewrite app_length, seq_app, TN. fold n. apply Permutation_refl.
  - unfold xy'. rewrite firstn_app. fold n. rewrite Nat.sub_diag, firstn_all2 by auto. cbn [firstn]. apply app_nil_r.
Qed.
