From Coq Require Import List Arith Lia Bool Sorted Permutation.
Import ListNotations.
From Verif Require Import Imp JagModel JagSpec JagProofs JagProps TopoModel TopoSpec TopoProps SubdModel SubdSpec.

Lemma jag_vget1 : forall A ind (l : list A) ls k, jagged ind l ls -> k <= length ls -> vget ind k = Some (offs ls k).
Proof. intros A ind l ls k J K. apply jagged_iff in J. destruct J as (_ & J). change (ind = offsets ls) in J; subst ind. rewrite (vget_nth _ 0) by (rewrite offsets_length; lia). rewrite offsets_nth; auto. Qed.
Lemma offs_in1 : forall A (ls : list (list A)) k j, k < length ls -> j < length (nth k ls []) -> offs ls k + j < length (concat ls).
Proof. intros A ls k j K J. assert (S1 := offs_S _ ls k K). assert (T := offs_le_total _ ls (S k)). lia. Qed.
Lemma jag_nth1 : forall A (d : A) ls k j, k < length ls -> j < length (nth k ls []) -> vget (concat ls) (offs ls k + j) = Some (nth j (nth k ls []) d).
Proof. intros. rewrite (vget_nth _ d) by (apply offs_in1; auto). f_equal. apply concat_nth; auto. Qed.

(** * Edges as pairs *)
Definition pairs (rows : list (list nat)) : list (list (nat * nat)) := map (fun p => map (pair p) (nth p rows [])) (seq 0 (length rows)).
Definition elist (rows : list (list nat)) : list (nat * nat) := concat (pairs rows).
Lemma pairs_length : forall rows, length (pairs rows) = length rows.
Proof. intros. unfold pairs. rewrite map_length, seq_length. auto. Qed.
Lemma pairs_nth : forall rows p, p < length rows -> nth p (pairs rows) [] = map (pair p) (nth p rows []).
Proof. intros. unfold pairs. rewrite nth_map_seq by auto. auto. Qed.
Lemma pairs_offs : forall rows k, k <= length rows -> offs (pairs rows) k = offs rows k.
Proof. intros rows. induction k as [|k IH]; intros K; [rewrite !offs_0; auto|]. rewrite !offs_S by (rewrite ?pairs_length; lia). rewrite IH, pairs_nth, map_length by lia. auto. Qed.
Lemma elist_length : forall rows, length (elist rows) = length (concat rows).
Proof. intros. unfold elist. rewrite <- (offs_all _ (pairs rows) (length rows)) by (rewrite pairs_length; auto). rewrite pairs_offs by auto. apply offs_all. auto. Qed.
Lemma elist_nth : forall rows p j, p < length rows -> j < length (nth p rows []) -> nth_error (elist rows) (offs rows p + j) = Some (p, nth j (nth p rows []) 0).
Proof.
  intros rows p j P J. change (nth_error (elist rows)) with (vget (elist rows)). unfold elist. rewrite <- pairs_offs by lia. rewrite (jag_nth1 _ (p, 0)) by (rewrite ?pairs_length, ?pairs_nth, ?map_length; auto). rewrite pairs_nth by auto. f_equal. apply (map_nth (pair p)).
Qed.
Lemma elist_in : forall rows a b, In (a, b) (elist rows) <-> a < length rows /\ In b (nth a rows []).
Proof.
  intros rows a b. unfold elist. rewrite in_concat. split.
  - intros (l & L & I). unfold pairs in L. apply in_map_iff in L. destruct L as (p & <- & P). apply in_seq in P. apply in_map_iff in I. destruct I as (q & E & Q). injection E as <- <-. split; [lia|auto].
  - intros (A & B). exists (map (pair a) (nth a rows [])). split; [apply in_map_iff; exists a; split; auto; apply in_seq; lia|apply in_map; auto].
Qed.
Lemma ss_nodup : forall l, StronglySorted lt l -> NoDup l.
Proof. induction 1 as [|x l S IH F]; constructor; auto. intros I. rewrite Forall_forall in F. specialize (F _ I). lia. Qed.
Lemma elist_nodup : forall rows, (forall p, p < length rows -> NoDup (nth p rows [])) -> NoDup (elist rows).
Proof.
  intros rows H. unfold elist, pairs. assert (G : forall l, NoDup l -> (forall p, In p l -> NoDup (nth p rows [])) -> NoDup (concat (map (fun p => map (pair p) (nth p rows [])) l))).
  { induction l as [|p l IH]; intros N F; [constructor|]. cbn [map concat]. inversion N as [|? ? N1 N2]. subst.
    assert (A : NoDup (map (pair p) (nth p rows []))). { apply FinFun.Injective_map_NoDup; [intros x y E; injection E; auto|apply F; left; auto]. }
    assert (B := IH N2 (fun q Q => F q (or_intror Q))).
    revert A. generalize (nth p rows []). intros r. induction r as [|x r IHr]; intros A; cbn [map app]; auto. inversion A as [|? ? A1 A2]. subst. constructor; auto. intros I. apply in_app_or in I. destruct I as [I|I]; auto. apply in_concat in I. destruct I as (m & M1 & M2). apply in_map_iff in M1. destruct M1 as (q & <- & Q). apply in_map_iff in M2. destruct M2 as (y & E & _). injection E as -> _. auto. }
  apply G; [apply seq_NoDup|]. intros p P. apply in_seq in P. apply H. lia.
Qed.
Lemma search_ok : forall ind psup rows a b, jagged ind psup rows -> a < length rows -> In b (nth a rows []) ->
  exists i, (lo <- vget ind a ;; hi <- vget ind (a + 1) ;; forb lo hi (fun ipsup r => ip2 <- vget psup ipsup ;; if ip2 =? b then Some (Some ipsup, true) else Some (r, false)) (@None nat)) = Some (Some i) /\ nth_error (elist rows) i = Some (a, b).
Proof.
  intros ind psup rows a b J A I. rewrite (jag_vget1 _ _ _ _ a J), (jag_vget1 _ _ _ _ (a + 1) J) by lia. cbn [bind]. rewrite Nat.add_1_r. assert (OS := offs_S _ rows a A). destruct J as (-> & _).
  set (row := nth a rows []) in *.
  assert (W : wp (forb (offs rows a) (offs rows (S a)) (fun ipsup r => ip2 <- vget (concat rows) ipsup ;; if ip2 =? b then Some (Some ipsup, true) else Some (r, false)) (@None nat)) (fun r => exists i, r = Some i /\ nth_error (elist rows) i = Some (a, b))).
  { apply wp_forb with (I := fun i r => forall j, offs rows a + j < i -> j < length row -> nth j row 0 <> b).
    - lia.
    - intros j K. lia.
    - intros i r II H. replace i with (offs rows a + (i - offs rows a)) by lia. set (j := i - offs rows a). rewrite (jag_nth1 _ 0) by (fold row; lia). cbn [bind]. fold row. destruct (nth j row 0 =? b) eqn:E; apply wp_some; cbn [fst snd].
      + apply Nat.eqb_eq in E. eexists. split; [reflexivity|]. rewrite elist_nth by (fold row; lia). fold row. rewrite E. auto.
      + apply Nat.eqb_neq in E. intros k K L. destruct (Nat.eq_dec k j) as [->|]; auto. apply H; lia.
    - intros r H. exfalso. apply (In_nth _ _ 0) in I. destruct I as (j & JL & E). apply (H j); auto; lia. }
  apply wp_ex in W. destruct W as (r & E & i & -> & N). rewrite E. exists i. auto.
Qed.
Lemma findEdge_ok : forall ind psup rows a b, jagged ind psup rows -> a < b -> In (a, b) (elist rows) -> exists i, findEdge a b ind psup = Some (Some i) /\ findEdge b a ind psup = Some (Some i) /\ nth_error (elist rows) i = Some (a, b).
Proof.
  intros ind psup rows a b J AB I. apply elist_in in I. destruct I as (A & B). destruct (search_ok ind psup rows a b J A B) as (i & E & N). exists i. unfold findEdge. rewrite (proj2 (Nat.ltb_lt a b)) by lia. rewrite (proj2 (Nat.ltb_ge b a)) by lia. auto.
Qed.

(** * Quadrangles *)
Lemma skipn_nth : forall A (d : A) l k, k < length l -> skipn k l = nth k l d :: skipn (S k) l.
Proof. induction l as [|x l IH]; intros k K; cbn [length] in K; [lia|]. destruct k; [reflexivity|]. cbn [skipn nth]. rewrite IH by lia. reflexivity. Qed.
Lemma verts4 : forall elem nel nv e, mesh_ok elem nel 4 nv -> e < nel -> elem_verts elem 4 e = [nth (e * 4 + 0) elem 0; nth (e * 4 + 1) elem 0; nth (e * 4 + 2) elem 0; nth (e * 4 + 3) elem 0].
Proof.
  intros elem nel nv e (L & _) H. unfold elem_verts. rewrite (skipn_nth _ 0) by lia. rewrite (skipn_nth _ 0 _ (S (e * 4))) by lia. rewrite (skipn_nth _ 0 _ (S (S (e * 4)))) by lia. rewrite (skipn_nth _ 0 _ (S (S (S (e * 4))))) by lia. cbn [firstn]. replace (e * 4 + 0) with (e * 4) by lia. replace (e * 4 + 1) with (S (e * 4)) by lia. replace (e * 4 + 2) with (S (S (e * 4))) by lia. replace (e * 4 + 3) with (S (S (S (e * 4)))) by lia. reflexivity.
Qed.
Lemma filter_filter : forall A (f g : A -> bool) l, filter (fun x => f x && g x) l = filter g (filter f l).
Proof. induction l as [|x l IH]; cbn [filter]; auto. destruct (f x); cbn [andb filter]; rewrite IH; auto. Qed.
Definition has (elem : list nat) (nno a e : nat) : bool := existsb (Nat.eqb a) (elem_verts elem nno e).
Lemma has_iff : forall elem nno a e, has elem nno a e = true <-> In a (elem_verts elem nno e).
Proof. intros. unfold has. rewrite existsb_exists. split; [intros (x & I & E); apply Nat.eqb_eq in E; subst; auto|intros I; exists a; split; auto; apply Nat.eqb_refl]. Qed.
Lemma elsup_rows : forall elem nel nno a, (forall e, e < nel -> NoDup (elem_verts elem nno e)) ->
  flat_map (fun e => repeat e (count_occ Nat.eq_dec (elem_verts elem nno e) a)) (seq 0 nel) = filter (has elem nno a) (seq 0 nel).
Proof.
  intros elem nel nno a N. assert (G : forall l, (forall e, In e l -> e < nel) -> flat_map (fun e => repeat e (count_occ Nat.eq_dec (elem_verts elem nno e) a)) l = filter (has elem nno a) l).
  { induction l as [|e l IH]; intros H; cbn [flat_map filter]; auto. rewrite IH by (intros; apply H; right; auto).
    assert (NE := N e (H e (or_introl eq_refl))). destruct (has elem nno a e) eqn:E.
    - apply has_iff in E. apply (NoDup_count_occ' Nat.eq_dec) with (x := a) in NE; auto. rewrite NE. auto.
    - assert (~ In a (elem_verts elem nno e)) as NI by (rewrite <- has_iff, E; discriminate). apply (count_occ_not_In Nat.eq_dec) in NI. rewrite NI. auto. }
  apply G. intros e I. apply in_seq in I. lia.
Qed.
Lemma forn_app : forall A n lo (f : nat -> list A -> option (list A)) (g : nat -> list A) s,
  (forall i s, lo <= i < lo + n -> f i s = Some (s ++ g i)) -> forn lo (lo + n) f s = Some (s ++ flat_map g (seq lo n)).
Proof.
  intros A n lo f g s H. unfold forn. replace (lo + n - lo) with n by lia. revert lo s H. induction n as [|n IH]; intros lo s H; cbn [forn_ seq flat_map].
  - rewrite app_nil_r. auto.
  - rewrite H by lia. cbn [bind]. rewrite IH by (intros; apply H; lia). rewrite app_assoc. auto.
Qed.
Lemma four_test : forall a p0 p1 p2 p3, negb (p0 =? a) && negb (p1 =? a) && negb (p2 =? a) && negb (p3 =? a) = negb (existsb (Nat.eqb a) [p0; p1; p2; p3]).
Proof. intros. cbn [existsb]. rewrite !(Nat.eqb_sym a). destruct (p0 =? a), (p1 =? a), (p2 =? a), (p3 =? a); reflexivity. Qed.
Lemma nth_error_snoc : forall A (l : list A) x k, nth_error (l ++ [x]) k = if k =? length l then Some x else nth_error l k.
Proof.
  intros A l x k. destruct (k =? length l) eqn:E.
  - apply Nat.eqb_eq in E. subst. rewrite nth_error_app2 by lia. rewrite Nat.sub_diag. auto.
  - apply Nat.eqb_neq in E. destruct (Nat.lt_ge_cases k (length l)); [apply nth_error_app1; auto|]. rewrite nth_error_app2 by lia. rewrite (proj2 (nth_error_None l k)) by lia. destruct (k - length l) as [|m] eqn:K; [lia|]. destruct m; auto.
Qed.
Lemma face_loop : forall elem nq nv eind elsup a b, mesh_ok elem nq 4 nv -> (forall e, e < nq -> NoDup (elem_verts elem 4 e)) ->
  JArray_ElSuP_MeshElem [] elem nq 4 nv = Some (eind, elsup) -> a < nv -> length (elems_with elem nq 4 a b) <= 2 ->
  (l <- vget eind a ;; h <- vget eind (a + 1) ;;
   forn l h (fun ielsup '(iq0, iq1) =>
        jq0 <- vget elsup ielsup ;;
        jp0 <- vget elem (jq0 * 4 + 0) ;;
        jp1 <- vget elem (jq0 * 4 + 1) ;;
        jp2 <- vget elem (jq0 * 4 + 2) ;;
        jp3 <- vget elem (jq0 * 4 + 3) ;;
        if negb (jp0 =? a) && negb (jp1 =? a) && negb (jp2 =? a) && negb (jp3 =? a) then Some (iq0, iq1) else
        if negb (jp0 =? b) && negb (jp1 =? b) && negb (jp2 =? b) && negb (jp3 =? b) then Some (iq0, iq1) else
        match iq0 with
        | None => Some (Some jq0, iq1)
        | Some _ => match iq1 with None => Some (iq0, Some jq0) | Some _ => None end
        end) (@None nat, @None nat)) = Some (nth_error (elems_with elem nq 4 a b) 0, nth_error (elems_with elem nq 4 a b) 1).
Proof.
  intros elem nq nv eind elsup a b MO ND EP A LW. destruct (C01_ElSuP_exact [] elem nq 4 nv MO) as (i1 & a1 & E1 & J). rewrite EP in E1. injection E1 as <- <-.
  match type of J with jagged _ _ ?r => set (rows := r) in * end.
  assert (RL : length rows = nv) by (unfold rows; rewrite map_length, seq_length; auto).
  assert (RA : nth a rows [] = filter (has elem 4 a) (seq 0 nq)). { unfold rows. rewrite nth_map_seq by auto. apply elsup_rows; auto. }
  rewrite (jag_vget1 _ _ _ _ a J), (jag_vget1 _ _ _ _ (a + 1) J) by lia. cbn [bind]. rewrite Nat.add_1_r. assert (OS := offs_S _ rows a). rewrite RL in OS. specialize (OS A). destruct J as (EA & _). rewrite EA. clear EA.
  assert (EW : elems_with elem nq 4 a b = filter (has elem 4 b) (nth a rows [])). { rewrite RA. unfold elems_with. apply (filter_filter _ (has elem 4 a) (has elem 4 b)). }
  set (row := nth a rows []) in *. set (W := elems_with elem nq 4 a b) in *.
  assert (RI : forall j, j < length row -> nth j row 0 < nq /\ has elem 4 a (nth j row 0) = true). { intros j JL. assert (T := nth_In row 0 JL). rewrite RA in T at 2. apply filter_In in T. destruct T as (T1 & T2). apply in_seq in T1. split; [lia|auto]. }
  assert (WE : forall e, wp e (fun r => r = (nth_error W 0, nth_error W 1)) -> e = Some (nth_error W 0, nth_error W 1)) by (intros [x|] H; cbn in H; [rewrite H; auto|contradiction]).
  apply WE. apply wp_forn with (I := fun i s => s = (nth_error (filter (has elem 4 b) (firstn (i - offs rows a) row)) 0, nth_error (filter (has elem 4 b) (firstn (i - offs rows a) row)) 1)).
  - lia.
  - rewrite Nat.sub_diag. reflexivity.
  - intros i s II ->. replace i with (offs rows a + (i - offs rows a)) at 1 by lia. replace (S i - offs rows a) with (S (i - offs rows a)) by lia. set (j := i - offs rows a) in *.
    rewrite (jag_nth1 _ 0) by (fold row; lia). fold row. cbn [bind]. destruct (RI j) as (QL & QA); [lia|]. set (q := nth j row 0) in *.
    assert (LE := proj1 MO). rewrite !(vget_nth _ 0) by lia. cbn [bind]. rewrite !four_test. rewrite <- (verts4 _ _ _ _ MO QL). fold (has elem 4 a q). fold (has elem 4 b q). rewrite QA. cbn [negb].
    rewrite (firstn_S_snoc _ 0) by lia. fold q. rewrite filter_app. cbn [filter]. set (m := filter (has elem 4 b) (firstn j row)).
    destruct (has elem 4 b q) eqn:HB; cbn [negb]; [|apply wp_some; rewrite app_nil_r; reflexivity].
    assert (LM : length m + 1 <= 2).
    { rewrite <- LW. rewrite EW. rewrite <- (firstn_skipn (S j) row). rewrite filter_app, app_length. rewrite (firstn_S_snoc _ 0) by lia. fold q. rewrite filter_app, app_length. fold m. cbn [filter]. rewrite HB. cbn [length]. lia. }
    rewrite !nth_error_snoc. destruct m as [|m0 [|m1 m]]; cbn [length] in LM; try lia; cbn [nth_error length Nat.eqb]; apply wp_some; reflexivity.
  - intros s ->. rewrite EW. rewrite firstn_all2 by lia. reflexivity.
Qed.
Definition edge_faces (elem : list nat) (nq : nat) (ab : nat * nat) : list (option nat) :=
  [Some (fst ab); Some (snd ab); nth_error (elems_with elem nq 4 (fst ab) (snd ab)) 0; nth_error (elems_with elem nq 4 (fst ab) (snd ab)) 1].
Lemma flat_map_concat2 : forall A B (f : A -> list B) ll, flat_map f (concat ll) = flat_map (fun l => flat_map f l) ll.
Proof. induction ll as [|l ll IH]; cbn [concat flat_map]; auto. rewrite flat_map_app, IH. auto. Qed.
Lemma map_snd_elist : forall rows, map snd (elist rows) = concat rows.
Proof.
  intros. unfold elist, pairs. rewrite concat_map, map_map. f_equal.
  apply (list_ext _ []); [rewrite map_length, seq_length; auto|]. intros i I. rewrite map_length, seq_length in I. rewrite nth_map_seq by auto. rewrite map_map. cbn [snd]. rewrite map_id. auto.
Qed.
Lemma quad_topo : forall ind0 elem nq nv, mesh_ok elem nq 4 nv -> (forall e, e < nq -> NoDup (elem_verts elem 4 e)) ->
  (forall a b, mesh_edge elem nq 4 quad_edge a b -> length (elems_with elem nq 4 a b) <= 2) ->
  exists ind E M, SubdivTopo_MeshQuad ind0 [] elem nq nv =
      Some (flat_map (fun k => quad_children M (nv + length E + k) (elem_verts elem 4 k)) (seq 0 nq), ind, map snd E, flat_map (edge_faces elem nq) E) /\
    lists_edges E (mesh_edge elem nq 4 quad_edge) /\ numbers_edges E nv M /\
    (exists rows, jagged ind (map snd E) rows /\ E = elist rows /\ length rows = nv).
Proof.
  intros ind0 elem nq nv MO ND TW. destruct C08_edge_tables as (_ & TQ & _).
  destruct (C08_JArrayEdge ind0 elem nq 4 nv noelElemEdge_Quad quad_edge false MO TQ) as (eind & elsup & ind & arr & rows & EP & EE & J & RL & RP).
  assert (LE : lists_edges (elist rows) (mesh_edge elem nq 4 quad_edge)).
  { split.
    - apply elist_nodup. intros p P. rewrite RL in P. apply ss_nodup. apply (RP p P).
    - intros a b. rewrite elist_in, RL. split.
      + intros (A & B). apply (RP a A) in B. destruct B as ([|] & B); [discriminate|auto].
      + intros (A & B). assert (AL : a < nv). { destruct B as (e & x & y & EL & (X & _) & E1 & _). subst a. destruct MO as (L & F). rewrite Forall_forall in F. apply F. apply nth_In. lia. } split; auto. apply (RP a AL). auto. }
  assert (AR : arr = map snd (elist rows)) by (rewrite map_snd_elist; apply J).
  set (M := fun a b => match findEdge a b ind arr with Some (Some i) => nv + i | _ => 0 end).
  assert (NM : numbers_edges (elist rows) nv M).
  { intros i a b N. assert (IN : In (a, b) (elist rows)) by (eapply nth_error_In; eauto). assert (AB := proj1 (proj1 (proj2 LE a b) IN)). destruct (findEdge_ok ind arr rows a b J AB IN) as (k & K1 & K2 & K3). unfold M. rewrite K1, K2. assert (k = i). { apply (proj1 (NoDup_nth_error (elist rows)) (proj1 LE)); [apply nth_error_Some; congruence|congruence]. } subst. auto. }
  assert (FE : forall a b, mesh_edge elem nq 4 quad_edge a b -> a <> b -> edge_of a b ind arr = Some (M a b - nv) /\ nv <= M a b).
  { intros a b ME AB. assert (SY : mesh_edge elem nq 4 quad_edge b a). { destruct ME as (e & x & y & EL & (X & Y & XY) & E1 & E2). exists e, y, x. unfold quad_edge. intuition auto. }
    unfold edge_of, M. destruct (Nat.lt_ge_cases a b) as [C|C].
    - destruct (findEdge_ok ind arr rows a b J C) as (k & K1 & K2 & _); [apply (proj2 LE); auto|]. rewrite K1. cbn [bind]. split; [f_equal; lia|lia].
    - destruct (findEdge_ok ind arr rows b a J) as (k & K1 & K2 & _); [lia|apply (proj2 LE); split; [lia|auto]|]. rewrite K2. cbn [bind]. split; [f_equal; lia|lia]. }
  exists ind, (elist rows), M. split; [|split; [exact LE|split; [exact NM|exists rows; split; [rewrite <- AR; exact J|auto]]]].
  unfold SubdivTopo_MeshQuad. rewrite EP. cbn [bind]. rewrite EE. cbn [bind].
  match goal with |- bind (forn 0 nv ?f []) _ = _ => assert (Q : forn 0 nv f [] = Some (flat_map (edge_faces elem nq) (elist rows))) end.
  { change nv with (0 + nv) at 1. rewrite (forn_app _ nv 0 _ (fun p => flat_map (edge_faces elem nq) (map (pair p) (nth p rows [])))).
    - cbn [app]. f_equal. unfold elist, pairs. rewrite flat_map_concat2, RL. rewrite !flat_map_concat_map, map_map. reflexivity.
    - intros p s (_ & P). cbn [Nat.add] in P. rewrite (jag_vget1 _ _ _ _ p J), (jag_vget1 _ _ _ _ (p + 1) J) by lia. cbn [bind]. rewrite Nat.add_1_r. rewrite (offs_S _ rows p) by lia.
      rewrite (forn_app _ (length (nth p rows [])) (offs rows p) _ (fun i => edge_faces elem nq (p, nth (i - offs rows p) (nth p rows []) 0))).
      + f_equal. f_equal. rewrite !flat_map_concat_map, map_map. f_equal. apply (list_ext _ []); [rewrite !map_length, seq_length; auto|]. intros i I. rewrite map_length, seq_length in I. rewrite nth_map_seq by auto. replace (offs rows p + i - offs rows p) with i by lia. rewrite (nth_indep _ [] (edge_faces elem nq (p, 0))) by (rewrite map_length; auto). rewrite (map_nth (fun x => edge_faces elem nq (p, x))). auto.
      + intros i t (I1 & I2). replace i with (offs rows p + (i - offs rows p)) at 1 by lia. set (j := i - offs rows p). assert (EA : arr = concat rows) by apply J. rewrite EA at 1. rewrite (jag_nth1 _ 0) by lia. cbn [bind]. set (b := nth j (nth p rows []) 0).
        assert (ME : p < b /\ mesh_edge elem nq 4 quad_edge p b). { apply (proj2 LE). apply elist_in. split; [lia|]. apply nth_In. unfold j. lia. }
        assert (FL := face_loop elem nq nv eind elsup p b MO ND EP P (TW _ _ (proj2 ME))).
        rewrite Nat.add_1_r in FL. destruct (vget eind p) as [l|]; [|discriminate FL]. destruct (vget eind (S p)) as [h|]; [|discriminate FL]. cbn [bind] in *. rewrite FL. cbn [bind]. unfold edge_faces. cbn [fst snd]. rewrite <- !app_assoc. reflexivity. }
  rewrite Q. clear Q. cbn [bind].
  match goal with |- bind (forn 0 nq ?f []) _ = _ => assert (Q : forn 0 nq f [] = Some (flat_map (fun k => quad_children M (nv + length (elist rows) + k) (elem_verts elem 4 k)) (seq 0 nq))) end.
  { change nq with (0 + nq) at 1. rewrite (forn_app _ nq 0 _ (fun k => quad_children M (nv + length (elist rows) + k) (elem_verts elem 4 k))); [reflexivity|].
    intros k s (_ & K). cbn [Nat.add] in K. rewrite (verts4 _ _ _ _ MO K). assert (NK := ND k K). rewrite (verts4 _ _ _ _ MO K) in NK.
    assert (L := proj1 MO). rewrite !(vget_nth _ 0) by lia. cbn [bind].
    assert (ME : forall x y, quad_edge x y -> mesh_edge elem nq 4 quad_edge (nth (k * 4 + x) elem 0) (nth (k * 4 + y) elem 0)) by (intros x y XY; exists k, x, y; auto).
    assert (Q01 : quad_edge 0 1) by (unfold quad_edge; cbn; lia). assert (Q12 : quad_edge 1 2) by (unfold quad_edge; cbn; lia). assert (Q23 : quad_edge 2 3) by (unfold quad_edge; cbn; lia). assert (Q30 : quad_edge 3 0) by (unfold quad_edge; cbn; lia).
    apply ME in Q01, Q12, Q23, Q30. set (p0 := nth (k * 4 + 0) elem 0) in *. set (p1 := nth (k * 4 + 1) elem 0) in *. set (p2 := nth (k * 4 + 2) elem 0) in *. set (p3 := nth (k * 4 + 3) elem 0) in *.
    assert (D : p0 <> p1 /\ p1 <> p2 /\ p2 <> p3 /\ p3 <> p0). { inversion NK as [|? ? N1 R1]. inversion R1 as [|? ? N2 R2]. inversion R2 as [|? ? N3 R3]. cbn [In] in *. subst. repeat split; intros C; rewrite C in *; tauto. }
    destruct D as (D1 & D2 & D3 & D4). destruct (FE _ _ Q01 D1) as (-> & G1). destruct (FE _ _ Q12 D2) as (-> & G2). destruct (FE _ _ Q23 D3) as (-> & G3). destruct (FE _ _ Q30 D4) as (-> & G4). cbn [bind].
    rewrite !Nat.sub_add by auto. cbn [quad_children app]. assert (EL : length arr = length (elist rows)) by (rewrite AR, map_length; auto). rewrite EL. replace (k + nv + length (elist rows)) with (nv + length (elist rows) + k) by lia. reflexivity. }
  rewrite Q. cbn [bind]. rewrite <- AR. reflexivity.
Qed.
