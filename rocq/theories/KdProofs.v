From Coq Require Import List Arith Bool Reals Permutation Sorted Lia Lra Psatz.
Import ListNotations.
From Verif Require Import Imp KdModel KdSpec.
Open Scope R_scope.

Lemma ltR_spec : forall a b, Bool.reflect (a < b) (ltR a b). Proof. intros. unfold ltR. destruct (Rlt_dec a b); constructor; auto. Qed.
Lemma axis_mod : forall d, axis d = (d mod 3)%nat.
Proof. intros d. unfold axis. assert (d mod 3 < 3)%nat by (apply Nat.mod_upper_bound; lia). destruct (Nat.eqb_spec (d mod 3) 0); [lia|]. destruct (Nat.eqb_spec (d mod 3) 1); lia. Qed.
Lemma normdiff_distance : forall a b, normdiff a b = distance b a.
Proof. intros [[ax ay] az] [[bx b_y] bz]. unfold normdiff, distance, co. cbn [fst snd]. f_equal. unfold Rsqr. ring. Qed.
Lemma co_le_normdiff : forall k a b, Rabs (co k a - co k b) <= normdiff a b.
Proof.
  intros k a b. unfold normdiff. rewrite <- sqrt_Rsqr_abs. apply sqrt_le_1_alt. unfold Rsqr.
  assert (X := Rle_0_sqr (co 0 a - co 0 b)). assert (Y := Rle_0_sqr (co 1 a - co 1 b)). assert (Z := Rle_0_sqr (co 2 a - co 2 b)). unfold Rsqr in *. destruct k as [|[|k]]; cbn [co] in *; lra.
Qed.
Lemma normdiff_pos : forall a b, 0 <= normdiff a b. Proof. intros; apply sqrt_pos. Qed.

(** Construction. *)
Definition range (l : list vec) (b e : nat) := firstn (e - b) (skipn b l).
Lemma range_length : forall l b e, (e <= length l)%nat -> length (range l b e) = (e - b)%nat.
Proof. intros. unfold range. rewrite firstn_length, skipn_length. lia. Qed.
Lemma sort_range_range : forall srt k l b e, sorts srt -> (b <= e <= length l)%nat ->
  length (sort_range srt k l b e) = length l /\ range (sort_range srt k l b e) b e = srt k (range l b e).
Proof.
  intros srt k l b e H L. destruct (H k (range l b e)) as (P & _). assert (LS : length (srt k (range l b e)) = (e - b)%nat) by (rewrite <- (Permutation_length P), range_length; lia).
  unfold sort_range. fold (range l b e). split; [rewrite !app_length, LS, firstn_length, skipn_length; lia|]. unfold range at 1. rewrite skipn_app, skipn_all2 by (rewrite firstn_length; lia). cbn [app]. rewrite firstn_length, Nat.min_l by lia. rewrite Nat.sub_diag. cbn [skipn].
  rewrite firstn_app, LS, Nat.sub_diag. cbn [firstn]. rewrite app_nil_r. apply firstn_all2. lia.
Qed.
Lemma range_split : forall l b m e, (b <= m < e)%nat -> (e <= length l)%nat -> exists s, vget l m = Some s /\ range l b e = range l b m ++ s :: range l (m + 1) e.
Proof.
  intros l b m e H L. unfold vget. destruct (nth_error l m) as [s|] eqn:E; [|apply nth_error_None in E; lia]. exists s. split; auto. unfold range.
  destruct (nth_error_split l m E) as (l1 & l2 & -> & L1). rewrite app_length in L. cbn [length] in L.
  replace (skipn (m + 1) (l1 ++ s :: l2)) with l2 by (rewrite skipn_app, skipn_all2 by lia; replace (m + 1 - length l1)%nat with 1%nat by lia; auto).
  assert (B : skipn b (l1 ++ s :: l2) = skipn b l1 ++ s :: l2) by (rewrite skipn_app; replace (b - length l1)%nat with 0%nat by lia; auto). rewrite B. rewrite !firstn_app, skipn_length, L1.
  assert (K : length (skipn b l1) = (m - b)%nat) by (rewrite skipn_length; lia). rewrite (firstn_all2 (n := e - b) (skipn b l1)) by lia. rewrite (firstn_all2 (n := m - b) (skipn b l1)) by lia. replace (m - b - (m - b))%nat with 0%nat by lia. cbn [firstn]. rewrite app_nil_r. f_equal. replace (e - b - (m - b))%nat with (S (e - (m + 1))) by lia. auto.
Qed.
Lemma ConstructNode_ok : forall srt, sorts srt -> forall fuel l b e d, (b < e <= length l)%nat -> (e - b <= fuel)%nat ->
  exists t, ConstructNode srt fuel l b e d = Some t /\ Permutation (range l b e) (stored t) /\ ordered t d /\ t <> Null /\ (height t <= S (Nat.log2 (e - b)))%nat.
Proof.
  intros srt H. induction fuel as [|fuel IH]; intros l b e d L F; [lia|]. cbn [ConstructNode]. destruct (Nat.eqb_spec (e - b) 1) as [E1|E1].
  - destruct (range_split l b b e) as (s & V & RS); [lia|lia|]. rewrite V. cbn [bind]. eexists. split; [reflexivity|]. rewrite RS. replace (b + 1)%nat with e by lia. unfold range. rewrite !Nat.sub_diag. cbn. split; [apply Permutation_refl|]. repeat split; try discriminate; try (intros p []). cbn. lia.
  - set (l' := sort_range srt (axis d) l b e). destruct (sort_range_range srt (axis d) l b e H ltac:(lia)) as (L1 & L2). fold l' in L1, L2. destruct (H (axis d) (range l b e)) as (P & SS). rewrite <- L2 in P, SS.
    set (m := ((e - b) / 2 + b)%nat). assert (M : (b < m < e)%nat) by (unfold m; assert (X := Nat.div_mod (e - b) 2 ltac:(lia)); assert (Y := Nat.mod_upper_bound (e - b) 2 ltac:(lia)); lia).
    destruct (range_split l' b m e) as (s & V & RS); [lia|lia|]. rewrite V. cbn [bind]. rewrite (proj2 (Nat.eqb_neq b m)) by lia.
    destruct (IH l' b m (d + 1)%nat) as (r & R1 & R2 & R3 & R4 & R5); [lia|lia|]. rewrite R1. cbn [bind].
    assert (LL : exists lt, (if (m + 1 =? e)%nat then Some Null else ConstructNode srt fuel l' (m + 1) e (d + 1)) = Some lt /\ Permutation (range l' (m + 1) e) (stored lt) /\ ordered lt (d + 1) /\ (height lt <= S (Nat.log2 ((e - b) / 2)))%nat).
    { destruct (Nat.eqb_spec (m + 1) e) as [Q|Q]; [exists Null; rewrite Q; unfold range; rewrite Nat.sub_diag; cbn; repeat split; auto; lia|]. destruct (IH l' (m + 1)%nat e (d + 1)%nat) as (x & X1 & X2 & X3 & _ & X4); [lia|lia|]. exists x. split; auto. split; auto. split; auto. eapply Nat.le_trans; [exact X4|]. apply le_n_S, Nat.log2_le_mono. unfold m in *. assert (X := Nat.div_mod (e - b) 2 ltac:(lia)); assert (Y := Nat.mod_upper_bound (e - b) 2 ltac:(lia)); lia. }
    destruct LL as (lt & S1 & S2 & S3 & S4). rewrite S1. cbn [bind]. exists (Node s r lt). split; auto. split.
    + eapply Permutation_trans; [exact P|]. rewrite RS. cbn [stored]. eapply Permutation_trans; [symmetry; apply Permutation_middle|]. constructor. apply Permutation_app; auto.
    + split; [|split; [discriminate|]]. 2:{ cbn [height]. replace (m - b)%nat with ((e - b) / 2)%nat in R5 by (unfold m; lia). assert (LG : Nat.log2 (e - b) = S (Nat.log2 ((e - b) / 2))). { assert (Y := Nat.mod_upper_bound (e - b) 2 ltac:(lia)). rewrite (Nat.div_mod (e - b) 2) at 1 by lia. destruct (Nat.eq_dec ((e - b) mod 2) 0) as [Z|Z]; [rewrite Z, Nat.add_0_r; apply Nat.log2_double; unfold m in M; lia|]. replace ((e - b) mod 2)%nat with 1%nat by lia. apply Nat.log2_succ_double. unfold m in M; lia. } lia. }
      rewrite Nat.add_1_r in R3, S3. rewrite axis_mod in SS. cbn [ordered]. split; [|split; auto].
      * intros p Ip. apply (Permutation_in p (Permutation_sym R2)) in Ip. rewrite RS in SS. clear - SS Ip. induction (range l' b m) as [|x q IHq]; [contradiction|]. cbn in SS. inversion SS as [|? ? S1 F1]; subst. destruct Ip as [<-|Ip]; [|auto]. rewrite Forall_forall in F1. apply F1. apply in_or_app. right. left. auto.
      * intros p Ip. apply (Permutation_in p (Permutation_sym S2)) in Ip. rewrite RS in SS. clear - SS Ip. induction (range l' b m) as [|x q IHq]; cbn in SS; inversion SS as [|? ? S1 F1]; subst; [|auto]. rewrite Forall_forall in F1. apply Rge_le. auto.
Qed.
Lemma ConstructKDT_ok : forall srt P, sorts srt -> P <> [] -> exists t, ConstructKDT srt P = Some t /\ Permutation P (stored t) /\ ordered t 0 /\ t <> Null /\ (height t <= S (Nat.log2 (length P)))%nat.
Proof.
  intros srt P H N. unfold ConstructKDT. destruct P as [|p P]; [congruence|]. cbn [length Nat.eqb negb assertb bind]. destruct (ConstructNode_ok srt H (length (p :: P)) (p :: P) 0 (length (p :: P)) 0) as (t & A & B & C & D); [cbn; lia|lia|]. exists t. split; [exact A|]. split; [|auto]. unfold range in B. rewrite Nat.sub_0_r, skipn_O, firstn_all in B. auto.
Qed.

(** Search. *)
Lemma Search_ok : forall junk Q t d c, t <> Null -> ordered t d -> 0 < c -> exists p r, SearchNearest junk t Q d c = Some (p, r) /\
  r <= c /\ (forall x, In x (stored t) -> normdiff x Q < c -> r <= normdiff x Q) /\ ((r = c /\ p = junk) \/ (r < c /\ In p (stored t) /\ r = normdiff p Q)).
Proof.
  intros junk Q. induction t as [|s r IHr l IHl]; intros d c N O C; [congruence|]. cbn [ordered] in O. destruct O as (O1 & O2 & O3 & O4). rewrite <- axis_mod in O1, O2. cbn [SearchNearest]. rewrite Nat.add_1_r.
  set (dp := co (axis d) Q - co (axis d) s).
  assert (RS : forall x, In x (stored r) -> dp <= 0 -> Rabs dp <= normdiff x Q). { intros x Hx Hd. eapply Rle_trans; [|apply (co_le_normdiff (axis d))]. specialize (O1 x Hx). unfold dp in *. rewrite (Rabs_left1 _ Hd). rewrite Rabs_right; lra. }
  assert (LS : forall x, In x (stored l) -> 0 < dp -> Rabs dp <= normdiff x Q). { intros x Hx Hd. eapply Rle_trans; [|apply (co_le_normdiff (axis d))]. specialize (O2 x Hx). unfold dp in *. rewrite Rabs_right by lra. rewrite Rabs_left1; lra. }
  (* state after looking at points X *)
  set (st := fun (X : list vec) (a : vec * R) => snd a <= c /\ (forall x, In x X -> normdiff x Q < c -> snd a <= normdiff x Q) /\ ((snd a = c /\ fst a = junk) \/ (snd a < c /\ In (fst a) X /\ snd a = normdiff (fst a) Q))).
  assert (S0 : exists a, (if ltR (normdiff s Q) c then (s, normdiff s Q) else (junk, c)) = a /\ st [s] a).
  { eexists. split; [reflexivity|]. destruct (ltR_spec (normdiff s Q) c) as [G|G]; unfold st; cbn [fst snd].
    - split; [lra|]. split; [intros x [<-|[]]; lra|]. right. split; auto. split; auto. left; auto.
    - split; [lra|]. split; [intros x [<-|[]]; lra|]. left. auto. }
  destruct S0 as ((p0, c0) & E0 & S0). rewrite E0. cbn [snd fst].
  assert (VISIT : forall ch X a, ch <> Null -> (forall d c, ch <> Null -> ordered ch d -> 0 < c -> exists p r, SearchNearest junk ch Q d c = Some (p, r) /\ r <= c /\ (forall x, In x (stored ch) -> normdiff x Q < c -> r <= normdiff x Q) /\ ((r = c /\ p = junk) \/ (r < c /\ In p (stored ch) /\ r = normdiff p Q))) -> ordered ch (S d) -> st X a -> 0 < snd a ->
    exists a', ('(p, d) <- SearchNearest junk ch Q (S d) (snd a) ;; if ltR (-1/10) d && ltR d (snd a) then Some (p, d) else Some a) = Some a' /\ st (X ++ stored ch) a' /\ snd a' <= snd a).
  { intros ch X a NN IH OO (A1 & A2 & A3) A4. destruct (IH (S d) (snd a) NN OO A4) as (p & r' & B1 & B2 & B3 & B4). rewrite B1. cbn [bind]. destruct (ltR_spec (-1/10) r') as [G|G]; [|exfalso; destruct B4 as [(-> & _)|(_ & _ & ->)]; [lra|]; assert (Z := normdiff_pos p Q); lra].
    cbn [andb]. destruct (ltR_spec r' (snd a)) as [G2|G2]; eexists; (split; [reflexivity|]); unfold st; cbn [fst snd].
    - destruct B4 as [(X1 & _)|(X1 & X2 & X3)]; [lra|]. split; [split; [lra|split]|lra].
      + intros x Hx Hc. apply in_app_or in Hx. destruct Hx as [Hx|Hx]; [specialize (A2 x Hx Hc); lra|]. destruct (Rlt_le_dec (normdiff x Q) (snd a)); [auto|lra].
      + right. split; [lra|]. split; auto. apply in_or_app. auto.
    - split; [split; auto; split|lra].
      + intros x Hx Hc. apply in_app_or in Hx. destruct Hx as [Hx|Hx]; [auto|]. destruct (Rlt_le_dec (normdiff x Q) (snd a)) as [W|W]; [specialize (B3 x Hx W); lra|auto].
      + destruct A3 as [A3|(Y1 & Y2 & Y3)]; [left; auto|]. right. split; auto. split; auto. apply in_or_app; auto. }
  assert (PRUNE : forall Y X a, st X a -> (forall x, In x Y -> snd a <= normdiff x Q) -> st (X ++ Y) a).
  { intros Y X a (A1 & A2 & A3) H. split; auto. split.
    - intros x Hx Hc. apply in_app_or in Hx. destruct Hx; auto.
    - destruct A3 as [A3|(Y1 & Y2 & Y3)]; [left; auto|]. right. split; auto. split; auto. apply in_or_app; auto. }
  assert (PERM : forall X Y a, (forall x, In x X <-> In x Y) -> st X a -> st Y a).
  { intros X Y a H (A1 & A2 & A3). split; auto. split; [intros x Hx; apply A2; apply H; auto|]. destruct A3 as [A3|(Y1 & Y2 & Y3)]; [left; auto|]. right. rewrite <- H. auto. }
  assert (FIN : forall a, st (s :: stored r ++ stored l) a -> exists p r', (if ltR c (snd a) then Some (0, 0, 0, -1) else Some a) = Some (p, r') /\ r' <= c /\ (forall x, In x (stored (Node s r l)) -> normdiff x Q < c -> r' <= normdiff x Q) /\ (r' = c /\ p = junk \/ r' < c /\ In p (stored (Node s r l)) /\ r' = normdiff p Q)).
  { intros (p, r') (A1 & A2 & A3). cbn [fst snd] in *. destruct (ltR_spec c r'); [lra|]. exists p, r'. split; auto. }
  (* visiting one child fully, with the guard *)
  assert (POS0 : forall X a, st X a -> 0 <= snd a) by (intros X a (_ & _ & [(-> & _)|(_ & _ & ->)]); [lra|apply normdiff_pos]).
  assert (ZERO : forall X Y a, st X a -> snd a = 0 -> st (X ++ Y) a) by (intros X Y a A Z; apply PRUNE; auto; intros; rewrite Z; apply normdiff_pos).
  (* a search started with closestdist = 0 changes nothing *)
  assert (SZ : forall t d, t <> Null -> exists p, SearchNearest junk t Q d 0 = Some (p, 0)).
  { clear. induction t as [|s r IHr l IHl]; intros d N; [congruence|]. cbn [SearchNearest]. destruct (ltR_spec (normdiff s Q) 0) as [G|_]; [exfalso; assert (Z := normdiff_pos s Q); lra|]. cbn [snd]. set (dp := co (axis d) Q - co (axis d) s).
    assert (V : forall call, (call = None \/ exists p, call = Some (Some (p, 0))) -> match call with Some call => '(p, d) <- call ;; if ltR (-1/10) d && ltR d 0 then Some (p, d) else Some (junk, 0) | None => Some (junk, 0) end = Some (junk, 0)).
    { intros call [->|(p & ->)]; auto. cbn [bind]. destruct (ltR_spec 0 0) as [Z|_]; [lra|]. rewrite andb_false_r. auto. }
    assert (CR : forall d, match r with Null => None | _ => Some (SearchNearest junk r Q d 0) end = None \/ exists p, match r with Null => None | _ => Some (SearchNearest junk r Q d 0) end = Some (Some (p, 0))) by (intros d'; destruct r; auto; right; destruct (IHr d') as (p & P); [discriminate|]; exists p; f_equal; exact P).
    assert (CL : forall d, match l with Null => None | _ => Some (SearchNearest junk l Q d 0) end = None \/ exists p, match l with Null => None | _ => Some (SearchNearest junk l Q d 0) end = Some (Some (p, 0))) by (intros d'; destruct l; auto; right; destruct (IHl d') as (p & P); [discriminate|]; exists p; f_equal; exact P).
    set (rf := match r, l with Null, _ => false | _, Null => true | _, _ => ltR 0 dp end). clearbody rf. exists junk.
    destruct rf; rewrite V by auto; cbn [bind snd]; (destruct (ltR_spec (Rabs dp) 0) as [Z|_]; [exfalso; assert (W := Rabs_pos dp); lra|]); cbn [bind snd]; (destruct (ltR_spec 0 0) as [Z|_]; [lra|]); auto. }
  assert (VIS2 : forall ch X a, ch <> Null -> (forall d c, ch <> Null -> ordered ch d -> 0 < c -> exists p r, SearchNearest junk ch Q d c = Some (p, r) /\ r <= c /\ (forall x, In x (stored ch) -> normdiff x Q < c -> r <= normdiff x Q) /\ ((r = c /\ p = junk) \/ (r < c /\ In p (stored ch) /\ r = normdiff p Q))) -> ordered ch (S d) -> st X a ->
    exists a', ('(p, d) <- SearchNearest junk ch Q (S d) (snd a) ;; if ltR (-1/10) d && ltR d (snd a) then Some (p, d) else Some a) = Some a' /\ st (X ++ stored ch) a' /\ snd a' <= snd a).
  { intros ch X a NN IH OO A. destruct (Rle_lt_or_eq_dec 0 (snd a) (POS0 X a A)) as [G|G]; [apply VISIT; auto|]. rewrite <- G. destruct (SZ ch (S d) NN) as (p & P). rewrite P. cbn [bind]. destruct (ltR_spec 0 0) as [Z|_]; [lra|]. rewrite andb_false_r. exists a. split; auto. split; [apply ZERO; auto|lra]. }
  assert (CASE : forall r0 l0, r0 = r -> l0 = l -> True) by auto. clear CASE VISIT SZ.
  destruct r as [|sr rr rl].
  - destruct l as [|sl lr ll].
    + cbn [bind snd]. destruct (ltR (Rabs dp) c0); cbn [bind]; apply FIN; exact S0.
    + destruct (VIS2 (Node sl lr ll) [s] (p0, c0) ltac:(discriminate) IHl O4 S0) as (a & A1 & A2 & A3). cbn [snd] in A1. rewrite A1. cbn [bind]. destruct (ltR (Rabs dp) (snd a)); cbn [bind]; apply FIN; exact A2.
  - destruct l as [|sl lr ll].
    + destruct (VIS2 (Node sr rr rl) [s] (p0, c0) ltac:(discriminate) IHr O3 S0) as (a & A1 & A2 & A3). cbn [snd] in A1. rewrite A1. cbn [bind]. assert (A2' : st (s :: stored (Node sr rr rl) ++ stored Null) a) by (eapply PERM; [|exact A2]; intros x; cbn [stored]; rewrite !app_nil_r; reflexivity). destruct (ltR (Rabs dp) (snd a)); cbn [bind]; apply FIN; exact A2'.
    + destruct (ltR_spec 0 dp) as [G|G].
      * destruct (VIS2 (Node sr rr rl) [s] (p0, c0) ltac:(discriminate) IHr O3 S0) as (a & A1 & A2 & A3). cbn [snd] in A1. rewrite A1. cbn [bind]. destruct (ltR_spec (Rabs dp) (snd a)) as [W|W].
        -- destruct (VIS2 (Node sl lr ll) _ a ltac:(discriminate) IHl O4 A2) as (a' & B1 & B2 & B3). rewrite B1. cbn [bind]. apply FIN. exact B2.
        -- cbn [bind]. apply FIN. apply (PRUNE (stored (Node sl lr ll))) in A2; [exact A2|]. intros x Hx. specialize (LS x Hx G). lra.
      * destruct (VIS2 (Node sl lr ll) [s] (p0, c0) ltac:(discriminate) IHl O4 S0) as (a & A1 & A2 & A3). cbn [snd] in A1. rewrite A1. cbn [bind].
        assert (SW : forall a, st (([s] ++ stored (Node sl lr ll)) ++ stored (Node sr rr rl)) a -> st (s :: stored (Node sr rr rl) ++ stored (Node sl lr ll)) a) by (intros b; apply PERM; intros x; rewrite <- app_assoc; cbn [app In]; rewrite !in_app_iff; tauto).
        destruct (ltR_spec (Rabs dp) (snd a)) as [W|W].
        -- destruct (VIS2 (Node sr rr rl) _ a ltac:(discriminate) IHr O3 A2) as (a' & B1 & B2 & B3). rewrite B1. cbn [bind]. apply FIN. apply SW. exact B2.
        -- cbn [bind]. apply FIN. apply SW. apply PRUNE; auto. intros x Hx. specialize (RS x Hx ltac:(lra)). lra.
Qed.
