(** Checks and queries. *)
From Coq Require Import List Arith Bool Lia Permutation.
Import ListNotations.
From Verif Require Import Imp CadModel CadSpec CadProofs1 CadProofs2.

Lemma nth_error_ends : forall es ie p, ends_of es ie = Some p -> exists e, vget es ie = Some e /\ iv0 e = fst p /\ iv1 e = snd p.
Proof. intros es ie p H. unfold ends_of in H. unfold vget. destruct (nth_error es ie) as [e|]; [|discriminate]. injection H as <-. eauto. Qed.
Lemma describes_nth : forall es l vs k, describes es l (cycle vs) -> k < length (aIE l) ->
  exists ie e, vget (aIE l) k = Some (ie, true) /\ vget es ie = Some e /\ iv0 e = nth k vs 0 /\ iv1 e = nth ((k + 1) mod length vs) vs 0.
Proof.
  intros es l vs k (A & M & F) K. assert (LL : length (aIE l) = length vs) by (rewrite <- (around_length vs), <- (map_length Some (around vs)), <- M, map_length; auto).
  unfold vget at 1. destruct (nth_error (aIE l) k) as [(ie, d)|] eqn:E; [|apply nth_error_None in E; lia]. assert (D : d = true) by (rewrite Forall_forall in F; apply (F (ie, d)); eapply nth_error_In; eauto). subst d.
  assert (X : nth_error (map (fun p => ends_of es (fst p)) (aIE l)) k = Some (ends_of es ie)) by (rewrite nth_error_map, E; auto). rewrite M, nth_error_map in X.
  destruct (nth_error (around vs) k) as [p|] eqn:E2; cbn in X; [|discriminate]. injection X as X. symmetry in X. destruct (nth_error_ends _ _ _ X) as (e & V & I0 & I1). exists ie, e. split; auto. split; auto.
  apply (nth_error_nth _ _ (0, 0)) in E2. rewrite nth_around in E2 by lia. subst p. auto.
Qed.
Lemma assertb_refl : forall n, assertb (n =? n) = Some tt. Proof. intros. unfold assertb. rewrite Nat.eqb_refl. auto. Qed.
Lemma LoopAssert_ok : forall es l s, describes es l s -> LoopAssert es l = Some tt.
Proof.
  intros es l s H. unfold LoopAssert. destruct s as [vs|v].
  - assert (LL : length (aIE l) = length vs) by (destruct H as (_ & M & _); rewrite <- (around_length vs), <- (map_length Some (around vs)), <- M, map_length; auto).
    destruct H as (A & M & F). rewrite A. cbn [assertb bind]. unfold forn. rewrite Nat.sub_0_r.
    assert (Q : forall n i, i + n <= length (aIE l) -> forn_ n i (fun iie _ =>
      '(ie0, flg0) <- vget (aIE l) ((iie + 0) mod length (aIE l)) ;;
      '(ie1, flg1) <- vget (aIE l) ((iie + 1) mod length (aIE l)) ;;
      e0 <- vget es ie0 ;; e1 <- vget es ie1 ;;
      assertb (IndexVertex e0 (negb flg0) =? IndexVertex e1 flg1)) tt = Some tt).
    { induction n as [|n IH]; intros i Hi; cbn [forn_]; auto. assert (NZ : length (aIE l) <> 0) by lia.
      destruct (describes_nth es l vs ((i + 0) mod length (aIE l)) (conj A (conj M F)) (Nat.mod_upper_bound _ _ NZ)) as (ie0 & e0 & V0 & W0 & _ & X0). destruct (describes_nth es l vs ((i + 1) mod length (aIE l)) (conj A (conj M F)) (Nat.mod_upper_bound _ _ NZ)) as (ie1 & e1 & V1 & W1 & X1 & _).
      rewrite V0. cbn [bind]. rewrite V1. cbn [bind]. rewrite W0. cbn [bind]. rewrite W1. cbn [bind]. cbn [negb IndexVertex]. replace (iv1 e0) with (iv0 e1) by (rewrite X0, X1, LL, Nat.add_0_r, (Nat.mod_small i) by lia; auto). rewrite assertb_refl. cbn [bind]. apply IH. lia. }
    apply Q. lia.
  - destruct H as (A & B). rewrite A, B. reflexivity.
Qed.
Lemma Assert_ok : forall t D, represents t D -> Assert t = Some tt.
Proof.
  intros t D R. unfold Assert. assert (H : forall l, In l (loops t) -> LoopAssert (edges t) l = Some tt) by (intros l Hl; destruct (loop_described t D l R Hl) as (s & _ & Ds); eapply LoopAssert_ok; eauto).
  induction (loops t) as [|l ls IH]; cbn [foldM]; auto. rewrite H by (left; auto). cbn [bind]. apply IH. intros; apply H; right; auto.
Qed.
Lemma EdgeIndexes_ok : forall t D i ss, represents t D -> nth_error (d_faces D) i = Some ss ->
  exists r, EdgeIndexes_Face t i = Some r /\ map (fun p => ends_of (edges t) (fst p)) r = map Some (concat (map shape_edges ss)) /\ Forall (fun p => snd p = true) r.
Proof.
  intros t D i ss R E. unfold EdgeIndexes_Face. assert (F2 := rp_faces t D R).
  assert (X : exists f, nth_error (faces t) i = Some f /\ Forall2 (fun il s => exists l, nth_error (loops t) il = Some l /\ describes (edges t) l s) f ss).
  { clear - F2 E. revert i E. induction F2 as [|f g F G H HF IH]; intros i E; [destruct i; discriminate|]. destruct i; cbn in E; [injection E as <-; exists f; auto|]. apply IH; auto. }
  destruct X as (f & Ef & Hf). unfold vget at 1. rewrite Ef. cbn [bind].
  assert (G : forall r0, exists r, foldM (fun il r => l <- vget (loops t) il ;; Some (r ++ aIE l)) f r0 = Some (r0 ++ r) /\ map (fun p => ends_of (edges t) (fst p)) r = map Some (concat (map shape_edges ss)) /\ Forall (fun p => snd p = true) r).
  { clear - Hf. induction Hf as [|il s f ss (l & L1 & L2) Hf IH]; intros r0; cbn [foldM map concat]; [exists []; rewrite app_nil_r; auto|]. unfold vget at 1. rewrite L1. cbn [bind]. destruct (IH (r0 ++ aIE l)) as (r & A & B & C). exists (aIE l ++ r). rewrite A, <- app_assoc. split; auto.
    rewrite map_app, B, map_app, Forall_app. split; [f_equal|split; auto; eapply describes_dirs; eauto]. destruct s as [vs|v]; cbn in L2; [apply L2|]. destruct L2 as (_ & ->). reflexivity. }
  destruct (G []) as (r & A & B & C). exists r. auto.
Qed.
(** first-hit searches *)
Lemma search_gen : forall {T} (test : T -> option bool) (p : T -> bool) l pre full, full = pre ++ l -> (forall x, In x l -> test x = Some (p x)) ->
  forb_ (length l) (length pre) (fun i r => x <- vget full i ;; b <- test x ;; if b : bool then Some (true, true) else Some (r, false)) false = Some (existsb p l).
Proof.
  intros T test p. induction l as [|x l IH]; intros pre full E H; cbn [length forb_ existsb]; auto. rewrite E at 1. rewrite vget_mid. cbn [bind]. rewrite H by (left; auto). cbn [bind]. destruct (p x); cbn [bind orb]; auto.
  assert (X := IH (pre ++ [x]) full). rewrite app_length, Nat.add_1_r in X. apply X; [rewrite E, <- app_assoc; auto|]. intros; apply H; right; auto.
Qed.
Lemma search0 : forall {T} (test : T -> option bool) (p : T -> bool) l, (forall x, In x l -> test x = Some (p x)) ->
  forb 0 (length l) (fun i r => x <- vget l i ;; b <- test x ;; if b : bool then Some (true, true) else Some (r, false)) false = Some (existsb p l).
Proof. intros. unfold forb. rewrite Nat.sub_0_r. apply (search_gen test p l [] l eq_refl H). Qed.
Lemma forb_ext : forall {S} (f g : nat -> S -> option (S * bool)) n i s, (forall j x, i <= j < i + n -> f j x = g j x) -> forb_ n i f s = forb_ n i g s.
Proof. induction n as [|n IH]; intros i s H; cbn [forb_]; auto. rewrite H by lia. destruct (g i s) as [(x, b)|]; cbn [bind]; auto. destruct b; auto. apply IH. intros; apply H; lia. Qed.
Lemma LoopIsIncludeEdge_ok : forall ie l, LoopIsIncludeEdge ie l = Some (existsb (fun p => fst p =? ie) (aIE l)).
Proof.
  intros. unfold LoopIsIncludeEdge. rewrite <- (search0 (fun p : nat * bool => Some (fst p =? ie))) by auto. unfold forb. apply forb_ext. intros j x Hj. destruct (vget (aIE l) j) as [(e, d)|]; reflexivity.
Qed.
Lemma LoopIsIncludeVertex_ok : forall t l v vs, describes t l (cycle vs) -> LoopIsIncludeVertex v t l = Some (if in_dec Nat.eq_dec v vs then true else false).
Proof.
  intros es l v vs H. unfold LoopIsIncludeVertex. assert (A : l_iv l = None) by apply H. rewrite A.
  transitivity (forb 0 (length (aIE l)) (fun i r => x <- vget (aIE l) i ;; b <- (e <- vget es (fst x) ;; Some (v =? IndexVertex e (snd x))) ;; if b : bool then Some (true, true) else Some (r, false)) false).
  { unfold forb. apply forb_ext. intros j x Hj. destruct (vget (aIE l) j) as [(e, d)|]; cbn [bind]; auto. cbn [fst snd]. destruct (vget es e); reflexivity. }
  rewrite (search0 _ (fun x => match nth_error es (fst x) with Some e => v =? iv0 e | None => false end)).
  2:{ intros q Q. destruct (describes_ends _ _ _ _ H Q) as (p & P & _). unfold vget. unfold ends_of in P. destruct (nth_error es (fst q)) as [e|]; [|discriminate]. cbn [bind]. destruct H as (_ & _ & F). rewrite Forall_forall in F. rewrite (F q Q). reflexivity. }
  f_equal. apply Bool.eq_iff_eq_true. rewrite existsb_exists. destruct H as (_ & M & _). split.
  - intros (q & Q & X). destruct (nth_error es (fst q)) as [e|] eqn:E; [|discriminate]. apply Nat.eqb_eq in X. destruct (in_dec Nat.eq_dec v vs) as [|N]; auto. exfalso. apply N. rewrite <- (around_fst vs). apply (in_map (fun p => ends_of es (fst p))) in Q. rewrite M in Q. apply in_map_iff in Q. destruct Q as (p & Q1 & Q2).
    unfold ends_of in Q1. rewrite E in Q1. injection Q1 as ->. apply (in_map fst) in Q2. cbn in Q2. rewrite <- X in Q2. auto.
  - destruct (in_dec Nat.eq_dec v vs) as [I|]; [|discriminate]. intros _. rewrite <- (around_fst vs) in I. apply in_map_iff in I. destruct I as (p & P1 & P2). apply (in_map Some) in P2. rewrite <- M in P2. apply in_map_iff in P2. destruct P2 as (q & Q1 & Q2). exists q. split; auto. unfold ends_of in Q1. destruct (nth_error es (fst q)); [|discriminate]. injection Q1 as <-. cbn in P1. apply Nat.eqb_eq. auto.
Qed.
Lemma collect_gen : forall {T} (test : T -> option bool) (p : T -> bool) l pre full out, full = pre ++ l -> (forall x, In x l -> test x = Some (p x)) ->
  forn_ (length l) (length pre) (fun i res => f <- vget full i ;; b <- test f ;; if b : bool then Some (res ++ [i]) else Some res) out = Some (out ++ map (fun q => length pre + fst q) (filter (fun q => p (snd q)) (combine (seq 0 (length l)) l))).
Proof.
  intros T test p. induction l as [|x l IH]; intros pre full out E H; cbn [length forn_ seq combine filter map]; [rewrite app_nil_r; auto|]. rewrite E at 1. rewrite vget_mid. cbn [bind]. rewrite H by (left; auto). cbn [bind snd].
  assert (X := IH (pre ++ [x]) full). rewrite app_length, Nat.add_1_r in X.
  assert (SH : map (fun q => S (length pre) + fst q) (filter (fun q => p (snd q)) (combine (seq 0 (length l)) l)) = map (fun q => length pre + fst q) (filter (fun q => p (snd q)) (combine (seq 1 (length l)) l))).
  { clear. generalize 0. induction l as [|y l IH]; intros n; auto. cbn [length seq combine filter snd]. destruct (p y); cbn [map fst]; [f_equal; [lia|]|]; apply IH. }
  destruct (p x); cbn [bind map fst]; rewrite X by (try (rewrite E, <- app_assoc; auto); intros; apply H; right; auto); rewrite SH; auto. rewrite Nat.add_0_r, <- app_assoc. auto.
Qed.
Lemma collect0 : forall {T} (test : T -> option bool) (p : T -> bool) l, (forall x, In x l -> test x = Some (p x)) ->
  exists r, forn 0 (length l) (fun i res => f <- vget l i ;; b <- test f ;; if b : bool then Some (res ++ [i]) else Some res) [] = Some r /\ (forall i, In i r <-> exists f, nth_error l i = Some f /\ p f = true) /\ NoDup r.
Proof.
  intros T test p l H. unfold forn. rewrite Nat.sub_0_r. eexists. split; [apply (collect_gen test p l [] l [] eq_refl H)|]. cbn [app length Nat.add].
  assert (C : forall n, (forall i f, In (i, f) (combine (seq n (length l)) l) <-> n <= i /\ nth_error l (i - n) = Some f) /\ NoDup (map fst (combine (seq n (length l)) l))).
  { clear. induction l as [|x l IH]; intros n; cbn [length seq combine map]; [split; [|constructor]; intros i f; split; [intros []|]; intros (_ & X); destruct (i - n); discriminate|]. destruct (IH (S n)) as (A & B). split.
    - intros i f. cbn [In]. rewrite A. split.
      + intros [X|(X & Y)]; [injection X as -> ->; split; auto; rewrite Nat.sub_diag; auto|]. split; [lia|]. replace (i - n) with (S (i - S n)) by lia. auto.
      + intros (X & Y). destruct (Nat.eq_dec n i) as [->|]; [left; rewrite Nat.sub_diag in Y; injection Y as ->; auto|]. right. split; [lia|]. replace (i - n) with (S (i - S n)) in Y by lia. auto.
    - constructor; auto. cbn [fst]. intros I. apply in_map_iff in I. destruct I as ((i, f) & I1 & I2). cbn in I1. subst i. apply A in I2. lia. }
  destruct (C 0) as (A & B). split.
  - intros i. rewrite in_map_iff. split.
    + intros ((j, f) & <- & J). apply filter_In in J. destruct J as (J & P). apply A in J. rewrite Nat.sub_0_r in J. exists f. tauto.
    + intros (f & F & P). exists (i, f). split; auto. apply filter_In. split; auto. apply A. rewrite Nat.sub_0_r. split; auto. lia.
  - clear - B. revert B. generalize (combine (seq 0 (length l)) l). induction l0 as [|q l0 IH]; intros B; cbn [filter map] in *; [constructor|]. inversion B; subst. destruct (p (snd q)); cbn [map]; auto. constructor; auto. intros I. apply H1. apply in_map_iff in I. destruct I as (y & Y1 & Y2). apply filter_In in Y2. apply in_map_iff. exists y. tauto.
Qed.
Lemma singleton : forall (r : list nat) f, NoDup r -> (forall i, In i r <-> i = f) -> r = [f].
Proof.
  intros [|x r] f N H; [exfalso; apply (proj2 (H f) eq_refl)|]. assert (x = f) by (apply H; left; auto). subst x. destruct r as [|y r]; auto. assert (y = f) by (apply H; right; left; auto). subst y. inversion N as [|? ? N1]; subst. exfalso. apply N1. left; auto.
Qed.
Lemma find_edge_ok : forall t D ie p, represents t D -> ends_of (edges t) ie = Some p -> exists i ss s, FindFaceIndexes_IncludeEdge t ie = Some [i] /\ nth_error (d_faces D) i = Some ss /\ In s ss /\ In p (shape_edges s).
Proof.
  intros t D ie p R E. assert (L : ie < length (edges t)) by (unfold ends_of in E; apply nth_error_Some; destruct (nth_error (edges t) ie); congruence).
  unfold FindFaceIndexes_IncludeEdge. rewrite (proj2 (Nat.ltb_lt _ _)) by auto. cbn [assertb bind].
  set (pl := fun il => match nth_error (loops t) il with Some l => existsb (fun p => fst p =? ie) (aIE l) | None => false end).
  assert (IR : forall f, In f (faces t) -> forall il, In il f -> exists l s, nth_error (loops t) il = Some l /\ describes (edges t) l s).
  { intros f Hf il Hil. destruct (Forall2_in_l _ _ _ f (rp_faces t D R) Hf) as (ss & _ & H2). destruct (Forall2_in_l _ _ _ il H2 Hil) as (s & _ & l & A & B). eauto. }
  destruct (collect0 (FaceIsIncludeEdge ie (loops t)) (existsb pl) (faces t)) as (r & Er & IN & ND).
  { intros f Hf. unfold FaceIsIncludeEdge. rewrite <- (search0 (fun il => l <- vget (loops t) il ;; LoopIsIncludeEdge ie l)).
    - unfold forb. apply forb_ext. intros j x Hj. destruct (vget f j); cbn [bind]; auto. destruct (vget (loops t) n); reflexivity.
    - intros il Hil. destruct (IR f Hf il Hil) as (l & s & A & _). unfold vget, pl. rewrite A. cbn [bind]. apply LoopIsIncludeEdge_ok. }
  destruct (edge_loop t D ie R L) as (l & L1 & L2). apply In_nth_error in L1. destruct L1 as (il & L1).
  assert (PL : forall jl, pl jl = true <-> jl = il).
  { intros jl. unfold pl. split.
    - destruct (nth_error (loops t) jl) as [l'|] eqn:J; [|discriminate]. intros X. apply existsb_exists in X. destruct X as (q & Q1 & Q2). apply Nat.eqb_eq in Q2. destruct (Nat.eq_dec jl il) as [|NE]; auto. exfalso.
      assert (C := rp_edge_once t D R ie). rewrite (proj2 (Nat.ltb_lt _ _)) in C by auto. assert (I1 : In ie (map fst (aIE l'))) by (rewrite <- Q2; apply in_map; auto). clear - C NE L1 L2 J I1. revert il jl NE L1 J C.
      induction (loops t) as [|x ls IH]; intros il jl NE L1 J C; [destruct il; discriminate|]. cbn [map concat] in C. rewrite count_occ_app in C. apply (count_occ_In Nat.eq_dec) in L2 as L3. apply (count_occ_In Nat.eq_dec) in I1 as I3.
      assert (W : forall k y, nth_error ls k = Some y -> count_occ Nat.eq_dec (map fst (aIE y)) ie <= count_occ Nat.eq_dec (concat (map (fun l => map fst (aIE l)) ls)) ie) by (intros k y Hy; apply cnt_concat_le; apply in_map_iff; exists y; split; auto; eapply nth_error_In; eauto).
      destruct il as [|il], jl as [|jl]; cbn [nth_error] in *; [congruence| | |].
      + injection L1 as ->. specialize (W _ _ J). lia.
      + injection J as ->. specialize (W _ _ L1). lia.
      + apply (IH il jl); auto. assert (W1 := W _ _ J). lia.
    - intros ->. rewrite L1. apply existsb_exists. apply in_map_iff in L2. destruct L2 as (q & Q1 & Q2). exists q. split; auto. apply Nat.eqb_eq; auto. }
  (* the face *)
  assert (C := rp_loop_once t D R il). rewrite (proj2 (Nat.ltb_lt _ _)) in C by (apply nth_error_Some; congruence).
  assert (I : In il (concat (faces t))) by (apply (count_occ_In Nat.eq_dec); lia). apply in_concat in I. destruct I as (f & F1 & F2). apply In_nth_error in F1. destruct F1 as (i & Fi).
  assert (UF : forall j g, nth_error (faces t) j = Some g -> In il g -> j = i).
  { intros j g Hg Ig. destruct (Nat.eq_dec j i) as [|NE]; auto. exfalso. clear - C NE Fi F2 Hg Ig. revert i j NE Fi Hg C. induction (faces t) as [|x ls IH]; intros i j NE Fi Hg C; [destruct i; discriminate|]. cbn [concat] in C. rewrite count_occ_app in C.
    apply (count_occ_In Nat.eq_dec) in F2 as F3. apply (count_occ_In Nat.eq_dec) in Ig as G3. assert (W : forall k y, nth_error ls k = Some y -> count_occ Nat.eq_dec y il <= count_occ Nat.eq_dec (concat ls) il) by (intros k y Hy; apply cnt_concat_le; eapply nth_error_In; eauto).
    destruct i as [|i], j as [|j]; cbn [nth_error] in *; [congruence| | |].
    + injection Fi as ->. specialize (W _ _ Hg). lia.
    + injection Hg as ->. specialize (W _ _ Fi). lia.
    + apply (IH i j); auto. assert (W1 := W _ _ Hg). lia. }
  assert (FD := rp_faces t D R).
  assert (X : exists ss, nth_error (d_faces D) i = Some ss /\ Forall2 (fun il s => exists l, nth_error (loops t) il = Some l /\ describes (edges t) l s) f ss).
  { clear - FD Fi. revert i Fi. induction FD as [|f' g F G H HF IH]; intros i Fi; [destruct i; discriminate|]. destruct i; cbn in Fi; [injection Fi as <-; exists g; auto|]. apply IH; auto. }
  destruct X as (ss & S1 & S2). destruct (Forall2_in_l _ _ _ il S2 F2) as (s & S3 & l' & S4 & S5). assert (l' = l) by congruence. subst l'. exists i, ss, s.
  change (forn 0 (length (faces t)) _ []) with (forn 0 (length (faces t)) (fun i res => f <- vget (faces t) i ;; b <- FaceIsIncludeEdge ie (loops t) f ;; if b : bool then Some (res ++ [i]) else Some res) []). rewrite Er. split.
  - f_equal. apply singleton; auto. intros j. rewrite IN. split.
    + intros (g & G1 & G2). apply existsb_exists in G2. destruct G2 as (jl & J1 & J2). apply PL in J2. subst jl. eapply UF; eauto.
    + intros ->. exists f. split; auto. apply existsb_exists. exists il. split; auto. apply PL; auto.
  - split; auto. split; auto. apply in_map_iff in L2. destruct L2 as (q & Q1 & Q2). destruct (describes_ends _ _ _ _ S5 Q2) as (p' & P1 & P2). rewrite Q1, E in P1. injection P1 as ->. auto.
Qed.
(** without isolated vertices *)
Definition no_dots (o : op) : Prop := forall i, o <> OVtxFace i.
Lemma nodots : forall t D, reached no_dots t D -> faces t = map (fun i => [i]) (seq 0 (length (loops t))) /\ Forall (fun ss => exists vs, ss = [cycle vs]) (d_faces D).
Proof.
  intros t D H. induction H as [|t D o t' H (A & B) P E]; [cbn; auto|]. assert (R := reached_rep _ _ _ H). destruct o as [|np|i|ie]; cbn [step].
  - cbn in E. injection E as <-. cbn. auto.
  - cbn [exec] in E. rewrite AddPolygon_eq in E. injection E as <-. cbn [faces loops d_faces]. rewrite app_length. cbn [length]. rewrite seq_app, map_app, A. cbn. split; auto. rewrite Forall_app. split; auto. constructor; eauto.
  - exfalso. eapply P; eauto.
  - cbn [exec] in E. destruct (AddVtx_Edge t ie) as [(t2, b)|] eqn:X; [|discriminate]. injection E as ->. unfold AddVtx_Edge in X. destruct (Nat.leb_spec (length (edges t)) ie) as [G|G].
    + injection X as <- _. replace (ends_of (edges t) ie) with (@None (nat * nat)) by (unfold ends_of; rewrite (proj2 (nth_error_None _ _)) by auto; auto). auto.
    + destruct (ends_of (edges t) ie) as [(a, b')|] eqn:EO; [|unfold ends_of in EO; destruct (nth_error (edges t) ie) eqn:Y; [discriminate|apply nth_error_None in Y; lia]].
      assert (S1 : faces t' = faces t /\ length (loops t') = length (loops t)).
      { destruct (rep_step t D (OVtxEdge ie) R) as (t3 & E3 & R3). cbn [exec] in E3. unfold AddVtx_Edge in E3. rewrite (proj2 (Nat.leb_gt _ _)) in E3 by auto. rewrite X in E3. injection E3 as <-.
        split; [|assert (Y := rp_loop_once _ _ R3)].
        - destruct (vget (edges t) ie); cbn [bind] in X; [|discriminate]. destruct (vset _ ie _); cbn [bind] in X; [|discriminate]. destruct (vset l _ _); cbn [bind] in X; [|discriminate]. destruct (forn _ _ _ _); cbn [bind] in X; [|discriminate]. injection X as <- _. reflexivity.
        - assert (F : faces t' = faces t). { destruct (vget (edges t) ie); cbn [bind] in X; [|discriminate]. destruct (vset _ ie _); cbn [bind] in X; [|discriminate]. destruct (vset l _ _); cbn [bind] in X; [|discriminate]. destruct (forn _ _ _ _); cbn [bind] in X; [|discriminate]. injection X as <- _. reflexivity. }
          rewrite F in Y. assert (Z := rp_loop_once _ _ R). assert (Y1 := Y (length (loops t))). assert (Z1 := Z (length (loops t))). assert (Y2 := Y (length (loops t'))). assert (Z2 := Z (length (loops t'))). rewrite Y1 in Z1. rewrite Y2 in Z2. rewrite Nat.ltb_irrefl in Z1, Z2.
          destruct (Nat.ltb_spec (length (loops t)) (length (loops t'))); [discriminate|]. destruct (Nat.ltb_spec (length (loops t')) (length (loops t))); [discriminate|]. lia. }
      destruct S1 as (-> & ->). split; auto. cbn [d_faces]. rewrite Forall_map. eapply Forall_impl; [|exact B]. intros ss (vs & ->). cbn. eauto.
Qed.
Lemma nodots_face : forall t D i, reached no_dots t D -> i < length (faces t) -> exists vs l, nth_error (faces t) i = Some [i] /\ nth_error (d_faces D) i = Some [cycle vs] /\ nth_error (loops t) i = Some l /\ describes (edges t) l (cycle vs).
Proof.
  intros t D i H L. destruct (nodots t D H) as (A & B). assert (R := reached_rep _ _ _ H). assert (FD := rp_faces t D R).
  assert (N : nth_error (faces t) i = Some [i]). { rewrite A in *. rewrite map_length, seq_length in L. rewrite nth_error_map, (nth_error_nth' _ 0) by (rewrite seq_length; auto). rewrite seq_nth by auto. auto. }
  assert (X : exists ss, nth_error (d_faces D) i = Some ss /\ Forall2 (fun il s => exists l, nth_error (loops t) il = Some l /\ describes (edges t) l s) [i] ss).
  { clear - FD N. generalize dependent i. intros i. generalize [i] as f. revert i. induction FD as [|f' g F G H HF IH]; intros i f N; [destruct i; discriminate|]. destruct i; cbn in N; [injection N as <-; exists g; auto|]. eapply IH; eauto. }
  destruct X as (ss & S1 & S2). rewrite Forall_forall in B. destruct (B ss ltac:(eapply nth_error_In; eauto)) as (vs & ->). inversion S2 as [|? ? ? ? (l & L1 & L2)]; subst. exists vs, l. auto.
Qed.
Lemma VertexIndexs_ok : forall t D i, reached no_dots t D -> i < length (faces t) -> exists vs, VertexIndexs_Face t i = Some vs /\ nth_error (d_faces D) i = Some [cycle vs].
Proof.
  intros t D i H L. destruct (nodots_face t D i H L) as (vs & l & A & B & C & E). exists vs. split; auto. unfold VertexIndexs_Face. rewrite (proj2 (Nat.ltb_lt _ _)) by auto. cbn [assertb bind]. unfold vget. rewrite C. cbn [bind]. unfold GetArray_IdVertex. clear - E. destruct E as (_ & M & F).
  rewrite <- (around_fst vs) in *. rewrite around_fst in M. revert M F. generalize (around vs) as P. generalize (aIE l) as q.
  assert (G : forall q P r, map (fun p : nat * bool => ends_of (edges t) (fst p)) q = map Some P -> Forall (fun p => snd p = true) q -> foldM (fun '(ie0, dir) res => e <- vget (edges t) ie0 ;; Some (res ++ [IndexVertex e dir])) q r = Some (r ++ map fst P)).
  { induction q as [|(ie, d) q IH]; intros [|p P] r M F; try discriminate; cbn [foldM map]; [rewrite app_nil_r; auto|]. cbn [map fst] in M. injection M as M1 M2. apply Forall_cons_iff in F. destruct F as (F1 & F2). cbn in F1. subst d. destruct (nth_error_ends _ _ _ M1) as (e & V & I0 & _). rewrite V. cbn [bind IndexVertex]. rewrite I0. rewrite (IH P) by auto. rewrite <- app_assoc. auto. }
  intros q P M F. apply (G q P [] M F).
Qed.
Lemma find_vertex_ok : forall t D v, reached no_dots t D -> v < num_vertex t -> exists i vs, FindFaceIndexes_IncludeVeretx t v = Some [i] /\ nth_error (d_faces D) i = Some [cycle vs] /\ In v vs.
Proof.
  intros t D v H L. destruct (nodots t D H) as (A & B). assert (R := reached_rep _ _ _ H). assert (LF : length (faces t) = length (d_faces D)) by (eapply Forall2_len; apply (rp_faces t D R)).
  assert (C := rp_vertex_once t D R v). rewrite <- (rp_nv t D R), (proj2 (Nat.ltb_lt _ _)) in C by auto.
  unfold FindFaceIndexes_IncludeVeretx. rewrite (proj2 (Nat.ltb_lt _ _)) by auto. cbn [assertb bind].
  set (pf := fun f : face => match f with il :: _ => match nth_error (d_faces D) il with Some (cycle vs :: _) => if in_dec Nat.eq_dec v vs then true else false | _ => false end | _ => false end).
  assert (FI : forall f, In f (faces t) -> exists i, f = [i] /\ i < length (faces t)). { intros f Hf. apply In_nth_error in Hf. destruct Hf as (i & Hi). assert (Li : i < length (faces t)) by (apply nth_error_Some; congruence). destruct (nodots_face t D i H Li) as (vs & l & N & _). exists i. split; auto. congruence. }
  destruct (collect0 (FaceIsIncludeVertex v (edges t) (loops t)) pf (faces t)) as (r & Er & IN & ND).
  { intros f Hf. destruct (FI f Hf) as (i & -> & Li). destruct (nodots_face t D i H Li) as (vs & l & N1 & N2 & N3 & N4). unfold FaceIsIncludeVertex, forb. cbn [length Nat.sub forb_ vget nth_error bind]. unfold vget. rewrite N3. cbn [bind]. rewrite (LoopIsIncludeVertex_ok _ _ _ _ N4). cbn [bind]. unfold pf. rewrite N2. destruct (in_dec Nat.eq_dec v vs); reflexivity. }
  assert (I : In v (concat (map shape_vertices (concat (d_faces D))))) by (apply (count_occ_In Nat.eq_dec); lia). apply in_concat in I. destruct I as (x & X1 & X2). apply in_map_iff in X1. destruct X1 as (s & <- & X1). apply in_concat in X1. destruct X1 as (ss & X3 & X4). apply In_nth_error in X3. destruct X3 as (i & X3).
  assert (Li : i < length (faces t)) by (rewrite LF; apply nth_error_Some; congruence). destruct (nodots_face t D i H Li) as (vs & l & N1 & N2 & N3 & N4). assert (ss = [cycle vs]) by congruence. subst ss. destruct X4 as [<-|[]]. cbn in X2. exists i, vs.
  split; [|auto]. change (forn 0 (length (faces t)) _ []) with (forn 0 (length (faces t)) (fun i res => f <- vget (faces t) i ;; b <- FaceIsIncludeVertex v (edges t) (loops t) f ;; if b : bool then Some (res ++ [i]) else Some res) []). rewrite Er. f_equal. apply singleton; auto. intros j. rewrite IN. split.
  - intros (g & G1 & G2). destruct (FI g ltac:(eapply nth_error_In; eauto)) as (j' & -> & Lj). assert (Lj2 : j < length (faces t)) by (apply nth_error_Some; congruence). destruct (nodots_face t D j H Lj2) as (vs' & l' & M1 & M2 & _). assert (j' = j) by congruence. subst j'. unfold pf in G2. rewrite M2 in G2. destruct (in_dec Nat.eq_dec v vs') as [Iv|]; [|discriminate].
    destruct (Nat.eq_dec j i) as [|NE]; auto. exfalso. clear - C NE N2 M2 X2 Iv. revert i j NE N2 M2 C. induction (d_faces D) as [|y ls IH]; intros i j NE N2 M2 C; [destruct i; discriminate|]. cbn [concat] in C. rewrite map_app, concat_app, count_occ_app in C.
    assert (W : forall k ws, nth_error ls k = Some [cycle ws] -> In v ws -> 1 <= count_occ Nat.eq_dec (concat (map shape_vertices (concat ls))) v).
    { intros k ws Hk Hw. assert (X : In v (concat (map shape_vertices (concat ls)))); [|apply (count_occ_In Nat.eq_dec) in X; lia]. apply in_concat. exists ws. split; auto. apply in_map_iff. exists (cycle ws). split; auto. apply in_concat. exists [cycle ws]. split; [eapply nth_error_In; eauto|left; auto]. }
    apply (count_occ_In Nat.eq_dec) in X2 as X3. apply (count_occ_In Nat.eq_dec) in Iv as I3.
    destruct i as [|i], j as [|j]; cbn [nth_error] in *; [congruence| | |].
    + injection N2 as ->. cbn [map concat shape_vertices] in C. rewrite app_nil_r in C. specialize (W _ _ M2 Iv). lia.
    + injection M2 as ->. cbn [map concat shape_vertices] in C. rewrite app_nil_r in C. specialize (W _ _ N2 X2). lia.
    + apply (IH i j); auto. assert (W1 := W _ _ M2 Iv). lia.
  - intros ->. exists [i]. split; auto. unfold pf. rewrite N2. destruct (in_dec Nat.eq_dec v vs); tauto.
Qed.
