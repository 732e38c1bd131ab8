(** The editing operations preserve [represents]. *)
From Coq Require Import List Arith Bool Lia.
Import ListNotations.
From Verif Require Import Imp CadModel CadSpec.

Definition links (vs : list nat) (z : nat) : list (nat * nat) := combine vs (tl vs ++ [z]).
Lemma links_cons : forall a l z, links (a :: l) z = (a, hd z l) :: links l z.
Proof. intros a [|b l] z; reflexivity. Qed.
Lemma around_links : forall vs, around vs = match vs with [] => [] | v :: _ => links vs v end.
Proof. intros [|v vs]; reflexivity. Qed.
Lemma links_app : forall l1 a l2 z, links (l1 ++ a :: l2) z = links l1 a ++ links (a :: l2) z.
Proof. induction l1 as [|x l1 IH]; intros a l2 z; [reflexivity|]. cbn [app]. rewrite (links_cons x (l1 ++ a :: l2)), (links_cons x l1), IH. cbn [app]. destruct l1; reflexivity. Qed.
Lemma around_mid : forall l1 a l2, around (l1 ++ a :: l2) = links l1 a ++ (a, hd (hd a l1) l2) :: links l2 (hd a l1).
Proof. intros. rewrite around_links. rewrite <- links_cons. destruct l1 as [|x l1]; [reflexivity|]. cbn [app hd]. rewrite <- links_app. reflexivity. Qed.
Lemma links_length : forall vs z, length (links vs z) = length vs.
Proof. induction vs as [|v vs IH]; intros z; [reflexivity|]. rewrite links_cons. cbn [length]. rewrite IH. auto. Qed.
Lemma around_length : forall vs, length (around vs) = length vs.
Proof. intros vs. rewrite around_links. destruct vs; [reflexivity|apply links_length]. Qed.
Lemma links_fst : forall vs z, map fst (links vs z) = vs.
Proof. induction vs as [|v vs IH]; intros z; [reflexivity|]. rewrite links_cons. cbn [map fst]. f_equal. auto. Qed.
Lemma around_fst : forall vs, map fst (around vs) = vs.
Proof. intros. rewrite around_links. destruct vs; [reflexivity|apply links_fst]. Qed.

(** insertion into a list of directed edges *)
Fixpoint ins (ieo ien : nat) (l : list (nat * bool)) : list (nat * bool) :=
  match l with [] => [] | p :: l => if fst p =? ieo then p :: (ien, true) :: l else p :: ins ieo ien l end.
Definition gl (ieo ien : nat) (l : loop) : loop := Loop (l_iv l) (ins ieo ien (aIE l)).
Lemma ins_none : forall ieo ien l, ~ In ieo (map fst l) -> ins ieo ien l = l.
Proof. induction l as [|p l IH]; intros N; [reflexivity|]. cbn [ins]. destruct (Nat.eqb_spec (fst p) ieo); [exfalso; apply N; left; auto|]. rewrite IH; auto. intros H; apply N; right; auto. Qed.
Lemma ins_mid : forall ieo ien b p1 p2, ~ In ieo (map fst p1) -> ins ieo ien (p1 ++ (ieo, b) :: p2) = p1 ++ (ieo, b) :: (ien, true) :: p2.
Proof.
  induction p1 as [|p p1 IH]; intros p2 N; cbn [app ins fst]; [rewrite Nat.eqb_refl; auto|]. destruct (Nat.eqb_spec (fst p) ieo); [exfalso; apply N; left; auto|]. rewrite IH; auto. intros H; apply N; right; auto.
Qed.
Lemma in_first : forall (ieo : nat) (l : list (nat * bool)), In ieo (map fst l) -> exists p1 b p2, l = p1 ++ (ieo, b) :: p2 /\ ~ In ieo (map fst p1).
Proof.
  induction l as [|(e, b) l IH]; intros H; [destruct H|]. destruct (Nat.eq_dec e ieo) as [->|N].
  - exists [], b, l. split; auto.
  - destruct H as [H|H]; [cbn in H; congruence|]. destruct (IH H) as (p1 & b' & p2 & -> & M). exists ((e, b) :: p1), b', p2. split; auto. intros [X|X]; auto.
Qed.
Lemma insert_after_none : forall a n vs, ~ In a vs -> insert_after a n vs = vs.
Proof. induction vs as [|v vs IH]; intros N; [reflexivity|]. cbn [insert_after]. destruct (Nat.eqb_spec v a); [exfalso; apply N; left; auto|]. rewrite IH; auto. intros H; apply N; right; auto. Qed.
Lemma insert_after_mid : forall a n l1 l2, ~ In a l1 -> insert_after a n (l1 ++ a :: l2) = l1 ++ a :: n :: l2.
Proof. induction l1 as [|v l1 IH]; intros l2 N; cbn [app insert_after]; [rewrite Nat.eqb_refl; auto|]. destruct (Nat.eqb_spec v a); [exfalso; apply N; left; auto|]. rewrite IH; auto. intros H; apply N; right; auto. Qed.

(** the search and insertion of AddVtx_Edge *)
Fixpoint pos (ieo : nat) (l : list (nat * bool)) : nat := match l with [] => 0 | p :: l => if fst p =? ieo then 0 else S (pos ieo l) end.
Lemma find_ie : forall ieo (l pre full : list (nat * bool)) r, full = pre ++ l ->
  forb_ (length l) (length pre) (fun i _ => '(ie, _) <- vget full i ;; if ie =? ieo then Some (i, true) else Some (S i, false)) r =
  Some (match l with [] => r | _ => length pre + pos ieo l end).
Proof.
  intros ieo. induction l as [|(e, b) l IH]; intros pre full r E; cbn [length forb_]; auto.
  assert (G : vget full (length pre) = Some (e, b)) by (unfold vget; rewrite E, nth_error_app2, Nat.sub_diag by lia; auto). rewrite G. cbn [bind fst pos]. destruct (e =? ieo); cbn [bind]; [f_equal; lia|].
  assert (X := IH (pre ++ [(e, b)]) full (S (length pre))). rewrite app_length, Nat.add_1_r in X. rewrite X by (rewrite E, <- app_assoc; auto). destruct l; f_equal; cbn [pos]; lia.
Qed.
Lemma find_ie0 : forall ieo l, forb 0 (length l) (fun i _ => '(ie, _) <- vget l i ;; if ie =? ieo then Some (i, true) else Some (S i, false)) 0 = Some (pos ieo l).
Proof. intros. unfold forb. rewrite Nat.sub_0_r. etransitivity; [exact (find_ie ieo l [] l 0 eq_refl)|]. destruct l; reflexivity. Qed.
Lemma pos_none : forall ieo l, ~ In ieo (map fst l) -> pos ieo l = length l.
Proof. induction l as [|p l IH]; intros N; [reflexivity|]. cbn [pos length]. destruct (Nat.eqb_spec (fst p) ieo); [exfalso; apply N; left; auto|]. rewrite IH; auto. intros H; apply N; right; auto. Qed.
Lemma pos_mid : forall ieo b p1 p2, ~ In ieo (map fst p1) -> pos ieo (p1 ++ (ieo, b) :: p2) = length p1.
Proof. induction p1 as [|p p1 IH]; intros p2 N; cbn [app pos fst length]; [rewrite Nat.eqb_refl; auto|]. destruct (Nat.eqb_spec (fst p) ieo); [exfalso; apply N; left; auto|]. rewrite IH; auto. intros H; apply N; right; auto. Qed.
Definition lbody (ieo ien : nat) := fun il (ls : list loop) =>
    l <- vget ls il ;;
    let ne := length (aIE l) in
    iie <- forb 0 ne (fun i _ => '(ie, _) <- vget (aIE l) i ;; if ie =? ieo then Some (i, true) else Some (S i, false)) 0 ;;
    if iie =? ne then Some ls else
    '(_, dir) <- vget (aIE l) iie ;;
    if dir : bool then vset ls il (Loop (l_iv l) (firstn (iie + 1) (aIE l) ++ (ien, true) :: skipn (iie + 1) (aIE l))) else Some ls.
Lemma vget_mid : forall {T} (a : list T) x b, vget (a ++ x :: b) (length a) = Some x.
Proof. intros. unfold vget. rewrite nth_error_app2, Nat.sub_diag by lia. auto. Qed.
Lemma vset_mid : forall {T} (a : list T) x y b, vset (a ++ x :: b) (length a) y = Some (a ++ y :: b).
Proof. induction a as [|z a IH]; intros; cbn; auto. rewrite IH. auto. Qed.
Lemma lbody_one : forall ieo ien pre l post, Forall (fun p => snd p = true) (aIE l) -> lbody ieo ien (length pre) (pre ++ l :: post) = Some (pre ++ gl ieo ien l :: post).
Proof.
  intros ieo ien pre l post F. unfold lbody. rewrite vget_mid. cbn [bind]. rewrite find_ie0. cbn [bind]. destruct l as (iv, ies). cbn [aIE l_iv] in *.
  destruct (in_dec Nat.eq_dec ieo (map fst ies)) as [H|H].
  - destruct (in_first _ _ H) as (p1 & b & p2 & -> & N). rewrite pos_mid, app_length by auto. cbn [length]. rewrite (proj2 (Nat.eqb_neq _ _)) by lia. rewrite vget_mid. cbn [bind].
    assert (B : b = true). { rewrite Forall_forall in F. apply (F (ieo, b)), in_or_app. right; left; auto. } rewrite B. rewrite vset_mid. unfold gl. cbn [aIE l_iv]. rewrite ins_mid by auto.
    replace (length p1 + 1) with (length (p1 ++ [(ieo, true)])) by (rewrite app_length; auto). replace (p1 ++ (ieo, true) :: p2) with ((p1 ++ [(ieo, true)]) ++ p2) by (rewrite <- app_assoc; auto).
    rewrite firstn_app, firstn_all, Nat.sub_diag, skipn_app, skipn_all, Nat.sub_diag. cbn [firstn skipn app]. rewrite app_nil_r, <- app_assoc. auto.
  - rewrite pos_none, Nat.eqb_refl by auto. unfold gl. cbn. rewrite ins_none by auto. auto.
Qed.
Lemma lbody_all : forall ieo ien ls pre, (forall l, In l ls -> Forall (fun p => snd p = true) (aIE l)) -> forn_ (length ls) (length pre) (lbody ieo ien) (pre ++ ls) = Some (pre ++ map (gl ieo ien) ls).
Proof.
  induction ls as [|l ls IH]; intros pre H; cbn [length forn_ map]; auto. rewrite lbody_one by (apply H; left; auto). cbn [bind].
  assert (X := IH (pre ++ [gl ieo ien l])). rewrite app_length, Nat.add_1_r, <- !app_assoc in X. apply X. intros; apply H; right; auto.
Qed.

(** consequences of [represents] *)
Notation cnt := (count_occ Nat.eq_dec).
Lemma Forall2_in_l : forall {A B} (R : A -> B -> Prop) l1 l2 x, Forall2 R l1 l2 -> In x l1 -> exists y, In y l2 /\ R x y.
Proof. intros A B R l1 l2 x F. induction F as [|a b l1 l2 H F IH]; intros I; [destruct I|]. destruct I as [->|I]; [exists b; split; auto; left; auto|]. destruct (IH I) as (y & Y & Z). exists y. split; auto. right; auto. Qed.
Lemma loop_described : forall t D l, represents t D -> In l (loops t) -> exists s, In s (concat (d_faces D)) /\ describes (edges t) l s.
Proof.
  intros t D l R I. apply In_nth_error in I. destruct I as (il & E). assert (L : il < length (loops t)) by (apply nth_error_Some; congruence).
  assert (C := rp_loop_once t D R il). rewrite (proj2 (Nat.ltb_lt _ _)) in C by auto. assert (I : In il (concat (faces t))) by (apply (count_occ_In Nat.eq_dec); lia).
  apply in_concat in I. destruct I as (f & F1 & F2). destruct (Forall2_in_l _ _ _ f (rp_faces t D R) F1) as (ss & S1 & S2). destruct (Forall2_in_l _ _ _ il S2 F2) as (s & S3 & l' & E' & Ds).
  exists s. split; [apply in_concat; eauto|]. congruence.
Qed.
Lemma describes_dirs : forall es l s, describes es l s -> Forall (fun p => snd p = true) (aIE l).
Proof. intros es l [vs|v]; cbn; intros H; [apply H|]. destruct H as (_ & ->). constructor. Qed.
Lemma cnt_concat_le : forall (ll : list (list nat)) l x, In l ll -> cnt l x <= cnt (concat ll) x.
Proof. induction ll as [|a ll IH]; intros l x H; [destruct H|]. cbn [concat]. rewrite count_occ_app. destruct H as [->|H]; [lia|]. specialize (IH l x H). lia. Qed.
Lemma edge_in_loop_once : forall t D l ie, represents t D -> In l (loops t) -> cnt (map fst (aIE l)) ie <= 1.
Proof.
  intros t D l ie R I. etransitivity; [apply (cnt_concat_le (map (fun l => map fst (aIE l)) (loops t)))|]; [apply in_map_iff; eauto|]. rewrite (rp_edge_once t D R). destruct (ie <? length (edges t)); lia.
Qed.
Lemma edge_in_range : forall t D l ie, represents t D -> In l (loops t) -> In ie (map fst (aIE l)) -> ie < length (edges t).
Proof.
  intros t D l ie R I H. apply (count_occ_In Nat.eq_dec) in H. assert (X := cnt_concat_le (map (fun l => map fst (aIE l)) (loops t)) (map fst (aIE l)) ie ltac:(apply in_map_iff; eauto)).
  rewrite (rp_edge_once t D R) in X. destruct (Nat.ltb_spec ie (length (edges t))); lia.
Qed.
Lemma start_inj : forall es i j e f, (forall v, cnt (map iv0 es) v <= 1) -> nth_error es i = Some e -> nth_error es j = Some f -> iv0 e = iv0 f -> i = j.
Proof.
  intros es i j e f H E F X. assert (ND : NoDup (map iv0 es)) by (apply (NoDup_count_occ Nat.eq_dec); auto). rewrite NoDup_nth_error in ND. apply ND.
  - rewrite map_length. apply nth_error_Some. congruence.
  - rewrite !nth_error_map, E, F. cbn. congruence.
Qed.

Lemma hd_snoc : forall (l : list nat) n a, hd n (l ++ [a]) = hd a l. Proof. intros [|x l] n a; reflexivity. Qed.
(** one loop under the splitting of an edge *)
Definition esplit (es : list edge) (ieo n : nat) (a b : nat) : list edge := upd es ieo (Edge a n) ++ [Edge n b].
Lemma esplit_other : forall es ieo n a b i, i < length es -> i <> ieo -> ends_of (esplit es ieo n a b) i = ends_of es i.
Proof.
  intros. unfold ends_of, esplit. rewrite nth_error_app1 by (rewrite upd_length; auto). rewrite (nth_error_nth' _ (Edge 0 0)) by (rewrite upd_length; auto). rewrite (nth_error_nth' es (Edge 0 0)) by auto. rewrite nth_upd_other by auto. auto.
Qed.
Lemma esplit_same : forall es ieo n a b, ieo < length es -> ends_of (esplit es ieo n a b) ieo = Some (a, n).
Proof. intros. unfold ends_of, esplit. rewrite nth_error_app1 by (rewrite upd_length; auto). rewrite (nth_error_nth' _ (Edge 0 0)) by (rewrite upd_length; auto). rewrite nth_upd_same by auto. auto. Qed.
Lemma esplit_new : forall es ieo n a b, ends_of (esplit es ieo n a b) (length es) = Some (n, b).
Proof. intros. unfold ends_of, esplit. rewrite nth_error_app2, upd_length, Nat.sub_diag by (rewrite upd_length; auto). auto. Qed.
Lemma map_split : forall {A B} (f : A -> B) l X y Z, map f l = X ++ y :: Z -> exists l1 a l2, l = l1 ++ a :: l2 /\ map f l1 = X /\ f a = y /\ map f l2 = Z.
Proof.
  intros A B f. induction l as [|a l IH]; intros X y Z E; [destruct X; discriminate|]. destruct X as [|x X]; cbn [map app] in E; injection E as E1 E2.
  - exists [], a, l. auto.
  - destruct (IH X y Z E2) as (l1 & a' & l2 & -> & H1 & H2 & H3). exists (a :: l1), a', l2. subst. auto.
Qed.
Lemma describes_split : forall es l s ieo n a b, describes es l s -> ends_of es ieo = Some (a, b) -> (forall v, cnt (map iv0 es) v <= 1) -> cnt (map fst (aIE l)) ieo <= 1 ->
  (forall ie, In ie (map fst (aIE l)) -> ie < length es) -> describes (esplit es ieo n a b) (gl ieo (length es) l) (shape_split a n s).
Proof.
  intros es l s ieo n a b Ds E ST C1 RG. assert (LI : ieo < length es) by (unfold ends_of in E; apply nth_error_Some; destruct (nth_error es ieo); congruence).
  destruct s as [vs|v]; cbn [shape_split describes] in *.
  2:{ destruct Ds as (A & B). unfold gl. cbn. rewrite B. auto. }
  destruct Ds as (A & M & F). unfold gl. cbn [l_iv aIE]. split; auto.
  assert (OTH : forall p, (forall q, In q p -> In q (aIE l)) -> ~ In ieo (map fst p) -> map (fun q => ends_of (esplit es ieo n a b) (fst q)) p = map (fun q => ends_of es (fst q)) p).
  { intros p P N. apply map_ext_in. intros q Q. apply esplit_other; [apply RG, in_map; auto|]. intros X. apply N. rewrite <- X. apply in_map; auto. }
  assert (ST2 : forall q, In q (aIE l) -> forall y, ends_of es (fst q) = Some (a, y) -> fst q = ieo).
  { intros q Q y X. unfold ends_of in X, E. destruct (nth_error es (fst q)) as [e|] eqn:E1; [|discriminate]. destruct (nth_error es ieo) as [f|] eqn:E2; [|discriminate]. eapply start_inj; eauto. congruence. }
  destruct (in_dec Nat.eq_dec ieo (map fst (aIE l))) as [H|H].
  - destruct (in_first _ _ H) as (p1 & d & p2 & EL & N). rewrite EL in *. rewrite ins_mid by auto.
    assert (N2 : ~ In ieo (map fst p2)). { rewrite map_app in C1. cbn [map fst] in C1. rewrite count_occ_app in C1. cbn [count_occ] in C1. destruct (Nat.eq_dec ieo ieo); [|congruence]. intros X. apply (count_occ_In Nat.eq_dec) in X. lia. }
    rewrite map_app in M. cbn [map fst] in M. rewrite E in M. symmetry in M. destruct (map_split _ _ _ _ _ M) as (A1 & ab & A2 & EA & M1 & M2 & M3). injection M2 as ->.
    assert (VS := around_fst vs). rewrite EA, map_app in VS. cbn [map fst] in VS. set (l1 := map fst A1) in *. set (l2 := map fst A2) in *.
    assert (Na : ~ In a l1). { intros X. unfold l1 in X. apply in_map_iff in X. destruct X as ((a', y) & X1 & X2). cbn in X1. subst a'. apply (in_map Some) in X2. rewrite M1 in X2. apply in_map_iff in X2. destruct X2 as (q & Q1 & Q2).
      apply N. rewrite <- (ST2 q ltac:(apply in_or_app; auto) y Q1). apply in_map; auto. }
    rewrite <- VS in *. rewrite insert_after_mid by auto. rewrite around_mid in EA.
    assert (LL : length (links l1 a) = length A1) by (rewrite links_length; unfold l1; apply map_length).
    assert (EQ : links l1 a = A1 /\ (a, hd (hd a l1) l2) = (a, b) /\ links l2 (hd a l1) = A2).
    { revert EA LL. generalize (links l1 a) as x. generalize (a, hd (hd a l1) l2) as y. generalize (links l2 (hd a l1)) as z. clear. intros z y x. revert A1. induction x as [|u x IH]; intros [|w A1] EA LL; cbn in *; try lia.
      - injection EA as -> ->. auto.
      - injection EA as -> EA. destruct (IH A1 EA) as (-> & -> & ->); auto. }
    destruct EQ as (Q1 & Q2 & Q3). injection Q2 as Q2. replace (l1 ++ a :: n :: l2) with ((l1 ++ [a]) ++ n :: l2) by (rewrite <- app_assoc; auto). rewrite around_mid.
    rewrite !map_app. cbn [map fst]. rewrite esplit_same, esplit_new by auto. rewrite OTH by (auto; intros; apply in_or_app; auto). rewrite (OTH p2) by (auto; intros; apply in_or_app; right; right; auto).
    rewrite links_app. cbn [links combine tl app]. rewrite map_app, <- app_assoc. cbn [map app]. rewrite Q1, M1. split.
    + rewrite hd_snoc. rewrite <- M3, <- Q3, <- Q2. reflexivity.
    + rewrite Forall_app in *. destruct F as (F1 & F2). apply Forall_cons_iff in F2. destruct F2. split; auto.
  - rewrite ins_none by auto. split; auto. rewrite OTH by auto. rewrite insert_after_none; auto. intros X. rewrite <- (around_fst vs) in X. apply in_map_iff in X. destruct X as ((a', y) & X1 & X2). cbn in X1. subst a'.
    apply (in_map Some) in X2. rewrite <- M in X2. apply in_map_iff in X2. destruct X2 as (q & Q1 & Q2). apply H. rewrite <- (ST2 q Q2 y Q1). apply in_map; auto.
Qed.
