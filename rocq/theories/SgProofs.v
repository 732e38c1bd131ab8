From Coq Require Import List Arith Bool ZArith Reals Permutation Sorted Lia Lra Psatz.
Import ListNotations.
From Verif Require Import Imp SgModel.
Open Scope nat_scope.

Notation obj := (nat * nat)%type.
Definition le_obj (a b : obj) : Prop := fst a <= fst b.
Definition srt_ok (srt : list obj -> list obj) : Prop := forall l, Permutation l (srt l) /\ StronglySorted le_obj (srt l).

(** insertion sort *)
Lemma ub_le : forall l v, upper_bound l v <= length l.
Proof. induction l as [|e l IH]; intros v; cbn [upper_bound length]; [lia|]. destruct (_ <? _); [lia|]. specialize (IH v). lia. Qed.
Lemma ub_low : forall l v, Forall (fun e => fst e <= fst v) (firstn (upper_bound l v) l).
Proof. induction l as [|e l IH]; intros v; cbn [upper_bound]; [constructor|]. destruct (Nat.ltb_spec (fst v) (fst e)); cbn [firstn]; constructor; auto. Qed.
Lemma ub_high : forall l v, StronglySorted le_obj l -> Forall (fun e => fst v < fst e) (skipn (upper_bound l v) l).
Proof.
  induction l as [|e l IH]; intros v S; cbn [upper_bound]; [constructor|]. inversion S; subst. destruct (Nat.ltb_spec (fst v) (fst e)); cbn [skipn]; auto. constructor; auto.
  rewrite Forall_forall in *. intros x X. specialize (H2 x X). unfold le_obj in H2. lia.
Qed.
Lemma SS_app : forall (l m : list obj), StronglySorted le_obj (l ++ m) <-> StronglySorted le_obj l /\ StronglySorted le_obj m /\ forall a b, In a l -> In b m -> le_obj a b.
Proof.
  induction l as [|x l IH]; intros m; cbn [app].
  - split; [intros; repeat split; auto; [constructor|intros a b []]|tauto].
  - split.
    + intros S. inversion S; subst. apply IH in H1. destruct H1 as (A & B & C). rewrite Forall_app in H2. destruct H2 as (D & E). repeat split; auto; [constructor; auto|]. intros a b [<-|I] J; auto. rewrite Forall_forall in E. auto.
    + intros (A & B & C). inversion A; subst. constructor; [apply IH; repeat split; auto; intros; apply C; auto; right; auto|]. apply Forall_app. split; auto. apply Forall_forall. intros b J. apply C; auto. left; auto.
Qed.
Lemma split_at : forall (v : list obj) it, it < length v -> v = firstn it v ++ nth it v (0, 0) :: skipn (S it) v.
Proof. intros v it H. rewrite <- (firstn_skipn it v) at 1. f_equal. revert v H. induction it as [|it IH]; intros [|y v] H; cbn [length] in H; try lia; auto. cbn [skipn nth]. apply IH. lia. Qed.
Lemma insertion_ok : forall l, exists l', insertion_sort_stl l = Some l' /\ Permutation l l' /\ StronglySorted le_obj l'.
Proof.
  intros l. apply wp_iff. unfold insertion_sort_stl. apply (wp_forn _ (fun it v => Permutation l v /\ StronglySorted le_obj (firstn it v))); [lia| | |].
  - split; auto. constructor.
  - intros it v (_ & Hi) (P & S). assert (L := Permutation_length P). eapply wp_bind. apply (wp_vget _ (0, 0)); [lia|]. assert (E := split_at v it ltac:(lia)). set (x := nth it v (0, 0)) in *. apply wp_some.
    set (pre := firstn it v) in *. set (p := upper_bound pre x). assert (LP : length pre = it) by (unfold pre; rewrite firstn_length; lia).
    assert (PP : Permutation (pre ++ [x]) (firstn p pre ++ [x] ++ skipn p pre)). { rewrite <- (firstn_skipn p pre) at 1. rewrite <- app_assoc. apply Permutation_app_head. apply Permutation_app_comm. }
    replace (firstn p pre ++ [x] ++ skipn p pre ++ skipn (Datatypes.S it) v) with ((firstn p pre ++ [x] ++ skipn p pre) ++ skipn (Datatypes.S it) v) by (rewrite <- !app_assoc; auto). split.
    + eapply Permutation_trans; [exact P|]. rewrite E at 1. change (x :: skipn (Datatypes.S it) v) with ([x] ++ skipn (Datatypes.S it) v). rewrite app_assoc. apply Permutation_app_tail. exact PP.
    + rewrite firstn_app. assert (LQ : length (firstn p pre ++ [x] ++ skipn p pre) = Datatypes.S it) by (rewrite <- (Permutation_length PP), app_length; cbn [length]; lia). rewrite LQ, Nat.sub_diag, app_nil_r. rewrite <- LQ, firstn_all.
      assert (U1 := ub_low pre x). assert (U2 := ub_high pre x S). fold p in U1, U2. rewrite <- (firstn_skipn p pre) in S. apply SS_app in S. destruct S as (S1 & S2 & S3). rewrite Forall_forall in U1, U2.
      apply SS_app. split; auto. split; [constructor; auto; apply Forall_forall; intros b B; specialize (U2 b B); unfold le_obj; lia|]. intros a b A [<-|B]; [apply U1; auto|]. apply S3; auto.
  - intros v (P & S). rewrite <- (Permutation_length P) in S || rewrite (Permutation_length P), firstn_all in S. auto.
Qed.

(** the ranges *)
Definition cut (objs : list obj) (ig i : nat) : Prop := i <= length objs /\ (forall j, j < i -> fst (nth j objs (0, 0)) < ig) /\ (forall j, i <= j < length objs -> ig <= fst (nth j objs (0, 0))).
Lemma SS_nth : forall l, StronglySorted le_obj l -> forall i j, i <= j -> j < length l -> fst (nth i l (0, 0)) <= fst (nth j l (0, 0)).
Proof.
  induction l as [|x l IH]; intros S i j I J; cbn [length] in J; [lia|]. inversion S; subst. destruct j as [|j]; [replace i with 0 by lia; auto|]. destruct i as [|i]; [|cbn [nth]; apply IH; auto; lia].
  cbn [nth]. rewrite Forall_forall in H2. apply H2. apply nth_In. lia.
Qed.
Lemma advance_ok : forall v objs ig fuel i0, StronglySorted le_obj objs -> cut objs ig i0 \/ (i0 <= length objs /\ (forall j, j < i0 -> fst (nth j objs (0, 0)) <= ig)) -> length objs - i0 < fuel -> exists i, advance (Some v) objs ig fuel i0 = Some i /\ cut objs (S ig) i /\ i0 <= i.
Proof.
  intros v objs ig. induction fuel as [|fuel IH]; intros i0 S H F; [lia|]. cbn [advance].
  assert (H' : i0 <= length objs /\ (forall j, j < i0 -> fst (nth j objs (0, 0)) <= ig)) by (destruct H as [(A & B & _)|H]; auto; split; auto; intros j J; specialize (B j J); lia). clear H. destruct H' as (L & H).
  destruct (Nat.eq_dec i0 (length objs)) as [->|NE].
  - rewrite (proj2 (nth_error_None objs (length objs))) by lia. rewrite Nat.eqb_refl. cbn [bind]. rewrite Nat.ltb_irrefl, andb_false_r. exists (length objs). repeat split; auto; [intros j J; specialize (H j J); lia|intros; lia].
  - rewrite (nth_error_nth' objs (0, 0)) by lia. cbn [bind]. rewrite (proj2 (Nat.ltb_lt i0 (length objs))) by lia. rewrite andb_true_r. destruct (Nat.leb_spec (fst (nth i0 objs (0, 0))) ig) as [Q|Q].
    + destruct (IH (Datatypes.S i0) S) as (i & A & B & C); [right; split; [lia|]; intros j J; destruct (Nat.eq_dec j i0) as [->|]; auto; apply H; lia|lia|]. exists i. repeat split; auto; try apply B. lia.
    + exists i0. repeat split; auto; [intros j J; specialize (H j J); lia|]. intros j (J1 & J2). assert (X := SS_nth objs S i0 j J1 J2). lia.
Qed.
Definition ranges (objs : list obj) (ng : nat) (ind : list nat) : Prop := length ind = ng + 1 /\ forall ig, ig <= ng -> cut objs ig (nth ig ind 0).
Lemma cut_le : forall objs a b i j, a <= b -> cut objs a i -> cut objs b j -> i <= j.
Proof. intros objs a b i j AB (A1 & A2 & A3) (B1 & B2 & B3). destruct (Nat.le_gt_cases i j); auto. specialize (A2 j H). specialize (B3 j ltac:(lia)). lia. Qed.
Lemma PostProcess_ok : forall v srt ini g, srt_ok srt -> exists g', PostProcess (Some v) srt ini g = Some g' /\ Permutation (aGrid2Obj g) (aGrid2Obj g') /\ ranges (aGrid2Obj g') (nx g * ny g * nz g) (aGrid2Obj_ind g') /\ gh g' = gh g /\ bbmin g' = bbmin g /\ nx g' = nx g /\ ny g' = ny g /\ nz g' = nz g.
Proof.
  intros v srt ini g SO. unfold PostProcess. assert (SE : exists objs, (if ini then Some (srt (aGrid2Obj g)) else insertion_sort_stl (aGrid2Obj g)) = Some objs /\ Permutation (aGrid2Obj g) objs /\ StronglySorted le_obj objs).
  { destruct ini; [exists (srt (aGrid2Obj g)); split; auto; apply SO|apply insertion_ok]. }
  destruct SE as (objs & -> & P & S). cbn [bind]. cbv zeta. set (ng := nx g * ny g * nz g). apply wp_iff. set (ind0 := vresize 0 (aGrid2Obj_ind g) (ng + 1)). assert (L0 : length ind0 = ng + 1) by apply vresize_length.
  apply wp_bind. apply wp_vset; [lia|]. apply wp_bind.
  apply (wp_forn _ (fun ig '(i0, ind) => length ind = ng + 1 /\ cut objs ig i0 /\ forall k, k <= ig -> cut objs k (nth k ind 0))); [lia| | |].
  - split; [rewrite (upd_length _ ind0); auto|]. assert (C : cut objs 0 0) by (repeat split; intros; lia). split; auto. intros k K. replace k with 0 by lia. rewrite nth_upd_same by lia. auto.
  - intros ig (i0, ind) (_ & Hi) (LI & C & V). destruct (advance_ok v objs ig (Datatypes.S (length objs)) i0 S ltac:(auto) ltac:(lia)) as (i & A & B & _). rewrite A. cbn [bind]. apply wp_bind. apply wp_vset; [lia|]. apply wp_some. split; [rewrite (upd_length _ ind); auto|]. split; auto.
    intros k K. destruct (Nat.eq_dec k (ig + 1)) as [->|]; [rewrite nth_upd_same by lia; rewrite Nat.add_1_r; auto|]. rewrite nth_upd_other by auto. apply V. lia.
  - intros (i0, ind) (LI & _ & V). apply wp_bind. apply (wp_forn _ (fun _ _ => True)); auto; [lia| |].
    + intros ig _ (_ & Hi) _. apply wp_bind. apply (wp_vget _ 0); [lia|]. apply wp_bind. apply (wp_vget _ 0); [lia|]. assert (C0 := V ig ltac:(lia)). assert (C1 := V (ig + 1) ltac:(lia)).
      apply (wp_forn _ (fun _ _ => True)); auto; [eapply cut_le; [|exact C0|exact C1]; lia|]. intros ii _ (I1 & I2) _. apply wp_bind. destruct C0 as (_ & _ & C0), C1 as (C1a & C1 & _). apply (wp_vget _ (0, 0)); [lia|]. apply wp_assertb; auto. apply Nat.eqb_eq. specialize (C0 ii ltac:(lia)). specialize (C1 ii ltac:(lia)). lia.
    + intros _ _. apply wp_some. cbn. repeat split; auto; apply V; auto.
Qed.
Lemma advance_none : forall objs ig fuel i0 i, advance None objs ig fuel i0 = Some i -> exists e, nth_error objs i = Some e /\ ig < fst e.
Proof.
  intros objs ig. induction fuel as [|fuel IH]; intros i0 i H; [discriminate|]. cbn [advance] in H. destruct (nth_error objs i0) as [e|] eqn:E; [|destruct (_ =? _); discriminate]. cbn [bind] in H.
  assert (L : i0 < length objs) by (apply nth_error_Some; rewrite E; discriminate). rewrite (proj2 (Nat.ltb_lt _ _) L), andb_true_r in H. destruct (Nat.leb_spec (fst e) ig); [eauto|]. injection H as <-. eauto.
Qed.
Lemma PostProcess_none : forall srt ini g, srt_ok srt -> 0 < nx g * ny g * nz g -> Forall (fun o => fst o < nx g * ny g * nz g) (aGrid2Obj g) -> PostProcess None srt ini g = None.
Proof.
  intros srt ini g SO N F. unfold PostProcess. assert (SE : exists objs, (if ini then Some (srt (aGrid2Obj g)) else insertion_sort_stl (aGrid2Obj g)) = Some objs /\ Permutation (aGrid2Obj g) objs).
  { destruct ini; [exists (srt (aGrid2Obj g)); split; auto; apply SO|destruct (insertion_ok (aGrid2Obj g)) as (l & A & B & _); eauto]. }
  destruct SE as (objs & -> & P). cbn [bind]. cbv zeta. set (ng := nx g * ny g * nz g) in *. destruct (vset _ 0 0) as [ind|]; [|reflexivity]. cbn [bind].
  destruct ng as [|m]; [lia|]. rewrite forn_S by lia. destruct (forn 0 m _ (0, ind)) as [[i0 ind']|]; [|reflexivity]. cbn [bind]. destruct (advance None objs m _ i0) as [i|] eqn:A; [|reflexivity]. exfalso.
  destruct (advance_none _ _ _ _ _ A) as (e & E & G). rewrite Forall_forall in F. specialize (F e (Permutation_in e (Permutation_sym P) (nth_error_In _ _ E))). lia.
Qed.
