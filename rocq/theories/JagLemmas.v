(** Statements of JagProps.v proved from the correctness lemmas. *)
From Coq Require Import List Arith Lia Permutation Sorted Bool.
Import ListNotations.
From Verif Require Import Imp JagModel JagSpec JagProofs JagProofs2 JagProofs3 JagProofs4.

Lemma C01_l : forall elsup_0 elem nel nno nv, mesh_ok elem nel nno nv ->
  exists ind arr, JArray_ElSuP_MeshElem elsup_0 elem nel nno nv = Some (ind, arr) /\
    jagged ind arr (map (fun p =>
       flat_map (fun e => repeat e (count_occ Nat.eq_dec (elem_verts elem nno e) p)) (seq 0 nel)) (seq 0 nv)).
Proof. exact ElSuP_correct. Qed.

Lemma C02_l : forall psup_0 elem nel nno nv, mesh_ok elem nel nno nv ->
  exists ind arr rows, JArray_PSuP_MeshElem psup_0 elem nel nno nv = Some (ind, arr) /\
    jagged ind arr rows /\ length rows = nv /\
    (forall p, p < nv -> NoDup (nth p rows []) /\
       forall q, In q (nth p rows []) <-> q <> p /\ share_elem elem nel nno p q) /\
    (forall p q, p < nv -> q < nv -> In q (nth p rows []) -> In p (nth q rows [])).
Proof.
  intros. destruct (PSuP_correct psup_0 elem nel nno nv H) as (ind & arr & E & HJ).
  exists ind, arr, (map (psup_row elem nno nel) (seq 0 nv)).
  split; auto. split; auto. split. rewrite map_length, seq_length; auto. split.
  - intros. rewrite nth_map_seq by auto. split. apply emit_NoDup. intros. apply psup_row_In.
  - intros p q Hp Hq. rewrite !nth_map_seq by auto. rewrite !psup_row_In. unfold share_elem.
    intros (Hn & e & H1 & H2 & H3). split. intro; apply Hn; auto. exists e; auto.
Qed.

Lemma C04_l : forall psup1_0 psup_ind psup rows,
  jagged psup_ind psup rows -> Forall (Forall (fun x => x < length rows)) rows -> Forall (@NoDup nat) rows ->
  exists ind arr rows', JArray_AddDiagonal psup1_0 psup_ind psup = Some (ind, arr) /\
    jagged ind arr rows' /\ length rows' = length rows /\
    (forall p, p < length rows ->
       (In p (nth p rows []) -> nth p rows' [] = nth p rows []) /\
       (~ In p (nth p rows []) -> nth p rows' [] = nth p rows [] ++ [p])) /\
    (forall psup2_0, JArray_AddDiagonal psup2_0 ind arr = Some (ind, arr)).
Proof.
  intros psup1_0 psup_ind psup rows HJ HR HN.
  destruct (AddDiagonal_correct psup1_0 psup_ind psup rows HJ HR HN) as (ind & arr & E & HJ').
  set (rows' := map (diag_row rows) (seq 0 (length rows))) in *.
  assert (HL' : length rows' = length rows) by (unfold rows'; rewrite map_length, seq_length; auto).
  assert (Hnth : forall p, p < length rows -> nth p rows' [] = diag_row rows p)
    by (intros; unfold rows'; rewrite nth_map_seq; auto).
  exists ind, arr, rows'.
  split; auto. split; auto. split; auto. split.
  - intros p Hp. rewrite Hnth by auto. unfold diag_row. destruct (in_dec Nat.eq_dec p (nth p rows [])); tauto.
  - intros psup2_0.
    assert (HNr : forall p, NoDup (nth p rows [])).
    { intros. destruct (le_lt_dec (length rows) p). rewrite nth_overflow by auto. constructor.
      rewrite Forall_forall in HN. apply HN. apply nth_In. auto. }
    destruct (AddDiagonal_correct psup2_0 ind arr rows') as (ind2 & arr2 & E2 & HJ2); auto.
    + apply Forall_forall. intros r Hr. apply in_map_iff in Hr. destruct Hr as (p & <- & Hp). apply in_seq in Hp.
      pose proof (rows_lt_nth _ _ p HR) as Hf. unfold diag_row. rewrite HL'.
      destruct (in_dec Nat.eq_dec p (nth p rows [])); auto. apply Forall_app. split; auto. constructor; auto. lia.
    + apply Forall_forall. intros r Hr. apply in_map_iff in Hr. destruct Hr as (p & <- & Hp).
      unfold diag_row. destruct (in_dec Nat.eq_dec p (nth p rows [])); auto.
      apply Permutation_NoDup with (p :: nth p rows []). apply Permutation_cons_append. constructor; auto.
    + rewrite E2. f_equal. f_equal.
      * destruct HJ2 as (_ & ->). destruct HJ' as (_ & ->). f_equal.
        -- assert (Er : map (diag_row rows') (seq 0 (length rows')) = rows').
           { apply (list_ext _ []). lens; auto. intros i Hi. lens. rewrite nth_map_seq by auto. simpl.
             unfold diag_row at 1. rewrite Hnth by lia. unfold diag_row.
             destruct (in_dec Nat.eq_dec i (nth i rows [])).
             - destruct (in_dec Nat.eq_dec i (nth i rows [])); tauto.
             - destruct (in_dec Nat.eq_dec i (nth i rows [] ++ [i])); auto.
               exfalso. apply n0. apply in_or_app. right; left; auto. }
           rewrite Er. auto.
        -- lens. auto.
      * destruct HJ2 as (-> & _). destruct HJ' as (-> & _).
        f_equal. apply (list_ext _ []). lens; auto. intros i Hi. lens. rewrite nth_map_seq by lia. simpl.
             unfold diag_row at 1. rewrite Hnth by lia. unfold diag_row.
             destruct (in_dec Nat.eq_dec i (nth i rows [])).
             ++ destruct (in_dec Nat.eq_dec i (nth i rows [])); tauto.
             ++ destruct (in_dec Nat.eq_dec i (nth i rows [] ++ [i])); auto.
               exfalso. apply n0. apply in_or_app. right; left; auto.
Qed.

Lemma C05_l : forall psup1_0 psup_ind psup rows,
  jagged psup_ind psup rows -> Forall (Forall (fun x => x < length rows)) rows ->
  exists ind arr rows', JArray_Extend psup1_0 psup_ind psup = Some (ind, arr) /\
    jagged ind arr rows' /\ length rows' = length rows /\
    forall p, p < length rows -> NoDup (nth p rows' []) /\
      forall k, In k (nth p rows' []) <-> k <> p /\ exists j, In j (nth p rows []) /\ In k (nth j rows []).
Proof.
  intros psup1_0 psup_ind psup rows HJ HR.
  destruct (Extend_correct psup1_0 psup_ind psup rows HJ HR) as (ind & arr & E & HJ').
  exists ind, arr, (map (extend_row rows) (seq 0 (length rows))).
  split; auto. split; auto. split. lens; auto.
  intros p Hp. rewrite nth_map_seq by auto. split. apply emit_NoDup. intros. apply extend_row_In.
Qed.

Lemma C06_l : forall edge0 psup_ind psup rows, rows <> [] -> jagged psup_ind psup rows ->
  exists ind arr, JArrayEdgeUnidir_PointSurPoint [] edge0 psup_ind psup = Some (ind, arr) /\
    jagged ind arr (map (fun p => filter (fun q => p <? q) (nth p rows [])) (seq 0 (length rows))).
Proof. exact EdgeUnidir_correct. Qed.
