(** Hexahedra: topology. *)
From Coq Require Import List Arith Lia Bool Sorted Permutation.
Import ListNotations.
From Verif Require Import Imp JagModel JagSpec JagProofs JagProps TopoModel TopoSpec TopoProps SubdModel SubdSpec SubdProofs.

Lemma edge_setup : forall ind0 elem nel nno nv etab (le : nat -> nat -> Prop), mesh_ok elem nel nno nv -> edge_table_lists etab nno le -> (forall a b, le a b -> a < nno /\ le b a) ->
  exists eind elsup ind rows M,
    JArray_ElSuP_MeshElem [] elem nel nno nv = Some (eind, elsup) /\
    JArrayEdge_MeshElem ind0 [] elem nno etab eind elsup false = Some (ind, map snd (elist rows)) /\
    jagged ind (map snd (elist rows)) rows /\ length rows = nv /\
    lists_edges (elist rows) (mesh_edge elem nel nno le) /\ numbers_edges (elist rows) nv M /\
    (forall a b, mesh_edge elem nel nno le a b -> a <> b -> exists k, edge_of a b ind (map snd (elist rows)) = Some k /\ M a b = k + nv /\ k < length (map snd (elist rows))).
Proof.
  intros ind0 elem nq nno nv etab le MO TQ SL.
  destruct (C08_JArrayEdge ind0 elem nq nno nv etab le false MO TQ) as (eind & elsup & ind & arr & rows & EP & EE & J & RL & RP).
  assert (LE : lists_edges (elist rows) (mesh_edge elem nq nno le)).
  { split.
    - apply elist_nodup. intros p P. rewrite RL in P. apply ss_nodup. apply (RP p P).
    - intros a b. rewrite elist_in, RL. split.
      + intros (A & B). apply (RP a A) in B. destruct B as ([|] & B); [discriminate|auto].
      + intros (A & B). assert (AL : a < nv). { destruct B as (e & x & y & EL & XY & E1 & _). apply SL in XY. destruct XY as (X & _). subst a. destruct MO as (L & F). rewrite Forall_forall in F. apply F. apply nth_In. rewrite L. nia. } split; auto. apply (RP a AL). auto. }
  assert (AR : arr = map snd (elist rows)) by (rewrite map_snd_elist; apply J).
  set (M := fun a b => match findEdge a b ind arr with Some (Some i) => nv + i | _ => 0 end).
  assert (NM : numbers_edges (elist rows) nv M).
  { intros i a b N. assert (IN : In (a, b) (elist rows)) by (eapply nth_error_In; eauto). assert (AB := proj1 (proj1 (proj2 LE a b) IN)). destruct (findEdge_ok ind arr rows a b J AB IN) as (k & K1 & K2 & K3). unfold M. rewrite K1, K2. assert (k = i). { apply (proj1 (NoDup_nth_error (elist rows)) (proj1 LE)); [apply nth_error_Some; congruence|congruence]. } subst. auto. }
  exists eind, elsup, ind, rows, M. rewrite <- AR. repeat (split; [assumption|]).
  intros a b ME AB. assert (SY : mesh_edge elem nq nno le b a). { destruct ME as (e & x & y & EL & XY & E1 & E2). exists e, y, x. apply SL in XY. intuition auto. }
  unfold edge_of, M. destruct (Nat.lt_ge_cases a b) as [C|C].
  - destruct (findEdge_ok ind arr rows a b J C) as (k & K1 & K2 & K3); [apply (proj2 LE); auto|]. rewrite K1. cbn [bind]. exists k. split; [auto|split; [lia|]]. rewrite AR, map_length. apply nth_error_Some. congruence.
  - destruct (findEdge_ok ind arr rows b a J) as (k & K1 & K2 & K3); [lia|apply (proj2 LE); split; [lia|auto]|]. rewrite K2. cbn [bind]. exists k. split; [auto|split; [lia|]]. rewrite AR, map_length. apply nth_error_Some. congruence.
Qed.

Lemma verts8 : forall elem nel nv e, mesh_ok elem nel 8 nv -> e < nel -> elem_verts elem 8 e = [nth (e * 8 + 0) elem 0; nth (e * 8 + 1) elem 0; nth (e * 8 + 2) elem 0; nth (e * 8 + 3) elem 0; nth (e * 8 + 4) elem 0; nth (e * 8 + 5) elem 0; nth (e * 8 + 6) elem 0; nth (e * 8 + 7) elem 0].
Proof.
  intros elem nel nv e (L & _) H. unfold elem_verts. set (b := e * 8). assert (b + 8 <= length elem) by (unfold b; lia). clearbody b.
  rewrite (skipn_nth _ 0) by lia. rewrite (skipn_nth _ 0 _ (S b)) by lia. rewrite (skipn_nth _ 0 _ (S (S b))) by lia. rewrite (skipn_nth _ 0 _ (S (S (S b)))) by lia.
  rewrite (skipn_nth _ 0 _ (S (S (S (S b))))) by lia. rewrite (skipn_nth _ 0 _ (S (S (S (S (S b)))))) by lia. rewrite (skipn_nth _ 0 _ (S (S (S (S (S (S b))))))) by lia. rewrite (skipn_nth _ 0 _ (S (S (S (S (S (S (S b)))))))) by lia.
  cbn [firstn]. replace (b + 0) with b by lia. replace (b + 1) with (S b) by lia. replace (b + 2) with (S (S b)) by lia. replace (b + 3) with (S (S (S b))) by lia. replace (b + 4) with (S (S (S (S b)))) by lia. replace (b + 5) with (S (S (S (S (S b))))) by lia. replace (b + 6) with (S (S (S (S (S (S b)))))) by lia. replace (b + 7) with (S (S (S (S (S (S (S b))))))) by lia. reflexivity.
Qed.
Notation HF := noelElemFace_Hex.
Lemma hex_table_ok : face_table_ok 8 HF.
Proof. exists 4. split; [lia|]. split; [discriminate|]. repeat constructor. Qed.
Lemma hex_face_ok : forall f, f < 6 -> exists a b c d, nth f HF [] = [a; b; c; d] /\ NoDup [a; b; c; d] /\ a < 8 /\ b < 8 /\ c < 8 /\ d < 8.
Proof.
  intros f F. do 6 (destruct f as [|f]; [cbn [nth noelElemFace_Hex]; do 4 eexists; split; [reflexivity|]; split; [repeat (constructor; [cbn [In]; lia|]); constructor|lia]|]). lia.
Qed.
Lemma hex_face_inj : forall f g, f < 6 -> g < 6 -> (forall k, k < 8 -> (In k (nth f HF []) <-> In k (nth g HF []))) -> f = g.
Proof.
  intros f g F G H. assert (E : map (fun k => existsb (Nat.eqb k) (nth f HF [])) (seq 0 8) = map (fun k => existsb (Nat.eqb k) (nth g HF [])) (seq 0 8)).
  { apply map_ext_in. intros k K. apply in_seq in K. assert (HK := H k (proj2 K)). apply eq_true_iff_eq. rewrite !existsb_exists. split; intros (x & I & X); apply Nat.eqb_eq in X; subst x; exists k; rewrite Nat.eqb_refl; tauto. }
  clear H. do 6 (destruct f as [|f]; [do 6 (destruct g as [|g]; [try reflexivity; discriminate E|]); lia|]). lia.
Qed.
Section Hex.
Variables (elem : list nat) (nh nv : nat).
Hypothesis MO : mesh_ok elem nh 8 nv.
Hypothesis ND : forall e, e < nh -> NoDup (elem_verts elem 8 e).
Let fv e f := face_verts elem 8 HF e f.
Lemma loc_inj : forall e i j, e < nh -> i < 8 -> j < 8 -> nth (e * 8 + i) elem 0 = nth (e * 8 + j) elem 0 -> i = j.
Proof.
  intros e i j E I J Q. assert (N := ND e E). rewrite (verts8 _ _ _ _ MO E) in N. assert (L : forall k, k < 8 -> nth (e * 8 + k) elem 0 = nth k [nth (e * 8 + 0) elem 0; nth (e * 8 + 1) elem 0; nth (e * 8 + 2) elem 0; nth (e * 8 + 3) elem 0; nth (e * 8 + 4) elem 0; nth (e * 8 + 5) elem 0; nth (e * 8 + 6) elem 0; nth (e * 8 + 7) elem 0] 0).
  { intros k K. do 8 (destruct k as [|k]; [reflexivity|]). lia. }
  apply (proj1 (NoDup_nth _ 0) N); [cbn [length]; lia|cbn [length]; lia|]. rewrite <- !L; auto.
Qed.
Lemma fv_in : forall e f k, e < nh -> f < 6 -> k < 8 -> (In (nth (e * 8 + k) elem 0) (fv e f) <-> In k (nth f HF [])).
Proof.
  intros e f k E F K. unfold fv, face_verts. rewrite in_map_iff. split.
  - intros (x & X & I). assert (x < 8). { destruct (hex_face_ok f F) as (a & b & c & d & Q & _ & R). rewrite Q in I. cbn [In] in I. lia. } apply loc_inj in X; auto. subst. auto.
  - intros I. exists k. auto.
Qed.
Lemma map_nodup : forall A B (f : A -> B) l, NoDup l -> (forall x y, In x l -> In y l -> f x = f y -> x = y) -> NoDup (map f l).
Proof.
  intros A B f. induction l as [|a l IH]; intros N H; cbn [map]; constructor; inversion N as [|? ? N1 N2]; subst.
  - intros I. apply in_map_iff in I. destruct I as (y & E & Y). apply N1. rewrite <- (H y a); auto; [right; auto|left; auto].
  - apply IH; auto. intros x y X Y. apply H; right; auto.
Qed.
Lemma fv_nodup : faces_nodup elem nh 8 HF.
Proof.
  intros e f E F. change (length HF) with 6 in F. unfold face_verts. destruct (hex_face_ok f F) as (a & b & c & d & Q & N & R). rewrite Q. apply map_nodup; auto.
  assert (B : forall x, In x [a; b; c; d] -> x < 8) by (cbn [In]; intros; lia). intros x y X Y. apply loc_inj; auto.
Qed.
Lemma fv_lt : forall e f v, e < nh -> f < 6 -> In v (fv e f) -> v < nv.
Proof.
  intros e f v E F I. unfold fv, face_verts in I. apply in_map_iff in I. destruct I as (k & <- & K). destruct (hex_face_ok f F) as (a & b & c & d & Q & _ & R). rewrite Q in K. cbn [In] in K. destruct MO as (L & G). rewrite Forall_forall in G. apply G. apply nth_In. lia.
Qed.
Lemma fv_len : forall e f, f < 6 -> length (fv e f) = 4.
Proof. intros e f F. unfold fv, face_verts. rewrite map_length. destruct (hex_face_ok f F) as (a & b & c & d & -> & _). auto. Qed.
Variable adj : list (option nat).
Hypothesis TS : two_sided elem nh 8 HF.
Hypothesis AL : length adj = nh * 6.
Hypothesis A1 : forall e f, e < nh -> f < 6 ->
       match nth (e * 6 + f) adj None with
       | Some j => j < nh /\ j <> e /\ exists g, g < 6 /\ same_face elem 8 HF e f j g
       | None => forall j g, j < nh -> g < 6 -> j <> e -> ~ same_face elem 8 HF e f j g
       end.
Hypothesis A2 : forall e f j, e < nh -> f < 6 -> nth (e * 6 + f) adj None = Some j ->
       exists g, g < 6 /\ same_face elem 8 HF e f j g /\ nth (j * 6 + g) adj None = Some e.
Definition kept (ef : nat * nat) : bool := negb (match nth (fst ef * 6 + snd ef) adj None with Some j => j <? fst ef | None => false end).
Definition KF : list (nat * nat) := filter kept (list_prod (seq 0 nh) (seq 0 6)).
Definition Qs : list (list nat) := map (fun ef => fv (fst ef) (snd ef)) KF.
Lemma KF_in : forall e f, In (e, f) KF <-> e < nh /\ f < 6 /\ kept (e, f) = true.
Proof. intros e f. unfold KF. rewrite filter_In, in_prod_iff, !in_seq. split; [intros ((A & B) & C); split; [lia|split; [lia|auto]]|intros (A & B & C); split; [split; lia|auto]]. Qed.
Lemma prod_nodup : forall A B (l : list A) (m : list B), NoDup l -> NoDup m -> NoDup (list_prod l m).
Proof.
  intros A B l m N1 N2. induction N1 as [|a l NA N1 IH]; cbn [list_prod]; [constructor|].
  assert (G : forall r, NoDup r -> NoDup (map (fun y => (a, y)) r ++ list_prod l m)).
  { induction r as [|y r IHr]; intros NR; cbn [map app]; auto. inversion NR as [|? ? R1 R2]; subst. constructor; auto. intros I. apply in_app_or in I. destruct I as [I|I]; [apply in_map_iff in I; destruct I as (z & E & Z); injection E as ->; auto|]. apply in_prod_iff in I. tauto. }
  auto.
Qed.
Lemma KF_nodup : NoDup KF.
Proof. apply NoDup_filter. apply prod_nodup; apply seq_NoDup. Qed.
Lemma same_sym : forall e f j g, same_face elem 8 HF e f j g -> same_face elem 8 HF j g e f.
Proof. intros e f j g H v. symmetry. apply H. Qed.
Lemma KF_distinct : forall e f j g, In (e, f) KF -> In (j, g) KF -> same_face elem 8 HF e f j g -> (e, f) = (j, g).
Proof.
  assert (G : forall e f j g, In (e, f) KF -> In (j, g) KF -> same_face elem 8 HF e f j g -> e < j -> False).
  { intros e f j g I1 I2 S L. apply KF_in in I1, I2. destruct I1 as (E & F & _), I2 as (J & G & K). unfold kept in K. cbn [fst snd] in K. assert (T := A1 j g J G). destruct (nth (j * 6 + g) adj None) as [k|].
    - destruct T as (T1 & T2 & h & H & SH). assert (k = e). { apply (TS j g k h e f); auto; [lia|apply same_sym; auto]. } subst k. rewrite (proj2 (Nat.ltb_lt e j)) in K by auto. discriminate.
    - apply (T e f); auto; [lia|apply same_sym; auto]. }
  intros e f j g I1 I2 S. destruct (lt_eq_lt_dec e j) as [[C|C]|C].
  - destruct (G e f j g); auto.
  - subst j. f_equal. apply KF_in in I1, I2. apply hex_face_inj; try lia. intros k K. rewrite <- !(fv_in e) by lia. apply S.
  - destruct (G j g e f); auto. apply same_sym; auto.
Qed.
Lemma KF_cover : forall e f, e < nh -> f < 6 -> exists j g, In (j, g) KF /\ same_face elem 8 HF e f j g.
Proof.
  intros e f E F. destruct (kept (e, f)) eqn:K; [exists e, f; split; [apply KF_in; auto|intros v; tauto]|].
  unfold kept in K. cbn [fst snd] in K. apply negb_false_iff in K. destruct (nth (e * 6 + f) adj None) as [j|] eqn:N; [|discriminate]. apply Nat.ltb_lt in K. destruct (A2 e f j E F N) as (g & G & S & N2). assert (T := A1 e f E F). rewrite N in T. exists j, g. split; auto. apply KF_in. split; [tauto|]. split; auto. unfold kept. cbn [fst snd]. rewrite N2. rewrite (proj2 (Nat.ltb_ge e j)) by lia. auto.
Qed.
Lemma Q_len : length (concat Qs) = length Qs * 4.
Proof.
  unfold Qs. assert (G : forall l, (forall e f, In (e, f) l -> f < 6) -> length (concat (map (fun ef => fv (fst ef) (snd ef)) l)) = length (map (fun ef => fv (fst ef) (snd ef)) l) * 4).
  { induction l as [|[e f] l IH]; intros H; auto. cbn [map concat length fst snd]. rewrite app_length, IH, fv_len; [lia|apply (H e f); left; auto|intros a b I; apply (H a b); right; auto]. }
  apply G. intros e f I. apply KF_in in I. tauto.
Qed.
Lemma Q_mesh : mesh_ok (concat Qs) (length Qs) 4 nv.
Proof.
  split; [apply Q_len|]. apply Forall_forall. intros v I. apply in_concat in I. destruct I as (q & Q & I). unfold Qs in Q. apply in_map_iff in Q. destruct Q as ([e f] & <- & K). apply KF_in in K. cbn [fst snd] in I. apply (fv_lt e f); tauto.
Qed.
Lemma Q_offs : forall k, k <= length Qs -> offs Qs k = k * 4.
Proof.
  induction k as [|k IH]; intros K; [apply offs_0|]. rewrite offs_S by lia. rewrite IH by lia. assert (length (nth k Qs []) = 4); [|lia].
  assert (T := nth_In Qs [] K). unfold Qs in T at 2. apply in_map_iff in T. destruct T as ([e f] & T & I). apply KF_in in I. rewrite <- T. apply fv_len. cbn [snd]. tauto.
Qed.
Lemma Q_nth : forall k, k < length Qs -> exists e f, nth k Qs [] = fv e f /\ In (e, f) KF.
Proof. intros k K. assert (T := nth_In Qs [] K). unfold Qs in T at 2. apply in_map_iff in T. destruct T as ([e f] & T & I). exists e, f. auto. Qed.
Lemma Q_verts : forall k, k < length Qs -> elem_verts (concat Qs) 4 k = nth k Qs [].
Proof.
  intros k K. destruct (Q_nth k K) as (e & f & Q & I). apply KF_in in I. assert (L4 : length (nth k Qs []) = 4) by (rewrite Q; apply fv_len; tauto).
  apply (list_ext _ 0); [rewrite (verts4 _ _ _ _ Q_mesh K); auto|]. rewrite (verts4 _ _ _ _ Q_mesh K). cbn [length]. intros i IL.
  assert (G : nth i (nth k Qs []) 0 = nth (k * 4 + i) (concat Qs) 0). { rewrite <- Q_offs by lia. symmetry. apply concat_nth; lia. }
  rewrite G. do 4 (destruct i as [|i]; [reflexivity|]). lia.
Qed.
Lemma incl_same : forall (l m : list nat), NoDup l -> length m <= length l -> (forall x, In x l -> In x m) -> forall x, In x l <-> In x m.
Proof. intros l m N L I x. split; [apply I|]. apply NoDup_length_incl; auto. Qed.
Lemma face_of_ok : forall e f a b c d qind qelsup, e < nh -> f < 6 -> fv e f = [a; b; c; d] ->
  JArray_ElSuP_MeshElem [] (concat Qs) (length Qs) 4 nv = Some (qind, qelsup) ->
  exists i, face_of a b c d (concat Qs) qind qelsup = Some i /\ i < length Qs /\ (forall v, In v (nth i Qs []) <-> In v (fv e f)).
Proof.
  intros e f a b c d qind qelsup EL FL FV EP. destruct (C01_ElSuP_exact [] (concat Qs) (length Qs) 4 nv Q_mesh) as (i1 & a1 & E1 & J). rewrite EP in E1. injection E1 as <- <-.
  match type of J with jagged _ _ ?r => set (rows := r) in * end.
  assert (RL : length rows = nv) by (unfold rows; rewrite map_length, seq_length; auto).
  assert (AN : a < nv) by (apply (fv_lt e f); auto; rewrite FV; left; auto).
  assert (RI : forall q, In q (nth a rows []) <-> q < length Qs /\ In a (nth q Qs [])).
  { intros q. unfold rows. rewrite nth_map_seq by auto. rewrite in_flat_map. split.
    - intros (x & X & R). apply repeat_spec in R as R2. subst x. apply in_seq in X. split; [lia|]. rewrite <- Q_verts by lia. apply (count_occ_In Nat.eq_dec). destruct (count_occ Nat.eq_dec (elem_verts (concat Qs) 4 q) (0 + a)) eqn:C; [destruct R|cbn [Nat.add] in C; lia].
    - intros (Q & I). exists q. split; [apply in_seq; lia|]. cbn [Nat.add]. rewrite <- Q_verts in I by lia. apply (count_occ_In Nat.eq_dec) in I. destruct (count_occ Nat.eq_dec (elem_verts (concat Qs) 4 q) a); [lia|left; auto]. }
  set (row := nth a rows []) in *.
  unfold face_of, findFace. rewrite (jag_vget1 _ _ _ _ a J), (jag_vget1 _ _ _ _ (a + 1) J) by lia.
  assert (QI : length qind = nv + 1). { apply jagged_iff in J. destruct J as (_ & EO). change (qind = offsets rows) in EO. rewrite EO, offsets_length. lia. }
  rewrite QI. rewrite (proj2 (Nat.leb_le 1 (nv + 1))) by lia. cbn [assertb bind]. rewrite (proj2 (Nat.leb_gt (nv + 1 - 1) a)) by lia. rewrite Nat.add_1_r. assert (OS := offs_S _ rows a). rewrite RL in OS. specialize (OS AN). fold row in OS. rewrite (proj1 J).
  set (P := fun r : option nat => exists i, r = Some i /\ i < length Qs /\ (forall v, In v (nth i Qs []) <-> In v (fv e f))).
  match goal with |- exists i, bind ?l _ = _ /\ _ => assert (W : wp l P) end.
  { apply wp_forb with (I := fun i (r : option nat) => r = None /\ forall j, offs rows a + j < i -> j < length row -> ~ (forall v, In v (fv e f) -> In v (nth (nth j row 0) Qs []))).
    - lia.
    - split; auto. intros j K. lia.
    - intros i r II (-> & H). replace i with (offs rows a + (i - offs rows a)) by lia. set (j := i - offs rows a). rewrite (jag_nth1 _ 0) by (fold row; lia). cbn [bind]. fold row.
      assert (JL : j < length row) by lia. assert (RJ := proj1 (RI _) (nth_In row 0 JL)). set (q := nth j row 0) in *. destruct RJ as (QL & QA).
      assert (QK := Q_len). rewrite !(vget_nth _ 0) by lia. cbn [bind].
      assert (V := verts4 _ _ _ _ Q_mesh QL). rewrite Q_verts in V by auto. set (q0 := nth (q * 4 + 0) (concat Qs) 0) in *. set (q1 := nth (q * 4 + 1) (concat Qs) 0) in *. set (q2 := nth (q * 4 + 2) (concat Qs) 0) in *. set (q3 := nth (q * 4 + 3) (concat Qs) 0) in *.
      assert (IS : forall p, ((p =? q0) || (p =? q1) || (p =? q2) || (p =? q3)) = true <-> In p (nth q Qs [])). { intros p. rewrite V. cbn [In]. rewrite !orb_true_iff, !Nat.eqb_eq. intuition auto. }
      set (isin := fun p => (p =? q0) || (p =? q1) || (p =? q2) || (p =? q3)) in *. change (forall p, isin p = true <-> In p (nth q Qs [])) in IS.
      change ((a =? q0) || (a =? q1) || (a =? q2) || (a =? q3)) with (isin a). change ((b =? q0) || (b =? q1) || (b =? q2) || (b =? q3)) with (isin b). change ((c =? q0) || (c =? q1) || (c =? q2) || (c =? q3)) with (isin c). change ((d =? q0) || (d =? q1) || (d =? q2) || (d =? q3)) with (isin d).
      assert (NO : forall p, In p (fv e f) -> isin p = false -> wp (Some (@None nat, false)) (fun r => if snd r then P (fst r) else fst r = None /\ forall k, offs rows a + k < S (offs rows a + j) -> k < length row -> ~ (forall v, In v (fv e f) -> In v (nth (nth k row 0) Qs [])))).
      { intros p PI PF. apply wp_some. cbn [fst snd]. split; auto. intros k K KL. destruct (Nat.eq_dec k j) as [->|]; [|apply H; lia]. intros C. apply C in PI. fold q in PI. apply IS in PI. congruence. }
      assert (IA : In a (fv e f)) by (rewrite FV; cbn; auto). assert (IB : In b (fv e f)) by (rewrite FV; cbn; auto). assert (IC : In c (fv e f)) by (rewrite FV; cbn; auto). assert (ID : In d (fv e f)) by (rewrite FV; cbn; auto 6).
      destruct (isin a) eqn:EA; cbn [negb]; [|apply (NO a); auto]. destruct (isin b) eqn:EB; cbn [negb]; [|apply (NO b); auto]. destruct (isin c) eqn:EC; cbn [negb]; [|apply (NO c); auto]. destruct (isin d) eqn:ED; cbn [negb]; [|apply (NO d); auto].
      apply wp_some. cbn [fst snd]. exists q. split; auto. split; auto. intros v. symmetry. revert v. apply incl_same.
      + apply fv_nodup; auto.
      + rewrite fv_len, V by auto. auto.
      + rewrite FV. cbn [In]. intros x X. apply IS. destruct X as [X|[X|[X|[X|X]]]]; try (rewrite <- X; auto); destruct X.
    - intros r (-> & H). exfalso. destruct (KF_cover e f EL FL) as (j & g & I & S). assert (IQ : In (fv j g) Qs) by (apply (in_map (fun ef => fv (fst ef) (snd ef)) KF (j, g)); auto). apply (In_nth _ _ []) in IQ. destruct IQ as (q & QL & EQ).
      assert (IR : In q row). { apply RI. split; auto. rewrite EQ. apply S. unfold fv in FV. rewrite FV. left; auto. }
      apply (In_nth _ _ 0) in IR. destruct IR as (k & KL & EK). apply (H k); [lia|auto|]. rewrite EK, EQ. intros v. apply S. }
  apply wp_ex in W. destruct W as (r & ER & i & -> & IL & IV). rewrite ER. cbn [bind]. rewrite Q_len, Nat.div_mul by lia. rewrite (proj2 (Nat.ltb_lt i (length Qs))) by auto. cbn [assertb bind]. exists i. auto.
Qed.
Lemma Q_distinct : forall i j, i < length Qs -> j < length Qs -> (forall v, In v (nth i Qs []) <-> In v (nth j Qs [])) -> i = j.
Proof.
  intros i j I J H. unfold Qs in I, J. rewrite map_length in I, J. set (g := fun ef => fv (fst ef) (snd ef)).
  assert (G : forall k, k < length KF -> nth k Qs [] = g (nth k KF (0, 0))). { intros k K. unfold Qs. rewrite (nth_indep _ [] (g (0, 0))) by (rewrite map_length; auto). apply (map_nth g). }
  rewrite !G in H by auto. apply (proj1 (NoDup_nth KF (0, 0)) KF_nodup); auto. assert (T1 := nth_In KF (0, 0) I). assert (T2 := nth_In KF (0, 0) J). destruct (nth i KF (0, 0)) as [e f]. destruct (nth j KF (0, 0)) as [e' f']. apply KF_distinct; auto.
Qed.
Lemma quads_loop : forall s0, forn 0 nh (fun ih aQuadHex0 =>
    forn 0 6 (fun ifh aQuadHex0 =>
      jh0 <- vget adj (ih * 6 + ifh) ;;
      if match jh0 with Some j => j <? ih | None => false end then Some aQuadHex0 else
      forn 0 4 (fun inofa aQuadHex0 =>
        fc <- vget HF ifh ;;
        inoel0 <- vget fc inofa ;;
        igp0 <- vget elem (ih * 8 + inoel0) ;;
        Some (aQuadHex0 ++ [igp0])) aQuadHex0) aQuadHex0) s0 = Some (s0 ++ concat Qs).
Proof.
  intros s0. change nh with (0 + nh) at 1. rewrite (forn_app _ nh 0 _ (fun e => flat_map (fun f => if kept (e, f) then fv e f else []) (seq 0 6))).
  - f_equal. f_equal. unfold Qs, KF. generalize (seq 0 nh). induction l as [|e l IH]; auto. cbn [flat_map list_prod]. rewrite filter_app, map_app, concat_app, <- IH. f_equal. generalize (seq 0 6). induction l0 as [|f m IHm]; auto. cbn [flat_map map filter]. destruct (kept (e, f)); cbn [map concat fst snd]; rewrite IHm; auto.
  - intros e s (_ & E). cbn [Nat.add] in E. apply (forn_app _ 6 0). intros f t (_ & F). cbn [Nat.add] in F. rewrite (vget_nth _ None) by lia. cbn [bind]. unfold kept. cbn [fst snd]. destruct (match nth (e * 6 + f) adj None with Some j => j <? e | None => false end); cbn [negb]; [rewrite app_nil_r; auto|].
    rewrite (forn_app _ 4 0 _ (fun i => [nth (e * 8 + nth i (nth f HF []) 0) elem 0])).
    + f_equal. f_equal. unfold fv, face_verts. destruct (hex_face_ok f F) as (a & b & c & d & -> & _). reflexivity.
    + intros i u (_ & I). cbn [Nat.add] in I. rewrite (vget_nth _ []) by (cbn; lia). cbn [bind]. destruct (hex_face_ok f F) as (a & b & c & d & -> & _ & B). rewrite (vget_nth _ 0) by (cbn [length]; lia). cbn [bind]. assert (nth i [a; b; c; d] 0 < 8). { do 4 (destruct i as [|i]; [cbn [nth]; lia|]). lia. } rewrite (vget_nth _ 0) by (destruct MO; lia). reflexivity.
Qed.
End Hex.
Lemma hex_topo : forall ind0 elem nh nv, mesh_ok elem nh 8 nv -> (forall e, e < nh -> NoDup (elem_verts elem 8 e)) -> two_sided elem nh 8 HF ->
  exists ind E M Q Fn, SubdivTopo_MeshHex ind0 [] elem nh nv =
      Some (flat_map (fun k => hex_children (elem_verts elem 8 k) M (fun f => nv + length E + Fn k f) (nv + length E + length Q + k)) (seq 0 nh), ind, map snd E, concat Q) /\
    lists_edges E (mesh_edge elem nh 8 hex_edge) /\ numbers_edges E nv M /\
    (forall q, In q Q -> exists e f, e < nh /\ f < 6 /\ q = face_verts elem 8 HF e f) /\
    (forall i j, i < length Q -> j < length Q -> (forall v, In v (nth i Q []) <-> In v (nth j Q [])) -> i = j) /\
    (forall e f, e < nh -> f < 6 -> Fn e f < length Q /\ forall v, In v (nth (Fn e f) Q []) <-> In v (face_verts elem 8 HF e f)) /\
    (exists rows, jagged ind (map snd E) rows /\ E = elist rows /\ length rows = nv).
Proof.
  intros ind0 elem nh nv MO ND TS. destruct C08_edge_tables as (_ & _ & TH).
  destruct (edge_setup ind0 elem nh 8 nv noelElemEdge_Hex hex_edge MO TH) as (eind & elsup & ind & rows & M & EP & EE & J & RL & LE & NM & FE).
  { intros a b (A & B & H). split; auto. split; auto. split; auto. destruct (hex_corner a) as [[x y] z], (hex_corner b) as [[x' y'] z']. intuition auto. }
  destruct (C07_ElSuEl elem nh 8 nv HF MO hex_table_ok (fv_nodup elem nh nv MO ND)) as (adj & EA & AL & A1 & A2). change (length HF) with 6 in *. specialize (A2 TS).
  unfold ElSuEl_MeshElem in EA. rewrite EP in EA. cbn [bind] in EA. change (vget HF 0) with (Some [0; 4; 7; 3]) in EA. cbn [option_map bind length] in EA. change (length HF) with 6 in EA.
  destruct (ElSuEl_core elem nh 8 eind elsup 6 4 HF) as [adj'|] eqn:EC; [|discriminate EA]. cbn [bind] in EA. destruct (length adj' =? nh * 6); [|discriminate EA]. cbn [assertb bind] in EA. injection EA as ->.
  set (Q := Qs elem nh adj). set (E := elist rows) in *.
  destruct (C01_ElSuP_exact [] (concat Q) (length Q) 4 nv (Q_mesh elem nh nv MO adj AL)) as (qind & qelsup & QP & _).
  set (loc := fun e k => nth (e * 8 + k) elem 0).
  set (face := fun e f => let l := face_verts elem 8 HF e f in face_of (nth 0 l 0) (nth 1 l 0) (nth 2 l 0) (nth 3 l 0) (concat Q) qind qelsup).
  set (Fn := fun e f => match face e f with Some i => i | None => 0 end).
  assert (FO : forall e f, e < nh -> f < 6 -> face e f = Some (Fn e f) /\ Fn e f < length Q /\ forall v, In v (nth (Fn e f) Q []) <-> In v (face_verts elem 8 HF e f)).
  { intros e f EL FL. assert (L4 : length (face_verts elem 8 HF e f) = 4) by (apply fv_len; auto). destruct (face_verts elem 8 HF e f) as [|a [|b [|c [|d [|? ?]]]]] eqn:FV; try discriminate L4.
    assert (FOK : exists i, face_of a b c d (concat Q) qind qelsup = Some i /\ i < length Q /\ (forall v, In v (nth i Q []) <-> In v (face_verts elem 8 HF e f))) by (eapply face_of_ok; eauto). destruct FOK as (i & E1 & I & S). unfold Fn, face. rewrite FV. cbn [nth]. fold Q in E1. rewrite E1. split; auto. split; [exact I|]. intros v. rewrite S, FV. tauto. }
  exists ind, E, M, Q, Fn. split; [|split; [exact LE|split; [exact NM|split; [|split; [|split]]]]].
  - unfold SubdivTopo_MeshHex. rewrite EP. cbn [bind]. rewrite EE. cbn [bind]. rewrite EC. cbn [bind]. erewrite quads_loop by eauto. cbn [bind app]. fold Q. assert (QL : length (concat Q) = length Q * 4) by (eapply Q_len; eauto). rewrite QL. rewrite Nat.div_mul by lia. rewrite QP. cbn [bind].
    match goal with |- bind (forn 0 nh ?bd []) _ = _ => assert (QQ : forn 0 nh bd [] = Some (flat_map (fun k => hex_children (elem_verts elem 8 k) M (fun f => nv + length E + Fn k f) (nv + length E + length Q + k)) (seq 0 nh))) end; [|rewrite QQ; reflexivity].
    change nh with (0 + nh) at 1. rewrite (forn_app _ nh 0 _ (fun k => hex_children (elem_verts elem 8 k) M (fun f => nv + length E + Fn k f) (nv + length E + length Q + k))); [reflexivity|].
    intros k s (_ & K). cbn [Nat.add] in K. rewrite (verts8 _ _ _ _ MO K).
    assert (L := proj1 MO). rewrite !(vget_nth _ 0) by lia. cbn [bind].
    assert (ED : forall x y, hex_edge x y -> (e <- edge_of (loc k x) (loc k y) ind (map snd E) ;; assertb (e <? length (map snd E)) ;;; Some (e + nv)) = Some (M (loc k x) (loc k y))).
    { intros x y XY. destruct (FE (loc k x) (loc k y)) as (i & I1 & I2 & I3).
      - exists k, x, y. auto.
      - intros C. destruct XY as (X & Y & XY). apply (loc_inj elem nh nv MO ND) in C; auto. subst y. destruct (hex_corner x) as [[? ?] ?]. intuition congruence.
      - rewrite I1. cbn [bind]. rewrite (proj2 (Nat.ltb_lt _ _) I3). cbn [assertb bind]. rewrite I2. reflexivity. }
    unfold loc in ED. clear FE.
    rewrite (ED 0 1) by (unfold hex_edge; cbn; lia). rewrite (ED 1 2) by (unfold hex_edge; cbn; lia). rewrite (ED 2 3) by (unfold hex_edge; cbn; lia). rewrite (ED 3 0) by (unfold hex_edge; cbn; lia).
    rewrite (ED 4 5) by (unfold hex_edge; cbn; lia). rewrite (ED 5 6) by (unfold hex_edge; cbn; lia). rewrite (ED 6 7) by (unfold hex_edge; cbn; lia). rewrite (ED 7 4) by (unfold hex_edge; cbn; lia).
    rewrite (ED 0 4) by (unfold hex_edge; cbn; lia). rewrite (ED 1 5) by (unfold hex_edge; cbn; lia). rewrite (ED 2 6) by (unfold hex_edge; cbn; lia). rewrite (ED 3 7) by (unfold hex_edge; cbn; lia). cbn [bind].
    assert (F0 := proj1 (FO k 0 K ltac:(lia))). assert (F1 := proj1 (FO k 1 K ltac:(lia))). assert (F2 := proj1 (FO k 2 K ltac:(lia))). assert (F3 := proj1 (FO k 3 K ltac:(lia))). assert (F4 := proj1 (FO k 4 K ltac:(lia))). assert (F5 := proj1 (FO k 5 K ltac:(lia))).
    unfold face, face_verts in F0, F1, F2, F3, F4, F5. cbn [nth map noelElemFace_Hex] in F0, F1, F2, F3, F4, F5. rewrite F0, F1, F2, F3, F4, F5. cbn [bind].
    assert (FA : forall f, Fn k f + nv + length (map snd E) = nv + length E + Fn k f) by (intros; rewrite map_length; lia). rewrite !FA. replace (k + nv + length (map snd E) + length Q) with (nv + length E + length Q + k) by (rewrite map_length; lia). reflexivity.
  - intros q I. unfold Q, Qs in I. apply in_map_iff in I. destruct I as ([e f] & <- & I). eapply KF_in in I; eauto. exists e, f. cbn [fst snd]. tauto.
  - intros i j. eapply Q_distinct; eauto.
  - intros e f EL FL. apply FO; auto.
  - exists rows. auto.
Qed.
