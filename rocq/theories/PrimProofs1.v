(** Generated meshes: lists of pushed triangles, numbering of vertices, surfaces made of rings. *)
From Coq Require Import List Arith Bool Lia Reals.
Import ListNotations.
From Verif Require Import Imp PrimModel PrimSpec SgProofs2.

Lemma forn_flat : forall {A} (f : nat -> list A) body lo hi a, (forall i a, lo <= i < hi -> body i a = Some (a ++ f i)) -> forn lo hi body a = Some (a ++ flat_map f (seq lo (hi - lo))).
Proof.
  intros A f body lo hi a H. unfold forn. assert (G : forall k i a, lo <= i -> i + k <= hi -> forn_ k i body a = Some (a ++ flat_map f (seq i k))).
  { induction k; intros i b H1 H2; simpl. rewrite app_nil_r. auto. rewrite H by lia. simpl bind. rewrite IHk by lia. rewrite app_assoc. auto. }
  destruct (le_lt_dec lo hi). apply G; lia. replace (hi - lo) with 0 by lia. simpl. rewrite app_nil_r. auto.
Qed.
Lemma forn_flat0 : forall {A} (f : nat -> list A) body hi a, (forall i a, i < hi -> body i a = Some (a ++ f i)) -> forn 0 hi body a = Some (a ++ flat_map f (seq 0 hi)).
Proof. intros A f body hi a H. rewrite (forn_flat f). rewrite Nat.sub_0_r. auto. intros; apply H; lia. Qed.
Lemma ford_flat : forall {A} (f : nat -> list A) body hi a, (forall i a, 0 < i <= hi -> body i a = Some (a ++ f i)) -> ford hi 0 body a = Some (a ++ flat_map (fun i => f (hi - i)) (seq 0 hi)).
Proof.
  intros A f body hi a H. unfold ford. rewrite Nat.sub_0_r. assert (G : forall k i a, i = k -> k <= hi -> ford_ k i body a = Some (a ++ flat_map (fun j => f (hi - j)) (seq (hi - k) k))).
  { induction k; intros i b H1 H2; simpl. rewrite app_nil_r. auto. rewrite H by lia. simpl bind. rewrite IHk by lia. rewrite app_assoc. do 2 f_equal. subst i. f_equal. f_equal. f_equal. lia. replace (hi - k) with (S (hi - S k)) by lia. auto. }
  rewrite G by lia. rewrite Nat.sub_diag. auto.
Qed.
Lemma fm_in : forall {A B} (f g : A -> list B) l, (forall x, In x l -> f x = g x) -> flat_map f l = flat_map g l.
Proof. induction l; simpl; intros H; auto. rewrite H, IHl; auto. Qed.
Lemma map_fm : forall {A B C} (h : B -> C) (f : A -> list B) l, map h (flat_map f l) = flat_map (fun x => map h (f x)) l.
Proof. induction l; simpl; auto. rewrite map_app, IHl. auto. Qed.

Lemma dedges_app : forall k u v, length u = 3 * k -> dedges (u ++ v) = dedges u ++ dedges v.
Proof. induction k; intros u v H. destruct u; [auto|discriminate]. destruct u as [|a [|b [|c u]]]; simpl in H; try lia. simpl. rewrite IHk; auto. lia. Qed.
Lemma len_fm : forall {A} (f : A -> list nat) k l, (forall x, In x l -> length (f x) = k) -> length (flat_map f l) = k * length l.
Proof. induction l; simpl; intros H. lia. rewrite app_length, H, IHl; auto. lia. Qed.
Lemma dedges_fm : forall {A} (f : A -> list nat) k l, (forall x, In x l -> length (f x) = 3 * k) -> dedges (flat_map f l) = flat_map (fun x => dedges (f x)) l.
Proof. induction l; simpl; intros H; auto. rewrite (dedges_app k), IHl; auto. Qed.
Lemma in_dedges : forall k l i, length l = 3 * k -> In i l <-> exists j, In (i, j) (dedges l).
Proof.
  induction k; intros l i H. destruct l; [|discriminate]. split. intros []. intros (j & []). destruct l as [|a [|b [|c l]]]; simpl in H; try lia. simpl. rewrite (IHk l i) by lia. split.
  - intros [<-|[<-|[<-|(j & Hj)]]]; eauto 6.
  - intros (j & [E|[E|[E|Hj]]]); try (injection E as <- <-; auto). eauto 6.
Qed.
Lemma NoDup_map_in : forall {A B} (f : A -> B) l, NoDup l -> (forall x y, In x l -> In y l -> f x = f y -> x = y) -> NoDup (map f l).
Proof.
  induction l; simpl; intros H Hi. constructor. inversion H; subst. constructor. rewrite in_map_iff. intros (y & Ey & Hy). rewrite (Hi y a) in Hy; auto. apply IHl; auto.
Qed.

(** A surface given by labelled edges between labelled vertices. *)
Section Gen.
Context {Lab V : Type}.
Variables (L : list Lab) (E : Lab -> V * V) (enc : V -> nat) (ok : V -> Prop) (np : nat) (bd : V -> V -> Prop) (tri : list nat).
Hypothesis Htri : dedges tri = map (fun x => (enc (fst (E x)), enc (snd (E x)))) L.
Hypothesis Hlen : exists nt, length tri = 3 * nt.
Hypothesis HL : NoDup L.
Hypothesis Einj : forall x y, In x L -> In y L -> E x = E y -> x = y.
Hypothesis Eok : forall x, In x L -> ok (fst (E x)) /\ ok (snd (E x)) /\ fst (E x) <> snd (E x).
Hypothesis Erev : forall x, In x L -> bd (fst (E x)) (snd (E x)) \/ exists y, In y L /\ E y = (snd (E x), fst (E x)).
Hypothesis Ebd : forall x y, In x L -> In y L -> E y = (snd (E x), fst (E x)) -> ~ bd (fst (E x)) (snd (E x)).
Hypothesis encinj : forall u v, ok u -> ok v -> enc u = enc v -> u = v.
Hypothesis enclt : forall u, ok u -> enc u < np.
Hypothesis encall : forall i, i < np -> exists x, In x L /\ enc (fst (E x)) = i.
Lemma gen_surface : oriented_surface np tri (fun a b => exists u v, ok u /\ ok v /\ bd u v /\ a = enc u /\ b = enc v).
Proof.
  destruct Hlen as (nt & Hl). split; [exists nt; auto|split; [|split]].
  - intros i. rewrite (in_dedges nt) by auto. rewrite Htri. split.
    + intros (j & Hj). apply in_map_iff in Hj. destruct Hj as (x & Ex & Hx). injection Ex as <- <-. apply enclt. apply Eok. auto.
    + intros Hi. destruct (encall i Hi) as (x & Hx & <-). exists (enc (snd (E x))). apply in_map_iff. eauto.
  - rewrite Htri. apply NoDup_map_in; auto. intros x y Hx Hy Exy. injection Exy as E1 E2. apply Einj; auto. destruct (Eok x Hx) as (A1 & A2 & _), (Eok y Hy) as (B1 & B2 & _). apply encinj in E1, E2; auto. rewrite (surjective_pairing (E x)), (surjective_pairing (E y)), E1, E2. auto.
  - intros a b Hab. rewrite Htri in Hab. apply in_map_iff in Hab. destruct Hab as (x & Ex & Hx). injection Ex as <- <-. destruct (Eok x Hx) as (O1 & O2 & O3). split; [|split].
    + intros H. apply encinj in H; auto.
    + destruct (Erev x Hx) as [H|(y & Hy & Ey)]. left. exists (fst (E x)), (snd (E x)). auto. right. rewrite Htri. apply in_map_iff. exists y. rewrite Ey. auto.
    + intros (u & v & U & W & B & E1 & E2) H. apply encinj in E1, E2; auto. subst u v. rewrite Htri in H. apply in_map_iff in H. destruct H as (y & Ey & Hy). injection Ey as F1 F2. destruct (Eok y Hy) as (A1 & A2 & _). apply encinj in F1, F2; auto. apply (Ebd x y Hx Hy); auto. rewrite (surjective_pairing (E y)), F1, F2. auto.
Qed.
End Gen.

Lemma surface_mono : forall np tri (b b' : nat -> nat -> Prop), oriented_surface np tri b -> (forall i j, i < np -> j < np -> b i j <-> b' i j) -> oriented_surface np tri b'.
Proof.
  intros np tri b b' (H1 & H2 & H3 & H4) H. split; auto. split; auto. split; auto. intros i j Hij. destruct H1 as (nt & H1).
  assert (Hi : i < np). { apply H2. apply (in_dedges nt); eauto. }
  assert (Hj : j < np). { apply H2. clear - Hij H1. revert tri H1 Hij. induction nt; intros tri H1 Hij. destruct tri; [destruct Hij|discriminate]. destruct tri as [|a [|c [|d l]]]; simpl in H1; try lia. simpl in Hij. destruct Hij as [E|[E|[E|Hij]]]; try (injection E as <- <-; simpl; auto). right. right. right. apply IHnt; auto. lia. }
  destruct (H4 i j Hij) as (A & B & C). rewrite (H i j) in B, C by auto. auto.
Qed.

(** The next column of a ring of n. *)
Definition sc (n c : nat) : nat := if c =? n - 1 then 0 else c + 1.
Lemma sc_mod : forall n c, c < n -> (c + 1) mod n = sc n c.
Proof. intros n c H. unfold sc. destruct (Nat.eqb_spec c (n - 1)). replace (c + 1) with n by lia. apply Nat.mod_same. lia. apply Nat.mod_small. lia. Qed.
Lemma c_mod : forall n c, c < n -> (c + 0) mod n = c.
Proof. intros n c H. rewrite Nat.add_0_r. apply Nat.mod_small. auto. Qed.
Lemma sc_lt : forall n c, c < n -> sc n c < n. Proof. intros n c H. unfold sc. destruct (Nat.eqb_spec c (n - 1)); lia. Qed.
Lemma pc_ex : forall n c, c < n -> exists d, d < n /\ sc n d = c.
Proof. intros n c H. unfold sc. destruct c. exists (n - 1). rewrite Nat.eqb_refl. lia. exists c. destruct (Nat.eqb_spec c (n - 1)); lia. Qed.

Inductive vtx := South | North | G (r c : nat).
Lemma row_inj : forall n r c r' c', c < n -> c' < n -> r * n + c = r' * n + c' -> r = r' /\ c = c'.
Proof. intros n r c r' c' H H' E. assert (r = r') by nia. subst. lia. Qed.

Ltac ksplit k := destruct k as [|[|[|[|[|[|[|[|[|[|[|[|k]]]]]]]]]]]]; [..|exfalso; lia].
Ltac inE H := unfold sc in H; simpl in H; repeat match type of H with context [?a =? ?b] => destruct (Nat.eqb_spec a b) end.

(** The closed surface of a cylinder with m rings of n points and two poles. *)
Section Tube.
Variables n m : nat.
Hypothesis Hn : 3 <= n.
Hypothesis Hm : 1 <= m.
Definition cap_s (c : nat) : list nat := [0; c + 1; sc n c + 1].
Definition band (off r c : nat) : list nat := [(r + 1) * n + off + sc n c; r * n + off + sc n c; r * n + off + c; (r + 1) * n + off + c; (r + 1) * n + off + sc n c; r * n + off + c].
Definition cap_n (c : nat) : list nat := [n * m + 1; (m - 1) * n + 1 + sc n c; (m - 1) * n + 1 + c].
Definition tube : list nat := flat_map cap_s (seq 0 n) ++ flat_map (fun r => flat_map (band 1 r) (seq 0 n)) (seq 0 (m - 1)) ++ flat_map cap_n (seq 0 n).
Definition tubeL : list (nat * nat * nat) :=
  flat_map (fun c => map (fun k => (k, 0, c)) [0; 1; 2]) (seq 0 n) ++ flat_map (fun r => flat_map (fun c => map (fun k => (k, r, c)) [3; 4; 5; 6; 7; 8]) (seq 0 n)) (seq 0 (m - 1)) ++
  flat_map (fun c => map (fun k => (k, 0, c)) [9; 10; 11]) (seq 0 n).
Definition tubeE (x : nat * nat * nat) : vtx * vtx :=
  let '(k, r, c) := x in
  match k with
  | 0 => (South, G 0 c) | 1 => (G 0 c, G 0 (sc n c)) | 2 => (G 0 (sc n c), South)
  | 3 => (G (r + 1) (sc n c), G r (sc n c)) | 4 => (G r (sc n c), G r c) | 5 => (G r c, G (r + 1) (sc n c))
  | 6 => (G (r + 1) c, G (r + 1) (sc n c)) | 7 => (G (r + 1) (sc n c), G r c) | 8 => (G r c, G (r + 1) c)
  | 9 => (North, G (m - 1) (sc n c)) | 10 => (G (m - 1) (sc n c), G (m - 1) c) | _ => (G (m - 1) c, North)
  end.
Definition tubeenc (v : vtx) : nat := match v with South => 0 | North => n * m + 1 | G r c => r * n + 1 + c end.
Definition tubeok (v : vtx) : Prop := match v with G r c => r < m /\ c < n | _ => True end.

Lemma tubeL_in : forall k r c, In (k, r, c) tubeL <-> c < n /\ ((k <= 2 \/ 9 <= k <= 11) /\ r = 0 \/ 3 <= k <= 8 /\ r < m - 1).
Proof.
  intros k r c. unfold tubeL. rewrite !in_app_iff, !in_flat_map. split.
  - intros [(x & Hx & H)|[(x & Hx & H)|(x & Hx & H)]]; apply in_seq in Hx.
    + apply in_map_iff in H. destruct H as (k' & E & H). injection E as <- <- <-. simpl in H. lia.
    + apply in_flat_map in H. destruct H as (y & Hy & H). apply in_seq in Hy. apply in_map_iff in H. destruct H as (k' & E & H). injection E as <- <- <-. simpl in H. lia.
    + apply in_map_iff in H. destruct H as (k' & E & H). injection E as <- <- <-. simpl in H. lia.
  - intros (Hc & [([Hk|Hk] & ->)|(Hk & Hr)]).
    + left. exists c. split. apply in_seq. lia. apply in_map_iff. exists k. split; auto. simpl. lia.
    + right. right. exists c. split. apply in_seq. lia. apply in_map_iff. exists k. split; auto. simpl. lia.
    + right. left. exists r. split. apply in_seq. lia. apply in_flat_map. exists c. split. apply in_seq. lia. apply in_map_iff. exists k. split; auto. simpl. lia.
Qed.
Lemma NoDup_lab : forall ks (r : nat), NoDup ks -> NoDup (flat_map (fun c : nat => map (fun k : nat => (k, r, c)) ks) (seq 0 n)).
Proof.
  intros ks r Hk. apply NoDup_fm. apply seq_NoDup.
  - intros x Hx. apply NoDup_map_in; auto. intros a b _ _ E. injection E; auto.
  - intros x y b Hx Hy H1 H2. apply in_map_iff in H1, H2. destruct H1 as (k & <- & _), H2 as (k' & E & _). injection E; auto.
Qed.
Lemma NoDup_app_k : forall {A} (u v : list A), NoDup u -> NoDup v -> (forall x, In x u -> In x v -> False) -> NoDup (u ++ v).
Proof. induction u; simpl; intros v H1 H2 H; auto. inversion H1; subst. constructor. rewrite in_app_iff. intros [Ha|Ha]; auto. apply (H a); auto. apply IHu; auto. intros x Hx. apply H. auto. Qed.
Lemma tubeL_nodup : NoDup tubeL.
Proof.
  assert (D3 : forall a b c : nat, a <> b -> a <> c -> b <> c -> NoDup [a; b; c]). { intros. repeat constructor; simpl; intuition. }
  assert (D6 : NoDup [3; 4; 5; 6; 7; 8]). { repeat constructor; simpl; intuition discriminate. }
  unfold tubeL. apply NoDup_app_k; [apply NoDup_lab; apply D3; lia|apply NoDup_app_k|].
  - apply NoDup_fm. apply seq_NoDup. intros r Hr. apply NoDup_lab. auto. intros x y b Hx Hy H1 H2. apply in_flat_map in H1, H2. destruct H1 as (c & _ & H1), H2 as (c' & _ & H2). apply in_map_iff in H1, H2. destruct H1 as (k & <- & _), H2 as (k' & E & _). injection E; auto.
  - apply NoDup_lab; apply D3; lia.
  - intros ((k, r), c) H1 H2. apply in_flat_map in H1, H2. destruct H1 as (x & _ & H1), H2 as (y & _ & H2). apply in_flat_map in H1. destruct H1 as (z & _ & H1). apply in_map_iff in H1, H2. destruct H1 as (k1 & E1 & H1), H2 as (k2 & E2 & H2). inversion E1; subst. inversion E2; subst. simpl in *. lia.
  - intros ((k, r), c) H1 H2. apply in_app_iff in H2. apply in_flat_map in H1. destruct H1 as (x & _ & H1). apply in_map_iff in H1. destruct H1 as (k1 & E1 & H1). inversion E1; subst. destruct H2 as [H2|H2]; apply in_flat_map in H2; destruct H2 as (y & _ & H2); [apply in_flat_map in H2; destruct H2 as (z & _ & H2)|]; apply in_map_iff in H2; destruct H2 as (k2 & E2 & H2); inversion E2; subst; simpl in *; lia.
Qed.
Lemma tube_dedges : dedges tube = map (fun x => (tubeenc (fst (tubeE x)), tubeenc (snd (tubeE x)))) tubeL.
Proof.
  unfold tube, tubeL. rewrite (dedges_app n) by (rewrite (len_fm _ 3), seq_length; auto). rewrite (dedges_app (2 * n * (m - 1))).
  2: { rewrite (len_fm _ (6 * n)), seq_length. lia. intros. rewrite (len_fm _ 6), seq_length; auto. }
  rewrite !map_app, !map_fm. rewrite (dedges_fm _ 1) by auto. rewrite (dedges_fm _ (2 * n)) by (intros; rewrite (len_fm _ 6), seq_length; auto; lia). rewrite (dedges_fm _ 1) by auto. f_equal; [|f_equal].
  - apply fm_in. intros c Hc. unfold cap_s. simpl. repeat f_equal; lia.
  - apply fm_in. intros r Hr. rewrite (dedges_fm _ 2) by auto. rewrite map_fm. apply fm_in. intros c Hc. unfold band. simpl. reflexivity.
Qed.
Lemma tube_len : length tube = 3 * (2 * n * m).
Proof. unfold tube. rewrite !app_length. rewrite (len_fm cap_s 3), (len_fm cap_n 3) by auto. rewrite (len_fm _ (6 * n)) by (intros; rewrite (len_fm _ 6), seq_length; auto). rewrite !seq_length. assert (E : exists p, m = p + 1) by (exists (m - 1); lia). destruct E as (p & ->). rewrite Nat.add_sub. ring. Qed.
Lemma tube_closed : closed_surface (n * m + 2) tube.
Proof.
  apply surface_mono with (b := fun a b => exists u v, tubeok u /\ tubeok v /\ False /\ a = tubeenc u /\ b = tubeenc v). 2: { intros. split. intros (u & v & _ & _ & [] & _). tauto. }
  apply (gen_surface tubeL tubeE tubeenc tubeok (n * m + 2) (fun _ _ => False)).
  - apply tube_dedges.
  - exists (2 * n * m). apply tube_len.
  - apply tubeL_nodup.
  - intros ((k, r), c) ((k', r'), c') H H' E. apply tubeL_in in H, H'. assert (K : k < 12) by lia. assert (K' : k' < 12) by lia.
    ksplit k; ksplit k'; clear K K'; simpl in E; try discriminate; unfold sc in E; injection E; clear E; intros; repeat match goal with H : context [?a =? ?b] |- _ => destruct (Nat.eqb_spec a b) end; try (exfalso; lia); (replace r' with r by lia; replace c' with c by lia; reflexivity).
  - intros ((k, r), c) H. apply tubeL_in in H. assert (K : k < 12) by lia. ksplit k; clear K; simpl; (split; [|split]); try tauto; try (split; [lia|try apply sc_lt; lia]); intros E; try discriminate; injection E; unfold sc; destruct (Nat.eqb_spec c (n - 1)); intros; lia.
  - intros ((k, r), c) H. right. apply tubeL_in in H. destruct H as (Hc & H). destruct (pc_ex n c Hc) as (d & Hd & Ed). assert (Hs := sc_lt n c Hc). assert (K : k < 12) by lia.
    ksplit k; clear K; simpl.
    + exists (2, 0, d). split. apply tubeL_in. lia. simpl. rewrite Ed. auto.
    + destruct (Nat.eq_dec m 1). exists (10, 0, c). split. apply tubeL_in. lia. simpl. subst m. auto. exists (4, 0, c). split. apply tubeL_in. lia. auto.
    + exists (0, 0, sc n c). split. apply tubeL_in. lia. auto.
    + exists (8, r, sc n c). split. apply tubeL_in. lia. auto.
    + destruct r. exists (1, 0, c). split. apply tubeL_in. lia. auto. exists (6, r, c). split. apply tubeL_in. lia. simpl. rewrite !Nat.add_1_r. auto.
    + exists (7, r, c). split. apply tubeL_in. lia. auto.
    + destruct (Nat.eq_dec (r + 1) (m - 1)) as [e|]. exists (10, 0, c). split. apply tubeL_in. lia. simpl. rewrite e. auto. exists (4, r + 1, c). split. apply tubeL_in. lia. auto.
    + exists (5, r, c). split. apply tubeL_in. lia. auto.
    + exists (3, r, d). split. apply tubeL_in. lia. simpl. rewrite Ed. auto.
    + exists (11, 0, sc n c). split. apply tubeL_in. lia. auto.
    + destruct (Nat.eq_dec m 1). exists (1, 0, c). split. apply tubeL_in. lia. simpl. subst m. auto. exists (6, m - 2, c). split. apply tubeL_in. lia. simpl. replace (m - 2 + 1) with (m - 1) by lia. auto.
    + exists (9, 0, d). split. apply tubeL_in. lia. simpl. rewrite Ed. auto.
  - intros; auto.
  - intros u v Hu Hv E. destruct u as [| |r c], v as [| |r' c']; simpl in *; auto; try (exfalso; nia). destruct (row_inj n r c r' c'); try lia. subst. auto.
  - intros u Hu. destruct u; simpl in *; nia.
  - intros i Hi. destruct (Nat.eq_dec i 0) as [->|N0]. exists (0, 0, 0). split. apply tubeL_in. lia. auto. destruct (Nat.eq_dec i (n * m + 1)) as [->|N1]. exists (9, 0, 0). split. apply tubeL_in. lia. auto.
    assert (Hr : (i - 1) / n < m) by (apply Nat.div_lt_upper_bound; lia). assert (Hc : (i - 1) mod n < n) by (apply Nat.mod_upper_bound; lia). assert (Ei : i = (i - 1) / n * n + 1 + (i - 1) mod n). { pose proof (Nat.div_mod (i - 1) n ltac:(lia)). lia. }
    revert Hr Hc Ei. generalize ((i - 1) / n) ((i - 1) mod n). intros r c Hr Hc ->.
    destruct (Nat.eq_dec r (m - 1)) as [->|]. exists (11, 0, c). split. apply tubeL_in. lia. auto. exists (8, r, c). split. apply tubeL_in. lia. auto.
Qed.
Lemma tube_euler : euler (n * m + 2) tube 2.
Proof. exists (2 * n * m). split. apply tube_len. nia. Qed.
End Tube.
