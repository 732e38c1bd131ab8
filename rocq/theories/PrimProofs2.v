(** Generated meshes: disk, open cylinder, torus. *)
From Coq Require Import List Arith Bool Lia Reals.
Import ListNotations.
From Verif Require Import Imp PrimModel PrimSpec SgProofs2 PrimProofs1.

(** Labels of a grid of m rows and n columns. *)
Definition gridL (ks : list nat) (m n : nat) : list (nat * nat * nat) :=
  flat_map (fun r => flat_map (fun c => map (fun k => (k, r, c)) ks) (seq 0 n)) (seq 0 m).
Lemma gridL_in : forall ks m n k r c, In (k, r, c) (gridL ks m n) <-> In k ks /\ r < m /\ c < n.
Proof.
  intros ks m n k r c. unfold gridL. rewrite in_flat_map. split.
  - intros (x & Hx & H). apply in_flat_map in H. destruct H as (y & Hy & H). apply in_seq in Hx, Hy. apply in_map_iff in H. destruct H as (k' & E & H). inversion E; subst. split; auto. lia.
  - intros (Hk & Hr & Hc). exists r. split. apply in_seq. lia. apply in_flat_map. exists c. split. apply in_seq. lia. apply in_map_iff. eauto.
Qed.
Lemma gridL_nodup : forall ks m n, NoDup ks -> NoDup (gridL ks m n).
Proof.
  intros ks m n H. unfold gridL. apply NoDup_fm. apply seq_NoDup. intros r Hr. apply NoDup_lab. auto. intros x y b Hx Hy H1 H2. apply in_flat_map in H1, H2. destruct H1 as (c & _ & H1), H2 as (c' & _ & H2). apply in_map_iff in H1, H2. destruct H1 as (k & <- & _), H2 as (k' & E & _). injection E; auto.
Qed.
Lemma grid_dedges : forall {V} (E : nat * nat * nat -> V * V) (enc : V -> nat) ks m n f, (forall r c, r < m -> c < n -> length (f r c) = length ks /\ dedges (f r c) = map (fun k => (enc (fst (E (k, r, c))), enc (snd (E (k, r, c))))) ks) -> (exists j, length ks = 3 * j) ->
  dedges (flat_map (fun r => flat_map (f r) (seq 0 n)) (seq 0 m)) = map (fun x => (enc (fst (E x)), enc (snd (E x)))) (gridL ks m n) /\ length (flat_map (fun r => flat_map (f r) (seq 0 n)) (seq 0 m)) = length ks * n * m.
Proof.
  intros V E enc ks m n f H (j & Hj).
  assert (Hl : forall r, In r (seq 0 m) -> length (flat_map (f r) (seq 0 n)) = length ks * n). { intros r Hr. apply in_seq in Hr. rewrite (len_fm _ (length ks)), seq_length; auto. intros c Hc. apply in_seq in Hc. apply H; lia. }
  split. 2: { rewrite (len_fm _ (length ks * n)), seq_length; auto. }
  unfold gridL. rewrite map_fm. rewrite (dedges_fm _ (j * n)). 2: { intros r Hr. rewrite Hl by auto. rewrite Hj. lia. }
  apply fm_in. intros r Hr. rewrite map_fm, (dedges_fm _ j). 2: { intros c Hc. apply in_seq in Hr, Hc. rewrite <- Hj. apply H; lia. }
  apply fm_in. intros c Hc. apply in_seq in Hr, Hc. rewrite map_map. apply H; lia.
Qed.
Ltac nd := repeat constructor; simpl; intuition discriminate.
Ltac scs := unfold sc in *; repeat match goal with H : context [?a =? ?b] |- _ => destruct (Nat.eqb_spec a b) | |- context [?a =? ?b] => destruct (Nat.eqb_spec a b) end.

(** Open cylinder: m bands between m + 1 rings of n points. *)
Section Open.
Variables n m : nat.
Hypothesis Hn : 3 <= n.
Hypothesis Hm : 1 <= m.
Definition otube : list nat := flat_map (fun r => flat_map (band n 0 r) (seq 0 n)) (seq 0 m).
Definition otubeE (x : nat * nat * nat) : (nat * nat) * (nat * nat) :=
  let '(k, r, c) := x in
  match k with
  | 0 => ((r + 1, sc n c), (r, sc n c)) | 1 => ((r, sc n c), (r, c)) | 2 => ((r, c), (r + 1, sc n c))
  | 3 => ((r + 1, c), (r + 1, sc n c)) | 4 => ((r + 1, sc n c), (r, c)) | _ => ((r, c), (r + 1, c))
  end.
Definition oenc (v : nat * nat) : nat := fst v * n + snd v.
Definition ook (v : nat * nat) : Prop := fst v < m + 1 /\ snd v < n.
(** The lower ring is left behind clockwise, the upper one counterclockwise. *)
Definition obd (u v : nat * nat) : Prop := (fst u = 0 /\ fst v = 0 /\ snd u = sc n (snd v)) \/ (fst u = m /\ fst v = m /\ snd v = sc n (snd u)).
Lemma otube_dedges : dedges otube = map (fun x => (oenc (fst (otubeE x)), oenc (snd (otubeE x)))) (gridL [0; 1; 2; 3; 4; 5] m n) /\ length otube = 6 * n * m.
Proof.
  apply (grid_dedges otubeE oenc [0; 1; 2; 3; 4; 5] m n (band n 0)). 2: exists 2; auto. intros r c Hr Hc. split; auto. unfold band, oenc. simpl. rewrite !Nat.add_0_r. reflexivity.
Qed.
Ltac six k H := assert (H0 := H); apply gridL_in in H0; destruct H0 as (H0 & ?Hr & ?Hc); simpl in H0; assert (k < 6) by lia; clear H H0; destruct k as [|[|[|[|[|[|k]]]]]]; [..|exfalso; lia].
Lemma otube_surface : oriented_surface ((m + 1) * n) otube (fun a b => exists u v, ook u /\ ook v /\ obd u v /\ a = oenc u /\ b = oenc v).
Proof.
  destruct otube_dedges as (D1 & D2). apply (gen_surface (gridL [0; 1; 2; 3; 4; 5] m n) otubeE oenc ook _ obd); auto.
  - exists (2 * n * m). rewrite D2. lia.
  - apply gridL_nodup. nd.
  - intros ((k, r), c) ((k', r'), c') H H' E. six k H; six k' H'; simpl in E; injection E; clear E; intros; scs; try (exfalso; lia); (replace r' with r by lia; replace c' with c by lia; reflexivity).
  - intros ((k, r), c) H. unfold ook. six k H; simpl; (split; [|split]); try (split; [lia|]; try apply sc_lt; lia); intros E; injection E; unfold sc; destruct (Nat.eqb_spec c (n - 1)); intros; lia.
  - intros ((k, r), c) H. assert (Hc : c < n) by (apply gridL_in in H; lia). destruct (pc_ex n c Hc) as (d & Hd & Ed). assert (Hs := sc_lt n c Hc). unfold obd. six k H; simpl.
    + right. exists (5, r, sc n c). split. apply gridL_in. simpl. lia. auto.
    + destruct r. left. left. auto. right. exists (3, r, c). split. apply gridL_in. simpl. lia. simpl. rewrite Nat.add_1_r. auto.
    + right. exists (4, r, c). split. apply gridL_in. simpl. lia. auto.
    + destruct (Nat.eq_dec (r + 1) m). left. right. auto. right. exists (1, r + 1, c). split. apply gridL_in. simpl. lia. auto.
    + right. exists (2, r, c). split. apply gridL_in. simpl. lia. auto.
    + right. exists (0, r, d). split. apply gridL_in. simpl. lia. simpl. rewrite Ed. auto.
  - intros ((k, r), c) ((k', r'), c') H H' E B. unfold obd in B. six k H; six k' H'; simpl in E, B; injection E; clear E; intros; scs; lia.
  - intros (r, c) (r', c') (A & B) (A' & B') E. simpl in *. unfold oenc in E. simpl in E. destruct (row_inj n r c r' c'); subst; auto.
  - intros (r, c) (A & B). unfold oenc. simpl in *. nia.
  - intros i Hi. assert (Hr : i / n < m + 1) by (apply Nat.div_lt_upper_bound; lia). assert (Hc : i mod n < n) by (apply Nat.mod_upper_bound; lia). assert (Ei : i = i / n * n + i mod n). { pose proof (Nat.div_mod i n ltac:(lia)). lia. }
    revert Hr Hc Ei. generalize (i / n) (i mod n). intros r c Hr Hc ->. destruct (Nat.eq_dec r m) as [->|]. exists (3, m - 1, c). split. apply gridL_in. simpl. lia. unfold oenc. simpl. replace (m - 1 + 1) with m by lia. auto. exists (5, r, c). split. apply gridL_in. simpl. lia. auto.
Qed.
End Open.

(** Disk: a centre and m rings of n points. *)
Section Disk.
Variables n m : nat.
Hypothesis Hn : 3 <= n.
Hypothesis Hm : 1 <= m.
Definition dcap (c : nat) : list nat := [0; sc n c + 1; c + 1].
Definition dband (r c : nat) : list nat := [(r + 1) * n + 1 + sc n c; r * n + 1 + c; r * n + 1 + sc n c; (r + 1) * n + 1 + c; r * n + 1 + c; (r + 1) * n + 1 + sc n c].
Definition disk : list nat := flat_map dcap (seq 0 n) ++ flat_map (fun r => flat_map (dband r) (seq 0 n)) (seq 0 (m - 1)).
Definition diskL : list (nat * nat * nat) := gridL [0; 1; 2] 1 n ++ gridL [3; 4; 5; 6; 7; 8] (m - 1) n.
Definition diskE (x : nat * nat * nat) : vtx * vtx :=
  let '(k, r, c) := x in
  match k with
  | 0 => (South, G 0 (sc n c)) | 1 => (G 0 (sc n c), G 0 c) | 2 => (G 0 c, South)
  | 3 => (G (r + 1) (sc n c), G r c) | 4 => (G r c, G r (sc n c)) | 5 => (G r (sc n c), G (r + 1) (sc n c))
  | 6 => (G (r + 1) c, G r c) | 7 => (G r c, G (r + 1) (sc n c)) | _ => (G (r + 1) (sc n c), G (r + 1) c)
  end.
Definition denc (v : vtx) : nat := match v with G r c => r * n + 1 + c | _ => 0 end.
Definition dok (v : vtx) : Prop := match v with G r c => r < m /\ c < n | South => True | North => False end.
Definition dbd (u v : vtx) : Prop := exists c, u = G (m - 1) (sc n c) /\ v = G (m - 1) c.
Lemma diskL_in : forall k r c, In (k, r, c) diskL <-> c < n /\ (k <= 2 /\ r = 0 \/ 3 <= k <= 8 /\ r < m - 1).
Proof. intros. unfold diskL. rewrite in_app_iff, !gridL_in. simpl. lia. Qed.
Lemma diskL_nodup : NoDup diskL.
Proof. unfold diskL. apply NoDup_app_k. apply gridL_nodup. nd. apply gridL_nodup. nd. intros ((k, r), c) H1 H2. apply gridL_in in H1, H2. simpl in *. lia. Qed.
Lemma disk_dedges : dedges disk = map (fun x => (denc (fst (diskE x)), denc (snd (diskE x)))) diskL /\ length disk = 3 * (n + 2 * n * (m - 1)).
Proof.
  destruct (grid_dedges diskE denc [0; 1; 2] 1 n (fun _ => dcap)) as (A1 & A2). { intros r c Hr Hc. split; auto. unfold dcap. simpl. repeat f_equal; lia. } { exists 1; auto. }
  destruct (grid_dedges diskE denc [3; 4; 5; 6; 7; 8] (m - 1) n dband) as (B1 & B2). { intros r c Hr Hc. split; auto. } { exists 2; auto. }
  simpl flat_map in A1, A2. rewrite app_nil_r in A1, A2. unfold disk, diskL. rewrite (dedges_app n) by (rewrite A2; simpl; lia). rewrite A1, B1, map_app, app_length, A2, B2. split; auto. simpl length. lia.
Qed.
Lemma disk_surface : oriented_surface (m * n + 1) disk (fun a b => exists u v, dok u /\ dok v /\ dbd u v /\ a = denc u /\ b = denc v).
Proof.
  destruct disk_dedges as (D1 & D2). apply (gen_surface diskL diskE denc dok _ dbd); auto.
  - eauto.
  - apply diskL_nodup.
  - intros ((k, r), c) ((k', r'), c') H H' E. apply diskL_in in H, H'. assert (K : k < 12) by lia. assert (K' : k' < 12) by lia.
    ksplit k; try (exfalso; lia); ksplit k'; try (exfalso; lia); clear K K'; simpl in E; try discriminate; injection E; clear E; intros; scs; try (exfalso; lia); (replace r' with r by lia; replace c' with c by lia; reflexivity).
  - intros ((k, r), c) H. apply diskL_in in H. assert (K : k < 12) by lia. ksplit k; try (exfalso; lia); clear K; simpl; (split; [|split]); try tauto; try (split; [lia|try apply sc_lt; lia]); intros E; try discriminate; injection E; unfold sc; destruct (Nat.eqb_spec c (n - 1)); intros; lia.
  - intros ((k, r), c) H. apply diskL_in in H. destruct H as (Hc & H). destruct (pc_ex n c Hc) as (d & Hd & Ed). assert (Hs := sc_lt n c Hc). assert (K : k < 12) by lia.
    ksplit k; try (exfalso; lia); clear K; simpl.
    + right. exists (2, 0, sc n c). split. apply diskL_in. lia. auto.
    + destruct (Nat.eq_dec m 1). left. exists c. replace (m - 1) with 0 by lia. auto. right. exists (4, 0, c). split. apply diskL_in. lia. auto.
    + right. exists (0, 0, d). split. apply diskL_in. lia. simpl. rewrite Ed. auto.
    + right. exists (7, r, c). split. apply diskL_in. lia. auto.
    + right. destruct r. exists (1, 0, c). split. apply diskL_in. lia. auto. exists (8, r, c). split. apply diskL_in. lia. simpl. rewrite !Nat.add_1_r. auto.
    + right. exists (6, r, sc n c). split. apply diskL_in. lia. auto.
    + right. exists (5, r, d). split. apply diskL_in. lia. simpl. rewrite Ed. auto.
    + right. exists (3, r, c). split. apply diskL_in. lia. auto.
    + destruct (Nat.eq_dec (r + 1) (m - 1)) as [e|]. left. exists c. rewrite e. auto. right. exists (4, r + 1, c). split. apply diskL_in. lia. auto.
  - intros ((k, r), c) ((k', r'), c') H H' E (x & B1 & B2). apply diskL_in in H, H'. assert (K : k < 12) by lia. assert (K' : k' < 12) by lia.
    ksplit k; try (exfalso; lia); simpl in B1, B2; try discriminate; injection B1; injection B2; clear B1 B2; intros; ksplit k'; try (exfalso; lia); clear K K'; simpl in E; try discriminate; injection E; clear E; intros; scs; lia.
  - intros u v Hu Hv E. destruct u as [| |r c], v as [| |r' c']; simpl in *; auto; try (exfalso; nia). destruct (row_inj n r c r' c'); try lia. subst. auto.
  - intros u Hu. destruct u; simpl in *; nia.
  - intros i Hi. destruct (Nat.eq_dec i 0) as [->|N0]. exists (0, 0, 0). split. apply diskL_in. lia. auto.
    assert (Hr : (i - 1) / n < m) by (apply Nat.div_lt_upper_bound; lia). assert (Hc : (i - 1) mod n < n) by (apply Nat.mod_upper_bound; lia). assert (Ei : i = (i - 1) / n * n + 1 + (i - 1) mod n). { pose proof (Nat.div_mod (i - 1) n ltac:(lia)). lia. }
    revert Hr Hc Ei. generalize ((i - 1) / n) ((i - 1) mod n). intros r c Hr Hc ->.
    destruct r. exists (2, 0, c). split. apply diskL_in. lia. auto. exists (6, r, c). split. apply diskL_in. lia. simpl. lia.
Qed.
End Disk.

(** Torus. *)
Section Torus.
Variables n m : nat.
Hypothesis Hn : 3 <= n.
Hypothesis Hm : 3 <= m.
Definition tquad (r c : nat) : list nat := [r * n + c; sc m r * n + sc n c; sc m r * n + c; r * n + c; r * n + sc n c; sc m r * n + sc n c].
Definition torus : list nat := flat_map (fun r => flat_map (tquad r) (seq 0 n)) (seq 0 m).
Definition torusE (x : nat * nat * nat) : (nat * nat) * (nat * nat) :=
  let '(k, r, c) := x in
  match k with
  | 0 => ((r, c), (sc m r, sc n c)) | 1 => ((sc m r, sc n c), (sc m r, c)) | 2 => ((sc m r, c), (r, c))
  | 3 => ((r, c), (r, sc n c)) | 4 => ((r, sc n c), (sc m r, sc n c)) | _ => ((sc m r, sc n c), (r, c))
  end.
Definition tok (v : nat * nat) : Prop := fst v < m /\ snd v < n.
Lemma torus_dedges : dedges torus = map (fun x => (oenc n (fst (torusE x)), oenc n (snd (torusE x)))) (gridL [0; 1; 2; 3; 4; 5] m n) /\ length torus = 6 * n * m.
Proof.
  apply (grid_dedges torusE (oenc n) [0; 1; 2; 3; 4; 5] m n tquad). 2: exists 2; auto. intros r c Hr Hc. split; auto.
Qed.
Ltac six k H := assert (H0 := H); apply gridL_in in H0; destruct H0 as (H0 & ?Hr & ?Hc); simpl in H0; assert (k < 6) by lia; clear H H0; destruct k as [|[|[|[|[|[|k]]]]]]; [..|exfalso; lia].
Lemma torus_closed : closed_surface (m * n) torus.
Proof.
  apply surface_mono with (b := fun a b => exists u v, tok u /\ tok v /\ False /\ a = oenc n u /\ b = oenc n v). 2: { intros. split. intros (u & v & _ & _ & [] & _). tauto. }
  destruct torus_dedges as (D1 & D2). apply (gen_surface (gridL [0; 1; 2; 3; 4; 5] m n) torusE (oenc n) tok _ (fun _ _ => False)); auto.
  - exists (2 * n * m). rewrite D2. lia.
  - apply gridL_nodup. nd.
  - intros ((k, r), c) ((k', r'), c') H H' E. six k H; six k' H'; simpl in E; injection E; clear E; intros; scs; try (exfalso; lia); (replace r' with r by lia; replace c' with c by lia; reflexivity).
  - intros ((k, r), c) H. unfold tok. six k H; simpl; (split; [|split]); try (split; try apply sc_lt; lia); intros E; injection E; unfold sc; destruct (Nat.eqb_spec c (n - 1)), (Nat.eqb_spec r (m - 1)); intros; lia.
  - intros ((k, r), c) H. right. assert (Hc : r < m /\ c < n) by (apply gridL_in in H; lia). destruct Hc as (Hr & Hc). destruct (pc_ex n c Hc) as (d & Hd & Ed). destruct (pc_ex m r Hr) as (q & Hq & Eq). assert (Hs := sc_lt n c Hc). assert (Hs' := sc_lt m r Hr). six k H; simpl.
    + exists (5, r, c). split. apply gridL_in. simpl. lia. auto.
    + exists (3, sc m r, c). split. apply gridL_in. simpl. lia. auto.
    + exists (4, r, d). split. apply gridL_in. simpl. lia. simpl. rewrite Ed. auto.
    + exists (1, q, c). split. apply gridL_in. simpl. lia. simpl. rewrite Eq. auto.
    + exists (2, r, sc n c). split. apply gridL_in. simpl. lia. auto.
    + exists (0, r, c). split. apply gridL_in. simpl. lia. auto.
  - intros (r, c) (r', c') (A & B) (A' & B') E. simpl in *. unfold oenc in E. simpl in E. destruct (row_inj n r c r' c'); subst; auto.
  - intros (r, c) (A & B). unfold oenc. simpl in *. nia.
  - intros i Hi. assert (Hr : i / n < m) by (apply Nat.div_lt_upper_bound; lia). assert (Hc : i mod n < n) by (apply Nat.mod_upper_bound; lia). assert (Ei : i = i / n * n + i mod n). { pose proof (Nat.div_mod i n ltac:(lia)). lia. }
    exists (0, i / n, i mod n). split. apply gridL_in. simpl. lia. unfold oenc. simpl. auto.
Qed.
Lemma torus_euler : euler (m * n) torus 0.
Proof. exists (2 * n * m). split. rewrite (proj2 torus_dedges). lia. lia. Qed.
End Torus.
