(** Proofs about extrusion for EditModel. *)
From Coq Require Import List Arith Bool ZArith Reals Lra Lia Permutation.
Import ListNotations.
From Verif Require Import Imp PrModel PolyModel QuatModel QuatSpec ProxModel IsecModel GjkProofs1 ProxSpec ProxProofs1 MeasModel MeasSpec MeasProofs1 MeasProofs2 MeasProofs3 EditModel EditSpec EditProofs1 EditProofs2.
Open Scope nat_scope.

Definition prism12 (n l ip0 ip1 ip2 : nat) : list nat :=
  let q0 := ((l + 0) * n + ip0)%nat in let q1 := ((l + 1) * n + ip0)%nat in let q2 := ((l + 0) * n + ip1)%nat in
  let q3 := ((l + 1) * n + ip1)%nat in let q4 := ((l + 0) * n + ip2)%nat in let q5 := ((l + 1) * n + ip2)%nat in
  [q0; q2; q4; q1] ++ if (ip2 <? ip1)%nat then [q1; q3; q2; q4] ++ [q1; q3; q4; q5] else [q1; q2; q5; q3] ++ [q1; q2; q4; q5].
Definition prism (n l : nat) (t : nat * nat * nat) : list nat := let '(i0, i1, i2) := t in let '(ip0, ip1, ip2) := rotated i0 i1 i2 in prism12 n l ip0 ip1 ip2.
Lemma prism12_len : forall n l a b c, length (prism12 n l a b c) = 12.
Proof. intros. unfold prism12. destruct (c <? b); reflexivity. Qed.
Lemma prism_len : forall n l t, length (prism n l t) = 12.
Proof. intros n l [[a b] c]. unfold prism. destruct (rotated a b c) as [[x y] z]. apply prism12_len. Qed.

Lemma puts_eq : forall vs pre rest, length vs <= length rest -> puts (pre ++ rest) (length pre) vs = Some (pre ++ vs ++ skipn (length vs) rest).
Proof.
  induction vs as [|v vs IH]; intros pre rest H; [reflexivity|]. destruct rest as [|r rest]; [cbn in H; lia|]. cbn [puts]. rewrite vset_upd by (rewrite app_length; cbn; lia). cbn [bind].
  assert (E : upd (pre ++ r :: rest) (length pre) v = (pre ++ [v]) ++ rest) by (clear; induction pre; [reflexivity|]; cbn; f_equal; exact IHpre).
  rewrite E. replace (S (length pre)) with (length (pre ++ [v])) by (rewrite app_length; cbn; lia). rewrite IH by (cbn in H; lia). rewrite <- app_assoc. reflexivity.
Qed.
Lemma skipn_skipn_len : forall A (l : list A) a b, skipn a (skipn b l) = skipn (b + a) l.
Proof. induction l; intros; [rewrite !skipn_nil; reflexivity|]. destruct b; [reflexivity|]. cbn. apply IHl. Qed.
Lemma tris_seq : forall tri, tris tri = map (fun t => (cor 3 tri t 0, cor 3 tri t 1, cor 3 tri t 2)) (seq 0 (length tri / 3)).
Proof.
  induction tri as [|a|a b|a b c l IH] using list3_ind; try reflexivity. replace (length (a :: b :: c :: l) / 3) with (S (length l / 3)) by (cbn [length]; replace (S (S (S (length l)))) with (length l + 1 * 3) by lia; rewrite Nat.div_add by lia; lia).
  cbn [tris seq map]. f_equal. rewrite IH, <- seq_shift, map_map. apply map_ext. intros t. unfold cor. replace (3 * S t + 0) with (S (S (S (3 * t + 0)))) by lia. replace (3 * S t + 1) with (S (S (S (3 * t + 1)))) by lia. replace (3 * S t + 2) with (S (S (S (3 * t + 2)))) by lia. reflexivity.
Qed.
Lemma flat_map_len : forall A B (F : A -> list B) w l, (forall a, In a l -> length (F a) = w) -> length (flat_map F l) = w * length l.
Proof. induction l; intros H; cbn [flat_map length]; [lia|]. rewrite app_length, IHl, H by (intros; try apply H; cbn; auto). lia. Qed.
Definition distinct (t : nat * nat * nat) : Prop := let '(a, b, c) := t in a <> b /\ b <> c /\ c <> a.
Lemma topology : forall n tri nl t0, (forall t, In t (tris tri) -> distinct t) -> 12 * (length tri / 3) * nl = length t0 ->
  SetTopology_ExtrudeTri2Tet t0 n tri (length tri / 3) nl = Some (flat_map (fun l => flat_map (prism n l) (tris tri)) (seq 0 nl)).
Proof.
  intros n tri nl t0 Hd Hl. set (m := length tri / 3) in *. unfold SetTopology_ExtrudeTri2Tet.
  set (T := fun t => (cor 3 tri t 0, cor 3 tri t 1, cor 3 tri t 2)).
  set (L := fun l q => flat_map (fun t => prism n l (T t)) (seq 0 q)).
  assert (LL : forall l q, length (L l q) = 12 * q) by (intros; unfold L; rewrite (flat_map_len _ _ _ 12) by (intros; apply prism_len); rewrite seq_length; reflexivity).
  assert (LT : forall l, flat_map (prism n l) (tris tri) = L l m) by (intros; rewrite tris_seq; fold m; rewrite flat_map_concat_map, map_map, <- flat_map_concat_map; reflexivity).
  set (A := fun q => flat_map (fun l => L l m) (seq 0 q)).
  assert (LA : forall q, length (A q) = 12 * m * q) by (intros; unfold A; rewrite (flat_map_len _ _ _ (12 * m)) by (intros; rewrite LL; lia); rewrite seq_length; lia).
  assert (E0 : t0 = A 0 ++ skipn (12 * m * 0) t0) by (rewrite Nat.mul_0_r; reflexivity). rewrite E0 at 1.
  rewrite (forn_eq _ (fun i => A i ++ skipn (12 * m * i) t0)); [|lia|].
  - f_equal. rewrite skipn_all2 by lia. rewrite app_nil_r. unfold A. rewrite !flat_map_concat_map. f_equal. apply map_ext. intros l. rewrite LT. reflexivity.
  - intros il Hil.
    assert (E1 : A il ++ skipn (12 * m * il) t0 = (A il ++ L il 0) ++ skipn (12 * m * il + 12 * 0) t0) by (unfold L; cbn [seq flat_map]; rewrite app_nil_r; do 2 f_equal; lia). rewrite E1.
    rewrite (forn_eq _ (fun q => (A il ++ L il q) ++ skipn (12 * m * il + 12 * q) t0)); [|lia|].
    + f_equal. f_equal; [|f_equal; lia]. unfold A. rewrite seq_S, flat_map_app. cbn [flat_map]. rewrite app_nil_r. reflexivity.
    + intros q Hq. assert (D3 : 3 * m <= length tri) by (unfold m; apply Nat.mul_div_le; lia).
      rewrite !(vgetn nat 0) by lia. cbn [bind]. assert (Hin : In (T q) (tris tri)) by (rewrite tris_seq; apply (in_map T); apply in_seq; fold m; lia).
      pose proof (Hd _ Hin) as D. unfold T in D. cbn [distinct] in D. destruct D as (D1 & D2 & D3').
      assert (EC : forall k, nth (q * 3 + k) tri 0 = cor 3 tri q k) by (intros; unfold cor; f_equal; lia). rewrite !EC. unfold assertb. destruct (Nat.eqb_spec (cor 3 tri q 0) (cor 3 tri q 1)); [contradiction|]. destruct (Nat.eqb_spec (cor 3 tri q 1) (cor 3 tri q 2)); [contradiction|]. cbn [negb andb bind].
      pose proof (eq_refl (prism n il (T q))) as EP. unfold T, prism at 2 in EP. destruct (rotated (cor 3 tri q 0) (cor 3 tri q 1) (cor 3 tri q 2)) as [[ip0 ip1] ip2]. cbv zeta.
      match goal with |- puts _ _ ?vs = _ => change vs with (prism12 n il ip0 ip1 ip2) end.
      assert (B : 12 * m * il + 12 * q + 12 <= length t0) by (rewrite <- Hl; assert (m * S il <= m * nl) by (apply Nat.mul_le_mono_l; lia); nia).
      replace (il * m * 12 + q * 12) with (length (A il ++ L il q)) by (rewrite app_length, LA, LL; lia).
      rewrite puts_eq by (rewrite prism12_len, skipn_length; lia). f_equal. rewrite prism12_len, skipn_skipn_len. unfold L. rewrite (seq_S q), flat_map_app. cbn [flat_map plus]. rewrite app_nil_r, <- !app_assoc. do 2 f_equal. change (fst (fst (T q)), snd (fst (T q)), snd (T q)) with (T q) in *. fold (T q) in EP. rewrite <- EP. f_equal. f_equal. lia.
Qed.

(** * chains *)
Open Scope Z_scope.
Definition b2z (b : bool) : Z := if b then 1 else 0.
Definition zt (s t : nat * nat * nat) : Z := b2z (rotation s t) - b2z (rotation (flip s) t).
Fixpoint zs {A} (f : A -> Z) (l : list A) : Z := match l with [] => 0 | a :: r => f a + zs f r end.
Lemma zs_app : forall A (f : A -> Z) l r, zs f (l ++ r) = zs f l + zs f r.
Proof. induction l; intros; cbn [app zs]; [lia|]. rewrite IHl. lia. Qed.
Lemma zs_map : forall A B (g : A -> B) f l, zs f (map g l) = zs (fun a => f (g a)) l.
Proof. induction l; cbn [map zs]; congruence. Qed.
Lemma zs_ext : forall A (f g : A -> Z) l, (forall a, In a l -> f a = g a) -> zs f l = zs g l.
Proof. induction l; intros H; cbn [zs]; [reflexivity|]. rewrite IHl, H by (intros; try apply H; cbn; auto). reflexivity. Qed.
Lemma zs_plus : forall A (f g : A -> Z) l, zs (fun a => f a + g a) l = zs f l + zs g l.
Proof. induction l; cbn [zs]; lia. Qed.
Lemma zs_opp : forall A (f : A -> Z) l, zs (fun a => - f a) l = - zs f l.
Proof. induction l; cbn [zs]; lia. Qed.
Lemma zs_flat : forall A B (F : A -> list B) f l, zs f (flat_map F l) = zs (fun a => zs f (F a)) l.
Proof. induction l; cbn [flat_map zs]; [reflexivity|]. rewrite zs_app, IHl. reflexivity. Qed.
Lemma zs_perm : forall A (f : A -> Z) l r, Permutation l r -> zs f l = zs f r.
Proof. intros A f l r H. induction H; cbn [zs]; lia. Qed.
Lemma zs_zt : forall s L, zs (zt s) L = Z.of_nat (times s L) - Z.of_nat (times (flip s) L).
Proof.
  induction L as [|t L IH]; [reflexivity|]. cbn [zs]. rewrite IH. unfold times. cbn [filter]. unfold zt. destruct (rotation s t), (rotation (flip s) t); cbn [b2z length]; lia.
Qed.
Lemma chain_iff : forall L M, same_chain L M <-> forall s, zs (zt s) L = zs (zt s) M.
Proof.
  intros L M. unfold same_chain. split; intros H s; specialize (H s); rewrite ?zs_zt in *; change (reversed s) with (flip s) in *; lia.
Qed.
Lemma zt_turn : forall s t, zt s (turn t) = zt s t.
Proof.
  intros s t. unfold zt. assert (R : forall s, rotation s (turn t) = rotation s t) by (intros u; apply eq_true_iff_eq; rewrite !rot_canon, canon_turn; reflexivity). rewrite !R. reflexivity.
Qed.
Lemma zt_flip : forall s t, zt s (flip t) = - zt s t.
Proof. intros s t. unfold zt. rewrite <- !flip_rot. assert (E : flip (flip s) = s) by (destruct s as [[a b] c]; reflexivity). rewrite E. lia. Qed.
Lemma zt_rot : forall s a b c, zt s (b, c, a) = zt s (a, b, c) /\ zt s (c, a, b) = zt s (a, b, c) /\ zt s (a, c, b) = - zt s (a, b, c) /\ zt s (c, b, a) = - zt s (a, b, c) /\ zt s (b, a, c) = - zt s (a, b, c).
Proof.
  intros s a b c. pose proof (zt_turn s (a, b, c)) as T1. pose proof (zt_turn s (turn (a, b, c))) as T2. pose proof (zt_flip s (a, b, c)) as F1. pose proof (zt_turn s (flip (a, b, c))) as T3. pose proof (zt_turn s (turn (flip (a, b, c)))) as T4.
  cbn [turn flip] in *. repeat split; lia.
Qed.
Lemma zt_deg : forall s a b, zt s (a, a, b) = 0 /\ zt s (a, b, b) = 0.
Proof. intros s a b. pose proof (zt_rot s a a b) as (A & B & C & D & E). pose proof (zt_rot s a b b) as (A' & B' & C' & D' & E'). split; lia. Qed.
Definition zw (s : nat * nat * nat) (n l : nat) (e : nat * nat) : Z := zs (zt s) (wall n l e).
Lemma zw_swap : forall s n l a b, zw s n l (b, a) = - zw s n l (a, b).
Proof.
  intros s n l a b. unfold zw, wall. set (a0 := (l * n + a)%nat). set (b0 := (l * n + b)%nat). set (a1 := ((l + 1) * n + a)%nat). set (b1 := ((l + 1) * n + b)%nat).
  destruct (Nat.ltb_spec a b), (Nat.ltb_spec b a); try lia; cbn [zs].
  - pose proof (zt_rot s b0 a0 b1) as (_ & _ & _ & _ & E1). pose proof (zt_rot s a0 b1 a1) as (E2 & E3 & E4 & E5 & E6). pose proof (zt_rot s a0 a1 b1) as (_ & _ & _ & _ & E7). lia.
  - pose proof (zt_rot s b0 a0 a1) as (_ & _ & _ & _ & E1). pose proof (zt_rot s b0 b1 a1) as (E2 & E3 & E4 & E5 & E6). lia.
  - assert (a = b) by lia. subst b. unfold a0, a1, b0, b1. destruct (zt_deg s (l * n + a) ((l + 1) * n + a)) as (Z1 & Z2). rewrite Z1, Z2. reflexivity.
Qed.
Definition zcap (s : nat * nat * nat) (n l : nat) (t : nat * nat * nat) : Z := zt s (in_layer n l t).
Definition zedge (s : nat * nat * nat) (n l : nat) (t : nat * nat * nat) : Z := let '(a, b, c) := t in zw s n l (a, b) + zw s n l (b, c) + zw s n l (c, a).
Lemma prism12_chain : forall s n l a b c, (b < a)%nat -> (c < a)%nat -> b <> c -> zs (zt s) (faces (prism12 n l a b c)) = zcap s n (l + 1) (a, b, c) - zcap s n l (a, b, c) + zedge s n l (a, b, c).
Proof.
  intros s n l a b c Hb Hc Hn. unfold prism12, zedge, zw, wall, zcap, in_layer. replace (l + 0)%nat with l by lia.
  set (q0 := (l * n + a)%nat). set (q1 := ((l + 1) * n + a)%nat). set (q2 := (l * n + b)%nat). set (q3 := ((l + 1) * n + b)%nat). set (q4 := (l * n + c)%nat). set (q5 := ((l + 1) * n + c)%nat).
  replace (b <? a)%nat with true by (symmetry; apply Nat.ltb_lt; lia). replace (a <? c)%nat with false by (symmetry; apply Nat.ltb_ge; lia).
  clearbody q0 q1 q2 q3 q4 q5. pose proof (zt_rot s) as R.
  destruct (c <? b)%nat; cbn [app faces zs].
  - destruct (R q0 q2 q4) as (? & ? & ? & ? & ?). destruct (R q0 q1 q2) as (? & ? & ? & ? & ?). destruct (R q0 q1 q4) as (? & ? & ? & ? & ?). destruct (R q1 q2 q4) as (? & ? & ? & ? & ?).
    destruct (R q1 q3 q2) as (? & ? & ? & ? & ?). destruct (R q1 q3 q4) as (? & ? & ? & ? & ?). destruct (R q3 q2 q4) as (? & ? & ? & ? & ?). destruct (R q1 q3 q5) as (? & ? & ? & ? & ?). destruct (R q1 q4 q5) as (? & ? & ? & ? & ?). destruct (R q3 q4 q5) as (? & ? & ? & ? & ?). lia.
  - destruct (R q0 q2 q4) as (? & ? & ? & ? & ?). destruct (R q0 q1 q2) as (? & ? & ? & ? & ?). destruct (R q0 q1 q4) as (? & ? & ? & ? & ?). destruct (R q1 q2 q4) as (? & ? & ? & ? & ?).
    destruct (R q1 q2 q5) as (? & ? & ? & ? & ?). destruct (R q1 q2 q3) as (? & ? & ? & ? & ?). destruct (R q1 q5 q3) as (? & ? & ? & ? & ?). destruct (R q2 q5 q3) as (? & ? & ? & ? & ?). destruct (R q1 q4 q5) as (? & ? & ? & ? & ?). destruct (R q2 q4 q5) as (? & ? & ? & ? & ?). lia.
Qed.
Lemma rotated_cases : forall a b c, distinct (a, b, c) ->
  (rotated a b c = (a, b, c) /\ b < a /\ c < a)%nat \/ (rotated a b c = (b, c, a) /\ c < b /\ a < b)%nat \/ (rotated a b c = (c, a, b) /\ a < c /\ b < c)%nat.
Proof.
  intros a b c (H1 & H2 & H3). unfold rotated. destruct (Nat.ltb_spec b a), (Nat.ltb_spec c a), (Nat.ltb_spec a b), (Nat.ltb_spec c b), (Nat.ltb_spec a c), (Nat.ltb_spec b c); cbn [andb]; try lia; auto.
Qed.
Lemma prism_chain : forall s n l t, distinct t -> zs (zt s) (faces (prism n l t)) = zcap s n (l + 1) t - zcap s n l t + zedge s n l t.
Proof.
  intros s n l [[a b] c] D. pose proof D as (D1 & D2 & D3). unfold prism. destruct (rotated_cases a b c D) as [(-> & H1 & H2)|[(-> & H1 & H2)|(-> & H1 & H2)]]; rewrite prism12_chain by lia; unfold zcap, in_layer, zedge.
  - reflexivity.
  - destruct (zt_rot s ((l + 1) * n + a) ((l + 1) * n + b) ((l + 1) * n + c)) as (E1 & _). destruct (zt_rot s (l * n + a) (l * n + b) (l * n + c)) as (E2 & _). lia.
  - destruct (zt_rot s ((l + 1) * n + a) ((l + 1) * n + b) ((l + 1) * n + c)) as (_ & E1 & _). destruct (zt_rot s (l * n + a) (l * n + b) (l * n + c)) as (_ & E2 & _). lia.
Qed.
Lemma faces_app : forall x y, (length x mod 4 = 0)%nat -> faces (x ++ y) = faces x ++ faces y.
Proof.
  intros x y. induction x as [l Hl|a b c d l IH] using list4_ind; intros H.
  - rewrite Nat.mod_small in H by exact Hl. destruct l; [reflexivity|discriminate].
  - cbn [app faces]. rewrite IH; [reflexivity|]. cbn [length] in H. replace (S (S (S (S (length l))))) with (length l + 1 * 4)%nat in H by lia. rewrite Nat.mod_add in H by lia. exact H.
Qed.
Lemma faces_flat : forall A (F : A -> list nat) l, (forall a, In a l -> (length (F a) mod 4 = 0)%nat) -> faces (flat_map F l) = flat_map (fun a => faces (F a)) l.
Proof. induction l; intros H; [reflexivity|]. cbn [flat_map]. rewrite faces_app by (apply H; left; reflexivity). rewrite IHl by (intros; apply H; right; assumption). reflexivity. Qed.
Lemma edge_times_count : forall e E, edge_times e E = count_occ edge_dec E e.
Proof.
  intros [a b] E. induction E as [|[x y] E IH]; [reflexivity|]. unfold edge_times in *. cbn [filter fst snd count_occ]. cbn [fst snd] in IH. destruct (edge_dec (x, y) (a, b)) as [Q|Q].
  - injection Q. intros -> ->. rewrite !Nat.eqb_refl. cbn [andb length]. rewrite IH. reflexivity.
  - destruct (Nat.eqb_spec x a), (Nat.eqb_spec y b); cbn [andb]; try exact IH. subst. contradiction.
Qed.
Lemma border_sum : forall T B (f : nat * nat -> Z), border T B -> (forall a b, f (b, a) = - f (a, b)) -> zs f (edges_of T) = zs f B.
Proof.
  intros T B f HB Hf. assert (P : Permutation (edges_of T ++ map swap B) (B ++ map swap (edges_of T))).
  { apply (Permutation_count_occ edge_dec). intros [a b]. rewrite !count_occ_app, !count_swap. pose proof (HB a b) as H. rewrite !edge_times_count in H. exact H. }
  apply (zs_perm _ f) in P. rewrite !zs_app, !zs_map in P.
  assert (O : forall L, zs (fun e => f (swap e)) L = - zs f L) by (intros L; rewrite <- zs_opp; apply zs_ext; intros [a b] _; apply Hf). rewrite !O in P. lia.
Qed.
Lemma extrude_chain : forall n tri nl B, (forall t, In t (tris tri) -> distinct t) -> border (tris tri) B ->
  same_chain (faces (flat_map (fun l => flat_map (prism n l) (tris tri)) (seq 0 nl)))
    (map reversed (map (in_layer n 0) (tris tri)) ++ map (in_layer n nl) (tris tri) ++ flat_map (fun l => flat_map (wall n l) B) (seq 0 nl)).
Proof.
  intros n tri nl B HD HB. apply chain_iff. intros s. set (T := tris tri) in *.
  assert (M12 : forall l t, (length (prism n l t) mod 4 = 0)%nat) by (intros; rewrite prism_len; reflexivity).
  rewrite faces_flat by (intros l _; rewrite (flat_map_len _ _ _ 12) by (intros; apply prism_len); replace (12 * length T)%nat with (3 * length T * 4)%nat by lia; apply Nat.mod_mul; lia).
  rewrite zs_flat, !zs_app, !zs_map, zs_flat.
  rewrite (zs_ext _ (fun a => zt s (reversed (in_layer n 0 a))) (fun a => - zcap s n 0 a)) by (intros a _; apply (zt_flip s (in_layer n 0 a))). rewrite zs_opp. change (zs (fun a => zt s (in_layer n nl a)) T) with (zs (zcap s n nl) T).
  rewrite (zs_ext _ (fun l => zs (zt s) (faces (flat_map (prism n l) T))) (fun l => zs (zcap s n (l + 1)) T - zs (zcap s n l) T + zs (zt s) (flat_map (wall n l) B))).
  - rewrite zs_plus. induction nl as [|nl IH]; [cbn [seq zs]; lia|]. rewrite seq_S, !zs_app. cbn [zs plus]. replace (nl + 1)%nat with (S nl) in * by lia. lia.
  - intros l _. rewrite faces_flat by (intros; apply M12). rewrite zs_flat, zs_flat. change (zs (fun a => zs (zt s) (wall n l a)) B) with (zs (zw s n l) B). rewrite <- (border_sum T B (zw s n l) HB) by (intros; apply zw_swap).
    rewrite (zs_ext _ (fun a => zs (zt s) (faces (prism n l a))) (fun a => (zcap s n (l + 1) a + - zcap s n l a) + zedge s n l a)) by (intros a Ha; rewrite prism_chain by (apply HD; exact Ha); lia).
    rewrite !zs_plus, zs_opp. unfold edges_of. rewrite zs_flat. f_equal. apply zs_ext. intros [[a b] c] _. cbn [zs zedge]. lia.
Qed.
Close Scope Z_scope.

(** * positions and volumes *)
Lemma nth_flat : forall A (F : nat -> list A) w d n q j, (forall a, length (F a) = w) -> (q < n)%nat -> (j < w)%nat -> nth (w * q + j) (flat_map F (seq 0 n)) d = nth j (F q) d.
Proof.
  intros A F w d n q j HF. induction n; intros Hq Hj; [lia|]. rewrite seq_S, flat_map_app. assert (L : length (flat_map F (seq 0 n)) = w * n) by (rewrite (flat_map_len _ _ _ w) by auto; rewrite seq_length; reflexivity).
  destruct (Nat.eq_dec q n) as [->|N].
  - rewrite app_nth2 by (rewrite L; lia). rewrite L. replace (w * n + j - w * n) with j by lia. cbn [plus flat_map]. rewrite app_nil_r. reflexivity.
  - rewrite app_nth1; [apply IHn; lia|]. rewrite L. assert (w * S q <= w * n) by (apply Nat.mul_le_mono_l; lia). lia.
Qed.
Lemma tet_corner : forall n tri nl l t k c, l < nl -> t < length tri / 3 -> k < 3 -> c < 4 ->
  cor 4 (flat_map (fun l => flat_map (prism n l) (tris tri)) (seq 0 nl)) (3 * (l * (length tri / 3) + t) + k) c = nth (4 * k + c) (prism n l (cor 3 tri t 0, cor 3 tri t 1, cor 3 tri t 2)) 0.
Proof.
  intros n tri nl l t k c Hl Ht Hk Hc. set (m := length tri / 3) in *. unfold cor at 1.
  set (G := fun l => flat_map (fun t => prism n l (cor 3 tri t 0, cor 3 tri t 1, cor 3 tri t 2)) (seq 0 m)).
  assert (LT : forall l, flat_map (prism n l) (tris tri) = G l) by (intros; rewrite tris_seq; fold m; rewrite flat_map_concat_map, map_map, <- flat_map_concat_map; reflexivity).
  rewrite (flat_map_ext _ _ LT). assert (LG : forall l, length (G l) = 12 * m) by (intros; unfold G; rewrite (flat_map_len _ _ _ 12) by (intros; apply prism_len); rewrite seq_length; reflexivity).
  replace (4 * (3 * (l * m + t) + k) + c) with (12 * m * l + (12 * t + (4 * k + c))) by lia.
  rewrite (nth_flat _ G (12 * m)) by (auto || lia). unfold G. rewrite (nth_flat _ _ 12) by (intros; apply prism_len || lia). reflexivity.
Qed.
Open Scope R_scope.
Lemma place : forall n l i l' i', (i < n)%nat -> (i' < n)%nat -> (l * n + i = l' * n + i')%nat -> l = l' /\ i = i'.
Proof.
  intros n l i l' i' Hi Hi' E. destruct (lt_eq_lt_dec l l') as [[L|L]|L].
  - exfalso. assert (S l * n <= l' * n)%nat by (apply Nat.mul_le_mono_r; lia). lia.
  - subst. split; [reflexivity|lia].
  - exfalso. assert (S l' * n <= l * n)%nat by (apply Nat.mul_le_mono_r; lia). lia.
Qed.
Lemma extrude_points : forall nl h old xy, wp (let nXY := (length xy / 2)%nat in forn 0 (nl + 1) (fun il a => forn 0 nXY (fun ixy a =>
    x <- vget xy (ixy * 2 + 0) ;; y <- vget xy (ixy * 2 + 1) ;;
    a <- vset a (il * nXY * 3 + ixy * 3 + 0) x ;; a <- vset a (il * nXY * 3 + ixy * 3 + 1) y ;; vset a (il * nXY * 3 + ixy * 3 + 2) (INR il * h)) a) (vresize 0 old (nXY * (nl + 1) * 3)))
  (fun a => length a = (length xy / 2 * (nl + 1) * 3)%nat /\ forall l i, (l <= nl)%nat -> (i < length xy / 2)%nat -> pnt a (l * (length xy / 2) + i) = V3 (nth (2 * i) xy 0) (nth (2 * i + 1) xy 0) (INR l * h)).
Proof.
  intros nl h old xy. cbv zeta. set (n := (length xy / 2)%nat). pose proof (Nat.mul_div_le (length xy) 2 ltac:(lia)) as D. fold n in D.
  set (I := fun q a => length a = (n * (nl + 1) * 3)%nat /\ forall l i, (i < n)%nat -> (l * n + i < q)%nat -> pnt a (l * n + i) = V3 (nth (2 * i) xy 0) (nth (2 * i + 1) xy 0) (INR l * h)).
  apply (wp_forn _ (fun il a => I (il * n)%nat a)); [lia|split; [apply length_vresize|intros; lia]| |].
  - intros il a Hil HI. assert (Bn : (S il * n <= (nl + 1) * n)%nat) by (apply Nat.mul_le_mono_r; lia).
    apply (wp_forn _ (fun q a => I (il * n + q)%nat a)); [lia|rewrite Nat.add_0_r; exact HI| |intros b Hb; replace (S il * n)%nat with (il * n + n)%nat by lia; exact Hb].
    intros q b Hq (Lb & Pb). rewrite !(vgetn R 0) by lia. cbn [bind]. replace (il * n * 3 + q * 3)%nat with ((il * n + q) * 3)%nat by lia.
    change (wp (put3 b (il * n + q) (V3 (nth (q * 2 + 0) xy 0) (nth (q * 2 + 1) xy 0) (INR il * h))) (I (il * n + S q)%nat)).
    apply wp_put3; [lia|]. intros c Lc Pc Nc. split; [lia|]. intros l i Hi Hli. destruct (Nat.eq_dec (l * n + i) (il * n + q)) as [E|N].
    + destruct (place n l i il q Hi ltac:(lia) E) as (-> & ->). rewrite Pc. f_equal; f_equal; lia.
    + rewrite (pnt_same b c) by (intros; apply Nc; lia). apply Pb; [exact Hi|lia].
  - intros a (La & Pa). split; [exact La|]. intros l i Hl Hi. apply Pa; [exact Hi|]. assert (S l * n <= (nl + 1) * n)%nat by (apply Nat.mul_le_mono_r; lia). lia.
Qed.
Definition tri2 (x y : nat -> R) (a b c : nat) : R := ((x b - x a) * (y c - y a) - (x c - x a) * (y b - y a)) / 2.
Definition vol_at (X : nat -> vec3) (l : list nat) (k : nat) : R := volume (X (nth (4 * k + 0) l 0%nat)) (X (nth (4 * k + 1) l 0%nat)) (X (nth (4 * k + 2) l 0%nat)) (X (nth (4 * k + 3) l 0%nat)).
Lemma prism12_vol : forall (X : nat -> vec3) x y h n l a b c k, (forall i, In i [a; b; c] -> X (l * n + i)%nat = V3 (x i) (y i) (INR l * h) /\ X ((l + 1) * n + i)%nat = V3 (x i) (y i) (INR (l + 1) * h)) -> (k < 3)%nat ->
  vol_at X (prism12 n l a b c) k = h * tri2 x y a b c / 3.
Proof.
  intros X x y h n l a b c k HX Hk. unfold prism12. replace (l + 0)%nat with l by lia.
  destruct (HX a ltac:(cbn; auto)) as (A0 & A1). destruct (HX b ltac:(cbn; auto)) as (B0 & B1). destruct (HX c ltac:(cbn; auto)) as (C0 & C1). rewrite plus_INR in A1, B1, C1. cbn [INR] in A1, B1, C1.
  unfold vol_at. destruct k as [|[|[|k]]]; [..|lia]; destruct (c <? b)%nat; cbn [app nth Nat.mul Nat.add]; rewrite ?A0, ?A1, ?B0, ?B1, ?C0, ?C1; unfold volume, volume6, tri2; cbn [vx vy vz]; field.
Qed.
Lemma prism_vol : forall (X : nat -> vec3) x y h n l a b c k, distinct (a, b, c) -> (forall i, In i [a; b; c] -> X (l * n + i)%nat = V3 (x i) (y i) (INR l * h) /\ X ((l + 1) * n + i)%nat = V3 (x i) (y i) (INR (l + 1) * h)) -> (k < 3)%nat ->
  vol_at X (prism n l (a, b, c)) k = h * tri2 x y a b c / 3.
Proof.
  intros X x y h n l a b c k D HX Hk. unfold prism. destruct (rotated_cases a b c D) as [(-> & _)|[(-> & _)|(-> & _)]]; rewrite (prism12_vol X x y h) by (try exact Hk; intros i Hi; apply HX; cbn [In] in *; tauto); unfold tri2; field.
Qed.
Lemma prism_range : forall n nl l a b c i, (l < nl)%nat -> (a < n)%nat -> (b < n)%nat -> (c < n)%nat -> distinct (a, b, c) -> In i (prism n l (a, b, c)) -> (i < n * (nl + 1))%nat.
Proof.
  intros n nl l a b c i Hl Ha Hb Hc D H. assert (B : (n * (l + 2) <= n * (nl + 1))%nat) by (apply Nat.mul_le_mono_l; lia).
  assert (G : forall x y z, (x < n)%nat -> (y < n)%nat -> (z < n)%nat -> In i (prism12 n l x y z) -> (i < n * (nl + 1))%nat).
  { intros x y z Hx Hy Hz Hi. unfold prism12 in Hi. destruct (z <? y)%nat; cbn [app In] in Hi; nia. }
  unfold prism in H. destruct (rotated_cases a b c D) as [(E & _)|[(E & _)|(E & _)]]; rewrite E in H; apply G in H; assumption.
Qed.
Lemma extrude_proof : forall nl h old oldT xy tri, (forall i, In i tri -> (i < length xy / 2)%nat) -> (forall t, (t < length tri / 3)%nat -> cor 3 tri t 0 <> cor 3 tri t 1 /\ cor 3 tri t 1 <> cor 3 tri t 2 /\ cor 3 tri t 2 <> cor 3 tri t 0) ->
  let n := (length xy / 2)%nat in let m := (length tri / 3)%nat in
  exists a tet, ExtrudeTri2Tet nl h old oldT xy tri = Some (a, tet) /\ length a = (n * (nl + 1) * 3)%nat /\ length tet = (12 * m * nl)%nat /\ valid tet a /\
    (forall l i, (l <= nl)%nat -> (i < n)%nat -> pnt a (l * n + i) = V3 (nth (2 * i) xy 0) (nth (2 * i + 1) xy 0) (INR l * h)) /\
    (forall l t k, (l < nl)%nat -> (t < m)%nat -> (k < 3)%nat -> tet_vol a tet (3 * (l * m + t) + k) = h * tri_area2 xy tri t / 3) /\
    (forall B, border (tris tri) B -> same_chain (faces tet) (map reversed (map (in_layer n 0) (tris tri)) ++ map (in_layer n nl) (tris tri) ++ flat_map (fun l => flat_map (wall n l) B) (seq 0 nl))).
Proof.
  intros nl h old oldT xy tri Hv Hd n m. pose proof (extrude_points nl h old xy) as W. cbv zeta in W. fold n in W. apply wp_iff in W. destruct W as (a & Ea & La & Pa).
  assert (HD : forall t, In t (tris tri) -> distinct t) by (intros t Ht; rewrite tris_seq in Ht; apply in_map_iff in Ht; destruct Ht as (q & <- & Hq); apply in_seq in Hq; apply Hd; lia).
  pose proof (topology n tri nl (vresize 0%nat oldT (m * nl * 3 * 4)) HD) as Et. fold m in Et. rewrite length_vresize in Et. specialize (Et ltac:(lia)).
  set (tet := flat_map (fun l => flat_map (prism n l) (tris tri)) (seq 0 nl)) in *. exists a, tet. split.
  { unfold ExtrudeTri2Tet. fold n m. rewrite Ea. cbn [bind]. rewrite Et. reflexivity. }
  split; [exact La|]. split.
  { unfold tet. rewrite (flat_map_len _ _ _ (12 * m)); [rewrite seq_length; reflexivity|]. intros l _. rewrite (flat_map_len _ _ _ 12) by (intros; apply prism_len). rewrite tris_seq, map_length, seq_length. reflexivity. }
  pose proof (Nat.mul_div_le (length tri) 3 ltac:(lia)) as D3. fold m in D3.
  assert (Bc : forall t k, (t < m)%nat -> (k < 3)%nat -> (cor 3 tri t k < n)%nat) by (intros; apply Hv, nth_In; lia).
  split; [|split; [exact Pa|split]].
  - intros i Hi. unfold tet in Hi. apply in_flat_map in Hi. destruct Hi as (l & Hl & Hi). apply in_flat_map in Hi. destruct Hi as (t & Ht & Hi). pose proof (HD t Ht) as Dt. rewrite tris_seq in Ht. apply in_map_iff in Ht. destruct Ht as (q & <- & Hq). apply in_seq in Hq. apply in_seq in Hl. fold m in Hq.
    apply (prism_range n nl) in Hi; [rewrite La; lia|lia|apply Bc; lia..|exact Dt].
  - intros l t k Hl Ht Hk. unfold tet_vol, at_corner. unfold tet. rewrite !tet_corner by (fold m; lia).
    change (vol_at (pnt a) (prism n l (cor 3 tri t 0, cor 3 tri t 1, cor 3 tri t 2)) k = h * tri_area2 xy tri t / 3).
    rewrite (prism_vol (pnt a) (fun i => nth (2 * i) xy 0) (fun i => nth (2 * i + 1) xy 0) h); [reflexivity|exact (Hd t Ht)| |exact Hk].
    intros i Hi. assert (Hin : (i < n)%nat) by (cbn [In] in Hi; destruct Hi as [<-|[<-|[<-|[]]]]; apply Bc; lia). split; apply Pa; lia.
  - intros B HB. apply extrude_chain; assumption.
Qed.
