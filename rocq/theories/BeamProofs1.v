(** Beams and damping. *)
From Coq Require Import List Arith Bool Reals Lra Lia.
Import ListNotations.
From Verif Require Import Imp PrModel GjkProofs1 MeasSpec MeasProofs2 MeasProofs3 BspProofs1 BeamModel BeamSpec.
Open Scope R_scope.

Definition bilin (EI AE : R) (x u v : nat -> nat -> R) : R :=
  AE / len x * (stretch x u * stretch x v) + EI / len x * (4 * (bend x u 0 * bend x v 0) + 2 * (bend x u 0 * bend x v 1) + 2 * (bend x u 1 * bend x v 0) + 4 * (bend x u 1 * bend x v 1)).
Lemma work_ok : forall EI AE x u dW ddW, dWddW_Beam2 EI AE x u = Some (dW, ddW) -> len x <> 0 /\ (forall v, work dW v = bilin EI AE x u v) /\
  (forall n m i j, ddW n m i j = ddW m n j i) /\ (forall v w, work (fun n i => ddW n 0%nat i 0%nat * v 0%nat 0%nat + ddW n 0%nat i 1%nat * v 0%nat 1%nat + ddW n 0%nat i 2%nat * v 0%nat 2%nat + ddW n 1%nat i 0%nat * v 1%nat 0%nat + ddW n 1%nat i 1%nat * v 1%nat 1%nat + ddW n 1%nat i 2%nat * v 1%nat 2%nat) w = bilin EI AE x v w).
Proof.
  intros EI AE x u dW ddW H. unfold dWddW_Beam2 in H. cbv zeta in H. fold (dx x) in H. fold (dy x) in H. fold (len x) in H. pose proof (eqRs (len x) 0) as Q. destruct (eqR (len x) 0); [discriminate|].
  assert (G : forall v w : nat -> nat -> R, let c := eR (dx x * (1 / len x)) (dy x * (1 / len x)) in let dd := fun p q i j : nat => sum3 (fun n => sum3 (fun m => c i n * eC EI AE (len x) p q n m * c j m)) in
    work (fun n i => dd n 0%nat i 0%nat * v 0%nat 0%nat + dd n 0%nat i 1%nat * v 0%nat 1%nat + dd n 0%nat i 2%nat * v 0%nat 2%nat + dd n 1%nat i 0%nat * v 1%nat 0%nat + dd n 1%nat i 1%nat * v 1%nat 1%nat + dd n 1%nat i 2%nat * v 1%nat 2%nat) w = bilin EI AE x v w).
  { intros v w c dd. unfold bilin, bend, turn, stretch, work, dd, c, sum3, eR, eC. set (L := len x) in *. set (X := dx x). set (Y := dy x). unfold dx, dy. field. exact Q. }
  injection H as <- <-. split; [exact Q|]. split; [intros v; apply (G u v)|]. split; [|intros v w; apply (G v w)].
  intros n m i j. assert (S : forall a b, eC EI AE (len x) n m a b = eC EI AE (len x) m n b a). { intros a b. unfold eC. destruct n as [|[|n]], m as [|[|m]], a as [|[|[|a]]], b as [|[|[|b]]]; reflexivity. }
  unfold sum3. rewrite !S. ring.
Qed.
Lemma beam_some : forall EI AE x u, (dx x <> 0 \/ dy x <> 0) -> exists dW ddW, dWddW_Beam2 EI AE x u = Some (dW, ddW).
Proof.
  intros EI AE x u H. unfold dWddW_Beam2. cbv zeta. fold (dx x). fold (dy x). fold (len x). pose proof (eqRs (len x) 0) as Q. destruct (eqR (len x) 0); [|eauto]. exfalso. unfold len in Q. apply sqrt_eq_0 in Q; [|nra]. destruct H as [H|H]; apply H; nra.
Qed.
Lemma beam_none : forall EI AE x u, dx x = 0 -> dy x = 0 -> dWddW_Beam2 EI AE x u = None.
Proof. intros EI AE x u A B. unfold dWddW_Beam2. cbv zeta. fold (dx x). fold (dy x). rewrite A, B. replace (0 * 0 + 0 * 0) with 0 by ring. rewrite sqrt_0. pose proof (eqRs 0 0) as Q. destruct (eqR 0 0); [auto|congruence]. Qed.
Lemma len_sq : forall x, len x * len x = dx x * dx x + dy x * dy x. Proof. intros. unfold len. apply sqrt_sqrt. nra. Qed.
Lemma len_pos : forall x, len x <> 0 -> 0 < len x. Proof. intros x H. pose proof (sqrt_pos (dx x * dx x + dy x * dy x)) as P. fold (len x) in P. lra. Qed.
Lemma energy_bilin : forall EI AE x u, beam_energy EI AE x u = bilin EI AE x u u / 2.
Proof. intros. unfold beam_energy, bilin. set (p := AE / len x). set (q := EI / len x). field. Qed.
Lemma bilin_add : forall EI AE x u v, len x <> 0 -> beam_energy EI AE x (fun n i => u n i + v n i) = beam_energy EI AE x u + bilin EI AE x u v + beam_energy EI AE x v.
Proof. intros EI AE x u v L. unfold beam_energy, bilin, bend, stretch, turn. set (X := dx x). set (Y := dy x). set (l := len x) in *. unfold dx, dy. field. exact L. Qed.
Lemma bilin_sym : forall EI AE x u v, bilin EI AE x u v = bilin EI AE x v u. Proof. intros. unfold bilin. ring. Qed.
Lemma rigid_zero : forall x u, len x <> 0 -> rigid x u -> stretch x u = 0 /\ bend x u 0 = 0 /\ bend x u 1 = 0.
Proof.
  intros x u L (t & A & B & C & D). unfold stretch, bend, turn. rewrite A, B, C, D, len_sq. pose proof (len_sq x) as S. assert (N : dx x * dx x + dy x * dy x <> 0). { rewrite <- S. apply Rmult_integral_contrapositive_currified; auto. }
  repeat split; field; auto.
Qed.
Lemma zero_rigid : forall x u, len x <> 0 -> stretch x u = 0 -> bend x u 0 = 0 -> bend x u 1 = 0 -> rigid x u.
Proof.
  intros x u L A B C. unfold bend in *. exists (turn x u). split; [lra|]. split; [lra|]. unfold stretch, turn in *. rewrite len_sq in *. pose proof (len_sq x) as S. assert (N : dx x * dx x + dy x * dy x <> 0). { rewrite <- S. apply Rmult_integral_contrapositive_currified; auto. }
  assert (A' : dx u * dx x + dy u * dy x = 0). { replace (dx u * dx x + dy u * dy x) with ((dx u * dx x + dy u * dy x) / len x * len x) by (field; auto). rewrite A. ring. }
  split; apply Rmult_eq_reg_r with (dx x * dx x + dy x * dy x); auto.
  - replace (- ((dy u * dx x - dx u * dy x) / (dx x * dx x + dy x * dy x)) * dy x * (dx x * dx x + dy x * dy x)) with (- (dy u * dx x - dx u * dy x) * dy x) by (field; auto). replace (dx u * (dx x * dx x + dy x * dy x)) with ((dx u * dx x + dy u * dy x) * dx x - (dy u * dx x - dx u * dy x) * dy x) by ring. rewrite A'. ring.
  - replace ((dy u * dx x - dx u * dy x) / (dx x * dx x + dy x * dy x) * dx x * (dx x * dx x + dy x * dy x)) with ((dy u * dx x - dx u * dy x) * dx x) by (field; auto). replace (dy u * (dx x * dx x + dy x * dy x)) with ((dx u * dx x + dy u * dy x) * dy x + (dy u * dx x - dx u * dy x) * dx x) by ring. rewrite A'. ring.
Qed.
Lemma energy_pos : forall EI AE x u, 0 <= EI -> 0 <= AE -> len x <> 0 -> 0 <= beam_energy EI AE x u.
Proof.
  intros EI AE x u I A L. apply len_pos in L. unfold beam_energy. assert (0 <= AE / len x) by (apply Rmult_le_pos; [auto|apply Rlt_le, Rinv_0_lt_compat; auto]). assert (0 <= EI / len x) by (apply Rmult_le_pos; [auto|apply Rlt_le, Rinv_0_lt_compat; auto]).
  apply Rplus_le_le_0_compat; [unfold Rdiv at 1; apply Rmult_le_pos; [apply Rmult_le_pos; [auto|nra]|lra]|apply Rmult_le_pos; [auto|nra]].
Qed.
Lemma energy_zero : forall EI AE x u, 0 < EI -> 0 < AE -> len x <> 0 -> beam_energy EI AE x u = 0 -> rigid x u.
Proof.
  intros EI AE x u I A L E. pose proof (len_pos x L) as P. unfold beam_energy in E. assert (A' : 0 < AE / len x) by (apply Rmult_lt_0_compat; [auto|apply Rinv_0_lt_compat; auto]). assert (I' : 0 < EI / len x) by (apply Rmult_lt_0_compat; [auto|apply Rinv_0_lt_compat; auto]).
  set (p := AE / len x) in *. set (q := EI / len x) in *. set (s := stretch x u) in *. set (a := bend x u 0) in *. set (b := bend x u 1) in *.
  assert (S1 : 0 <= s * s) by nra. assert (S2 : 0 <= 2 * (a * a) + 2 * (a * b) + 2 * (b * b)) by nra. assert (T1 : 0 <= p * (s * s) / 2) by (unfold Rdiv; apply Rmult_le_pos; [apply Rmult_le_pos; lra|lra]). assert (T2 : 0 <= q * (2 * (a * a) + 2 * (a * b) + 2 * (b * b))) by (apply Rmult_le_pos; lra).
  assert (Z1 : p * (s * s) = 0) by lra. assert (Z2 : q * (2 * (a * a) + 2 * (a * b) + 2 * (b * b)) = 0) by lra. apply Rmult_integral in Z1. apply Rmult_integral in Z2. destruct Z1 as [Z1|Z1]; [lra|]. destruct Z2 as [Z2|Z2]; [lra|].
  pose proof (Rle_0_sqr (a + b)) as K1. pose proof (Rle_0_sqr a) as K2. pose proof (Rle_0_sqr b) as K3. unfold Rsqr in *.
  assert (Sa : a * a = 0) by lra. assert (Sb : b * b = 0) by lra. apply zero_rigid; auto; [change (s = 0)|change (a = 0)|change (b = 0)]; apply Rsqr_0_uniq; unfold Rsqr; auto.
Qed.
(** *** Damping *)
Lemma energy_ok : forall v, EnergyKinetic v (length v / 3) = Some (squares v).
Proof.
  intros v. unfold EnergyKinetic, squares. set (f := fun i : nat => nth (i * 3 + 0) v 0 * nth (i * 3 + 0) v 0 + nth (i * 3 + 1) v 0 * nth (i * 3 + 1) v 0 + nth (i * 3 + 2) v 0 * nth (i * 3 + 2) v 0). assert (W : wp (forn 0 (length v / 3) (fun ip E => u0 <- vget v (ip * 3 + 0) ;; v0 <- vget v (ip * 3 + 1) ;; w0 <- vget v (ip * 3 + 2) ;; Some (E + (u0 * u0 + v0 * v0 + w0 * w0))) 0) (fun r => r = sum (length v / 3) f)).
  { pose proof (Nat.div_mod (length v) 3 ltac:(lia)). apply wp_forn with (I := fun i r => r = sum i f); [lia|reflexivity| |auto]. intros i r I ->. rewrite !(vget_nth _ 0) by lia. cbn [bind]. apply wp_some. rewrite sum_S. reflexivity. }
  apply wp_ex in W. destruct W as (x & -> & ->). reflexivity.
Qed.
Definition recent (pre : list (list R)) : list R := map squares (skipn (length pre - 3) pre).
Lemma nth_at : forall (pre vs : list (list R)) v, nth (length pre) (pre ++ v :: vs) [] = v. Proof. intros. apply nth_middle. Qed.
Lemma damp_ok : forall vs pre, exists outs, damp_all (recent pre) vs = Some outs /\ length outs = length vs /\ forall k, (k < length vs)%nat ->
  (peak (pre ++ vs) (length pre + k) -> nth k outs [] = repeat 0 (length (nth k vs []))) /\ (~ peak (pre ++ vs) (length pre + k) -> nth k outs [] = nth k vs []).
Proof.
  induction vs as [|v vs IH]; intros pre; [exists []; repeat split; intros; cbn in *; lia|].
  assert (ST : exists v', Damp (recent pre) v = Some (recent (pre ++ [v]), v') /\ (peak (pre ++ v :: vs) (length pre) -> v' = repeat 0 (length v)) /\ (~ peak (pre ++ v :: vs) (length pre) -> v' = v)).
  { unfold Damp. rewrite energy_ok. cbn [bind]. cbv zeta. unfold peak. rewrite nth_at. unfold recent. rewrite app_length, map_length, skipn_length. cbn [length].
    destruct (Nat.ltb_spec 3 (length pre - (length pre - 3) + 1)) as [G|G].
    - assert (P3 : (3 <= length pre)%nat) by lia. assert (X : exists a b c p, pre = p ++ [a; b; c]).
      { destruct (exists_last (l := pre)) as (p1 & c & ->); [destruct pre; cbn in *; [lia|congruence]|]. rewrite app_length in P3. cbn in P3. destruct (exists_last (l := p1)) as (p2 & b & ->); [destruct p1; cbn in *; [lia|congruence]|]. rewrite app_length in P3. cbn in P3. destruct (exists_last (l := p2)) as (p3 & a & ->); [destruct p2; cbn in *; [lia|congruence]|]. exists a, b, c, p3. rewrite <- !app_assoc. reflexivity. }
      destruct X as (a & b & c & p & ->). rewrite app_length. cbn [length]. replace (length p + 3 - 3)%nat with (length p) by lia. rewrite skipn_app, skipn_all, Nat.sub_diag. cbn [app skipn map]. rewrite <- app_assoc. replace (length (p ++ [a; b; c] ++ [v]) - 3)%nat with (length p + 1)%nat by (rewrite !app_length; cbn [length]; lia).
      replace (skipn (length p + 1) (p ++ [a; b; c] ++ [v])) with [b; c; v]. 2:{ rewrite skipn_app, skipn_all2 by lia. replace (length p + 1 - length p)%nat with 1%nat by lia. reflexivity. }
      cbn [tl map vget nth_error bind]. rewrite <- app_assoc. replace (length p + 3 - 2)%nat with (length (p ++ [a])) by (rewrite app_length; cbn; lia). replace (length p + 3 - 1)%nat with (length (p ++ [a; b])) by (rewrite app_length; cbn; lia).
      replace (nth (length (p ++ [a])) (p ++ [a; b; c] ++ v :: vs) []) with b by (change (p ++ [a; b; c] ++ v :: vs) with (p ++ [a] ++ b :: c :: v :: vs); rewrite app_assoc, nth_at; reflexivity).
      replace (nth (length (p ++ [a; b])) (p ++ [a; b; c] ++ v :: vs) []) with c by (change (p ++ [a; b; c] ++ v :: vs) with (p ++ [a; b] ++ c :: v :: vs); rewrite app_assoc, nth_at; reflexivity).
      pose proof (ltRs 0 (squares c - squares b)) as Q1. pose proof (ltRs (squares v - squares c) 0) as Q2. destruct (ltR 0 (squares c - squares b)); cbn [andb].
      + destruct (ltR (squares v - squares c) 0); eexists; (split; [reflexivity|]); split; intros H; auto; exfalso; [apply H|destruct H as (_ & H1 & H2); lra]. split; [lia|split; lra].
      + eexists. split; [reflexivity|]. split; intros H; auto. exfalso. destruct H as (_ & H1 & H2). lra.
    - assert (P3 : (length pre < 3)%nat) by lia. exists v. split; [|split; intros H; auto; destruct H; lia]. replace (length pre - 3)%nat with 0%nat by lia. replace (length (pre ++ [v]) - 3)%nat with 0%nat by (rewrite app_length; cbn [length]; lia). cbn [skipn]. rewrite map_app. reflexivity. }
  destruct ST as (v' & E & H1 & H2). cbn [damp_all]. rewrite E. cbn [bind]. destruct (IH (pre ++ [v])) as (outs & E' & L & H). rewrite E'. cbn [bind]. exists (v' :: outs). split; [auto|]. split; [cbn; lia|]. intros k K. destruct k as [|k]; [rewrite Nat.add_0_r; cbn [nth]; auto|]. cbn [nth length] in *. specialize (H k ltac:(lia)). rewrite <- app_assoc, app_length in H. cbn [app length] in H. replace (length pre + 1 + k)%nat with (length pre + S k)%nat in H by lia. exact H.
Qed.
