(** Rates of change. *)
From Coq Require Import List Arith Bool Reals Lra Lia.
Import ListNotations.
From Coquelicot Require Import Coquelicot.
From Verif Require Import PrModel MeasSpec EnerModel EnerSpec.
Open Scope R_scope.

Lemma rate_eq : forall f t r r', derivable_pt_lim f t r -> r = r' -> derivable_pt_lim f t r'.
Proof. intros; subst; auto. Qed.
Lemma rate_ext : forall f g t r, (forall s, f s = g s) -> derivable_pt_lim f t r -> derivable_pt_lim g t r.
Proof. intros f g t r E D. apply is_derive_Reals. apply (is_derive_ext f); auto. apply is_derive_Reals, D. Qed.
Lemma rate_const : forall c t, derivable_pt_lim (fun _ => c) t 0.
Proof. intros. apply derivable_pt_lim_const. Qed.
Lemma rate_plus : forall f g t a b, derivable_pt_lim f t a -> derivable_pt_lim g t b -> derivable_pt_lim (fun s => f s + g s) t (a + b).
Proof. intros. apply (derivable_pt_lim_plus f g); auto. Qed.
Lemma rate_minus : forall f g t a b, derivable_pt_lim f t a -> derivable_pt_lim g t b -> derivable_pt_lim (fun s => f s - g s) t (a - b).
Proof. intros. apply (derivable_pt_lim_minus f g); auto. Qed.
Lemma rate_opp : forall f t a, derivable_pt_lim f t a -> derivable_pt_lim (fun s => - f s) t (- a).
Proof. intros. apply (derivable_pt_lim_opp f); auto. Qed.
Lemma rate_mult : forall f g t a b, derivable_pt_lim f t a -> derivable_pt_lim g t b -> derivable_pt_lim (fun s => f s * g s) t (a * g t + f t * b).
Proof. intros. apply (derivable_pt_lim_mult f g); auto. Qed.
Lemma rate_div : forall f g t a b, derivable_pt_lim f t a -> derivable_pt_lim g t b -> g t <> 0 -> derivable_pt_lim (fun s => f s / g s) t ((a * g t - b * f t) / (g t * g t)).
Proof. intros. apply (rate_eq _ _ ((a * g t - b * f t) / Rsqr (g t))); [|unfold Rsqr; auto]. apply (derivable_pt_lim_div f g); auto. Qed.
Lemma rate_sqrt : forall f t a, derivable_pt_lim f t a -> 0 < f t -> derivable_pt_lim (fun s => sqrt (f s)) t (a / (2 * sqrt (f t))).
Proof.
  intros f t a D P. apply (rate_eq _ _ (/ (2 * sqrt (f t)) * a)); [|field; apply Rgt_not_eq, sqrt_lt_R0; auto].
  apply (derivable_pt_lim_comp f sqrt); auto. apply derivable_pt_lim_sqrt; auto.
Qed.

Lemma loc_gt : forall (f : R -> R) t e a, derivable_pt_lim f t a -> e < f t -> locally t (fun s => e < f s).
Proof.
  intros f t e a D P. assert (C : continuity_pt f t) by (apply derivable_continuous_pt; exists a; auto).
  pose proof (proj1 (continuity_pt_locally f t) C) as C1. destruct (C1 (mkposreal (f t - e) ltac:(lra))) as [r H]. exists r. intros y B. specialize (H y B). cbn in H. apply Rabs_def2 in H. lra.
Qed.
Lemma near_pos : 0 < NEARLY_ZERO.
Proof. unfold NEARLY_ZERO. apply Rinv_0_lt_compat; lra. Qed.
Lemma sdiv_big : forall x d, NEARLY_ZERO < d -> sdiv x d = x / d.
Proof. intros. unfold sdiv. pose proof near_pos. rewrite Rabs_right by lra. unfold ltR. destruct (Rlt_dec d NEARLY_ZERO); auto; lra. Qed.
Lemma sdivi_big : forall x d, NEARLY_ZERO < d -> sdivi x d = x / d.
Proof. intros. unfold sdivi. pose proof near_pos. rewrite Rabs_right by lra. unfold ltR. destruct (Rlt_dec d NEARLY_ZERO); auto; lra. Qed.
Lemma rate_sdiv : forall f g t a b, derivable_pt_lim f t a -> derivable_pt_lim g t b -> NEARLY_ZERO < g t ->
  derivable_pt_lim (fun s => sdiv (f s) (g s)) t ((a * g t - b * f t) / (g t * g t)).
Proof.
  intros f g t a b F G P. pose proof near_pos. apply is_derive_Reals. apply (is_derive_ext_loc (fun s => f s / g s)).
  - apply (filter_imp (fun s => NEARLY_ZERO < g s)); [intros s S; symmetry; apply sdiv_big; auto|]. eapply loc_gt; eauto.
  - apply is_derive_Reals. apply rate_div; auto. lra.
Qed.

(** Rates by the structure of the function. *)
Ltac rt := cbv beta; lazymatch goal with
  | |- derivable_pt_lim (fun _ => ?c) _ _ => apply rate_const
  | |- _ => first
    [ match goal with H : derivable_pt_lim ?f ?t _ |- derivable_pt_lim ?f ?t _ => exact H end
    | match goal with
      | |- derivable_pt_lim (fun s => @?f s + @?g s) _ _ => eapply (rate_plus f g); rt
      | |- derivable_pt_lim (fun s => @?f s - @?g s) _ _ => eapply (rate_minus f g); rt
      | |- derivable_pt_lim (fun s => - @?f s) _ _ => eapply (rate_opp f); rt
      | |- derivable_pt_lim (fun s => @?f s * @?g s) _ _ => eapply (rate_mult f g); rt
      | |- derivable_pt_lim (fun s => @?f s / @?g s) _ _ => eapply (rate_div f g); [rt|rt|cbv beta]
      | |- derivable_pt_lim (fun s => sqrt (@?f s)) _ _ => eapply (rate_sqrt f); [rt|cbv beta]
      | |- derivable_pt_lim (fun s => sdiv (@?f s) (@?g s)) _ _ => eapply (rate_sdiv f g); [rt|rt|cbv beta]
      | |- _ => idtac
      end ]
  end.

(** Cases of an index below a number. *)
Ltac idx i H := destruct i as [|i]; [clear H|try (exfalso; lia)].
Ltac cases3 i H := destruct i as [|[|[|i]]]; [clear H|clear H|clear H|exfalso; lia].
Ltac cases2 i H := destruct i as [|[|i]]; [clear H|clear H|exfalso; lia].
Ltac cases4 i H := destruct i as [|[|[|[|i]]]]; [clear H|clear H|clear H|clear H|exfalso; lia].

Lemma sum_2 : forall f, sum 2 f = f 0%nat + f 1%nat.
Proof. intros. unfold sum; cbn. ring. Qed.
Lemma sum_3 : forall f, sum 3 f = f 0%nat + f 1%nat + f 2%nat.
Proof. intros. unfold sum; cbn. ring. Qed.
Lemma sum_4 : forall f, sum 4 f = f 0%nat + f 1%nat + f 2%nat + f 3%nat.
Proof. intros. unfold sum; cbn. ring. Qed.
Lemma power_2_3 : forall g v, power 2 3 g v = g 0%nat 0%nat * v 0%nat 0%nat + g 0%nat 1%nat * v 0%nat 1%nat + g 0%nat 2%nat * v 0%nat 2%nat
  + (g 1%nat 0%nat * v 1%nat 0%nat + g 1%nat 1%nat * v 1%nat 1%nat + g 1%nat 2%nat * v 1%nat 2%nat).
Proof. intros. unfold power. rewrite sum_2, !sum_3. auto. Qed.
Lemma power_3_2 : forall g v, power 3 2 g v = g 0%nat 0%nat * v 0%nat 0%nat + g 0%nat 1%nat * v 0%nat 1%nat
  + (g 1%nat 0%nat * v 1%nat 0%nat + g 1%nat 1%nat * v 1%nat 1%nat) + (g 2%nat 0%nat * v 2%nat 0%nat + g 2%nat 1%nat * v 2%nat 1%nat).
Proof. intros. unfold power. rewrite sum_3, !sum_2. auto. Qed.
Lemma power_3_3 : forall g v, power 3 3 g v = g 0%nat 0%nat * v 0%nat 0%nat + g 0%nat 1%nat * v 0%nat 1%nat + g 0%nat 2%nat * v 0%nat 2%nat
  + (g 1%nat 0%nat * v 1%nat 0%nat + g 1%nat 1%nat * v 1%nat 1%nat + g 1%nat 2%nat * v 1%nat 2%nat)
  + (g 2%nat 0%nat * v 2%nat 0%nat + g 2%nat 1%nat * v 2%nat 1%nat + g 2%nat 2%nat * v 2%nat 2%nat).
Proof. intros. unfold power. rewrite sum_3, !sum_3. auto. Qed.
Lemma power_4_3 : forall g v, power 4 3 g v = g 0%nat 0%nat * v 0%nat 0%nat + g 0%nat 1%nat * v 0%nat 1%nat + g 0%nat 2%nat * v 0%nat 2%nat
  + (g 1%nat 0%nat * v 1%nat 0%nat + g 1%nat 1%nat * v 1%nat 1%nat + g 1%nat 2%nat * v 1%nat 2%nat)
  + (g 2%nat 0%nat * v 2%nat 0%nat + g 2%nat 1%nat * v 2%nat 1%nat + g 2%nat 2%nat * v 2%nat 2%nat)
  + (g 3%nat 0%nat * v 3%nat 0%nat + g 3%nat 1%nat * v 3%nat 1%nat + g 3%nat 2%nat * v 3%nat 2%nat).
Proof. intros. unfold power. rewrite sum_4, !sum_3. auto. Qed.
Lemma dot_eq : forall a b, dot a b = Dot3 a b.
Proof. intros. unfold dot. rewrite sum_3. auto. Qed.
Lemma norm_eq : forall a, norm a = Length3 a.
Proof. intros. unfold norm. rewrite dot_eq. auto. Qed.
Lemma Length3_sqr : forall a, Length3 a * Length3 a = Dot3 a a.
Proof. intros. unfold Length3, Dot3. apply sqrt_sqrt. nra. Qed.
Lemma Length3_ge : forall a, 0 <= Length3 a.
Proof. intros. apply sqrt_pos. Qed.
Lemma Length3_pos : forall a, 0 < Length3 a -> 0 < Dot3 a a.
Proof. intros a H. rewrite <- Length3_sqr. nra. Qed.
(** The rate of a length. *)
Lemma rate_len : forall (a : R -> vec) (a' : vec) t, (forall d, (d < 3)%nat -> derivable_pt_lim (fun s => a s d) t (a' d)) -> 0 < Length3 (a t) ->
  derivable_pt_lim (fun s => Length3 (a s)) t (Dot3 (a t) a' / Length3 (a t)).
Proof.
  intros a a' t D P. pose proof (D 0%nat ltac:(lia)). pose proof (D 1%nat ltac:(lia)). pose proof (D 2%nat ltac:(lia)).
  assert (Q : 0 < Dot3 (a t) (a t)) by (apply Length3_pos; auto).
  unfold Length3 in *. eapply rate_eq; [rt; exact Q|]. unfold Dot3. field. lra.
Qed.
(** The rate of the direction of a vector. *)
Lemma rate_dir : forall (a : R -> vec) (a' : vec) t, (forall d, (d < 3)%nat -> derivable_pt_lim (fun s => a s d) t (a' d)) -> NEARLY_ZERO < Length3 (a t) ->
  forall d, (d < 3)%nat -> derivable_pt_lim (fun s => sdiv (a s d) (Length3 (a s))) t ((a' d - sdiv (a t d) (Length3 (a t)) * Dot3 (fun d => sdiv (a t d) (Length3 (a t))) a') / Length3 (a t)).
Proof.
  intros a a' t D P d I. pose proof near_pos. pose proof (rate_len a a' t D ltac:(lra)). pose proof (D d I).
  eapply rate_eq; [rt; auto|]. unfold Dot3. rewrite !sdiv_big by auto. field. lra.
Qed.
