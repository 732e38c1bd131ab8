(** Theorems on conjugate gradients (property C28). *)
From Coq Require Import List Arith Bool ZArith Lia Ring QArith Qcanon Lqa.
Import ListNotations.
From Verif Require Import Imp Alg SpModel SpSpec SpProofs1 SpProps MatnModel MatnProps CgModel CgSpec CgProofs1 CgProofs2 CgProofs3.
Close Scope Qc_scope. Close Scope Q_scope. Open Scope nat_scope.

Section Props.
Variable F : pfield.
Notation K := (pr F).
Add Ring Kr : (rlaws K).
Local Open Scope K_scope.

(** C28: whatever the matrix, the square root, the order, the tolerance and the iteration limit, Solve_CG runs without
    error, the vector it leaves in [r_vec] is b - A u for the [u] it leaves in [u_vec], and the history it returns tells
    the truth: its last entry is the ratio of that residual, no earlier entry met the tolerance, and a history shorter than the
    limit ends with an entry that met it. *)
Theorem C28_CG_residual : forall (rt : K -> K) (ltb : K -> K -> bool) (tol : K) (A : matsp K) (b u Ap p : list K) maxit,
  wf A -> square A -> length b = ndof A -> length u = ndof A -> length Ap = ndof A -> length p = ndof A ->
  exists aConv r' u' p', Solve_CG rt ltb b u Ap p tol maxit A = Some (aConv, r', u', p') /\
    length r' = ndof A /\ length u' = ndof A /\ is_residual A b u' r' /\ length aConv <= maxit /\
    (small (inner b b) = true -> aConv = [] /\ u' = repeat 0 (ndof A) /\ r' = b) /\
    (small (inner b b) = false ->
       (aConv <> [] -> last aConv 0 = rt (inner r' r' * pinv (inner b b))) /\
       (forall k, S k < length aConv -> ltb (nth k aConv 0) tol = false) /\
       (length aConv < maxit -> aConv <> [] /\ ltb (last aConv 0) tol = true)).
Proof.
  intros rt ltb tol A b u Ap p maxit WF SQ Lb Lu LAp Lp.
  destruct (wp_ex _ _ _ (Solve_CG_ok F rt ltb tol A WF SQ b Lb (fun _ _ _ => True) maxit u Ap p Lu LAp Lp (fun _ => I)
    (fun _ _ _ _ _ _ _ _ _ _ _ _ _ => I))) as ((((aConv & r') & u') & p') & E & H1 & H2 & H3 & H4 & H5 & H6).
  exists aConv, r', u', p'. split; auto. split; auto. split; auto. split; auto. split; auto. split; auto.
  intros Hs. destruct (H6 Hs) as (G1 & G2 & G3 & _). auto.
Qed.

(** C28, preconditioned: for every preconditioner that returns a vector of the right size. *)
Theorem C28_PCG_residual : forall (rt : K -> K) (ltb : K -> K -> bool) (tol : K) (A : matsp K) (b x Pr p : list K) maxit
    (prec : list K -> option (list K)),
  wf A -> square A -> length b = ndof A -> length x = ndof A -> length Pr = ndof A -> length p = ndof A ->
  (forall r, length r = ndof A -> exists z, prec r = Some z /\ length z = ndof A) ->
  exists aRes r' x' p', Solve_PCG rt ltb b x Pr p tol maxit A prec = Some (aRes, r', x', p') /\
    length r' = ndof A /\ length x' = ndof A /\ is_residual A b x' r' /\
    last aRes 0 = rt (inner r' r') /\ length aRes <= S (S maxit) /\
    (small (inner b b) = true -> x' = repeat 0 (ndof A) /\ r' = b) /\
    (small (inner b b) = false -> length aRes <= S maxit -> ltb (rt (inner r' r' * pinv (inner b b))) tol = true).
Proof.
  intros rt ltb tol A b x Pr p maxit prec WF SQ Lb Lx LPr Lp HP.
  destruct (wp_ex _ _ _ (Solve_PCG_ok F rt ltb tol A WF SQ b Lb prec HP (fun _ _ _ => True) maxit x Pr p Lx LPr Lp (fun _ _ _ => I)
    (fun _ _ _ _ _ _ _ _ _ _ _ _ _ _ _ _ _ => I))) as ((((aConv & r') & u') & p') & E & H1 & H2 & H3 & H4 & H5 & H6 & H7).
  exists aConv, r', u', p'. split; auto. split; auto. split; auto. split; auto. split; auto. split; auto. split; auto.
  intros Hs HL. destruct (H7 Hs) as [(G & _)|(G & _)]; [auto|lia].
Qed.

(** Exact arithmetic in a field: conjugate gradients converge in at most as many steps as there are unknowns. *)
Section Finite.
Variables (rt : K -> K) (ltb : K -> K -> bool) (tol : K) (A : matsp K).
Hypothesis one0 : (1 : K) <> 0.
Hypothesis inverse : forall x : K, x <> 0 -> x * pinv x = 1.
Hypothesis dec : forall x : K, {x = 0} + {x <> 0}.
Hypothesis WF : wf A.
Hypothesis SQ : square A.
Hypothesis SYM : symmetric A.
Hypothesis DEF : definite A.
Hypothesis zero_passes : ltb (rt 0) tol = true.
Variable M : (nat -> K) -> nat -> K.
Hypothesis M_sym : forall u v, vdot K (ndof A) u (M v) = vdot K (ndof A) (M u) v.
Notation N := (ndof A).
Definition ghost (k : nat) (r p : list K) : Prop := exists rs ps bb cc,
  krylov K N (Amul F A) M k rs ps bb cc /\ rs k = vf F r /\ ps k = vf F p.

Lemma zero_vec : forall x : list K, length x = N -> x = repeat 0 N -> forall v, vdot K N v (vf F x) = 0.
Proof. intros x L -> v. apply sumn_zero. intros k _. unfold vf. rewrite nth_repeat. ring. Qed.
Lemma ghost_pAp : forall k r p, length p = N -> ghost k r p -> vdot K N (vf F p) (Amul F A (vf F p)) <> 0.
Proof.
  intros k r p Lp (rs & ps & bb & cc & HK & Er & Ep) H.
  assert (p = repeat 0 N).
  { apply DEF; auto. rewrite inner_flat, Lp. rewrite <- H. apply vdot_ext; auto. intros. apply mulv_nth; auto. }
  pose proof (kry_rpk K N (Amul F A) M M_sym k rs ps bb cc HK) as E.
  destruct HK as (_ & _ & _ & _ & _ & H6). apply (H6 k (Nat.le_refl k)). rewrite <- E, Ep. apply zero_vec; auto.
Qed.
Lemma ghost_step : forall k r p r' p', length p = N -> ghost k r p ->
  let rz := vdot K N (vf F r) (M (vf F r)) in
  let rz' := vdot K N (vf F r') (M (vf F r')) in
  (forall t, t < N -> vf F r' t = vf F r t + - (rz * pinv (vdot K N (vf F p) (Amul F A (vf F p)))) * Amul F A (vf F p) t) ->
  (forall t, t < N -> vf F p' t = rz' * pinv rz * vf F p t + M (vf F r') t) ->
  rz' <> 0 -> ghost (S k) r' p'.
Proof.
  intros k r p r' p' Lp HG rz rz' Hr' Hp' Hnz. pose proof (ghost_pAp k r p Lp HG) as HpAp.
  destruct HG as (rs & ps & bb & cc & HK & Er & Ep).
  exists (ext rs (S k) (vf F r')), (ext ps (S k) (vf F p')), (ext bb k (rz' * pinv rz)), (ext cc k (pinv (rz * pinv (vdot K N (ps k) (Amul F A (ps k)))))).
  split; [|split; apply ext_same].
  pose proof (krylov_step K pinv N inverse (Amul F A) M) as KS.
  unfold rz. rewrite <- Er. apply KS; auto.
  - intros. apply Amul_ext. auto.
  - apply Amul_sym. auto.
  - rewrite Ep. auto.
  - intros t Ht. rewrite Hr' by auto. unfold rz. rewrite Er, Ep. ring.
  - intros t Ht. rewrite Hp' by auto. unfold rz. rewrite Er, Ep. auto.
Qed.
Lemma ghost_bound : forall k r p, ghost k r p -> k < N.
Proof. intros k r p (rs & ps & bb & cc & HK & _). apply (krylov_bound K pinv N inverse dec (Amul F A) M M_sym k rs ps bb cc HK). Qed.
Lemma ghost_0 : forall b p, (forall t, t < N -> M (vf F b) t = vf F p t) -> vdot K N (vf F b) (M (vf F b)) <> 0 -> ghost 0 b p.
Proof.
  intros b p H0 H. exists (fun _ => vf F b), (fun _ => vf F p), (fun _ => 0), (fun _ => 0). split; [|auto].
  split; [intros; lia|split; [intros; lia|split; [auto|split; [intros; lia|split; [intros; lia|auto]]]]].
Qed.
Lemma not_small : forall x : K, small x = false -> x <> 0.
Proof. intros x H E. apply one0. rewrite <- (pinv_law F x H), E. ring. Qed.
Lemma not_conv : forall (r : list K) ini, ltb (rt (vdot K N (vf F r) (vf F r) * ini)) tol = false -> vdot K N (vf F r) (vf F r) <> 0.
Proof. intros r ini H E. rewrite E in H. replace ((0 : K) * ini) with (0 : K) in H by ring. congruence. Qed.
End Finite.

(** C28: in exact arithmetic, for a symmetric definite matrix, Solve_CG reports convergence within N iterations
    (N = number of unknowns) unless the right-hand side is negligible; whatever the tolerance that a zero residual meets. *)
Theorem C28_CG_terminates : forall (rt : K -> K) (ltb : K -> K -> bool) (tol : K) (A : matsp K) (b u Ap p : list K) maxit,
  (1 : K) <> 0 -> (forall x : K, x <> 0 -> x * pinv x = 1) -> (forall x : K, {x = 0} + {x <> 0}) ->
  wf A -> square A -> symmetric A -> definite A -> ltb (rt 0) tol = true ->
  length b = ndof A -> length u = ndof A -> length Ap = ndof A -> length p = ndof A -> ndof A <= maxit ->
  exists aConv r' u' p', Solve_CG rt ltb b u Ap p tol maxit A = Some (aConv, r', u', p') /\ is_residual A b u' r' /\
    (small (inner b b) = false -> 
      length aConv <= ndof A /\ last aConv 0 = rt (inner r' r' * pinv (inner b b)) /\ ltb (last aConv 0) tol = true).
Proof.
  intros rt ltb tol A b u Ap p maxit one0 inverse dec WF SQ SYM DEF ZP Lb Lu LAp Lp HM.
  pose (M := fun v : nat -> K => v).
  assert (MS : forall u v, vdot K (ndof A) u (M v) = vdot K (ndof A) (M u) v) by reflexivity.
  destruct (wp_ex _ _ _ (Solve_CG_ok F rt ltb tol A WF SQ b Lb (ghost A M) maxit u Ap p Lu LAp Lp
    ltac:(intros Hs; apply ghost_0; [auto|]; unfold M; rewrite <- Lb at 1; apply not_small; auto)
    ltac:(intros k r p0 r' p' L1 L2 L3 L4 HG Hr' HF Hp'; apply (ghost_step A inverse SQ SYM DEF M MS k r p0 r' p' L2 HG); auto;
      eapply (not_conv rt ltb tol A ZP); eauto)))
   as ((((aConv & r') & u') & p') & E & H1 & H2 & H3 & H4 & H5 & H6).
  exists aConv, r', u', p'. split; auto. split; auto. intros Hs. destruct (H6 Hs) as (G1 & G2 & G3 & G4).
  destruct G4 as [G4|(G4 & G5 & k & r0 & p0 & Ek & G6)].
  - pose proof (ghost_bound A inverse dec M MS _ _ _ G4). destruct (G3 ltac:(lia)) as (X & Y). split; [lia|auto].
  - pose proof (ghost_bound A inverse dec M MS _ _ _ G6). split; [lia|auto].
Qed.

(** C28, preconditioned: the preconditioner is multiplication by a symmetric definite matrix P. *)
Theorem C28_PCG_terminates : forall (rt : K -> K) (ltb : K -> K -> bool) (tol : K) (A : matsp K) (b x Pr p : list K) maxit
    (P : nat -> nat -> K) (prec : list K -> option (list K)),
  (1 : K) <> 0 -> (forall x : K, x <> 0 -> x * pinv x = 1) -> (forall x : K, {x = 0} + {x <> 0}) ->
  wf A -> square A -> symmetric A -> definite A -> ltb (rt 0) tol = true ->
  is_linear (ndof A) P prec -> (forall k l, k < ndof A -> l < ndof A -> P k l = P l k) ->
  (forall r z, length r = ndof A -> prec r = Some z -> inner r z = 0 -> r = repeat 0 (ndof A)) ->
  length b = ndof A -> length x = ndof A -> length Pr = ndof A -> length p = ndof A -> ndof A <= maxit ->
  exists aRes r' x' p', Solve_PCG rt ltb b x Pr p tol maxit A prec = Some (aRes, r', x', p') /\ is_residual A b x' r' /\
    (small (inner b b) = false -> length aRes <= S (ndof A) /\ ltb (rt (inner r' r' * pinv (inner b b))) tol = true).
Proof.
  intros rt ltb tol A b x Pr p maxit P prec one0 inverse dec WF SQ SYM DEF ZP HL PS PD Lb Lx LPr Lp HM.
  pose (M := fun (v : nat -> K) k => sumn (ndof A) (fun l => P k l * v l)).
  assert (MS : forall u v, vdot K (ndof A) u (M v) = vdot K (ndof A) (M u) v) by (intros; apply mul_sym; auto).
  assert (HP : forall r, length r = ndof A -> exists z, prec r = Some z /\ length z = ndof A).
  { intros r Lr. rewrite (HL r Lr). eexists. split; [reflexivity|]. rewrite map_length, seq_length. auto. }
  assert (Mz : forall r z, length r = ndof A -> prec r = Some z -> forall t, t < ndof A -> M (vf F r) t = vf F z t).
  { intros r z Lr Ez t Ht. rewrite (HL r Lr) in Ez. inversion Ez. unfold vf at 2. rewrite nth_map_seq by auto. auto. }
  assert (Dz : forall r z, length r = ndof A -> prec r = Some z -> vdot K (ndof A) (vf F r) (vf F z) = vdot K (ndof A) (vf F r) (M (vf F r))).
  { intros r z Lr Ez. apply vdot_ext; auto. intros. symmetry. apply Mz; auto. }
  assert (NZ : forall r z, length r = ndof A -> prec r = Some z -> vdot K (ndof A) (vf F r) (vf F r) <> 0 -> vdot K (ndof A) (vf F r) (M (vf F r)) <> 0).
  { intros r z Lr Ez H H0. apply H. apply zero_vec; auto. apply (PD r z Lr Ez). rewrite inner_flat, Lr, (Dz r z); auto. }
  destruct (wp_ex _ _ _ (Solve_PCG_ok F rt ltb tol A WF SQ b Lb prec HP (ghost A M) maxit x Pr p Lx LPr Lp
    ltac:(intros Hs z Ez; apply ghost_0; [apply Mz; auto|]; apply (NZ b z); auto; rewrite <- Lb at 1; apply not_small; auto)
    ltac:(intros k r p0 r' p' z z' L1 L2 L3 L4 HG Ez Ez' Hr' HF Hp';
      apply (ghost_step A inverse SQ SYM DEF M MS k r p0 r' p' L2 HG);
      [intros t Ht; rewrite Hr' by auto; rewrite (Dz r z) by auto; reflexivity
      |intros t Ht; rewrite Hp' by auto; rewrite (Dz r z), (Dz r' z'), (Mz r' z') by auto; reflexivity
      |apply (NZ r' z'); auto; eapply (not_conv rt ltb tol A ZP); eauto])))
   as ((((aRes & r') & x') & p') & E & H1 & H2 & H3 & H4 & H5 & H6 & H7).
  exists aRes, r', x', p'. split; auto. split; auto. intros Hs.
  destruct (H7 Hs) as [(G & G1 & k & r0 & p0 & Ek & Gk)|(G & Gk)]; pose proof (ghost_bound A inverse dec M MS _ _ _ Gk).
  - split; [lia|auto].
  - lia.
Qed.
End Props.

(** A case that meets the hypotheses of all four theorems: the matrix [[2,1],[1,3]] over the rationals. *)
Definition exCG : matsp Qpf := mkM 2 2 1 1 [0; 1; 2] [1; 0] (map q [1; 1]%Z) (map q [2; 3]%Z).
Definition qlt (a b : Qpf) : bool := negb (Qle_bool (this b) (this a)).
Lemma exCG_wf : wf exCG /\ square exCG /\ symmetric exCG.
Proof.
  split; [|split].
  - split; [reflexivity|]. split; [intros I HI; destruct I as [|[|]]; cbn in *; lia|].
    split; [reflexivity|]. split; [intros c Hc; destruct c as [|[|]]; cbn in *; lia|]. repeat split. cbn. lia.
  - split; reflexivity.
  - intros I a J b HI Ha HJ Hb. cbn in *. destruct I as [|[|]], J as [|[|]], a, b; try lia; vm_compute; reflexivity.
Qed.
Lemma exCG_sos : forall x y : Qc, (x * x + (x + y) * (x + y) + (y * y + y * y) = Q2Qc 0 -> x = Q2Qc 0 /\ y = Q2Qc 0)%Qc.
Proof.
  intros x y H. assert (E : (this x * this x + (this x + this y) * (this x + this y) + (this y * this y + this y * this y) == 0)%Q).
  { transitivity (this (x * x + (x + y) * (x + y) + (y * y + y * y))%Qc).
    - cbn -[Qplus Qmult]. rewrite !Qred_correct. reflexivity.
    - rewrite H. reflexivity. }
  clear H. destruct x as [x Hx], y as [y Hy]. cbn in E.
  assert (P : forall t : Q, (0 <= t * t)%Q) by (intros t; nra).
  assert (Ex : (x * x == 0)%Q) by (pose proof (P x); pose proof (P y); pose proof (P (x + y)%Q); nra).
  assert (Ey : (y * y == 0)%Q) by (pose proof (P x); pose proof (P y); pose proof (P (x + y)%Q); nra).
  split; apply Qc_is_canon; cbn.
  - destruct (Qmult_integral _ _ Ex); auto.
  - destruct (Qmult_integral _ _ Ey); auto.
Qed.
Lemma exCG_definite : definite exCG.
Proof.
  intros x Lx H. destruct x as [|x [|y [|]]]; try discriminate. change (repeat 0%K (ndof exCG)) with [Q2Qc 0; Q2Qc 0].
  assert (E : inner (K := Qpf) [x; y] (mulv exCG [x; y]) = (x * x + (x + y) * (x + y) + (y * y + y * y))%Qc).
  { unfold inner, mulv, Ax, sumn, bigsum, dense, crs, dia, bigsum, row_range. cbn -[Qcplus Qcmult q Q2Qc].
    change (q 1) with (Q2Qc 1). replace (q 2) with (Q2Qc 1 + Q2Qc 1)%Qc by (apply Qc_is_canon; reflexivity).
    replace (q 3) with (Q2Qc 1 + Q2Qc 1 + Q2Qc 1)%Qc by (apply Qc_is_canon; reflexivity). ring. }
  rewrite E in H. destruct (exCG_sos x y H) as (-> & ->). reflexivity.
Qed.
Lemma Qpf_inverse : forall x : Qpf, x <> 0%K -> (x * pinv x)%K = 1%K.
Proof. intros x H. apply Qcmult_inv_r. exact H. Qed.
Lemma Q1_neq_Q0' : (1%K : Qpf) <> 0%K.
Proof. vm_compute. discriminate. Qed.
Definition Qpf_dec : forall x : Qpf, {x = 0%K} + {x <> 0%K}.
Proof. intros x. apply Qc_eq_dec. Defined.
Example C28_example : exists aConv r' u' p',
  Solve_CG (F := Qpf) (fun x => x) qlt (map q [1; 2]%Z) (map q [7; 7]%Z) (map q [0; 0]%Z) (map q [0; 0]%Z) (Q2Qc (1 # 1000)) 10 exCG = Some (aConv, r', u', p') /\
  length aConv = 2 /\ map this r' = [0%Q; 0%Q] /\ is_residual exCG (map q [1; 2]%Z) u' r'.
Proof.
  destruct exCG_wf as (W1 & W2 & W3).
  destruct (C28_CG_terminates Qpf (fun x => x) qlt (Q2Qc (1 # 1000)) exCG (map q [1; 2]%Z) (map q [7; 7]%Z) (map q [0; 0]%Z) (map q [0; 0]%Z) 10
    Q1_neq_Q0' Qpf_inverse Qpf_dec W1 W2 W3 exCG_definite eq_refl eq_refl eq_refl eq_refl eq_refl ltac:(cbn; lia))
    as (aConv & r' & u' & p' & E & R & _).
  exists aConv, r', u', p'. split; [exact E|]. split; [|split; [|exact R]].
  - transitivity (match Solve_CG (F := Qpf) (fun x => x) qlt (map q [1; 2]%Z) (map q [7; 7]%Z) (map q [0; 0]%Z) (map q [0; 0]%Z) (Q2Qc (1 # 1000)) 10 exCG with Some (a, _, _, _) => length a | None => 0 end); [rewrite E; auto|vm_compute; auto].
  - transitivity (match Solve_CG (F := Qpf) (fun x => x) qlt (map q [1; 2]%Z) (map q [7; 7]%Z) (map q [0; 0]%Z) (map q [0; 0]%Z) (Q2Qc (1 # 1000)) 10 exCG with Some (_, r, _, _) => map this r | None => [] end); [rewrite E; auto|vm_compute; auto].
Qed.
(** The identity is an admissible preconditioner. *)
Example C28_prec_example : is_linear (K := Qpf) 2 (fun k l => if k =? l then 1%K else 0%K) Some.
Proof.
  intros r L. destruct r as [|x [|y [|]]]; try discriminate. unfold sumn, bigsum. cbn.
  assert (E : forall u v : Qc, (Q2Qc 1 * u + (Q2Qc 0 * v + Q2Qc 0) = u)%Qc) by (intros; ring).
  assert (E' : forall u v : Qc, (Q2Qc 0 * v + (Q2Qc 1 * u + Q2Qc 0) = u)%Qc) by (intros; ring).
  f_equal. symmetry. f_equal; [apply (E x y)|f_equal; apply (E' y x)].
Qed.

(** Print Assumptions. *)
Print Assumptions C28_CG_residual.
Print Assumptions C28_PCG_residual.
Print Assumptions C28_CG_terminates.
Print Assumptions C28_PCG_terminates.
