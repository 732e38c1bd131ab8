From Coq Require Import List Arith Bool Lia Ring.
Import ListNotations.
From Verif Require Import Imp Alg SpModel SpSpec SpProofs1 SpProps MatnModel DtriProofs5 CgModel CgSpec CgProofs1 CgProofs2.

Section Main.
Variable F : pfield.
Notation K := (pr F).
Add Ring Kr : (rlaws K).
Local Open Scope K_scope.
Variables (rt : K -> K) (ltb : K -> K -> bool) (tol : K).
Variable A : matsp K.
Hypothesis WF : wf A.
Hypothesis SQ : square A.
Notation N := (ndof A).
Notation vf := (vf F).
Notation dot := (vdot K N).
Notation Am := (Amul F A).
Variable b : list K.
Hypothesis Lb : length b = N.
Notation resid u r := (forall k, k < N -> vf r k = vf b k - Am (vf u) k).

(** What a normal or early return of the CG loop satisfies. *)
Definition cg_post (maxit : nat) (ini : K) (s : list K * list K * list K * list K * list K * K) : Prop :=
  let '(aConv, r, u, Ap, p, sq) := s in
  length r = N /\ length u = N /\ length p = N /\ resid u r /\
  length aConv <= maxit /\ 
  (aConv <> [] -> last aConv 0 = rt (dot (vf r) (vf r) * pinv ini)) /\
  (forall k, S k < length aConv -> ltb (nth k aConv 0) tol = false) /\
  (length aConv < maxit -> aConv <> [] /\ ltb (last aConv 0) tol = true).

Definition cg_inv (G : nat -> list K -> list K -> Prop) (ini : K) (k : nat) (s : list K * list K * list K * list K * list K * K) : Prop :=
  let '(aConv, r, u, Ap, p, sq) := s in
  length r = N /\ length u = N /\ length Ap = N /\ length p = N /\ resid u r /\ length aConv = k /\
  (aConv <> [] -> last aConv 0 = rt (dot (vf r) (vf r) * pinv ini)) /\
  (forall k, k < length aConv -> ltb (nth k aConv 0) tol = false) /\
  sq = dot (vf r) (vf r) /\ G k r p.

Lemma last_app1 : forall T (l : list T) x d, last (l ++ [x]) d = x.
Proof. intros. apply last_last. Qed.

(** The loop, with a ghost invariant [G] on residual and direction. *)
Lemma cg_loop : forall (G : nat -> list K -> list K -> Prop) (G_step : forall k r p r' p' : list K, True) ini maxit s0,
  cg_inv G ini 0 s0 ->
  (forall k r p r' p', length r = N -> length p = N -> length r' = N -> length p' = N -> G k r p ->
    (forall t, t < N -> vf r' t = vf r t + - (dot (vf r) (vf r) * pinv (dot (vf p) (Am (vf p)))) * Am (vf p) t) ->
    ltb (rt (dot (vf r') (vf r') * pinv ini)) tol = false ->
    (forall t, t < N -> vf p' t = dot (vf r') (vf r') * pinv (dot (vf r) (vf r)) * vf p t + vf r' t) -> G (S k) r' p') ->
  wp (forb 0 maxit (fun _ s =>
    let '(aConv, r_vec, u_vec, Ap_vec, p_vec, sqnorm_res) := s in
    Ap_vec <- AddMatVec Ap_vec 0 1 A p_vec ;;
    pAp <- Dot p_vec Ap_vec ;;
    let alpha := sqnorm_res * pinv pAp in
    u_vec <- AddScaledVec u_vec alpha p_vec ;;
    r_vec <- AddScaledVec r_vec (- alpha) Ap_vec ;;
    sqnorm_res_new <- Dot r_vec r_vec ;;
    let conv_ratio := rt (sqnorm_res_new * pinv ini) in
    let aConv := aConv ++ [conv_ratio] in
    if ltb conv_ratio tol then Some ((aConv, r_vec, u_vec, Ap_vec, p_vec, sqnorm_res), true) else
    let beta := sqnorm_res_new * pinv sqnorm_res in
    p_vec <- ScaleAndAddVec p_vec beta r_vec ;;
    Some ((aConv, r_vec, u_vec, Ap_vec, p_vec, sqnorm_res_new), false)) s0)
  (fun s => cg_post maxit ini s /\
     let '(aConv, r, u, Ap, p, sq) := s in
     (G (length aConv) r p \/ (aConv <> [] /\ ltb (last aConv 0) tol = true /\ exists k r0 p0, length aConv = S k /\ G k r0 p0))).
Proof.
  intros G _ ini maxit s0 H0 HG.
  apply (wp_forb _ (cg_inv G ini)); [lia|auto| |].
  - intros i s Hi HI. destruct s as (((((aConv & r) & u) & Ap) & p) & sq).
    destruct HI as (Lr & Lu & LAp & Lp & HR & HL & HLast & HF & Hsq & Hg).
    apply wp_bind. eapply wp_mono; [apply (AddMatVec_ok F A WF SQ); auto|]. intros Ap' (LAp' & HAp').
    rewrite Dot_eq by lia. cbn [bind]. cbv zeta.
    apply wp_bind. eapply wp_mono; [apply AddScaledVec_ok; lia|]. intros u' (Lu' & Hu').
    apply wp_bind. eapply wp_mono; [apply AddScaledVec_ok; lia|]. intros r' (Lr' & Hr').
    rewrite Dot_eq by lia. cbn [bind].
    assert (R' : resid u' r').
    { eapply (res_step F A b u r Ap' p u' r'); eauto; intros k Hk.
      - apply Hu'. lia.
      - apply Hr'. lia. }
    assert (Elr : length r' = N) by lia. rewrite Elr. rewrite Lp in Hr'.
    assert (Epap : dot (vf p) (vf Ap') = dot (vf p) (Am (vf p))) by (apply vdot_ext; auto).
    destruct (ltb _ tol) eqn:Elt.
    + apply wp_some. cbn [fst snd]. split; [split; [lia|split; [lia|split; [lia|split; [auto|split; [rewrite app_length; cbn; lia|split; [|split]]]]]]|].
      * intros _. rewrite last_app1. auto.
      * intros k Hk. rewrite app_length in Hk. cbn in Hk. rewrite app_nth1 by lia. apply HF. lia.
      * intros _. split; [destruct aConv; discriminate|]. rewrite last_app1. auto.
      * right. split; [destruct aConv; discriminate|]. rewrite last_app1. split; auto. exists i, r, p.
        rewrite app_length. cbn. split; [lia|auto].
    + apply wp_bind. eapply wp_mono; [apply ScaleAndAddVec_ok; lia|]. intros p' (Lp' & Hp').
      apply wp_some. cbn [fst snd]. split; [lia|split; [lia|split; [lia|split; [lia|split; [auto|split; [rewrite app_length; cbn; lia|split; [|split; [|split]]]]]]]].
      * intros _. rewrite last_app1. auto.
      * intros k Hk. rewrite app_length in Hk. cbn in Hk. destruct (Nat.eq_dec k (length aConv)) as [->|Hn].
        -- rewrite app_nth2, Nat.sub_diag by lia. auto.
        -- rewrite app_nth1 by lia. apply HF. lia.
      * reflexivity.
      * apply (HG i r p r' p'); auto; try lia.
        -- intros t Ht. rewrite Hr' by lia. rewrite Epap, HAp' by auto. rewrite Hsq. auto.
        -- intros t Ht. rewrite Hp' by lia. rewrite Hsq. auto.
  - intros s HI. destruct s as (((((aConv & r) & u) & Ap) & p) & sq).
    destruct HI as (Lr & Lu & LAp & Lp & HR & HL & HLast & HF & Hsq & Hg). split.
    + split; [lia|split; [lia|split; [lia|split; [auto|split; [lia|split; [auto|split; [|lia]]]]]]]. intros k Hk. apply HF. lia.
    + left. rewrite HL. auto.
Qed.

(** Full run of Solve_CG. *)
Lemma Solve_CG_ok : forall (G : nat -> list K -> list K -> Prop) maxit u Ap p,
  length u = N -> length Ap = N -> length p = N ->
  (small (inner b b) = false -> G 0%nat b b) ->
  (forall k r p r' p', length r = N -> length p = N -> length r' = N -> length p' = N -> G k r p ->
    (forall t, t < N -> vf r' t = vf r t + - (dot (vf r) (vf r) * pinv (dot (vf p) (Am (vf p)))) * Am (vf p) t) ->
    ltb (rt (dot (vf r') (vf r') * pinv (inner b b))) tol = false ->
    (forall t, t < N -> vf p' t = dot (vf r') (vf r') * pinv (dot (vf r) (vf r)) * vf p t + vf r' t) -> G (S k) r' p') ->
  wp (Solve_CG rt ltb b u Ap p tol maxit A)
    (fun res => let '(aConv, r', u', p') := res in
      length r' = N /\ length u' = N /\ is_residual A b u' r' /\ length aConv <= maxit /\
      (small (inner b b) = true -> aConv = [] /\ u' = repeat 0 N /\ r' = b) /\
      (small (inner b b) = false ->
        (aConv <> [] -> last aConv 0 = rt (inner r' r' * pinv (inner b b))) /\
        (forall k, S k < length aConv -> ltb (nth k aConv 0) tol = false) /\
        (length aConv < maxit -> aConv <> [] /\ ltb (last aConv 0) tol = true) /\
        (G (length aConv) r' p' \/ (aConv <> [] /\ ltb (last aConv 0) tol = true /\ exists k r0 p0, length aConv = S k /\ G k r0 p0)))).
Proof.
  intros G maxit u Ap p Lu LAp Lp HG0 HG. unfold Solve_CG. rewrite setZerov_eq. cbn [bind].
  rewrite Dot_eq by auto. cbn [bind]. rewrite <- inner_flat.
  assert (R0 : resid (repeat (0:K) (length u)) b).
  { intros k Hk. assert (Z : Am (vf (repeat 0 (length u))) k = 0); [|rewrite Z; ring].
    unfold Amul. apply sumn_zero. intros l Hl. unfold CgProofs2.vf. rewrite nth_repeat. ring. }
  destruct (small (inner b b)) eqn:Es.
  - apply wp_some. split; [lia|split; [rewrite repeat_length; lia|split; [apply residual_flat; auto|split; [cbn; lia|split; [|discriminate]]]]].
    intros _. rewrite Lu. auto.
  - rewrite copyv_eq by lia. cbn [bind]. cbv zeta. apply wp_bind. eapply wp_mono.
    + apply (cg_loop G (fun _ _ _ _ _ => I) (inner b b)); [|apply HG].
      split; [lia|split; [rewrite repeat_length; lia|split; [lia|split; [lia|split; [auto|split; [auto|split; [congruence|split; [cbn; intros; lia|split]]]]]]]].
      * rewrite inner_flat, Lb. auto.
      * auto.
    + intros s (P & Q). destruct s as (((((aConv & r) & u') & Ap') & p') & sq).
      destruct P as (Lr & Lu' & Lp' & HR & HL & HLast & HF & HE).
      apply wp_some. split; [lia|split; [lia|split; [apply residual_flat; auto|split; [lia|split; [discriminate|]]]]].
      intros _. rewrite inner_flat with (x := r), Lr. auto.
Qed.

(** PCG loop. *)
Variable prec : list K -> option (list K).
Hypothesis prec_len : forall r, length r = N -> exists z, prec r = Some z /\ length z = N.

Definition pcg_inv (G : nat -> list K -> list K -> Prop) (ini : K) (k : nat) (s : bool * list K * list K * list K * list K * list K * K) : Prop :=
  let '(fin, aRes, r, x, Pr, p, rPr) := s in
  fin = false /\ length r = N /\ length x = N /\ length Pr = N /\ length p = N /\ resid x r /\ length aRes = S k /\
  last aRes 0 = rt (dot (vf r) (vf r)) /\
  (exists z, prec r = Some z /\ rPr = dot (vf r) (vf z)) /\ G k r p.
Definition pcg_fin (maxit : nat) (G : nat -> list K -> list K -> Prop) (ini : K) (s : bool * list K * list K * list K * list K * list K * K) : Prop :=
  let '(fin, aRes, r, x, Pr, p, rPr) := s in
  length r = N /\ length x = N /\ resid x r /\ last aRes 0 = rt (dot (vf r) (vf r)) /\
  (if fin then (length aRes <= S maxit /\ ltb (rt (dot (vf r) (vf r) * pinv ini)) tol = true /\ exists k r0 p0, length aRes = S (S k) /\ G k r0 p0) else length aRes = S maxit /\ G maxit r p).

Lemma Solve_PCG_ok : forall (G : nat -> list K -> list K -> Prop) maxit x Pr p,
  length x = N -> length Pr = N -> length p = N ->
  (small (inner b b) = false -> forall z, prec b = Some z -> G 0%nat b z) ->
  (forall k r p r' p' z z', length r = N -> length p = N -> length r' = N -> length p' = N -> G k r p ->
    prec r = Some z -> prec r' = Some z' ->
    (forall t, t < N -> vf r' t = vf r t + - (dot (vf r) (vf z) * pinv (dot (vf p) (Am (vf p)))) * Am (vf p) t) ->
    ltb (rt (dot (vf r') (vf r') * pinv (inner b b))) tol = false ->
    (forall t, t < N -> vf p' t = dot (vf r') (vf z') * pinv (dot (vf r) (vf z)) * vf p t + vf z' t) -> G (S k) r' p') ->
  wp (Solve_PCG rt ltb b x Pr p tol maxit A prec)
    (fun res => let '(aRes, r', x', p') := res in
      length r' = N /\ length x' = N /\ is_residual A b x' r' /\ length aRes <= S (S maxit) /\
      last aRes 0 = rt (inner r' r') /\
      (small (inner b b) = true -> x' = repeat 0 N /\ r' = b) /\
      (small (inner b b) = false -> 
         (ltb (rt (inner r' r' * pinv (inner b b))) tol = true /\ length aRes <= S maxit /\ exists k r0 p0, length aRes = S (S k) /\ G k r0 p0) \/ (length aRes = S (S maxit) /\ G maxit r' p'))).
Proof.
  intros G maxit x Pr p Lx LPr Lp HG0 HG. unfold Solve_PCG. rewrite setZerov_eq. cbn [bind].
  rewrite Dot_eq by auto. cbn [bind]. rewrite <- inner_flat.
  assert (R0 : resid (repeat (0:K) (length x)) b).
  { intros k Hk. assert (Z : Am (vf (repeat 0 (length x))) k = 0); [|rewrite Z; ring].
    unfold Amul. apply sumn_zero. intros l Hl. unfold CgProofs2.vf. rewrite nth_repeat. ring. }
  destruct (small (inner b b)) eqn:Es.
  - apply wp_some. split; [lia|split; [rewrite repeat_length; lia|split; [apply residual_flat; auto|split; [cbn; lia|split; [reflexivity|split; [|discriminate]]]]]].
    intros _. rewrite Lx. auto.
  - rewrite copyv_eq by lia. cbn [bind]. destruct (prec_len b Lb) as (z0 & Ez & Lz). rewrite Ez. cbn [bind].
    rewrite copyv_eq by lia. cbn [bind]. rewrite Dot_eq by lia. cbn [bind]. cbv zeta.
    apply wp_bind. eapply (wp_forb' _ (pcg_inv G (inner b b)) (pcg_fin maxit G (inner b b))).
    + lia.
    + split; [auto|split; [lia|split; [rewrite repeat_length; lia|split; [lia|split; [lia|split; [auto|split; [auto|split; [|split]]]]]]]].
      * cbn. rewrite inner_flat, Lb. auto.
      * exists z0. rewrite Lb. auto.
      * apply HG0; auto.
    + intros i s Hi HI. destruct s as ((((((fin & aRes) & r) & x0) & Pr0) & p0) & rPr).
      destruct HI as (_ & Lr & Lx0 & LPr0 & Lp0 & HR & HL & HLast & (z & Hz & HrPr) & Hg).
      apply wp_bind. eapply wp_mono; [apply (AddMatVec_ok F A WF SQ); auto|]. intros Ap' (LAp' & HAp').
      rewrite Dot_eq by lia. cbn [bind].
      apply wp_bind. eapply wp_mono; [apply AddScaledVec_ok; lia|]. intros r' (Lr' & Hr').
      apply wp_bind. eapply wp_mono; [apply AddScaledVec_ok; lia|]. intros x' (Lx' & Hx').
      rewrite Dot_eq by lia. cbn [bind].
      assert (R' : resid x' r').
      { eapply (res_step F A b x0 r Ap' p0 x' r'); eauto; intros k Hk.
        - apply Hx'. lia.
        - apply Hr'. lia. }
      assert (Elr : length r' = N) by lia. rewrite Elr. rewrite Lp0 in Hr'.
      assert (Epap : dot (vf p0) (vf Ap') = dot (vf p0) (Am (vf p0))) by (apply vdot_ext; auto).
      destruct (ltb _ tol) eqn:Elt.
      * apply wp_some. cbn [fst snd]. split; [lia|split; [lia|split; [auto|split; [apply last_app1|]]]].
        rewrite app_length. cbn. split; [lia|]. split; [auto|]. exists i, r, p0. split; [lia|auto].
      * rewrite copyv_eq by lia. cbn [bind]. destruct (prec_len r' Elr) as (z' & Ez' & Lz'). rewrite Ez'. cbn [bind].
        rewrite Dot_eq by lia. cbn [bind]. rewrite Elr.
        apply wp_bind. eapply wp_mono; [apply ScaleAndAddVec_ok; lia|]. intros p' (Lp' & Hp').
        apply wp_some. cbn [fst snd].
        split; [auto|split; [lia|split; [lia|split; [lia|split; [lia|split; [auto|split; [rewrite app_length; cbn; lia|split; [apply last_app1|split]]]]]]]].
        -- exists z'. auto.
        -- apply (HG i r p0 r' p' z z'); auto; try lia.
           ++ intros t Ht. rewrite Hr' by lia. rewrite Epap, HAp' by auto. rewrite HrPr. auto.
           ++ intros t Ht. rewrite Hp' by lia. rewrite HrPr. auto.
    + intros s HI. destruct s as ((((((fin & aRes) & r) & x0) & Pr0) & p0) & rPr).
      destruct HI as (-> & Lr & Lx0 & LPr0 & Lp0 & HR & HL & HLast & (z & Hz & HrPr) & Hg).
      split; [lia|split; [lia|split; [auto|split; [auto|auto]]]].
    + intros s HI. destruct s as ((((((fin & aRes) & r) & x0) & Pr0) & p0) & rPr).
      destruct HI as (Lr & Lx0 & HR & HLast & HE). destruct fin.
      * apply wp_some. destruct HE as (HE1 & HE2 & HE3).
        split; [lia|split; [lia|split; [apply residual_flat; auto|split; [lia|split; [|split; [discriminate|]]]]]].
        -- rewrite inner_flat, Lr. auto.
        -- intros _. left. rewrite inner_flat, Lr. split; auto.
      * destruct HE as (HE1 & HE2). rewrite Dot_eq by lia. cbn [bind]. apply wp_some.
        split; [lia|split; [lia|split; [apply residual_flat; auto|split; [rewrite app_length; cbn; lia|split; [|split; [discriminate|]]]]]].
        -- rewrite last_app1. auto.
        -- intros _. right. rewrite app_length. cbn. split; [lia|auto].
Qed.
End Main.
