(** C60: linear programming (CLinPro: AddEqn, Precomp, GetValid, Solve).  *)
From Coq Require Import List Arith Lia Bool Ring QArith Qcanon.
Import ListNotations.
From Verif Require Import Imp Alg LpModel LpSpec LpProofs1 LpProofs2 LpProofs4 LpProofs5 LpProofs6.

Section T.
Variable F : ofield.
Local Open Scope K_scope.

(** The object a user builds: a new object, and one call of AddEqn per constraint. *)
Definition problem (eqs : list (ceq F)) : linpro F :=
  fold_left (fun p e => AddEqn p (aCoeff e) (erhs e) (itype e)) eqs (mkLP [] 0%nat 0%nat 0%nat 0%nat [] []).

Lemma problem_eqs : forall eqs, aEq (problem eqs) = eqs /\ tabA (problem eqs) = [].
Proof.
  intros eqs. unfold problem. assert (H : forall eqs p, aEq (fold_left (fun p e => AddEqn p (aCoeff e) (erhs e) (itype e)) eqs p) = aEq p ++ eqs /\ tabA (fold_left (fun p e => AddEqn p (aCoeff e) (erhs e) (itype e)) eqs p) = tabA (F := F) p).
  { induction eqs0; intros; simpl. rewrite app_nil_r. auto. destruct (IHeqs0 (AddEqn p (aCoeff a) (erhs a) (itype a))) as (-> & ->). unfold AddEqn. simpl. rewrite <- app_assoc. destruct a; auto. }
  destruct (H eqs (mkLP [] 0%nat 0%nat 0%nat 0%nat [] [])). auto.
Qed.

(** The constraints the preparation can handle: no lower bound at all, or at least one constraint that the origin does not satisfy with a slack. *)
Definition supported (eqs : list (ceq F)) : Prop := (exists e, In e eqs /\ needs_art e) \/ (forall e, In e eqs -> itype e <> GE).

Lemma supported_nA : forall eqs, supported eqs -> ~ (nA F eqs = 0%nat /\ exists e, In e eqs /\ itype e = GE).
Proof.
  intros eqs [(e & He & Hn)|H] (Z & e' & He' & Hg). 2: apply (H e'); auto.
  apply (In_nth _ _ (mkEq [] 0 LE)) in He. destruct He as (i & Hi & E). fold (eqn F eqs i) in E.
  assert (isA F (eqn F eqs i) = true). { rewrite E. unfold isA. unfold needs_art in Hn. destruct (itype e); auto. }
  pose proof (cnt_lt F eqs (isA F) i (length eqs) Hi ltac:(lia) H). unfold nA in Z. lia.
Qed.

(** The outcome of Solve for the target [c] with at most [nitr] iterations. *)
Definition solved (eqs : list (ceq F)) (c : list F) (nitr : nat) (r : option (nat * list F * F * nat)) : Prop :=
  exists res sol opt nitr', r = Some (res, sol, opt, nitr') /\
    feasible eqs sol /\ form c sol = opt /\
    ((res = 0%nat /\ nitr' = nitr) \/
     (res = 0%nat /\ (nitr' < nitr)%nat /\ forall v, feasible eqs v -> le (form c v) opt) \/
     (res = 2%nat /\ (nitr' < nitr)%nat /\ exists d, lt 0 d /\ forall t, le 0 t -> le t big -> exists v, feasible eqs v /\ form c v = opt + d * t)).

(** For every list of constraints: the preparation never runs out of bounds and no assertion fails in it; it returns 0, 2 or 3; and when it returns 0 a feasible point can be
    read off, and every target is then maximised from it: the point that is returned is feasible and has the value that is returned, if the iterations have not run out the value is the maximum over
    the feasible points, and if the target is reported as unbounded it can be raised along a ray of feasible points of length 1.0e+10. *)
Theorem C60_linear_program_solved : forall (eqs : list (ceq F)) nitr, supported eqs ->
  exists res nitr' p, Precomp (problem eqs) nitr = Some (res, nitr', p) /\ (res = 0%nat \/ res = 2%nat \/ res = 3%nat) /\
    (res = 0%nat ->
      (exists v, GetValid p = Some v /\ feasible eqs v) /\
      (forall c sol0 n, (length c <= nvars eqs)%nat -> not_tiny c -> solved eqs c n (Solve p sol0 n c))).
Proof.
  intros eqs nitr Hsup. destruct (problem_eqs eqs) as (He & Ht). pose proof (Precomp_ok F eqs (problem eqs) nitr He Ht) as W. apply wp_ex in W. destruct W as (((res, nitr'), p) & E & H). exists res, nitr', p. split; auto.
  destruct H as (Hp & H). split. destruct H as [(-> & _)|[(-> & _)|(-> & _)]]; auto.
  intros ->. destruct H as [(_ & [Hr|Hx])|[(? & _)|(? & _)]]; try discriminate. 2: { exfalso. apply (supported_nA eqs Hsup Hx). }
  split.
  - pose proof (GetValid_ok F eqs p Hr) as W. apply wp_ex in W. auto.
  - intros c sol0 n Hc Htiny. rewrite <- (rd_nvar _ _ _ Hr) in Hc. pose proof (Solve_ok F eqs p Hr c Hc Htiny n sol0) as W. apply wp_ex in W. destruct W as ((((r, sol), opt), n') & E' & H'). exists r, sol, opt, n'. split; auto.
Qed.

(** Inconsistent constraints are never accepted. *)
Theorem C60_inconsistent_rejected : forall (eqs : list (ceq F)) nitr, supported eqs -> (forall v, ~ feasible eqs v) ->
  exists res nitr' p, Precomp (problem eqs) nitr = Some (res, nitr', p) /\ (res = 2%nat \/ res = 3%nat).
Proof.
  intros eqs nitr Hs Hn. destruct (C60_linear_program_solved eqs nitr Hs) as (res & nitr' & p & E & Hc & H0). exists res, nitr', p. split; auto. destruct Hc as [->|Hc]; auto. destruct (H0 eq_refl) as ((v & _ & Hv) & _). destruct (Hn v Hv).
Qed.

(** The rejection can be trusted when the first phase has converged and its target (the first entry of the last row of the table) is not zero. *)
Theorem C60_rejection_means_inconsistent : forall (eqs : list (ceq F)) nitr nitr' p, Precomp (problem eqs) nitr = Some (3%nat, nitr', p) -> (nitr' < nitr)%nat ->
  nth (neq p *n (2 +n nvar p +n nslk p +n nart p)) (tabA p) 0 <> 0 -> forall v, ~ feasible eqs v.
Proof.
  intros eqs nitr nitr' p E Hn Hne. destruct (problem_eqs eqs) as (He & Ht). pose proof (Precomp_ok F eqs (problem eqs) nitr He Ht) as W. apply wp_ex in W. destruct W as (r & E' & H). rewrite E in E'. injection E' as <-.
  destruct H as (_ & [(? & _)|[(? & _)|(_ & H)]]); try discriminate. auto.
Qed.
End T.
Arguments problem {F}. Arguments supported {F}. Arguments solved {F}.

(** * A computable ordered field: the rational numbers *)
Definition Qcr : cring := mkRing Qc (Q2Qc 0) (Q2Qc 1) Qcplus Qcmult Qcminus Qcopp Qcrt.
Definition qltb (x y : Qc) : bool := match (x ?= y)%Qc with Lt => true | _ => false end.
Definition qdiv (x y : Qc) : option Qc := if Qc_eq_bool y (Q2Qc 0) then None else Some (Qcdiv x y).
Lemma qltb_lt : forall x y, qltb x y = true <-> (x < y)%Qc.
Proof. intros. unfold qltb. rewrite Qclt_alt. destruct (x ?= y)%Qc; split; congruence. Qed.
Lemma qltb_false : forall x y, ~ (x < y)%Qc -> qltb x y = false.
Proof. intros. destruct (qltb x y) eqn:E; auto. apply qltb_lt in E. contradiction. Qed.
Lemma q_odiv_ok : forall x y : Qc, y <> Q2Qc 0 -> exists z, qdiv x y = Some z /\ Qcmult z y = x.
Proof. intros x y Hy. unfold qdiv. destruct (Qc_eq_bool y (Q2Qc 0)) eqn:E. apply Qc_eq_bool_correct in E. contradiction. eexists. split. reflexivity. rewrite Qcmult_comm. apply Qcmult_div_r. auto. Qed.
Lemma q_total : forall x y : Qc, qltb x y = true \/ x = y \/ qltb y x = true.
Proof. intros. rewrite !qltb_lt. destruct (Qc_dec x y) as [[H|H]|H]; auto. Qed.
Lemma q_trans : forall x y z : Qc, qltb x y = true -> qltb y z = true -> qltb x z = true.
Proof. intros x y z. rewrite !qltb_lt. apply Qclt_trans. Qed.
Lemma q_irrefl : forall x : Qc, qltb x x = false.
Proof. intros. apply qltb_false. apply Qcle_not_lt. apply Qcle_refl. Qed.
Lemma q_add : forall x y z : Qc, qltb x y = true -> qltb (Qcplus x z) (Qcplus y z) = true.
Proof. intros x y z. rewrite !qltb_lt. intros H. apply Qclt_minus_iff. apply Qclt_minus_iff in H. replace (Qcplus (Qcplus y z) (Qcopp (Qcplus x z))) with (Qcplus y (Qcopp x)) by ring. auto. Qed.
Lemma q_mul : forall x y : Qc, qltb (Q2Qc 0) x = true -> qltb (Q2Qc 0) y = true -> qltb (Q2Qc 0) (Qcmult x y) = true.
Proof. intros x y. rewrite !qltb_lt. intros H1 H2. replace (Q2Qc 0) with (Qcmult (Q2Qc 0) y) by ring. apply Qcmult_lt_compat_r; auto. Qed.
Definition QF : ofield.
refine (mkOF Qcr qdiv qltb (Q2Qc (1 # (10 ^ 30))) (Q2Qc (1 # (10 ^ 10))) (Q2Qc (1 # (10 ^ 8))) (Q2Qc (10 ^ 10 # 1)) _ _ _ _ _ _ _ _ _ _).
- exact q_odiv_ok.
- exact q_irrefl.
- exact q_trans.
- exact q_total.
- exact q_add.
- exact q_mul.
- reflexivity.
- reflexivity.
- reflexivity.
- reflexivity.
Defined.
Definition q (z : Z) : QF := Q2Qc (z # 1).
Definition qe (l : list Z) (r : Z) (t : eqtype) : ceq QF := mkEq (map q l) (q r) t.

(** * Concrete cases *)
(** What the calls return, with the canonical form of the rational numbers. *)
Definition prepared (eqs : list (ceq QF)) (n : nat) : linpro QF := match Precomp (problem eqs) n with Some (_, _, p) => p | None => problem eqs end.
Definition code (r : option (nat * nat * linpro QF)) : option (nat * nat) := match r with Some (r, n', _) => Some (r, n') | None => None end.
Definition points (r : option (list QF)) : option (list Q) := match r with Some l => Some (map (fun x : Qc => this x) l) | None => None end.
Definition shown (r : option (nat * list QF * QF * nat)) : option (nat * list Q * Q * nat) := match r with Some (r, l, o, n) => Some (r, map (fun x : Qc => this x) l, this (o : Qc), n) | None => None end.
Lemma code_prepared : forall eqs n r n', code (Precomp (problem eqs) n) = Some (r, n') -> Precomp (problem eqs) n = Some (r, n', prepared eqs n).
Proof. intros eqs n r n'. unfold code, prepared. destruct (Precomp (problem eqs) n) as [((a, b), p)|]; intros H; [injection H as -> ->; auto|discriminate]. Qed.

(** x + y <= 4, x - y >= 1, y >= 1: the origin is not feasible. *)
Definition ex1 : list (ceq QF) := [qe [1; 1]%Z 4 LE; qe [1; -1]%Z 1 GE; qe [0; 1]%Z 1 GE].
Example ex1_supported : supported ex1.
Proof. left. exists (qe [1; -1]%Z 1 GE). split. simpl; auto. reflexivity. Qed.
Example ex1_target : (length (map q [1; 2]%Z) <= nvars ex1)%nat /\ not_tiny (map q [1; 2]%Z).
Proof. split. apply le_n. intros x Hx. right. simpl in Hx. destruct Hx as [<-|[<-|[]]]; reflexivity. Qed.
(** The maximum of x + 2y is 11/2, at (5/2, 3/2). *)
Example ex1_run : code (Precomp (problem ex1) 10) = Some (0, 2)%nat /\ points (GetValid (prepared ex1 10)) = Some [2; 1]%Q /\
  shown (Solve (prepared ex1 10) [] 10 (map q [1; 2]%Z)) = Some (0%nat, [5 # 2; 3 # 2]%Q, 11 # 2, 1%nat).
Proof.
  split; [|split].
  - vm_compute. reflexivity.
  - vm_compute. reflexivity.
  - vm_compute. reflexivity.
Qed.
(** Without the first constraint the target is unbounded. *)
Example ex2_run : supported (tl ex1) /\ code (Precomp (problem (tl ex1)) 10) = Some (0, 2)%nat /\ shown (Solve (prepared (tl ex1) 10) [] 10 (map q [1; 2]%Z)) = Some (2%nat, [2; 1]%Q, 4%Q, 0%nat).
Proof. split; [|split]. left. exists (qe [1; -1]%Z 1 GE). split. simpl; auto. reflexivity. vm_compute. reflexivity. vm_compute. reflexivity. Qed.
(** x + y <= 1 and x + y >= 2 are inconsistent; the hypotheses of [C60_rejection_means_inconsistent] hold. *)
Definition ex3 : list (ceq QF) := [qe [1; 1]%Z 1 LE; qe [1; 1]%Z 2 GE].
Example ex3_run : supported ex3 /\ code (Precomp (problem ex3) 10) = Some (3, 1)%nat /\ this (let p := prepared ex3 10 in nth (neq p *n (2 +n nvar p +n nslk p +n nart p)) (tabA p) (q 0)) = (-1)%Q.
Proof. split; [|split]. left. exists (qe [1; 1]%Z 2 GE). split. simpl; auto. reflexivity. vm_compute. reflexivity. vm_compute. reflexivity. Qed.
Example ex3_infeasible : forall v, ~ feasible ex3 v.
Proof.
  destruct ex3_run as (_ & E & Z). apply code_prepared in E. apply (C60_rejection_means_inconsistent QF ex3 10 1 _ E). lia. cbv zeta in Z. intros C. apply (f_equal (fun x : Qc => this x)) in C. change (@rO (oK QF)) with (q 0) in C. rewrite Z in C. discriminate C.
Qed.

(** * What the code does not guarantee *)
(** Running out of iterations is reported by the same return value 0 as convergence: the point is feasible but not optimal. *)
Theorem C60_out_of_iterations_refuted : ~ (forall (F : ofield) (eqs : list (ceq F)) n n' k k' p c sol opt, Precomp (problem eqs) n = Some (0%nat, n', p) -> not_tiny c ->
  Solve p [] k c = Some (0%nat, sol, opt, k') -> forall v, feasible eqs v -> le (form c v) opt).
Proof.
  intros H. set (eqs := [qe [1; 1]%Z 4 LE]). assert (E : code (Precomp (problem eqs) 10) = Some (0, 0)%nat) by (vm_compute; reflexivity). apply code_prepared in E.
  assert (S : shown (Solve (prepared eqs 10) [] 0 (map q [1; 2]%Z)) = Some (0%nat, [0; 0]%Q, 0%Q, 0%nat)) by (vm_compute; reflexivity).
  destruct (Solve (prepared eqs 10) [] 0 (map q [1; 2]%Z)) as [(((r, l), o), k')|] eqn:Es; [|discriminate]. injection S as -> _ So ->.
  assert (Eo : o = q 0) by (apply Qc_is_canon; rewrite So; reflexivity). subst o.
  specialize (H QF eqs 10%nat 0%nat 0%nat 0%nat (prepared eqs 10) (map q [1; 2]%Z) l (q 0) E (proj2 ex1_target) Es (map q [0; 4]%Z)).
  assert (X : le (form (map q [1; 2]%Z) (map q [0; 4]%Z)) (q 0)). { apply H. split. reflexivity. split. intros x [<-|[<-|[]]]; reflexivity. intros e [<-|[]]. reflexivity. } vm_compute in X. discriminate X.
Qed.
(** If every lower bound has a right-hand side that is not positive and there is no equality, the preparation returns 0 but Solve fails: the rows of the lower bounds have the entry -1 in the basis. *)
Theorem C60_lower_bound_only_refuted : ~ (forall (F : ofield) (eqs : list (ceq F)) n n' p, Precomp (problem eqs) n = Some (0%nat, n', p) -> forall c k, (length c <= nvars eqs)%nat -> not_tiny c -> Solve p [] k c <> None).
Proof.
  intros H. set (eqs := [qe [1]%Z 0 GE]). assert (E : code (Precomp (problem eqs) 10) = Some (0, 0)%nat) by (vm_compute; reflexivity). apply code_prepared in E.
  apply (H QF eqs 10%nat 0%nat _ E [q 1] 10%nat).
  - apply le_n.
  - intros x [<-|[]]. right. reflexivity.
  - vm_compute. reflexivity.
Qed.
(** The return value 3 alone does not mean that the constraints are inconsistent: an equality given twice leaves an artificial variable in the basis. *)
Theorem C60_redundant_equality_refuted : ~ (forall (F : ofield) (eqs : list (ceq F)) n n' p, Precomp (problem eqs) n = Some (3%nat, n', p) -> (n' < n)%nat -> forall v, ~ feasible eqs v).
Proof.
  intros H. set (eqs := [qe [1; 1]%Z 1 EQ; qe [1; 1]%Z 1 EQ]). assert (E : code (Precomp (problem eqs) 10) = Some (3, 1)%nat) by (vm_compute; reflexivity). apply code_prepared in E.
  apply (H QF eqs 10%nat 1%nat _ E ltac:(lia) (map q [1; 0]%Z)).
  split. reflexivity. split. intros x [<-|[<-|[]]]; reflexivity. intros e [<-|[<-|[]]]; apply Qc_is_canon; reflexivity.
Qed.
(** The table is not cleared: adding a constraint to a prepared object and preparing it again reads entries of the old table. *)
Theorem C60_prepare_twice_refuted : ~ (forall (F : ofield) (eqs : list (ceq F)) e n n1 p1 n2 p2, supported (eqs ++ [e]) -> Precomp (problem eqs) n = Some (0%nat, n1, p1) ->
  Precomp (AddEqn p1 (aCoeff e) (erhs e) (itype e)) n = Some (0%nat, n2, p2) -> forall c k, (length c <= nvars (eqs ++ [e]))%nat -> not_tiny c -> Solve p2 [] k c <> None).
Proof.
  intros H. set (eqs := [qe [1; 0]%Z 4 LE; qe [0; 1]%Z 5 LE]). set (e := qe [1; 1]%Z 1 LE). assert (E : code (Precomp (problem eqs) 10) = Some (0, 0)%nat) by (vm_compute; reflexivity). apply code_prepared in E.
  set (p2 := Precomp (AddEqn (prepared eqs 10) (aCoeff e) (erhs e) (itype e)) 10). assert (E2 : code p2 = Some (0, 0)%nat) by (vm_compute; reflexivity).
  assert (S : match p2 with Some (_, _, p) => Solve p [] 10 [q 1] | None => Some (0%nat, [], q 0, 0%nat) end = None) by (vm_compute; reflexivity).
  destruct p2 as [((r, n2), p)|] eqn:E3; [|discriminate]. injection E2 as -> ->.
  apply (H QF eqs e 10%nat 0%nat _ 0%nat p) with (c := [q 1]) (k := 10%nat) (2 := E) (3 := E3); auto.
  - right. intros x [<-|[<-|[<-|[]]]]; discriminate.
  - simpl. lia.
  - intros x [<-|[]]. right. reflexivity.
Qed.

Print Assumptions C60_linear_program_solved.
Print Assumptions C60_inconsistent_rejected.
Print Assumptions C60_rejection_means_inconsistent.
Print Assumptions C60_out_of_iterations_refuted.
Print Assumptions C60_lower_bound_only_refuted.
Print Assumptions C60_redundant_equality_refuted.
Print Assumptions C60_prepare_twice_refuted.
