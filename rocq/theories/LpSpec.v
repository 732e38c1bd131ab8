(** Specification vocabulary for lp.{h,cpp}, independent of the tables of the solver: what it means for a point to satisfy the given constraints. *)
From Coq Require Import List Arith.
Import ListNotations.
From Verif Require Import Imp Alg LpModel.

Section Spec.
Variable F : ofield.
Local Open Scope K_scope.

Definition le (x y : F) : Prop := oltb y x = false.
Definition lt (x y : F) : Prop := oltb x y = true.

(** The linear form with the coefficients [c] (missing coefficients are zero) at the point [v]. *)
Definition form (c v : list F) : F := sumn (length c) (fun k => nth k c 0 * nth k v 0).

(** One constraint. *)
Definition holds (e : ceq F) (v : list F) : Prop :=
  match itype e with
  | LE => le (form (aCoeff e) v) (erhs e)
  | GE => le (erhs e) (form (aCoeff e) v)
  | EQ => form (aCoeff e) v = erhs e
  end.

(** The number of variables: the length of the longest coefficient vector. *)
Definition nvars (eqs : list (ceq F)) : nat := fold_right (fun e n => Nat.max (length (aCoeff e)) n) 0%nat eqs.

(** A feasible point: one non-negative value per variable, and every constraint holds. *)
Definition feasible (eqs : list (ceq F)) (v : list F) : Prop :=
  length v = nvars eqs /\ (forall x, In x v -> le 0 x) /\ (forall e, In e eqs -> holds e v).

(** Some constraint needs an artificial variable: it is an equality or the origin violates it. *)
Definition needs_art (e : ceq F) : Prop :=
  match itype e with LE => lt (erhs e) 0 | GE => lt 0 (erhs e) | EQ => True end.

(** The coefficients of a target are zero or not below the tolerance 1.0e-30 of the code. *)
Definition not_tiny (c : list F) : Prop := forall x, In x c -> x = 0 \/ le e30 (fabs x).
End Spec.
Arguments le {F}. Arguments lt {F}. Arguments form {F}. Arguments holds {F}. Arguments nvars {F}. Arguments feasible {F}. Arguments needs_art {F}. Arguments not_tiny {F}.
