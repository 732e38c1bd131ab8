(** Model of parallel_for in /repo/include/delfem2/thread.h.  A schedule is a list of single steps of the workers, in any interleaving; the accesses to the atomics next_idx and has_error are one step each.  The type T is unsigned with M values.  Thread creation is assumed to succeed. *)
From Coq Require Import List Arith Bool.
Import ListNotations.
From Verif Require Import Imp.

Section M.
Context {C : Type}.  (** what func is called with *)
(** The place of a worker in the body of the lambda. *)
Inductive wstate :=
  | Fetch                      (* about to execute next_idx.fetch_add(1) *)
  | Got (idx : nat)            (* about to test idx >= num *)
  | Check (idx : nat)          (* about to read has_error *)
  | Run (todo : list C)        (* in the loop body, about to make the next call *)
  | InCall (todo : list C)     (* inside a call *)
  | Catch                      (* in the catch block, about to set has_error *)
  | Done                       (* returned *)
  | Failed.                    (* ended with the exception *)
Record pst := Pst { next_idx : nat; has_error : bool; workers : list wstate; calls : list C }.
Definition pst0 (nthreads : nat) : pst := Pst 0 false (repeat Fetch nthreads) [].
(** thread.h:33-44 and 63-74, one step of worker w; [throws] says whether the call that ends in this step throws.  [jobs idx] are the calls made for one fetched index. *)
Definition pstep (M num : nat) (jobs : nat -> list C) (s : pst) (w : nat) (throws : bool) : option pst :=
  x <- vget (workers s) w ;;
  let goto y := ws <- vset (workers s) w y ;; Some (Pst (next_idx s) (has_error s) ws (calls s)) in
  match x with
  | Fetch => ws <- vset (workers s) w (Got (next_idx s)) ;; Some (Pst ((next_idx s + 1) mod M) (has_error s) ws (calls s))
  | Got idx => if num <=? idx then goto Done else goto (Check idx)
  | Check idx => if has_error s then goto Done else goto (Run (jobs idx))
  | Run [] => goto Fetch
  | Run (c :: todo) => ws <- vset (workers s) w (InCall todo) ;; Some (Pst (next_idx s) (has_error s) ws (calls s ++ [c]))
  | InCall todo => if throws then goto Catch else goto (Run todo)
  | Catch => ws <- vset (workers s) w Failed ;; Some (Pst (next_idx s) true ws (calls s))
  | Done | Failed => None
  end.
Definition prun (M num : nat) (jobs : nat -> list C) (sched : list (nat * bool)) (s : pst) : option pst := foldM (fun '(w, b) s => pstep M num jobs s w b) sched s.
(** thread.h:47 and 77: the get of each future waits for its worker, and the first stored exception is thrown. *)
Definition finished (s : pst) : bool := forallb (fun x => match x with Done | Failed => true | _ => false end) (workers s).
Definition raises (s : pst) : bool := existsb (fun x => match x with Failed => true | _ => false end) (workers s).
End M.
Arguments wstate : clear implicits.
Arguments pst : clear implicits.

(** thread.h:21-48: one call for each index. *)
Definition jobs1 (idx : nat) : list nat := [idx].
(** thread.h:50-78: calls (i, j) for i below num1. *)
Definition jobs2 (num1 : nat) (j : nat) : list (nat * nat) := map (fun i => (i, j)) (seq 0 num1).
(** thread.h:29-30: target_concurrency, or hardware_concurrency if it is zero. *)
Definition nthreads (hardware target : nat) : nat := if target =? 0 then hardware else target.
