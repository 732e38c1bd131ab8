(** Model of /repo/include/delfem2/geo_gjksat2.h: intersection of the convex hulls of two point sets in the plane (GJK and
    separating axes) and their penetration (EPA).

    Real numbers stand for double.  The code divides by lengths that can be zero; 0/0 is NaN and every comparison with NaN is
    false.  Both are modelled: a vector or number of type [option] is NaN if it is [None].  An initial numeric_limits<>::lowest()
    or max() behaves in the comparisons like NaN, so that it is [None] too (no number is below the lowest one, none above max()).
    A failed assertion, an access out of range or more iterations than [fuel] is [None] of the outer option. *)
From Coq Require Import List Arith Bool Reals.
Import ListNotations.
From Verif Require Import Imp PrModel PolyModel.
Open Scope R_scope.

(** Comparisons and products with NaN. *)
Definition nlt (a b : option R) : bool := match a, b with Some a, Some b => ltR a b | _, _ => false end.
Definition nge (a b : option R) : bool := match a, b with Some a, Some b => negb (ltR a b) | _, _ => false end.
Definition ndot (u : option pt) (v : pt) : option R := option_map (fun u => dotp u v) u.
Definition nneg (u : option pt) : option pt := option_map (fun u => (- fst u, - snd u)) u.

(** geo_gjksat2.h:15-29 *)
Definition FindFurthest (poly : list pt) (dir : option pt) : option pt :=
  v0 <- vget poly 0 ;;
  Some (fst (fold_left (fun '(ret, max_dist) vert =>
    let dist := ndot dir vert in
    if nlt dist max_dist then (ret, max_dist) else (vert, dist)) poly (v0, None))).

(** geo_gjksat2.h:43-46, the lambda [support]; the same lambda at 159-162 *)
Definition support (vtxsA vtxsB : list pt) (dir : option pt) : option pt :=
  a <- FindFurthest vtxsA dir ;;
  b <- FindFurthest vtxsB (nneg dir) ;;
  Some (subp a b).

(** geo_gjksat2.h:68, 73, 74: U - V.dot(U)/V.squaredNorm()*V; NaN for V = 0 *)
Definition perp (U V : pt) : option pt :=
  if eqR (dotp V V) 0 then None else
  let k := dotp V U / dotp V V in Some (fst U - k * fst V, snd U - k * snd V).

(** geo_gjksat2.h:56-85, one iteration of the loop; the flag is set when the function returns *)
Definition gjk_step (vtxsA vtxsB : list pt) (st : list pt * option pt) : option ((list pt * option pt) * bool) :=
  let '(simplex, d) := st in
  P <- support vtxsA vtxsB d ;;
  if nlt (ndot d P) (Some 0) then Some (([], d), true) else
  let simplex := simplex ++ [P] in
  match simplex with
  | [s0; s1] =>
      let AB := subp s0 s1 in
      let AO := subp (0, 0) s1 in
      Some ((simplex, perp AO AB), false)
  | [s0; s1; s2] =>
      let AB := subp s1 s2 in
      let AC := subp s0 s2 in
      let AO := subp (0, 0) s2 in
      let ABperp := nneg (perp AC AB) in
      let ACperp := nneg (perp AB AC) in
      if nlt (Some 0) (ndot ABperp AO) then Some (([s1; s2], ABperp), false)
      else if nlt (Some 0) (ndot ACperp AO) then Some (([s0; s2], ACperp), false)
      else Some ((simplex, d), true)
  | _ => Some ((simplex, d), false)
  end.

(** geo_gjksat2.h:37-86 *)
Definition FindIntersectingSimplexForGjk2 (fuel : nat) (vtxsA vtxsB : list pt) : option (list pt) :=
  a0 <- vget vtxsA 0 ;;
  b0 <- vget vtxsB 0 ;;
  s <- support vtxsA vtxsB (Some (subp b0 a0)) ;;
  '(simplex, _) <- loopf fuel (gjk_step vtxsA vtxsB) ([s], Some (subp (0, 0) s)) ;;
  Some simplex.

(** geo_gjksat2.h:96-102 *)
Definition IsIntersect_Points2_Points2_Gjk (fuel : nat) (vtxsA vtxsB : list pt) : option bool :=
  simplex <- FindIntersectingSimplexForGjk2 fuel vtxsA vtxsB ;;
  Some (match simplex with [] => false | _ => true end).

(** vec2.h:174-178; NaN for the zero vector *)
Definition normalize (n : pt) : option pt := if eqR (normp n) 0 then None else Some (fst n / normp n, snd n / normp n).

(** geo_gjksat2.h:108-131; the index UINT_MAX is None *)
Definition FindClosestEdge (simplex : list pt) : option (option nat * option pt) :=
  assertb (negb (length simplex =? 0)%nat) ;;;
  '(_, min_idx, ret_normal) <- forn 0 (length simplex) (fun i '(min_dist, min_idx, ret_normal) =>
    let j := ((i + 1 + length simplex) mod length simplex)%nat in
    vj <- vget simplex j ;;
    vi <- vget simplex i ;;
    let edge := subp vj vi in
    let n := normalize (snd edge, - fst edge) in
    let dist := ndot n vi in
    if nge dist min_dist then Some (min_dist, min_idx, ret_normal) else Some (dist, Some i, n)) (None, None, None) ;;
  Some (min_idx, ret_normal).

(** geo_gjksat2.h:164-177, one iteration of the loop; the state is the polygon and the vector normalA *)
Definition epa_step (vtxsA vtxsB : list pt) (tolerance : R) (st : list pt * option pt) : option ((list pt * option pt) * bool) :=
  let '(simplex, normalA) := st in
  '(iv0, n) <- FindClosestEdge simplex ;;
  iv0 <- iv0 ;;
  v <- vget simplex iv0 ;;
  let dist := ndot n v in
  p <- support vtxsA vtxsB n ;;
  let d := ndot n p in
  match d, dist, n with
  | Some d, Some dist, Some n =>
      if ltR (d - dist) tolerance then Some ((simplex, Some (fst n * dist, snd n * dist)), true)
      else Some ((firstn (iv0 + 1) simplex ++ p :: skipn (iv0 + 1) simplex, normalA), false)
  | _, _, _ => Some ((firstn (iv0 + 1) simplex ++ p :: skipn (iv0 + 1) simplex, normalA), false)
  end.

(** geo_gjksat2.h:149-157, make the simplex counterclockwise *)
Definition make_ccw (simplex : list pt) : option (list pt) :=
  v0 <- vget simplex 0 ;; v1 <- vget simplex 1 ;; v2 <- vget simplex 2 ;;
  let v01 := subp v1 v0 in
  let v02 := subp v2 v0 in
  if ltR (fst v01 * snd v02 - snd v01 * fst v02) 0 then Some [v0; v2; v1] else Some simplex.

(** geo_gjksat2.h:141-178; the returned flag and normalA (NaN if None; not set by the function if the flag is false) *)
Definition Penetration_Points2_Points2_Epa (fuelg fuel : nat) (vtxsA vtxsB : list pt) (tolerance : R) : option (bool * option pt) :=
  simplex <- FindIntersectingSimplexForGjk2 fuelg vtxsA vtxsB ;;
  if (length simplex =? 0)%nat then Some (false, None) else
  assertb (length simplex =? 3)%nat ;;;
  simplex <- make_ccw simplex ;;
  '(_, normalA) <- loopf fuel (epa_step vtxsA vtxsB tolerance) (simplex, None) ;;
  Some (true, normalA).

(** geo_gjksat2.h:187-201 *)
Definition Range_ProjectionPointsOnAxis (vtxs : list pt) (a : pt) : option (R * R) :=
  v0 <- vget vtxs 0 ;;
  let min0 := dotp a v0 in
  let max0 := min0 in
  '(min0, max0) <- forn 1 (length vtxs) (fun ivtx '(min0, max0) =>
    v <- vget vtxs ivtx ;;
    let d := dotp a v in
    Some (if ltR d min0 then d else min0, if ltR max0 d then d else max0)) (min0, max0) ;;
  assertb (negb (ltR max0 min0)) ;;;
  Some (min0, max0).

(** geo_gjksat2.h:209-216 (220-227 with A and B exchanged): the axis normal to an edge separates the two sets *)
Definition sat_axis (vtxsA vtxsB : list pt) (v w : pt) : option bool :=
  let a := subp v w in
  let a := (snd a, - fst a) in
  rangeA <- Range_ProjectionPointsOnAxis vtxsA a ;;
  rangeB <- Range_ProjectionPointsOnAxis vtxsB a ;;
  Some (ltR (snd rangeA) (fst rangeB) || ltR (snd rangeB) (fst rangeA))%bool.
(** geo_gjksat2.h:207-218 and 219-229, the loops over the pairs of one set; the early return ends them: the flag is then true *)
Definition sat_pairs (vtxsA vtxsB vtxs : list pt) (found : bool) : option bool :=
  forn 0 (length vtxs) (fun i found =>
    forn (i + 1) (length vtxs) (fun j (found : bool) =>
      if found then Some true else
      v <- vget vtxs i ;; w <- vget vtxs j ;;
      sat_axis vtxsA vtxsB v w) found) found.
(** geo_gjksat2.h:203-231 *)
Definition IsIntersect_Points2_Points2_Sat (vtxsA vtxsB : list pt) : option bool :=
  f <- sat_pairs vtxsA vtxsB vtxsB false ;;
  f <- sat_pairs vtxsA vtxsB vtxsA f ;;
  Some (negb f).
