(** Model of /repo/include/delfem2/dijkstra.h.  [None] in an array of option distances or option orders is UINT_MAX. *)
From Coq Require Import List Arith Bool Reals.
Import ListNotations.
From Verif Require Import Imp BvModel.
Open Scope nat_scope.

(** std::priority_queue<CNode<DISTANCE>> (dijkstra.h:32-44: the top is an entry of smallest distance).  Which of several entries of equal
    distance comes first is up to the library: the two operations are parameters of every function below, and the
    theorems hold for all operations that satisfy DijkSpec.pq_ok.  The state of the queue is a list of entries in some order. *)
Record pqueue (D : Type) := PQ { pq_push : list (nat * D) -> nat * D -> list (nat * D); pq_pop : list (nat * D) -> option ((nat * D) * list (nat * D)) }.
Arguments PQ {D}. Arguments pq_push {D}. Arguments pq_pop {D}.
Definition nonempty {A} (l : list A) : bool := match l with [] => false | _ => true end.

(** dijkstra.h:57-89 DijkstraElem_MeshElemTopo.  [dbg] tells whether assert is compiled in (NDEBUG not defined).  Result: aDist, aOrder.
    The distances are unbounded (a path is shorter than 2^32-1 elements). *)
Definition DijkstraElem_MeshElemTopo (dbg : bool) (pq : pqueue nat) (ielm_ker : nat) (aElSuEl : list (option nat)) (nelem : nat)
    : option (list (option nat) * list (option nat)) :=
  let aOrder := repeat None nelem in
  let aDist := repeat None nelem in
  aDist <- vset aDist ielm_ker (Some 0) ;;
  let nedge := length aElSuEl / nelem in
  let que := pq_push pq [] (ielm_ker, 0) in
  '(aDist, aOrder, que, icnt) <- whilef (1 + nelem * nedge) (fun s => let '(_, _, que, _) := s in nonempty que) (fun s =>
    let '(aDist, aOrder, que, icnt) := s in
    '((ielm0, idist0), que) <- pq_pop pq que ;;
    o <- vget aOrder ielm0 ;;
    match o with
    | Some _ => Some (aDist, aOrder, que, icnt)
    | None =>
      aOrder <- vset aOrder ielm0 (Some icnt) ;;
      let icnt := icnt + 1 in
      '(aDist, que) <- forn 0 nedge (fun iedge s =>
        let '(aDist, que) := s in
        e <- vget aElSuEl (ielm0 * nedge + iedge) ;;
        match e with
        | None => Some (aDist, que)
        | Some ielm1 =>
          let idist1 := idist0 + 1 in
          d <- vget aDist ielm1 ;;
          if (match d with Some d => d <=? idist1 | None => false end) then Some (aDist, que) else
          aDist <- vset aDist ielm1 (Some idist1) ;;
          Some (aDist, pq_push pq que (ielm1, idist1))
        end) (aDist, que) ;;
      Some (aDist, aOrder, que, icnt)
    end) (aDist, aOrder, que, 0) ;;
  assertb (negb dbg || (icnt =? nelem)) ;;;
  Some (aDist, aOrder).

(** dijkstra.h:26-30 Distance3 (argument order as in the code). *)
Definition dDistance3 (p0 p1 : v3) : R :=
  sqrt ((vx p1 - vx p0) * (vx p1 - vx p0) + (vy p1 - vy p0) * (vy p1 - vy p0) + (vz p1 - vz p0) * (vz p1 - vz p0)).

(** dijkstra.h:91-110 Center_Elem3. *)
Definition Center_Elem3 (ielm1 : nat) (aTri : list nat) (nnoel : nat) (aXYZ : list R) : option v3 :=
  p <- forn 0 nnoel (fun inoel p =>
    ip0 <- vget aTri (ielm1 * nnoel + inoel) ;; x <- getp aXYZ ip0 ;;
    Some (V3 (vx p + vx x) (vy p + vy x) (vz p + vz x))) (V3 0 0 0) ;;
  Some (V3 (vx p / INR nnoel) (vy p / INR nnoel) (vz p / INR nnoel)).

(** dijkstra.h:112-157 DijkstraElem_MeshElemGeo3.  The callback object is modelled by the predicate [incl] (IsIncludeElem, taken not to change
    during the run) and the log of the AddElem calls.  Result: aDist, aOrder, log. *)
Definition DijkstraElem_MeshElemGeo3 (pq : pqueue R) (incl : nat -> bool) (ielm_ker : nat) (aTri : list nat) (nelem : nat) (aXYZ : list R)
    (aElSuEl : list (option nat)) : option (list R * list (option nat) * list nat) :=
  let aOrder := repeat None nelem in
  let aDist := repeat (-1)%R nelem in
  aDist <- vset aDist ielm_ker 0%R ;;
  let nedge := length aElSuEl / nelem in
  let nnoel := length aTri / nelem in
  let que := pq_push pq [] (ielm_ker, 0%R) in
  '(aDist, aOrder, que, icnt, log) <- whilef (1 + nelem * nedge) (fun s => let '(_, _, que, _, _) := s in nonempty que) (fun s =>
    let '(aDist, aOrder, que, icnt, log) := s in
    '((ielm0, idist0), que) <- pq_pop pq que ;;
    p0 <- Center_Elem3 ielm0 aTri nnoel aXYZ ;;
    o <- vget aOrder ielm0 ;;
    match o with
    | Some _ => Some (aDist, aOrder, que, icnt, log)
    | None =>
      aOrder <- vset aOrder ielm0 (Some icnt) ;;
      let log := log ++ [ielm0] in
      let icnt := icnt + 1 in
      '(aDist, que) <- forn 0 nedge (fun iedge s =>
        let '(aDist, que) := s in
        e <- vget aElSuEl (ielm0 * nedge + iedge) ;;
        match e with
        | None => Some (aDist, que)
        | Some ielm1 =>
          o1 <- vget aOrder ielm1 ;;
          match o1 with
          | Some _ => Some (aDist, que)
          | None =>
            if negb (incl ielm1) then Some (aDist, que) else
            p1 <- Center_Elem3 ielm1 aTri nnoel aXYZ ;;
            let idist1 := (idist0 + dDistance3 p0 p1)%R in
            d <- vget aDist ielm1 ;;
            if Rltb d (-1 / 10) || Rltb idist1 d then
              aDist <- vset aDist ielm1 idist1 ;; Some (aDist, pq_push pq que (ielm1, idist1))
            else Some (aDist, que)
          end
        end) (aDist, que) ;;
      Some (aDist, aOrder, que, icnt, log)
    end) (aDist, aOrder, que, 0, []) ;;
  Some (aDist, aOrder, log).

(** dijkstra.h:159-200 MeshClustering.  [itri_ker] is the random number drawn at line 171.  The comparisons with the double idist_max are
    comparisons of integers; UINT_MAX is larger than every distance. *)
Definition ltU (a b : option nat) : bool :=
  match a, b with Some x, Some y => x <? y | Some _, None => true | None, _ => false end.
Definition MeshClustering (dbg : bool) (pq : pqueue nat) (itri_ker : nat) (ncluster : nat) (aTriSuTri : list (option nat)) (ntri : nat) : option (list nat) :=
  assertb (itri_ker <? ntri) ;;;
  let aFlgElm := repeat 0 ntri in
  '(aDist0, _) <- DijkstraElem_MeshElemTopo dbg pq itri_ker aTriSuTri ntri ;;
  '(aFlgElm, aDist0) <- forn 1 ncluster (fun icluster s =>
    let '(aFlgElm, aDist0) := s in
    '(idist_max, itri_maxdist) <- forn 0 ntri (fun it s =>
      let '(idist_max, itri_maxdist) := s in
      d <- vget aDist0 it ;;
      if negb (ltU idist_max d) then Some (idist_max, itri_maxdist) else Some (d, Some it)) (Some 0, None) ;;
    itri_maxdist <- itri_maxdist ;;
    '(aDist1, _) <- DijkstraElem_MeshElemTopo dbg pq itri_maxdist aTriSuTri ntri ;;
    forn 0 ntri (fun it s =>
      let '(aFlgElm, aDist0) := s in
      d1 <- vget aDist1 it ;; d0 <- vget aDist0 it ;;
      if ltU d1 d0 then
        aDist0 <- vset aDist0 it d1 ;;
        aFlgElm <- vset aFlgElm it icluster ;; Some (aFlgElm, aDist0)
      else Some (aFlgElm, aDist0)) (aFlgElm, aDist0)) (aFlgElm, aDist0) ;;
  Some aFlgElm.

(** dijkstra.h:202-263 Dijkstra_FillFromBoundary; result aDist, aOrder, log of proc.AddElem.  Printing is left out. *)
Definition Dijkstra_FillFromBoundary (pq : pqueue nat) (iflg0 : nat) (aFlgTri : list nat) (aTriSuTri : list (option nat))
    : option (list (option nat) * list (option nat) * list nat) :=
  let ntri := length aFlgTri in
  assertb (negb (ntri =? 0)) ;;;      (* size_t division by zero *)
  let nedge := length aTriSuTri / ntri in
  let aDist := repeat None ntri in
  '(aDist, que) <- forn 0 ntri (fun it s =>
    let '(aDist, que) := s in
    f <- vget aFlgTri it ;;
    if negb (f =? iflg0) then Some (aDist, que) else
    is_boundary <- forb 0 nedge (fun ied b =>
      jt <- vget aTriSuTri (it * nedge + ied) ;;
      match jt with
      | None => Some (true, true)
      | Some jt => g <- vget aFlgTri jt ;; if negb (g =? iflg0) then Some (true, true) else Some (b, false)
      end) false ;;
    if negb is_boundary then Some (aDist, que) else
    aDist <- vset aDist it (Some 0) ;; Some (aDist, pq_push pq que (it, 0))) (aDist, []) ;;
  let aOrder := repeat None ntri in
  '(aDist, aOrder, que, icnt, log) <- whilef (ntri + ntri * nedge) (fun s => let '(_, _, que, _, _) := s in nonempty que) (fun s =>
    let '(aDist, aOrder, que, icnt, log) := s in
    '((ielm0, idist0), que) <- pq_pop pq que ;;
    o <- vget aOrder ielm0 ;;
    match o with
    | Some _ => Some (aDist, aOrder, que, icnt, log)
    | None =>
      f <- vget aFlgTri ielm0 ;; assertb (f =? iflg0) ;;;
      aOrder <- vset aOrder ielm0 (Some icnt) ;;
      let log := log ++ [ielm0] in
      let icnt := icnt + 1 in
      '(aDist, que) <- forn 0 nedge (fun iedge s =>
        let '(aDist, que) := s in
        e <- vget aTriSuTri (ielm0 * nedge + iedge) ;;
        match e with
        | None => Some (aDist, que)
        | Some ielm1 =>
          g <- vget aFlgTri ielm1 ;;
          if negb (g =? iflg0) then Some (aDist, que) else
          o1 <- vget aOrder ielm1 ;;
          match o1 with
          | Some _ => Some (aDist, que)
          | None =>
            let idist1 := idist0 + 1 in
            d <- vget aDist ielm1 ;;
            if (match d with Some d => idist1 <? d | None => true end) then
              aDist <- vset aDist ielm1 (Some idist1) ;; Some (aDist, pq_push pq que (ielm1, idist1))
            else Some (aDist, que)
          end
        end) (aDist, que) ;;
      Some (aDist, aOrder, que, icnt, log)
    end) (aDist, aOrder, que, 0, []) ;;
  Some (aDist, aOrder, log).

(** dijkstra.h:264-300 DijkstraPoint_MeshTri3D; result aDist, aOrder, log of proc.AddPoint. *)
Definition DijkstraPoint_MeshTri3D (dbg : bool) (pq : pqueue R) (ip_ker : nat) (aXYZ : list R) (psup_ind psup : list nat)
    : option (list R * list (option nat) * list nat) :=
  let np := length aXYZ / 3 in
  let aOrder := repeat None np in
  let aDist := repeat (-1)%R np in
  let que := pq_push pq [] (ip_ker, 0%R) in
  '(aDist, aOrder, que, icnt, log) <- whilef (1 + length psup) (fun s => let '(_, _, que, _, _) := s in nonempty que) (fun s =>
    let '(aDist, aOrder, que, icnt, log) := s in
    '((ip0, dist0), que) <- pq_pop pq que ;;
    assertb (ip0 <? np) ;;;
    o <- vget aOrder ip0 ;;
    match o with
    | Some _ => Some (aDist, aOrder, que, icnt, log)
    | None =>
      aOrder <- vset aOrder ip0 (Some icnt) ;;
      let log := log ++ [ip0] in
      let icnt := icnt + 1 in
      b <- vget psup_ind ip0 ;; e <- vget psup_ind (ip0 + 1) ;;
      '(aDist, que) <- forn b e (fun ipsup s =>
        let '(aDist, que) := s in
        ip1 <- vget psup ipsup ;;
        p0 <- getp aXYZ ip0 ;; p1 <- getp aXYZ ip1 ;;
        let dist1 := (dist0 + dDistance3 p0 p1)%R in
        d <- vget aDist ip1 ;;
        if Rleb (-1 / 10) d && Rltb d dist1 then Some (aDist, que) else
        aDist <- vset aDist ip1 dist1 ;; Some (aDist, pq_push pq que (ip1, dist1))) (aDist, que) ;;
      Some (aDist, aOrder, que, icnt, log)
    end) (aDist, aOrder, que, 0, []) ;;
  assertb (negb dbg || (icnt =? np)) ;;;
  Some (aDist, aOrder, log).
