(** Model of /repo/include/delfem2/clusterpoints.cpp.  Unsigned integers are natural numbers, UINT_MAX is [None], real numbers stand for double, a division by zero is undefined (None), assertions are on. *)
From Coq Require Import List Arith Bool Reals.
Import ListNotations.
From Verif Require Import Imp JagModel PrModel.
Open Scope R_scope.

(** clusterpoints.cpp:36-45 CData; the order compares scores only *)
Record cdata := CData { score : R; ipsup : nat }.
(** std::set<CData>::insert: an element of equal score stays *)
Fixpoint cset_insert (d : cdata) (l : list cdata) : list cdata :=
  match l with
  | [] => [d]
  | e :: l' => if ltR (score d) (score e) then d :: l else if ltR (score e) (score d) then e :: cset_insert d l' else l
  end.
(** clusterpoints.cpp:26-29 *)
Definition myMin (a b : R) : R := if ltR a b then a else b.
(** clusterpoints.cpp:47-60 *)
Definition Find_IndexPoint_From_IndexPsup (ips : nat) (psup_ind psup : list nat) : option (option nat) :=
  jp <- vget psup ips ;;
  lo <- vget psup_ind jp ;;
  hi <- vget psup_ind (jp + 1)%nat ;;
  forb lo hi (fun jpsup r =>
    ip <- vget psup jpsup ;;
    b <- vget psup_ind ip ;;
    if (ips <? b)%nat then Some (r, false) else
    e <- vget psup_ind (ip + 1)%nat ;;
    if (e <=? ips)%nat then Some (r, false) else Some (Some ip, true)) None.
(** clusterpoints.cpp:83-98 and 166-176: the set of edges, ordered by score *)
Definition edge_set (np0 : nat) (aArea0 : list R) (psup_ind0 psup0 : list nat) : option (list cdata) :=
  forn 0 np0 (fun ip0 aData =>
    lo <- vget psup_ind0 ip0 ;;
    hi <- vget psup_ind0 (ip0 + 1)%nat ;;
    forn lo hi (fun ipsup0 aData =>
      jp0 <- vget psup0 ipsup0 ;;
      if (jp0 <? ip0)%nat then Some aData else
      ai0 <- vget aArea0 ip0 ;;
      aj0 <- vget aArea0 jp0 ;;
      r <- div ai0 aj0 ;;
      s <- div aj0 ai0 ;;
      let score0 := myMin r s in
      Some (cset_insert (CData score0 ipsup0) aData)) aData) [].
(** clusterpoints.cpp:110-117 and 179-181: the two ends of an edge, with the assertion *)
Definition edge_ends (d : cdata) (psup_ind0 psup0 : list nat) : option (nat * nat) :=
  r <- Find_IndexPoint_From_IndexPsup (ipsup d) psup_ind0 psup0 ;;
  jp0 <- vget psup0 (ipsup d) ;;
  match r with
  | Some ip0 => assertb (ip0 <? jp0)%nat ;;; Some (ip0, jp0)
  | None => None
  end.
Definition is_none (o : option nat) : bool := match o with None => true | Some _ => false end.
(** clusterpoints.cpp:155-193; the result (map01, np1) *)
Definition BinaryClustering_Points2d (map01 : list (option nat)) (np0 : nat) (aArea0 : list R) (psup_ind0 psup0 : list nat) : option (list (option nat) * nat) :=
  map01 <- forn 0 np0 (fun ip map01 => vset map01 ip None) map01 ;;
  aData <- edge_set np0 aArea0 psup_ind0 psup0 ;;
  '(map01, np1) <- foldM (fun data '(map01, np1) =>
    '(ip0, jp0) <- edge_ends data psup_ind0 psup0 ;;
    mi <- vget map01 ip0 ;;
    mj <- vget map01 jp0 ;;
    if negb (is_none mi) || negb (is_none mj) then Some (map01, np1) else
    map01 <- vset map01 ip0 (Some np1) ;;
    map01 <- vset map01 jp0 (Some np1) ;;
    Some (map01, (np1 + 1)%nat)) aData (map01, 0%nat) ;;
  forn 0 np0 (fun ip0 '(map01, np1) =>
    m <- vget map01 ip0 ;;
    if negb (is_none m) then Some (map01, np1) else
    map01 <- vset map01 ip0 (Some np1) ;;
    Some (map01, (np1 + 1)%nat)) (map01, np1).
(** clusterpoints.cpp:22-24 *)
Definition Length3 (x y z : R) : R := sqrt (x * x + y * y + z * z).
(** clusterpoints.cpp:67-153; the results (aXYZ1, aArea1, aNorm1, map01) *)
Definition BinaryClustering_Points3d (aXYZ0 aArea0 aNorm0 : list R) (psup_ind0 psup0 : list nat) : option (list R * list R * list R * list (option nat)) :=
  let np0 := (length aXYZ0 / 3)%nat in
  assertb (length aArea0 =? np0)%nat ;;;
  assertb (length aNorm0 =? np0 * 3)%nat ;;;
  aData <- edge_set np0 aArea0 psup_ind0 psup0 ;;
  '(aXYZ1, aArea1, aNorm1, map01) <- foldM (fun data '(aXYZ1, aArea1, aNorm1, map01) =>
    '(ip0, jp0) <- edge_ends data psup_ind0 psup0 ;;
    let ip1 := (length aXYZ1 / 3)%nat in
    assertb ((length aArea1 =? ip1)%nat && (length aNorm1 =? ip1 * 3)%nat) ;;;
    mi <- vget map01 ip0 ;;
    mj <- vget map01 jp0 ;;
    if negb (is_none mi) || negb (is_none mj) then Some (aXYZ1, aArea1, aNorm1, map01) else
    map01 <- vset map01 ip0 (Some ip1) ;;
    map01 <- vset map01 jp0 (Some ip1) ;;
    ai0 <- vget aArea0 ip0 ;;
    aj0 <- vget aArea0 jp0 ;;
    let aArea1 := aArea1 ++ [ai0 + aj0] in
    let average := fun (a : list R) (d : nat) => xi <- vget a (ip0 * 3 + d)%nat ;; xj <- vget a (jp0 * 3 + d)%nat ;; div (ai0 * xi + aj0 * xj) (ai0 + aj0) in
    x <- average aXYZ0 0%nat ;;
    y <- average aXYZ0 1%nat ;;
    z <- average aXYZ0 2%nat ;;
    let aXYZ1 := aXYZ1 ++ [x; y; z] in
    n0 <- average aNorm0 0%nat ;;
    n1 <- average aNorm0 1%nat ;;
    n2 <- average aNorm0 2%nat ;;
    let ln1 := Length3 n0 n1 n2 in
    m0 <- div n0 ln1 ;;
    m1 <- div n1 ln1 ;;
    m2 <- div n2 ln1 ;;
    Some (aXYZ1, aArea1, aNorm1 ++ [m0; m1; m2], map01)) aData ([], [], [], repeat None np0) ;;
  forn 0 np0 (fun ip0 '(aXYZ1, aArea1, aNorm1, map01) =>
    m <- vget map01 ip0 ;;
    if negb (is_none m) then Some (aXYZ1, aArea1, aNorm1, map01) else
    let ip1 := (length aXYZ1 / 3)%nat in
    assertb ((length aArea1 =? ip1)%nat && (length aNorm1 =? ip1 * 3)%nat) ;;;
    map01 <- vset map01 ip0 (Some ip1) ;;
    x <- vget aXYZ0 (ip0 * 3 + 0)%nat ;;
    y <- vget aXYZ0 (ip0 * 3 + 1)%nat ;;
    z <- vget aXYZ0 (ip0 * 3 + 2)%nat ;;
    a <- vget aArea0 ip0 ;;
    n0 <- vget aNorm0 (ip0 * 3 + 0)%nat ;;
    n1 <- vget aNorm0 (ip0 * 3 + 1)%nat ;;
    n2 <- vget aNorm0 (ip0 * 3 + 2)%nat ;;
    Some (aXYZ1 ++ [x; y; z], aArea1 ++ [a], aNorm1 ++ [n0; n1; n2], map01)) (aXYZ1, aArea1, aNorm1, map01).

Open Scope nat_scope.
(** clusterpoints.cpp:233-246 and 254-268: the loop over the neighbours of the points of one cluster; [g] is what is done with a new neighbour *)
Definition cluster_pass {S} (g : nat -> nat -> S -> option S) (np1 ncnt : nat) (map01 map10 : list (option nat)) (psup_ind0 psup0 : list nat) (chk : bool) (s : S) : option S :=
  '(_, s) <- forn 0 np1 (fun ip1 '(aflag1, s) =>
    aflag1 <- vset aflag1 ip1 (Some ip1) ;;
    forb 0 ncnt (fun icnt '(aflag1, s) =>
      m <- vget map10 (ip1 * ncnt + icnt) ;;
      match m with
      | None => Some ((aflag1, s), true)
      | Some ip0 =>
          (if chk then c <- vget map01 ip0 ;; assertb (onat_eqb c ip1) else Some tt) ;;;
          lo <- vget psup_ind0 ip0 ;;
          hi <- vget psup_ind0 (ip0 + 1) ;;
          r <- forn lo hi (fun ipsup0 '(aflag1, s) =>
            kp0 <- vget psup0 ipsup0 ;;
            kp1 <- vget map01 kp0 ;;
            kp1 <- kp1 ;;
            f <- vget aflag1 kp1 ;;
            if onat_eqb f ip1 then Some (aflag1, s) else
            aflag1 <- vset aflag1 kp1 (Some ip1) ;;
            s <- g ip1 kp1 s ;;
            Some (aflag1, s)) (aflag1, s) ;;
          Some (r, false)
      end) (aflag1, s)) (repeat (@None nat) np1, s) ;;
  Some s.
(** clusterpoints.cpp:196-274; [psup1_0]: the caller's vector on entry; the results (psup_ind1, psup1) *)
Definition Clustering_Psup (psup1_0 : list nat) (np1 np0 : nat) (map01 : list (option nat)) (psup_ind0 psup0 : list nat) : option (list nat * list nat) :=
  cnt1 <- forn 0 np0 (fun ip0 cnt1 =>
    ip1 <- vget map01 ip0 ;;
    ip1 <- ip1 ;;
    assertb (ip1 <? np1) ;;;
    vmod cnt1 ip1 S) (repeat 0 np1) ;;
  ncnt <- forn 0 np1 (fun ip1 ncnt => c <- vget cnt1 ip1 ;; Some (if ncnt <? c then c else ncnt)) 0 ;;
  '(cnt1, map10) <- forn 0 np0 (fun ip0 '(cnt1, map10) =>
    ip1 <- vget map01 ip0 ;;
    ip1 <- ip1 ;;
    assertb (ip1 <? np1) ;;;
    icnt <- vget cnt1 ip1 ;;
    cnt1 <- vmod cnt1 ip1 S ;;
    assertb (icnt <? ncnt) ;;;
    m <- vget map10 (ip1 * ncnt + icnt) ;;
    assertb (is_none m) ;;;
    map10 <- vset map10 (ip1 * ncnt + icnt) (Some ip0) ;;
    Some (cnt1, map10)) (repeat 0 np1, repeat (@None nat) (np1 * ncnt)) ;;
  psup_ind1 <- cluster_pass (fun ip1 _ ind => count1 ip1 ind) np1 ncnt map01 map10 psup_ind0 psup0 true (repeat 0 (np1 + 1)) ;;
  psup_ind1 <- prefix_sum np1 psup_ind1 ;;
  npsup1 <- vget psup_ind1 np1 ;;
  let psup1 := vresize 0 psup1_0 npsup1 in
  '(psup_ind1, psup1) <- cluster_pass put1 np1 ncnt map01 map10 psup_ind0 psup0 false (psup_ind1, psup1) ;;
  psup_ind1 <- ford (np1 - 1) 0 (fun ip1 ind => a <- vget ind (ip1 - 1) ;; vset ind ip1 a) psup_ind1 ;;
  psup_ind1 <- vset psup_ind1 0 0 ;;
  last <- vget psup_ind1 np1 ;;
  assertb (last =? length psup1) ;;;
  Some (psup_ind1, psup1).
