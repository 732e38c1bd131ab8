(** Model of /repo/include/delfem2/mshsubdiv.cpp.  Unsigned integers are natural numbers (no overflow), UINT_MAX and -1 are [None], real numbers stand for double, assertions are enabled. *)
From Coq Require Import List Arith Bool Reals.
Import ListNotations.
From Verif Require Import Imp JagModel TopoModel.

(** mshsubdiv.cpp:18-35 *)
Definition findEdge (ip0 ip1 : nat) (psup_ind psup : list nat) : option (option nat) :=
  let search := fun a b =>
    lo <- vget psup_ind a ;;
    hi <- vget psup_ind (a + 1) ;;
    forb lo hi (fun ipsup r =>
      ip2 <- vget psup ipsup ;;
      if ip2 =? b then Some (Some ipsup, true) else Some (r, false)) (@None nat) in
  if ip0 <? ip1 then search ip0 ip1 else search ip1 ip0.
(** mshsubdiv.cpp:37-59 *)
Definition findFace (ip0 ip1 ip2 ip3 : nat) (quad elsup_ind elsup : list nat) : option (option nat) :=
  assertb (1 <=? length elsup_ind) ;;;
  if length elsup_ind - 1 <=? ip0 then Some None else
  lo <- vget elsup_ind ip0 ;;
  hi <- vget elsup_ind (ip0 + 1) ;;
  forb lo hi (fun ielsup r =>
    ie0 <- vget elsup ielsup ;;
    iq0 <- vget quad (ie0 * 4 + 0) ;;
    iq1 <- vget quad (ie0 * 4 + 1) ;;
    iq2 <- vget quad (ie0 * 4 + 2) ;;
    iq3 <- vget quad (ie0 * 4 + 3) ;;
    let isin := fun p => (p =? iq0) || (p =? iq1) || (p =? iq2) || (p =? iq3) in
    if negb (isin ip0) then Some (r, false) else
    if negb (isin ip1) then Some (r, false) else
    if negb (isin ip2) then Some (r, false) else
    if negb (isin ip3) then Some (r, false) else
    Some (Some ie0, true)) (@None nat).
(** findEdge with the assertion that follows each call, mshsubdiv.cpp:116-123, 177-188 and 468-491: the index of the edge *)
Definition edge_of (ip0 ip1 : nat) (psup_ind psup : list nat) : option nat :=
  r <- findEdge ip0 ip1 psup_ind psup ;;
  match r with Some e => Some e | None => None end.

(** mshsubdiv.cpp:62-147; [psup_ind0], [psup0]: the caller's vectors on entry; the results (quad_vtxidx1, psup_ind, psup, aEdgeFace0) *)
Definition SubdivTopo_MeshQuad (psup_ind0 psup0 quad0 : list nat) (nq0 np0 : nat) : option (list nat * list nat * list nat * list (option nat)) :=
  '(elsup_ind, elsup) <- JArray_ElSuP_MeshElem [] quad0 nq0 4 np0 ;;
  '(psup_ind, psup) <- JArrayEdge_MeshElem psup_ind0 psup0 quad0 4 noelElemEdge_Quad elsup_ind elsup false ;;
  let ne0 := length psup in
  aEdgeFace0 <- forn 0 np0 (fun ip aEdgeFace0 =>
    lo <- vget psup_ind ip ;;
    hi <- vget psup_ind (ip + 1) ;;
    forn lo hi (fun ipsup aEdgeFace0 =>
      ip1 <- vget psup ipsup ;;
      let aEdgeFace0 := (aEdgeFace0 ++ [Some ip]) ++ [Some ip1] in
      l <- vget elsup_ind ip ;;
      h <- vget elsup_ind (ip + 1) ;;
      '(iq0, iq1) <- forn l h (fun ielsup '(iq0, iq1) =>
        jq0 <- vget elsup ielsup ;;
        jp0 <- vget quad0 (jq0 * 4 + 0) ;;
        jp1 <- vget quad0 (jq0 * 4 + 1) ;;
        jp2 <- vget quad0 (jq0 * 4 + 2) ;;
        jp3 <- vget quad0 (jq0 * 4 + 3) ;;
        if negb (jp0 =? ip) && negb (jp1 =? ip) && negb (jp2 =? ip) && negb (jp3 =? ip) then Some (iq0, iq1) else
        if negb (jp0 =? ip1) && negb (jp1 =? ip1) && negb (jp2 =? ip1) && negb (jp3 =? ip1) then Some (iq0, iq1) else
        match iq0 with
        | None => Some (Some jq0, iq1)
        | Some _ => match iq1 with None => Some (iq0, Some jq0) | Some _ => None end
        end) (@None nat, @None nat) ;;
      Some ((aEdgeFace0 ++ [iq0]) ++ [iq1])) aEdgeFace0) [] ;;
  quad1 <- forn 0 nq0 (fun iq quad1 =>
    ip0 <- vget quad0 (iq * 4 + 0) ;;
    ip1 <- vget quad0 (iq * 4 + 1) ;;
    ip2 <- vget quad0 (iq * 4 + 2) ;;
    ip3 <- vget quad0 (iq * 4 + 3) ;;
    ie01 <- edge_of ip0 ip1 psup_ind psup ;;
    ie12 <- edge_of ip1 ip2 psup_ind psup ;;
    ie23 <- edge_of ip2 ip3 psup_ind psup ;;
    ie30 <- edge_of ip3 ip0 psup_ind psup ;;
    let ip01 := ie01 + np0 in
    let ip12 := ie12 + np0 in
    let ip23 := ie23 + np0 in
    let ip30 := ie30 + np0 in
    let ip0123 := iq + np0 + ne0 in
    Some (quad1 ++ [ip0; ip01; ip0123; ip30; ip1; ip12; ip0123; ip01; ip2; ip23; ip0123; ip12; ip3; ip30; ip0123; ip23])) [] ;;
  Some (quad1, psup_ind, psup, aEdgeFace0).

(** mshsubdiv.cpp:151-226; the results (aTet1, psup_ind, psup) *)
Definition SubdivTopo_MeshTet (psup_ind0 psup0 aTet0 : list nat) (nTet0 nPoint0 : nat) : option (list nat * list nat * list nat) :=
  '(elsup_ind, elsup) <- JArray_ElSuP_MeshElem [] aTet0 nTet0 4 nPoint0 ;;
  '(psup_ind, psup) <- JArrayEdge_MeshElem psup_ind0 psup0 aTet0 4 noelElemEdge_Tet elsup_ind elsup false ;;
  aTet1 <- forn 0 nTet0 (fun it aTet1 =>
    ip0 <- vget aTet0 (it * 4 + 0) ;;
    ip1 <- vget aTet0 (it * 4 + 1) ;;
    ip2 <- vget aTet0 (it * 4 + 2) ;;
    ip3 <- vget aTet0 (it * 4 + 3) ;;
    ie01 <- edge_of ip0 ip1 psup_ind psup ;;
    ie02 <- edge_of ip0 ip2 psup_ind psup ;;
    ie03 <- edge_of ip0 ip3 psup_ind psup ;;
    ie12 <- edge_of ip1 ip2 psup_ind psup ;;
    ie13 <- edge_of ip1 ip3 psup_ind psup ;;
    ie23 <- edge_of ip2 ip3 psup_ind psup ;;
    let ip01 := ie01 + nPoint0 in
    let ip02 := ie02 + nPoint0 in
    let ip03 := ie03 + nPoint0 in
    let ip12 := ie12 + nPoint0 in
    let ip13 := ie13 + nPoint0 in
    let ip23 := ie23 + nPoint0 in
    Some (aTet1 ++ [ip0; ip01; ip02; ip03; ip1; ip01; ip13; ip12; ip2; ip02; ip12; ip23; ip3; ip03; ip23; ip13;
      ip01; ip23; ip13; ip12; ip01; ip23; ip12; ip02; ip01; ip23; ip02; ip03; ip01; ip23; ip03; ip13])) [] ;;
  Some (aTet1, psup_ind, psup).

(** findFace with the assertion that follows each call, mshsubdiv.cpp:492-503: the index of the face *)
Definition face_of (ip0 ip1 ip2 ip3 : nat) (quad elsup_ind elsup : list nat) : option nat :=
  r <- findFace ip0 ip1 ip2 ip3 quad elsup_ind elsup ;;
  match r with Some e => assertb (e <? length quad / 4) ;;; Some e | None => None end.
(** mshsubdiv.cpp:384-576; the results (aHex1, psupIndHex0, psupHex0, aQuadHex0) *)
Definition SubdivTopo_MeshHex (psup_ind0 psup0 aHex0 : list nat) (nHex0 nhp0 : nat) : option (list nat * list nat * list nat * list nat) :=
  '(elsup_ind, elsup) <- JArray_ElSuP_MeshElem [] aHex0 nHex0 8 nhp0 ;;
  '(psup_ind, psup) <- JArrayEdge_MeshElem psup_ind0 psup0 aHex0 8 noelElemEdge_Hex elsup_ind elsup false ;;
  aHexSuHex0 <- ElSuEl_core aHex0 nHex0 8 elsup_ind elsup 6 4 noelElemFace_Hex ;;
  aQuadHex0 <- forn 0 nHex0 (fun ih aQuadHex0 =>
    forn 0 6 (fun ifh aQuadHex0 =>
      jh0 <- vget aHexSuHex0 (ih * 6 + ifh) ;;
      if match jh0 with Some j => j <? ih | None => false end then Some aQuadHex0 else
      forn 0 4 (fun inofa aQuadHex0 =>
        fc <- vget noelElemFace_Hex ifh ;;
        inoel0 <- vget fc inofa ;;
        igp0 <- vget aHex0 (ih * 8 + inoel0) ;;
        Some (aQuadHex0 ++ [igp0])) aQuadHex0) aQuadHex0) [] ;;
  '(qelsup_ind, qelsup) <- JArray_ElSuP_MeshElem [] aQuadHex0 (length aQuadHex0 / 4) 4 nhp0 ;;
  let neh0 := length psup in
  let nfh0 := length aQuadHex0 / 4 in
  aHex1 <- forn 0 nHex0 (fun ih aHex1 =>
    ihc0 <- vget aHex0 (ih * 8 + 0) ;;
    ihc1 <- vget aHex0 (ih * 8 + 1) ;;
    ihc2 <- vget aHex0 (ih * 8 + 2) ;;
    ihc3 <- vget aHex0 (ih * 8 + 3) ;;
    ihc4 <- vget aHex0 (ih * 8 + 4) ;;
    ihc5 <- vget aHex0 (ih * 8 + 5) ;;
    ihc6 <- vget aHex0 (ih * 8 + 6) ;;
    ihc7 <- vget aHex0 (ih * 8 + 7) ;;
    let edge := fun a b => e <- edge_of a b psup_ind psup ;; assertb (e <? neh0) ;;; Some (e + nhp0) in
    let face := fun a b c d => f <- face_of a b c d aQuadHex0 qelsup_ind qelsup ;; Some (f + nhp0 + neh0) in
    ihc01 <- edge ihc0 ihc1 ;;
    ihc12 <- edge ihc1 ihc2 ;;
    ihc23 <- edge ihc2 ihc3 ;;
    ihc30 <- edge ihc3 ihc0 ;;
    ihc45 <- edge ihc4 ihc5 ;;
    ihc56 <- edge ihc5 ihc6 ;;
    ihc67 <- edge ihc6 ihc7 ;;
    ihc74 <- edge ihc7 ihc4 ;;
    ihc04 <- edge ihc0 ihc4 ;;
    ihc15 <- edge ihc1 ihc5 ;;
    ihc26 <- edge ihc2 ihc6 ;;
    ihc37 <- edge ihc3 ihc7 ;;
    ihc0473 <- face ihc0 ihc4 ihc7 ihc3 ;;
    ihc1265 <- face ihc1 ihc2 ihc6 ihc5 ;;
    ihc0154 <- face ihc0 ihc1 ihc5 ihc4 ;;
    ihc3762 <- face ihc3 ihc7 ihc6 ihc2 ;;
    ihc0321 <- face ihc0 ihc3 ihc2 ihc1 ;;
    ihc4567 <- face ihc4 ihc5 ihc6 ihc7 ;;
    let ihc01234567 := ih + nhp0 + neh0 + nfh0 in
    Some (aHex1 ++
      [ihc0; ihc01; ihc0321; ihc30; ihc04; ihc0154; ihc01234567; ihc0473;
       ihc01; ihc1; ihc12; ihc0321; ihc0154; ihc15; ihc1265; ihc01234567;
       ihc0321; ihc12; ihc2; ihc23; ihc01234567; ihc1265; ihc26; ihc3762;
       ihc30; ihc0321; ihc23; ihc3; ihc0473; ihc01234567; ihc3762; ihc37;
       ihc04; ihc0154; ihc01234567; ihc0473; ihc4; ihc45; ihc4567; ihc74;
       ihc0154; ihc15; ihc1265; ihc01234567; ihc45; ihc5; ihc56; ihc4567;
       ihc01234567; ihc1265; ihc26; ihc3762; ihc4567; ihc56; ihc6; ihc67;
       ihc0473; ihc01234567; ihc3762; ihc37; ihc74; ihc4567; ihc67; ihc7])) [] ;;
  Some (aHex1, psup_ind, psup, aQuadHex0).

Open Scope R_scope.
(** The average of the points with the given indices, and an assignment of the three coordinates of a point (the source writes out x, y and z). *)
Definition avg_of (w : R) (xyz : list R) (ps : list nat) (d : nat) : option R :=
  s <- foldM (fun p s => v <- vget xyz (p * 3 + d)%nat ;; Some (s + v)) ps 0 ;;
  Some (s * w).
Definition set3 (xyz1 : list R) (i : nat) (f : nat -> option R) : option (list R) :=
  forn 0 3 (fun d xyz1 => v <- f d ;; vset xyz1 (i * 3 + d)%nat v) xyz1.
(** mshsubdiv.cpp:683-718 *)
Definition SubdivPoints3_MeshQuad (xyz1 : list R) (aEdgeFace0 : list (option nat)) (quad0 : list nat) (xyz0 : list R) : option (list R) :=
  let nv0 := (length xyz0 / 3)%nat in
  let ne0 := (length aEdgeFace0 / 4)%nat in
  let nq0 := (length quad0 / 4)%nat in
  assertb (length aEdgeFace0 =? ne0 * 4)%nat ;;;
  let xyz1 := vresize 0 xyz1 ((nv0 + ne0 + nq0) * 3)%nat in
  xyz1 <- forn 0 nv0 (fun iv xyz1 => set3 xyz1 iv (fun d => vget xyz0 (iv * 3 + d)%nat)) xyz1 ;;
  xyz1 <- forn 0 ne0 (fun ie xyz1 =>
    v0 <- vget aEdgeFace0 (ie * 4 + 0)%nat ;;
    v1 <- vget aEdgeFace0 (ie * 4 + 1)%nat ;;
    iv0 <- v0 ;;
    iv1 <- v1 ;;
    set3 xyz1 (nv0 + ie) (avg_of (/ 2) xyz0 [iv0; iv1])) xyz1 ;;
  forn 0 nq0 (fun iq xyz1 =>
    iv0 <- vget quad0 (iq * 4 + 0)%nat ;;
    iv1 <- vget quad0 (iq * 4 + 1)%nat ;;
    iv2 <- vget quad0 (iq * 4 + 2)%nat ;;
    iv3 <- vget quad0 (iq * 4 + 3)%nat ;;
    set3 xyz1 (nv0 + ne0 + iq) (avg_of (/ 4) xyz0 [iv0; iv1; iv2; iv3])) xyz1.
(** mshsubdiv.cpp:720-779 *)
Definition SubdivisionPoints_Hex (xyz1 : list R) (psup_ind psup aQuad0 aHex0 : list nat) (nh0 : nat) (xyz0 : list R) (nv0 : nat) : option (list R) :=
  let ne0 := length psup in
  let nq0 := (length aQuad0 / 4)%nat in
  let xyz1 := vresize 0 xyz1 ((nv0 + ne0 + nq0 + nh0) * 3)%nat in
  xyz1 <- forn 0 nv0 (fun iv xyz1 => set3 xyz1 iv (fun d => vget xyz0 (iv * 3 + d)%nat)) xyz1 ;;
  xyz1 <- forn 0 nv0 (fun iv xyz1 =>
    lo <- vget psup_ind iv ;;
    hi <- vget psup_ind (iv + 1)%nat ;;
    forn lo hi (fun ipsup xyz1 =>
      jv <- vget psup ipsup ;;
      set3 xyz1 (nv0 + ipsup) (avg_of (/ 2) xyz0 [iv; jv])) xyz1) xyz1 ;;
  xyz1 <- forn 0 nq0 (fun iq xyz1 =>
    iv0 <- vget aQuad0 (iq * 4 + 0)%nat ;;
    iv1 <- vget aQuad0 (iq * 4 + 1)%nat ;;
    iv2 <- vget aQuad0 (iq * 4 + 2)%nat ;;
    iv3 <- vget aQuad0 (iq * 4 + 3)%nat ;;
    set3 xyz1 (nv0 + ne0 + iq) (avg_of (/ 4) xyz0 [iv0; iv1; iv2; iv3])) xyz1 ;;
  forn 0 nh0 (fun ih xyz1 =>
    ivs <- foldM (fun k ivs => v <- vget aHex0 (ih * 8 + k)%nat ;; Some (ivs ++ [v])) (seq 0 8) [] ;;
    set3 xyz1 (nv0 + ne0 + nq0 + ih) (avg_of (/ 8) xyz0 ivs)) xyz1.
(** mshsubdiv.cpp:579-681; adding to the three coordinates of a point *)
Definition add3 (xyz1 : list R) (i : nat) (f : nat -> option R) : option (list R) :=
  forn 0 3 (fun d xyz1 => v <- f d ;; vmod xyz1 (i * 3 + d)%nat (fun x => x + v)) xyz1.
Definition SubdivisionPoints_QuadCatmullClark (xyz1 : list R) (aEdgeFace0 : list (option nat)) (psup quad0 : list nat) (nq0 : nat) (xyz0 : list R) (nv0 : nat) : option (list R) :=
  let ne0 := length psup in
  assertb (length aEdgeFace0 =? ne0 * 4)%nat ;;;
  let nv1 := (nv0 + ne0 + nq0)%nat in
  let xyz1 := vresize 0 xyz1 (nv1 * 3)%nat in
  xyz1 <- forn 0 nv0 (fun iv xyz1 => set3 xyz1 iv (fun _ => Some 0)) xyz1 ;;
  '(xyz1, aNFace) <- forn 0 nq0 (fun iq '(xyz1, aNFace) =>
    iv0 <- vget quad0 (iq * 4 + 0)%nat ;;
    iv1 <- vget quad0 (iq * 4 + 1)%nat ;;
    iv2 <- vget quad0 (iq * 4 + 2)%nat ;;
    iv3 <- vget quad0 (iq * 4 + 3)%nat ;;
    let p0 := avg_of (/ 4) xyz0 [iv0; iv1; iv2; iv3] in
    xyz1 <- set3 xyz1 (nv0 + ne0 + iq) p0 ;;
    foldM (fun jv0 '(xyz1, aNFace) =>
      xyz1 <- add3 xyz1 jv0 p0 ;;
      aNFace <- vmod aNFace jv0 S ;;
      Some (xyz1, aNFace)) [iv0; iv1; iv2; iv3] (xyz1, aNFace)) (xyz1, repeat 0%nat nv0) ;;
  xyz1 <- forn 0 ne0 (fun ie xyz1 =>
    v0 <- vget aEdgeFace0 (ie * 4 + 0)%nat ;;
    v1 <- vget aEdgeFace0 (ie * 4 + 1)%nat ;;
    iq0 <- vget aEdgeFace0 (ie * 4 + 2)%nat ;;
    iq1 <- vget aEdgeFace0 (ie * 4 + 3)%nat ;;
    iv0 <- v0 ;;
    iv1 <- v1 ;;
    xyz1 <- match iq1 with
      | Some iq1 =>
          let iv1e := (nv0 + ie)%nat in
          assertb (iv1e <? nv1)%nat ;;;
          iq0 <- iq0 ;;
          let iv1q0 := (nv0 + ne0 + iq0)%nat in
          assertb (iv1q0 <? nv1)%nat ;;;
          let iv1q1 := (nv0 + ne0 + iq1)%nat in
          assertb (iv1q1 <? nv1)%nat ;;;
          set3 xyz1 iv1e (fun d =>
            a <- vget xyz0 (iv0 * 3 + d)%nat ;;
            b <- vget xyz0 (iv1 * 3 + d)%nat ;;
            c <- vget xyz1 (iv1q0 * 3 + d)%nat ;;
            e <- vget xyz1 (iv1q1 * 3 + d)%nat ;;
            Some ((a + b + c + e) * / 4))
      | None =>
          let iv1e := (nv0 + ie)%nat in
          assertb (iv1e <? nv1)%nat ;;;
          iq0 <- iq0 ;;
          let iv1q0 := (nv0 + ne0 + iq0)%nat in
          assertb (iv1q0 <? nv1)%nat ;;;
          set3 xyz1 iv1e (avg_of (/ 2) xyz0 [iv0; iv1])
      end ;;
    xyz1 <- add3 xyz1 iv0 (fun d => a <- vget xyz0 (iv0 * 3 + d)%nat ;; b <- vget xyz0 (iv1 * 3 + d)%nat ;; Some (a + b)) ;;
    add3 xyz1 iv1 (fun d => a <- vget xyz0 (iv0 * 3 + d)%nat ;; b <- vget xyz0 (iv1 * 3 + d)%nat ;; Some (a + b))) xyz1 ;;
  xyz1 <- forn 0 nv0 (fun iv xyz1 =>
    nf <- vget aNFace iv ;;
    if (nf =? 0)%nat then Some xyz1 else
    let tmp0 := 1 / INR (nf * nf) in
    xyz1 <- forn 0 3 (fun d xyz1 => vmod xyz1 (iv * 3 + d)%nat (fun x => x * tmp0)) xyz1 ;;
    let tmp1 := (INR nf - 3) / INR nf in
    add3 xyz1 iv (fun d => x <- vget xyz0 (iv * 3 + d)%nat ;; Some (tmp1 * x))) xyz1 ;;
  forn 0 ne0 (fun ie xyz1 =>
    v0 <- vget aEdgeFace0 (ie * 4 + 0)%nat ;;
    v1 <- vget aEdgeFace0 (ie * 4 + 1)%nat ;;
    ie1 <- vget aEdgeFace0 (ie * 4 + 3)%nat ;;
    iv0 <- v0 ;;
    iv1 <- v1 ;;
    match ie1 with
    | Some _ => Some xyz1
    | None =>
        xyz1 <- set3 xyz1 iv0 (fun d => vget xyz0 (iv0 * 3 + d)%nat) ;;
        set3 xyz1 iv1 (fun d => vget xyz0 (iv1 * 3 + d)%nat)
    end) xyz1.
