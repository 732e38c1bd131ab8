(** Model of /repo/include/delfem2/str.cpp (splitting, trimming, attributes, JSON dictionaries, CSV).  Text is a list of characters. *)
From Coq Require Import List Arith ZArith Bool Ascii.
Import ListNotations.
From Verif Require Import Imp.
Open Scope char_scope. Open Scope nat_scope.

Definition text := list ascii.
(** std::string(str.begin()+a, str.begin()+b): undefined unless a <= b <= size. *)
Definition substr (s : text) (a b : nat) : option text := if (a <=? b) && (b <=? length s) then Some (firstn (b - a) (skipn a s)) else None.

(** std::getline(data,line,delimiter) on the rest of the stream: [None] when nothing could be extracted. *)
Fixpoint read_line (d : ascii) (s : text) : text * text :=
  match s with [] => ([], []) | c :: s => if Ascii.eqb c d then ([], s) else let '(l, r) := read_line d s in (c :: l, r) end.
Definition getline (d : ascii) (s : text) : option (text * text) := match s with [] => None | _ => Some (read_line d s) end.

(** str.cpp:57-69 and 71-78 Split with a delimiter character. *)
Fixpoint Split_loop (fuel : nat) (d : ascii) (s : text) (aToken : list text) : option (list text) :=
  match fuel with
  | 0 => None
  | S fuel => match getline d s with
              | None => Some aToken
              | Some (line, s) => if length line =? 0 then Split_loop fuel d s aToken else Split_loop fuel d s (aToken ++ [line])
              end
  end.
Definition Split (str : text) (delimiter : ascii) : option (list text) := Split_loop (S (length str)) delimiter str [].

(** str.cpp:89-91, 181-186, 211-216: the loop over the delimiter characters. *)
Definition is_in (c : ascii) (del : text) : option bool :=
  forb 0 (length del) (fun i r => x <- vget del i ;; if Ascii.eqb c x then Some (true, true) else Some (r, false)) false.

(** str.cpp:80-104 Split with a set of delimiters. *)
Definition Split_set (str del : text) : option (list text) :=
  '(aToken, imark, is_del0) <- forn 0 (length str) (fun i s =>
    let '(aToken, imark, is_del0) := s in
    c <- vget str i ;;
    is_del1 <- is_in c del ;;
    aToken <- (if negb is_del0 && is_del1 then t <- substr str imark i ;; Some (aToken ++ [t]) else Some aToken) ;;
    let imark := if is_del0 && negb is_del1 then i else imark in
    Some (aToken, imark, is_del1)) ([], 0, true) ;;
  if negb is_del0 then t <- substr str imark (length str) ;; Some (aToken ++ [t]) else Some aToken.

(** str.cpp:107-131 Split_Parentheses. *)
Definition Split_Parentheses (str : text) (delimiter : ascii) (par : text) : option (list text) :=
  if negb (length par =? 2) then Some [str] else
  cs <- vget par 0 ;; ce <- vget par 1 ;;
  '(aToken, is, ilevel) <- forn 0 (length str) (fun ie s =>
    let '(aToken, is, ilevel) := s in
    aToken <- (if ie =? length str - 1 then t <- substr str is (ie + 1) ;; Some (aToken ++ [t]) else Some aToken) ;;
    c <- vget str ie ;;
    let ilevel := if Ascii.eqb c cs then (ilevel + 1)%Z else ilevel in
    let ilevel := if Ascii.eqb c ce then (ilevel - 1)%Z else ilevel in
    if Ascii.eqb c delimiter && (ilevel =? 0)%Z then t <- substr str is ie ;; Some (aToken ++ [t], ie + 1, ilevel)
    else Some (aToken, is, ilevel)) ([], 0, 0%Z) ;;
  Some aToken.

(** str.cpp:133-154 Split_Quote. *)
Definition Split_Quote (str : text) (delimiter quote : ascii) : option (list text) :=
  '(aToken, is, is_in) <- forn 0 (length str) (fun ie s =>
    let '(aToken, is, is_in) := s in
    aToken <- (if ie =? length str - 1 then t <- substr str is (ie + 1) ;; Some (aToken ++ [t]) else Some aToken) ;;
    c <- vget str ie ;;
    let is_in := if Ascii.eqb c quote then negb is_in else is_in in
    if Ascii.eqb c delimiter && negb is_in then
      c0 <- vget str is ;;
      aToken <- (if negb (Ascii.eqb c0 delimiter) then t <- substr str is ie ;; Some (aToken ++ [t]) else Some aToken) ;;
      Some (aToken, ie + 1, is_in)
    else Some (aToken, is, is_in)) ([], 0, false) ;;
  Some aToken.

(** str.cpp:156-169 Replace. *)
Definition Replace (str : text) (cf ct : ascii) : option text :=
  forn 0 (length str) (fun i ss => c <- vget ss i ;; if negb (Ascii.eqb c cf) then Some ss else vset ss i ct) str.

(** str.cpp:171-194 Remove, 196-200 RemoveSpace. *)
Definition Remove (str del : text) : option text :=
  forn 0 (length str) (fun i ss => c <- vget str i ;; is_del <- is_in c del ;; if is_del : bool then Some ss else Some (ss ++ [c])) [].
Definition RemoveSpace (str : text) : option text := Remove str [" "].

(** str.cpp:202-222 RemoveBeginning. *)
Definition RemoveBeginning (str del : text) : option text :=
  istat <- forb 0 (length str) (fun i istat => c <- vget str i ;; is_del <- is_in c del ;; if is_del : bool then Some (istat, false) else Some (i, true)) 0 ;;
  substr str istat (length str).

(** str.cpp:224-245 Remove_Quote. *)
Definition Remove_Quote (str : text) (quat : ascii) : option text :=
  nq <- forn 0 (length str) (fun i nq => c <- vget str i ;; Some (if Ascii.eqb c quat then S nq else nq)) 0 ;;
  if nq <? 2 then Some str else
  istat <- forb 0 (length str) (fun i _ => c <- vget str i ;; if Ascii.eqb c quat then Some (i, true) else Some (S i, false)) 0 ;;
  iend <- forb 0 (length str) (fun k _ => let i := length str - 1 - k in c <- vget str i ;; if Ascii.eqb c quat then Some (Some i, true) else Some (None, false)) (Some (length str - 1)) ;;
  match iend with Some iend => substr str (istat + 1) iend | None => None end.

(** str.cpp:248-270 Get_Parentheses.  Both scans search; the second goes down to [iss]. *)
Definition Get_Parentheses (str par : text) : option text :=
  if negb (length par =? 2) then Some [] else
  cs <- vget par 0 ;; ce <- vget par 1 ;;
  iss <- forb 0 (length str) (fun i iss => c <- vget str i ;; if Ascii.eqb c cs then Some (Some i, true) else Some (iss, false)) None ;;
  match iss with
  | None => Some []
  | Some iss =>
      r <- forb 0 (length str - iss) (fun k r => let i := length str - 1 - k in c <- vget str i ;; if Ascii.eqb c ce then Some (Some i, true) else Some (r, false)) None ;;
      match r with Some i => substr str (iss + 1) i | None => Some [] end
  end.

(** std::map<string,string> as an association list; insert keeps an existing entry. *)
Definition smap := list (text * text).
Fixpoint mfind (m : smap) (k : text) : option text :=
  match m with [] => None | (a, b) :: m => if list_eq_dec ascii_dec a k then Some b else mfind m k end.
Definition minsert (m : smap) (k v : text) : smap := match mfind m k with Some _ => m | None => m ++ [(k, v)] end.

(** str.cpp:401-417 ParseAttributes. *)
Definition dquote : ascii := "034".
Definition ParseAttributes (mapAttr : smap) (input : text) : option smap :=
  aS <- Split_Quote input " " dquote ;;
  foldM (fun is m =>
    aS1 <- Split is "=" ;;
    if negb (length aS1 =? 2) then Some m else
    k <- vget aS1 0 ;; v <- vget aS1 1 ;;
    s1 <- Remove_Quote v dquote ;;
    Some (minsert m k s1)) aS mapAttr.

(** str.cpp:275-304 ReadDictionary_Json; [dbg]: assert is compiled in.  p[n] is the terminator.  -1 is [None]. *)
Definition at0 (s : text) (i : nat) : option ascii := if i =? length s then Some "000" else vget s i.
Definition ReadDictionary_Json (dbg : bool) (strIn : text) : option smap :=
  buff <- RemoveSpace strIn ;;
  c0 <- at0 buff 0 ;; assertb (negb dbg || Ascii.eqb c0 "{") ;;;
  (if dbg then c1 <- at0 buff 1 ;; assertb (Ascii.eqb c1 dquote) else Some tt) ;;;
  let n := length buff in
  '(res, ipos_begin, ipos_middle) <- forn 1 n (fun i s =>
    let '(res, ipos_begin, ipos_middle) := s in
    c <- vget buff i ;; p <- vget buff (i - 1) ;;
    let ipos_middle := if Ascii.eqb c ":" && Ascii.eqb p dquote then Some i else ipos_middle in
    if (Ascii.eqb c "," && Ascii.eqb p dquote) || (i =? n - 1) then
      let ipos_end := i in
      m <- ipos_middle ;;
      (if dbg then
        a <- at0 buff ipos_begin ;; assertb (Ascii.eqb a dquote) ;;;
        b <- at0 buff (m + 1) ;; assertb (Ascii.eqb b dquote) ;;;
        d <- at0 buff (m - 1) ;; assertb (Ascii.eqb d dquote) ;;;
        e <- at0 buff (ipos_end - 1) ;; assertb (Ascii.eqb e dquote)
       else Some tt) ;;;
      key <- substr buff (ipos_begin + 1) (m - 1) ;;
      val <- substr buff (m + 2) (ipos_end - 1) ;;
      Some (minsert res key val, ipos_end + 1, ipos_middle)
    else Some (res, ipos_begin, ipos_middle)) ([], 1, None) ;;
  Some res.

(** str.cpp:306-329 ReadVector_CSV; [stod] is [None] where std::stod throws. *)
Definition ReadVector_CSV {V} (stod : text -> option V) (aVal : list V) (strIn : text) : option (list V) :=
  let n := length strIn in
  '(aVal, ipos0) <- forn 0 n (fun i s =>
    let '(aVal, ipos0) := s in
    c <- vget strIn i ;;
    if Ascii.eqb c "," then sval <- substr strIn ipos0 i ;; val <- stod sval ;; Some (aVal ++ [val], i + 1) else Some (aVal, ipos0)) (aVal, 0) ;;
  if ipos0 <? n then sval <- substr strIn ipos0 n ;; val <- stod sval ;; Some (aVal ++ [val]) else Some aVal.

(** str.cpp:369-398 XML_SeparateTagContent.  The buffer is edited in place; std::string(mark) reads up to the next NUL. *)
Fixpoint cstr (s : text) : option text :=
  match s with [] => None | c :: s => if Ascii.eqb c "000" then Some [] else t <- cstr s ;; Some (c :: t) end.
Definition XML_SeparateTagContent (aStr : list text) (input : text) : option (list text) :=
  '(_, _, _, _, aStr) <- loopf (S (length input)) (fun st : text * nat * nat * bool * list text =>
    let '(buffer, s, mark, state1, aStr) := st in
    c <- vget buffer s ;;
    if Ascii.eqb c "000" then Some (st, true) else
    if Ascii.eqb c "<" && state1 then
      buffer <- vset buffer s "000" ;; t <- cstr (skipn mark buffer) ;; Some ((buffer, s + 1, s + 1, false, aStr ++ [t]), false)
    else if Ascii.eqb c ">" && negb state1 then
      buffer <- vset buffer s "000" ;; t <- cstr (skipn mark buffer) ;; Some ((buffer, s + 1, s + 1, true, aStr ++ [t]), false)
    else Some ((buffer, s + 1, mark, state1, aStr), false)) (input, 0, 0, true, aStr) ;;
  aStr <- foldM (fun is out => r <- RemoveBeginning is [" "] ;; Some (out ++ [r])) aStr [] ;;
  Some aStr.
