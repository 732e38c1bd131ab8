(** Specification vocabulary for the string functions. *)
From Coq Require Import List Arith Bool Ascii.
Import ListNotations.
From Verif Require Import StrModel.
Open Scope char_scope. Open Scope nat_scope.

(** [ts] are the maximal delimiter-free stretches of [s], in order. *)
Inductive tokens (D : ascii -> Prop) : text -> list text -> Prop :=
  | tk_nil : forall s, (forall c, In c s -> D c) -> tokens D s []
  | tk_cons : forall g t rest ts, (forall c, In c g -> D c) -> t <> [] -> (forall c, In c t -> ~ D c) ->
      (rest = [] \/ exists c r, rest = c :: r /\ D c) -> tokens D rest ts -> tokens D (g ++ t ++ rest) (t :: ts).

(** Fields put together again with a separator. *)
Fixpoint join (d : ascii) (F : list text) : text :=
  match F with [] => [] | [x] => x | x :: F => x ++ d :: join d F end.
(** [F] are the fields of [s] when it is cut at exactly the positions [cut]. *)
Definition fields (cut : nat -> Prop) (d : ascii) (s : text) (F : list text) : Prop :=
  F <> [] /\ join d F = s /\ forall i, i < length s -> (cut i <-> exists k, 0 < k < length F /\ i = length (join d (firstn k F))).
(** Delimiter outside of all brackets: as many opening as closing ones up to here. *)
Definition par_cut (cs ce d : ascii) (s : text) (i : nat) : Prop :=
  nth_error s i = Some d /\ count_occ ascii_dec (firstn (S i) s) cs = count_occ ascii_dec (firstn (S i) s) ce.
(** Delimiter outside of quotes: an even number of quotes up to here. *)
Definition quote_cut (q d : ascii) (s : text) (i : nat) : Prop :=
  nth_error s i = Some d /\ Nat.even (count_occ ascii_dec (firstn (S i) s) q) = true.
Definition nonempty (t : text) : bool := negb (length t =? 0).

(** Contents and tags in turn: content, tag, content, ...  A last content without a following tag and a tag that is not closed are not listed. *)
Inductive xml_pieces : text -> list text -> Prop :=
  | xp_end : forall c, ~ In "<" c -> xml_pieces c []
  | xp_open : forall c t, ~ In "<" c -> ~ In ">" t -> xml_pieces (c ++ "<" :: t) [c]
  | xp_tag : forall c t rest ps, ~ In "<" c -> ~ In ">" t -> xml_pieces rest ps -> xml_pieces (c ++ "<" :: t ++ ">" :: rest) (c :: t :: ps).
(** Leading characters of a kind dropped. *)
Inductive trimmed (D : ascii -> Prop) : text -> text -> Prop :=
  | tr_drop : forall g c r, (forall x, In x g -> D x) -> ~ D c -> trimmed D (g ++ c :: r) (c :: r)
  | tr_all : forall s, (forall x, In x s -> D x) -> trimmed D s s.     (* nothing else in it: left as it is *)

(** name=value and name="value" *)
Inductive attr_text : text * text -> text -> Prop :=
  | at_plain : forall k v, k <> [] -> v <> [] -> ~ In "=" (k ++ v) -> ~ In " " (k ++ v) -> ~ In dquote (k ++ v) -> attr_text (k, v) (k ++ "=" :: v)
  | at_quoted : forall k v, k <> [] -> ~ In "=" (k ++ v) -> ~ In " " k -> ~ In dquote (k ++ v) -> attr_text (k, v) (k ++ "=" :: dquote :: v ++ [dquote]).
(** "key":"value" *)
Definition json_entry (kv : text * text) : text := let '(k, v) := kv in dquote :: k ++ dquote :: ":" :: dquote :: v ++ [dquote].
Definition json_text (L : list (text * text)) : text := "{" :: join "," (map json_entry L) ++ ["}"].
(** The first value listed for a key. *)
Fixpoint first_value (L : list (text * text)) (k : text) : option text :=
  match L with [] => None | (a, b) :: L => if list_eq_dec ascii_dec a k then Some b else first_value L k end.
