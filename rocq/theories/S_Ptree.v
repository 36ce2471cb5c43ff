(** Specification of the parameter tree functions, independent of the helpers of M_Ptree. *)
From Coq Require Import List Arith ZArith Ascii String Bool.
From Verif Require Import Base M_Ptree.
Import ListNotations.
Open Scope string_scope.

(** The list a user expects: leaves become parameters, inner nodes sublists, order kept. *)
Inductive expected (ty : string -> ptype) : ptree -> plist -> Prop :=
| exp_node : forall d cs l, expected_items ty cs l -> expected ty (Node d cs) (PList l)
with expected_items (ty : string -> ptype) : list (string * ptree) -> list pitem -> Prop :=
| exp_nil : expected_items ty [] []
| exp_leaf : forall name v cs l, expected_items ty cs l ->
    expected_items ty ((name, Node v []) :: cs) (PParam name (ty v) v :: l)
| exp_sub : forall name c sub cs l, pt_children c <> [] -> expected ty c sub -> expected_items ty cs l ->
    expected_items ty ((name, c) :: cs) (PSub name sub :: l).

(** Texts XML can carry in an attribute without escaping: no control characters, double quotes, angle brackets or ampersands. *)
Definition xml_plain (s : string) : Prop :=
  forall i c, String.get i s = Some c -> 32 <= nat_of_ascii c /\ nat_of_ascii c <> 34 /\ nat_of_ascii c <> 60 /\ nat_of_ascii c <> 38.

(** Every name and every leaf value in the tree is plain. *)
Inductive tree_plain : ptree -> Prop :=
| tp_node : forall d cs, (forall name c, In (name, c) cs -> xml_plain name /\ (pt_children c = [] -> xml_plain (pt_data c)) /\ tree_plain c) ->
    tree_plain (Node d cs).

(** All characters of a text satisfy [p]. *)
Fixpoint all_chars (p : ascii -> Prop) (s : string) : Prop :=
  match s with EmptyString => True | String c t => p c /\ all_chars p t end.

(** White space only. *)
Definition blank (s : string) : Prop := all_chars (fun c => nat_of_ascii c = 32 \/ (9 <= nat_of_ascii c /\ nat_of_ascii c <= 13)) s.

(** Value of a string of decimal digits, most significant digit first. *)
Inductive digits : string -> Z -> Prop :=
| dig_one : forall c, 48 <= nat_of_ascii c -> nat_of_ascii c <= 57 -> digits (String c "") (Z.of_nat (nat_of_ascii c) - 48)%Z
| dig_snoc : forall s (z : Z) c, digits s z -> 48 <= nat_of_ascii c -> nat_of_ascii c <= 57 ->
    digits (s ++ String c "") (10 * z + (Z.of_nat (nat_of_ascii c) - 48))%Z.

(** [s] is a decimal integer text of value [z]: blanks, optional sign, digits, blanks. *)
Inductive int_text : string -> Z -> Prop :=
| it_plain : forall w1 s w2 z, blank w1 -> digits s z -> blank w2 -> int_text (w1 ++ s ++ w2) z
| it_plus : forall w1 s w2 z, blank w1 -> digits s z -> blank w2 -> int_text (w1 ++ "+" ++ s ++ w2) z
| it_minus : forall w1 s w2 (z : Z), blank w1 -> digits s z -> blank w2 -> int_text (w1 ++ "-" ++ s ++ w2) (- z)%Z.

(** [s] is one of the words true and false between blanks. *)
Inductive bool_word : string -> bool -> Prop :=
| bw : forall w1 w2 (b : bool), blank w1 -> blank w2 -> bool_word (w1 ++ (if b then "true" else "false") ++ w2) b.

(** Blanks, an optional sign and digits. *)
Inductive number_start : string -> Z -> Prop :=
| ns_plain : forall w s z, blank w -> digits s z -> number_start (w ++ s) z
| ns_plus : forall w s z, blank w -> digits s z -> number_start (w ++ "+" ++ s) z
| ns_minus : forall w s (z : Z), blank w -> digits s z -> number_start (w ++ "-" ++ s) (- z)%Z.
(** [s] can be read as the truth value [b]: a number that is 0 or 1; one of the words; or one of the words after a sign or after any other number, which are skipped. *)
Inductive bool_text : string -> bool -> Prop :=
| bt_zero : forall s, int_text s 0%Z -> bool_text s false
| bt_one : forall s, int_text s 1%Z -> bool_text s true
| bt_word : forall s b, bool_word s b -> bool_text s b
| bt_sign : forall w c s b, blank w -> c = "+"%char \/ c = "-"%char -> bool_word s b -> bool_text (w ++ String c s) b
| bt_number : forall u z s b, number_start u z -> z <> 0%Z -> z <> 1%Z -> bool_word s b -> bool_text (u ++ s) b.

(** The value of an option that is a truth value or an int: the one its text stands for; the default if there is no such option or its text cannot be read. *)
Definition bool_option (p : ptree) (path : list string) (dflt b : bool) : Prop :=
  (exists c, pt_find p path = Some c /\ bool_text (pt_data c) b) \/ ((forall c b', pt_find p path = Some c -> ~ bool_text (pt_data c) b') /\ b = dflt).
Definition int_option (p : ptree) (path : list string) (dflt z : Z) : Prop :=
  (exists c, pt_find p path = Some c /\ int_text (pt_data c) z /\ (- 2 ^ 31 <= z <= 2 ^ 31 - 1)%Z) \/
  ((forall c z', pt_find p path = Some c -> int_text (pt_data c) z' -> ~ (- 2 ^ 31 <= z' <= 2 ^ 31 - 1)%Z) /\ z = dflt).
