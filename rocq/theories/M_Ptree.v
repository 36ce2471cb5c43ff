(** Model of the boost property tree as used by mfmg and of source/common/utils.cc. Definitions only. *)
From Coq Require Import List Arith ZArith Ascii String Bool.
From Verif Require Import Base.
Import ListNotations.
Set Implicit Arguments.
Open Scope string_scope.

(** boost::property_tree::ptree: a string and an ordered list of named children
    (external; used in include/mfmg/common/hierarchy.hpp:168-190 and source/common/utils.cc:20-80). *)
Inductive ptree : Type := Node (data : string) (children : list (string * ptree)).

(** ptree::data() (source/common/utils.cc:37). *)
Definition pt_data (t : ptree) : string := match t with Node d _ => d end.
(** The children in order (source/common/utils.cc:26, range-for over the node). *)
Definition pt_children (t : ptree) : list (string * ptree) := match t with Node _ c => c end.
(** ptree::empty(): no children; the data does not count (source/common/utils.cc:23,28,67). *)
Definition pt_empty (t : ptree) : bool := match pt_children t with [] => true | _ => false end.

(** First child of a given name, as boost's path lookup does (external; used by get/put). *)
Fixpoint assoc {A} (k : string) (l : list (string * A)) : option A :=
  match l with
  | [] => None
  | (k', a) :: t => if String.eqb k k' then Some a else assoc k t
  end.

(** A path is the list of names between the separators '.' ; ptree::get_child_optional(path) (external). *)
Fixpoint pt_find (t : ptree) (path : list string) : option ptree :=
  match path with
  | [] => Some t
  | k :: path' => match assoc k (pt_children t) with Some c => pt_find c path' | None => None end
  end.

(** Replaces the first child of name [k] by [f child], or appends [f empty] (external: the walk of ptree::put). *)
Fixpoint put_child (k : string) (f : ptree -> ptree) (l : list (string * ptree)) : list (string * ptree) :=
  match l with
  | [] => [(k, f (Node "" []))]
  | (k', c) :: t => if String.eqb k k' then (k', f c) :: t else (k', c) :: put_child k f t
  end.

(** ptree::put(path, value) (used in include/mfmg/common/hierarchy.hpp:189-190): walks along the path, creating missing
    children at the end, and overwrites the data of the last node; the children of that node stay. *)
Fixpoint pt_put (path : list string) (v : string) (t : ptree) : ptree :=
  match path with
  | [] => Node v (pt_children t)
  | k :: path' => Node (pt_data t) (put_child k (pt_put path' v) (pt_children t))
  end.

(** ptree::get(path, default) for a type whose texts are read by [parse] (used in include/mfmg/common/hierarchy.hpp:168-172,216):
    the default is used when the path is missing or the text does not convert. *)
Definition pt_get {A} (parse : string -> option A) (path : list string) (dflt : A) (t : ptree) : A :=
  match pt_find t path with
  | Some c => match parse (pt_data c) with Some a => a | None => dflt end
  | None => dflt
  end.

(** ** Reading texts (external: stream extraction followed by std::ws and a test for end of text; the C locale) *)
(** isspace in the C locale (external). *)
Definition is_ws (c : ascii) : bool :=
  let n := nat_of_ascii c in (n =? 32)%nat || ((9 <=? n)%nat && (n <=? 13)%nat).
(** isdigit (external). *)
Definition is_digit (c : ascii) : bool := let n := nat_of_ascii c in (48 <=? n)%nat && (n <=? 57)%nat.
(** Skips white space (external: std::ws). *)
Fixpoint skip_ws (s : string) : string :=
  match s with
  | String c t => if is_ws c then skip_ws t else s
  | EmptyString => s
  end.
(** Reads decimal digits into an accumulator (external: num_get for int, base 10). *)
Fixpoint read_digits (s : string) (acc : Z) : Z * string :=
  match s with
  | String c t => if is_digit c then read_digits t (acc * 10 + Z.of_nat (nat_of_ascii c - 48)) else (acc, s)
  | EmptyString => (acc, s)
  end.
(** At least one digit (external). *)
Definition read_nat (s : string) : option (Z * string) :=
  match s with
  | String c t => if is_digit c then Some (read_digits s 0) else None
  | EmptyString => None
  end.
(** Range of a 32-bit int (external). *)
Definition in_int_range (z : Z) : bool := ((- 2 ^ 31 <=? z) && (z <=? 2 ^ 31 - 1))%Z.
(** get_value_optional<int> / get<int> (source/common/utils.cc:40; include/mfmg/common/hierarchy.hpp:169,172): white space, an optional sign,
    digits, white space, end; values outside the range of int do not convert. *)
Definition parse_int (s : string) : option Z :=
  let s := skip_ws s in
  let '(neg, s) :=
    match s with
    | String "-" t => (true, t)
    | String "+" t => (false, t)
    | _ => (false, s)
    end in
  match read_nat s with
  | None => None
  | Some (z, rest) =>
      let z := if neg then (- z)%Z else z in
      match skip_ws rest with
      | EmptyString => if in_int_range z then Some z else None
      | _ => None
      end
  end.
(** operator>> for bool with boolalpha (external): white space, one of the words; then white space and the end of the text. *)
Definition parse_word (s : string) : option bool :=
  let s := skip_ws s in
  let after (n : nat) := skip_ws (substring n (String.length s - n) s) in
  if String.eqb (substring 0 4 s) "true" then match after 4 with EmptyString => Some true | _ => None end
  else if String.eqb (substring 0 5 s) "false" then match after 5 with EmptyString => Some false | _ => None end
  else None.
(** get_value_optional<bool> / get<bool> (source/common/utils.cc:48; include/mfmg/common/hierarchy.hpp:168,216): boost reads a number first, which must be 0 or 1;
    if that fails, it goes on, from where this attempt has stopped, with one of the words false and true. *)
Definition parse_bool (s : string) : option bool :=
  let s := skip_ws s in
  let '(neg, s) :=
    match s with
    | String "-" t => (true, t)
    | String "+" t => (false, t)
    | _ => (false, s)
    end in
  match read_nat s with
  | None => parse_word s
  | Some (z, rest) =>
      let z := if neg then (- z)%Z else z in
      let number (b : bool) := match skip_ws rest with EmptyString => Some b | _ => None end in
      if (z =? 0)%Z then number false else if (z =? 1)%Z then number true else parse_word rest
  end.
(** Text written by put<bool> (external: boolalpha; include/mfmg/common/hierarchy.hpp:189-190). *)
Definition print_bool (b : bool) : string := if b then "true" else "false".

(** ** ptree2plist (source/common/utils.cc:20-80) *)
(** The type attribute of a parameter (source/common/utils.cc:38-55). *)
Inductive ptype : Type := TInt | TDouble | TBool | TString.
(** Its text (source/common/utils.cc:42,46,50,54). *)
Definition ptype_text (p : ptype) : string :=
  match p with TInt => "int" | TDouble => "double" | TBool => "bool" | TString => "string" end.

(** A Teuchos::ParameterList: named typed parameters and named sublists in order (external; source/common/utils.cc:64-80). *)
Inductive plist : Type := PList (items : list pitem)
with pitem : Type :=
| PParam (name : string) (ty : ptype) (value : string)
| PSub (name : string) (l : plist).

Section Ptree2Plist.
  (** get_value_optional<double> (source/common/utils.cc:44): a predicate on texts, not modelled further. *)
  Variable accepts_double : string -> bool.

  (** The type cascade (source/common/utils.cc:38-55). *)
  Definition infer_type (s : string) : ptype :=
    match parse_int s with
    | Some _ => TInt
    | None => if accepts_double s then TDouble else match parse_bool s with Some _ => TBool | None => TString end
    end.

  (** The double quote character. *)
  Definition dq : string := String (ascii_of_nat 34) EmptyString.
  (** std::endl (source/common/utils.cc:31). *)
  Definition nl : string := String (ascii_of_nat 10) EmptyString.

  (** The text written for one leaf (source/common/utils.cc:57-58). *)
  Definition emit_param (name value : string) (ty : ptype) : string :=
    "<Parameter name=" ++ dq ++ name ++ dq ++ " type=" ++ dq ++ ptype_text ty ++ dq ++ " value=" ++ dq ++ value ++ dq ++ "/>" ++ nl.

  (** ptree2plist_internal (source/common/utils.cc:20-62): the text written for the children of a node. *)
  Fixpoint emit (t : ptree) : string :=
    match t with
    | Node _ cs =>
        (fix go (cs : list (string * ptree)) : string :=
           match cs with
           | [] => ""
           | (name, c) :: cs' =>
               match c with
               | Node v [] => emit_param name v (infer_type v)
               | Node _ (_ :: _) => "<ParameterList name=" ++ dq ++ name ++ dq ++ ">" ++ nl ++ emit c ++ "</ParameterList>" ++ nl
               end ++ go cs'
           end) cs
    end.

  (** The XML document (source/common/utils.cc:73-77). *)
  Definition emit_document (t : ptree) : string :=
    "<ParameterList name=" ++ dq ++ "ANONYMOUS" ++ dq ++ ">" ++ nl ++ emit t ++ "</ParameterList>".

  (** Teuchos::getParametersFromXmlString (external), reduced to the elements this file writes: attribute values are delimited by
      double quotes, must not contain an opening angle bracket, and entities are not supported (an ampersand is an error). *)
  (** Characters an attribute value may contain as they are (external: XML). Control characters are excluded: XML parsers
      replace them or reject them. *)
  Definition xml_safe_char (c : ascii) : bool :=
    negb (Ascii.eqb c (ascii_of_nat 34) || Ascii.eqb c "<" || Ascii.eqb c "&" || (nat_of_ascii c <? 32)%nat).
  (** Reads an attribute value up to the closing double quote (external: XML). *)
  Fixpoint read_attr (s : string) : option (string * string) :=
    match s with
    | EmptyString => None
    | String c t =>
        if Ascii.eqb c (ascii_of_nat 34) then Some (EmptyString, t)
        else if xml_safe_char c then match read_attr t with Some (a, r) => Some (String c a, r) | None => None end
        else None
    end.
  (** Reads a fixed text (external: XML). *)
  Fixpoint expect (p s : string) : option string :=
    match p with
    | EmptyString => Some s
    | String c p' => match s with String d s' => if Ascii.eqb c d then expect p' s' else None | EmptyString => None end
    end.
  (** Reads a type attribute (external: Teuchos knows more types). *)
  Definition read_type (s : string) : option ptype :=
    if String.eqb s "int" then Some TInt else if String.eqb s "double" then Some TDouble
    else if String.eqb s "bool" then Some TBool else if String.eqb s "string" then Some TString else None.
  (** Sequencing for the reader. *)
  Definition obind {A B} (m : option A) (f : A -> option B) : option B := match m with Some a => f a | None => None end.
  (** Reads the items of a list up to the closing tag of the list, which is left unread (external: XML). *)
  Fixpoint read_items (fuel : nat) (s : string) : option (list pitem * string) :=
    match fuel with
    | O => None
    | S fuel' =>
        match expect ("<Parameter name=" ++ dq) s with
        | Some s1 =>
            obind (read_attr s1) (fun '(name, s2) =>
            obind (expect (" type=" ++ dq) s2) (fun s3 =>
            obind (read_attr s3) (fun '(tyt, s4) =>
            obind (read_type tyt) (fun ty =>
            obind (expect (" value=" ++ dq) s4) (fun s5 =>
            obind (read_attr s5) (fun '(v, s6) =>
            obind (expect ("/>" ++ nl) s6) (fun s7 =>
            obind (read_items fuel' s7) (fun '(l, s8) => Some (PParam name ty v :: l, s8)))))))))
        | None =>
            match expect ("<ParameterList name=" ++ dq) s with
            | Some s1 =>
                obind (read_attr s1) (fun '(name, s2) =>
                obind (expect (">" ++ nl) s2) (fun s3 =>
                obind (read_items fuel' s3) (fun '(sub, s4) =>
                obind (expect ("</ParameterList>" ++ nl) s4) (fun s5 =>
                obind (read_items fuel' s5) (fun '(l, s6) => Some (PSub name (PList sub) :: l, s6))))))
            | None => Some ([], s)
            end
        end
    end.
  (** Reads a whole document (external: Teuchos::getParametersFromXmlString, source/common/utils.cc:79). *)
  Definition read_document (s : string) : option plist :=
    obind (expect ("<ParameterList name=" ++ dq) s) (fun s1 =>
    obind (read_attr s1) (fun '(_, s2) =>
    obind (expect (">" ++ nl) s2) (fun s3 =>
    obind (read_items (S (String.length s)) s3) (fun '(l, s4) =>
    if String.eqb s4 "</ParameterList>" then Some (PList l) else None)))).

  (** ptree2plist (source/common/utils.cc:64-80); [Throw] when the XML text is rejected. *)
  Definition ptree2plist (t : ptree) : outcome plist :=
    if pt_empty t then Ok (PList [])
    else match read_document (emit_document t) with Some l => Ok l | None => Throw end.
End Ptree2Plist.
