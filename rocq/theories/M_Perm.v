(** Model of include/mfmg/common/utils.hpp:34-79 (sorting permutation, in-place permutation). *)
From Coq Require Import List Arith Bool.
From Verif Require Import Base.
Import ListNotations.
Set Implicit Arguments.

(** [std::swap(vec[a], vec[b])], utils.hpp:71; both accesses are range checked. *)
Definition swap {T} (vec : list T) (a b : nat) : outcome (list T) :=
  let! x := rd vec a in
  let! y := rd vec b in
  let! vec1 := wr vec a y in
  wr vec1 b x.

(** The [while (i != j)] loop, utils.hpp:69-75.  State: vec, done, prev_j, j.  [fuel] bounds the iterations only. *)
Fixpoint perm_while {T} (fuel : nat) (perm : list nat) (i : nat) (vec : list T) (done : list bool)
  (prev_j j : nat) : outcome (list T * list bool) :=
  if i =? j then Ok (vec, done)
  else match fuel with
       | 0 => Fuel
       | S fuel' =>
         let! vec1 := swap vec prev_j j in
         let! done1 := wr done j true in
         let! j1 := rd perm j in
         perm_while fuel' perm i vec1 done1 j j1
       end.

(** The [for] loop over i = n_elem - k .. n_elem - 1, utils.hpp:63-78.  [k] is the number of remaining iterations. *)
Fixpoint perm_for {T} (fuel : nat) (perm : list nat) (k i : nat) (vec : list T) (done : list bool)
  : outcome (list T) :=
  match k with
  | 0 => Ok vec
  | S k' =>
    let! d := rd done i in
    if d then perm_for fuel perm k' (S i) vec done
    else
      let! done1 := wr done i true in
      let! j := rd perm i in
      let! (vec2, done2) := perm_while fuel perm i vec done1 i j in
      perm_for fuel perm k' (S i) vec2 done2
  end.

(** [apply_permutation_in_place(permutation, vec)], utils.hpp:57-79.  [fuel] bounds each inner while loop. *)
Definition apply_permutation_in_place {T} (fuel : nat) (perm : list nat) (vec : list T) : outcome (list T) :=
  perm_for fuel perm (length vec) 0 vec (repeat false (length vec)).

(** The comparator lambda, utils.hpp:46-52, for element type [nat] (the code uses int): indices i, j into vec_1/vec_2. *)
Definition sort_cmp (vec_1 vec_2 : list nat) (i j : nat) : bool :=
  let a := nth i vec_1 0 in
  let b := nth j vec_1 0 in
  if negb (a =? b) then a <? b
  else nth i vec_2 0 <? nth j vec_2 0.

(** [sort_permutation(vec_1, vec_2)], utils.hpp:34-55.  [std_sort cmp l] stands for std::sort.
    The size check (utils.hpp:38-42) is a debug assertion.  With vec_2 shorter than vec_1 the release code reads out of range on a tie;
    simplified: reported as UB whether or not a tie is met. *)
Definition sort_permutation (debug : bool) (std_sort : (nat -> nat -> bool) -> list nat -> list nat)
  (vec_1 vec_2 : list nat) : outcome (list nat) :=
  let! _ := assert_dbg debug (length vec_1 =? length vec_2) in
  if length vec_2 <? length vec_1 then UB
  else Ok (std_sort (sort_cmp vec_1 vec_2) (seq 0 (length vec_1))).
