(** Model of mfmg::MultiVector (include/mfmg/dealii/multivector.hpp:23-53) and of the Anasazi traits for it
    (include/mfmg/dealii/anasazi_traits.hpp:32-304; at = that file, mv = multivector.hpp). Definitions only.
    The vectors of all multivectors live in one store; a multivector is the list of the numbers of its vectors (std::shared_ptr), so several
    multivectors, or several positions of one, may share a vector. Operations of dealii::Vector (external): assignment resizes the destination; products and sums of
    vectors of different sizes fail an assertion of deal.II in debug builds and are undefined otherwise. Sizes and counts are ints in the code and
    natural numbers here. *)
From Coq Require Import List Arith Bool.
From Verif Require Import Base OField Mat M_SpProd M_Csr.
Import ListNotations.
Set Implicit Arguments.
Open Scope nat_scope.

Section MultiVec.
  Variable K : ofield.
  (** A MultiVector: the vectors it points to, in order (mv:52). *)
  Definition multi : Type := list nat.
  (** *x[i] (mv:44-49; at:50): operator[] of std::vector is not checked. *)
  Definition get (h : list (vec K)) (x : multi) (i : nat) : outcome (vec K) := let! p := rd x i in rd h p.
  (** Changing *x[i] (mv:44; at:50). *)
  Definition put (h : list (vec K)) (x : multi) (i : nat) (v : vec K) : outcome (list (vec K)) := let! p := rd x i in wr h p v.
  (** MultiVector::size (mv:40). *)
  Definition msize (h : list (vec K)) (x : multi) : outcome nat :=
    match x with [] => Ok 0 | p :: _ => let! v := rd h p in Ok (length v) end.
  (** MultiVector(n_vectors, vector_size): new vectors of zeros (mv:27-33). *)
  Definition new_multi (h : list (vec K)) (n size : nat) : list (vec K) * multi := (h ++ repeat (vzero size) n, seq (length h) n).
  (** Clone (at:38-42). *)
  Definition clone (h : list (vec K)) (x : multi) (n : nat) : outcome (list (vec K) * multi) := let! s := msize h x in Ok (new_multi h n s).
  (** CloneCopy of the vectors at the given positions: new vectors, then assignments (at:55-65 and, with a range of positions, 67-77; without index
      list all positions, 44-53). *)
  Definition clone_copy (h : list (vec K)) (x : multi) (index : list nat) : outcome (list (vec K) * multi) :=
    let (h1, y) := new_multi h (length index) 0 in
    let! h2 := foldM (fun h i => let! j := rd index i in let! v := get h x j in put h y i v) h1 (seq 0 (length index)) in
    Ok (h2, y).
  (** CloneViewNonConst and CloneView: the new pointers are replaced by those of mv (at:79-125); the vectors that the constructor made are dropped
      and do not appear here. *)
  Definition clone_view (x : multi) (index : list nat) : outcome multi := mapM (rd x) index.

  (** An assertion inside deal.II: active in debug builds, undefined otherwise (external). *)
  Definition demand (debug c : bool) : outcome unit := if c then Ok tt else if debug then Abort else UB.
  (** Vector::add(a, v) (external; at:148). *)
  Definition vec_add (debug : bool) (w : vec K) (a : K) (v : vec K) : outcome (vec K) :=
    let! _ := demand debug (length w =? length v) in Ok (vadd w (vscale a v)).
  (** Vector::sadd(s, a, v) (external; at:165). *)
  Definition vec_sadd (debug : bool) (w : vec K) (s a : K) (v : vec K) : outcome (vec K) :=
    let! _ := demand debug (length w =? length v) in Ok (vadd (vscale s w) (vscale a v)).
  (** Vector::operator* (external; at:194, 207). *)
  Definition vec_dot (debug : bool) (w v : vec K) : outcome K :=
    let! _ := demand debug (length w =? length v) in Ok (dot w v).

  (** MvTimesMatAddMv (at:134-150). *)
  Definition mv_times_mat_add_mv (debug : bool) (h : list (vec K)) (alpha : K) (A : multi) (B : mat K) (beta : K) (mv : multi) : outcome (list (vec K)) :=
    let! _ := assert_dbg debug (nr B =? length A) in
    let! _ := assert_dbg debug (nc B =? length mv) in
    let! sm := msize h mv in let! sa := msize h A in
    let! _ := assert_dbg debug (sm =? sa) in
    foldM (fun h j =>
      let! w := get h mv j in
      let! h1 := put h mv j (vscale beta w) in
      foldM (fun h k =>
        let! w := get h mv j in
        let! v := get h A k in
        let! b := (if k <? nr B then Ok (ent B k j) else UB) in
        let! w' := vec_add debug w (fmul alpha b) v in
        put h mv j w') h1 (seq 0 (length A))) h (seq 0 (nc B)).
  (** MvAddMv (at:152-167). *)
  Definition mv_add_mv (debug : bool) (h : list (vec K)) (alpha : K) (A : multi) (beta : K) (B mv : multi) : outcome (list (vec K)) :=
    let! sa := msize h A in let! sb := msize h B in
    let! _ := assert_dbg debug (sa =? sb) in
    let! _ := assert_dbg debug (length B =? length A) in
    let! _ := assert_dbg debug (length mv =? length B) in
    let! sm := msize h mv in
    let! _ := assert_dbg debug (sm =? sb) in
    foldM (fun h i =>
      let! a := get h A i in
      let! h1 := put h mv i a in
      let! w := get h1 mv i in
      let! b := get h1 B i in
      let! w' := vec_sadd debug w alpha beta b in
      put h1 mv i w') h (seq 0 (length A)).
  (** MvScale with one factor (at:169-173). *)
  Definition mv_scale (h : list (vec K)) (mv : multi) (alpha : K) : outcome (list (vec K)) :=
    foldM (fun h i => let! w := get h mv i in put h mv i (vscale alpha w)) h (seq 0 (length mv)).
  (** MvScale with one factor for each vector (at:175-182). *)
  Definition mv_scale_each (debug : bool) (h : list (vec K)) (mv : multi) (alpha : list K) : outcome (list (vec K)) :=
    let! _ := assert_dbg debug (length alpha =? length mv) in
    foldM (fun h i => let! a := rd alpha i in let! w := get h mv i in put h mv i (vscale a w)) h (seq 0 (length mv)).
  (** MvTransMv (at:184-195): the entries of C, row by row. The assertion on the size of C is kept; a C of another size is out of scope in release builds. *)
  Definition mv_trans_mv (debug : bool) (h : list (vec K)) (alpha : K) (A B : multi) (rows cols : nat) : outcome (list (list K)) :=
    let! sa := msize h A in let! sb := msize h B in
    let! _ := assert_dbg debug (sa =? sb) in
    let! _ := demand debug (rows =? length A) in
    let! _ := demand debug (cols =? length B) in
    mapM (fun i => mapM (fun j => let! a := get h A i in let! b := get h B j in let! d := vec_dot debug a b in Ok (fmul alpha d)) (seq 0 (length B)))
      (seq 0 (length A)).
  (** MvDot (at:197-209). *)
  Definition mv_dot (debug : bool) (h : list (vec K)) (mv A : multi) : outcome (list K) :=
    let! sa := msize h A in let! sm := msize h mv in
    let! _ := assert_dbg debug (sa =? sm) in
    let! _ := assert_dbg debug (length A =? length mv) in
    mapM (fun i => let! w := get h mv i in let! a := get h A i in vec_dot debug w a) (seq 0 (length mv)).
  (** MvNorm (at:211-221), with the square root as a parameter. *)
  Definition mv_norm (root : K -> K) (h : list (vec K)) (mv : multi) : outcome (list K) :=
    mapM (fun i => let! w := get h mv i in Ok (root (dot w w))) (seq 0 (length mv)).
  (** SetBlock with a list of positions (at:223-234) or a range of them (236-247). *)
  Definition set_block (debug : bool) (h : list (vec K)) (A : multi) (index : list nat) (mv : multi) : outcome (list (vec K)) :=
    let! _ := assert_dbg debug (length A =? length index) in
    let! _ := assert_dbg debug (length index <=? length mv) in
    let! sa := msize h A in let! sm := msize h mv in
    let! _ := assert_dbg debug (sa =? sm) in
    foldM (fun h i => let! j := rd index i in let! a := get h A i in put h mv j a) h (seq 0 (length index)).
  (** Assign (at:249-254). *)
  Definition assign : outcome (list (vec K)) := Throw.
  (** MvRandom (at:256-268): the generator starts from the same seed in every call; [draws] is the stream it gives (external). *)
  Definition mv_random (draws : nat -> K) (h : list (vec K)) (mv : multi) : outcome (list (vec K)) :=
    let! r := foldM (fun (c : list (vec K) * nat) i =>
        let! w := get (fst c) mv i in
        let! h1 := put (fst c) mv i (map draws (seq (snd c) (length w))) in
        Ok (h1, snd c + length w)) (h, 0) (seq 0 (length mv)) in
    Ok (fst r).
  (** MvInit (at:270-275). *)
  Definition mv_init (h : list (vec K)) (mv : multi) (alpha : K) : outcome (list (vec K)) :=
    foldM (fun h i => let! w := get h mv i in put h mv i (repeat alpha (length w))) h (seq 0 (length mv)).
  (** OperatorTraits::Apply (at:293-303). SparseMatrix::vmult (external) demands matching sizes and different vectors. *)
  Definition op_traits_apply (debug : bool) (h : list (vec K)) (M : mat K) (x y : multi) : outcome (list (vec K)) :=
    let! sx := msize h x in let! sy := msize h y in
    let! _ := assert_dbg debug (sx =? sy) in
    let! _ := assert_dbg debug (length y =? length x) in
    foldM (fun h i =>
      let! p := rd y i in let! q := rd x i in
      let! w := rd h p in let! v := rd h q in
      let! _ := demand debug ((nr M =? length w) && (nc M =? length v) && negb (p =? q)) in
      wr h p (mulvec M v)) h (seq 0 (length x)).

  (** A program with multivectors: they are numbered in the order in which they are made. *)
  Inductive mop : Type :=
  | VNew (n size : nat) | VClone (x n : nat) | VCopy (x : nat) (index : list nat) | VView (x : nat) (index : list nat)
  | VTimes (alpha : K) (a : nat) (B : mat K) (beta : K) (m : nat) | VAdd (alpha : K) (a : nat) (beta : K) (b m : nat)
  | VScale (m : nat) (alpha : K) | VScaleEach (m : nat) (alpha : list K) | VSet (a : nat) (index : list nat) (m : nat)
  | VRandom (m : nat) | VInit (m : nat) (alpha : K) | VApply (M : mat K) (x y : nat).
  (** The store and the multivectors (no line in /repo). *)
  Record mstate : Type := mkM { ms_store : list (vec K); ms_multis : list multi }.
  (** A new multivector (no line in /repo). *)
  Definition with_multi (s : mstate) (r : list (vec K) * multi) : mstate := mkM (fst r) (ms_multis s ++ [snd r]).
  (** One operation; see the functions above. *)
  Definition mstep (debug : bool) (draws : nat -> K) (s : mstate) (o : mop) : outcome mstate :=
    let obj k := rd (ms_multis s) k in
    let h := ms_store s in
    let keep r := (let! h' := r in Ok (mkM h' (ms_multis s))) in
    match o with
    | VNew n size => Ok (with_multi s (new_multi h n size))
    | VClone x n => let! x := obj x in let! r := clone h x n in Ok (with_multi s r)
    | VCopy x index => let! x := obj x in let! r := clone_copy h x index in Ok (with_multi s r)
    | VView x index => let! x := obj x in let! y := clone_view x index in Ok (with_multi s (h, y))
    | VTimes alpha a B beta m => let! a := obj a in let! m := obj m in keep (mv_times_mat_add_mv debug h alpha a B beta m)
    | VAdd alpha a beta b m => let! a := obj a in let! b := obj b in let! m := obj m in keep (mv_add_mv debug h alpha a beta b m)
    | VScale m alpha => let! m := obj m in keep (mv_scale h m alpha)
    | VScaleEach m alpha => let! m := obj m in keep (mv_scale_each debug h m alpha)
    | VSet a index m => let! a := obj a in let! m := obj m in keep (set_block debug h a index m)
    | VRandom m => let! m := obj m in keep (mv_random draws h m)
    | VInit m alpha => let! m := obj m in keep (mv_init h m alpha)
    | VApply M x y => let! x := obj x in let! y := obj y in keep (op_traits_apply debug h M x y)
    end.
  (** A program. *)
  Fixpoint mrun (debug : bool) (draws : nat -> K) (s : mstate) (os : list mop) : outcome mstate :=
    match os with [] => Ok s | o :: t => let! s1 := mstep debug draws s o in mrun debug draws s1 t end.
End MultiVec.
Arguments get {K} h x i.
Arguments put {K} h x i v.
Arguments msize {K} h x.
Arguments new_multi {K} h n size.
Arguments clone {K} h x n.
Arguments clone_copy {K} h x index.
Arguments mv_times_mat_add_mv {K} debug h alpha A B beta mv.
Arguments mv_add_mv {K} debug h alpha A beta B mv.
Arguments mv_scale {K} h mv alpha.
Arguments mv_scale_each {K} debug h mv alpha.
Arguments mv_trans_mv {K} debug h alpha A B rows cols.
Arguments mv_dot {K} debug h mv A.
Arguments mv_norm {K} root h mv.
Arguments set_block {K} debug h A index mv.
Arguments mv_random {K} draws h mv.
Arguments mv_init {K} h mv alpha.
Arguments op_traits_apply {K} debug h M x y.
Arguments mkM {K} _ _.
Arguments mstep {K} debug draws s o.
Arguments mrun {K} debug draws s os.
Arguments VNew {K} n size.
Arguments VClone {K} x n.
Arguments VCopy {K} x index.
Arguments VView {K} x index.
Arguments VTimes {K} alpha a B beta m.
Arguments VAdd {K} alpha a beta b m.
Arguments VScale {K} m alpha.
Arguments VScaleEach {K} m alpha.
Arguments VSet {K} a index m.
Arguments VRandom {K} m.
Arguments VInit {K} m alpha.
Arguments VApply {K} M x y.
