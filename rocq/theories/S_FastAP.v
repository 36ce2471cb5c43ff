(** Specifications for fast AP: cell-wise assembled matrices, exact local eigenpairs. *)
From Coq Require Import List Arith Bool.
From Verif Require Import Base OField Mat M_Agglo S_Agglo M_Restr S_Restr M_FastAP S_Eig.
Import ListNotations.
Set Implicit Arguments.

Section SFastAP.
  Variable K : ofield.
  Local Notation vec := (vec K).

  (** Finite element data as one rank sees them: [cd c] the dofs of cell c, [cm c] its matrix in global numbers. *)
  Record fem := mkFem { f_ndofs : nat; f_cd : nat -> list nat; f_cm : nat -> nat -> nat -> K }.

  (** A cell's matrix lives on the cell's dofs. *)
  Definition fem_ok (F : fem) : Prop :=
    forall c, (forall g, In g (f_cd F c) -> g < f_ndofs F) /\
      (forall g h, ~ (In g (f_cd F c) /\ In h (f_cd F c)) -> f_cm F c g h = 0%K).

  (** (sum over the cells of their matrices) times [u], at dof [g]. *)
  Definition cells_apply (F : fem) (cells : list nat) (u : nat -> K) (g : nat) : K :=
    lsum (map (fun c => sumn (f_ndofs F) (fun h => (f_cm F c g h * u h)%K)) cells).

  (** Contract of patch evaluation (user code plus dof map): the map lists the dofs of the cells, each once, and the patch matrix is the sum of the
      cell matrices in patch numbers (no constrained dofs). *)
  Definition patch_ok (F : fem) (cells : list nat) (cols : list nat) (M : mat K) : Prop :=
    NoDup cols /\ nr M = length cols /\ nc M = length cols /\
    (forall g, In g cols <-> exists c, In c cells /\ In g (f_cd F c)) /\
    (forall k l, k < length cols -> l < length cols ->
       ent M k l = lsum (map (fun c => f_cm F c (nth k cols 0) (nth l cols 0)) cells)).
  Definition evaluate_ok (F : fem) (evaluate : list nat -> list nat * mat K) : Prop :=
    forall cells, NoDup cells -> patch_ok F cells (fst (evaluate cells)) (snd (evaluate cells)).

  (** A patch evaluation that meets the contract: dofs of the cells without repetition, entries summed over the cells (for the examples). *)
  Definition assemble_patch (F : fem) (cells : list nat) : list nat * mat K :=
    let cols := nodup Nat.eq_dec (flat_map (f_cd F) cells) in
    (cols, mkMat (length cols) (length cols) (fun k l => lsum (map (fun c => f_cm F c (nth k cols 0) (nth l cols 0)) cells))).

  (** Cells of agglomerate [a]. *)
  Definition agg_cells (m : mesh) (ui : list nat) (a : nat) : list nat :=
    filter (fun c => owned m c && (nth c ui 0 =? a)) (seq 0 (n_cells m)).

  (** The local eigenproblem of agglomerate [a] was solved exactly: the map lists its dofs, the diagonal is that of its matrix, and there are [nev]
      eigenpairs. *)
  Definition exact_agg (F : fem) (cells : list nat) (nev : nat) (c : agg_result K) : Prop :=
    exists M, patch_ok F cells (ag_map c) M /\
      ag_diag c = map (fun k => ent M k k) (seq 0 (length (ag_map c))) /\
      length (ag_evecs c) = nev /\ length (ag_evals c) = nev /\
      forall k, k < nev -> length (nth k (ag_evecs c) []) = length (ag_map c) /\
        mulvec M (nth k (ag_evecs c) []) = vscale (nth k (ag_evals c) 0%K) (nth k (ag_evecs c) []).

  (** The local problem of an agglomerate with [nev] pairs of a value and a vector, however inaccurate: the map lists its dofs, [M] is its matrix,
      the diagonal is that of [M]. *)
  Definition local_agg (F : fem) (cells : list nat) (nev : nat) (c : agg_result K) (M : mat K) : Prop :=
    patch_ok F cells (ag_map c) M /\
    ag_diag c = map (fun k => ent M k k) (seq 0 (length (ag_map c))) /\
    length (ag_evecs c) = nev /\ length (ag_evals c) = nev /\
    forall k, k < nev -> length (nth k (ag_evecs c) []) = length (ag_map c).
  (** Residual of pair [k] of the agglomerate. *)
  Definition pair_residual (c : agg_result K) (M : mat K) (k : nat) : vec := residual M (nth k (ag_evals c) 0%K) (nth k (ag_evecs c) []).

  (** The global matrix is the sum of the cell matrices the rank sees plus a part of cells out of its sight, which do not touch its agglomerates. *)
  Definition global_matrix (F : fem) (m : mesh) (A : nat -> nat -> K) : Prop :=
    exists far : nat -> nat -> K,
      (forall g h, A g h = (lsum (map (fun c => f_cm F c g h) (seq 0 (n_cells m))) + far g h)%K) /\
      (forall c g h, c < n_cells m -> owned m c = true -> In h (f_cd F c) -> far g h = 0%K).

  (** Cells with a common dof share a vertex, so vertex connectivity finds them; and it names cells of the mesh only. *)
  Definition connectivity_ok (F : fem) (m : mesh) (conn : nat -> list nat) : Prop :=
    (forall c d g, c < n_cells m -> d < n_cells m -> In g (f_cd F c) -> In g (f_cd F d) -> In d (conn c)) /\
    (forall c d, In d (conn c) -> d < n_cells m).

  (** Contribution of one patch to row [row] of the correction matrix. *)
  Definition own_contribution (F : fem) (E D : spm K) (is_halo : bool) (row : nat) (cells : list nat) (g : nat) : K :=
    cells_apply F cells (fun h => if is_halo then (spm_el D row h + spm_el E row h)%K else spm_el D row h) g.

  (** Is [r] one of the rows of item [i]? *)
  Definition in_item (first nev i r : nat) : bool := (first + i * nev <=? r) && (r <? first + i * nev + nev).

  (** Sum of the contributions of the items, each to its own rows. *)
  Definition items_sum (F : fem) (E D : spm K) (is_halo : bool) (first nev : nat) (items : list (nat * list nat)) (r g : nat) : K :=
    lsum (map (fun it => if in_item first nev (fst it) r then own_contribution F E D is_halo r (snd it) g else 0%K) items).

  (** What an empty patch makes the copier copy when one copy-data object serves all items: the result of the last nonempty patch before it. *)
  Fixpoint effective (last : option (nat * list nat)) (items : list (nat * list nat)) : list (nat * list nat) :=
    match items with
    | [] => []
    | (i, cells) :: t =>
      let cur := match cells with [] => last | _ => Some (i, cells) end in
      match cur with Some x => x :: effective cur t | None => effective cur t end
    end.

  (** [used] says for each item whose result its copy-data object held when it was copied: its own if the patch has cells, else nothing or that of
      another item with cells. *)
  Definition reused (items : list (nat * list nat)) (used : list (option (nat * list nat))) : Prop :=
    Forall2 (fun it u => match snd it with
      | [] => match u with None => True | Some it' => In it' items /\ snd it' <> [] end
      | _ => u = Some it
      end) items used.
  Definition somes {A} (l : list (option A)) : list A := flat_map (fun o => match o with Some x => [x] | None => [] end) l.
End SFastAP.
