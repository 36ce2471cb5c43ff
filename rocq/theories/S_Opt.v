(** Specification of the meaning of option texts: helpers that differ in one function. *)
From Verif Require Import Base OField Mat M_Ptree M_Hier.
Set Implicit Arguments.
Section SOpt.
  Variables (K : ofield) (H : Type).
  (** The same helpers with another fast_multiply_transpose. *)
  Definition other_fast (hh : helpers K H) (fast : H -> outcome (op K) * H) : helpers K H :=
    {| hh_get_global_operator := hh_get_global_operator hh; hh_build_restrictor := hh_build_restrictor hh; hh_build_smoother := hh_build_smoother hh;
       hh_build_coarse_solver := hh_build_coarse_solver hh; hh_fast_multiply_transpose := fast |}.
End SOpt.
