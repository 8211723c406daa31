(** * The boundary table of the simple shear problem
      (source/postprocessing.cc:678-905, applications/simple_shear.cc:155-166, 190-230, 690).
    One row per time step.  The third enumerator CyclicWithUnloading is never selected by the
    parser (run_time_parameters.cc:1540-1560) and has the same formula as Cyclic. *)
From Verif Require Import Num Tensors ModelUtilities ModelMicro ModelAssembly ModelPost ModelLoading.
Open Scope R_scope.

(** postprocessing.cc:739-793, compute_data: the column "shear_at_upper_boundary";
    initial_loading_time is the duration of the loading and unloading phase
    (simple_shear.cc:163). *)
Definition table_shear (l : loading) (initial time : R) : R :=
  match l_type l with
  | Monotonic => time * l_max l
  | Cyclic =>
      if Rleb initial time
      then (l_max l - l_min l) / 2 * cos (2 * PI / l_period l * (time - initial)) + (l_max l + l_min l) / 2
      else l_max l * sin (PI / 2 / initial * time)
  end.

(** postprocessing.cc:798-893, compute_stress_12_at_boundary: the column
    "stress_12_at_upper_boundary"; a face of the upper boundary is given like a cell, by the
    finite element data at its quadrature points.  The elastic strain does not include the
    macroscopic strain.  simple_shear.cc:166: [width] = 1 / n_elements_in_y_direction. *)
Definition table_stress (width : R) (ranks : list (list hcell)) : xr :=
  xdiv (Fin (mpi_sum (map (rank_sum (fun c => cell_stress_fluct c 0 1)) ranks))) (Fin width).
Definition strip_width (n_elements_in_y_direction : nat) : R := 1 / INR n_elements_in_y_direction.
(** simple_shear.cc:200-228: the strip is [0,w] x [0,h] or [0,w] x [0,h] x [0,w]. *)
Definition upper_boundary_measure (dim : nat) (w : R) : R := if Nat.eqb dim 2 then w else w * w.
