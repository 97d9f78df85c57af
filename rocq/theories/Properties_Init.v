(** Generated by tools/gen.py from InitProps.v: property theorems only. *)
From Coq Require Import Classical_Prop Qreals.
From Verif Require Import Prelude NdArr LinAlg Cplx FastDiagProofs FourierProofs Grids_model Spec SpecInit SpecCol SpecForce Boundaries_model BoundariesPeriodic FD_model PRep FDProofs GridProps FDProps Pressure_model PressureProps ProjectionProps PressureSolve_model PressureSolveProps FastDiag_model Func_model FuncProps Equations_model SpecNS EquationsProps EquationsMoreProps Collocated_model CollocatedProps CollocatedStepProps Forcings_model FilterProps ForcingsProps InitialConditions_model InitProofs InterpProps Advection_model.
From Verif Require Import InitProps.
Local Open Scope Z_scope.
Set Implicit Arguments.

(** C59. wrap_variables gives one variable per array with the array's values unchanged, at the given offsets (the cell faces by default) and with the given boundary conditions, for all periodic boundary conditions in any dimension. *)
Theorem wrap_variables_periodic : forall g var bs offsets, wfg g ->
  let os := match offsets with None => cell_faces g | Some o => o end in
  length var = length os -> length os = length bs ->
  (forall a, In a var -> shp a = gshape g) -> (forall o, In o os -> length o = gndim g) -> (forall b, In b bs -> perbc g b) ->
  exists v, wrap_variables var g bs offsets = Ok v /\ length v = length var /\ map gbc v = bs /\
    forall i, (i < length var)%nat -> is_field (garray (nth i v dgv)) g (nth i os []) (get (nth i var (afull [] 0%R))).
Proof. exact (@wrap_variables_periodic_lem). Qed.
Print Assumptions wrap_variables_periodic.

(** C59. initial_velocity_field without iterations (or with none) puts component i on the faces normal to axis i, holding the i-th function evaluated at the coordinates of those faces, with the i-th boundary condition (periodic when none is given). *)
Theorem initial_velocity_samples : forall g fns fs velocity_bc solve iterations, wfg g ->
  length fns = gndim g -> (forall i, (i < gndim g)%nat -> elementwise (gshape g) (fs i) (nth i fns (fun _ => Err EType))) ->
  let bs := match velocity_bc with None => repeat (periodic_bc (gndim g)) (gndim g) | Some b => b end in
  length bs = gndim g -> (forall b, In b bs -> length (btypes b) = gndim g) -> iterations = None \/ iterations = Some 0%nat ->
  exists v, initial_velocity_field fns g velocity_bc solve iterations = Ok v /\ length v = gndim g /\ map gbc v = bs /\
    forall i, (i < gndim g)%nat ->
      is_field (garray (nth i v dgv)) g (offs i (1 # 2) (cell_center g))
        (fun ix => fs i (map (fun a => coord g (offs i (1 # 2) (cell_center g)) a ix) (seq 0 (gndim g)))).
Proof. exact (@initial_velocity_samples_lem). Qed.
Print Assumptions initial_velocity_samples.

(** C59. initial_velocity_field with one or more projection iterations, homogeneous periodic boundary conditions and a pressure solver of the Poisson equation (any dimension): the result is a staggered velocity with those boundary conditions and zero divergence in every cell; it is the single projection of the sampled field whatever the number of iterations; and it has the total momentum of the sampled field. *)
Theorem initial_velocity_projected : forall g fns fs bs solve k, (0 < gndim g)%nat -> wfg g ->
  length fns = gndim g -> (forall i, (i < gndim g)%nat -> elementwise (gshape g) (fs i) (nth i fns (fun _ => Err EType))) ->
  length bs = gndim g -> (forall b, In b bs -> perbc g b /\ bhom b = true) -> solves_poisson g (cell_center g) solve ->
  exists v0 w v d, initial_velocity_field fns g (Some bs) solve None = Ok v0 /\ projection solve v0 = Ok w /\
    initial_velocity_field fns g (Some bs) solve (Some (S k)) = Ok v /\ periodic_velocity g (cell_center g) bs v /\
    divergence v = Ok d /\ is_field d g (cell_center g) (fun _ => 0%R) /\
    (forall i ix, (i < gndim g)%nat -> inb (gshape g) ix -> vval v i ix = vval w i ix) /\
    (forall i, momentum v i = momentum v0 i).
Proof. exact (@initial_velocity_projected_lem). Qed.
Print Assumptions initial_velocity_projected.

(** C59. filtered_velocity_field, for every noise, any dimension, every positive maximum velocity and peak wave number and a pressure solver of the Poisson equation. Without iterations it is the noise filtered by the log-normal spectrum (Fourier coefficient by Fourier coefficient), on the cell faces with periodic boundary conditions and zero momentum. With one or more iterations, if the projection of the filtered noise is not zero, the result is that projection rescaled, whatever the number of iterations: zero divergence in every cell, largest speed exactly maximum_velocity, zero momentum, periodic boundary conditions. (If the projection is zero everywhere the code divides zero by zero.) *)
Theorem filtered_velocity_field_spec : forall g noise solve M peak k, (0 < gndim g)%nat -> wfg g -> (0 < peak)%R -> (0 < M)%R ->
  (forall i, (i < gndim g)%nat -> shp (noise i) = gshape g) -> solves_poisson g (cell_center g) solve ->
  let bs := repeat (periodic_bc (gndim g)) (gndim g) in
  exists v0 w, filtered_velocity_field solve noise g M peak 0 = Ok v0 /\ periodic_velocity g (cell_center g) bs v0 /\
    (forall i u kx, nth_error v0 i = Some u -> inb (gshape g) kx ->
       coefficient (gdata (garray u)) kx = Cscal (filter_factor (initial_spectrum peak (gndim g)) g kx) (coefficient (noise i) kx)) /\
    (forall i, momentum v0 i = 0%R) /\ projection solve v0 = Ok w /\
    ((exists i ix, (i < gndim g)%nat /\ inb (gshape g) ix /\ vval w i ix <> 0%R) ->
      exists m v d, is_max_speed g w m /\ (0 < m)%R /\ filtered_velocity_field solve noise g M peak (S k) = Ok v /\
        (forall i ix, (i < gndim g)%nat -> inb (gshape g) ix -> vval v i ix = (M / m * vval w i ix)%R) /\
        periodic_velocity g (cell_center g) bs v /\ divergence v = Ok d /\ is_field d g (cell_center g) (fun _ => 0%R) /\
        is_max_speed g v M /\ forall i, momentum v i = 0%R) /\
    ((forall i ix, (i < gndim g)%nat -> inb (gshape g) ix -> vval w i ix = 0%R) -> filtered_velocity_field solve noise g M peak (S k) = Err EZeroDiv).
Proof. exact (@filtered_velocity_field_spec_lem). Qed.
Print Assumptions filtered_velocity_field_spec.

(** C59. On a one-dimensional grid filtered_velocity_field with one or more iterations never returns a velocity: the projection of a field without mean is zero, and the normalisation divides zero by zero. *)
Theorem filtered_velocity_field_1d : forall g noise solve M peak k, gndim g = 1%nat -> wfg g -> (0 < peak)%R -> (0 < M)%R ->
  shp (noise 0%nat) = gshape g -> solves_poisson g (cell_center g) solve -> filtered_velocity_field solve noise g M peak (S k) = Err EZeroDiv.
Proof. exact (@filtered_velocity_field_1d_lem). Qed.
Print Assumptions filtered_velocity_field_1d.

(** C59. The collocated filtered_velocity_field has the same properties with every component at the cell centres, the centred divergence and a solver of the centred Poisson equation. *)
Theorem collocated_filtered_velocity_field_spec : forall g noise solve M peak k, (0 < gndim g)%nat -> wfg g -> (0 < peak)%R -> (0 < M)%R ->
  (forall i, (i < gndim g)%nat -> shp (noise i) = gshape g) -> solves_centred_poisson g (cell_center g) solve ->
  let bs := repeat (periodic_bc (gndim g)) (gndim g) in
  exists v0 w, col_filtered_velocity_field solve noise g M peak 0 = Ok v0 /\ collocated_velocity g (cell_center g) bs v0 /\
    (forall i u kx, nth_error v0 i = Some u -> inb (gshape g) kx ->
       coefficient (gdata (garray u)) kx = Cscal (filter_factor (initial_spectrum peak (gndim g)) g kx) (coefficient (noise i) kx)) /\
    (forall i, momentum v0 i = 0%R) /\ col_projection solve v0 = Ok w /\
    ((exists i ix, (i < gndim g)%nat /\ inb (gshape g) ix /\ vval w i ix <> 0%R) ->
      exists m v d, is_max_speed g w m /\ (0 < m)%R /\ col_filtered_velocity_field solve noise g M peak (S k) = Ok v /\
        (forall i ix, (i < gndim g)%nat -> inb (gshape g) ix -> vval v i ix = (M / m * vval w i ix)%R) /\
        collocated_velocity g (cell_center g) bs v /\ centered_divergence v = Ok d /\ is_field d g (cell_center g) (fun _ => 0%R) /\
        is_max_speed g v M /\ forall i, momentum v i = 0%R) /\
    ((forall i ix, (i < gndim g)%nat -> inb (gshape g) ix -> vval w i ix = 0%R) -> col_filtered_velocity_field solve noise g M peak (S k) = Err EZeroDiv).
Proof. exact (@collocated_filtered_velocity_field_spec_lem). Qed.
Print Assumptions collocated_filtered_velocity_field_spec.

(** C59. The log-normal density of the initial spectrum takes its largest value at its mode, the requested peak wave number, and only there: at every other positive wave number it is smaller. *)
Theorem log_normal_mode : forall x mode variance, (0 < x)%R -> (0 < mode)%R -> (0 < variance)%R -> x <> mode ->
  (0 < log_normal_pdf x mode variance < log_normal_pdf mode mode variance)%R.
Proof. exact (@log_normal_mode_lem). Qed.
Print Assumptions log_normal_mode.

(** The hypotheses are met by a concrete case. *)
Example log_normal_mode_ex : (0 < 2)%R /\ (0 < 3)%R /\ (0 < 1 / 4)%R /\ (2 <> 3)%R.
Proof. exact (@log_normal_mode_ex_lem). Qed.

(** The hypotheses are met by a concrete case. *)
Example wrap_variables_periodic_ex : let var := map (fun u => gdata (garray u)) p34v in let bs := map gbc p34v in
  wfg p34g /\ length var = length (cell_faces p34g) /\ length (cell_faces p34g) = length bs /\ (forall a, In a var -> shp a = gshape p34g) /\
  (forall o, In o (cell_faces p34g) -> length o = gndim p34g) /\ (forall b, In b bs -> perbc p34g b).
Proof. exact (@wrap_variables_periodic_ex_lem). Qed.

(** The hypotheses are met by a concrete case. *)
Example initial_velocity_samples_ex : let fns := [coordinate_fn 1; coordinate_fn 0] in
  wfg p34g /\ length fns = gndim p34g /\ (forall i, (i < gndim p34g)%nat -> elementwise (gshape p34g) (fun l => nth (1 - i) l 0%R) (nth i fns (fun _ => Err EType))) /\
  (forall b, In b (repeat (periodic_bc 2) 2) -> length (btypes b) = gndim p34g) /\ coord p34g (offs 0 (1 # 2) (cell_center p34g)) 1 [2; 3] = (7 / 4)%R.
Proof. exact (@initial_velocity_samples_ex_lem). Qed.

(** The hypotheses are met by a concrete case. *)
Example initial_velocity_projected_ex : forall tpu eigh, let fns := [coordinate_fn 1; coordinate_fn 0] in let bs := [periodic_bc 2; periodic_bc 2] in
  (0 < gndim p34g)%nat /\ wfg p34g /\ length fns = gndim p34g /\
  (forall i, (i < gndim p34g)%nat -> elementwise (gshape p34g) (fun l => nth (1 - i) l 0%R) (nth i fns (fun _ => Err EType))) /\
  length bs = gndim p34g /\ (forall b, In b bs -> perbc p34g b /\ bhom b = true) /\
  solves_poisson p34g (cell_center p34g) (fun v _ b => pressure_solve_fast_diag tpu eigh (1 / 1000) v (Some b) (Some Fft)).
Proof. exact (@initial_velocity_projected_ex_lem). Qed.

(** The hypotheses are met by a concrete case. *)
Example filtered_velocity_field_1d_ex : forall tpu eigh, gndim c3g = 1%nat /\ wfg c3g /\ shp (gdata (garray c3c)) = gshape c3g /\
  solves_poisson c3g (cell_center c3g) (fun v _ b => pressure_solve_fast_diag tpu eigh (1 / 1000) v (Some b) (Some Fft)).
Proof. exact (@filtered_velocity_field_1d_ex_lem). Qed.

(** The hypotheses are met by a concrete case. *)
Example filtered_velocity_field_spec_ex : (0 < gndim e2g)%nat /\ wfg e2g /\ (forall i, (i < gndim e2g)%nat -> shp (e2_noise i) = gshape e2g) /\ solves_poisson e2g (cell_center e2g) e2_solve /\
  exists v0 w, filtered_velocity_field e2_solve e2_noise e2g 7 3 0 = Ok v0 /\ projection e2_solve v0 = Ok w /\
    exists i ix, (i < gndim e2g)%nat /\ inb (gshape e2g) ix /\ vval w i ix <> 0%R.
Proof. exact (@filtered_velocity_field_spec_ex_lem). Qed.

(** The hypotheses are met by a concrete case. *)
Example collocated_filtered_velocity_field_spec_ex : (0 < gndim e2g)%nat /\ wfg e2g /\ (forall i, (i < gndim e2g)%nat -> shp (e2_noise i) = gshape e2g) /\ solves_centred_poisson e2g (cell_center e2g) e2_csolve /\
  exists v0 w, col_filtered_velocity_field e2_csolve e2_noise e2g 7 3 0 = Ok v0 /\ col_projection e2_csolve v0 = Ok w /\
    exists i ix, (i < gndim e2g)%nat /\ inb (gshape e2g) ix /\ vval w i ix <> 0%R.
Proof. exact (@collocated_filtered_velocity_field_spec_ex_lem). Qed.
