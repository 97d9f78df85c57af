(** Generated by tools/gen.py from GradTensorProps.v: property theorems only. *)
From Verif Require Import Prelude NdArr Grids_model Spec Boundaries_model FD_model PRep FDProofs FDProps Interp_model InterpProofs InterpProps Advection_model AdvectionProps PressureProps PressureSolveProps TimeStep_model Equations_model SpecNS EquationsProps ArrayUtilsProps SpecLin EncoderProps Subgrid_model SpecSub SubgridProps SubgridMoreProps Viscosities_model.
From Verif Require Import GradTensorProps.
Local Open Scope Z_scope.
Set Implicit Arguments.

(** C69. gradient_tensor of a periodic velocity on the cell faces, in any number of dimensions: succeeds, and entry (a, k) lies at the cell centres and holds the derivative of component k along axis a: for a = k the difference of the two faces of the cell, for a <> k the central difference of the component averaged to the cell centres. *)
Theorem gradient_tensor_spec : forall g v, (0 < gndim g)%nat -> periodic_vec g v -> face_aligned (cell_center g) v ->
  exists T, gradient_tensor v = Ok T /\ length T = gndim g /\
    forall a row, nth_error T a = Some row -> length row = gndim g /\ forall k w, nth_error row k = Some w ->
      is_field w g (cell_center g) (fun ix => if (a =? k)%nat then (vval v k ix - vval v k (prev k ix)) / hstep g k
        else ((vval v k (prev k (next a ix)) + vval v k (next a ix)) / 2 - (vval v k (prev k (prev a ix)) + vval v k (prev a ix)) / 2) / (2 * hstep g a))%R.
Proof. exact (@gradient_tensor_spec_lem). Qed.
Print Assumptions gradient_tensor_spec.

(** C69. The trace of gradient_tensor of a velocity on the cell faces is its divergence, cell by cell. *)
Theorem gradient_trace : forall g v T d, (0 < gndim g)%nat -> periodic_vec g v -> face_aligned (cell_center g) v -> gradient_tensor v = Ok T -> divergence v = Ok d ->
  forall ix, inb (gshape g) ix -> get (gdata d) ix = nsum (gndim g) (fun k => get (gdata (nth k (nth k T []) dga)) ix).
Proof. exact (@gradient_trace_lem). Qed.
Print Assumptions gradient_trace.

(** C69. In two dimensions the antisymmetric part of gradient_tensor of a velocity on the cell faces (entry (0,1) minus entry (1,0)) is curl_2d averaged over the four corners of each cell. *)
Theorem gradient_antisymmetric_part : forall g v T c, gndim g = 2%nat -> periodic_vec g v -> face_aligned (cell_center g) v -> gradient_tensor v = Ok T -> curl_2d v = Ok c ->
  forall ix, inb (gshape g) ix ->
    (get (gdata (nth 1 (nth 0 T []) dga)) ix - get (gdata (nth 0 (nth 1 T []) dga)) ix =
     (pval c ix + pval c (prev 0 ix) + pval c (prev 1 ix) + pval c (prev 0 (prev 1 ix))) / 4)%R.
Proof. exact (@gradient_antisymmetric_part_lem). Qed.
Print Assumptions gradient_antisymmetric_part.

(** C69. gradient_tensor of one periodic variable, at any offset: it succeeds exactly when every entry of the offset is 0, 1/2 or 1, and raises ValueError otherwise. *)
Theorem gradient_tensor_offsets : forall u, periodic_field u ->
  ((forall a, (a < gndim (ggrid (garray u)))%nat -> (nth a (goff (garray u)) 0 == 0 \/ nth a (goff (garray u)) 0 == 1 # 2 \/ nth a (goff (garray u)) 0 == 1)%Q) ->
     exists l, gradient_tensor1 u = Ok l /\ length l = gndim (ggrid (garray u))) /\
  (forall a, (a < gndim (ggrid (garray u)))%nat -> ~ (nth a (goff (garray u)) 0 == 0 \/ nth a (goff (garray u)) 0 == 1 # 2 \/ nth a (goff (garray u)) 0 == 1)%Q ->
     gradient_tensor1 u = Err EValue).
Proof. exact (@gradient_tensor_offsets_lem). Qed.
Print Assumptions gradient_tensor_offsets.

(** C69. gradient_tensor does not always return the cell-centred gradient its documentation promises: for a variable at the cell corners (offset 1 on every axis, or 0) it succeeds but its entries are not at the cell centres. *)
Theorem gradient_tensor_corner_refuted : ~ (forall u l w, periodic_field u -> gradient_tensor1 u = Ok l -> In w l -> off_eq (goff w) (cell_center (ggrid (garray u)))).
Proof. exact (@gradient_tensor_corner_refuted_lem). Qed.
Print Assumptions gradient_tensor_corner_refuted.

(** The hypotheses are met by a concrete case. *)
Example gradient_tensor_spec_ex : (0 < gndim p34g)%nat /\ periodic_vec p34g p34v /\ face_aligned (cell_center p34g) p34v /\ exists T, gradient_tensor p34v = Ok T.
Proof. exact (@gradient_tensor_spec_ex_lem). Qed.

(** The hypotheses are met by a concrete case. *)
Example gradient_trace_ex : exists T d, (0 < gndim p34g)%nat /\ periodic_vec p34g p34v /\ face_aligned (cell_center p34g) p34v /\ gradient_tensor p34v = Ok T /\ divergence p34v = Ok d.
Proof. exact (@gradient_trace_ex_lem). Qed.

(** The hypotheses are met by a concrete case. *)
Example gradient_antisymmetric_part_ex : exists T c, gndim p34g = 2%nat /\ periodic_vec p34g p34v /\ face_aligned (cell_center p34g) p34v /\ gradient_tensor p34v = Ok T /\ curl_2d p34v = Ok c.
Proof. exact (@gradient_antisymmetric_part_ex_lem). Qed.

(** The hypotheses are met by a concrete case. *)
Example gradient_tensor_offsets_ex : periodic_field corner_u /\ periodic_field (mkgv (mkga (gdata (garray corner_u)) [1 # 4; 1]%Q p34g) (periodic_bc 2)) /\
  ~ (nth 0 [1 # 4; 1] 0 == 0 \/ nth 0 [1 # 4; 1] 0 == 1 # 2 \/ nth 0 [1 # 4; 1] 0 == 1)%Q.
Proof. exact (@gradient_tensor_offsets_ex_lem). Qed.
