(** Generated by tools/gen.py from GridProps.v: property theorems only. *)
From Coq Require Import Qreals.
From Verif Require Import Prelude NdArr Grids_model Spec PRep FDProofs.
From Verif Require Import GridProps.
Set Implicit Arguments.

(** C01. Every Grid the constructor returns has the requested shape, one step and one domain pair per axis, and satisfies upper - lower = step * shape on every axis, whatever the form of the arguments. *)
Theorem grid_identity : forall shape step domain g,
  grid_init shape step domain = Ok g ->
  gshape g = shape /\ length (gstep g) = length shape /\ length (gdomain g) = length shape /\
  forall i, (i < length shape)%nat ->
    (snd (nth i (gdomain g) (0, 0)) - fst (nth i (gdomain g) (0, 0)) = nth i (gstep g) 0 * INR (nth i shape 0%nat))%R.
Proof. exact (@grid_identity_lem). Qed.
Print Assumptions grid_identity.

(** The hypotheses are met by a concrete case. *)
Example grid_identity_ex : exists g, grid_init [3%nat; 4%nat] StepNone (DomSeq [[1%R; 7%R]; [0%R; 1%R]]) = Ok g /\
  gstep g = [2%R; (/ 4)%R].
Proof. exact (@grid_identity_ex_lem). Qed.

(** C01. The constructor succeeds exactly on meaningful arguments (never with both step and domain, never with a length mismatch); otherwise it raises. *)
Theorem grid_init_iff : forall shape step domain,
  is_ok (grid_init shape step domain) <-> valid_grid_args shape step domain.
Proof. exact (@grid_init_iff_lem). Qed.
Print Assumptions grid_init_iff.

(** The hypotheses are met by a concrete case. *)
Example grid_init_iff_ex : valid_grid_args [3%nat; 5%nat] (StepSeq [2%R; 3%R]) DomNone /\
  ~ valid_grid_args [3%nat] (StepScalar 1%R) (DomScalar 1%R) /\ ~ valid_grid_args [3%nat; 5%nat] (StepSeq [2%R]) DomNone.
Proof. exact (@grid_init_iff_ex_lem). Qed.

(** C01. A requested step (default 1, scalar, or per axis) is the step obtained, with lower bound 0; a requested domain is the domain obtained. *)
Theorem grid_requested : forall shape step domain g,
  grid_init shape step domain = Ok g ->
  (domain = DomNone -> gstep g = requested_step (length shape) step /\ Forall (fun b => fst b = 0%R) (gdomain g)) /\
  (forall x, domain = DomScalar x -> gdomain g = repeat (0%R, x) (length shape)) /\
  (forall l, domain = DomSeq l -> map (fun b => [fst b; snd b]) (gdomain g) = l).
Proof. exact (@grid_requested_lem). Qed.
Print Assumptions grid_requested.

(** The hypotheses are met by a concrete case. *)
Example grid_requested_ex : exists g, grid_init [3%nat; 4%nat] (StepScalar 2%R) DomNone = Ok g /\ gdomain g = [(0%R, (2 * INR 3)%R); (0%R, (2 * INR 4)%R)].
Proof. exact (@grid_requested_ex_lem). Qed.

(** C02. mesh(offset) has one array of the grid's shape per axis, and entry ix of array a is lower_a + (ix_a + offset_a) * step_a; a wrong offset length raises. *)
Theorem mesh_points : forall g o, wfg g ->
  (length o = gndim g ->
   exists m, grid_mesh g (Some o) = Ok m /\ length m = gndim g /\
     forall a, (a < gndim g)%nat ->
       shp (nth a m (afull [] 0%R)) = gshape g /\ forall ix, get (nth a m (afull [] 0%R)) ix = coord g o a ix) /\
  (length o <> gndim g -> grid_mesh g (Some o) = Err EValue).
Proof. exact (@mesh_points_lem). Qed.
Print Assumptions mesh_points.

(** The hypotheses are met by a concrete case. *)
Example mesh_points_ex : wfg (mkgrid [3%nat; 4%nat] [2%R; 1%R] [(1%R, 7%R); (0%R, 4%R)]) /\
  coord (mkgrid [3%nat; 4%nat] [2%R; 1%R] [(1%R, 7%R); (0%R, 4%R)]) [(1 # 2)%Q; 0%Q] 0 [2%Z; 1%Z] = 6%R.
Proof. exact (@mesh_points_ex_lem). Qed.

(** C02. eval_on_mesh(fn, offset) holds fn of the coordinates at every point, at that offset and grid. *)
Theorem eval_on_mesh_spec : forall g o (f : list R -> R), wfg g -> length o = gndim g ->
  exists w, eval_on_mesh g (fun m => Ok (mkarr (gshape g) (fun ix => f (map (fun x => get x ix) m)))) (Some o) = Ok w /\
    is_field w g o (fun ix => f (map (fun a => coord g o a ix) (seq 0 (gndim g)))).
Proof. exact (@eval_on_mesh_spec_lem). Qed.
Print Assumptions eval_on_mesh_spec.

(** The hypotheses are met by a concrete case. *)
Example eval_on_mesh_spec_ex : exists w, eval_on_mesh (mkgrid [2%nat] [1%R] [(0%R, 2%R)])
   (fun m => Ok (mkarr [2%nat] (fun ix => lsum (map (fun x => get x ix) m)))) None = Ok w /\ get (gdata w) [1%Z] = (3 / 2)%R.
Proof. exact (@eval_on_mesh_spec_ex_lem). Qed.

(** C02. On a grid the constructor returns with positive steps, offsets in [0,1] put every point inside the closed domain. *)
Theorem mesh_inside : forall shape step domain g o a ix,
  grid_init shape step domain = Ok g -> (a < length shape)%nat -> inb shape ix ->
  (0 < nth a (gstep g) 0)%R -> (0 <= nth a o 0)%Q -> (nth a o 0 <= 1)%Q ->
  (fst (nth a (gdomain g) (0, 0)) <= coord g o a ix <= snd (nth a (gdomain g) (0, 0)))%R.
Proof. exact (@mesh_inside_lem). Qed.
Print Assumptions mesh_inside.

(** The hypotheses are met by a concrete case. *)
Example mesh_inside_ex : exists g, grid_init [2%nat] StepNone (DomSeq [[1%R; 5%R]]) = Ok g /\ (0 < nth 0 (gstep g) 0)%R /\ inb [2%nat] [1%Z].
Proof. exact (@mesh_inside_ex_lem). Qed.

(** C03. An arithmetic operation on GridArrays (ufunc) returns a result exactly when the raw operation is defined, no operand is a GridVariable, and all GridArray operands (at least one) have one common offset and grid; the result carries that offset, that grid and the raw data. *)
Theorem ufunc_sound : forall func inputs w,
  array_ufunc func inputs = Ok w ->
  operands_agree inputs (goff w) (ggrid w) /\ func (map raw inputs) = Ok (gdata w).
Proof. exact (@ufunc_sound_lem). Qed.
Print Assumptions ufunc_sound.

(** The hypotheses are met by a concrete case. *)
Example ufunc_sound_ex : exists w, ga_add (mkga (afull [2%nat] 1%R) [0%Q] (mkgrid [2%nat] [1%R] [(0%R, 2%R)]))
   (mkga (afull [2%nat] 2%R) [0%Q] (mkgrid [2%nat] [1%R] [(0%R, 2%R)])) = Ok w.
Proof. exact (@ufunc_sound_ex_lem). Qed.

(** C03. Converse: when the operands agree and the raw operation is defined the operation returns. *)
Theorem ufunc_complete : forall func inputs o g d,
  operands_agree inputs o g -> func (map raw inputs) = Ok d ->
  exists w, array_ufunc func inputs = Ok w /\ gdata w = d /\ off_eq (goff w) o /\ ggrid w = g.
Proof. exact (@ufunc_complete_lem). Qed.
Print Assumptions ufunc_complete.

(** The hypotheses are met by a concrete case. *)
Example ufunc_complete_ex : operands_agree [OScalar 2%R; OGA (mkga (afull [2%nat] 1%R) [0%Q] (mkgrid [2%nat] [1%R] [(0%R, 2%R)]))]
   [0%Q] (mkgrid [2%nat] [1%R] [(0%R, 2%R)]).
Proof. exact (@ufunc_complete_ex_lem). Qed.

(** C03. Two GridArray operands with different offsets make the operation raise InconsistentOffsetError; with equal offsets but different grids it raises InconsistentGridError. *)
Theorem ufunc_mismatch : forall func inputs d u v,
  (forall x, ~ In (OGV x) inputs) -> func (map raw inputs) = Ok d ->
  In (OGA u) inputs -> In (OGA v) inputs ->
  (~ off_eq (goff u) (goff v) -> array_ufunc func inputs = Err EOffset) /\
  (ggrid u <> ggrid v -> (forall x, In (OGA x) inputs -> off_eq (goff x) (goff u)) -> array_ufunc func inputs = Err EGrid).
Proof. exact (@ufunc_mismatch_lem). Qed.
Print Assumptions ufunc_mismatch.

(** The hypotheses are met by a concrete case. *)
Example ufunc_mismatch_ex : ~ off_eq [0%Q; (1 # 2)%Q] [0%Q; 1%Q].
Proof. exact (@ufunc_mismatch_ex_lem). Qed.

(** C03. grids.applied has the same contract and raises on any GridVariable argument. *)
Theorem applied_spec : forall func inputs,
  ((exists x, In (OGV x) inputs) -> applied func inputs = Err EValue) /\
  (forall w, applied func inputs = Ok w -> operands_agree inputs (goff w) (ggrid w) /\ func (map raw inputs) = Ok (gdata w)) /\
  (forall o g d, operands_agree inputs o g -> func (map raw inputs) = Ok d ->
     exists w, applied func inputs = Ok w /\ gdata w = d /\ off_eq (goff w) o /\ ggrid w = g).
Proof. exact (@applied_spec_lem). Qed.
Print Assumptions applied_spec.

(** The hypotheses are met by a concrete case. *)
Example applied_spec_ex : applied (raw2 Rplus) [OGV dgv; OScalar 1%R] = Err EValue.
Proof. exact (@applied_spec_ex_lem). Qed.

(** C04. control_volume_offsets(c)[j] is c.offset moved by 1/2 along axis j only. *)
Theorem cv_offsets_spec : forall o j, (j < length o)%nat ->
  length (cv_offsets o) = length o /\ nth j (cv_offsets o) [] = offs j (1 # 2) o.
Proof. exact (@cv_offsets_spec_lem). Qed.
Print Assumptions cv_offsets_spec.

(** The hypotheses are met by a concrete case. *)
Example cv_offsets_spec_ex : cv_offsets [(1 # 2)%Q; 1%Q] = [[((1 # 2) + (1 # 2))%Q; 1%Q]; [(1 # 2)%Q; (1 + (1 # 2))%Q]].
Proof. exact (@cv_offsets_spec_ex_lem). Qed.

(** C04. The j-th cell face is the cell centre moved by 1/2 along axis j, so it equals the j-th control-volume face of a cell-centred variable. *)
Theorem cell_faces_spec : forall g j, (j < gndim g)%nat ->
  length (cell_faces g) = gndim g /\
  off_eq (nth j (cell_faces g) []) (offs j (1 # 2) (cell_center g)) /\
  off_eq (nth j (cell_faces g) []) (nth j (cv_offsets (cell_center g)) []).
Proof. exact (@cell_faces_spec_lem). Qed.
Print Assumptions cell_faces_spec.

(** The hypotheses are met by a concrete case. *)
Example cell_faces_spec_ex : off_eq (nth 1 (cell_faces (mkgrid [2%nat; 3%nat] [1%R; 1%R] [])) []) [(1 # 2)%Q; 1%Q].
Proof. exact (@cell_faces_spec_ex_lem). Qed.

(** C04. averaged_offset of arrays that share an offset is that offset (any positive number of arrays). *)
Theorem averaged_offset_spec : forall l o, l <> [] -> (forall u, In u l -> off_eq (goff u) o) -> off_eq (averaged_offset l) o.
Proof. exact (@averaged_offset_spec_lem). Qed.
Print Assumptions averaged_offset_spec.

(** The hypotheses are met by a concrete case. *)
Example averaged_offset_spec_ex : off_eq (averaged_offset [mkga (afull [] 0%R) [(1 # 2)%Q; 1%Q] (mkgrid [] [] []); mkga (afull [] 0%R) [(1 # 2)%Q; 0%Q] (mkgrid [] [] [])]) [(1 # 2)%Q; (1 # 2)%Q].
Proof. exact (@averaged_offset_spec_ex_lem). Qed.

(** C04. A GridVariable is built exactly when the boundary conditions have one entry per grid axis; otherwise ValueError. *)
Theorem gridvariable_ndim : forall u b,
  (length (btypes b) = gndim (ggrid u) -> mk_gvar u b = Ok (mkgv u b)) /\
  (length (btypes b) <> gndim (ggrid u) -> mk_gvar u b = Err EValue).
Proof. exact (@gridvariable_ndim_lem). Qed.
Print Assumptions gridvariable_ndim.

(** The hypotheses are met by a concrete case. *)
Example gridvariable_ndim_ex : is_ok (mk_gvar (mkga (afull [2%nat] 0%R) [0%Q] (mkgrid [2%nat] [1%R] [(0%R, 2%R)])) (mkbc [(Periodic, Periodic)] [(None, None)] true)).
Proof. exact (@gridvariable_ndim_ex_lem). Qed.
