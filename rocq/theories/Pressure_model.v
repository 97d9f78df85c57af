(** * Model of jax_cfd/base/pressure.py *)
From Verif Require Import Prelude NdArr Grids_model Boundaries_model FD_model.
Set Implicit Arguments.

(** pressure.py:175-195 [projection]; [solve] receives [(v, q0, pressure_bc)]. *)
Definition projection (solve : list gvar -> gvar -> bcs -> result garr) (v : list gvar) : result (list gvar) :=
  let* g := consistent_grid (map garray v) in
  let* pbc := pressure_bc_from_velocity v in
  let* q0 := impose_bc pbc (mkga (afull (gshape g) 0%R) (cell_center g) g) in
  let* q := solve v q0 pbc in
  let* q := impose_bc pbc q in
  let* qg := forward_gradient q in
  mapM (fun uq => let* d := ga_sub (garray (fst uq)) (snd uq) in impose_bc (gbc (fst uq)) d)
       (combine v qg).
