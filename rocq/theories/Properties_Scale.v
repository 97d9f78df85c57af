(** Generated by tools/gen.py from ScaleProps.v: property theorems only. *)
From Verif Require Import Prelude NdArr Grids_model GridProps Spec Boundaries_model BoundariesPeriodic WallBC PRep PeriodicBCProps WallBCProps ImposeProps ArrayUtilsProps Towers_model Scale_model.
From Verif Require Import ScaleProps.
Local Open Scope Z_scope.
Set Implicit Arguments.

(** C93. fixed_scale_gridvar on any tuple of variables that on every axis are periodic, cell-centred, or edge-aligned between Dirichlet walls, for every factor: it succeeds with one variable per input, on the same grid, offset and boundary conditions; entries on no wall are multiplied by the factor; entries on a wall are not scaled but get the value of the wall (where walls of several axes meet, of the last such axis). *)
Theorem scale_keeps_walls : forall (s : R) (axes : list nat) (v : list gvar), (forall u, In u v -> regular_var u) ->
  exists w, fixed_scale_gridvar s v axes = Ok w /\
    Forall2 (fun u r => gbc r = gbc u /\ ggrid (garray r) = ggrid (garray u) /\ off_eq (goff (garray r)) (goff (garray u)) /\ shp (gdata (garray r)) = gshape (ggrid (garray u)) /\
      forall ix, inb (gshape (ggrid (garray u))) ix ->
        ((forall a, (a < gndim (ggrid (garray u)))%nat -> wall_value (gbc u) (garray u) a ix = None) -> get (gdata (garray r)) ix = (s * get (gdata (garray u)) ix)%R) /\
        (forall a x, (a < gndim (ggrid (garray u)))%nat -> wall_value (gbc u) (garray u) a ix = Some x ->
           (forall a', (a < a' < gndim (ggrid (garray u)))%nat -> wall_value (gbc u) (garray u) a' ix = None) -> get (gdata (garray r)) ix = x)) v w.
Proof. exact (@scale_keeps_walls_lem). Qed.
Print Assumptions scale_keeps_walls.

(** The hypotheses are met by a concrete case. *)
Example scale_keeps_walls_ex : (forall u, In u [wall_var] -> regular_var u) /\ wall_value (gbc wall_var) (garray wall_var) 1 (ix2 1 2) = Some 7%R /\
  exists r, fixed_scale_gridvar 2 [wall_var] [] = Ok [r] /\ get (gdata (garray r)) (ix2 1 2) = 7%R /\ get (gdata (garray r)) (ix2 1 1) = 22%R.
Proof. exact (@scale_keeps_walls_ex_lem). Qed.

(** C93. Scalings compose: scaling by s and then by t gives, entry by entry, the result of scaling by t * s at once, for all factors and every such tuple. *)
Theorem scalings_compose : forall (s t : R) (axes axes' : list nat) (v : list gvar), (forall u, In u v -> regular_var u) ->
  exists w w1 w2, fixed_scale_gridvar s v axes = Ok w /\ fixed_scale_gridvar t w axes' = Ok w1 /\ fixed_scale_gridvar (t * s) v axes = Ok w2 /\
    Forall2 (fun a b => gbc a = gbc b /\ same_field (garray a) (garray b)) w1 w2.
Proof. exact (@scalings_compose_lem). Qed.
Print Assumptions scalings_compose.

(** The hypotheses are met by a concrete case. *)
Example scalings_compose_ex : forall u, In u [wall_var; wall_var] -> regular_var u.
Proof. exact (@scalings_compose_ex_lem). Qed.

(** C93. Scaling is undone by scaling with the inverse factor: for every nonzero factor and every such tuple whose variables already satisfy their wall conditions (impose_bc leaves them as they are), scaling by s and then by 1/s returns the same fields. *)
Theorem scaling_is_undone : forall (s : R) (axes : list nat) (v : list gvar), s <> 0%R -> (forall u, In u v -> regular_var u) ->
  (forall u, In u v -> exists r, impose_bc (gbc u) (garray u) = Ok r /\ same_field (garray r) (garray u)) ->
  exists w w1, fixed_scale_gridvar s v axes = Ok w /\ fixed_scale_gridvar (/ s) w axes = Ok w1 /\ Forall2 (fun a b => gbc a = gbc b /\ same_field (garray a) (garray b)) w1 v.
Proof. exact (@scaling_is_undone_lem). Qed.
Print Assumptions scaling_is_undone.

(** The hypotheses are met by a concrete case. *)
Example scaling_is_undone_ex : exists u, regular_var u /\ wall_value (gbc u) (garray u) 1 (ix2 1 2) = Some 7%R /\ exists r, impose_bc (gbc u) (garray u) = Ok r /\ same_field (garray r) (garray u).
Proof. exact (@scaling_is_undone_ex_lem). Qed.

(** C93. fixed_scale on any array: it never fails, keeps the shape, sends the constant 1 to rescaled_one, respects sums and multiples of arrays, and scaling by s and then by t is scaling by s times t. *)
Theorem fixed_scale_linear : forall (s t a : R) (x x' : arr R) (axes axes' : list nat), exists y y' z,
  fixed_scale s x axes = Ok y /\ fixed_scale s x' axes = Ok y' /\ fixed_scale t y axes' = Ok z /\ shp y = shp x /\ shp z = shp x /\
  (forall ix, get x ix = 1%R -> get y ix = s) /\
  (forall ix, get z ix = (s * t * get x ix)%R) /\
  exists w, fixed_scale s (amap2 (fun p q => a * p + q)%R x x') axes = Ok w /\ shp w = shp x /\ forall ix, get w ix = (a * get y ix + get y' ix)%R.
Proof. exact (@fixed_scale_linear_lem). Qed.
Print Assumptions fixed_scale_linear.

(** The hypotheses are met by a concrete case. *)
Example fixed_scale_linear_ex : exists y, fixed_scale 5 (mkarr [2%nat] (fun ix => IZR (nth 0 ix 0 + 1))) [0%nat] = Ok y /\ shp y = [2%nat] /\ get y [0] = 5%R /\ get y [1] = 10%R.
Proof. exact (@fixed_scale_linear_ex_lem). Qed.
