(** * Model of jax_cfd/base/equations.py (with the Runge-Kutta steppers of base/time_stepping.py on velocities) *)
From Verif Require Import Prelude NdArr Grids_model Boundaries_model FD_model Pressure_model Interp_model Advection_model
  LinAlg Cplx FastDiag_model Laplacian_model Diffusion_model TimeStep_model.
Set Implicit Arguments.

(** ** Fields as pytrees.  grids.py:65-74: the only leaf of a GridArray is its data; offset and grid are part of the
    tree structure, and mapping over trees of different structure raises ValueError. *)
Definition same_tree (a b : garr) : bool := off_eqb (goff a) (goff b) && grid_eqb (ggrid a) (ggrid b).
Fixpoint same_trees (l l' : list garr) : bool :=
  match l, l' with
  | [], [] => true
  | a :: l, b :: l' => same_tree a b && same_trees l l'
  | _, _ => false
  end.

(** equations.py:41-42 [sum_fields]: Python's [sum] of the leaves at the same place. *)
Definition sum_fields (args : list (list garr)) : result (list garr) :=
  match args with
  | [] => Err EType
  | t :: rest =>
      if forallb (same_trees t) rest then
        mapM (fun ia => let '(i, a) := ia in
                let* d := raw_sum (gdata a :: map (fun r => gdata (nth i r a)) rest) in
                Ok (mkga d (goff a) (ggrid a))) (enumerate t)
      else Err EValue
  end.

(** tree_math: sum of two vectors with the same structure; a vector divided by a scalar. *)
Definition tree_add2 (a b : garr) : result garr :=
  let* d := raw2 Rplus [gdata a; gdata b] in Ok (mkga d (goff a) (ggrid a)).
Definition tree_add (l l' : list garr) : result (list garr) :=
  if same_trees l l' then mapM (fun ab => tree_add2 (fst ab) (snd ab)) (combine l l') else Err EValue.
Definition tree_div (l : list garr) (c : R) : list garr :=
  map (fun a => mkga (amap (fun x => x / c)%R (gdata a)) (goff a) (ggrid a)) l.

(** equations.py:45-59 [stable_time_step]; [diffusion_dt < dt] is false when diffusion_dt is infinite. *)
Definition ns_stable_time_step (max_velocity max_courant_number viscosity : R) (g : grid) (implicit_diffusion : bool) : result R :=
  let* dt := advection_stable_time_step max_velocity max_courant_number g in
  if implicit_diffusion then Ok dt
  else let* diffusion_dt := stable_time_step viscosity g in
       match diffusion_dt with
       | Some d => if Rlt_dec d dt then Err EValue else Ok dt
       | None => Ok dt
       end.

(** All the indices of an array of shape [s]; [jnp.max] of a list of entries. *)
Fixpoint all_indices (s : list nat) : list (list Z) :=
  match s with
  | [] => [[]]
  | n :: s' => flat_map (fun i => map (cons (Z.of_nat i)) (all_indices s')) (seq 0 n)
  end.
Definition list_max (l : list R) : result R :=
  match l with [] => Err EValue | x :: l' => Ok (fold_left Rmax l' x) end.
(** equations.py:62-70 [dynamic_time_step].  Dividing by a zero [v_max] gives inf in jnp, not modelled: [EZeroDiv]. *)
Definition dynamic_time_step (v : list gvar) (max_courant_number viscosity : R) (g : grid) (implicit_diffusion : bool) : result R :=
  let* s := raw_sum (map (fun u => amap (fun x => x ^ 2)%R (gdata (garray u))) v) in
  let* m := list_max (map (get s) (all_indices (shp s))) in
  ns_stable_time_step (sqrt m) max_courant_number viscosity g implicit_diffusion.

(** equations.py:89-92 and 166-169: the default [convect]. *)
Definition default_convect (dt : R) (v : list gvar) : result (list garr) :=
  mapM (fun u => advect_van_leer_using_limiters u v dt) v.

(** Python [a / b] on floats. *)
Definition py_div (a b : R) : result R := if Req_EM_T b 0 then Err EZeroDiv else Ok (a / b)%R.

(** equations.py:77-116 [navier_stokes_explicit_terms]: the returned function; [convect] is the one given or
    [default_convect dt]. *)
Definition navier_stokes_explicit_terms (density : R) (viscosity : option R)
  (convect : list gvar -> result (list garr)) (diffuse : gvar -> R -> result garr)
  (forcing : option (list gvar -> result (list garr))) (v : list gvar) : result (list gvar) :=
  let* dv_dt := convect v in
  let* dv_dt := match viscosity with
                | None => Ok dv_dt
                | Some nu => let* c := py_div nu density in
                             let* d := mapM (fun u => diffuse u c) v in tree_add dv_dt d
                end in
  let* dv_dt := match forcing with
                | None => Ok dv_dt
                | Some f => let* fv := f v in tree_add dv_dt (tree_div fv density)
                end in
  mapM (fun au => mk_gvar (fst au) (gbc (snd au))) (combine dv_dt v).

(** ** Velocities as tree_math vectors (grids.py:265-290: the boundary conditions are part of the structure). *)
Definition bcs_eq_dec : forall a b : bcs, {a = b} + {a <> b}.
Proof.
  assert (T : forall a b : bctype, {a = b} + {a <> b}) by decide equality.
  assert (T2 : forall a b : bctype * bctype, {a = b} + {a <> b}) by (decide equality).
  assert (O : forall a b : option R, {a = b} + {a <> b}) by (decide equality; apply Req_EM_T).
  assert (O2 : forall a b : option R * option R, {a = b} + {a <> b}) by (decide equality).
  intros [t1 v1 h1] [t2 v2 h2].
  destruct (list_eq_dec T2 t1 t2) as [->|]; [|right; congruence].
  destruct (list_eq_dec O2 v1 v2) as [->|]; [|right; congruence].
  destruct (Bool.bool_dec h1 h2) as [->|]; [left; reflexivity | right; congruence].
Defined.
Definition same_var (a b : gvar) : bool :=
  same_tree (garray a) (garray b) && (if bcs_eq_dec (gbc a) (gbc b) then true else false).
Fixpoint same_vars (l l' : list gvar) : bool :=
  match l, l' with
  | [], [] => true
  | a :: l, b :: l' => same_var a b && same_vars l l'
  | _, _ => false
  end.
Definition vel_add (l l' : list gvar) : result (list gvar) :=
  if same_vars l l'
  then mapM (fun ab => let* s := tree_add2 (garray (fst ab)) (garray (snd ab)) in Ok (mkgv s (gbc (fst ab)))) (combine l l')
  else Err EValue.
Definition vel_scal (c : R) (l : list gvar) : list gvar :=
  map (fun u => mkgv (mkga (amap (Rmult c) (gdata (garray u))) (goff (garray u)) (ggrid (garray u))) (gbc u)) l.

(** [sum(row\[j\] * k\[j\] for j in range(n) if row\[j\])]; [None] is the int 0 the sum starts from. *)
Definition vel_wsum (row : list R) (ks : list (list gvar)) (n : nat) : result (option (list gvar)) :=
  foldM (fun acc j =>
    match nth_error row j with
    | None => Err EIndex
    | Some c => if nz c then
                  match nth_error ks j with
                  | None => Err EUnbound
                  | Some k => match acc with
                              | None => Ok (Some (vel_scal c k))
                              | Some a => let* s := vel_add a (vel_scal c k) in Ok (Some s)
                              end
                  end
                else Ok acc
    end) None (seq 0 n).
(** [u0 + dt * sum(...)] *)
Definition vel_update (u0 : list gvar) (dt : R) (s : option (list gvar)) : result (list gvar) :=
  match s with None => Ok u0 | Some s => vel_add u0 (vel_scal dt s) end.

(** time_stepping.py:59-106 [navier_stokes_rk] on velocities; [ks] is the list of the stages computed so far.
    An empty [b] fails at [u\[0\] = u0]. *)
Definition vel_rk (t : tableau) (F P : list gvar -> result (list gvar)) (dt : R) (u0 : list gvar) : result (list gvar) :=
  let num_steps := length (tb t) in
  match num_steps with
  | O => Err EIndex
  | S _ =>
      let* k0 := F u0 in
      let* ks := foldM (fun ks i =>
                   match nth_error (ta t) (i - 1) with
                   | None => Err EIndex
                   | Some row => let* s := vel_wsum row ks i in
                                 let* u_star := vel_update u0 dt s in
                                 let* ui := P u_star in
                                 let* ki := F ui in
                                 Ok (ks ++ [ki])
                   end) [k0] (seq 1 (num_steps - 1)) in
      let* s := vel_wsum (tb t) ks num_steps in
      let* u_star := vel_update u0 dt s in
      P u_star
  end.

(** equations.py:120-151 [semi_implicit_navier_stokes] with any of the Runge-Kutta steppers of
    time_stepping.py:109-158 (each is [navier_stokes_rk] with a tableau; forward_euler is the default). *)
Definition semi_implicit_navier_stokes (t : tableau) (density : R) (viscosity : option R) (dt : R)
  (convect : list gvar -> result (list garr)) (diffuse : gvar -> R -> result garr)
  (pressure_solve : list gvar -> gvar -> bcs -> result garr)
  (forcing : option (list gvar -> result (list garr))) : list gvar -> result (list gvar) :=
  vel_rk t (navier_stokes_explicit_terms density viscosity convect diffuse forcing) (projection pressure_solve) dt.

(** equations.py:154-195 [implicit_diffusion_navier_stokes].  Note 193: [viscosity] is not divided by [density]. *)
Definition implicit_diffusion_navier_stokes (density viscosity dt : R)
  (convect : list gvar -> result (list garr))
  (diffusion_solve : list gvar -> R -> R -> result (list gvar))
  (pressure_solve : list gvar -> gvar -> bcs -> result garr)
  (forcing : option (list gvar -> result (list garr))) (v : list gvar) : result (list gvar) :=
  let* convection := convect v in
  let* accelerations := match forcing with
                        | None => Ok [convection]
                        | Some f => let* fv := f v in
                                    let* fd := mapM (fun a => ga_div_scalar a density) fv in
                                    Ok [convection; fd]
                        end in
  let* dvdt := sum_fields accelerations in
  let* v := mapM (fun ud => let* t := array_ufunc (raw2 Rmult) [OGA (snd ud); OScalar dt] in
                            let* s := ga_add (garray (fst ud)) t in
                            mk_gvar s (gbc (fst ud))) (combine v dvdt) in
  let* v := projection pressure_solve v in
  diffusion_solve v viscosity dt.
