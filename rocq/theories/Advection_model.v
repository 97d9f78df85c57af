(** * Model of jax_cfd/base/advection.py *)
From Verif Require Import Prelude NdArr Grids_model Boundaries_model FD_model Interp_model.
Set Implicit Arguments.

(** advection.py:34-78 [_advect_aligned] *)
Definition advect_aligned (cs v : list gvar) : result garr :=
  if negb (length cs =? length v)%nat then Err EValue
  else
    let* flux := mapM (fun cu => ga_mul (garray (fst cu)) (garray (snd cu))) (combine cs v) in
    let* fbcs := mapM (fun icu => advection_flux_bc (snd (snd icu)) (fst (snd icu)) (fst icu))
                      (enumerate (combine cs v)) in
    let* flux := mapM (fun fb => impose_bc (snd fb) (fst fb)) (combine flux fbcs) in
    let* d := divergence flux in
    ga_neg d.

(** advection.py:81-116 [advect_general] *)
Definition advect_general (c : gvar) (v : list gvar) (ui ci : interp_fn) (dt : R) : result garr :=
  if negb (has_all_periodic [c]) then Err ENotImpl
  else
    let target_offsets := cv_offsets (goff (garray c)) in
    let* aligned_v := mapM (fun ut => ui (fst ut) (snd ut) v dt) (combine v target_offsets) in
    let* aligned_c := mapM (fun t => ci c t aligned_v dt) target_offsets in
    advect_aligned aligned_c aligned_v.

(** advection.py:119-130 [advect_linear], [advect_upwind] *)
Definition advect_linear (c : gvar) (v : list gvar) (dt : R) : result garr :=
  advect_general c v linear_fn linear_fn dt.
Definition advect_upwind (c : gvar) (v : list gvar) (dt : R) : result garr :=
  advect_general c v linear_fn upwind_fn dt.

(** advection.py:133-150 [_align_velocities]. [v[i]] and [offsets[i][j]] raise IndexError out of range. *)
Definition getM {A} (l : list A) (i : nat) : result A :=
  match nth_error l i with Some x => Ok x | None => Err EIndex end.
Definition align_velocities (v : list gvar) : result (list (list gvar)) :=
  let* g := consistent_grid (map garray v) in
  let offsets := map (fun u => cv_offsets (goff (garray u))) v in
  mapM (fun i => mapM (fun j => let* vi := getM v i in
                                let* oi := getM offsets i in
                                let* oij := getM oi j in
                                linear_interp vi oij) (seq 0 (gndim g))) (seq 0 (gndim g)).

(** advection.py:153-181 [_velocities_to_flux]; [flux] is the list of rows built so far. *)
Definition flux_entry (al : list (list gvar)) (flux : list (list gvar)) (i j : nat) : result gvar :=
  if (i <=? j)%nat then
    let* ri := getM al i in let* aij := getM ri j in
    let* rj := getM al j in let* aji := getM rj i in
    let* b := advection_flux_bc aji aij j in
    let* p := ga_mul (garray aij) (garray aji) in
    impose_bc b p
  else let* rj := getM flux j in getM rj i.
Definition velocities_to_flux (al : list (list gvar)) : result (list (list gvar)) :=
  foldM (fun flux i => let* row := mapM (flux_entry al flux i) (seq 0 (length al)) in
                       Ok (flux ++ [row]))
        [] (seq 0 (length al)).

(** advection.py:184-207 [convect_linear] *)
Definition convect_linear (v : list gvar) : result (list garr) :=
  let* al := align_velocities v in
  let* fluxes := velocities_to_flux al in
  mapM (fun f => let* d := divergence f in ga_neg d) fluxes.

(** advection.py:387-395 [advect_van_leer_using_limiters] *)
Definition advect_van_leer_using_limiters (c : gvar) (v : list gvar) (dt : R) : result garr :=
  advect_general c v linear_fn (apply_tvd_limiter lax_wendroff van_leer_limiter) dt.

(** advection.py:398-417 [stable_time_step]; [min(())] raises ValueError. *)
Definition advection_stable_time_step (max_velocity max_courant : R) (g : grid) : result R :=
  match gstep g with
  | [] => Err EValue
  | h :: l => let dx := fold_left Rmin l h in
              if Req_EM_T max_velocity 0 then Err EZeroDiv else Ok (max_courant * dx / max_velocity)%R
  end.

(** [jax.scipy.ndimage.map_coordinates(a, coordinates, order=1, mode='wrap')]: sum over the 2^d corners
    of the product of the weights times the entry at the corner's index modulo the size, written here as
    nested sums, axis by axis. *)
Fixpoint mlin (s : list nat) (xs : list R) (f : list Z -> R) : R :=
  match s, xs with
  | n :: s', x :: xs' =>
      let k := Int_part x in let w := (x - IZR k)%R in
      ((1 - w) * mlin s' xs' (fun ix => f (Z.modulo k (Z.of_nat n) :: ix)) +
       w * mlin s' xs' (fun ix => f (Z.modulo (k + 1) (Z.of_nat n) :: ix)))%R
  | _, _ => f []
  end.
Definition map_coordinates_wrap (a : arr R) (coords : list (arr R)) : result (arr R) :=
  match coords with
  | [] => Err EValue
  | c0 :: _ => if negb (length coords =? length (shp a))%nat then Err EValue
               else Ok (mkarr (shp c0) (fun ix => mlin (shp a) (map (fun c => get c ix) coords) (get a)))
  end.

(** advection.py:345-382 [advect_step_semilagrangian] *)
Definition advect_step_semilagrangian (c : gvar) (v : list gvar) (dt : R) : result gvar :=
  let* g := consistent_grid (garray c :: map garray v) in
  if negb (forallb (fun d => if Req_EM_T (fst d) 0 then true else false) (gdomain g)) then Err EValue
  else
    let* mesh := grid_mesh g (Some (goff (garray c))) in
    let* coords := mapM (fun xu => let* ui := linear_interp (snd xu) (goff (garray c)) in
                                   raw2 Rminus [fst xu; amap (Rmult dt) (gdata (garray ui))])
                        (combine mesh v) in
    let indices := map (fun sox => amap (fun x => x / fst (fst sox) - Q2R (snd (fst sox)))%R (snd sox))
                       (combine (combine (gstep g) (goff (garray c))) coords) in
    if negb (has_all_periodic [c]) then Err ENotImpl
    else let* d := applied (fun l => match l with a :: _ => map_coordinates_wrap a indices | _ => Err EType end)
                           [OGA (garray c)] in
         mk_gvar d (gbc c).

(** advection.py:210-342 [advect_van_leer]. *)
Definition rsign (x : R) : R := if Rlt_dec 0 x then 1%R else if Rlt_dec x 0 then (-1)%R else 0%R.
Definition ga_op1 (f : R -> R) (a : garr) : result garr := array_ufunc (raw1 f) [OGA a].
Definition ga_where_pos (u : garr) (a b : operand) : result garr :=
  applied (fun l => match l with [x; y; z] => where_pos x y z | _ => Err EType end) [OGA u; a; b].
(** [int(o % 1 - o)] *)
Definition wrap_shift (o : Q) : Z := py_int (mod1 o - o).

Definition van_leer_correction (c : gvar) (dt : R) (mode : padmode) (axis : nat) (u : gvar) (h : R)
  (fbc : bcs) (target : Q) : result garr :=
  let a := garray c in
  let nd := gndim (ggrid a) in
  let* us := bc_shift (gbc u) (garray u) (wrap_shift (nth axis (goff (garray u)) 0%Q)) axis EXTEND in
  (* 291: [ax] is the variable of the first loop, left at ndim - 1 *)
  let* cca := gv_shift c (py_int (1 - nth (nd - 1) (goff a) 0)%Q) (nd - 1) in
  let* cr := bc_shift (gbc c) cca 1 axis mode in
  let* cl := bc_shift (gbc c) cca (-1) axis EXTEND in
  let* cll := bc_shift (gbc c) cca (-2) axis mode in
  let* np := raw2 Rminus [gdata cl; gdata cll] in
  let* nn := raw2 Rminus [gdata cr; gdata cca] in
  let* num := ga_where_pos us (OArray np) (OArray nn) in
  let* dd := raw2 Rminus [gdata cca; gdata cl] in
  let den := mkga dd (goff us) (ggrid us) in
  let* sum := ga_op2 (fun d n => Rabs d + Rabs n)%R den num in
  let* safe := ga_op2 (fun d s => if Rlt_dec 0 (Rabs d) then s else 1%R) den sum in
  let* inv := ga_op2 Rdiv den safe in
  let* sg := ga_op2 (fun d n => rsign d + rsign n)%R den num in
  let* phi0 := ga_mul num sg in
  let* phi := ga_mul phi0 inv in
  let* pre := ga_op1 (fun x => / 2 * (1 - dt / h * Rabs x) * Rabs x)%R us in
  let* corr := ga_mul pre phi in
  bc_shift fbc corr (py_int (target - nth axis (goff us) 0)%Q) axis EXTEND.

Definition advect_van_leer (c : gvar) (v : list gvar) (dt : R) (mode : padmode) : result garr :=
  let a := garray c in
  let nd := gndim (ggrid a) in
  if (nd =? 0)%nat then Err EUnbound else
  let* c_left := foldM (fun acc ax => let* s := gv_shift acc (wrap_shift (nth ax (goff a) 0%Q)) ax in
                                      impose_bc (gbc c) s) c (seq 0 nd) in
  let offsets := cv_offsets (goff (garray c_left)) in
  let* aligned_v := mapM (fun uo => linear_interp (fst uo) (snd uo)) (combine v offsets) in
  let* fbcs := mapM (fun iu => advection_flux_bc (snd iu) c (fst iu)) (enumerate v) in
  let* flux := mapM (fun iu => let '(axis, u) := iu in
      let* cr := gv_shift c_left 1 axis in
      let* f1 := array_ufunc (raw2 Rmult) [OGA (garray u); OArray (gdata (garray c_left))] in
      let* f2 := array_ufunc (raw2 Rmult) [OGA (garray u); OArray (gdata cr)] in
      ga_where_pos (garray u) (OGA f1) (OGA f2)) (enumerate aligned_v) in
  let* flux := mapM (fun iuhf => let '(axis, ((u, h), f)) := iuhf in
      let* fbc := getM fbcs axis in
      let* off := getM offsets axis in
      let* corr := van_leer_correction c dt mode axis u h fbc (nth axis off 0%Q) in
      ga_add f corr)
    (enumerate (combine (combine aligned_v (gstep (ggrid a))) flux)) in
  let* flux := mapM (fun af => let* b := getM fbcs (fst af) in impose_bc b (snd af)) (enumerate flux) in
  let* d := divergence flux in
  let* adv := ga_neg d in
  foldM (fun acc ax => bc_shift (gbc c) acc (- wrap_shift (nth ax (goff a) 0%Q))%Z ax EXTEND) adv (seq 0 nd).
