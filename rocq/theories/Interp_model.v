(** * Model of jax_cfd/base/interpolation.py *)
From Verif Require Import Prelude NdArr Grids_model Boundaries_model.
Set Implicit Arguments.

(** Python [int(x)] of a float: truncation towards zero. *)
Definition py_int (q : Q) : Z := Z.quot (Qnum q) (Zpos (Qden q)).

(** interpolation.py:36-64 [_linear_along_axis] *)
Definition linear_along_axis (c : gvar) (offset : Q) (axis : nat) : result gvar :=
  let a := garray c in
  let delta := (offset - nth axis (goff a) 0)%Q in
  if Qeq_bool delta 0 then Ok c                                         (* 43-44 *)
  else
    let new_offset := upd axis offset (goff a) in
    if Qeq_bool (inject_Z (py_int delta)) delta then                     (* 50-55 *)
      let* s := gv_shift c (py_int delta) axis in
      mk_gvar (mkga (gdata s) new_offset (ggrid a)) (gbc c)
    else
      let fl := Qfloor delta in let ce := Qceiling delta in
      let floor_weight := (inject_Z ce - delta)%Q in
      let ceil_weight := (1 - floor_weight)%Q in
      let* s1 := gv_shift c fl axis in
      let* s2 := gv_shift c ce axis in
      let* data := raw2 Rplus [amap (Rmult (Q2R floor_weight)) (gdata s1);
                               amap (Rmult (Q2R ceil_weight)) (gdata s2)] in
      mk_gvar (mkga data new_offset (ggrid a)) (gbc c).

(** interpolation.py:67-93 [linear] *)
Definition linear_interp (c : gvar) (offset : list Q) : result gvar :=
  if negb (length offset =? length (goff (garray c)))%nat then Err EValue
  else foldM (fun acc ao => linear_along_axis acc (snd ao) (fst ao)) c
             (combine (seq 0 (length offset)) offset).

(** [jnp.where(u > 0, a, b)] on raw arrays of one shape (broadcasting not modelled). *)
Definition where_pos (u a b : arr R) : result (arr R) :=
  if shape_eqb (shp u) (shp a) && shape_eqb (shp u) (shp b)
  then Ok (mkarr (shp u) (fun ix => if Rlt_dec 0 (get u ix) then get a ix else get b ix))
  else Err EShape.

(** Lines 127-130, 196-199: the axes on which two offsets differ. *)
Definition differing_axes (o1 o2 : list Q) : list nat :=
  map fst (filter (fun p => negb (Qeq_bool (fst (snd p)) (snd (snd p))))
                  (combine (seq 0 (length o1)) (combine o1 o2))).

(** interpolation.py:96-155 [upwind] *)
Definition upwind (c : gvar) (offset : list Q) (v : list gvar) : result gvar :=
  let a := garray c in
  if off_eqb (goff a) offset then Ok c
  else match differing_axes (goff a) offset with
  | [axis] =>
      match nth_error v axis with
      | None => Err EIndex
      | Some u =>
          let delta := (nth axis (goff (garray u)) 0 - nth axis (goff a) 0)%Q in
          if Qeq_bool (inject_Z (py_int delta)) delta then                (* 140-145 *)
            let* s := gv_shift c (py_int delta) axis in
            let* g := consistent_grid [a; garray u] in
            mk_gvar (mkga (gdata s) offset g) (gbc c)
          else
            let* s1 := gv_shift c (Qfloor delta) axis in
            let* s2 := gv_shift c (Qceiling delta) axis in
            let* d := where_pos (gdata (garray u)) (gdata s1) (gdata s2) in
            let* g := consistent_grid [a; garray u] in
            mk_gvar (mkga d offset g) (periodic_bc (gndim g))
      end
  | _ => Err EOffset                                                      (* 131-134 *)
  end.

(** interpolation.py:158-221 [lax_wendroff] *)
Definition lax_wendroff (c : gvar) (offset : list Q) (v : list gvar) (dt : R) : result gvar :=
  let a := garray c in
  if off_eqb (goff a) offset then Ok c
  else match differing_axes (goff a) offset with
  | [axis] =>
      match nth_error v axis with
      | None => Err EIndex
      | Some u =>
          let delta := (nth axis (goff (garray u)) 0 - nth axis (goff a) 0)%Q in
          let* g := consistent_grid [a; garray u] in
          let courant := amap (Rmult (dt / nth axis (gstep g) 0)%R) (gdata (garray u)) in
          let* s1 := gv_shift c (Qfloor delta) axis in
          let* s2 := gv_shift c (Qceiling delta) axis in
          let* diff := raw2 Rminus [gdata s2; gdata s1] in
          let* pc := raw2 Rmult [amap (fun x => / 2 * (1 - x))%R courant; diff] in
          let* pos := raw2 Rplus [gdata s1; pc] in
          let* nc := raw2 Rmult [amap (fun x => / 2 * (1 + x))%R courant; diff] in
          let* neg := raw2 Rminus [gdata s2; nc] in
          let* d := where_pos (gdata (garray u)) pos neg in
          mk_gvar (mkga d offset g) (periodic_bc (gndim g))
      end
  | _ => Err EOffset
  end.

(** interpolation.py:224-226 [safe_div], on numbers *)
Definition safe_div (x y : R) : R := (x / (if Req_EM_T y 0 then 1 else y))%R.
(** interpolation.py:229-231 [van_leer_limiter], on numbers *)
Definition van_leer_limiter (r : R) : R := if Rlt_dec 0 r then safe_div (2 * r) (1 + r) else 0%R.

(** An interpolation method, interpolation.py:30-32. [dt] is always given. *)
Definition interp_fn := gvar -> list Q -> list gvar -> R -> result gvar.

(** interpolation.py:261-301: one iteration of the loop of [tvd_interpolation].
    [u.array > 0, phi, phi] at 295-296 goes through [applied], so u must have the offset of [c_low]
    and the grids must agree; the arithmetic at 297 is GridArray arithmetic. *)
Definition tvd_axis (high : interp_fn) (limiter : R -> R) (offset : list Q) (v : list gvar) (dt : R)
  (c : gvar) (axis : nat) : result gvar :=
  let a := garray c in
  let ioff := upd axis (nth axis offset 0%Q) (goff a) in
  if off_eqb ioff (goff a) then Ok c
  else if negb (Qeq_bool (nth axis ioff 0%Q - nth axis (goff a) 0%Q) (1 # 2)) then Err ENotImpl
  else
    let* c_low := upwind c offset v in
    let* c_high := high c offset v dt in
    let* c_left := gv_shift c (-1) axis in
    let* c_right := gv_shift c 1 axis in
    let* c_next := gv_shift c 2 axis in
    let* den := raw2 Rminus [gdata c_right; gdata a] in
    let* pn := raw2 Rminus [gdata a; gdata c_left] in
    let* nn := raw2 Rminus [gdata c_next; gdata c_right] in
    let* pr := raw2 safe_div [pn; den] in
    let* nr := raw2 safe_div [nn; den] in
    let pphi := mkga (amap limiter pr) (goff (garray c_low)) (ggrid a) in
    let nphi := mkga (amap limiter nr) (goff (garray c_low)) (ggrid a) in
    match nth_error v axis with
    | None => Err EIndex
    | Some u =>
        let* phi := applied (fun l => match l with [x; y; z] => where_pos x y z | _ => Err EType end)
                            [OGA (garray u); OGA pphi; OGA nphi] in
        let* d1 := ga_sub (garray c_low) (garray c_high) in
        let* d2 := ga_mul d1 phi in
        let* ci := ga_sub (garray c_low) d2 in
        mk_gvar (mkga (gdata ci) ioff (ggrid a)) (gbc c)
    end.

(** interpolation.py:234-303 [apply_tvd_limiter]. *)
Definition apply_tvd_limiter (high : interp_fn) (limiter : R -> R) : interp_fn :=
  fun c offset v dt => foldM (tvd_axis high limiter offset v dt) c (seq 0 (length offset)).

(** The interpolation methods with the common signature ([linear] ignores v and dt, 88). *)
Definition linear_fn : interp_fn := fun c offset _ _ => linear_interp c offset.
Definition upwind_fn : interp_fn := fun c offset v _ => upwind c offset v.
