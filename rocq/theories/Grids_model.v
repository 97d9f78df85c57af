(** * Model of jax_cfd/base/grids.py *)
From Verif Require Import Prelude NdArr.
Set Implicit Arguments.

(** ** Python / NumPy scalar helpers on offsets (rationals stand for floats) *)

(** [np.isclose(a, b)] with its default tolerances rtol=1e-5, atol=1e-8:
    |a - b| <= atol + rtol * |b|. *)
Definition isclose (a b : Q) : bool :=
  Qle_bool (Qabs (a - b)) ((1 # 100000000) + (1 # 100000) * Qabs b).

(** Python [a % 1] on floats. *)
Definition mod1 (a : Q) : Q := (a - inject_Z (Qfloor a))%Q.

(** Python tuple equality of offsets. *)
Fixpoint off_eqb (o1 o2 : list Q) : bool :=
  match o1, o2 with
  | [], [] => true
  | a :: o1', b :: o2' => Qeq_bool a b && off_eqb o1' o2'
  | _, _ => false
  end.
Definition off_eq (o1 o2 : list Q) : Prop := Forall2 Qeq o1 o2.

(** ** Grid: grids.py:499-514 (dataclass fields).
    Simplification: [shape] entries are naturals. *)
Record grid := mkgrid { gshape : list nat; gstep : list R; gdomain : list (R * R) }.

(** grids.py:557-560 [Grid.ndim] *)
Definition gndim (g : grid) : nat := length (gshape g).

(** Arguments of the constructor, grids.py:516-521:
    [step : None | float | sequence], [domain : None | float | sequence of sequences]. *)
Inductive step_arg := StepNone | StepScalar (s : R) | StepSeq (l : list R).
Inductive domain_arg := DomNone | DomScalar (x : R) | DomSeq (l : list (list R)).

Definition pair_of_bounds (b : list R) : result (R * R) :=
  match b with [lo; hi] => Ok (lo, hi) | _ => Err EValue end.

(** grids.py:516-555 [Grid.__init__]. The division by a zero size at 553-554
    raises ZeroDivisionError ([EZeroDiv]). *)
Definition grid_init (shape : list nat) (step : step_arg) (domain : domain_arg) : result grid :=
  let ndim := length shape in
  let* dom :=
    match step, domain with
    | StepNone, DomNone =>                                   (* 540-549, step = 1 *)
        Ok (map (fun ss => (0%R, (fst ss * INR (snd ss))%R)) (combine (repeat 1%R ndim) shape))
    | StepScalar s, DomNone =>                               (* 543-544 *)
        Ok (map (fun ss => (0%R, (fst ss * INR (snd ss))%R)) (combine (repeat s ndim) shape))
    | StepSeq l, DomNone =>                                  (* 545-549 *)
        if (length l =? ndim)%nat
        then Ok (map (fun ss => (0%R, (fst ss * INR (snd ss))%R)) (combine l shape))
        else Err EValue
    | StepNone, DomScalar x => Ok (repeat (0%R, x) ndim)     (* 528-530 *)
    | StepNone, DomSeq l =>                                  (* 531-539 *)
        if (length l =? ndim)%nat then mapM pair_of_bounds l else Err EValue
    | _, _ => Err EType                                      (* 526-527 *)
    end in
  let* stp := mapM (fun ds => match ds with
                              | ((lo, hi), n) => if (n =? 0)%nat then Err EZeroDiv
                                                 else Ok ((hi - lo) / INR n)%R
                              end) (combine dom shape) in    (* 553-554 *)
  Ok (mkgrid shape stp dom).

(** grids.py:562-565 *)
Definition cell_center (g : grid) : list Q := repeat (1 # 2)%Q (gndim g).

(** grids.py:567-572: rows of (eye(d) + ones([d, d])) / 2 *)
Definition cell_faces (g : grid) : list (list Q) :=
  map (fun i => map (fun j => (((if (i =? j)%nat then 1 else 0) + 1) / 2)%Q) (seq 0 (gndim g)))
      (seq 0 (gndim g)).

(** grids.py:584-602 [Grid.axes]: one 1-d array per axis, as an index function. *)
Definition grid_axes (g : grid) (offset : option (list Q)) : result (list (nat * (Z -> R))) :=
  let offset := match offset with None => cell_center g | Some o => o end in
  if negb (length offset =? gndim g)%nat then Err EValue
  else Ok (map (fun q => match q with
                         | ((((lo, _), oi), len), st) =>
                             (len, fun i => (lo + (IZR i + Q2R oi) * st)%R)
                         end)
               (combine (combine (combine (gdomain g) offset) (gshape g)) (gstep g))).

(** grids.py:640-653 [Grid.mesh]: [jnp.meshgrid( *axes, indexing='ij')]. *)
Definition grid_mesh (g : grid) (offset : option (list Q)) : result (list (arr R)) :=
  let* axes := grid_axes g offset in
  Ok (map (fun nx => match nx with
                     | (n, (_, x)) => mkarr (map fst axes) (fun ix => x (nth n ix 0%Z))
                     end)
          (combine (seq 0 (length axes)) axes)).

(** ** GridArray: grids.py:40-66 *)
Record garr := mkga { gdata : arr R; goff : list Q; ggrid : grid }.

Lemma grid_eq_dec : forall g h : grid, {g = h} + {g <> h}.
Proof.
  intros [s1 t1 d1] [s2 t2 d2].
  destruct (list_eq_dec Nat.eq_dec s1 s2) as [->|]; [|right; congruence].
  destruct (list_eq_dec Req_EM_T t1 t2) as [->|]; [|right; congruence].
  assert (Hd : forall x y : R * R, {x = y} + {x <> y}).
  { intros [a b] [c d]. destruct (Req_EM_T a c) as [->|]; [|right; congruence].
    destruct (Req_EM_T b d) as [->|]; [left; reflexivity | right; congruence]. }
  destruct (list_eq_dec Hd d1 d2) as [->|]; [left; reflexivity | right; congruence].
Qed.
Definition grid_eqb (g h : grid) : bool := if grid_eq_dec g h then true else false.

(** grids.py:461-469 [consistent_offset]: the set of offsets must have one element. *)
Definition consistent_offset (l : list garr) : result (list Q) :=
  match l with
  | [] => Err EOffset
  | a :: l' => if forallb (fun b => off_eqb (goff a) (goff b)) l' then Ok (goff a) else Err EOffset
  end.

(** grids.py:476-482 [consistent_grid] *)
Definition consistent_grid (l : list garr) : result grid :=
  match l with
  | [] => Err EGrid
  | a :: l' => if forallb (fun b => grid_eqb (ggrid a) (ggrid b)) l' then Ok (ggrid a) else Err EGrid
  end.

(** grids.py:441-445 [averaged_offset]: [np.mean] over the arrays, per axis.
    Simplification: all offsets are assumed to have the length of the first
    (np.mean of ragged input raises). *)
Definition qsum (l : list Q) : Q := fold_right Qplus 0%Q l.
Definition averaged_offset (l : list garr) : list Q :=
  match l with
  | [] => []
  | a :: _ => map (fun j => (qsum (map (fun b => nth j (goff b) 0%Q) l)
                             / inject_Z (Z.of_nat (length l)))%Q)
                  (seq 0 (length (goff a)))
  end.

(** grids.py:448-454 [control_volume_offsets] *)
Definition cv_offsets (o : list Q) : list (list Q) :=
  map (fun j => map (fun io => if (fst io =? j)%nat then (snd io + (1 # 2))%Q else snd io)
                    (combine (seq 0 (length o)) o))
      (seq 0 (length o)).

(** ** Boundary conditions as data (boundaries.py:27-68, 533-552) and GridVariable.
    Boundary types are strings in the code; [BCOther] is any other string.
    [bhom] records [isinstance(bc, HomogeneousBoundaryConditions)]. *)
Inductive bctype := Periodic | Dirichlet | Neumann | BCOther.
Definition bctype_eqb (a b : bctype) : bool :=
  match a, b with
  | Periodic, Periodic | Dirichlet, Dirichlet | Neumann, Neumann | BCOther, BCOther => true
  | _, _ => false
  end.
Record bcs := mkbc { btypes : list (bctype * bctype);
                     bvals : list (option R * option R);
                     bhom : bool }.

(** grids.py:265-298: a GridVariable; [mk_gvar] is the constructor with
    [__post_init__] (291-298). *)
Record gvar := mkgv { garray : garr; gbc : bcs }.
Definition mk_gvar (u : garr) (b : bcs) : result gvar :=
  if (length (btypes b) =? gndim (ggrid u))%nat then Ok (mkgv u b) else Err EValue.

(** grids.py:89-108 [GridArray.__array_ufunc__].  [func] is the jnp function on
    the raw operands.  A GridVariable operand is not a handled type: NumPy then
    raises TypeError. Scalars are 0-d arrays. *)
Inductive operand := OScalar (x : R) | OArray (a : arr R) | OGA (u : garr) | OGV (u : gvar).

Definition raw (o : operand) : arr R :=
  match o with
  | OScalar x => afull [] x
  | OArray a => a
  | OGA u => gdata u
  | OGV u => gdata (garray u)
  end.
Definition is_gv (o : operand) : bool := match o with OGV _ => true | _ => false end.
Fixpoint gas (l : list operand) : list garr :=
  match l with
  | [] => []
  | OGA u :: l' => u :: gas l'
  | _ :: l' => gas l'
  end.

Definition array_ufunc (func : list (arr R) -> result (arr R)) (inputs : list operand) : result garr :=
  if existsb is_gv inputs then Err EType
  else let* data := func (map raw inputs) in
       let* off := consistent_offset (gas inputs) in
       let* g := consistent_grid (gas inputs) in
       Ok (mkga data off g).

(** grids.py:401-434 [applied]: positional and keyword arguments together. *)
Definition applied (func : list (arr R) -> result (arr R)) (inputs : list operand) : result garr :=
  if existsb is_gv inputs then Err EValue
  else let* off := consistent_offset (gas inputs) in
       let* g := consistent_grid (gas inputs) in
       let* data := func (map raw inputs) in
       Ok (mkga data off g).

(** Binary jnp function on raw operands: equal shapes, or one 0-d operand
    (scalar broadcasting). Other NumPy broadcasting is not modelled: [EShape]. *)
Definition shape_eqb (s t : list nat) : bool := if list_eq_dec Nat.eq_dec s t then true else false.
Definition raw2 (f : R -> R -> R) (l : list (arr R)) : result (arr R) :=
  match l with
  | [a; b] => if shape_eqb (shp a) (shp b) then Ok (amap2 f a b)
              else match shp a, shp b with
                   | [], _ => Ok (amap (f (get a [])) b)
                   | _, [] => Ok (amap (fun x => f x (get b [])) a)
                   | _, _ => Err EShape
                   end
  | _ => Err EType
  end.
Definition raw1 (f : R -> R) (l : list (arr R)) : result (arr R) :=
  match l with [a] => Ok (amap f a) | _ => Err EType end.

(** Arithmetic on GridArrays through the NDArrayOperatorsMixin. *)
Definition ga_op2 (f : R -> R -> R) (a b : garr) : result garr := array_ufunc (raw2 f) [OGA a; OGA b].
Definition ga_add := ga_op2 Rplus.
Definition ga_sub := ga_op2 Rminus.
Definition ga_mul := ga_op2 Rmult.
Definition ga_scale (c : R) (a : garr) : result garr := array_ufunc (raw2 Rmult) [OScalar c; OGA a].
Definition ga_neg (a : garr) : result garr := array_ufunc (raw1 Ropp) [OGA a].
Definition ga_div_scalar (a : garr) (c : R) : result garr := array_ufunc (raw2 Rdiv) [OGA a; OScalar c].

(** grids.py:660-675 [Grid.eval_on_mesh]; [fn] acts on the list of mesh arrays. *)
Definition eval_on_mesh (g : grid) (fn : list (arr R) -> result (arr R)) (offset : option (list Q))
  : result garr :=
  let off := match offset with None => cell_center g | Some o => o end in
  let* m := grid_mesh g (Some off) in
  let* d := fn m in
  Ok (mkga d off g).

(** grids.py:574-577 [Grid.stagger] *)
Definition stagger (g : grid) (v : list (arr R)) : list garr :=
  map (fun uo => mkga (fst uo) (snd uo) g) (combine v (cell_faces g)).

(** grids.py:579-582 [Grid.center] (on a tuple of arrays) *)
Definition center (g : grid) (v : list (arr R)) : list garr :=
  map (fun u => mkga u (cell_center g) g) v.

(** grids.py:489-496 [unique_boundary_conditions] compares whole bc objects. *)

(** grids.py:351-368 [GridVariable._interior_grid] *)
Definition interior_grid (u : gvar) : result grid :=
  let g := ggrid (garray u) in
  let step1 acc axis :=
    let '(shape, dom) := acc in
    let o := nth axis (goff (garray u)) 0%Q in
    if bctype_eqb (snd (nth axis (btypes (gbc u)) (BCOther, BCOther))) Periodic then acc
    else let '(lo, hi) := nth axis dom (0%R, 0%R) in
         if isclose o 1 then
           (upd axis (nth axis shape 0 - 1)%nat shape, upd axis (lo, (hi - nth axis (gstep g) 0)%R) dom)
         else if isclose o 0 then
           (upd axis (nth axis shape 0 - 1)%nat shape, upd axis ((lo + nth axis (gstep g) 0)%R, hi) dom)
         else acc in
  let '(shape, dom) := fold_left step1 (seq 0 (gndim g)) (gshape g, gdomain g) in
  grid_init shape StepNone (DomSeq (map (fun b => [fst b; snd b]) dom)).

(** grids.py:678-689 [domain_interior_masks]: product over axes of
    "not close to lower" * "not close to upper"; [risclose] is [np.isclose] on reals. *)
Definition risclose (a b : R) : bool :=
  if Rle_dec (Rabs (a - b)) (1 / 100000000 + 1 / 100000 * Rabs b) then true else false.
Definition interior_mask (g : grid) (offset : list Q) : result (arr R) :=
  let* m := grid_mesh g (Some offset) in
  Ok (mkarr (gshape g)
        (fun ix => fold_left (fun acc ix_x =>
             let '(i, x) := ix_x in
             let '(lo, hi) := nth i (gdomain g) (0%R, 0%R) in
             (acc * (if risclose (get x ix) hi then 0 else 1) * (if risclose (get x ix) lo then 0 else 1))%R)
           (combine (seq 0 (length m)) m) 1%R)).
Definition domain_interior_masks (g : grid) : result (list (arr R)) :=
  mapM (interior_mask g) (cell_faces g).
