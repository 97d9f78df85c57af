(** * Model of jax_cfd/base/boundaries.py *)
From Verif Require Import Prelude NdArr Grids_model.
Set Implicit Arguments.

(** boundaries.py:38-41 [Padding]; [mode=None] or another string is [PadOther]. *)
Inductive padmode := MIRROR | EXTEND | PadOther.

(** ** [jnp.pad] along one axis (NumPy documentation of [numpy.pad]). *)
Inductive npmode := NpConstant (lo hi : R) | NpWrap | NpSymmetric | NpReflect | NpEdge.

(** Value at position [j] of the 1-d array [f] of length [n] padded by [lo] cells below. *)
Definition symm_index (n : Z) (i : Z) : Z :=
  let r := (i mod (2 * n))%Z in if (r <? n)%Z then r else (2 * n - 1 - r)%Z.
Definition refl_index (n : Z) (i : Z) : Z :=
  if (n =? 1)%Z then 0%Z
  else let r := (i mod (2 * n - 2))%Z in if (r <? n)%Z then r else (2 * n - 2 - r)%Z.
Definition edge_index (n : Z) (i : Z) : Z := Z.max 0 (Z.min i (n - 1)).

Definition pad1 (m : npmode) (n : nat) (lo : Z) (f : Z -> R) (j : Z) : R :=
  let n' := Z.of_nat n in
  let i := (j - lo)%Z in
  if ((0 <=? i) && (i <? n'))%Z then f i
  else match m with
       | NpConstant a b => if (i <? 0)%Z then a else b
       | NpWrap => f (i mod n')%Z
       | NpSymmetric => f (symm_index n' i)
       | NpReflect => f (refl_index n' i)
       | NpEdge => f (edge_index n' i)
       end.

(** [jnp.pad(data, full_padding, mode=...)] with padding [(lo, hi)] on [axis]
    and none elsewhere. Non-constant padding of an empty axis raises. *)
Definition np_pad (a : arr R) (ax : nat) (pads : Z * Z) (m : npmode) : result (arr R) :=
  let n := nth ax (shp a) 0%nat in
  let '(lo, hi) := pads in
  if ((lo <? 0) || (hi <? 0))%Z then Err EValue
  else match m with
       | NpConstant _ _ => Ok (axmap ax (Z.to_nat (lo + Z.of_nat n + hi)) (pad1 m n lo) a)
       | _ => if (n =? 0)%nat then Err EValue
              else Ok (axmap ax (Z.to_nat (lo + Z.of_nat n + hi)) (pad1 m n lo) a)
       end.

(** boundaries.py:70-79 [constant_values] maps None to NaN; using such a NaN in
    a nonempty padding region is the error value [ENaN] of the model. *)
Definition const_mode (v : option R * option R) (pads : Z * Z) : result npmode :=
  let side (o : option R) (w : Z) : result R :=
    match o with
    | Some x => Ok x
    | None => if (w =? 0)%Z then Ok 0%R else Err ENaN
    end in
  let* a := side (fst v) (fst pads) in
  let* b := side (snd v) (snd pads) in
  Ok (NpConstant a b).

(** [lax.slice_in_dim(data, start, limit, axis=axis)]; bad bounds raise. *)
Definition slice_in_dim (a : arr R) (start limit : Z) (ax : nat) : result (arr R) :=
  let n := Z.of_nat (nth ax (shp a) 0%nat) in
  if ((0 <=? start) && (start <=? limit) && (limit <=? n))%Z
  then Ok (axmap ax (Z.to_nat (limit - start)) (fun f j => f (j + start)%Z) a)
  else Err EIndex.

Definition offat (u : garr) (ax : nat) : Q := nth ax (goff u) 0%Q.
Definition ushape (u : garr) (ax : nat) : nat := nth ax (shp (gdata u)) 0%nat.
Definition gshp (u : garr) (ax : nat) : nat := nth ax (gshape (ggrid u)) 0%nat.
Definition btype (b : bcs) (ax : nat) : bctype * bctype := nth ax (btypes b) (BCOther, BCOther).
Definition bval (b : bcs) (ax : nat) : option R * option R := nth ax (bvals b) (None, None).
Definition isDir (t : bctype) := bctype_eqb t Dirichlet.
Definition isNeu (t : bctype) := bctype_eqb t Neumann.
Definition isPer (t : bctype) := bctype_eqb t Periodic.

(** boundaries.py:310-336 [_trim] (also exported as [trim], line 530) *)
Definition bc_trim (u : garr) (width : Z) (ax : nat) : result garr :=
  let padding := if (width <? 0)%Z then ((- width)%Z, 0%Z) else (0%Z, width) in
  let limit := (Z.of_nat (ushape u ax) - snd padding)%Z in
  let* data := slice_in_dim (gdata u) (fst padding) limit ax in
  Ok (mkga data (upd ax (offat u ax + inject_Z (fst padding))%Q (goff u)) (ggrid u)).

Inductive trimside := Both | LeftSide | RightSide.

(** boundaries.py:353-367, lower side of [_trim_padding]: number of cells to trim
    (nonpositive). *)
Definition neg_trim (b : bcs) (u : garr) (ax : nat) : Z :=
  let nt := (- Qceiling (- offat u ax))%Z in
  if isPer (fst (btype b ax))
  then Z.max nt (Z.of_nat (gshp u ax) - Z.of_nat (ushape u ax))
  else if isclose (mod1 (offat u ax)) 0 then (nt - 1)%Z
  else nt.

(** boundaries.py:369-384, upper side of [_trim_padding]. *)
Definition pos_trim (b : bcs) (u : garr) (ax : nat) : Z :=
  if isPer (snd (btype b ax))
  then Z.max (Z.of_nat (ushape u ax) - Z.of_nat (gshp u ax)) 0
  else
    let last := (inject_Z (Z.of_nat (ushape u ax)) + offat u ax - 1)%Q in
    let boundary := inject_Z (Z.of_nat (gshp u ax)) in
    if Qle_bool boundary last
    then (Qceiling (last - boundary)
          + (if isDir (snd (btype b ax)) && isclose (mod1 (offat u ax)) 0 then 1 else 0))%Z
    else 0%Z.

(** boundaries.py:338-389 [_trim_padding] *)
Definition trim_padding (b : bcs) (u : garr) (ax : nat) (side : trimside) : result (garr * (Z * Z)) :=
  if (gshp u ax <=? ushape u ax)%nat then
    let* st := (if Qle_bool (offat u ax) 0 && (match side with RightSide => false | _ => true end)
                then let nt := neg_trim b u ax in
                     let* u' := bc_trim u nt ax in Ok (u', nt)
                else Ok (u, 0%Z)) in
    let '(u, nt) := st in
    let pt := match side with LeftSide => 0%Z | _ => pos_trim b u ax end in
    let* u := (if (0 <? pt)%Z then bc_trim u pt ax else Ok u) in
    Ok (u, ((- nt)%Z, pt))
  else Ok (u, (0%Z, 0%Z)).

(** Pointwise combination of padded copies of the same array (shapes agree by construction). *)
Definition scal_sub (a b : arr R) : arr R := amap2 (fun x y => 2 * x - y)%R a b.

(** boundaries.py:201-274: the Dirichlet branch of [_pad]; [u] is the trimmed array,
    [pads] the full padding on [ax]. *)
Definition pad_dirichlet (b : bcs) (u : garr) (ax : nat) (pads : Z * Z) (mode : padmode)
  : result (arr R) :=
  let total := (fst pads + snd pads)%Z in
  if isclose (mod1 (offat u ax)) (1 # 2) then                      (* 202 *)
    let mode := if ((total =? 1) || (total =? 0))%Z then MIRROR else mode in
    match mode with
    | MIRROR => let* cm := const_mode (bval b ax) pads in          (* 209-217 *)
                let* p := np_pad (gdata u) ax pads cm in
                let* q := np_pad (gdata u) ax pads NpSymmetric in
                Ok (scal_sub p q)
    | EXTEND => let* cm := const_mode (bval b ax) pads in          (* 218-226 *)
                let* p := np_pad (gdata u) ax pads cm in
                let* q := np_pad (gdata u) ax pads NpEdge in
                Ok (scal_sub p q)
    | PadOther => Err ENotImpl                                     (* 227-228 *)
    end
  else if isclose (mod1 (offat u ax)) 0 then                       (* 229 *)
    if ((total =? 1) || (total =? 0))%Z then                       (* 236-242 *)
      let* cm := const_mode (bval b ax) pads in np_pad (gdata u) ax pads cm
    else if (1 <? total)%Z then
      match mode with
      | MIRROR =>                                                  (* 244-263 *)
          let one w := if (0 <? w)%Z then 1%Z else 0%Z in
          let less w := if (0 <? w)%Z then (w - 1)%Z else 0%Z in
          let bc_padding := (one (fst pads), one (snd pads)) in
          let past := (less (fst pads), less (snd pads)) in
          let* expanded := np_pad (gdata u) ax bc_padding (NpConstant 0 0) in
          match bval b ax with
          | (Some lo, Some hi) =>
              (* [constant_values=tuple(self.bc_values)]: a None on any axis is not array-like *)
              if forallb (fun v => match v with (Some _, Some _) => true | _ => false end) (bvals b)
              then let* p := np_pad (gdata u) ax pads (NpConstant (lo / 2) (hi / 2)) in
                   let* q := np_pad expanded ax past NpReflect in
                   Ok (scal_sub p q)
              else Err EType
          | _ => Err EType                                         (* None / 2 *)
          end
      | EXTEND => let* cm := const_mode (bval b ax) pads in        (* 264-269 *)
                  np_pad (gdata u) ax pads cm
      | PadOther => Err ENotImpl
      end
    else Ok (gdata u)
  else Err EValue.                                                 (* 272-274 *)

(** Python [width // max(1, abs(width))] *)
Definition derivative_direction (width : Z) : R := IZR (width / Z.max 1 (Z.abs width))%Z.

(** boundaries.py:275-304: the Neumann branch of [_pad]. *)
Definition pad_neumann (b : bcs) (u : garr) (ax : nat) (pads : Z * Z) (width : Z) (mode : padmode)
  : result (arr R) :=
  let total := (fst pads + snd pads)%Z in
  if negb (isclose (mod1 (offat u ax)) (1 # 2)) then Err EValue
  else
    let* npm := (if ((total =? 1) || (total =? 0))%Z then Ok NpSymmetric
                 else match mode with
                      | MIRROR => Ok NpSymmetric
                      | EXTEND => Ok NpEdge
                      | PadOther => Err ENotImpl
                      end) in
    let* p := np_pad (gdata u) ax pads npm in
    let* z := np_pad (gdata u) ax pads (NpConstant 0 0) in
    let* cm := const_mode (bval b ax) pads in
    let* c := np_pad (gdata u) ax pads cm in
    Ok (amap2 (fun x d => x - derivative_direction width * nth ax (gstep (ggrid u)) 0 * d)%R p
              (amap2 Rminus z c)).

(** boundaries.py:135-308 [_pad] *)
Definition bc_pad_ (b : bcs) (u : garr) (width : Z) (ax : nat) (mode : padmode) : result garr :=
  if negb (ax <? gndim (ggrid u))%nat then Err EIndex
  else
    let '(bct, padding) :=
      if (width <? 0)%Z then (fst (btype b ax), ((- width)%Z, 0%Z))
      else (snd (btype b ax), (0%Z, width)) in
    let offset := upd ax (offat u ax - inject_Z (fst padding))%Q (goff u) in
    let need := if isPer bct then Both else if (0 <=? width)%Z then RightSide else LeftSide in
    let* ut := trim_padding b u ax need in
    let '(u, tp) := ut in
    let pads := ((fst padding + fst tp)%Z, (snd padding + snd tp)%Z) in
    let* data := match bct with
                 | Periodic => np_pad (gdata u) ax pads NpWrap
                 | Dirichlet => pad_dirichlet b u ax pads mode
                 | Neumann => pad_neumann b u ax pads width mode
                 | BCOther => Err EValue
                 end in
    Ok (mkga data offset (ggrid u)).

(** boundaries.py:81-104 [shift] *)
Definition bc_shift (b : bcs) (u : garr) (k : Z) (ax : nat) (mode : padmode) : result garr :=
  let* padded := bc_pad_ b u k ax mode in
  bc_trim padded (- k) ax.

(** grids.py:331-349 [GridVariable.shift], default mode 'extend' *)
Definition gv_shift (u : gvar) (k : Z) (ax : nat) : result garr :=
  bc_shift (gbc u) (garray u) k ax EXTEND.

(** boundaries.py:106-133 [_is_aligned]: returns normally or raises. *)
Definition is_aligned (b : bcs) (u : garr) (ax : nat) : result unit :=
  let size_diff := (Z.of_nat (ushape u ax) - Z.of_nat (gshp u ax))%Z in
  let d1 := if isDir (fst (btype b ax)) && isclose (offat u ax) 1 then 1%Z else 0%Z in
  let d2 := if isDir (snd (btype b ax)) && isclose (offat u ax) 1 then 1%Z else 0%Z in
  if isNeu (fst (btype b ax)) && isclose (mod1 (offat u ax)) 0 then Err ENotImpl
  else if (size_diff + d1 + d2 <? 0)%Z then Err EValue
  else Ok tt.

(** boundaries.py:391-418 [pad]; [width] is an int or a pair. *)
Inductive padwidth := WInt (w : Z) | WPair (lo hi : Z).
Definition bc_pad (b : bcs) (u : garr) (w : padwidth) (ax : nat) (mode : padmode) : result garr :=
  let* _ := is_aligned b u ax in
  match w with
  | WInt w => bc_pad_ b u w ax mode
  | WPair lo hi => let* u := bc_pad_ b u (- lo) ax mode in bc_pad_ b u hi ax mode
  end.

(** boundaries.py:420-439 [pad_all] *)
Definition bc_pad_all (b : bcs) (u : garr) (ws : list (Z * Z)) (mode : padmode) : result garr :=
  foldM (fun u ax => match nth_error ws ax with
                     | Some (lo, hi) => bc_pad b u (WPair lo hi) ax mode
                     | None => Err EIndex
                     end) u (seq 0 (gndim (ggrid u))).

(** boundaries.py:441-460 [values]; [bc_values\[axis\]\[-i\]] for i in 0, 1. *)
Definition bc_values (b : bcs) (ax : nat) (g : grid) : option (arr R * arr R) :=
  match bval b ax with
  | (Some lo, Some hi) =>
      let sh := firstn ax (gshape g) ++ skipn (S ax) (gshape g) in
      Some (afull sh lo, afull sh hi)
  | _ => None
  end.

(** boundaries.py:462-477 [trim_boundary] *)
Definition trim_boundary (b : bcs) (u : garr) : result garr :=
  foldM (fun u ax => let* _ := is_aligned b u ax in
                     let* up := trim_padding b u ax Both in Ok (fst up))
        u (seq 0 (gndim (ggrid u))).

(** boundaries.py:479-512 [pad_and_impose_bc] *)
Definition pad_and_impose_bc (b : bcs) (u : garr) (target : option (list Q)) (mode : padmode)
  : result gvar :=
  let target := match target with None => goff u | Some o => o end in
  let* u := foldM (fun u ax =>
                     let* _ := is_aligned b u ax in
                     if isDir (fst (btype b ax)) && isclose (offat u ax) 1 then
                       if isclose (nth ax target 0%Q) 1 then bc_pad_ b u 1 ax mode
                       else if isclose (nth ax target 0%Q) 0 then bc_pad_ b u (-1) ax mode
                       else Ok u
                     else Ok u)
                  u (seq 0 (gndim (ggrid u))) in
  mk_gvar u b.

(** boundaries.py:514-528 [impose_bc] *)
Definition impose_bc (b : bcs) (u : garr) : result gvar :=
  let offset := goff u in
  let* u := trim_boundary b u in
  pad_and_impose_bc b u (Some offset) EXTEND.

(** boundaries.py:533-552 [HomogeneousBoundaryConditions] *)
Definition homogeneous (types : list (bctype * bctype)) : bcs :=
  mkbc types (repeat (Some 0%R, Some 0%R) (length types)) true.
Definition constant_bc (types : list (bctype * bctype)) (vals : list (option R * option R)) : bcs :=
  mkbc types vals false.

(** boundaries.py:556-678 convenience constructors *)
Definition periodic_bc (ndim : nat) : bcs := homogeneous (repeat (Periodic, Periodic) ndim).
Definition dirichlet_bc (ndim : nat) (vals : option (list (option R * option R))) : bcs :=
  match vals with
  | None | Some [] => homogeneous (repeat (Dirichlet, Dirichlet) ndim)
  | Some v => constant_bc (repeat (Dirichlet, Dirichlet) ndim) v
  end.
Definition neumann_bc (ndim : nat) (vals : option (list (option R * option R))) : bcs :=
  match vals with
  | None | Some [] => homogeneous (repeat (Neumann, Neumann) ndim)
  | Some v => constant_bc (repeat (Neumann, Neumann) ndim) v
  end.
Definition channel_flow_bc (ndim : nat) (vals : option (list (option R * option R))) : bcs :=
  let types := [(Periodic, Periodic); (Dirichlet, Dirichlet)]
               ++ repeat (Periodic, Periodic) (ndim - 2) in
  match vals with
  | None | Some [] => homogeneous types
  | Some v => constant_bc types v
  end.
Definition periodic_and_neumann_bc (vals : option (R * R)) : bcs :=
  let types := [(Periodic, Periodic); (Neumann, Neumann)] in
  match vals with
  | None => homogeneous types
  | Some (a, b) => constant_bc types [(None, None); (Some a, Some b)]
  end.
Definition periodic_and_dirichlet_bc (vals : option (R * R)) (periodic_axis : nat) : bcs :=
  let per := (Periodic, Periodic) in
  let dir := (Dirichlet, Dirichlet) in
  if (periodic_axis =? 0)%nat then
    match vals with
    | None => homogeneous [per; dir]
    | Some (a, b) => constant_bc [per; dir] [(None, None); (Some a, Some b)]
    end
  else
    match vals with
    | None => homogeneous [dir; per]
    | Some (a, b) => constant_bc [dir; per] [(Some a, Some b); (None, None)]
    end.

(** boundaries.py:681-685 *)
Definition is_periodic_bc (c : gvar) (ax : nat) : bool := isPer (fst (btype (gbc c) ax)).

(** boundaries.py:688-694 *)
Definition has_all_periodic (arrays : list gvar) : bool :=
  forallb (fun c => forallb (is_periodic_bc c) (seq 0 (gndim (ggrid (garray c))))) arrays.

(** boundaries.py:697-721: [true] stands for 'periodic'. An empty argument list raises IndexError. *)
Definition consistent_bc (arrays : list gvar) : result (list bool) :=
  match arrays with
  | [] => Err EIndex
  | a :: rest =>
      mapM (fun ax => if forallb (fun c => Bool.eqb (is_periodic_bc c ax) (is_periodic_bc a ax)) rest
                      then Ok (is_periodic_bc a ax) else Err EBC)
           (seq 0 (gndim (ggrid (garray a))))
  end.

(** boundaries.py:724-735 *)
Definition pressure_bc_from_velocity (v : list gvar) : result bcs :=
  let* ts := consistent_bc v in
  Ok (homogeneous (map (fun p : bool => if p then (Periodic, Periodic) else (Neumann, Neumann)) ts)).

(** boundaries.py:793-818: one side of the flux boundary condition *)
Definition flux_side (ut ct : bctype) (uv cv : option R) : result (bctype * option R) :=
  if isDir ut && (match uv with Some x => if Req_EM_T x 0 then true else false | None => false end)
  then Ok (Dirichlet, Some 0%R)
  else if isNeu ut && isNeu ct then
    match cv with
    | Some x => if risclose x 0 then Ok (Neumann, Some 0%R) else Err ENotImpl
    | None => Err EType
    end
  else Err ENotImpl.

(** boundaries.py:738-821 *)
Definition advection_flux_bc (u c : gvar) (dir : nat) : result bcs :=
  if negb (bhom (gbc u)) then Err ENotImpl
  else
    let* l := mapM (fun ax =>
        if isPer (fst (btype (gbc u) ax)) then Ok ((Periodic, Periodic), (None, None))
        else if negb (dir =? ax)%nat then Ok ((Dirichlet, Dirichlet), (Some 0%R, Some 0%R))
        else
          let* lo := flux_side (fst (btype (gbc u) ax)) (fst (btype (gbc c) ax))
                               (fst (bval (gbc u) ax)) (fst (bval (gbc c) ax)) in
          let* hi := flux_side (snd (btype (gbc u) ax)) (snd (btype (gbc c) ax))
                               (snd (bval (gbc u) ax)) (snd (bval (gbc c) ax)) in
          Ok ((fst lo, fst hi), (snd lo, snd hi)))
      (seq 0 (gndim (ggrid (garray c)))) in
    Ok (constant_bc (map fst l) (map snd l)).
