(** * Model of interp1d (jax_cfd/base/array_utils.py) *)
From Verif Require Import Prelude NdArr ArrayUtils_model.
Set Implicit Arguments.
Local Open Scope Z_scope.

(** The [fill_value] argument: one of the two strings, another string, a scalar ([None] is nan), or an array with axes. *)
Inductive fill := FExtrapolate | FConstant | FOtherString | FScalar (x : option R) | FNonScalar.

(** [jnp.argsort] (stable) of the first [n] values of [X]: insertion sort of the indices. *)
Fixpoint insert_index (X : Z -> R) (k : Z) (l : list Z) : list Z :=
  match l with
  | [] => [k]
  | j :: l' => if Rlt_dec (X k) (X j) then k :: j :: l' else j :: insert_index X k l'
  end.
Definition argsort (n : nat) (X : Z -> R) : list Z := fold_left (fun l k => insert_index X (Z.of_nat k) l) (seq 0 n) [].

(** [np.min], [np.max] *)
Definition vmin (n : nat) (X : Z -> R) : R := fold_left (fun m k => Rmin m (X (Z.of_nat k))) (seq 1 (n - 1)) (X 0).
Definition vmax (n : nat) (X : Z -> R) : R := fold_left (fun m k => Rmax m (X (Z.of_nat k))) (seq 1 (n - 1)) (X 0).
(** [jnp.searchsorted(x, v, side='right')]: the number of entries [<= v].  (For unsorted [x] the binary search of
    the code may return something else; the callers only have sorted [x].) *)
Definition searchsorted_right (n : nat) (X : Z -> R) (v : R) : Z :=
  Z.of_nat (length (filter (fun k => if Rle_dec (X (Z.of_nat k)) v then true else false) (seq 0 n))).
(** array_utils.py:427-465: one entry of [interp_func], for the line [Y] of [y] along the axis.  [None] is nan. *)
Definition interp_value (n : nat) (X : Z -> R) (Y : Z -> option R) (fv : fill) (v : R) : option R :=
  let v_clipped := Rmin (Rmax v (vmin n X)) (vmax n X) in
  let above := Z.min (Z.of_nat n - 1) (searchsorted_right n X v_clipped) in
  let below := Z.max 0 (above - 1) in
  let line (w : R) := match Y above, Y below with
                      | Some ya, Some yb => Some (yb + (w - X below) * ((ya - yb) / (X above - X below)))%R
                      | _, _ => None
                      end in
  match fv with
  | FExtrapolate => line v
  | FConstant => line v_clipped
  | FScalar c => if Rlt_dec (v - X below) 0 then c
                 else if Rlt_dec (X above - X below) (v - X below) then c
                 else line v
  | _ => None
  end.
(** array_utils.py:347-467 [interp1d], applied to [x_new].  [jnp.take] with an index beyond the end gives nan. *)
Definition interp1d (x y : arr R) (axis : Z) (fill_value : fill) (assume_sorted : bool) (x_new : arr R) : result (arr (option R)) :=
  match fill_value with
  | FOtherString | FNonScalar => Err EValue                               (* 392-401 *)
  | _ =>
    match shp x with
    | [n] =>
      if (n <? 2)%nat then Err EValue                                     (* 406-407 *)
      else
        let* xy :=
          if assume_sorted then Ok ((fun i => get x [i]), mkarr (shp y) (fun ix => Some (get y ix)))
          else                                                            (* 409-412 *)
            let ind := argsort n (fun i => get x [i]) in
            let* ax := normalize_axis axis (ndim y) in
            let ny := Z.of_nat (nth ax (shp y) 0%nat) in
            Ok ((fun i => get x [nth (Z.to_nat i) ind 0]),
                mkarr (upd ax n (shp y))
                      (fun ix => let j := nth (Z.to_nat (nth ax ix 0)) ind 0 in
                                 if j <? ny then Some (get y (upd ax j ix)) else None)) in
        let '(X, y) := xy in
        if (ndim y <? 1)%nat then Err EValue                              (* 415-416 *)
        else
          let* ny := shape_at y axis in
          if negb (n =? ny)%nat then Err EValue                           (* 418-421 *)
          else
            let* ax := normalize_axis axis (ndim y) in
            Ok (mkarr (firstn ax (shp y) ++ shp x_new ++ skipn (S ax) (shp y))
                      (fun ix => interp_value n X
                                   (fun i => get y (firstn ax ix ++ i :: skipn (ax + ndim x_new) ix))
                                   fill_value
                                   (get x_new (firstn (ndim x_new) (skipn ax ix)))))
    | _ => Err EValue                                                     (* 404-405 *)
    end
  end.
