(** * Vocabulary for polynomially exact stencils *)
From Verif Require Import Prelude NdArr SpecTile.
Set Implicit Arguments.
Local Open Scope R_scope.

(** A polynomial in several variables: a sum of terms a * x1^e1 * x2^e2 * ... *)
Definition poly := list (R * list nat).
Definition term_at (e : list nat) (x : list R) : R := fold_right Rmult 1 (map (fun ex => snd ex ^ fst ex) (combine e x)).
Definition poly_at (p : poly) (x : list R) : R := fold_right Rplus 0 (map (fun ae => fst ae * term_at (snd ae) x) p).
(** Partial derivative with respect to variable [i]: a x^e becomes a e x^(e-1). *)
Definition partial_derivative (i : nat) (p : poly) : poly :=
  map (fun ae => (fst ae * INR (nth i (snd ae) 0%nat), upd i (nth i (snd ae) 0 - 1)%nat (snd ae))) p.
(** Derivative of order [orders_j] with respect to variable [i + j], for every j. *)
Fixpoint derivative (i : nat) (orders : list nat) (p : poly) : poly :=
  match orders with [] => p | k :: r => Nat.iter k (partial_derivative i) (derivative (S i) r p) end.
Definition degree_at_most (n d : nat) (p : poly) : Prop := Forall (fun ae => length (snd ae) = n /\ (fold_right Nat.add 0%nat (snd ae) <= d)%nat) p.
(** Average of x^m over the interval of length [h] centred at [x], and of a polynomial over a cube. *)
Definition average1 (h x : R) (m : nat) : R := ((x + h / 2) ^ (m + 1) - (x - h / 2) ^ (m + 1)) / (INR (m + 1) * h).
Definition term_average (h : R) (e : list nat) (x : list R) : R := fold_right Rmult 1 (map (fun ex => average1 h (snd ex) (fst ex)) (combine e x)).
Definition poly_average (h : R) (p : poly) (x : list R) : R := fold_right Rplus 0 (map (fun ae => fst ae * term_average h (snd ae) x) p).
(** What one cell of the data holds: the value at its centre (finite differences, no [h]) or the average over it. *)
Definition sample (cell : option R) (p : poly) (x : list R) : R := match cell with None => poly_at p x | Some h => poly_average h p x end.
(** Position of cell [t] of a stencil, and the weighted sum over all cells (weights in row-major order). *)
Definition position (stencils : list (list R)) (t : list Z) : list R :=
  map (fun i => nth (Z.to_nat (nth i t 0%Z)) (nth i stencils []) 0) (seq 0 (length stencils)).
Definition stencil_sum (stencils : list (list R)) (c : list R) (F : list Z -> R) : R :=
  let sizes := map (@length R) stencils in asum sizes (fun t => nth (Z.to_nat (tile_number sizes t)) c 0 * F t).
(** The weights [c] give the exact derivative at the origin of every polynomial of degree at most [d]. *)
Definition exact_up_to (d : nat) (cell : option R) (stencils : list (list R)) (orders : list nat) (c : list R) : Prop :=
  forall p, degree_at_most (length stencils) d p ->
    stencil_sum stencils c (fun t => sample cell p (position stencils t)) = poly_at (derivative 0 orders p) (repeat 0 (length stencils)).
(** The linear system A c = b. *)
Definition solves (A : list (list R)) (b c : list R) : Prop :=
  length A = length b /\ forall k, (k < length A)%nat -> rsum (length c) (fun j => nth (Z.to_nat j) (nth k A []) 0 * nth (Z.to_nat j) c 0) = nth k b 0.
(** A correct linear solver: what it returns solves the system (one entry per column). *)
Definition correct_solver (solve : list (list R) -> list R -> result (list R)) : Prop :=
  forall A b c, solve A b = Ok c -> (forall row, In row A -> length row = length c) /\ solves A b c.
(** What is used of the third factor of a singular value decomposition of a matrix with rows of length [n]: [n] rows of
    length [n]; those beyond the number of rows of the matrix are orthogonal to all its rows. *)
Definition correct_svd (svd_v : list (list R) -> list (list R)) : Prop :=
  forall A n, A <> [] -> (forall row, In row A -> length row = n) ->
    length (svd_v A) = n /\ (forall v, In v (svd_v A) -> length v = n) /\
    forall j row, (length A <= j < n)%nat -> In row A -> rsum n (fun k => nth (Z.to_nat k) row 0 * nth (Z.to_nat k) (nth j (svd_v A) []) 0) = 0.
(** Cell [t] of a stencil of [S] cells around the cell of the input that lies just before the target point of cell [ix]:
    the target is displaced by [target - input] cells. *)
Definition neighbour (N S : list nat) (input target : list Q) (ix t : list Z) : list Z :=
  map (fun i => ((nth i ix 0 + nth i t 0 - Z.of_nat (before (nth i S 0%nat)) + Qround.Qfloor (nth i target 0%Q - nth i input 0%Q)) mod Z.of_nat (nth i N 0%nat))%Z) (seq 0 (length N)).
(** Where this cell is, relative to the target point, on a grid with steps [h]. *)
Definition relative_position (S : list nat) (input target : list Q) (h : R) (t : list Z) : list R :=
  map (fun i => (IZR (nth i t 0 - Z.of_nat (before (nth i S 0%nat)) + Qround.Qfloor (nth i target 0%Q - nth i input 0%Q))%Z + Q2R (nth i input 0%Q) - Q2R (nth i target 0%Q)) * h) (seq 0 (length S)).
