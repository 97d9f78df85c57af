(** * Model of jax_cfd/base/time_stepping.py and jax_cfd/spectral/time_stepping.py

    A state (a pytree wrapped by tree_math) is a family of reals indexed by an arbitrary type [X]
    (every leaf and every position in a leaf); complex leaves are pairs of reals. The functions of
    the equation objects are total maps on states. *)
From Verif Require Import Prelude.
Set Implicit Arguments.

Definition vec (X : Type) := X -> R.
Definition vzero {X} : vec X := fun _ => 0%R.
Definition vadd {X} (u v : vec X) : vec X := fun x => (u x + v x)%R.
Definition vscal {X} (c : R) (u : vec X) : vec X := fun x => (c * u x)%R.

(** Python truth value of a float coefficient. *)
Definition nz (c : R) : bool := if Req_EM_T c 0 then false else true.

(** [sum(row\[j\] * ks\[j\] for j in range(n) if row\[j\])]; the stages that have not been computed are
    [None]. Python's [sum] starts from [0], which tree_math broadcasts: the zero state. *)
Definition wsum {X} (row : list R) (ks : list (option (vec X))) (n : nat) : result (vec X) :=
  foldM (fun acc j => match nth_error row j with
                      | None => Err EIndex
                      | Some c => if nz c then match nth_error ks j with
                                               | Some (Some k) => Ok (vadd acc (vscal c k))
                                               | _ => Err EUnbound
                                               end
                                  else Ok acc
                      end) vzero (seq 0 n).

(** base/time_stepping.py:48-56 [ButcherTableau] with its [__post_init__] check. *)
Record tableau := mktab { ta : list (list R); tb : list R }.
Definition butcher_tableau (a : list (list R)) (b : list R) : result tableau :=
  if negb (length a + 1 =? length b)%nat then Err EValue else Ok (mktab a b).

(** base/time_stepping.py:59-106 [navier_stokes_rk]: the returned [step_fn]. *)
Definition navier_stokes_rk {X} (t : tableau) (F P : vec X -> vec X) (dt : R) (u0 : vec X) : result (vec X) :=
  let a := ta t in
  let b := tb t in
  let num_steps := length b in
  match num_steps with
  | O => Err EIndex                                                       (* u[0] = u0 on an empty list *)
  | S _ =>
      let* k := foldM (fun k i =>                                         (* 96-99 *)
                  match nth_error a (i - 1) with
                  | None => Err EIndex
                  | Some row =>
                      let* s := wsum row k i in
                      let ui := P (vadd u0 (vscal dt s)) in
                      Ok (upd i (Some (F ui)) k)
                  end)
                (upd 0 (Some (F u0)) (repeat None num_steps)) (seq 1 (num_steps - 1)) in
      let* s := wsum b k num_steps in                                     (* 101 *)
      Ok (P (vadd u0 (vscal dt s)))
  end.

Definition make_rk {X} (a : list (list R)) (b : list R) (F P : vec X -> vec X) (dt : R) (u0 : vec X) : result (vec X) :=
  let* t := butcher_tableau a b in navier_stokes_rk t F P dt u0.

(** base/time_stepping.py:109-118 *)
Definition forward_euler {X} : (vec X -> vec X) -> (vec X -> vec X) -> R -> vec X -> result (vec X) :=
  make_rk [] [1%R].
(** base/time_stepping.py:121-131 *)
Definition midpoint_rk2 {X} : (vec X -> vec X) -> (vec X -> vec X) -> R -> vec X -> result (vec X) :=
  make_rk [[(1 / 2)%R]] [0%R; 1%R].
(** base/time_stepping.py:134-144 *)
Definition heun_rk2 {X} : (vec X -> vec X) -> (vec X -> vec X) -> R -> vec X -> result (vec X) :=
  make_rk [[1%R]] [(1 / 2)%R; (1 / 2)%R].
(** base/time_stepping.py:147-157 *)
Definition classic_rk4 {X} : (vec X -> vec X) -> (vec X -> vec X) -> R -> vec X -> result (vec X) :=
  make_rk [[(1 / 2)%R]; [0%R; (1 / 2)%R]; [0%R; 0%R; 1%R]] [(1 / 6)%R; (1 / 3)%R; (1 / 3)%R; (1 / 6)%R].

(** ** spectral/time_stepping.py *)

(** spectral/time_stepping.py:54-78; [Ginv y h] is [implicit_solve(y, h)]. *)
Definition backward_forward_euler {X} (F : vec X -> vec X) (Ginv : vec X -> R -> vec X) (dt : R) (u0 : vec X) : vec X :=
  let g := vadd u0 (vscal dt (F u0)) in
  Ginv g dt.

(** spectral/time_stepping.py:81-114 *)
Definition crank_nicolson_rk2 {X} (F G : vec X -> vec X) (Ginv : vec X -> R -> vec X) (dt : R) (u0 : vec X) : vec X :=
  let g := vadd u0 (vscal (1 / 2 * dt) (G u0)) in
  let h1 := F u0 in
  let u1 := Ginv (vadd g (vscal dt h1)) (1 / 2 * dt)%R in
  let h2 := vscal (1 / 2) (vadd (F u1) h1) in
  Ginv (vadd g (vscal dt h2)) (1 / 2 * dt)%R.

(** spectral/time_stepping.py:117-170. The length test is Python's chained comparison
    [len(alphas) - 1 != len(betas) != len(gammas)]. *)
Definition low_storage_rk_cn {X} (alphas betas gammas : list R)
  (F G : vec X -> vec X) (Ginv : vec X -> R -> vec X) (dt : R) (u0 : vec X) : result (vec X) :=
  if negb (Z.of_nat (length alphas) - 1 =? Z.of_nat (length betas))%Z
     && negb (length betas =? length gammas)%nat then Err EValue
  else
    let* r := foldM (fun hu k =>
           let '(h, u) := hu in
           match nth_error betas k, nth_error alphas (k + 1), nth_error alphas k, nth_error gammas k with
           | Some bk, Some a1, Some a0, Some gk =>
               let h' := vadd (F u) (vscal bk h) in
               let mu := (1 / 2 * dt * (a1 - a0))%R in
               let u' := Ginv (vadd (vadd u (vscal (gk * dt) h')) (vscal mu (G u))) mu in
               Ok (h', u')
           | _, _, _, _ => Err EIndex
           end) (vzero, u0) (seq 0 (length betas)) in
    Ok (snd r).

(** spectral/time_stepping.py:173-183 *)
Definition crank_nicolson_rk3 {X} : (vec X -> vec X) -> (vec X -> vec X) -> (vec X -> R -> vec X) -> R -> vec X -> result (vec X) :=
  low_storage_rk_cn [0; 1 / 3; 3 / 4; 1]%R [0; - (5 / 9); - (153 / 128)]%R [1 / 3; 15 / 16; 8 / 15]%R.

(** spectral/time_stepping.py:186-197; decimal literals read as exact decimals. *)
Definition crank_nicolson_rk4 {X} : (vec X -> vec X) -> (vec X -> vec X) -> (vec X -> R -> vec X) -> R -> vec X -> result (vec X) :=
  low_storage_rk_cn
    [0; 1496590219993 / 10000000000000; 3704009573644 / 10000000000000; 6222557631345 / 10000000000000; 9582821306748 / 10000000000000; 1]%R
    [0; - (4178904745 / 10000000000); - (1192151694643 / 1000000000000); - (1697784692471 / 1000000000000); - (1514183444257 / 1000000000000)]%R
    [1496590219993 / 10000000000000; 3792103129999 / 10000000000000; 8229550293869 / 10000000000000; 6994504559488 / 10000000000000; 1530572479681 / 10000000000000]%R.

(** spectral/time_stepping.py:200-213 [ImExButcherTableau]: the set of the four lengths must be a singleton. *)
Record imex_tableau := mkimex { ia_ex : list (list R); ia_im : list (list R); ib_ex : list R; ib_im : list R }.
Definition imex_butcher_tableau (a_ex a_im : list (list R)) (b_ex b_im : list R) : result imex_tableau :=
  if ((length a_im + 1 =? length a_ex + 1) && (length b_ex =? length a_ex + 1) && (length b_im =? length a_ex + 1))%nat%bool
  then Ok (mkimex a_ex a_im b_ex b_im) else Err EValue.

(** [any(a\[j\]\[i\] for j in js)], short-circuiting. *)
Fixpoint any_coef (a : list (list R)) (i : nat) (js : list nat) : result bool :=
  match js with
  | [] => Ok false
  | j :: js' => match nth_error a j with
                | None => Err EIndex
                | Some row => match nth_error row i with
                              | None => Err EIndex
                              | Some c => if nz c then Ok true else any_coef a i js'
                              end
                end
  end.
(** [any(a\[j\]\[i\] for j in range(i, num_steps - 1)) or b\[i\]] *)
Definition stage_needed (a : list (list R)) (b : list R) (i num_steps : nat) : result bool :=
  let* x := any_coef a i (seq i (num_steps - 1 - i)) in
  if x then Ok true else match nth_error b i with None => Err EIndex | Some c => Ok (nz c) end.

(** spectral/time_stepping.py:216-259 [imex_runge_kutta]. The second and third components of the
    result are logs: the stages at which [explicit_terms] and [implicit_terms] were evaluated. *)
Definition imex_runge_kutta {X} (t : imex_tableau) (F G : vec X -> vec X) (Ginv : vec X -> R -> vec X) (dt : R) (y0 : vec X)
  : result (vec X * list nat * list nat) :=
  let num_steps := length (ib_ex t) in
  match num_steps with
  | O => Err EIndex
  | S _ =>
      let* st := foldM (fun st i =>
           let '(f, g, lf, lg) := st in
           match nth_error (ia_ex t) (i - 1), nth_error (ia_im t) (i - 1) with
           | Some row_ex, Some row_im =>
               let* sex := wsum row_ex f i in                              (* 244 *)
               let* sim := wsum row_im g i in                              (* 245 *)
               let Y_star := vadd (vadd y0 (vscal dt sex)) (vscal dt sim) in
               match nth_error row_im i with
               | None => Err EIndex
               | Some aii =>
                   let Y := Ginv Y_star (dt * aii)%R in                    (* 247 *)
                   let* nf := stage_needed (ia_ex t) (ib_ex t) i num_steps in   (* 248-249 *)
                   let* ng := stage_needed (ia_im t) (ib_im t) i num_steps in   (* 250-251 *)
                   Ok (if nf then upd i (Some (F Y)) f else f, if ng then upd i (Some (G Y)) g else g,
                       if nf then lf ++ [i] else lf, if ng then lg ++ [i] else lg)
               end
           | _, _ => Err EIndex
           end)
         (upd 0 (Some (F y0)) (repeat None num_steps), upd 0 (Some (G y0)) (repeat None num_steps), [0%nat], [0%nat])
         (seq 1 (num_steps - 1)) in
      let '(f, g, lf, lg) := st in
      let* sex := wsum (ib_ex t) f num_steps in                            (* 253 *)
      let* sim := wsum (ib_im t) g num_steps in                            (* 254 *)
      Ok (vadd (vadd y0 (vscal dt sex)) (vscal dt sim), lf, lg)
  end.

(** spectral/time_stepping.py:262-291 *)
Definition imex_rk_sil3 {X} (F G : vec X -> vec X) (Ginv : vec X -> R -> vec X) (dt : R) (y0 : vec X)
  : result (vec X * list nat * list nat) :=
  let* t := imex_butcher_tableau
              [[1 / 3]; [1 / 6; 1 / 2]; [1 / 2; - (1 / 2); 1]]%R
              [[1 / 6; 1 / 6]; [1 / 3; 0; 1 / 3]; [3 / 8; 0; 3 / 8; 1 / 4]]%R
              [1 / 2; - (1 / 2); 1; 0]%R
              [3 / 8; 0; 3 / 8; 1 / 4]%R in
  imex_runge_kutta t F G Ginv dt y0.
