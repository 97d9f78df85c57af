(** Generated by tools/gen.py from RandomForcingProps.v: property theorems only. *)
From Verif Require Import Prelude NdArr Grids_model Spec GridProps RandomForcing_model.
From Verif Require Import RandomForcingProps.
Local Open Scope Z_scope.
Set Implicit Arguments.

(** C97. On every one-dimensional grid, for any number n of waves and any generator of random numbers that respects its arguments (choices among those offered, uniform samples within their bounds), random_forcing_module returns a force with one value per grid point that never exceeds n/2 in absolute value and changes by at most n/5 per unit of time. *)
Theorem random_forcing_bounds : forall (S K : Type) (key_of_seed : S -> K) split choice uniform (g : grid) seed n offset,
  wfg g -> gndim g = 1%nat -> length offset = 1%nat ->
  (forall key a j, a <> [] -> In (choice key a j) a) -> (forall key lo hi j, (lo <= hi)%R -> (lo <= uniform key lo hi j <= hi)%R) ->
  exists force, random_forcing_module key_of_seed split choice uniform g seed n offset = Ok force /\
    forall t, fst (force t) = nth 0 (gshape g) 0%nat /\
      forall i, (Rabs (snd (force t) i) <= INR n / 2)%R /\
        forall t', (Rabs (snd (force t') i - snd (force t) i) <= INR n / 5 * Rabs (t' - t))%R.
Proof. exact (@random_forcing_bounds_lem). Qed.
Print Assumptions random_forcing_bounds.

(** The hypotheses are met by a concrete case. *)
Example random_forcing_bounds_ex : exists force,
  random_forcing_module (fun s : nat => s) (fun k => (S k, k)) (fun _ a _ => hd 0 a) (fun _ lo hi _ => ((lo + 3 * hi) / 4)%R) (rf_grid 5) 0%nat 20 [0%Q] = Ok force /\
  (Rabs (snd (force 7%R) 2%Z) <= INR 20 / 2)%R.
Proof. exact (@random_forcing_bounds_ex_lem). Qed.

(** C97. On every domain of length 2 pi with at least 7 points the random force exerts no net force: at every time its values sum to zero, whatever the random numbers, the number of waves and the offset. *)
Theorem random_forcing_no_net_force : forall (S K : Type) (key_of_seed : S -> K) split choice uniform (g : grid) seed n offset N lo,
  g = mkgrid [N] [(2 * PI / INR N)%R] [(lo, (lo + 2 * PI)%R)] -> (7 <= N)%nat -> length offset = 1%nat ->
  (forall key a j, a <> [] -> In (choice key a j) a) ->
  exists force, random_forcing_module key_of_seed split choice uniform g seed n offset = Ok force /\
    forall t, fst (force t) = N /\ rsum N (snd (force t)) = 0%R.
Proof. exact (@random_forcing_no_net_force_lem). Qed.
Print Assumptions random_forcing_no_net_force.

(** The hypotheses are met by a concrete case. *)
Example random_forcing_no_net_force_ex : exists force,
  random_forcing_module (fun s : nat => s) (fun k => (S k, k)) (fun _ a _ => hd 0 a) (fun _ lo hi _ => ((lo + 3 * hi) / 4)%R) (rf_grid 8) 0%nat 20 [0%Q] = Ok force /\
  rsum 8 (snd (force 5%R)) = 0%R.
Proof. exact (@random_forcing_no_net_force_ex_lem). Qed.

(** C97. Refuted: the random force exerts no net force on every grid on [0, 2 pi].  On 3 points a wave of number 3 has the same value at all of them, and with these random numbers the values sum to -3/4. *)
Theorem random_forcing_coarse_refuted : ~ (forall (S K : Type) (key_of_seed : S -> K) split choice uniform seed n N,
  (0 < N)%nat -> (forall key a j, a <> [] -> In (choice key a j) a) -> (forall key lo hi j, (lo <= hi)%R -> (lo <= uniform key lo hi j <= hi)%R) ->
  exists force, random_forcing_module key_of_seed split choice uniform (mkgrid [N] [(2 * PI / INR N)%R] [(0%R, (2 * PI)%R)]) seed n [0%Q] = Ok force /\
    rsum N (snd (force 0%R)) = 0%R).
Proof. exact (@random_forcing_coarse_refuted_lem). Qed.
Print Assumptions random_forcing_coarse_refuted.

(** C97. The random force exists for one-dimensional grids only: random_forcing_module succeeds exactly when the grid has one axis and one offset is given, and raises ValueError otherwise. *)
Theorem random_forcing_one_axis : forall (S K : Type) (key_of_seed : S -> K) split choice uniform (g : grid) seed n offset, wfg g ->
  (gndim g = 1%nat /\ length offset = 1%nat -> is_ok (random_forcing_module key_of_seed split choice uniform g seed n offset)) /\
  (~ (gndim g = 1%nat /\ length offset = 1%nat) -> random_forcing_module key_of_seed split choice uniform g seed n offset = Err EValue).
Proof. exact (@random_forcing_one_axis_lem). Qed.
Print Assumptions random_forcing_one_axis.

(** The hypotheses are met by a concrete case. *)
Example random_forcing_one_axis_ex : wfg (rf_grid 5) /\ gndim (rf_grid 5) = 1%nat /\ ~ (gndim (rf_grid 5) = 1%nat /\ length [0%Q; 0%Q] = 1%nat).
Proof. exact (@random_forcing_one_axis_ex_lem). Qed.
