(** * Model of the random forcing of the spectral equations: jax_cfd/spectral/forcings.py *)
From Verif Require Import Prelude NdArr Grids_model.
Set Implicit Arguments.

(** Random numbers: [key_of_seed] is jax.random.PRNGKey, [split] jax.random.split, [choice key a] the samples of
    jax.random.choice(key, a, shape=(n,)) and [uniform key lo hi] those of jax.random.uniform, all as functions of the
    sample's number.  spectral/forcings.py:8-55 [random_forcing_module]; the result maps a time to the array of forces,
    a length and the value at each index.  [xs, = grid.axes(offset)] raises ValueError unless there is exactly one axis. *)
Definition random_forcing_module {S K : Type} (key_of_seed : S -> K) (split : K -> K * K) (choice : K -> list Z -> Z -> Z)
  (uniform : K -> R -> R -> Z -> R) (g : grid) (seed : S) (n : nat) (offset : list Q) : result (R -> nat * (Z -> R)) :=
  let key := key_of_seed seed in
  let ks := [3; 4; 5; 6]%Z in
  let (key, subkey) := split key in
  let kx := choice subkey ks in
  let (key, subkey) := split key in
  let amplitude := uniform subkey (- (1 / 2))%R (1 / 2)%R in
  let (key, subkey) := split key in
  let omega := uniform subkey (- (2 / 5))%R (2 / 5)%R in
  let (key, subkey) := split key in
  let phi := uniform subkey 0%R (2 * PI)%R in
  let* axes := grid_axes g (Some offset) in
  match axes with
  | [(len, xs)] => Ok (fun t => (len, fun i => rsum n (fun j => (amplitude j * sin (omega j * t - xs i * IZR (kx j) + phi j))%R)))
  | _ => Err EValue
  end.
