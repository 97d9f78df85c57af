(** * Model of jax_cfd/ml/model_builder.py, jax_cfd/ml/model_utils.py, jax_cfd/ml/time_integrators.py,
    jax_cfd/ml/encoders.py, jax_cfd/ml/decoders.py (without the trainable ones) and of the training loop pieces of
    jax_cfd/ml/train_utils.py.  States are of any type; data are pytrees of arrays (the list of the leaves), time first. *)
From Verif Require Import Prelude NdArr Grids_model Boundaries_model FD_model Interp_model ArrayUtils_model Networks_model.
Set Implicit Arguments.
Local Open Scope Z_scope.

(** [hk.scan(f, init, None, length)] outside of initialisation: a loop that collects the outputs; an exception in [f]
    ends it. *)
Fixpoint hk_scan {X Y : Type} (f : X -> result (X * Y)) (init : X) (length : nat) : result (X * list Y) :=
  match length with
  | O => Ok (init, [])
  | S n => let* cy := f init in
           let* r := hk_scan f (fst cy) n in
           Ok (fst r, snd cy :: snd r)
  end.
(** ml/model_builder.py:105-111 [repeated] *)
Definition ml_repeated {X : Type} (fn : X -> result X) (steps : nat) (x_initial : X) : result X :=
  let* r := hk_scan (fun x => let* y := fn x in Ok (y, tt)) x_initial steps in Ok (fst r).
(** ml/model_builder.py:115-157 [trajectory_from_step] ([hk.remat] does not change values) *)
Definition trajectory_from_step {X Y : Type} (step_fn : X -> result X) (outer_steps inner_steps : nat)
  (start_with_input : bool) (post_process_fn : X -> result Y) (x : X) : result (X * list Y) :=
  let step_fn := if (inner_steps =? 1)%nat then step_fn else ml_repeated step_fn inner_steps in
  hk_scan (fun carry_in => let* carry_out := step_fn carry_in in
                           let* y := post_process_fn (if start_with_input then carry_in else carry_out) in
                           Ok (carry_out, y)) x outer_steps.

(** How scan returns the collected outputs: leaf by leaf, stacked along a new leading axis.  The outputs of a scan all have
    the same structure and shapes; a scan of length 0 (whose output shapes come from abstract evaluation) is not modelled. *)
Definition same_shapes {A} (a b : list (arr A)) : bool :=
  (length a =? length b)%nat && forallb (fun xy => shape_eqb (shp (fst xy)) (shp (snd xy))) (combine a b).
Definition stack_frames {A} (d : arr A) (frames : list (list (arr A))) : result (list (arr A)) :=
  match frames with
  | [] => Err EUnbound
  | f0 :: _ =>
      if forallb (same_shapes f0) frames
      then Ok (map (fun j => mkarr (length frames :: shp (nth j f0 d))
                                   (fun ix => get (nth j (nth (Z.to_nat (nth 0 ix 0)) frames []) d) (tl ix))) (seq 0 (length f0)))
      else Err EType
  end.

(** ml/model_utils.py:7-13 [with_preprocessing] *)
Definition with_preprocessing {A B C : Type} (fn : B -> result C) (preprocess_fn : A -> result B) (x : A) : result C :=
  let* y := preprocess_fn x in fn y.
(** ml/model_utils.py:26-46 [with_split_input] *)
Definition with_split_input {A C : Type} (fn : list (arr A) -> result C) (split_index time_axis : Z) (x : list (arr A)) : result C :=
  let* p := split_along_axis x split_index time_axis true in fn (fst p).
(** ml/model_utils.py:49-56 [with_input_included] *)
Definition with_input_included {A S : Type} (trajectory_fn : list (arr A) -> result (S * list (arr A))) (time_axis : Z) (x : list (arr A)) :
  result (S * list (arr A)) :=
  let* fu := trajectory_fn x in
  let* l := concat_along_axis [x; snd fu] time_axis in
  Ok (fst fu, l).
(** ml/model_utils.py:59-87 [decoded_trajectory_with_inputs], for a model given by [encode], [decode], [advance]
    (ml/model_builder.py:52-66 [DynamicalSystem.trajectory], 70-96 [ModularStepModel]) *)
Definition decoded_trajectory_with_inputs {A S : Type} (d : arr A) (encode : list (arr A) -> result S) (decode : S -> result (list (arr A)))
  (advance : S -> result S) (num_init_frames : Z) (x : list (arr A)) (outer_steps inner_steps : nat) : result (S * list (arr A)) :=
  let trajectory_fn s := let* r := trajectory_from_step advance outer_steps inner_steps false decode s in
                         let* l := stack_frames d (snd r) in Ok (fst r, l) in
  with_split_input (with_input_included (with_preprocessing trajectory_fn encode) 0) num_init_frames 0 x.

(** ml/time_integrators.py:11-36 [euler_integrator]; the state is a pytree of arrays.  [jax.tree.map] needs the same
    number of leaves; adding arrays of different shapes (broadcasting) is not modelled and an error here. *)
Definition tree_axpy (dt : R) (x dx : list (arr R)) : result (list (arr R)) :=
  if same_shapes x dx then Ok (map (fun xy => amap2 (fun a b => a + dt * b)%R (fst xy) (snd xy)) (combine x dx)) else Err EValue.
Definition euler_integrator (derivative_module : list (arr R) -> result (list (arr R))) (initial_state : list (arr R)) (dt : R) (num_steps : nat) :
  result (list (arr R) * list (list (arr R))) :=
  hk_scan (fun state => let* deriv := derivative_module state in
                        let* next_state := tree_axpy dt state deriv in
                        Ok (next_state, next_state)) initial_state num_steps.
(** ml/equations.py:149-197 [time_derivative_network_model] with its default integrator *)
Definition time_derivative_network_model (g : grid) (dt : R) (active_forcing_fn : list gvar -> result (list garr))
  (derivative_modules : list (arr R -> result (arr R))) (state : arr R) : result (arr R) :=
  let time_derivative_fn x :=
    let* v := split_channels x in
    let* v := to_grid_variables g (map (fun uo => mkga (fst uo) (snd uo) g) (combine v (cell_faces g))) in
    let* f := active_forcing_fn v in
    let* forcing_scalars := stack_aligned_field (map (fun a => mkgv a (periodic_bc (gndim g))) f) in
    let* x := foldM (fun x module_fn => module_fn x) x derivative_modules in
    if shape_eqb (shp x) (shp forcing_scalars) then Ok [amap2 Rplus x forcing_scalars] else Err EShape in
  let* r := euler_integrator (fun t => let* x := leaf 0 t in time_derivative_fn x) [state] dt 1 in
  leaf 0 (fst r).

(** ** Encoders and decoders *)
(** [slice_last_fn] of ml/encoders.py:39 *)
Definition slice_last {A} (x : arr A) : result (arr A) :=
  let* l := slice_along_axis [x] 0 (PyInt (-1)) true in leaf 0 l.
(** ml/encoders.py:27-53 [aligned_array_encoder] for specifications without combo_offsets / combo_boundaries *)
Definition aligned_array_encoder (g : grid) (inputs : list (arr R)) : result (list gvar) :=
  mapM (fun xo => let* y := slice_last (fst xo) in impose_bc (periodic_bc (gndim g)) (mkga y (snd xo) g)) (combine inputs (cell_faces g)).
(** ml/decoders.py:42-52 [aligned_array_decoder] *)
Definition aligned_array_decoder (v : list gvar) : list (arr R) := map (fun x => gdata (garray x)) v.
(** ml/encoders.py:57-78 [collocated_to_staggered_encoder] *)
Definition collocated_to_staggered_encoder (g : grid) (inputs : list (arr R)) : result (list gvar) :=
  let* pre := mapM (fun x => let* y := slice_last x in mk_gvar (mkga y (cell_center g) g) (periodic_bc (gndim g))) inputs in
  mapM (fun co => linear_interp (fst co) (snd co)) (combine pre (cell_faces g)).
(** ml/decoders.py:56-67 [staggered_to_collocated_decoder] *)
Definition staggered_to_collocated_decoder (g : grid) (inputs : list gvar) : result (list (arr R)) :=
  let* l := mapM (fun c => linear_interp c (cell_center g)) inputs in
  Ok (map (fun x => gdata (garray x)) l).
(** ml/encoders.py:82-92 [slice_last_state_encoder] *)
Definition slice_last_state_encoder {A} (time_axis : Z) (inputs : list (arr A)) : result (list (arr A)) :=
  slice_along_axis inputs time_axis (PyInt (-1)) true.
(** [jnp.moveaxis(x, source, -1)] *)
Definition move_to_last {A} (source : Z) (x : arr A) : result (arr A) :=
  let* ax := normalize_axis source (ndim x) in
  Ok (mkarr (remove_at ax (shp x) ++ [nth ax (shp x) 0%nat]) (fun ix => get x (insert_at ax (last ix 0) (removelast ix)))).
(** ml/encoders.py:96-108 [slice_last_n_state_encoder]: the slice is taken on axis 0 whatever [time_axis] is *)
Definition slice_last_n_state_encoder {A} (n time_axis : Z) (inputs : list (arr A)) : result (list (arr A)) :=
  let* init_slice := slice_along_axis inputs 0 (PySlice (Some (- n)) None 1) true in
  mapM (move_to_last time_axis) init_slice.
(** ml/encoders.py:112-126 [stack_last_n_state_encoder] *)
Definition stack_last_n_state_encoder {A} (n time_axis : Z) (inputs : list (arr A)) : result (arr A) :=
  let* inputs := slice_along_axis inputs 0 (PySlice (Some (- n)) None 1) true in
  let* inputs := mapM (move_to_last time_axis) inputs in
  let* l := concat_along_axis (map (fun x => [x]) inputs) (-1) in
  leaf 0 l.

(** ** Training *)
(** ml/train_utils.py:85-118 [train_step]; [loss_and_grad_fn] is any function *)
Definition train_step {P S B L G : Type} (loss_and_grad_fn : P -> B -> result (L * G)) (update_fn : Z -> G -> S -> result S) (get_params_fn : S -> P)
  (step_and_state : Z * S) (target_trajectory : B) : result ((Z * S) * L) :=
  let (step, optimizer_state) := step_and_state in
  let params := get_params_fn optimizer_state in
  let* lg := loss_and_grad_fn params target_trajectory in
  let* optimizer_state := update_fn step (snd lg) optimizer_state in
  Ok ((step + 1, optimizer_state), fst lg).
(** A training loop: one step per batch, collecting the losses. *)
Fixpoint train_loop {S B L : Type} (step : S -> B -> result (S * L)) (s : S) (batches : list B) : result (S * list L) :=
  match batches with
  | [] => Ok (s, [])
  | b :: bs => let* r := step s b in let* q := train_loop step (fst r) bs in Ok (fst q, snd r :: snd q)
  end.
(** ml/train_utils.py:180-206 [add_noise_to_input_frame]; [keys] is [jax.random.split] and [truncated_normal] the sampler
    [jax.random.truncated_normal(key, -2., 2., shape)].  [x.at\[:, 0, ...\].add(n)] of an array with at least two axes. *)
Definition add_noise_to_input_frame {K : Type} (keys : K -> nat -> list K) (truncated_normal : K -> list nat -> arr R)
  (batch : list (arr R)) (rng : K) (scale : R) : result (list (arr R)) :=
  let* time_zero_slice := slice_along_axis batch 1 (PyInt 0) true in
  let rngs := keys rng (length time_zero_slice) in
  let noise := map (fun ks => amap (fun x => scale * x)%R (truncated_normal (fst ks) (shp (snd ks)))) (combine rngs time_zero_slice) in
  Ok (map (fun xn => mkarr (shp (fst xn)) (fun ix => if nth 1 ix 0 =? 0 then (get (fst xn) ix + get (snd xn) (remove_at 1 ix))%R else get (fst xn) ix)) (combine batch noise)).
(** ml/train_utils.py:209-227 [preprocess]: the [n] first batches that the generator yields *)
Fixpoint preprocess {B K C : Type} (preprocess_fn : B -> K -> result C) (data : list B) (rngs : list K) (n : nat) {struct n} : result (list C) :=
  match n, data, rngs with
  | O, _, _ => Ok []
  | S n, b :: data, r :: rngs => let* y := preprocess_fn b r in let* l := preprocess preprocess_fn data rngs n in Ok (y :: l)
  | S _, _, _ => Err EUnbound
  end.
