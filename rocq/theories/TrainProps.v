(** * Network time derivatives, input noise and training steps (C63) *)
From Verif Require Import Prelude NdArr Grids_model Spec SpecNS SpecRollout Boundaries_model BoundariesPeriodic FD_model Interp_model ArrayUtils_model PRep FDProofs FDProps InterpProofs InterpProps ArrayUtilsProps PressureProps PressureSolveProps EquationsProps Networks_model NetworksProps ForcingsProps InitProps SkillProps Rollout_model RolloutProps RolloutMoreProps EncoderProps.
Set Implicit Arguments.
Local Open Scope Z_scope.

(* @prop C63 time_derivative_network_model for every grid, every chain of modules whose output has the shape of the state, and every forcing: the new state is, channel by channel and cell by cell, the old one plus dt times (the modules' output for the old state plus the forcing of the velocity read from its channels, channel i being the component on the faces of axis i). *)
Lemma time_derivative_network_step_lem : forall g dt forcing modules (state y : arr R) Fv, wfg g -> (0 < gndim g)%nat -> shp state = gshape g ++ [gndim g] ->
  foldM (fun x module_fn => module_fn x) state modules = Ok y -> shp y = shp state ->
  (forall v, length v = gndim g -> (forall i, (i < gndim g)%nat -> gbc (nth i v dgv) = periodic_bc (gndim g) /\ is_field (garray (nth i v dgv)) g (nth i (cell_faces g) []) (fun ix => get state (ix ++ [Z.of_nat i]))) ->
     exists f, forcing v = Ok f /\ length f = gndim g /\ forall i, (i < gndim g)%nat -> shp (gdata (nth i f dga)) = gshape g /\ forall ix, inb (gshape g) ix -> get (gdata (nth i f dga)) ix = Fv i ix) ->
  exists r, time_derivative_network_model g dt forcing modules state = Ok r /\ shp r = shp state /\
    forall i ix, (i < gndim g)%nat -> inb (gshape g) ix -> get r (ix ++ [Z.of_nat i]) = (get state (ix ++ [Z.of_nat i]) + dt * (get y (ix ++ [Z.of_nat i]) + Fv i ix))%R.
Proof.
  intros g dt forcing modules state y Fv Hw Hd Hs Hy Sy Hf. unfold time_derivative_network_model, euler_integrator. cbn [hk_scan]. unfold leaf at 1. cbn [nth_error bind].
  destruct (@split_channels_ok (gshape g) (gndim g) state Hs Hd) as (l & El & Ll & Hl). rewrite El. cbn [bind].
  set (gl := map (fun uo => mkga (fst uo) (snd uo) g) (combine l (cell_faces g))).
  assert (Lg : length gl = gndim g) by (unfold gl; rewrite map_length, combine_length, faces_len; lia).
  assert (Ev : to_grid_variables g gl = Ok (map (fun a => mkgv a (periodic_bc (gndim g))) gl)).
  { unfold to_grid_variables. apply mapM_Ok. intros a Ha. unfold gl in Ha. apply in_map_iff in Ha. destruct Ha as (uo & <- & _). unfold mk_gvar. cbn [periodic_bc homogeneous btypes ggrid]. rewrite repeat_length, Nat.eqb_refl. reflexivity. }
  rewrite Ev. cbn [bind]. destruct (Hf (map (fun a => mkgv a (periodic_bc (gndim g))) gl)) as (f & Ef & Lf & Hff).
  { rewrite map_length. exact Lg. }
  { intros i Hi. rewrite (nth_map' _ _ dga dgv) by lia. cbn [gbc garray]. split; [reflexivity|]. unfold gl. rewrite (nth_map' _ _ (afull [] 0%R, []) dga) by (rewrite combine_length, faces_len; lia). rewrite combine_nth by (rewrite faces_len; lia). cbn [fst snd].
    destruct (Hl i (afull [] 0%R) Hi) as (S & V). split; [reflexivity|]. split; [apply off_eq_refl|]. split; [exact S | exact V]. }
  rewrite Ef. cbn [bind]. set (fv := map (fun a => mkgv a (periodic_bc (gndim g))) f).
  assert (Lv : length fv = gndim g) by (unfold fv; rewrite map_length; exact Lf).
  destruct (@stack_ok (gshape g) fv) as (fs & Es & Ss & Vs).
  { intros E. rewrite E in Lv. cbn in Lv. lia. }
  { intros u Hu. unfold fv in Hu. apply in_map_iff in Hu. destruct Hu as (a & <- & Ha). cbn [garray]. destruct (In_nth _ _ dga Ha) as (i & Hi & <-). apply Hff. lia. }
  rewrite Es. cbn [bind]. rewrite Hy. cbn [bind]. rewrite Ss, Lv, Sy, Hs, shape_eqb_refl. cbn [bind].
  unfold tree_axpy. assert (S1 : same_shapes [state] [amap2 Rplus y fs] = true) by (apply same_shapes_spec; cbn; congruence). rewrite S1. cbn [bind fst snd combine map]. unfold leaf. cbn [nth_error].
  eexists. split; [reflexivity|]. split; [exact Hs|]. intros i ix Hi Hix. cbn [amap2 get shp fst snd]. rewrite Vs by (try exact Hix; lia). unfold fv. rewrite (nth_map' _ _ dga dgv) by lia. cbn [garray]. rewrite (proj2 (Hff i Hi)) by exact Hix. reflexivity.
Qed.
(* @ex *)
Lemma time_derivative_network_step_ex_lem : let s := mkarr [4%nat; 1%nat] (fun ix => IZR (nth 0 ix 0)) in
  let forcing (v : list gvar) := Ok (map (fun u => mkga (amap (fun x => - x)%R (gdata (garray u))) (goff (garray u)) (ggrid (garray u))) v) in
  exists r, time_derivative_network_model enc_g (1 / 2) forcing [fun x => Ok (amap (fun a => 3 * a)%R x)] s = Ok r /\ get r [3; 0] = 6%R.
Proof.
  intros s forcing. assert (Hd : (0 < gndim enc_g)%nat) by (cbn; lia).
  destruct (@time_derivative_network_step_lem enc_g (1 / 2)%R forcing [fun x => Ok (amap (fun a => 3 * a)%R x)] s (amap (fun a => 3 * a)%R s) (fun i ix => (- get s (ix ++ [Z.of_nat i]))%R) enc_wf Hd) as (r & E & _ & V); try reflexivity.
  - intros v Lv Hv. eexists. split; [reflexivity|]. rewrite map_length. split; [exact Lv|]. intros i Hi. rewrite (nth_map' _ _ dgv dga) by lia. cbn [gdata amap shp get]. destruct (Hv i Hi) as (_ & _ & _ & S & V). split; [exact S|]. intros ix Hix. rewrite V by exact Hix. reflexivity.
  - exists r. split; [exact E|]. specialize (V 0%nat [3] Hd). cbn [app Z.of_nat] in V. rewrite V by (cbn; lia). unfold s. cbn [get amap nth]. lra.
Qed.

(** ** Noise on the input frame *)
(* @prop C63 add_noise_to_input_frame for every batch of arrays with the same rank >= 2 and a nonempty time axis (axis 1), every key splitting and every sampler with values in [-2, 2]: shapes are kept, all frames except time 0 are unchanged, and the values of frame 0 change by at most 2*|scale|, by scale times the sample. *)
Lemma input_noise_lem : forall (K : Type) (keys : K -> nat -> list K) truncated_normal batch rng scale, batch <> [] ->
  (forall k n, length (keys k n) = n) -> (forall k s ix, (Rabs (get (truncated_normal k s) ix) <= 2)%R) ->
  (forall a b, In a batch -> In b batch -> ndim a = ndim b) -> (forall a, In a batch -> (2 <= ndim a)%nat /\ (0 < nth 1 (shp a) 0)%nat) ->
  exists out, add_noise_to_input_frame keys truncated_normal batch rng scale = Ok out /\ length out = length batch /\
    forall j a b, nth_error batch j = Some a -> nth_error out j = Some b -> shp b = shp a /\
      (forall ix, nth 1 ix 0 <> 0 -> get b ix = get a ix) /\
      (exists key, In key (keys rng (length batch)) /\ forall ix, nth 1 ix 0 = 0 -> get b ix = (get a ix + scale * get (truncated_normal key (without 1 (shp a))) (without 1 ix))%R) /\
      forall ix, (Rabs (get b ix - get a ix) <= 2 * Rabs scale)%R.
Proof.
  intros K keys tn batch rng scale Hne Hk Hb Hs Hv. unfold add_noise_to_input_frame.
  destruct (@slice_leaf R batch 1 (PyInt 0) true (fun a p => shp p = without 1 (shp a))) as (z & Ez & Hz); [exact Hne | | | |].
  { intros _. unfold same_dims. destruct batch as [|a l]; [congruence|]. apply forallb_forall. intros b Hbb. apply Nat.eqb_eq. apply Hs; [right; exact Hbb | left; reflexivity]. }
  { intros a Ha. destruct (Hv a Ha) as (D & _). unfold valid_axis. lia. }
  { intros a ax Ha D. destruct (Hv a Ha) as (D2 & P). assert (ax = 1%nat) as -> by (destruct D; lia). unfold index_axis. change (0 <? 0) with false. cbv iota zeta.
    destruct (Z.leb_spec 0 0); [|lia]. destruct (Z.ltb_spec 0 (Z.of_nat (nth 1 (shp a) 0%nat))); [|lia]. cbn [andb]. eexists. split; reflexivity. }
  rewrite Ez. cbn [bind]. eexists. split; [reflexivity|]. pose proof (F2_length Hz) as Lz. assert (Lk : length (keys rng (length z)) = length z) by apply Hk. rewrite Lz. remember (keys rng (length z)) as ks eqn:Eks.
  rewrite map_length, combine_length, map_length, combine_length. split; [lia|]. intros j a b Ha Hb'.
  assert (Hj : (j < length batch)%nat) by (apply nth_error_Some; congruence). assert (Lc : (j < length (combine ks z))%nat) by (rewrite combine_length; lia).
  destruct ks as [|k0 ks0] eqn:Ek; [cbn in Lk; lia|]. rewrite <- Ek in *.
  rewrite nth_error_map in Hb'. rewrite (nth_error_nth' _ (darr0, darr0)) in Hb' by (rewrite combine_length, map_length; lia). rewrite combine_nth in Hb' by (rewrite map_length, combine_length; lia). cbn [option_map fst snd] in Hb'.
  rewrite (nth_map' _ _ (k0, darr0) darr0) in Hb' by exact Lc. rewrite combine_nth in Hb' by exact Lk. cbn [fst snd] in Hb'. rewrite (nth_error_nth _ _ _ Ha) in Hb'.
  destruct (nth_error z j) as [p|] eqn:Ep; [|apply nth_error_None in Ep; lia]. rewrite (nth_error_nth _ _ _ Ep) in Hb'. pose proof (@F2_nth _ _ _ _ _ _ _ _ Hz Ha Ep) as Sp. cbv beta in Sp. rewrite Sp in Hb'. injection Hb' as <-. cbn [shp get].
  split; [reflexivity|]. split; [|split].
  - intros ix Hix. destruct (Z.eqb_spec (nth 1 ix 0) 0); [contradiction | reflexivity].
  - exists (nth j ks k0). split; [apply nth_In; lia|]. intros ix Hix. rewrite Hix. reflexivity.
  - intros ix. destruct (nth 1 ix 0 =? 0).
    + cbn [amap get]. match goal with |- (Rabs (?u + ?v - ?u) <= _)%R => replace (u + v - u)%R with v by ring end. rewrite Rabs_mult, Rmult_comm. apply Rmult_le_compat_r; [apply Rabs_pos | apply Hb].
    + rewrite Rminus_diag_eq by reflexivity. rewrite Rabs_R0. pose proof (Rabs_pos scale). lra.
Qed.
(* @ex *)
Lemma input_noise_ex_lem : let a := mkarr [1%nat; 2%nat; 3%nat] (fun ix => IZR (nth 2 ix 0)) in
  (forall k n, length (repeat k n : list nat) = n) /\ (forall (k : nat) s ix, (Rabs (get (afull s (-2)%R) ix) <= 2)%R) /\
  exists out, add_noise_to_input_frame (fun k n => repeat k n) (fun (k : nat) s => afull s (-2)%R) [a] 7%nat (1 / 2) = Ok out /\ length out = 1%nat.
Proof.
  intros a. assert (Hr : forall k n, length (repeat k n : list nat) = n) by (intros; apply repeat_length). assert (Hb : forall (k : nat) s ix, (Rabs (get (afull s (-2)%R) ix) <= 2)%R) by (intros; cbn; rewrite Rabs_left; lra).
  split; [exact Hr|]. split; [exact Hb|]. destruct (@input_noise_lem nat (fun k n => repeat k n) (fun (k : nat) s => afull s (-2)%R) [a] 7%nat (1 / 2)%R) as (out & E & L & _); auto; [discriminate | | | exists out; auto].
  - intros x y [<- | []] [<- | []]. reflexivity.
  - intros x [<- | []]. cbn. lia.
Qed.

(** ** Training *)
Section Train.
Context {P S B L G : Type}.
Variables (lg : P -> B -> result (L * G)) (upd_fn : Z -> G -> S -> result S) (params : S -> P).
Lemma train_inv bs : forall step st fin losses, train_loop (train_step lg upd_fn params) (step, st) bs = Ok (fin, losses) ->
  length losses = length bs /\ exists states : list S, length states = length bs /\ fin = (step + Z.of_nat (length bs), state_before st states (length bs)) /\
    forall k b, nth_error bs k = Some b -> exists l gr s', lg (params (state_before st states k)) b = Ok (l, gr) /\ upd_fn (step + Z.of_nat k) gr (state_before st states k) = Ok s' /\ nth_error losses k = Some l /\ nth_error states k = Some s'.
Proof.
  induction bs as [|b bs IH]; intros step st fin losses E; cbn [train_loop] in E.
  - injection E as <- <-. split; [reflexivity|]. exists []. split; [reflexivity|]. split; [cbn; f_equal; lia|]. intros [|k] b H; discriminate.
  - unfold train_step at 1 in E. destruct (lg (params st) b) as [[l gr]|e] eqn:E1; [|discriminate]. cbn [bind fst snd] in E. destruct (upd_fn step gr st) as [s1|e] eqn:E2; [|discriminate]. cbn [bind fst snd] in E.
    destruct (train_loop _ (step + 1, s1) bs) as [[f ls]|e] eqn:E3; [|discriminate]. cbn [bind fst snd] in E. injection E as <- <-. destruct (IH _ _ _ _ E3) as (I1 & sts & I2 & I3 & I4). split; [cbn; lia|].
    exists (s1 :: sts). assert (Pk : forall k, (k <= length bs)%nat -> state_before st (s1 :: sts) (Datatypes.S k) = state_before s1 sts k) by (intros [|k] Hk; [reflexivity|]; cbn; apply nth_indep; lia).
    split; [cbn; lia|]. split; [cbn [length]; rewrite Pk by lia; rewrite I3; f_equal; lia|]. intros [|k] b' Hb; cbn [nth_error] in *.
    + injection Hb as <-. exists l, gr, s1. cbn. rewrite Z.add_0_r. auto.
    + assert (Hk : (k < length bs)%nat) by (apply nth_error_Some; congruence). destruct (I4 k b' Hb) as (l' & g' & s' & A1 & A2 & A3 & A4). exists l', g', s'. rewrite Pk by lia. split; [exact A1|]. split; [replace (step + Z.of_nat (Datatypes.S k)) with (step + 1 + Z.of_nat k) by lia; exact A2|]. auto.
Qed.
End Train.
(* @prop C63 Training on any sequence of batches with any loss, gradient and optimiser: when it returns, the step counter has advanced by the number of batches, and for each k the reported loss number k and its gradient are those of batch k at the parameters reached after exactly k updates, the update being called with step number start + k on the state of that moment. *)
Lemma train_loop_order_lem : forall (P S B L G : Type) (loss_and_grad : P -> B -> result (L * G)) (update : Z -> G -> S -> result S) (params : S -> P) batches step st fin losses,
  train_loop (train_step loss_and_grad update params) (step, st) batches = Ok (fin, losses) ->
  length losses = length batches /\ exists states : list S, length states = length batches /\ fin = (step + Z.of_nat (length batches), state_before st states (length batches)) /\
    forall k b, nth_error batches k = Some b -> exists l gr s', loss_and_grad (params (state_before st states k)) b = Ok (l, gr) /\
      update (step + Z.of_nat k) gr (state_before st states k) = Ok s' /\ nth_error losses k = Some l /\ nth_error states k = Some s'.
Proof. intros P S B L G lg up pa bs step st fin losses E. exact (train_inv _ _ _ _ _ _ E). Qed.
(* @ex *)
Lemma train_loop_order_ex_lem : train_loop (train_step (fun p b => Ok (p - b, 2 * (p - b))) (fun step gr s => if step <? 100 then Ok (s - gr) else Err EValue) (fun s => s)) (10, 8) [1; 2; 3] = Ok ((13, -4), [7; -8; 7]).
Proof. reflexivity. Qed.
(* @prop C63 Resuming from a checkpoint: training on the batches bs1 and then, from the returned (step, state), on bs2 is training on bs1 ++ bs2, losses included and with the same failures. *)
Lemma train_loop_resume_lem : forall (S B L : Type) (step : S -> B -> result (S * L)) bs1 bs2 s,
  train_loop step s (bs1 ++ bs2) = (let* r := train_loop step s bs1 in let* q := train_loop step (fst r) bs2 in Ok (fst q, snd r ++ snd q)).
Proof.
  intros S B L step bs1 bs2. induction bs1 as [|b bs1 IH]; intros s; cbn [app train_loop].
  - cbn [bind fst snd app]. destruct (train_loop step s bs2) as [[a c]|e]; reflexivity.
  - destruct (step s b) as [[s' l]|e]; cbn [bind fst snd]; [|reflexivity]. rewrite IH. destruct (train_loop step s' bs1) as [[a c]|e]; cbn [bind fst snd]; [|reflexivity]. destruct (train_loop step a bs2) as [[a' c']|e]; reflexivity.
Qed.
(* @ex *)
Lemma train_loop_resume_ex_lem : train_loop (fun s b => Ok (s + b, s * b)) 1 ([2; 3] ++ [4]) = Ok (10, [2; 9; 24]).
Proof. reflexivity. Qed.
(* @prop C63 preprocess: batch number k that it yields is the preprocessing of batch k of the data with key k of the stream, each used exactly once and in order. *)
Lemma preprocess_order_lem : forall (B K C : Type) (f : B -> K -> result C) data rngs n out, preprocess f data rngs n = Ok out ->
  length out = n /\ forall k y, nth_error out k = Some y -> exists b r, nth_error data k = Some b /\ nth_error rngs k = Some r /\ f b r = Ok y.
Proof.
  intros B K C f data rngs n. revert data rngs. induction n as [|n IH]; intros data rngs out E; cbn [preprocess] in E.
  - injection E as <-. split; [reflexivity|]. intros [|k] y H; discriminate.
  - destruct data as [|b data]; [discriminate|]. destruct rngs as [|r rngs]; [discriminate|]. destruct (f b r) as [y|e] eqn:Ey; [|discriminate]. cbn [bind] in E. destruct (preprocess f data rngs n) as [l|e] eqn:El; [|discriminate]. cbn [bind] in E. injection E as <-.
    destruct (IH _ _ _ El) as (I1 & I2). split; [cbn; lia|]. intros [|k] z Hz; cbn [nth_error] in *; [injection Hz as <-; eauto | exact (I2 k z Hz)].
Qed.
(* @ex *)
Lemma preprocess_order_ex_lem : preprocess (fun b k => Ok (b * k)) [1; 2; 3] [5; 6; 7; 8] 2 = Ok [5; 12].
Proof. reflexivity. Qed.
