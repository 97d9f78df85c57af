(** * Rollouts of a model, encoders and decoders, training steps (C63) *)
From Verif Require Import Prelude NdArr Grids_model Spec SpecNS SpecRollout Boundaries_model BoundariesPeriodic FD_model Interp_model ArrayUtils_model PRep FDProofs FDProps InterpProps ArrayUtilsProps PressureProps PressureSolveProps EquationsProps Networks_model NetworksProps Rollout_model.
Set Implicit Arguments.
Local Open Scope Z_scope.

Lemma iterate_add {X} (f : X -> result X) m n x : iterate (m + n) f x = bind (iterate m f x) (iterate n f).
Proof. revert x; induction m as [|m IH]; intros x; [reflexivity|]. cbn. destruct (f x) as [y|e]; cbn [bind]; [apply IH | reflexivity]. Qed.
Lemma repeated_iterate {X} (f : X -> result X) n x : ml_repeated f n x = iterate n f x.
Proof.
  unfold ml_repeated. revert x; induction n as [|n IH]; intros x; [reflexivity|]. cbn. destruct (f x) as [y|e]; cbn [bind]; [|reflexivity]. rewrite <- IH. cbn [fst].
  destruct (hk_scan _ y n) as [[a b]|e]; reflexivity.
Qed.
Lemma step_iterate {X} (f : X -> result X) n x : (if (n =? 1)%nat then f else ml_repeated f n) x = iterate n f x.
Proof. destruct (Nat.eqb_spec n 1) as [->|H]; [cbn; destruct (f x); reflexivity | apply repeated_iterate]. Qed.

Section Traj.
Context {X Y : Type}.
Variables (f : X -> result X) (swi : bool) (post : X -> result Y).
Definition at_frame (inner k : nat) : nat := ((if swi then k else k + 1) * inner)%nat.
Lemma traj_S outer inner x : trajectory_from_step f (S outer) inner swi post x =
  let* c := iterate inner f x in let* y := post (if swi then x else c) in let* r := trajectory_from_step f outer inner swi post c in Ok (fst r, y :: snd r).
Proof. unfold trajectory_from_step. cbn [hk_scan]. rewrite step_iterate. destruct (iterate inner f x) as [c|e]; cbn [bind]; [|reflexivity]. destruct (post _) as [y|e]; reflexivity. Qed.
Lemma traj_inv outer inner : forall x xf frames, trajectory_from_step f outer inner swi post x = Ok (xf, frames) ->
  iterate (outer * inner) f x = Ok xf /\ length frames = outer /\ forall k y, nth_error frames k = Some y -> exists s, iterate (at_frame inner k) f x = Ok s /\ post s = Ok y.
Proof.
  induction outer as [|o IH]; intros x xf frames E.
  - cbn in E. injection E as <- <-. split; [reflexivity|]. split; [reflexivity|]. intros [|k] y H; discriminate.
  - rewrite traj_S in E. destruct (iterate inner f x) as [c|e] eqn:Ec; [|discriminate]. cbn [bind] in E. destruct (post _) as [y|e] eqn:Ey; [|discriminate]. cbn [bind] in E.
    destruct (trajectory_from_step f o inner swi post c) as [[a b]|e] eqn:Er; [|discriminate]. cbn [bind fst snd] in E. injection E as <- <-. destruct (IH c a b Er) as (I1 & I2 & I3).
    split; [|split].
    + cbn [Nat.mul]. rewrite iterate_add, Ec. exact I1.
    + cbn. congruence.
    + intros [|k] z Hz; cbn in Hz.
      * injection Hz as <-. unfold at_frame. destruct swi; [exists x; split; [reflexivity | exact Ey] | exists c; split; [cbn [Nat.add Nat.mul]; rewrite Nat.add_0_r; exact Ec | exact Ey]].
      * destruct (I3 k z Hz) as (s & Es & Ps). exists s. split; [|exact Ps]. revert Es. unfold at_frame. intros Es.
        replace ((if swi then S k else S k + 1) * inner)%nat with (inner + (if swi then k else k + 1) * inner)%nat by (destruct swi; cbn; lia). rewrite iterate_add, Ec. exact Es.
Qed.
Lemma traj_ok outer inner : forall x, (exists xf, iterate (outer * inner) f x = Ok xf) -> (forall k, (k < outer)%nat -> exists s y, iterate (at_frame inner k) f x = Ok s /\ post s = Ok y) ->
  exists r, trajectory_from_step f outer inner swi post x = Ok r.
Proof.
  induction outer as [|o IH]; intros x (xf & Ef) H; [eexists; reflexivity|]. rewrite traj_S. cbn [Nat.mul] in Ef. rewrite iterate_add in Ef. destruct (iterate inner f x) as [c|e] eqn:Ec; [|discriminate]. cbn [bind] in *.
  assert (P0 : exists y, post (if swi then x else c) = Ok y).
  { destruct (H 0%nat ltac:(lia)) as (s & y & Es & Ey). unfold at_frame in Es. destruct swi; cbn in Es; [injection Es as <-; eauto|]. rewrite Nat.add_0_r, Ec in Es. injection Es as <-. eauto. }
  destruct P0 as (y & Ey). rewrite Ey. cbn [bind]. destruct (IH c) as (r & Er); [eauto | |rewrite Er; eexists; reflexivity].
  intros k Hk. destruct (H (S k) ltac:(lia)) as (s & z & Es & Ez). exists s, z. split; [|exact Ez]. unfold at_frame in *.
  replace ((if swi then S k else S k + 1) * inner)%nat with (inner + (if swi then k else k + 1) * inner)%nat in Es by (destruct swi; cbn; lia). rewrite iterate_add, Ec in Es. exact Es.
Qed.
End Traj.
(* @prop C63 model.trajectory (trajectory_from_step) with any step and post-processing functions, which may fail: it returns exactly when the outer_steps * inner_steps steps and the post-processing of the saved states all succeed; then the final state is the input advanced outer_steps * inner_steps times, there are outer_steps frames, and frame k is the post-processed state after (k + 1) * inner_steps steps (k * inner_steps with start_with_input). *)
Lemma rollout_frames_lem : forall (X Y : Type) (step : X -> result X) outer inner (swi : bool) (post : X -> result Y) x,
  (forall xf frames, trajectory_from_step step outer inner swi post x = Ok (xf, frames) ->
     iterate (outer * inner) step x = Ok xf /\ length frames = outer /\
     forall k y, nth_error frames k = Some y -> exists s, iterate ((if swi then k else k + 1) * inner) step x = Ok s /\ post s = Ok y) /\
  ((exists r, trajectory_from_step step outer inner swi post x = Ok r) <->
     (exists xf, iterate (outer * inner) step x = Ok xf) /\
     forall k, (k < outer)%nat -> exists s y, iterate ((if swi then k else k + 1) * inner) step x = Ok s /\ post s = Ok y).
Proof.
  intros X Y step outer inner swi post x. split; [intros xf frames E; exact (traj_inv _ _ _ _ _ _ E)|]. split.
  - intros ([xf frames] & E). destruct (traj_inv _ _ _ _ _ _ E) as (A & B & C). split; [eauto|]. intros k Hk. destruct (nth_error frames k) as [y|] eqn:Ey; [|apply nth_error_None in Ey; lia].
    destruct (C k y Ey) as (s & Es & Ps). eauto.
  - intros (A & B). exact (@traj_ok X Y step swi post outer inner x A B).
Qed.
(* @ex *)
Lemma rollout_frames_ex_lem : trajectory_from_step (fun x => Ok (2 * x)) 3 2 false (fun x => Ok (x + 1)) 1 = Ok (64, [5; 17; 65]) /\
  trajectory_from_step (fun x => if x <? 10 then Ok (2 * x) else Err EValue) 3 2 true (fun x => Ok (x + 1)) 1 = Err EValue.
Proof. split; reflexivity. Qed.
(* @prop C63 Checkpointing a rollout: a trajectory of m + n outer steps is the trajectory of m steps followed by the trajectory of n steps from its final state (same final state, frames appended, same failures), for all m, n, inner steps and functions. *)
Lemma rollout_restart_lem : forall (X Y : Type) (step : X -> result X) m n inner (swi : bool) (post : X -> result Y) x,
  trajectory_from_step step (m + n) inner swi post x =
  (let* r := trajectory_from_step step m inner swi post x in
   let* q := trajectory_from_step step n inner swi post (fst r) in Ok (fst q, snd r ++ snd q)).
Proof.
  intros X Y step m n inner swi post. induction m as [|m IH]; intros x.
  - cbn [Nat.add]. unfold trajectory_from_step at 2. cbn [hk_scan bind fst snd app]. destruct (trajectory_from_step step n inner swi post x) as [[a b]|e]; reflexivity.
  - cbn [Nat.add]. rewrite !traj_S. destruct (iterate inner step x) as [c|e]; cbn [bind]; [|reflexivity]. destruct (post _) as [y|e]; cbn [bind]; [|reflexivity]. rewrite IH.
    destruct (trajectory_from_step step m inner swi post c) as [[a b]|e]; cbn [bind fst snd]; [|reflexivity]. destruct (trajectory_from_step step n inner swi post a) as [[a' b']|e]; reflexivity.
Qed.
(* @ex *)
Lemma rollout_restart_ex_lem : trajectory_from_step (fun x => Ok (3 * x)) (1 + 2) 1 true (fun x => Ok x) 1 = Ok (27, [1; 3; 9]).
Proof. reflexivity. Qed.
(* @prop C63 Saving less often does not change what is saved: with inner_steps = n > 0, frame k of a rollout is frame (k + 1) * n - 1 of the rollout that saves every step, and the final states agree. *)
Lemma rollout_subsampling_lem : forall (X Y : Type) (step : X -> result X) outer inner (post : X -> result Y) x xf all, (0 < inner)%nat ->
  trajectory_from_step step (outer * inner) 1 false post x = Ok (xf, all) ->
  exists frames, trajectory_from_step step outer inner false post x = Ok (xf, frames) /\ length frames = outer /\
    forall k, (k < outer)%nat -> nth_error frames k = nth_error all ((k + 1) * inner - 1).
Proof.
  intros X Y step outer inner post x xf all Hi E. destruct (traj_inv _ _ _ _ _ _ E) as (A & B & C). rewrite Nat.mul_1_r in A.
  assert (Fr : forall k, (k < outer)%nat -> exists y s, nth_error all ((k + 1) * inner - 1) = Some y /\ iterate ((k + 1) * inner) step x = Ok s /\ post s = Ok y).
  { intros k Hk. destruct (nth_error all ((k + 1) * inner - 1)) as [y|] eqn:Ey; [|apply nth_error_None in Ey; nia]. destruct (C _ y Ey) as (s & Es & Ps). exists y, s. split; [reflexivity|]. split; [|exact Ps].
    unfold at_frame in Es. rewrite Nat.mul_1_r in Es. replace ((k + 1) * inner)%nat with ((k + 1) * inner - 1 + 1)%nat by nia. exact Es. }
  destruct (@traj_ok X Y step false post outer inner x) as ([xf' frames] & E'); [eauto | intros k Hk; destruct (Fr k Hk) as (y & s & _ & Es & Ps); exists s, y; auto|].
  destruct (traj_inv _ _ _ _ _ _ E') as (A' & B' & C'). rewrite A in A'. injection A' as <-. exists frames. split; [exact E'|]. split; [exact B'|]. intros k Hk. destruct (Fr k Hk) as (y & s & Ey & Es & Ps). rewrite Ey.
  destruct (nth_error frames k) as [z|] eqn:Ez; [|apply nth_error_None in Ez; lia]. destruct (C' k z Ez) as (s' & Es' & Ps'). unfold at_frame in Es'. rewrite Es in Es'. injection Es' as <-. congruence.
Qed.
(* @ex *)
Lemma rollout_subsampling_ex_lem : (0 < 2)%nat /\ trajectory_from_step (fun x => Ok (2 * x)) (2 * 2) 1 false (fun x => Ok x) 1 = Ok (16, [2; 4; 8; 16]).
Proof. split; [lia | reflexivity]. Qed.

(** ** Trajectories decoded and joined to the input frames *)
Lemma stack_ok' {A} (d : arr A) frames ss : frames <> [] -> (forall y, In y frames -> map shp y = ss) ->
  exists l, stack_frames d frames = Ok l /\ length l = length ss /\
    forall j p, nth_error l j = Some p -> shp p = length frames :: nth j ss [] /\ forall k ix, (k < length frames)%nat -> get p (Z.of_nat k :: ix) = get (nth j (nth k frames []) d) ix.
Proof.
  intros Hne H. destruct frames as [|f0 fs]; [congruence|]. unfold stack_frames. pose proof (H f0 (or_introl eq_refl)) as H0.
  assert (E : forallb (same_shapes f0) (f0 :: fs) = true).
  { apply forallb_forall. intros y Hy. specialize (H y Hy). unfold same_shapes. assert (L : length f0 = length y) by (rewrite <- (map_length shp f0), <- (map_length shp y); congruence). rewrite L, Nat.eqb_refl. cbn [andb].
    rewrite <- H0 in H. clear H0 Hy Hne. revert f0 H L. induction y as [|b y IH]; intros [|a f0] H L; cbn in *; try discriminate; [reflexivity|]. injection H as H1 H2. rewrite H1, shape_eqb_refl. cbn [andb]. apply IH; [exact H2 | lia]. }
  rewrite E. eexists. split; [reflexivity|]. rewrite map_length, seq_length. split; [rewrite <- H0, map_length; reflexivity|]. intros j p Hp.
  assert (Hj : (j < length f0)%nat). { assert (Hl : nth_error (map (fun j0 => mkarr (length (f0 :: fs) :: shp (nth j0 f0 d)) (fun ix => get (nth j0 (nth (Z.to_nat (nth 0 ix 0)) (f0 :: fs) []) d) (tl ix))) (seq 0 (length f0))) j <> None) by congruence. apply nth_error_Some in Hl. rewrite map_length, seq_length in Hl. exact Hl. }
  rewrite nth_error_map, (nth_error_nth' _ 0%nat) in Hp by (rewrite seq_length; exact Hj). rewrite seq_nth in Hp by exact Hj. cbn [option_map] in Hp. injection Hp as <-. cbn [shp get Nat.add]. split.
  - f_equal. rewrite <- H0. rewrite (nth_indep (map shp f0) [] (shp d)) by (rewrite map_length; exact Hj). rewrite map_nth. reflexivity.
  - intros k ix Hk. cbn [nth tl]. rewrite Nat2Z.id. reflexivity.
Qed.
Lemma concat_frames {A} (a b : arr A) s n m F G : has_frames a n s F -> has_frames b m s G ->
  exists r, concatenate [a; b] 0 = Ok r /\ has_frames r (n + m) s (fun k ix => if (k <? n)%nat then F k ix else G (k - n)%nat ix).
Proof.
  intros (A1 & A2) (B1 & B2). unfold concatenate. rewrite (@denotes_norm 0 (ndim a) 0%nat) by (unfold denotes, ndim; rewrite A1; cbn; lia). cbn [bind forallb]. unfold ndim. rewrite A1, B1. cbn [length]. rewrite !Nat.eqb_refl. cbn [andb].
  assert (E : forall t l, forallb (fun j => (j =? 0)%nat || (nth j (t :: s) 0 =? nth j (n :: s) 0)%nat) l = true) by (intros t l; apply forallb_forall; intros [|j] _; [reflexivity | cbn; rewrite Nat.eqb_refl; reflexivity]).
  rewrite !E. cbn [andb map fold_right nth upd]. eexists. split; [reflexivity|]. split; cbn [shp get]; [rewrite ?A1, ?B1; cbn [nth upd]; rewrite Nat.add_0_r; reflexivity|].
  intros k ix Hk Hix. cbn [concat_lines nth upd]. rewrite A1, B1. cbn [nth]. destruct (Nat.ltb_spec k n) as [L|L].
  - destruct (Z.ltb_spec (Z.of_nat k) (Z.of_nat n)); [|lia]. apply A2; assumption.
  - destruct (Z.ltb_spec (Z.of_nat k) (Z.of_nat n)); [lia|]. destruct (Z.ltb_spec (Z.of_nat k - Z.of_nat n) (Z.of_nat m)); [|lia]. replace (Z.of_nat k - Z.of_nat n) with (Z.of_nat (k - n)%nat) by lia. apply B2; [lia | exact Hix].
Qed.
(* @prop C63 decoded_trajectory_with_inputs for every model (encoder, decoder and step, which may fail) and every collection of arrays with at least num_init_frames time steps: the encoder sees exactly the first num_init_frames frames (nothing later can influence the prediction), its errors are passed on, and otherwise each output has num_init_frames + outer_steps frames: the input frames, then the decoded states after inner_steps, 2 * inner_steps, ... steps; the returned state is the encoded one advanced outer_steps * inner_steps times. *)
Lemma decoded_rollout_lem : forall (A S : Type) (d : arr A) (encode : list (arr A) -> result S) (decode : S -> result (list (arr A))) (advance : S -> result S) n x ss outer inner,
  x <> [] -> (0 < outer)%nat -> Forall2 (fun a s => exists T, shp a = T :: s /\ (n <= T)%nat) x ss -> (forall s s', In s ss -> In s' ss -> length s = length s') ->
  exists first, Forall2 (fun a p => has_frames p n (tl (shp a)) (fun k ix => get a (Z.of_nat k :: ix))) x first /\
    (forall e, encode first = Err e -> decoded_trajectory_with_inputs d encode decode advance (Z.of_nat n) x outer inner = Err e) /\
    forall s0 sf ys, encode first = Ok s0 -> iterate (outer * inner) advance s0 = Ok sf -> length ys = outer ->
      (forall k y, nth_error ys k = Some y -> map shp y = ss /\ exists s, iterate ((k + 1) * inner) advance s0 = Ok s /\ decode s = Ok y) ->
      exists out, decoded_trajectory_with_inputs d encode decode advance (Z.of_nat n) x outer inner = Ok (sf, out) /\ length out = length x /\
        forall j a o, nth_error x j = Some a -> nth_error out j = Some o ->
          has_frames o (n + outer) (tl (shp a)) (fun k ix => if (k <? n)%nat then get a (Z.of_nat k :: ix) else get (nth j (nth (k - n) ys []) d) ix).
Proof.
  intros A S d encode decode advance n x ss outer inner Hne Ho Hx Hs.
  assert (Hv : forall a, In a x -> exists s T, In s ss /\ shp a = T :: s /\ (n <= T)%nat).
  { intros a Ha. destruct (In_nth_error _ _ Ha) as (j & Hj). destruct (nth_error ss j) as [s|] eqn:Es; [|apply nth_error_None in Es; rewrite <- (F2_length Hx) in Es; apply nth_error_None in Es; congruence].
    destruct (@F2_nth _ _ _ _ _ _ _ _ Hx Hj Es) as (T & E1 & E2). exists s, T. split; [exact (nth_error_In _ _ Es) | auto]. }
  destruct (@split_along_axis_spec_lem A x (Z.of_nat n) 0 true Hne) as (f & sec & Ef & Hf & _).
  { intros a Ha. destruct (Hv a Ha) as (s & T & _ & E & _). unfold valid_axis, ndim. rewrite E. cbn [length]. lia. }
  { intros _ a b Ha Hb. destruct (Hv a Ha) as (s & T & I1 & E & _). destruct (Hv b Hb) as (s' & T' & I2 & E' & _). unfold ndim. rewrite E, E'. cbn. f_equal. auto. }
  assert (Hf' : Forall2 (fun a p => has_frames p n (tl (shp a)) (fun k ix => get a (Z.of_nat k :: ix))) x f).
  { apply Forall2_of_nth; [exact (F2_length Hf)|]. intros j a p Ha Hp. destruct (@F2_nth _ _ _ _ _ _ _ _ Hf Ha Hp) as (ax & D & P1 & P2). destruct (Hv a (nth_error_In _ _ Ha)) as (s & T & _ & Ea & Hn).
    assert (ax = 0%nat) as -> by (destruct D as [D1 D2]; unfold ndim in *; rewrite Ea in *; cbn in *; lia). rewrite Ea in *. cbn [nth upd tl] in *.
    assert (Sp : split_point T (Z.of_nat n) = n) by (unfold split_point; destruct (Z.ltb_spec (Z.of_nat n) 0); lia). rewrite Sp in *. split; [exact P1|]. intros k ix Hk Hix. rewrite P2 by (rewrite P1; cbn; split; [lia | exact Hix]). cbn [nth upd]. rewrite Z.add_0_r. reflexivity. }
  exists f. split; [exact Hf'|]. unfold decoded_trajectory_with_inputs, with_split_input, with_input_included, with_preprocessing. rewrite Ef. cbn [bind fst]. split; [intros e He; rewrite He; reflexivity|].
  intros s0 sf ys He Hit HL Hys. rewrite He. cbn [bind].
  destruct (@traj_ok _ _ advance false decode outer inner s0) as ([xf fr] & Et).
  { eauto. } { intros k Hk. destruct (nth_error ys k) as [y|] eqn:Ey; [|apply nth_error_None in Ey; lia]. destruct (Hys k y Ey) as (_ & s & E1 & E2). eauto. }
  destruct (traj_inv _ _ _ _ _ _ Et) as (T1 & T2 & T3). rewrite Hit in T1. injection T1 as <-.
  assert (fr = ys) as ->.
  { apply (list_ext_nth []); [congruence|]. intros k Hk. rewrite T2 in Hk. destruct (nth_error ys k) as [y|] eqn:Ey; [|apply nth_error_None in Ey; lia]. destruct (nth_error fr k) as [z|] eqn:Ez; [|apply nth_error_None in Ez; lia].
    destruct (Hys k y Ey) as (_ & s & E1 & E2). destruct (T3 k z Ez) as (s' & E1' & E2'). unfold at_frame in E1'. rewrite E1 in E1'. injection E1' as <-. rewrite (nth_error_nth _ _ _ Ey), (nth_error_nth _ _ _ Ez). congruence. }
  rewrite Et. cbn [bind fst snd]. destruct (@stack_ok' A d ys ss) as (l & El & Ll & Hl).
  { intros ->. cbn in HL. lia. } { intros y Hy. destruct (In_nth_error _ _ Hy) as (k & Hk). exact (proj1 (Hys k y Hk)). }
  rewrite El. cbn [bind fst snd]. pose proof (F2_length Hf) as Lf. pose proof (F2_length Hx) as Lx. unfold concat_along_axis. cbn [forallb]. rewrite Ll, <- Lx, <- Lf, !Nat.eqb_refl. cbn [andb].
  destruct (@mapM_nth_seq _ (fun k => let* l0 := mapM (leaf k) [f; l] in concatenate l0 0)
     (fun j o => forall a, nth_error x j = Some a -> has_frames o (n + outer) (tl (shp a)) (fun k ix => if (k <? n)%nat then get a (Z.of_nat k :: ix) else get (nth j (nth (k - n) ys []) d) ix)) (length x)) as (out & Eo & Lo & Ho').
  { intros j Hj. destruct (nth_error x j) as [a|] eqn:Ea; [|apply nth_error_None in Ea; lia]. destruct (nth_error f j) as [p|] eqn:Ep; [|apply nth_error_None in Ep; lia]. destruct (nth_error l j) as [q|] eqn:Eq; [|apply nth_error_None in Eq; lia].
    cbn [mapM]. unfold leaf. rewrite Ep, Eq. cbn [bind]. pose proof (@F2_nth _ _ _ _ _ _ _ _ Hf' Ea Ep) as Fp. destruct (Hl j q Eq) as (Q1 & Q2).
    destruct (nth_error ss j) as [s|] eqn:Es; [|apply nth_error_None in Es; lia]. destruct (@F2_nth _ _ _ _ _ _ _ _ Hx Ea Es) as (T & Ea' & _).
    destruct (@concat_frames A p q (tl (shp a)) n outer (fun k ix => get a (Z.of_nat k :: ix)) (fun k ix => get (nth j (nth k ys []) d) ix) Fp) as (r & Er & Hr).
    { split; [rewrite Q1, HL, (nth_error_nth _ _ _ Es), Ea'; reflexivity|]. intros k ix Hk _. apply Q2. lia. }
    exists r. split; [exact Er|]. intros a' Ha'. assert (a' = a) as -> by congruence. exact Hr. }
  rewrite Eo. cbn [bind fst snd]. exists out. split; [reflexivity|]. split; [exact Lo|]. intros j a o Ha Ho2. exact (Ho' j o Ho2 a Ha).
Qed.
(* @ex *)
Lemma decoded_rollout_ex_lem : let x := [mkarr [4%nat; 2%nat] (fun ix => 10 * nth 0 ix 0 + nth 1 ix 0)] in
  let d := mkarr [] (fun _ => 0) in
  let encode t := match t with [a] => Ok (get a [1; 0], get a [1; 1]) | _ => Err EValue end in
  let decode s := Ok [mkarr [2%nat] (fun ix => if nth 0 ix 0 =? 0 then fst s else snd s)] in
  (x <> [] /\ Forall2 (fun a s => exists T, shp a = T :: s /\ (2 <= T)%nat) x [[2%nat]]) /\
  match decoded_trajectory_with_inputs d encode decode (fun s => Ok (fst s + 1, snd s * 2)) 2 x 3 2 with
  | Ok ((16, 704), [o]) => shp o = [5%nat; 2%nat] /\ map (get o) [[0; 1]; [1; 1]; [2; 0]; [2; 1]; [4; 1]] = [1; 11; 12; 44; 704] | _ => False end.
Proof.
  intros x d encode decode. split; [split; [discriminate|]; repeat constructor; exists 4%nat; split; [reflexivity | lia]|]. vm_compute. auto.
Qed.
