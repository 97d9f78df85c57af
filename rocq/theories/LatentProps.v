(** * C82: latent encoders and decoders *)
From Verif Require Import Prelude NdArr Grids_model Spec SpecNS SpecRollout Boundaries_model BoundariesPeriodic FD_model Interp_model ArrayUtils_model PRep FDProofs FDProps InterpProofs InterpProps ArrayUtilsProps PressureProps PressureSolveProps EquationsProps ConvectProps Networks_model NetworksProps Viscosities_model VortCodec_model Rollout_model RolloutProps RolloutMoreProps EncoderProps Latent_model.
Set Implicit Arguments.
Local Open Scope Z_scope.

Lemma mapM_combine_len {T U V} (f : T * U -> result V) : forall (xs : list T) (ys : list U) (P : nat -> V -> Prop) dx dy, (forall k, (k < Nat.min (length xs) (length ys))%nat -> exists v, f (nth k xs dx, nth k ys dy) = Ok v /\ P k v) ->
  exists l, mapM f (combine xs ys) = Ok l /\ length l = Nat.min (length xs) (length ys) /\ forall k d, (k < length l)%nat -> P k (nth k l d).
Proof.
  induction xs as [|x xs IH]; intros [|y ys] P dx dy H; try (exists []; split; [reflexivity|]; split; [reflexivity | intros k d Hk; cbn in Hk; lia]).
  cbn [combine mapM]. destruct (H 0%nat ltac:(cbn; lia)) as (v & Ev & Pv). cbn [nth] in Ev. rewrite Ev. cbn [bind]. destruct (IH ys (fun k => P (S k)) dx dy) as (l & El & Ll & Hl).
  - intros k Hk. apply (H (S k)). cbn [length Nat.min]. lia.
  - rewrite El. cbn [bind]. exists (v :: l). split; [reflexivity|]. split; [cbn [length Nat.min]; rewrite Ll; reflexivity|]. intros [|k] d Hk; [exact Pv | apply Hl; cbn in Hk; lia].
Qed.
Lemma split_decoder_ok s n (x : arr R) : shp x = s ++ [n] -> (0 < n)%nat ->
  exists l, channels_split_decoder x = Ok l /\ length l = n /\ forall k d, (k < n)%nat -> shp (nth k l d) = s /\ forall ix, inb s ix -> get (nth k l d) ix = get x (ix ++ [Z.of_nat k]).
Proof. exact (@split_channels_ok s n x). Qed.
Lemma inb_snoc s n ix k : inb s ix -> (k < n)%nat -> inb (s ++ [n]) (ix ++ [Z.of_nat k]).
Proof. revert ix. induction s as [|m s IH]; intros [|i ix] H Hk; cbn in H |- *; try tauto; [split; [lia|exact I]|]. destruct H as (H1 & H2). split; [exact H1 | apply IH; assumption]. Qed.
(* @prop C82 channels_split_decoder on any array with n >= 1 channels returns n arrays, the k-th being channel k. *)
Lemma channels_split_decoder_spec_lem : forall (s : list nat) (n : nat) (x : arr R), shp x = s ++ [n] -> (0 < n)%nat ->
  exists l, channels_split_decoder x = Ok l /\ length l = n /\ forall k d, (k < n)%nat -> shp (nth k l d) = s /\ forall ix, inb s ix -> get (nth k l d) ix = get x (ix ++ [Z.of_nat k]).
Proof. exact split_decoder_ok. Qed.
(* @ex *)
Lemma channels_split_decoder_spec_ex_lem : shp (mkarr [3; 2]%nat (fun ix => IZR (nth 0 ix 0 * 2 + nth 1 ix 0))) = [3%nat] ++ [2%nat] /\ (0 < 2)%nat.
Proof. split; [reflexivity | lia]. Qed.
(* @prop C82 A latent codec loses nothing but what its networks lose: for any encoder and decoder networks such that the decoder undoes the encoder on arrays of the shape it is given, latent_decoder applied to latent_encoder (one frame, time axis 0) of any non-empty tuple of trajectories of a common shape returns the last frame of every trajectory, in order. *)
Lemma latent_codec_roundtrip_lem : forall (encoder decoder : arr R -> result (arr R)) (T : nat) (s : list nat) (x : list (arr R)), x <> [] -> (1 <= T)%nat -> (forall a, In a x -> shp a = T :: s) ->
  (forall y, shp y = s ++ [length x] -> exists z w, encoder y = Ok z /\ decoder z = Ok w /\ shp w = shp y /\ forall ix, inb (shp y) ix -> get w ix = get y ix) ->
  exists z l, latent_encoder encoder 1 0 x = Ok z /\ latent_decoder decoder z = Ok l /\ length l = length x /\
    forall k d, (k < length x)%nat -> shp (nth k l d) = s /\ forall ix, inb s ix -> get (nth k l d) ix = get (nth k x d) (Z.of_nat (T - 1) :: ix).
Proof.
  intros encoder decoder T s x Hne HT Hs HC. destruct (@stack_last_n_state_encoder_spec_lem R 1 T s x (mkarr [] (fun _ => 0%R)) ltac:(lia) Hne Hs) as (y & Ey & Sy & Gy). change (Z.to_nat 1) with 1%nat in *. rewrite (Nat.min_l 1 T HT) in *. rewrite Nat.mul_1_r in Sy.
  destruct (HC y Sy) as (z & w & Ez & Ew & Sw & Gw). rewrite Sy in Sw, Gw. assert (Hn : (0 < length x)%nat) by (destruct x; [congruence | cbn; lia]). destruct (@split_decoder_ok s (length x) w Sw Hn) as (l & El & Ll & Hl).
  exists z, l. unfold latent_encoder, latent_decoder. rewrite Ey. cbn [bind]. split; [exact Ez|]. rewrite Ew. cbn [bind]. split; [exact El|]. split; [exact Ll|]. intros k d Hk. destruct (Hl k d Hk) as (S1 & S2). split; [exact S1|]. intros ix Hix.
  rewrite S2 by exact Hix. rewrite Gw by (apply inb_snoc; assumption). specialize (Gy k 0%nat ix Hk ltac:(lia) Hix). rewrite Nat.mul_1_r, !Nat.add_0_r in Gy. rewrite Gy. f_equal. apply nth_indep. exact Hk.
Qed.
Definition lat_x : list (arr R) := [mkarr [2; 3]%nat (fun ix => IZR (nth 0 ix 0 * 10 + nth 1 ix 0)); mkarr [2; 3]%nat (fun ix => IZR (nth 1 ix 0))].
(* @ex *)
Lemma latent_codec_roundtrip_ex_lem : lat_x <> [] /\ (1 <= 2)%nat /\ (forall a, In a lat_x -> shp a = 2%nat :: [3%nat]) /\
  (forall y : arr R, shp y = [3%nat] ++ [length lat_x] -> exists z w, (fun y => Ok (amap (fun v => 2 * v)%R y)) y = Ok z /\ (fun z => Ok (amap (fun v => v / 2)%R z)) z = Ok w /\ shp w = shp y /\ forall ix, inb (shp y) ix -> get w ix = get y ix).
Proof.
  split; [discriminate|]. split; [lia|]. split; [intros a [<-|[<-|[]]]; reflexivity|]. intros y _. eexists. eexists. split; [reflexivity|]. split; [reflexivity|]. split; [reflexivity|]. intros ix _. cbn [amap get]. field.
Qed.
(* @prop C82 aligned_latent_encoder: whatever the network, if it returns an array with c channels on the grid, the result has min(c, number of offsets) variables (offsets: data_offsets, or the cell faces when none are given), the k-th holding channel k at offset k on the grid with periodic boundary conditions; and when 1 <= c <= number of offsets, aligned_latent_decoder with any network sees exactly that array again: it returns what latent_decoder returns on an array with the same shape and values. *)
Lemma aligned_latent_codec_lem : forall (g : grid) (encoder decoder : arr R -> result (arr R)) (n axis : Z) (offsets : option (list (list Q))) (x : list (arr R)) (y raw : arr R) (c : nat),
  stack_last_n_state_encoder n axis x = Ok y -> encoder y = Ok raw -> shp raw = gshape g ++ [c] ->
  let offs := match offsets with Some (o :: os) => o :: os | _ => cell_faces g end in
  exists vs, aligned_latent_encoder g encoder n axis offsets x = Ok vs /\ length vs = Nat.min c (length offs) /\
    (forall k d, (k < length vs)%nat -> gbc (nth k vs d) = periodic_bc (gndim g) /\ is_field (garray (nth k vs d)) g (nth k offs []) (fun ix => get raw (ix ++ [Z.of_nat k]))) /\
    ((1 <= c <= length offs)%nat -> exists raw', shp raw' = shp raw /\ (forall ix, inb (shp raw) ix -> get raw' ix = get raw ix) /\ aligned_latent_decoder decoder vs = latent_decoder decoder raw').
Proof.
  intros g encoder decoder n axis offsets x y raw c Ey Er Sr offs.
  set (parts := map (fun i => mkarr (removelast (shp raw)) (fun ix => get raw (ix ++ [Z.of_nat i]))) (seq 0 (last (shp raw) 0%nat))).
  assert (RL : removelast (shp raw) = gshape g) by (rewrite Sr; apply removelast_app_one). assert (LL : last (shp raw) 0%nat = c) by (rewrite Sr; apply last_last).
  assert (Lp : length parts = c) by (unfold parts; rewrite map_length, seq_length; exact LL).
  destruct (@mapM_combine_len _ _ _ (fun xo => mk_gvar (mkga (fst xo) (snd xo) g) (periodic_bc (gndim g))) parts offs
    (fun k v => v = mkgv (mkga (nth k parts raw) (nth k offs []) g) (periodic_bc (gndim g))) raw []) as (vs & Ev & Lv & Hv).
  { intros k Hk. eexists. split; [|reflexivity]. unfold mk_gvar. cbn [fst snd ggrid]. cbn [periodic_bc homogeneous btypes]. rewrite repeat_length. unfold gndim. rewrite Nat.eqb_refl. reflexivity. }
  rewrite Lp in Lv. exists vs. split.
  { unfold aligned_latent_encoder. rewrite Ey. cbn [bind]. rewrite Er. cbn [bind]. destruct (shp raw) as [|q r] eqn:Es in |- *; [exfalso; rewrite Es in Sr; destruct (gshape g); discriminate Sr|]. rewrite <- Es. exact Ev. }
  assert (PK : forall k, (k < c)%nat -> shp (nth k parts raw) = gshape g /\ forall ix, get (nth k parts raw) ix = get raw (ix ++ [Z.of_nat k])).
  { intros k Hk. unfold parts. rewrite nth_map_seq by (rewrite LL; exact Hk). cbn [shp get]. split; [exact RL | reflexivity]. }
  split; [exact Lv|]. split.
  - intros k d Hk. rewrite (Hv k d Hk). cbn [gbc garray]. split; [reflexivity|]. split; [reflexivity|]. split; [apply off_eq_refl|]. cbn [gdata]. destruct (PK k ltac:(lia)) as (P1 & P2). split; [exact P1|]. intros ix _. apply P2.
  - intros Hc. assert (Lc : length vs = c) by lia. unfold aligned_latent_decoder, latent_decoder. set (ds := map (fun v => gdata (garray v)) vs).
    assert (Ds : forall k d, (k < c)%nat -> shp (nth k ds d) = gshape g /\ forall ix, get (nth k ds d) ix = get raw (ix ++ [Z.of_nat k])).
    { intros k d Hk. unfold ds. rewrite (nth_map' _ _ dgv d) by lia. rewrite (Hv k dgv) by lia. cbn [garray gdata]. apply PK. exact Hk. }
    assert (Ld : length ds = c) by (unfold ds; rewrite map_length; exact Lc).
    destruct ds as [|d0 dr] eqn:E0; [cbn in Ld; lia|]. rewrite <- E0 in *. assert (S0 : shp d0 = gshape g) by (destruct (Ds 0%nat raw ltac:(lia)) as (P & _); rewrite E0 in P; exact P).
    assert (Ex : stack_last ds = Ok (mkarr (shp d0 ++ [length ds]) (fun ix => get (nth (Z.to_nat (last ix 0)) ds d0) (removelast ix)))).
    { unfold stack_last. rewrite E0. rewrite <- E0. match goal with |- context [forallb ?f ds] => assert (Fb : forallb f ds = true); [|rewrite Fb; reflexivity] end. apply forallb_forall. intros b Hb. destruct (In_nth ds b raw Hb) as (k & Hk & <-). rewrite S0. destruct (Ds k raw ltac:(lia)) as (P & _). rewrite P. apply shape_eqb_refl. }
    rewrite Ex. cbn [bind]. eexists. split; [|split; [|reflexivity]]; [cbn [shp]; rewrite S0, Ld; symmetry; exact Sr|]. intros ix Hix. cbn [get]. rewrite Sr in Hix. destruct (@exists_last _ ix) as (jx & k & ->); [intros ->; destruct (gshape g); cbn in Hix; contradiction|].
    rewrite last_last, removelast_app_one. 
    assert (HK : 0 <= k < Z.of_nat c). { pose proof (inb_length _ _ Hix) as L. rewrite !app_length in L. cbn in L. pose proof (@inb_nth _ _ (length jx) Hix ltac:(rewrite app_length; cbn; lia)) as B. rewrite nth_app_last in B. assert (Lj : length jx = length (gshape g)) by lia. rewrite Lj, nth_app_last in B. exact B. }
    destruct (Ds (Z.to_nat k) d0 ltac:(lia)) as (_ & P). rewrite P. f_equal. f_equal. f_equal. lia.
Qed.
(* @ex *)
Lemma aligned_latent_codec_ex_lem : exists y, stack_last_n_state_encoder 1 0 [mkarr [2; 3; 4]%nat (fun ix => IZR (nth 1 ix 0)); mkarr [2; 3; 4]%nat (fun ix => IZR (nth 2 ix 0))] = Ok y /\ shp y = gshape p34g ++ [2%nat] /\ (fun a => Ok a) y = Ok y /\ (1 <= 2 <= length (cell_faces p34g))%nat.
Proof. eexists. split; [reflexivity|]. split; [reflexivity|]. split; [reflexivity|]. cbn. lia. Qed.
(* @prop C82 aligned_latent_encoder does not keep num_latent_dims channels (refuted): on every grid, for every number c of latent channels above the number of dimensions, with the default offsets the result has only as many variables as the grid has dimensions; the channels beyond are dropped without an error. *)
Lemma aligned_latent_encoder_keeps_channels_refuted_lem : ~ (forall (g : grid) (encoder : arr R -> result (arr R)) (x : list (arr R)) (y raw : arr R) (vs : list gvar),
  stack_last_n_state_encoder 1 0 x = Ok y -> encoder y = Ok raw -> aligned_latent_encoder g encoder 1 0 None x = Ok vs -> length vs = last (shp raw) 0%nat).
Proof.
  intros H. set (raw := mkarr [3; 4; 5]%nat (fun _ => 0%R)). set (x := [mkarr [2; 3; 4]%nat (fun ix => IZR (nth 1 ix 0))]).
  destruct (@aligned_latent_codec_lem p34g (fun _ => Ok raw) (fun a => Ok a) 1 0 None x (match stack_last_n_state_encoder 1 0 x with Ok y => y | Err _ => raw end) raw 5%nat eq_refl eq_refl eq_refl) as (vs & Ev & Lv & _).
  specialize (H p34g (fun _ => Ok raw) x _ raw vs eq_refl eq_refl Ev). rewrite Lv in H. cbn in H. discriminate H.
Qed.
(* @prop C82 velocity_corrector_network_w_boundaries: with process_fn given, for any network, when the processed inputs and the outputs of the network are periodic variables on the grid, every input is linearly interpolated to its network offset before the network, and every output of the network to its cell face after it; the result has one variable per dimension, on the grid, at the cell faces. *)
Lemma corrector_w_boundaries_lem : forall (g : grid) (tower : list gvar -> result (list gvar)) (offs : list (list Q)) (f : list gvar -> result (list gvar)) (inputs u y : list gvar),
  (0 < gndim g)%nat -> length offs = gndim g -> (forall o, In o offs -> length o = gndim g) -> f inputs = Ok u -> periodic_vec g u ->
  (forall x, length x = gndim g -> (forall k d, (k < gndim g)%nat -> linear_interp (nth k u d) (nth k offs []) = Ok (nth k x d)) -> tower x = Ok y) -> periodic_vec g y ->
  exists r, velocity_corrector_network_w_boundaries g tower offs (Some f) inputs = Ok r /\ length r = gndim g /\
    forall k d, (k < gndim g)%nat -> linear_interp (nth k y d) (nth k (cell_faces g) []) = Ok (nth k r d) /\ ggrid (garray (nth k r d)) = g /\ off_eq (goff (garray (nth k r d))) (nth k (cell_faces g) []).
Proof.
  intros g tower offs f inputs u y Hd Lo Hlo Eu Hu Ht Hy.
  assert (IN : forall v os, periodic_vec g v -> length os = gndim g -> (forall o, In o os -> length o = gndim g) ->
    exists x, mapM (fun xo => linear_interp (fst xo) (snd xo)) (combine v os) = Ok x /\ length x = gndim g /\ forall k d, (k < gndim g)%nat -> linear_interp (nth k v d) (nth k os []) = Ok (nth k x d) /\ ggrid (garray (nth k x d)) = g /\ off_eq (goff (garray (nth k x d))) (nth k os [])).
  { intros v os Hv Los Hos. pose proof Hv as (Lv & _). destruct (@mapM_combine_len _ _ _ (fun xo => linear_interp (fst xo) (snd xo)) v os (fun k w => linear_interp (nth k v dgv) (nth k os []) = Ok w /\ ggrid (garray w) = g /\ off_eq (goff (garray w)) (nth k os [])) dgv []) as (x & Ex & Lx & Hx).
    - intros k Hk. destruct (periodic_vec_nth Hv (i := k) ltac:(lia)) as (Hp & Hg). destruct (@linear_interpolation_spec_lem (nth k v dgv) (nth k os []) Hp) as (w & Ew & _ & (G1 & G2 & _)); [rewrite Hg; apply Hos; apply nth_In; lia|]. exists w. cbn [fst snd]. split; [exact Ew|]. split; [exact Ew|]. split; [rewrite G1; exact Hg | exact G2].
    - exists x. split; [exact Ex|]. assert (Lxd : length x = gndim g) by lia. split; [exact Lxd|]. intros k d Hk. rewrite (nth_indep v d dgv) by lia. apply Hx. lia. }
  destruct (IN u offs Hu Lo Hlo) as (x & Ex & Lx & Hx). destruct (IN y (cell_faces g) Hy) as (r & Er & Lr & Hr); [unfold cell_faces; rewrite map_length, seq_length; reflexivity | |].
  { intros o Ho. destruct (In_nth _ _ ([] : list Q) Ho) as (k & Hk & <-). apply face_length. unfold cell_faces in Hk. rewrite map_length, seq_length in Hk. exact Hk. }
  exists r. split; [|split; [exact Lr | exact Hr]]. unfold velocity_corrector_network_w_boundaries, interpolate_gridvar. cbn [call_process_fn]. rewrite Eu. cbn [bind]. destruct offs as [|o0 os]; [cbn in Lo; lia|]. rewrite Ex. cbn [bind]. rewrite (Ht x Lx (fun k d Hk => proj1 (Hx k d Hk))). cbn [bind]. exact Er.
Qed.
(* @ex *)
Lemma corrector_w_boundaries_ex_lem : (0 < gndim p34g)%nat /\ length [[1 # 2; 1 # 2]; [1 # 2; 1 # 2]]%Q = gndim p34g /\ (forall o, In o [[1 # 2; 1 # 2]; [1 # 2; 1 # 2]]%Q -> length o = gndim p34g) /\ (fun u : list gvar => Ok u) p34v = Ok p34v /\ periodic_vec p34g p34v /\
  (forall x : list gvar, length x = gndim p34g -> (forall k d, (k < gndim p34g)%nat -> linear_interp (nth k p34v d) (nth k [[1 # 2; 1 # 2]; [1 # 2; 1 # 2]]%Q []) = Ok (nth k x d)) -> (fun _ : list gvar => Ok p34v) x = Ok p34v).
Proof. split; [cbn; lia|]. split; [reflexivity|]. split; [intros o [<-|[<-|[]]]; reflexivity|]. split; [reflexivity|]. split; [exact (proj1 p34_pv) | reflexivity]. Qed.
(* @prop C82 velocity_corrector_network_w_boundaries does not work with its default process_fn (refuted): whatever the grid, network, offsets and inputs, the call raises TypeError, because the default is a function of three arguments that is called with one. *)
Lemma corrector_w_boundaries_default_refuted_lem : forall (g : grid) (tower : list gvar -> result (list gvar)) (offs : list (list Q)) (inputs : list gvar),
  velocity_corrector_network_w_boundaries g tower offs None inputs = Err EType.
Proof. intros. reflexivity. Qed.
