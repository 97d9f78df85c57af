(** * C68: learned eddy viscosities *)
From Verif Require Import Prelude NdArr Grids_model Spec Boundaries_model FD_model PRep FDProofs FDProps Pressure_model Interp_model InterpProofs InterpProps Advection_model AdvectionProps Diffusion_model PressureProps PressureSolveProps TimeStep_model Equations_model SpecNS EquationsProps EquationsMoreProps Forcings_model Subgrid_model SpecSub SubgridProps SubgridMoreProps ArrayUtilsProps SpecML Viscosities_model SpecVisc.
Set Implicit Arguments.
Local Open Scope Z_scope.

Lemma stack_last_channels g (l : list (arr R)) F : (0 < length l)%nat -> (forall k, (k < length l)%nat -> shp (nth k l (mkarr [] (fun _ => 0%R))) = gshape g /\
   forall ix, inb (gshape g) ix -> get (nth k l (mkarr [] (fun _ => 0%R))) ix = F k ix) ->
  exists x, stack_last l = Ok x /\ channels g (length l) x F.
Proof.
  intros Hl H. destruct l as [|a r]; [simpl in Hl; lia|]. unfold stack_last. set (L := a :: r) in *.
  assert (Ea : shp a = gshape g) by (destruct (H 0%nat Hl) as (E & _); exact E).
  replace (forallb _ L) with true.
  2:{ symmetry. apply forallb_forall. intros b Hb. destruct (In_nth _ _ (mkarr [] (fun _ => 0%R)) Hb) as (k & Hk & <-). rewrite (proj1 (H k Hk)), Ea. apply shape_eqb_refl. }
  eexists; split; [reflexivity|]. split; [cbn [shp]; rewrite Ea; reflexivity|]. intros k ix Hk Hix. cbn [get]. rewrite last_last, removelast_last, Nat2Z.id.
  rewrite (nth_indep L a (mkarr [] (fun _ => 0%R)) Hk). apply (proj2 (H k Hk) ix Hix).
Qed.

Lemma offset_get_find {T} (P : list Q -> T -> Prop) (keys : list (list Q)) (d : list (list Q * T)) o :
  Forall2 (fun k kv => fst kv = k /\ P k (snd kv)) keys d -> (exists y, In y keys /\ off_eq o y) ->
  exists n k x, nth_error keys n = Some k /\ nth_error d n = Some (k, x) /\ off_eq k o /\ offset_get d o = Ok x /\ P k x.
Proof.
  intros HF (y & Hy & Ho). unfold offset_get. induction HF as [|k [k' x] keys d (E & HP) HF IH]; [destruct Hy|]. cbn [fst snd] in E, HP. subst k'. cbn [find fst].
  destruct (off_eqb k o) eqn:Eb.
  - exists 0%nat, k, x. cbn [nth_error snd]. apply off_eqb_iff in Eb. auto.
  - destruct Hy as [->|Hy].
    + exfalso. assert (off_eqb y o = true) by (apply off_eqb_iff; apply off_eq_sym; exact Ho). congruence.
    + destruct (IH Hy) as (n & k1 & x1 & A & B & C & D & F). exists (S n), k1, x1. auto.
Qed.
Lemma tensor_entry_in g o s S i j : tensor_at g o s S -> (i < gndim g)%nat -> (j < gndim g)%nat -> In (nth j (nth i s []) dga) (concat s).
Proof.
  intros Hs Hi Hj. apply in_concat. exists (nth i s []). destruct (tensor_nth Hs Hi Hj) as (L & _). split; apply nth_In; [rewrite (proj1 Hs); exact Hi | lia].
Qed.
Lemma concat_entry g o s S x : tensor_at g o s S -> In x (concat s) -> exists i j, (i < gndim g)%nat /\ (j < gndim g)%nat /\ prep g (offs j (1 # 2) (offs i (1 # 2) o)) (S i j) x.
Proof.
  intros Hs Hx. apply in_concat in Hx. destruct Hx as (row & Hr & Hx). destruct (In_nth_error _ _ Hr) as (i & Hi). destruct (In_nth_error _ _ Hx) as (j & Hj).
  destruct (proj2 Hs i row Hi) as (L & H). exists i, j. split; [rewrite <- (proj1 Hs); apply nth_error_Some; congruence|]. split; [rewrite <- L; apply nth_error_Some; congruence|]. exact (H j x Hj).
Qed.
(* every entry of the tensor, with the property that it is one of the tensor's entries *)
Lemma tensor_map_in g o (f : garr -> result garr) (p : nat -> nat -> list Q) T F G : (0 < gndim g)%nat -> tensor_at g o T F ->
  (forall i j w, (i < gndim g)%nat -> (j < gndim g)%nat -> In w (concat T) -> prep g (offs j (1 # 2) (offs i (1 # 2) o)) (F i j) w -> exists w', f w = Ok w' /\ prep g (p i j) (G i j) w') ->
  exists T', mapM (mapM f) T = Ok T' /\ length T' = gndim g /\ forall i j, (i < gndim g)%nat -> (j < gndim g)%nat -> length (nth i T' []) = gndim g /\ prep g (p i j) (G i j) (nth j (nth i T' []) dga).
Proof.
  intros Hd HT Hf. assert (LT : length T = gndim g) by apply HT.
  destruct (@mapM_enum (list garr) (list garr) (fun ia => mapM f (snd ia)) (fun i row => length row = gndim g /\ forall j, (j < gndim g)%nat -> prep g (p i j) (G i j) (nth j row dga)) T []) as (T' & E & L & P).
  { intros i Hi. rewrite LT in Hi. cbn [snd]. destruct (tensor_nth HT Hi Hd) as (Lr & _).
    destruct (@mapM_enum garr garr (fun ja => f (snd ja)) (fun j w => prep g (p i j) (G i j) w) (nth i T []) dga) as (row & E & L & P).
    - intros j Hj. rewrite Lr in Hj. cbn [snd]. apply (Hf i j); auto; [exact (tensor_entry_in HT Hi Hj) | exact (proj2 (tensor_nth HT Hi Hj))].
    - rewrite (mapM_enum_snd f (nth i T [])) in E. exists row. split; [exact E|]. split; [lia|]. intros j Hj. apply P. lia. }
  rewrite (mapM_enum_snd (mapM f) T) in E. exists T'. split; [exact E|]. split; [lia|]. intros i j Hi Hj. destruct (P i [] ltac:(lia)) as (A & B). split; [exact A | apply B; exact Hj].
Qed.

Lemma squeeze_channel g (y : arr R) : shp y = gshape g ++ [1%nat] -> exists d, squeeze_last y = Ok d /\ shp d = gshape g /\ forall ix, get d ix = channel y 0 ix.
Proof.
  intros E. unfold squeeze_last. rewrite E, last_last, removelast_last. cbn [Nat.eqb]. eexists; split; [reflexivity|]. split; reflexivity.
Qed.

Lemma scalar_viscosity_calc g o unique tower scale cin inputs v s : shp inputs = gshape g ++ [cin] -> (0 < gndim g)%nat -> length o = gndim g -> periodic_vec g v -> lists_distinct unique -> any_network g tower ->
  tensor_at g o s (strain g v) ->
  exists y m, tower 1%nat inputs = Ok y /\ shp y = gshape g ++ [1%nat] /\ scalar_viscosity g linear_fn unique tower scale inputs s v = Ok m /\
    tensor_at g o m (spread g o (fun ix => (scale + / 1000000) * channel y 0 ix)%R).
Proof.
  intros Hci Hd Ho Hv Hu Hn Hs. pose proof (periodic_vec_wfg Hd Hv) as Hw. destruct (Hn 1%nat cin inputs Hci) as (y & Ey & Sy). exists y. unfold scalar_viscosity. rewrite Ey. cbn [bind].
  destruct (@squeeze_channel g (amap (fun t => (scale + / 1000000) * t)%R y) Sy) as (d & Ed & Sd & Vd). rewrite Ed. cbn [bind].
  set (nu := fun ix => ((scale + / 1000000) * channel y 0 ix)%R).
  assert (Pd : prep g (cell_center g) (wrapped g nu) (mkga d (cell_center g) g)).
  { split; [reflexivity|]. split; [apply off_eq_refl|]. split; [exact Sd|]. intros ix Hix. cbn [gdata]. rewrite Vd. unfold wrapped. rewrite wrap_inb by exact Hix. reflexivity. }
  set (offsets := map goff (concat s)).
  destruct (@mapM_F2 _ _ (fun p => let* w := periodic_interpolate g linear_fn (mkga d (cell_center g) g) p v in Ok (p, w))
     (fun p pw => fst pw = p /\ prep g p (lerp (gndim g) (cell_center g) p (wrapped g nu)) (snd pw)) (unique offsets)) as (dict & Edict & Hdict).
  { intros p Hp. apply (proj1 (proj2 (Hu offsets))) in Hp. unfold offsets in Hp. apply in_map_iff in Hp. destruct Hp as (w & <- & Hwin).
    destruct (concat_entry _ Hs Hwin) as (i & j & Hi & Hj & (_ & B & _)). assert (L : length (goff w) = gndim g) by (rewrite (off_eq_length B), !offs_length; exact Ho).
    destruct (@prep_wrap_interp g (cell_center g) (goff w) (wrapped g nu) (mkga d (cell_center g) g) Hw (repeat_length _ _) L) as (x & Ex & Px); [apply wrapped_periodic; apply Hw | exact Pd|].
    unfold periodic_interpolate, linear_fn. rewrite Ex. cbn [bind]. eexists; split; [reflexivity|]. cbn [fst snd]. split; [reflexivity | exact Px]. }
  rewrite Edict. cbn [bind]. unfold unflatten_like.
  destruct (@tensor_map_in g o (fun s0 => let* d0 := (let* w := offset_get dict (goff s0) in Ok (gdata w)) in Ok (mkga d0 (goff s0) (ggrid s0))) (fun i j => offs j (1 # 2) (offs i (1 # 2) o)) s (strain g v) (spread g o nu) Hd Hs) as (m & Em & Lm & Pm).
  { intros i j w Hi Hj Hin (W1 & W2 & W3 & W4).
    destruct (@offset_get_find garr (fun p w0 => prep g p (lerp (gndim g) (cell_center g) p (wrapped g nu)) w0) (unique offsets) dict (goff w) Hdict) as (n & k & x & _ & _ & Hk & Ex & Px).
    { apply (proj1 (Hu offsets)). unfold offsets. apply in_map. exact Hin. }
    rewrite Ex. cbn [bind]. eexists; split; [reflexivity|]. destruct Px as (X1 & X2 & X3 & X4). split; [exact W1|]. split; [exact W2|]. split; [exact X3|]. intros ix Hix. cbn [gdata]. rewrite (X4 ix Hix).
    unfold spread. apply (@lerp_off_eq (gshape g)); [|exact (inb_length _ _ Hix)]. eapply off_eq_trans; [exact Hk | exact W2]. }
  exists m. split; [reflexivity|]. split; [exact Sy|]. split; [exact Em|]. apply tensor_intro; [exact Lm|]. intros i Hi. split; [apply (Pm i i Hi Hi)|]. intros j Hj. apply (Pm i j Hi Hj).
Qed.

Lemma velocity_channels g v : (0 < gndim g)%nat -> periodic_vec g v -> exists x, stack_last (map (fun u => gdata (garray u)) v) = Ok x /\ channels g (gndim g) x (vval v).
Proof.
  intros Hd Hv. assert (HL : length v = gndim g) by apply Hv.
  destruct (@stack_last_channels g (map (fun u => gdata (garray u)) v) (vval v)) as (x & Ex & Hx).
  - rewrite map_length. lia.
  - intros k Hk. rewrite map_length in Hk. assert (Hk' : (k < gndim g)%nat) by lia. rewrite (nth_map' _ _ dgv (mkarr [] (fun _ => 0%R))) by exact Hk.
    destruct (periodic_vec_pvar Hv Hk') as ((A & B & C & D) & _). split; [exact C | exact D].
  - exists x. split; [exact Ex|]. rewrite map_length, HL in Hx. exact Hx.
Qed.

(* @prop C68 learned_scalar_viscosity with linear interpolation, for every network and every order in which the distinct offsets are listed: on the strain rate of a staggered periodic velocity it succeeds; the network sees one channel per velocity component, in order; and the result has, at the place of each entry of the strain-rate tensor, (viscosity_scale + 1e-6) times the network's only output channel, interpolated linearly from the cell centres. *)
Lemma learned_scalar_viscosity_spec_lem : forall g o unique tower scale v s, (0 < gndim g)%nat -> length o = gndim g -> periodic_vec g v -> lists_distinct unique -> any_network g tower ->
  tensor_at g o s (strain g v) ->
  exists x y m, channels g (gndim g) x (vval v) /\ tower 1%nat x = Ok y /\ learned_scalar_viscosity g linear_fn unique tower scale s v = Ok m /\
    tensor_at g o m (spread g o (fun ix => (scale + / 1000000) * channel y 0 ix)%R).
Proof.
  intros g o unique tower scale v s Hd Ho Hv Hu Hn Hs. destruct (velocity_channels Hd Hv) as (x & Ex & Hx).
  destruct (@scalar_viscosity_calc g o unique tower scale _ x v s (proj1 Hx) Hd Ho Hv Hu Hn Hs) as (y & m & Ey & _ & Em & Hm).
  exists x, y, m. split; [exact Hx|]. split; [exact Ey|]. split; [|exact Hm]. unfold learned_scalar_viscosity. rewrite Ex. exact Em.
Qed.

Lemma concat_nth_square {T} (d : nat) (rows : list (list T)) (dt : T) : length rows = d -> (forall i, (i < d)%nat -> length (nth i rows []) = d) ->
  length (concat rows) = (d * d)%nat /\ forall i j, (i < d)%nat -> (j < d)%nat -> nth (i * d + j) (concat rows) dt = nth j (nth i rows []) dt.
Proof.
  assert (G : forall n (rows : list (list T)), length rows = n -> (forall i, (i < n)%nat -> length (nth i rows []) = d) ->
     length (concat rows) = (n * d)%nat /\ forall i j, (i < n)%nat -> (j < d)%nat -> nth (i * d + j) (concat rows) dt = nth j (nth i rows []) dt).
  { induction n as [|n IH]; intros [|r rs] HL H; cbn [length] in HL; try discriminate.
    - split; [reflexivity|]. intros i j Hi. lia.
    - assert (Hr : length r = d) by (apply (H 0%nat); lia). destruct (IH rs ltac:(lia)) as (A & B); [intros i Hi; apply (H (S i)); lia|].
      cbn [concat]. rewrite app_length, Hr, A. split; [lia|]. intros [|i] j Hi Hj.
      + rewrite app_nth1 by lia. reflexivity.
      + rewrite app_nth2 by nia. replace (S i * d + j - length r)%nat with (i * d + j)%nat by nia. apply B; lia. }
  intros HL H. exact (G d rows HL H).
Qed.

(* @prop C68 learned_scalar_viscosity_from_gradients: the same, except that the network sees ndim^2 channels, channel i*ndim + j being entry (i, j) of the strain rate interpolated linearly to the cell centres. *)
Lemma learned_viscosity_from_gradients_spec_lem : forall g o unique tower scale v s, (0 < gndim g)%nat -> length o = gndim g -> periodic_vec g v -> lists_distinct unique -> any_network g tower ->
  tensor_at g o s (strain g v) ->
  exists x y m, channels g (gndim g * gndim g) x (fun k => centred_strain g o v (k / gndim g) (k mod gndim g)) /\
    tower 1%nat x = Ok y /\ learned_scalar_viscosity_from_gradients g linear_fn unique tower scale s v = Ok m /\
    tensor_at g o m (spread g o (fun ix => (scale + / 1000000) * channel y 0 ix)%R).
Proof.
  intros g o unique tower scale v s Hd Ho Hv Hu Hn Hs. pose proof (periodic_vec_wfg Hd Hv) as Hw.
  destruct (@tensor_map g o (fun x => periodic_interpolate g linear_fn x (cell_center g) v) (fun _ _ => cell_center g) s (strain g v) (centred_strain g o v) Hd Hs) as (ce & Ec & Lc & Pc).
  { intros i j w Hi Hj P. apply (@prep_wrap_interp g _ (cell_center g) (strain g v i j) w Hw); auto; [rewrite !offs_length; exact Ho | apply repeat_length | apply strain_periodic; auto]. }
  destruct (@concat_nth_square garr (gndim g) ce dga Lc) as (LC & NC); [intros i Hi; apply (Pc i i Hi Hi)|].
  destruct (@stack_last_channels g (map gdata (concat ce)) (fun k => centred_strain g o v (k / gndim g) (k mod gndim g))) as (x & Ex & Hx).
  { rewrite map_length, LC. nia. }
  { intros k Hk. rewrite map_length, LC in Hk. rewrite (nth_map' _ _ dga (mkarr [] (fun _ => 0%R))) by lia.
    assert (Hi : (k / gndim g < gndim g)%nat) by (apply Nat.div_lt_upper_bound; lia). assert (Hj : (k mod gndim g < gndim g)%nat) by (apply Nat.mod_upper_bound; lia).
    replace (nth k (concat ce) dga) with (nth (k mod gndim g) (nth (k / gndim g) ce []) dga).
    2:{ rewrite <- (NC _ _ Hi Hj). f_equal. rewrite (Nat.div_mod k (gndim g)) at 3 by lia. lia. }
    destruct (Pc _ _ Hi Hj) as (_ & (A & B & C & D)). split; [exact C | exact D]. }
  rewrite map_length, LC in Hx.
  destruct (@scalar_viscosity_calc g o unique tower scale _ x v s (proj1 Hx) Hd Ho Hv Hu Hn Hs) as (y & m & Ey & _ & Em & Hm).
  exists x, y, m. split; [exact Hx|]. split; [exact Ey|]. split; [|exact Hm]. unfold learned_scalar_viscosity_from_gradients. rewrite Ec. cbn [bind]. rewrite Ex. exact Em.
Qed.

(** ** the tensor-valued model *)
Lemma offs2_inj n (o : list Q) i j i' j' : length o = n -> (i < n)%nat -> (j < n)%nat -> (i' < n)%nat -> (j' < n)%nat ->
  (off_eq (offs j (1 # 2) (offs i (1 # 2) o)) (offs j' (1 # 2) (offs i' (1 # 2) o)) <-> (i = i' /\ j = j') \/ (i = j' /\ j = i')).
Proof.
  intros Ho Hi Hj Hi' Hj'. split.
  - intros H.
    assert (V : forall a b k, (a < n)%nat -> (b < n)%nat -> (nth k (offs b (1 # 2) (offs a (1 # 2) o)) 0 == nth k o 0 + (if (k =? a)%nat then 1 # 2 else 0) + (if (k =? b)%nat then 1 # 2 else 0))%Q).
    { intros a b k Ha Hb. unfold offs. destruct (Nat.eqb_spec k b) as [->|Hkb].
      - rewrite nth_upd_same by (rewrite upd_length; lia). destruct (Nat.eqb_spec b a) as [->|Hba]; [rewrite nth_upd_same by lia; reflexivity | rewrite nth_upd_other by congruence; ring].
      - rewrite nth_upd_other by congruence. destruct (Nat.eqb_spec k a) as [->|Hka]; [rewrite nth_upd_same by lia; ring | rewrite nth_upd_other by congruence; ring]. }
    assert (W : forall k, ((if (k =? i)%nat then 1 # 2 else 0) + (if (k =? j)%nat then 1 # 2 else 0) == (if (k =? i')%nat then 1 # 2 else 0) + (if (k =? j')%nat then 1 # 2 else 0))%Q).
    { intros k. pose proof (off_eq_nth k H) as E. rewrite (V i j k Hi Hj), (V i' j' k Hi' Hj') in E. Lqa.lra. }
    pose proof (W i) as Wi. pose proof (W j) as Wj. rewrite Nat.eqb_refl in Wi, Wj.
    destruct (Nat.eqb_spec i j); destruct (Nat.eqb_spec i i'); destruct (Nat.eqb_spec i j'); destruct (Nat.eqb_spec j i); destruct (Nat.eqb_spec j i'); destruct (Nat.eqb_spec j j'); subst; auto; try congruence; try (exfalso; clear W V H; first [Lqa.lra | contradiction]).
  - intros [(-> & ->)|(-> & ->)]; [apply off_eq_refl | apply offs_comm].
Qed.
Lemma split_last_nth (y : arr R) g n k : shp y = gshape g ++ [n] -> (k < n)%nat -> exists d, nth_error (split_last n y) k = Some d /\ shp d = gshape g ++ [1%nat] /\ forall ix, channel d 0 ix = channel y k ix.
Proof.
  intros Sy Hk. unfold split_last. rewrite nth_error_map, (nth_error_nth' _ 0%nat) by (rewrite seq_length; lia). rewrite seq_nth by lia. cbn [option_map plus]. eexists; split; [reflexivity|].
  rewrite Sy, last_last, removelast_last. cbn [shp]. split.
  - f_equal. f_equal. destruct (Nat.ltb_spec (S k) n); lia.
  - intros ix. unfold channel. cbn [get]. rewrite removelast_last, last_last. reflexivity.
Qed.

(* @prop C68 learned_tensor_viscosity, for every network and every order of the distinct offsets: on the strain rate of a staggered periodic velocity it succeeds; the network sees one channel per velocity component and has one output channel per distinct place of the strain-rate tensor; and there is a numbering of the entries, with the same number exactly for entries (i, j) and (j, i), each channel being the number of some entry, such that the viscosity at entry (i, j) is (viscosity_scale + 1e-6) times the output channel of that number. *)
Lemma learned_tensor_viscosity_spec_lem : forall g o unique tower scale v s, (0 < gndim g)%nat -> length o = gndim g -> periodic_vec g v -> lists_distinct unique -> any_network g tower ->
  tensor_at g o s (strain g v) ->
  exists n x y m number, channels g (gndim g) x (vval v) /\ tower n x = Ok y /\ shp y = gshape g ++ [n] /\ learned_tensor_viscosity g unique tower scale s v = Ok m /\
    tensor_at g o m (fun i j ix => (scale + / 1000000) * channel y (number i j) ix)%R /\
    (forall i j, (i < gndim g)%nat -> (j < gndim g)%nat -> (number i j < n)%nat) /\
    (forall i j i' j', (i < gndim g)%nat -> (j < gndim g)%nat -> (i' < gndim g)%nat -> (j' < gndim g)%nat ->
       (number i j = number i' j' <-> (i = i' /\ j = j') \/ (i = j' /\ j = i'))) /\
    (forall k, (k < n)%nat -> exists i j, (i < gndim g)%nat /\ (j < gndim g)%nat /\ number i j = k).
Proof.
  intros g o unique tower scale v s Hd Ho Hv Hu Hn Hs. destruct (velocity_channels Hd Hv) as (x & Ex & Hx).
  set (offsets := map goff (concat s)). set (keys := unique offsets). set (n := length keys). destruct (Hn n (gndim g) x (proj1 Hx)) as (y & Ey & Sy). destruct (Hu offsets) as (Hin & Hsub & Hinj). fold keys in Hin, Hsub, Hinj.
  (* the number of an entry *)
  set (number := fun i j => length ((fix go (l : list (list Q)) := match l with [] => [] | k :: r => if off_eqb k (offs j (1 # 2) (offs i (1 # 2) o)) then [] else k :: go r end) keys)).
  assert (Hnum : forall i j, (i < gndim g)%nat -> (j < gndim g)%nat -> exists k, nth_error keys (number i j) = Some k /\ off_eq k (offs j (1 # 2) (offs i (1 # 2) o))).
  { intros i j Hi Hj. destruct (Hin (goff (nth j (nth i s []) dga))) as (z & Hz & Ez); [unfold offsets; apply in_map; exact (tensor_entry_in Hs Hi Hj)|].
    assert (Ez' : off_eq z (offs j (1 # 2) (offs i (1 # 2) o))) by (eapply off_eq_trans; [apply off_eq_sym; exact Ez | apply (proj2 (tensor_nth Hs Hi Hj))]).
    unfold number. clearbody keys. clear - Hz Ez'. induction keys as [|k r IH]; [destruct Hz|]. destruct (off_eqb k (offs j (1 # 2) (offs i (1 # 2) o))) eqn:E.
    - exists k. split; [reflexivity | apply off_eqb_iff; exact E].
    - destruct Hz as [->|Hz]; [apply off_eqb_iff in Ez'; congruence|]. destruct (IH Hz) as (k' & A & B). exists k'. split; [exact A | exact B]. }
  assert (Hlt : forall i j, (i < gndim g)%nat -> (j < gndim g)%nat -> (number i j < n)%nat).
  { intros i j Hi Hj. destruct (Hnum i j Hi Hj) as (k & A & _). apply nth_error_Some. congruence. }
  assert (Huniq : forall i j k p, (i < gndim g)%nat -> (j < gndim g)%nat -> nth_error keys p = Some k -> off_eq k (offs j (1 # 2) (offs i (1 # 2) o)) -> p = number i j).
  { intros i j k p Hi Hj A B. destruct (Hnum i j Hi Hj) as (k' & A' & B'). apply (Hinj _ _ _ _ A A'). eapply off_eq_trans; [exact B | apply off_eq_sym; exact B']. }
  set (out := amap (fun t => (scale + / 1000000) * t)%R y). assert (So : shp out = gshape g ++ [n]) by exact Sy.
  destruct (@mapM_F2 _ _ (fun ov => let* d := squeeze_last (snd ov) in Ok (fst ov, d))
     (fun ov kv => fst kv = fst ov /\ shp (snd kv) = gshape g /\ forall ix, get (snd kv) ix = channel (snd ov) 0 ix) (combine keys (split_last n out))) as (dict & Edict & Hdict).
  { intros (k, d) Hkd. cbn [fst snd]. destruct (In_nth_error _ _ (in_combine_r _ _ _ _ Hkd)) as (p & Hp). assert (Hpn : (p < n)%nat).
    { assert (Hne : nth_error (split_last n out) p <> None) by congruence. apply nth_error_Some in Hne. unfold split_last in Hne. rewrite map_length, seq_length in Hne.
      assert (0 < n)%nat by (specialize (Hlt 0%nat 0%nat Hd Hd); lia). lia. }
    destruct (@split_last_nth out g n p So Hpn) as (d' & E & Sd & Vd). rewrite Hp in E. injection E as <-.
    destruct (@squeeze_channel g d Sd) as (q & Eq & Sq & Vq). rewrite Eq. cbn [bind]. eexists; split; [reflexivity|]. cbn [fst snd]. auto. }
  assert (HdF : Forall2 (fun k kv => fst kv = k /\ (shp (snd kv) = gshape g /\ forall p, nth_error keys p = Some k -> forall ix, get (snd kv) ix = channel out p ix)) keys dict).
  { assert (Lc : length (split_last n out) = n).
    { unfold split_last. rewrite map_length, seq_length. specialize (Hlt 0%nat 0%nat Hd Hd). lia. }
    assert (Ld : length dict = n) by (rewrite <- (F2_length Hdict), combine_length, Lc; unfold n; lia).
    apply Forall2_of_nth; [unfold n in Ld; lia|]. intros p k kv Hk Hkv. assert (Hpn : (p < n)%nat) by (apply nth_error_Some; congruence).
    destruct (@split_last_nth out g n p So Hpn) as (d & E & Sd & Vd).
    assert (Hc : nth_error (combine keys (split_last n out)) p = Some (k, d)).
    { rewrite (nth_error_nth' _ ([], mkarr [] (fun _ => 0%R))) by (rewrite combine_length, Lc; unfold n in *; lia). rewrite combine_nth by (rewrite Lc; reflexivity). rewrite (nth_error_nth _ _ _ Hk), (nth_error_nth _ _ _ E). reflexivity. }
    destruct (@F2_nth _ _ _ _ _ p _ _ Hdict Hc Hkv) as (A & B & C). cbn [fst snd] in A, C.
    split; [exact A|]. split; [exact B|]. intros p' Hp' ix. assert (p' = p) by (apply (Hinj _ _ _ _ Hp' Hk); apply off_eq_refl). subst p'. rewrite C. apply Vd. }
  destruct (@tensor_map_in g o (fun s0 => let* d0 := offset_get dict (goff s0) in Ok (mkga d0 (goff s0) (ggrid s0))) (fun i j => offs j (1 # 2) (offs i (1 # 2) o)) s (strain g v)
     (fun i j ix => (scale + / 1000000) * channel y (number i j) ix)%R Hd Hs) as (m & Em & Lm & Pm).
  { intros i j w Hi Hj Hwin (W1 & W2 & W3 & W4).
    destruct (@offset_get_find (arr R) (fun k d => shp d = gshape g /\ forall p, nth_error keys p = Some k -> forall ix, get d ix = channel out p ix) keys dict (goff w) HdF) as (p & k & d & A & _ & B & C & Sd & Vd).
    { apply Hin. unfold offsets. apply in_map. exact Hwin. }
    rewrite C. cbn [bind]. eexists; split; [reflexivity|]. split; [exact W1|]. split; [exact W2|]. split; [exact Sd|]. intros ix Hix. cbn [gdata].
    rewrite (Vd p A ix). rewrite (Huniq i j k p Hi Hj A) by (eapply off_eq_trans; [exact B | exact W2]). reflexivity. }
  exists n, x, y, m, number. split; [exact Hx|]. split; [exact Ey|]. split; [exact Sy|]. split.
  { unfold learned_tensor_viscosity. fold offsets. fold keys. fold n. rewrite Ex. cbn [bind]. rewrite Ey. cbn [bind]. fold out. rewrite Edict. cbn [bind]. exact Em. }
  split; [apply tensor_intro; [exact Lm|]; intros i Hi; split; [apply (Pm i i Hi Hi)|]; intros j Hj; apply (Pm i j Hi Hj)|].
  split; [exact Hlt|]. split.
  - intros i j i' j' Hi Hj Hi' Hj'. rewrite <- (@offs2_inj (gndim g) o i j i' j' Ho Hi Hj Hi' Hj'). destruct (Hnum i j Hi Hj) as (k & A & B). destruct (Hnum i' j' Hi' Hj') as (k' & A' & B'). split.
    + intros E. rewrite E in A. rewrite A' in A. injection A as ->. eapply off_eq_trans; [apply off_eq_sym; exact B | exact B'].
    + intros E. apply (Huniq i' j' k (number i j) Hi' Hj' A). eapply off_eq_trans; [exact B | exact E].
  - intros k Hk. destruct (nth_error keys k) as [q|] eqn:E; [|apply nth_error_None in E; unfold n in Hk; lia].
    pose proof (Hsub q (nth_error_In _ _ E)) as Hq. unfold offsets in Hq. apply in_map_iff in Hq. destruct Hq as (w & Ew & Hwin). destruct (concat_entry _ Hs Hwin) as (i & j & Hi & Hj & (_ & B & _)).
    exists i, j. split; [exact Hi|]. split; [exact Hj|]. symmetry. apply (Huniq i j q k Hi Hj E). rewrite <- Ew. exact B.
Qed.

(** ** examples *)
Fixpoint dedup (l : list (list Q)) : list (list Q) :=
  match l with [] => [] | x :: r => if existsb (fun y => off_eqb x y) (dedup r) then dedup r else x :: dedup r end.
Lemma dedup_distinct : lists_distinct dedup.
Proof.
  intros l. induction l as [|x r (A & B & C)]; [split; [intros ? [] | split; [intros ? [] | intros [|i] j a b H; discriminate]]|]. cbn [dedup].
  destruct (existsb (fun y => off_eqb x y) (dedup r)) eqn:E.
  - apply existsb_exists in E. destruct E as (y & Hy & Exy). apply off_eqb_iff in Exy. split; [|split].
    + intros z [<-|Hz]; [exists y; auto | exact (A z Hz)].
    + intros z Hz. right. exact (B z Hz).
    + exact C.
  - assert (N : forall y, In y (dedup r) -> ~ off_eq x y).
    { intros y Hy Hxy. apply off_eqb_iff in Hxy. assert (existsb (fun z => off_eqb x z) (dedup r) = true) by (apply existsb_exists; exists y; auto). congruence. }
    split; [|split].
    + intros z [<-|Hz]; [exists x; split; [left; reflexivity | apply off_eq_refl] | destruct (A z Hz) as (y & Hy & Ey); exists y; split; [right; exact Hy | exact Ey]].
    + intros z [<-|Hz]; [left; reflexivity | right; exact (B z Hz)].
    + intros [|i] [|j] a b Ha Hb Hab; cbn [nth_error] in Ha, Hb; try reflexivity.
      * injection Ha as <-. exfalso. exact (N b (nth_error_In _ _ Hb) Hab).
      * injection Hb as <-. exfalso. exact (N a (nth_error_In _ _ Ha) (off_eq_sym Hab)).
      * f_equal. exact (C i j a b Ha Hb Hab).
Qed.
(** a network whose output is 2 plus the square of its first input channel, on every output channel *)
Definition square_net (g : grid) (n : nat) (x : arr R) : result (arr R) := Ok (mkarr (gshape g ++ [n]) (fun ix => (2 + get x (removelast ix ++ [0%Z]) ^ 2)%R)).
Lemma square_net_any g : any_network g (square_net g).
Proof. intros n c x _. eexists; split; reflexivity. Qed.
Lemma square_net_pos g : nonnegative_outputs (square_net g).
Proof. intros n x y ix E _. injection E as <-. cbn [get]. pose proof (pow2_ge_0 (get x (removelast ix ++ [0%Z]))). lra. Qed.
Lemma p34_strain : exists s, tensor_at p34g half2 s (strain p34g p34v).
Proof.
  assert (Hd : (0 < gndim p34g)%nat) by (cbn; lia). destruct (@strain_tensor p34g half2 p34v Hd eq_refl) as (s & _ & Hs); [apply p34_pv | apply p34_pv | exists s; exact Hs].
Qed.
(* @ex *)
Lemma learned_scalar_viscosity_spec_ex_lem : exists s, (0 < gndim p34g)%nat /\ length half2 = gndim p34g /\ periodic_vec p34g p34v /\ lists_distinct dedup /\ any_network p34g (square_net p34g) /\ tensor_at p34g half2 s (strain p34g p34v).
Proof. destruct p34_strain as (s & Hs). exists s. split; [cbn; lia|]. split; [reflexivity|]. split; [apply p34_pv|]. split; [exact dedup_distinct|]. split; [apply square_net_any | exact Hs]. Qed.
(* @ex *)
Lemma learned_viscosity_from_gradients_spec_ex_lem : exists s, (0 < gndim p34g)%nat /\ length half2 = gndim p34g /\ periodic_vec p34g p34v /\ lists_distinct dedup /\ any_network p34g (square_net p34g) /\ tensor_at p34g half2 s (strain p34g p34v).
Proof. exact learned_scalar_viscosity_spec_ex_lem. Qed.
(* @ex *)
Lemma learned_tensor_viscosity_spec_ex_lem : exists s, (0 < gndim p34g)%nat /\ length half2 = gndim p34g /\ periodic_vec p34g p34v /\ lists_distinct dedup /\ any_network p34g (square_net p34g) /\ tensor_at p34g half2 s (strain p34g p34v) /\
  length (dedup (map (fun ij => offs (snd ij) (1 # 2) (offs (fst ij) (1 # 2) half2)) [(0%nat, 0%nat); (0%nat, 1%nat); (1%nat, 0%nat); (1%nat, 1%nat)])) = 3%nat.
Proof. destruct learned_scalar_viscosity_spec_ex_lem as (s & A & B & C & D & E & F). exists s. repeat (split; [assumption|]). reflexivity. Qed.
